(** Orthogonality of associated Legendre functions, for integrals and for Gaussian quadratures *)
From Coq Require Import Reals Lra Lia Psatz Arith List Bool.
From Coquelicot Require Import Coquelicot.
From Verif Require Import RandReal RootModel Base SphModel SphSpec SphLegendre SphArray SphFourier SphFourier2.
Local Open Scope R_scope.

(* ---------- polynomials ---------- *)
Definition pol (n : nat) (f : R -> R) : Prop := exists c : nat -> R, forall x, f x = bsum (S n) (fun k => c k * x ^ k).
Lemma pol_ext n f g : (forall x, f x = g x) -> pol n f -> pol n g.
Proof. intros E (c & H). exists c. intros x. rewrite <- E. apply H. Qed.
Lemma pol_const n a : pol n (fun _ => a).
Proof.
  exists (fun k => if Nat.eqb k 0 then a else 0). intros x. rewrite (bsum_single _ _ 0%nat); [cbn; ring|lia|].
  intros k _ N. rewrite (proj2 (Nat.eqb_neq k 0)) by exact N. ring.
Qed.
Lemma pol_plus n f g : pol n f -> pol n g -> pol n (fun x => f x + g x).
Proof. intros (c & H) (d & K). exists (fun k => c k + d k). intros x. rewrite H, K, <- bsum_plus. apply bsum_ext. intros. ring. Qed.
Lemma pol_scal n a f : pol n f -> pol n (fun x => a * f x).
Proof. intros (c & H). exists (fun k => a * c k). intros x. rewrite H, <- bsum_scal. apply bsum_ext. intros. ring. Qed.
Lemma pol_mono n n' f : (n <= n')%nat -> pol n f -> pol n' f.
Proof.
  intros L (c & H). exists (fun k => if Nat.leb k n then c k else 0). intros x. rewrite H. replace (S n') with (S n + (n' - n))%nat by lia. rewrite bsum_app.
  rewrite (bsum_zero (n' - n)). 2: { intros k _. rewrite (proj2 (Nat.leb_gt _ _)) by lia. ring. }
  rewrite Rplus_0_r. apply bsum_ext. intros k Hk. rewrite (proj2 (Nat.leb_le _ _)) by lia. reflexivity.
Qed.
Lemma bsum_S_l n f : bsum (S n) f = f 0%nat + bsum n (fun k => f (S k)).
Proof. change (S n) with (1 + n)%nat. rewrite bsum_app. cbn. ring. Qed.
Lemma pol_x n f : pol n f -> pol (S n) (fun x => x * f x).
Proof.
  intros (c & H). exists (fun k => match k with O => 0 | S k' => c k' end). intros x. rewrite H, <- bsum_scal. symmetry. rewrite bsum_S_l. rewrite Rmult_0_l, Rplus_0_l. apply bsum_ext. intros. cbn [pow]. ring.
Qed.
Lemma pol_xn n k f : pol n f -> pol (k + n) (fun x => x ^ k * f x).
Proof.
  intros H. induction k as [|k IH]; [apply (pol_ext _ f); [intros; cbn; ring|exact H]|]. apply (pol_ext _ (fun x => x * (x ^ k * f x))); [intros; cbn [pow]; ring|]. apply pol_x, IH.
Qed.
Lemma pol_sum n p (f : nat -> R -> R) : (forall i, (i < p)%nat -> pol n (f i)) -> pol n (fun x => bsum p (fun i => f i x)).
Proof. induction p as [|p IH]; intros H; cbn [bsum]; [apply pol_const|apply pol_plus; [apply IH; intros; apply H; lia|apply H; lia]]. Qed.
Lemma pol_mult a b f g : pol a f -> pol b g -> pol (a + b) (fun x => f x * g x).
Proof.
  intros F (c & H). apply (pol_ext _ (fun x => bsum (S b) (fun k => c k * (x ^ k * f x)))).
  - intros x. rewrite H, <- bsum_scal. apply bsum_ext. intros. ring.
  - apply pol_sum. intros k Hk. apply pol_scal. apply (pol_mono (k + a)); [lia|]. apply pol_xn, F.
Qed.
Lemma pol_id : pol 1 (fun x => x).
Proof. apply (pol_ext _ (fun x => x * 1)); [intros; ring|]. apply pol_x, pol_const. Qed.
Lemma pol_pow a f n : pol a f -> pol (n * a) (fun x => f x ^ n).
Proof. intros F. induction n as [|n IH]; cbn [pow Nat.mul]; [apply pol_const|apply pol_mult; assumption]. Qed.
Lemma pol_W l : forall n, pol (2 * l - n) (W l n).
Proof.
  induction l as [|l IH]; intros n.
  - destruct n as [|n]; [apply (pol_ext _ (fun _ => 1)); [intros; reflexivity|apply pol_const]|]. apply (pol_ext _ (fun _ => 0)); [|apply pol_const]. intros x. rewrite W_zero by lia. reflexivity.
  - destruct n as [|n].
    + apply (pol_ext _ (fun x => / (2 ^ S l * INR (fact (S l))) * (x * x + -1) ^ S l)); [intros; rewrite W0; replace (x * x + -1) with (x * x - 1) by ring; unfold Rdiv; apply Rmult_comm|]. apply pol_scal. replace (2 * S l - 0)%nat with (S l * 2)%nat by lia. apply pol_pow. apply pol_plus; [|apply pol_const]. apply (pol_mult 1 1); apply pol_id.
    + apply (pol_ext _ (fun x => x * W l n x + INR n * W l (pred n) x)); [intros; rewrite WS; reflexivity|]. destruct (Nat.le_gt_cases n (2 * l)) as [G|G].
      * apply pol_plus; [apply (pol_mono (S (2 * l - n))); [lia|]; apply pol_x, IH|]. destruct n as [|n]; [apply (pol_ext _ (fun _ => 0)); [intros; cbn; ring|apply pol_const]|]. apply pol_scal. cbn [pred]. apply (pol_mono (2 * l - n)); [lia|apply IH].
      * apply pol_plus; [apply (pol_ext _ (fun _ => 0)); [intros; rewrite W_zero by lia; ring|apply pol_const]|]. apply pol_scal. apply (pol_mono (2 * l - pred n)); [lia|apply IH].
Qed.
Lemma pol_Q l m : pol (l - m) (Q l m).
Proof. unfold Q. apply (pol_mono (2 * l - (l + m))); [lia|apply pol_W]. Qed.
Lemma pol_LL l k m : (m <= l)%nat -> (m <= k)%nat -> pol (l + k) (fun x => (1 - x * x) ^ m * (Q l m x * Q k m x)).
Proof.
  intros Hl Hk. apply (pol_mono (m * 2 + ((l - m) + (k - m)))); [lia|]. apply pol_mult; [|apply pol_mult; apply pol_Q]. apply pol_pow. apply (pol_ext _ (fun x => (-1) * (x * x) + 1)); [intros; ring|]. apply pol_plus; [apply pol_scal, (pol_mult 1 1); apply pol_id|apply pol_const].
Qed.

(* ---------- integrals over [-1,1] ---------- *)
Definition I11 (f : R -> R) (v : R) : Prop := is_RInt f (-1) 1 v.
Lemma I_plus f g a b : I11 f a -> I11 g b -> I11 (fun x => f x + g x) (a + b). Proof. intros A B. exact (is_RInt_plus f g (-1) 1 a b A B). Qed.
Lemma I_scal c f a : I11 f a -> I11 (fun x => c * f x) (c * a). Proof. intros A. exact (is_RInt_scal f (-1) 1 c a A). Qed.
Lemma I_ext f g a : (forall x, f x = g x) -> I11 f a -> I11 g a. Proof. intros E A. apply (is_RInt_ext f); [intros; apply E|exact A]. Qed.
Lemma I_val f a b : I11 f a -> a = b -> I11 f b. Proof. intros A <-. exact A. Qed.
Lemma I_uniq f a b : I11 f a -> I11 f b -> a = b.
Proof. intros A B. rewrite <- (is_RInt_unique _ _ _ _ A). apply (is_RInt_unique _ _ _ _ B). Qed.
Lemma I_sum p (f : nat -> R -> R) (v : nat -> R) : (forall i, (i < p)%nat -> I11 (f i) (v i)) -> I11 (fun x => bsum p (fun i => f i x)) (bsum p v).
Proof.
  induction p as [|p IH]; intros H; cbn [bsum]; [|apply I_plus; [apply IH; intros; apply H; lia|apply H; lia]].
  apply (I_val _ ((1 - -1) * 0)); [|ring]. exact (is_RInt_const (-1) 1 0).
Qed.
(** integral of a monomial *)
Definition moment (k : nat) : R := (1 - (-1) ^ S k) / (INR k + 1).
Lemma I_mono k : I11 (fun x => x ^ k) (moment k).
Proof.
  assert (P : INR k + 1 <> 0) by (pose proof (pos_INR k); lra).
  apply (ftc (fun x => / (INR k + 1) * x ^ S k)).
  - intros x. eapply d_eq; [apply d_scal, (d_pow (fun y => y)), d_id|]. cbn [pred]. rewrite S_INR. field. exact P.
  - intros x. apply (cont_der _ (fun x => INR k * 1 * x ^ pred k)). intros; apply (d_pow (fun y => y)), d_id.
  - unfold moment. rewrite pow1. field. exact P.
Qed.
Lemma I_ex n f : pol n f -> exists v, I11 f v.
Proof.
  intros (c & H). exists (bsum (S n) (fun k => c k * moment k)). apply (I_ext (fun x => bsum (S n) (fun k => c k * x ^ k))); [intros; symmetry; apply H|]. apply (I_sum (S n) (fun k x => c k * x ^ k)). intros. apply I_scal, I_mono.
Qed.
(** a quadrature that integrates monomials x^k, k <= d, exactly, does the same for polynomials *)
Definition QS (n : nat) (x w : nat -> R) (f : R -> R) : R := bsum n (fun j => w j * f (x j)).
Lemma gl_pol n x w d f : (forall k, (k <= d)%nat -> QS n x w (fun y => y ^ k) = moment k) -> pol d f -> I11 f (QS n x w f).
Proof.
  intros E (c & H). apply (I_val _ (bsum (S d) (fun k => c k * moment k))).
  - apply (I_ext (fun x => bsum (S d) (fun k => c k * x ^ k))); [intros; symmetry; apply H|]. apply (I_sum (S d) (fun k x => c k * x ^ k)). intros. apply I_scal, I_mono.
  - unfold QS. rewrite (bsum_ext n _ (fun j => bsum (S d) (fun k => c k * (w j * x j ^ k)))). 2: { intros j _. rewrite H, <- bsum_scal. apply bsum_ext. intros. ring. }
    rewrite bsum_swap. apply bsum_ext. intros k Hk. rewrite <- (E k) by lia. unfold QS. rewrite <- bsum_scal. reflexivity.
Qed.
Lemma ftc0 (F f : R -> R) n : pol n f -> (forall x, is_derive F x (f x)) -> F 1 = F (-1) -> I11 f 0.
Proof.
  intros P D E. destruct P as (c & H). apply (ftc F); [exact D| |lra].
  intros x. apply (continuous_ext (fun x => bsum (S n) (fun k => c k * x ^ k))); [intros; symmetry; apply H|]. clear H. generalize (S n). intros p. induction p as [|p IH]; cbn [bsum].
  - apply continuous_const.
  - apply (continuous_plus (fun x => bsum p (fun k => c k * x ^ k)) (fun x => c p * x ^ p)); [exact IH|]. apply (cont_der _ (fun x => c p * (INR p * 1 * x ^ pred p))). intros y. apply d_scal, (d_pow (fun y => y)), d_id.
Qed.

(* ---------- orthogonality ---------- *)
Definition LL (m l k : nat) (x : R) : R := (1 - x * x) ^ m * (Q l m x * Q k m x).
Lemma d_1mx2 x : is_derive (fun x => 1 - x * x) x (- 2 * x).
Proof. apply (d_ext (fun x => 1 + (-1) * (x * x))); [intros; ring|]. eapply d_eq; [apply d_plus; [apply d_const|apply d_scal, d_mult; apply d_id]|]. cbv beta. ring. Qed.
Lemma orth_LL m l k : (m <= l)%nat -> (m <= k)%nat -> l <> k -> I11 (LL m l k) 0.
Proof.
  intros Hl Hk N. set (L := (INR k - INR l) * (INR k + INR l + 1)).
  assert (L0 : L <> 0). { unfold L. pose proof (pos_INR l). pose proof (pos_INR k). apply Rmult_integral_contrapositive. split; [|lra]. intros E. apply N. apply INR_eq. lra. }
  apply (I_val _ (/ L * 0)); [|ring]. apply (I_ext (fun x => / L * (L * LL m l k x))); [intros; field; exact L0|]. apply I_scal.
  apply (ftc0 (fun x => (1 - x * x) ^ S m * (Q l (S m) x * Q k m x + (-1) * (Q l m x * Q k (S m) x))) _ (l + k)).
  - apply pol_scal, pol_LL; assumption.
  - intros x. eapply d_eq; [apply d_mult; [apply d_pow, d_1mx2|apply d_plus; [apply d_mult; apply Q_der|apply d_scal, d_mult; apply Q_der]]|].
    cbn [pred]. unfold LL, L. rewrite S_INR. pose proof (Q_ode l m x) as A. pose proof (Q_ode k m x) as B. cbn [pow].
    apply Rminus_diag_uniq.
    replace (_ - _) with ((1 - x * x) ^ m * (((1 - x * x) * Q l (S (S m)) x - (2 * (INR m + 1) * x * Q l (S m) x - (INR l - INR m) * (INR l + INR m + 1) * Q l m x)) * Q k m x - ((1 - x * x) * Q k (S (S m)) x - (2 * (INR m + 1) * x * Q k (S m) x - (INR k - INR m) * (INR k + INR m + 1) * Q k m x)) * Q l m x)) by ring.
    rewrite A, B. ring.
  - replace (1 - 1 * 1) with 0 by ring. replace (1 - -1 * -1) with 0 by ring. cbn [pow]. ring.
Qed.
(** norms *)
Definition Nlm (l m : nat) : R := 2 / (2 * INR l + 1) * (INR (fact (l + m)) / INR (fact (l - m))).
Lemma I_LL_ext m l k l' k' v : (forall x, Q l m x * Q k m x = Q l' m x * Q k' m x) -> I11 (LL m l k) v -> I11 (LL m l' k') v.
Proof. intros E. apply I_ext. intros x. unfold LL. rewrite E. reflexivity. Qed.
Lemma LL_step m l v : (m <= l)%nat -> I11 (LL m l l) v -> I11 (LL m (S l) (S l)) ((2 * INR l + 1) * (INR l + 1 + INR m) / ((INR l + 1 - INR m) * (2 * INR l + 3)) * v).
Proof.
  intros H A. pose proof (pos_INR l). pose proof (pos_INR m). pose proof (le_INR _ _ H).
  (* X = integral of x Q_l Q_{l+1} *)
  assert (PX : pol (l + S l + 1) (fun x => (1 - x * x) ^ m * (x * (Q l m x * Q (S l) m x)))).
  { apply (pol_ext _ (fun x => ((1 - x * x) ^ m * (Q l m x * Q (S l) m x)) * x)); [intros; ring|]. apply pol_mult; [apply pol_LL; lia|apply pol_id]. }
  destruct (I_ex _ _ PX) as (X & IX).
  (* (l+2-m) Q_{l+2} = (2l+3) x Q_{l+1} - (l+1+m) Q_l, times Q_l *)
  assert (E1 : (2 * INR l + 3) * X = (INR l + 1 + INR m) * v).
  { pose proof (I_plus _ _ _ _ (I_plus _ _ _ _ (I_scal (2 * INR l + 3) _ _ IX) (I_scal (- (INR l + 1 + INR m)) _ _ A)) (I_scal (- (INR l + 2 - INR m)) _ _ (orth_LL m (S (S l)) l ltac:(lia) H ltac:(lia)))) as T.
    assert (Z : I11 (fun _ => 0) ((2 * INR l + 3) * X + - (INR l + 1 + INR m) * v + - (INR l + 2 - INR m) * 0)). { revert T. apply I_ext. intros x. unfold LL. pose proof (Q_rec l m x) as R. transitivity ((1 - x * x) ^ m * Q l m x * (- ((INR l + 2 - INR m) * Q (S (S l)) m x) + ((2 * INR l + 3) * x * Q (S l) m x - (INR l + 1 + INR m) * Q l m x))); [ring|]. rewrite <- R. ring. }
    assert (Z' : I11 (fun _ => 0) 0). { apply (I_val _ ((1 - -1) * 0)); [exact (is_RInt_const (-1) 1 0)|ring]. }
    pose proof (I_uniq _ _ _ Z Z'). lra. }
  (* (l+1-m) Q_{l+1} = (2l+1) x Q_l - (l+m) Q_{l-1}, times Q_{l+1} *)
  apply (I_val _ ((2 * INR l + 1) / (INR l + 1 - INR m) * X)).
  2: { replace X with ((INR l + 1 + INR m) * v / (2 * INR l + 3)) by (rewrite <- E1; field; lra). field. lra. }
  destruct (Nat.eq_dec l m) as [->|N].
  - apply (I_val _ ((2 * INR m + 1) * X)); [|field; lra]. apply (I_ext (fun x => (2 * INR m + 1) * ((1 - x * x) ^ m * (x * (Q m m x * Q (S m) m x))))); [|apply I_scal, IX].
    intros x. unfold LL. rewrite (Q_next m x). ring.
  - destruct l as [|l]; [lia|]. rewrite S_INR in *. pose proof (le_INR m l ltac:(lia)).
    pose proof (I_scal (/ (INR l + 2 - INR m)) _ _ (I_plus _ _ _ _ (I_scal (2 * INR l + 3) _ _ IX) (I_scal (- (INR l + 1 + INR m)) _ _ (orth_LL m l (S (S l)) ltac:(lia) ltac:(lia) ltac:(lia))))) as T.
    apply (I_val _ (/ (INR l + 2 - INR m) * ((2 * INR l + 3) * X + - (INR l + 1 + INR m) * 0))); [|field; lra].
    revert T. apply I_ext. intros x. unfold LL. pose proof (Q_rec l m x) as R. transitivity (/ (INR l + 2 - INR m) * (1 - x * x) ^ m * Q (S (S l)) m x * ((2 * INR l + 3) * x * Q (S l) m x - (INR l + 1 + INR m) * Q l m x)); [ring|]. rewrite <- R. field. lra.
Qed.
Lemma LL_base m : I11 (LL m m m) (Nlm m m).
Proof.
  induction m as [|m IH].
  - apply (I_ext (fun _ => 1)); [intros; unfold LL; rewrite Q_00; cbn; ring|]. apply (I_val _ ((1 - -1) * 1)); [exact (is_RInt_const (-1) 1 1)|]. unfold Nlm. cbn. field.
  - (* T = x (1-x^2)^(m+1), T' = (2m+3)(1-x^2)^(m+1) - 2(m+1)(1-x^2)^m *)
    pose proof (pos_INR m) as Pm.
    set (q := 2 * INR m + 1).
    assert (Q1 : forall x, Q (S m) (S m) x = q * Q m m x) by (intros; apply (Q_mm (S m))).
    assert (C : forall x, Q m m x = Q m m 0) by (intros x; rewrite <- !dfact_Q; reflexivity).
    set (c := Q m m 0) in *.
    assert (T : I11 (fun x => (2 * INR m + 3) * (1 - x * x) ^ S m + - (2 * (INR m + 1)) * (1 - x * x) ^ m) 0).
    { assert (P2 : pol 2 (fun x => 1 - x * x)). { apply (pol_ext _ (fun x => (-1) * (x * x) + 1)); [intros; ring|]. apply pol_plus; [apply pol_scal, (pol_mult 1 1); apply pol_id|apply pol_const]. }
      apply (ftc0 (fun x => x * (1 - x * x) ^ S m) _ (S m * 2)).
      - apply pol_plus; [apply pol_scal, pol_pow, P2|apply pol_scal]. apply (pol_mono (m * 2)); [lia|]. apply pol_pow, P2.
      - intros x. eapply d_eq; [apply d_mult; [apply d_id|apply d_pow, d_1mx2]|]. cbn [pred pow]. rewrite S_INR. ring.
      - replace (1 - 1 * 1) with 0 by ring. replace (1 - -1 * -1) with 0 by ring. cbn [pow]. ring. }
    apply (I_val _ ((/ (2 * INR m + 3) * q * q) * (c * c * 0 + 2 * (INR m + 1) * Nlm m m))).
    + apply (I_ext (fun x => (/ (2 * INR m + 3) * q * q) * (c * c * ((2 * INR m + 3) * (1 - x * x) ^ S m + - (2 * (INR m + 1)) * (1 - x * x) ^ m) + 2 * (INR m + 1) * LL m m m x))).
      * intros x. unfold LL. rewrite !Q1, !C. field. lra.
      * apply I_scal, I_plus; [apply I_scal, T|apply I_scal, IH].
    + unfold Nlm. rewrite !Nat.sub_diag. change (INR (fact 0)) with 1. replace (S m + S m)%nat with (S (S (m + m))) by lia. change (fact (S (S (m + m)))) with (S (S (m + m)) * (S (m + m) * fact (m + m)))%nat. rewrite !mult_INR, !S_INR, plus_INR. unfold q. field. lra.
Qed.
Lemma norm_LL m l : (m <= l)%nat -> I11 (LL m l l) (Nlm l m).
Proof.
  intros H. induction H as [|l H IH]; [apply LL_base|]. eapply I_val; [apply (LL_step m l _ H IH)|]. unfold Nlm.
  replace (S l + m)%nat with (S (l + m)) by lia. replace (S l - m)%nat with (S (l - m)) by lia. change (fact (S (l + m))) with (S (l + m) * fact (l + m))%nat. change (fact (S (l - m))) with (S (l - m) * fact (l - m))%nat.
  rewrite !mult_INR, !S_INR, plus_INR, minus_INR by exact H. pose proof (INR_fact_lt_0 (l - m)). pose proof (pos_INR l). pose proof (pos_INR m). pose proof (le_INR _ _ H). field. lra.
Qed.
Lemma ortho m l k : (m <= l)%nat -> (m <= k)%nat -> I11 (LL m l k) (if Nat.eqb l k then Nlm l m else 0).
Proof. intros Hl Hk. destruct (Nat.eqb_spec l k) as [<-|N]; [apply norm_LL; exact Hl|apply orth_LL; assumption]. Qed.
(** in terms of the harmonics *)
Lemma AA_LL m l k x : -1 <= x <= 1 -> AssocP l m (acos x) * AssocP k m (acos x) = LL m l k x.
Proof.
  intros H. rewrite !AssocP_Q. rewrite cos_acos by exact H. rewrite sin_acos by exact H. unfold LL, Rsqr.
  assert (S2 : sqrt (1 - x * x) ^ m * sqrt (1 - x * x) ^ m = (1 - x * x) ^ m) by (rewrite <- Rpow_mult_distr, sqrt_sqrt by nra; reflexivity).
  assert (M2 : (-1) ^ m * (-1) ^ m = 1) by (rewrite <- Rpow_mult_distr; replace (-1 * -1) with 1 by ring; apply pow1).
  transitivity (((-1) ^ m * (-1) ^ m) * (sqrt (1 - x * x) ^ m * sqrt (1 - x * x) ^ m) * (Q l m x * Q k m x)); [ring|]. rewrite S2, M2. ring.
Qed.
Lemma Norm_N l m : (m <= l)%nat -> Norm l m * Norm l m * Nlm l m = / (2 * PI).
Proof.
  intros H. pose proof PI_RGT_0. pose proof (INR_fact_lt_0 (l - m)). pose proof (INR_fact_lt_0 (l + m)). pose proof (pos_INR l). unfold Norm. rewrite sqrt_sqrt.
  - unfold Nlm. field. lra.
  - apply Rlt_le, Rmult_lt_0_compat; apply Rdiv_lt_0_compat; lra.
Qed.
(** a Gauss-Legendre rule with n nodes: exact for polynomials of degree up to 2n-1 *)
Definition GLrule (n : nat) (x w : nat -> R) : Prop :=
  (forall k, (k <= 2 * n - 1)%nat -> QS n x w (fun y => y ^ k) = moment k) /\
  (forall j, (j < n)%nat -> -1 < x j < 1 /\ x (n - 1 - j)%nat = - x j /\ w (n - 1 - j)%nat = w j).
Lemma quad_YY n x w m l k : GLrule n x w -> (m <= l)%nat -> (m <= k)%nat -> (l + k <= 2 * n - 1)%nat ->
  QS n x w (fun y => Ylm l m (acos y) * Ylm k m (acos y)) = if Nat.eqb l k then / (2 * PI) else 0.
Proof.
  intros (E & B) Hl Hk D. unfold QS. rewrite (bsum_ext n _ (fun j => Norm l m * Norm k m * (w j * LL m l k (x j)))).
  2: { intros j Hj. destruct (B j Hj) as (Bj & _). rewrite <- AA_LL by lra. unfold Ylm. ring. }
  rewrite bsum_scal. assert (G : QS n x w (LL m l k) = if Nat.eqb l k then Nlm l m else 0).
  { apply (I_uniq (LL m l k)); [|apply ortho; assumption]. apply (gl_pol n x w (l + k)); [intros p Hp; apply E; lia|]. apply pol_LL; assumption. }
  unfold QS in G. rewrite G. destruct (Nat.eqb_spec l k) as [<-|N]; [apply Norm_N; exact Hl|ring].
Qed.
