(** Lemmas on Gauss-Hermite expansions. *)
From Verif Require Import Base GaussHermModel.
From Coq Require Import Reals Lra Lia List Psatz.
From Coquelicot Require Import Coquelicot.
Import ListNotations.
Local Open Scope R_scope.
(** the physicists' Hermite polynomials *)
Fixpoint hermite (n : nat) (x : R) : R :=
  match n with O => 1 | S m => match m with O => 2 * x | S k => 2 * x * hermite m x - 2 * INR m * hermite k x end end.
(** normalized ones *)
Definition hnorm (n : nat) : R := sqrt (2 ^ n * INR (fact n)).
Definition h (n : nat) (x : R) : R := hermite n x / hnorm n.
Lemma hermite_SS : forall n x, hermite (S (S n)) x = 2 * x * hermite (S n) x - 2 * INR (S n) * hermite n x.
Proof. reflexivity. Qed.
Lemma hnorm_pos : forall n, 0 < hnorm n.
Proof. intros. apply sqrt_lt_R0. apply Rmult_lt_0_compat; [apply pow_lt; lra|apply lt_0_INR, lt_O_fact]. Qed.
Lemma hnorm_S : forall n, hnorm (S n) = sqrt 2 * sqrt (INR n + 1) * hnorm n.
Proof.
  intros n. unfold hnorm. pose proof (pos_INR n). rewrite <- !sqrt_mult; try lra.
  - f_equal. change (fact (S n)) with (S n * fact n)%nat. rewrite mult_INR, S_INR. simpl pow. ring.
  - apply Rmult_le_pos; [apply pow_le; lra|apply pos_INR].
Qed.
Lemma sq2 : sqrt 2 * sqrt 2 = 2.
Proof. apply sqrt_sqrt. lra. Qed.
Lemma sqn : forall n, sqrt (INR n + 1) * sqrt (INR n + 1) = INR n + 1.
Proof. intros. apply sqrt_sqrt. pose proof (pos_INR n). lra. Qed.
Lemma sqn_pos : forall n, 0 < sqrt (INR n + 1).
Proof. intros. apply sqrt_lt_R0. pose proof (pos_INR n). lra. Qed.
Lemma sq2_pos : 0 < sqrt 2.
Proof. apply sqrt_lt_R0. lra. Qed.
Lemma h_0 : forall x, h 0 x = 1.
Proof. intros. unfold h, hnorm. simpl. rewrite Rmult_1_r, sqrt_1. field. Qed.
Lemma h_1 : forall x, h 1 x = sqrt 2 * x.
Proof. intros. unfold h, hnorm. simpl. rewrite !Rmult_1_r. pose proof sq2_pos. apply Rmult_eq_reg_r with (sqrt 2); [|lra]. transitivity (2 * x); [field; lra|rewrite <- sq2 at 1; ring]. Qed.
(** sqrt(n+2) h(n+2) = sqrt 2 x h(n+1) - sqrt(n+1) h(n) *)
Lemma h_rec : forall n x, sqrt (INR (S n) + 1) * h (S (S n)) x = sqrt 2 * x * h (S n) x - sqrt (INR n + 1) * h n x.
Proof.
  intros n x. unfold h. rewrite hermite_SS. rewrite (hnorm_S (S n)). pose proof (hnorm_pos n) as Q. pose proof (sqn_pos n) as A. pose proof (sqn_pos (S n)) as B. pose proof sq2_pos as C.
  assert (E : hnorm (S n) = sqrt 2 * sqrt (INR n + 1) * hnorm n) by apply hnorm_S. assert (Q' := hnorm_pos (S n)).
  transitivity ((sqrt 2 * sqrt 2) * x * hermite (S n) x / (sqrt 2 * hnorm (S n)) - (sqrt 2 * sqrt 2) * (sqrt (INR n + 1) * sqrt (INR n + 1)) * hermite n x / (sqrt 2 * hnorm (S n))).
  - rewrite sq2, sqn, S_INR. field. rewrite <- S_INR. repeat split; lra.
  - rewrite E. field. repeat split; lra.
Qed.
Lemma hermLoop_nth : forall k n x i, (i < k)%nat -> nth i (hermLoop k (S n) x (h n x) (h (S n) x) (sqrt (INR n + 1))) 0 = h (S (S n) + i) x.
Proof.
  induction k as [|k IH]; intros n x i Hi; [lia|]. cbn [hermLoop]. cbv zeta.
  assert (E : (sqrt 2 * x * h (S n) x - sqrt (INR n + 1) * h n x) / sqrt (INR (S n) + 1) = h (S (S n)) x).
  { pose proof (sqn_pos (S n)). rewrite <- h_rec. field. lra. }
  rewrite E. destruct i as [|i]; cbn [nth]; [rewrite Nat.add_0_r; reflexivity|]. rewrite IH by lia. f_equal. lia.
Qed.
Lemma hermLoop_length : forall k n x a b c, length (hermLoop k n x a b c) = k.
Proof. induction k as [|k IH]; intros; simpl; [reflexivity|rewrite IH; reflexivity]. Qed.
Lemma hermiteArray_length : forall n x, length (hermiteArray n x) = S n.
Proof. intros [|n] x; simpl; [reflexivity|rewrite hermLoop_length; reflexivity]. Qed.
Lemma hermiteArray_nth : forall n x i, (i <= n)%nat -> nth i (hermiteArray n x) 0 = h i x.
Proof.
  intros [|n] x i Hi; [replace i with 0%nat by lia; simpl; rewrite h_0; reflexivity|]. unfold hermiteArray.
  destruct i as [|[|i]]; [simpl; rewrite h_0; reflexivity|simpl; rewrite h_1; reflexivity|]. cbn [nth].
  pose proof (hermLoop_nth n 0 x i ltac:(lia)) as H. rewrite h_0, h_1 in H. replace (sqrt (INR 0 + 1)) with 1 in H by (simpl; rewrite Rplus_0_l, sqrt_1; reflexivity). rewrite H. reflexivity.
Qed.
Lemma hermiteArray_map : forall n x, hermiteArray n x = map (fun i => h i x) (seq 0 (S n)).
Proof.
  intros n x. apply nth_ext with 0 (h 0 x); [rewrite hermiteArray_length, map_length, seq_length; reflexivity|].
  intros i Hi. rewrite hermiteArray_length in Hi. rewrite hermiteArray_nth by lia. rewrite (map_nth (fun i => h i x)), seq_nth by lia. reflexivity.
Qed.
(** derivatives *)
Lemma hermite_diff : forall n x, is_derive (hermite (S n)) x (2 * INR (S n) * hermite n x) /\ is_derive (hermite n) x (match n with O => 0 | S k => 2 * INR n * hermite k x end).
Proof.
  induction n as [|n IH]; intros x.
  - split; [|exact (is_derive_const 1 x)]. simpl. auto_derive; [exact Logic.I|ring].
  - destruct (IH x) as [A B]. split; [|exact A].
    assert (H : is_derive (fun t => 2 * t * hermite (S n) t - 2 * INR (S n) * hermite n t) x ((2 * hermite (S n) x + 2 * x * (2 * INR (S n) * hermite n x)) - 2 * INR (S n) * (match n with O => 0 | S k => 2 * INR n * hermite k x end))).
    { apply (is_derive_minus (fun t => 2 * t * hermite (S n) t) (fun t => 2 * INR (S n) * hermite n t)).
      - apply (is_derive_mult (fun t => 2 * t) (hermite (S n)) x 2 (2 * INR (S n) * hermite n x)); [auto_derive; [exact Logic.I|ring]|exact A|intros; apply Rmult_comm].
      - apply (is_derive_scal (hermite n) x). exact B. }
    replace (2 * INR (S (S n)) * hermite (S n) x) with ((2 * hermite (S n) x + 2 * x * (2 * INR (S n) * hermite n x)) - 2 * INR (S n) * (match n with O => 0 | S k => 2 * INR n * hermite k x end)); [exact H|].
    destruct n as [|k]; [simpl; ring|]. rewrite (hermite_SS k). rewrite !S_INR. ring.
Qed.
Lemma h_diff : forall n x, is_derive (h (S n)) x (sqrt 2 * sqrt (INR n + 1) * h n x).
Proof.
  intros n x. unfold h. pose proof (hnorm_pos n) as Q. pose proof (sqn_pos n) as A. pose proof sq2_pos as C.
  replace (sqrt 2 * sqrt (INR n + 1) * (hermite n x / hnorm n)) with (2 * INR (S n) * hermite n x * / hnorm (S n)).
  - apply (is_derive_ext (fun t => / hnorm (S n) * hermite (S n) t)); [intros; unfold Rdiv; apply Rmult_comm|]. rewrite Rmult_comm. apply (is_derive_scal (hermite (S n)) x). apply hermite_diff.
  - rewrite hnorm_S, S_INR. replace (2 * (INR n + 1)) with ((sqrt 2 * sqrt 2) * (sqrt (INR n + 1) * sqrt (INR n + 1))) by (rewrite sq2, sqn; reflexivity). field. repeat split; lra.
Qed.
Lemma h_diff0 : forall x, is_derive (h 0) x 0.
Proof. intros. apply (is_derive_ext (fun _ => 1)); [intros; rewrite h_0; reflexivity|exact (is_derive_const 1 x)]. Qed.
Lemma h_ex : forall n x, ex_derive (h n) x.
Proof. intros [|n] x; eexists; [apply h_diff0|apply h_diff]. Qed.
(** ** decay *)
Definition growth (n : nat) (f : R -> R) : Prop := exists C, 0 <= C /\ forall x, Rabs (f x) <= C * (1 + x * x) ^ n.
Definition vanishing (f : R -> R) : Prop := exists C, forall x, Rabs (f x) <= C / (1 + x * x).
Lemma one_le : forall x, 1 <= 1 + x * x.
Proof. intros. pose proof (Rle_0_sqr x). unfold Rsqr in *. lra. Qed.
Lemma growth_mult : forall a b f g, growth a f -> growth b g -> growth (a + b) (fun x => f x * g x).
Proof.
  intros a b f g (C & C0 & HC) (D & D0 & HD). exists (C * D). split; [apply Rmult_le_pos; assumption|]. intros x. rewrite Rabs_mult, pow_add.
  replace (C * D * ((1 + x * x) ^ a * (1 + x * x) ^ b)) with ((C * (1 + x * x) ^ a) * (D * (1 + x * x) ^ b)) by ring. apply Rmult_le_compat; try apply Rabs_pos; auto.
Qed.
Lemma growth_le : forall a b f, (a <= b)%nat -> growth a f -> growth b f.
Proof. intros a b f L (C & C0 & HC). exists C. split; [exact C0|]. intros x. apply Rle_trans with (1 := HC x). apply Rmult_le_compat_l; [exact C0|]. apply Rle_pow; [apply one_le|exact L]. Qed.
Lemma growth_plus : forall a f g, growth a f -> growth a g -> growth a (fun x => f x + g x).
Proof. intros a f g (C & C0 & HC) (D & D0 & HD). exists (C + D). split; [lra|]. intros x. apply Rle_trans with (1 := Rabs_triang _ _). rewrite Rmult_plus_distr_r. apply Rplus_le_compat; auto. Qed.
Lemma growth_scal : forall a c f, growth a f -> growth a (fun x => c * f x).
Proof. intros a c f (C & C0 & HC). exists (Rabs c * C). split; [apply Rmult_le_pos; [apply Rabs_pos|exact C0]|]. intros x. rewrite Rabs_mult, Rmult_assoc. apply Rmult_le_compat_l; [apply Rabs_pos|apply HC]. Qed.
Lemma growth_ext : forall a f g, (forall x, f x = g x) -> growth a f -> growth a g.
Proof. intros a f g E (C & C0 & HC). exists C. split; [exact C0|]. intros x. rewrite <- E. apply HC. Qed.
Lemma growth_x : growth 1 (fun x => x).
Proof. exists 1. split; [lra|]. intros x. rewrite pow_1, Rmult_1_l. unfold Rabs. destruct (Rcase_abs x); nra. Qed.
Lemma h_growth : forall n, growth n (h n) /\ growth (S n) (h (S n)).
Proof.
  induction n as [|n [A B]].
  - split; [exists 1; split; [lra|]; intros x; rewrite h_0, Rabs_R1; simpl; lra|]. apply (growth_ext 1 (fun x => sqrt 2 * x)); [intros; rewrite h_1; reflexivity|]. apply growth_scal, growth_x.
  - split; [exact B|]. pose proof (sqn_pos (S n)) as P.
    apply (growth_ext _ (fun x => (/ sqrt (INR (S n) + 1) * sqrt 2) * (x * h (S n) x) + (- / sqrt (INR (S n) + 1) * sqrt (INR n + 1)) * h n x)).
    { intros x. pose proof (h_rec n x) as E. apply Rmult_eq_reg_l with (sqrt (INR (S n) + 1)); [|lra]. rewrite E. field. lra. }
    apply growth_plus; apply growth_scal; [exact (growth_mult 1 (S n) _ _ growth_x B)|apply growth_le with n; [lia|exact A]].
Qed.
Lemma exp_bound : forall m t, 0 <= t -> (1 + t) ^ m <= exp (INR m * t).
Proof.
  induction m as [|m IH]; intros t Ht; [simpl; rewrite Rmult_0_l, exp_0; lra|]. rewrite S_INR. replace ((INR m + 1) * t) with (t + INR m * t) by ring. rewrite exp_plus. simpl pow.
  apply Rmult_le_compat; [lra|apply pow_le; lra|apply exp_ineq1_le|apply IH; exact Ht].
Qed.
Lemma growth_vanishing : forall n f, growth n f -> vanishing (fun x => f x * exp (- (1 / 2) * (x * x))).
Proof.
  intros n f (C & C0 & HC). set (m := S n). assert (M : 1 <= INR m) by (unfold m; rewrite S_INR; pose proof (pos_INR n); lra). set (k := 2 * INR m).
  exists (C * k ^ m). intros x. assert (X := one_le x). assert (K : 2 <= k) by (unfold k; lra).
  assert (E : (1 + x * x) ^ m <= k ^ m * exp (1 / 2 * (x * x))).
  { apply Rle_trans with (k ^ m * (1 + x * x / k) ^ m).
    - rewrite <- Rpow_mult_distr. apply pow_incr. split; [lra|]. replace (k * (1 + x * x / k)) with (k + x * x) by (field; lra). lra.
    - apply Rmult_le_compat_l; [apply pow_le; lra|]. replace (1 / 2 * (x * x)) with (INR m * (x * x / k)) by (unfold k; field; lra). apply exp_bound. apply Rdiv_le_0_compat; lra. }
  rewrite Rabs_mult, (Rabs_right (exp _)) by (left; apply exp_pos).
  assert (EE : exp (- (1 / 2) * (x * x)) * exp (1 / 2 * (x * x)) = 1) by (rewrite <- exp_plus; replace (- (1 / 2) * (x * x) + 1 / 2 * (x * x)) with 0 by ring; apply exp_0).
  set (e := exp (- (1 / 2) * (x * x))) in *. assert (e0 : 0 < e) by apply exp_pos. set (g := exp (1 / 2 * (x * x))) in *.
  apply Rle_trans with (C * (1 + x * x) ^ n * e); [apply Rmult_le_compat_r; [lra|apply HC]|].
  apply Rmult_le_reg_r with (1 + x * x); [lra|]. replace (C * k ^ m / (1 + x * x) * (1 + x * x)) with (C * (k ^ m * (e * g))) by (rewrite EE; field; lra).
  replace (C * (1 + x * x) ^ n * e * (1 + x * x)) with (C * (e * (1 + x * x) ^ m)) by (unfold m; simpl pow; ring).
  apply Rmult_le_compat_l; [exact C0|]. replace (k ^ m * (e * g)) with (e * (k ^ m * g)) by ring. apply Rmult_le_compat_l; [lra|exact E].
Qed.
Definition tends0 (f : R -> R) : Prop := forall eps, 0 < eps -> exists A, forall x, A < Rabs x -> Rabs (f x) < eps.
Lemma vanishing_tends0 : forall f, vanishing f -> tends0 f.
Proof.
  intros f [C HC] eps He. exists (Rmax 1 (C / eps)). intros x Hx. apply Rle_lt_trans with (1 := HC x). assert (X := one_le x).
  pose proof (Rmax_l 1 (C / eps)). pose proof (Rmax_r 1 (C / eps)). apply Rmult_lt_reg_r with (1 + x * x); [lra|]. replace (C / (1 + x * x) * (1 + x * x)) with C by (field; lra).
  assert (E : C = C / eps * eps) by (field; lra). assert (S1 : Rabs x <= x * x) by (unfold Rabs in *; destruct (Rcase_abs x); nra). nra.
Qed.
Lemma tends0_ext : forall f g, (forall x, f x = g x) -> tends0 f -> tends0 g.
Proof. intros f g E H eps He. destruct (H eps He) as [A HA]. exists A. intros x. rewrite <- E. apply HA. Qed.
Lemma tends0_plus : forall f g, tends0 f -> tends0 g -> tends0 (fun x => f x + g x).
Proof.
  intros f g F G eps He. destruct (F (eps / 2) ltac:(lra)) as [A HA]. destruct (G (eps / 2) ltac:(lra)) as [B HB]. exists (Rmax A B). intros x Hx. pose proof (Rmax_l A B). pose proof (Rmax_r A B).
  apply Rle_lt_trans with (1 := Rabs_triang _ _). specialize (HA x ltac:(lra)). specialize (HB x ltac:(lra)). lra.
Qed.
Lemma tends0_scal : forall c f, tends0 f -> tends0 (fun x => c * f x).
Proof.
  intros c f F eps He. pose proof (Rabs_pos c). destruct (F (eps / (Rabs c + 1)) ltac:(apply Rdiv_lt_0_compat; lra)) as [A HA]. exists A. intros x Hx. specialize (HA x Hx). rewrite Rabs_mult.
  assert (E : eps = eps / (Rabs c + 1) * (Rabs c + 1)) by (field; lra). pose proof (Rabs_pos (f x)). set (d := eps / (Rabs c + 1)) in *. nra.
Qed.
Lemma tends0_0 : tends0 (fun _ => 0).
Proof. intros eps He. exists 0. intros. rewrite Rabs_R0. exact He. Qed.
Lemma tends0_affine : forall c w f, 0 < w -> tends0 f -> tends0 (fun x => f ((x - c) / w)).
Proof.
  intros c w f Hw F eps He. destruct (F eps He) as [A HA]. exists (w * Rmax A 0 + Rabs c). intros x Hx. apply HA. unfold Rdiv. rewrite Rabs_mult, (Rabs_right (/ w)) by (left; apply Rinv_0_lt_compat; exact Hw).
  apply Rmult_lt_reg_r with w; [exact Hw|]. rewrite Rmult_assoc, Rinv_l, Rmult_1_r by lra. pose proof (Rmax_l A 0). pose proof (Rabs_triang_inv x c). nra.
Qed.
(** the integral over the entire real axis *)
Definition integralIs (f : R -> R) (v : R) : Prop :=
  forall eps, 0 < eps -> exists A, forall a b, a < - A -> A < b -> exists u, is_RInt f a b u /\ Rabs (u - v) < eps.
Lemma integral_zero : forall f P, (forall x, is_derive P x (f x)) -> (forall x, continuous f x) -> tends0 P -> integralIs f 0.
Proof.
  intros f P D C T eps He. destruct (T (eps / 2) ltac:(lra)) as [A HA]. exists (Rmax A 0). intros a b Ha Hb. pose proof (Rmax_l A 0). pose proof (Rmax_r A 0). exists (P b - P a). split.
  - apply (is_RInt_derive P f); intros; [apply D|apply C].
  - assert (X := HA a ltac:(rewrite Rabs_left by lra; lra)). assert (Y := HA b ltac:(rewrite Rabs_right by lra; lra)). rewrite Rminus_0_r. apply Rle_lt_trans with (Rabs (P b) + Rabs (P a)); [|lra]. unfold Rminus. rewrite <- (Rabs_Ropp (P a)). apply Rabs_triang.
Qed.
(** ** integrals of single functions *)
Definition gs (y : R) : R := exp (- (1 / 2) * (y * y)).
Lemma gs_diff : forall y, is_derive gs y (- y * gs y).
Proof. intros. unfold gs. auto_derive; [exact Logic.I|]. field. Qed.
Lemma hg_diff : forall n y, is_derive (fun t => h (S n) t * gs t) y ((sqrt (INR n + 1) / sqrt 2 * h n y - sqrt (INR (S n) + 1) / sqrt 2 * h (S (S n)) y) * gs y).
Proof.
  intros n y. pose proof (is_derive_mult (h (S n)) gs y _ _ (h_diff n y) (gs_diff y) Rmult_comm) as D. pose proof sq2_pos as C.
  match type of D with is_derive _ _ ?e => replace ((sqrt (INR n + 1) / sqrt 2 * h n y - sqrt (INR (S n) + 1) / sqrt 2 * h (S (S n)) y) * gs y) with e; [exact D|] end.
  unfold plus, mult; cbn. change (match n with O => 1 | S _ => INR n + 1 end) with (INR (S n)).
  replace (sqrt (INR (S n) + 1) / sqrt 2 * h (S (S n)) y) with ((sqrt (INR (S n) + 1) * h (S (S n)) y) / sqrt 2) by (field; lra). rewrite h_rec.
  replace (sqrt 2) with (2 / sqrt 2) at 1 by (rewrite <- sq2 at 1; field; lra). field. lra.
Qed.
Lemma hg_tends0 : forall n, tends0 (fun t => h n t * gs t).
Proof. intros. apply vanishing_tends0. exact (growth_vanishing n (h n) (proj1 (h_growth n))). Qed.
Lemma dfact_pos : forall n, 0 < dfact n /\ 0 < dfact (S n).
Proof. induction n as [|n [A B]]; [simpl; lra|]. split; [exact B|]. change (dfact (S (S n))) with (INR (S (S n)) * dfact n). apply Rmult_lt_0_compat; [apply lt_0_INR; lia|exact A]. Qed.
Lemma normn_SS : forall n, normn (S (S n)) = sqrt (INR n + 1) / sqrt (INR (S n) + 1) * normn n.
Proof.
  intros n. unfold normn. change (Nat.odd (S (S n))) with (Nat.odd n). destruct (Nat.odd n); [ring|]. change (dfact (S (S n))) with (INR (S (S n)) * dfact n).
  change (fact (S (S n))) with (S (S n) * (S n * fact n))%nat. rewrite !mult_INR. pose proof (pos_INR n). destruct (dfact_pos n) as [D _]. pose proof (sqn_pos (S n)) as A.
  rewrite sqrt_mult; [|apply pos_INR|apply Rmult_le_pos; apply pos_INR]. rewrite sqrt_mult by apply pos_INR.
  replace (INR (S (S n))) with (INR (S n) + 1) by (rewrite (S_INR (S n)); reflexivity). rewrite <- (sqn (S n)) at 2. replace (INR (S n)) with (INR n + 1) at 2 by (rewrite S_INR; reflexivity). field. split; lra.
Qed.
Lemma single_both : forall n, (exists P, tends0 P /\ forall y, is_derive P y ((h n y - normn n) * gs y)) /\ (exists P, tends0 P /\ forall y, is_derive P y ((h (S n) y - normn (S n)) * gs y)).
Proof.
  induction n as [|n [(P & TP & DP) B]].
  - split.
    + exists (fun _ => 0). split; [exact tends0_0|]. intros y. rewrite h_0. replace (normn 0) with 1 by (unfold normn; simpl; rewrite sqrt_1; field). replace ((1 - 1) * gs y) with 0 by ring. exact (is_derive_const 0 y).
    + exists (fun y => - sqrt 2 * (h 0 y * gs y)). split; [apply tends0_scal, hg_tends0|]. intros y. rewrite h_1. replace (normn 1) with 0 by reflexivity.
      replace ((sqrt 2 * y - 0) * gs y) with (- sqrt 2 * (- y * gs y)) by ring. apply (is_derive_scal (fun t => h 0 t * gs t) y). apply (is_derive_ext gs); [intros; rewrite h_0; symmetry; apply Rmult_1_l|apply gs_diff].
  - split; [exact B|]. pose proof (sqn_pos (S n)) as A. pose proof sq2_pos as C.
    exists (fun y => sqrt (INR n + 1) / sqrt (INR (S n) + 1) * P y + (- (sqrt 2 / sqrt (INR (S n) + 1))) * (h (S n) y * gs y)).
    split; [apply tends0_plus; apply tends0_scal; [exact TP|apply hg_tends0]|]. intros y.
    pose proof (is_derive_plus _ _ y _ _ (is_derive_scal P y (sqrt (INR n + 1) / sqrt (INR (S n) + 1)) _ (DP y)) (is_derive_scal _ y (- (sqrt 2 / sqrt (INR (S n) + 1))) _ (hg_diff n y))) as D.
    match type of D with is_derive _ _ ?e => replace ((h (S (S n)) y - normn (S (S n))) * gs y) with e; [exact D|] end.
    rewrite normn_SS. match goal with |- ?l = _ => match l with plus ?a ?b => change l with (a + b)%R end end. set (u := sqrt (INR (S n) + 1)) in *. set (v := sqrt (INR n + 1)).
    match goal with |- ?l = ?r => change (@eq R l r) end. field. split; lra.
Qed.
Lemma single : forall n, exists P, tends0 P /\ forall y, is_derive P y ((h n y - normn n) * gs y).
Proof. intros n. apply single_both. Qed.
