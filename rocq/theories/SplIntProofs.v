From Coquelicot Require Import Coquelicot.
From Verif Require Import Arr BinSearchModel SplineModel SplineGlue SplIntModel PolyProofs RootProofs BinSearchSpec PropsSearch SplineSpec SplIntSpec.
Local Open Scope R_scope.

Lemma poly_S n a t : poly (S n) a t = a 0%nat + t * poly n (fun k => a (S k)) t.
Proof.
  unfold poly. rewrite decomp_sum by lia. cbn [Nat.pred]. rewrite scal_sum. f_equal; [cbn; ring|]. apply sum_eq. intros i Hi. cbn. ring.
Qed.
Lemma poly_last n a t : poly (S n) a t = poly n a t + a (S n) * t ^ S n. Proof. reflexivity. Qed.
Lemma poly_ext n a b t : (forall k, (k <= n)%nat -> a k = b k) -> poly n a t = poly n b t.
Proof. intros H. apply sum_eq. intros i Hi. rewrite (H i Hi). reflexivity. Qed.
Lemma poly_pad n m a t : (n <= m)%nat -> poly n a t = poly m (fun k => if (k <=? n)%nat then a k else 0) t.
Proof.
  intros H. induction m as [|m IH].
  - replace n with 0%nat by lia. reflexivity.
  - destruct (Nat.eq_dec n (S m)) as [->|N].
    + apply poly_ext. intros k Hk. rewrite (proj2 (Nat.leb_le k (S m)) Hk). reflexivity.
    + rewrite poly_last, <- IH by lia. rewrite (proj2 (Nat.leb_gt (S m) n)) by lia. ring.
Qed.
Lemma poly_tmul n a t : t * poly n a t = poly (S n) (fun k => match k with O => 0 | S j => a j end) t.
Proof. rewrite poly_S. change (t * poly n a t = 0 + t * poly n a t). ring. Qed.
Lemma poly_add n a b t : poly n a t + poly n b t = poly n (fun k => a k + b k) t.
Proof. unfold poly. rewrite <- plus_sum. apply sum_eq. intros. ring. Qed.
Lemma poly_scal n a c t : c * poly n a t = poly n (fun k => c * a k) t.
Proof. unfold poly. rewrite scal_sum. apply sum_eq. intros. ring. Qed.
Lemma poly_affine n : forall a p q, exists b, forall t, poly n a (p + q * t) = poly n b t.
Proof.
  induction n as [|n IH]; intros a p q.
  - exists a. intros t. unfold poly. cbn. ring.
  - destruct (IH (fun k => a (S k)) p q) as (b & Hb).
    exists (fun k => (match k with O => a 0%nat | S j => q * b j end) + p * (if (k <=? n)%nat then b k else 0)). intros t.
    rewrite <- poly_add. rewrite <- poly_scal. rewrite <- (poly_pad n (S n) b t) by lia. rewrite !poly_S, Hb.
    rewrite <- poly_scal. ring.
Qed.
Lemma poly_pow n m : forall a, exists b, forall t, poly n a t * t ^ m = poly (n + m) b t.
Proof.
  induction m as [|m IH]; intros a.
  - exists a. intros t. rewrite Nat.add_0_r. cbn. ring.
  - destruct (IH a) as (b & Hb). eexists. intros t. rewrite Nat.add_succ_r, <- poly_tmul. instantiate (1 := b). rewrite <- Hb. cbn. ring.
Qed.

(** ---- integrals ---- *)
Lemma RI_plus (f g : R -> R) (a b u v : R) : is_RInt f a b u -> is_RInt g a b v -> is_RInt (fun x => f x + g x) a b (u + v).
Proof. intros A B. exact (is_RInt_plus f g a b u v A B). Qed.
Lemma RI_scal (c : R) (f : R -> R) (a b u : R) : is_RInt f a b u -> is_RInt (fun x => c * f x) a b (c * u).
Proof. intros A. exact (is_RInt_scal f a b c u A). Qed.
Lemma RI_ext (f g : R -> R) (a b u : R) : (forall t, Rmin a b < t < Rmax a b -> f t = g t) -> is_RInt f a b u -> is_RInt g a b u.
Proof. intros E A. exact (is_RInt_ext f g a b u E A). Qed.
Lemma RI_swap (f : R -> R) (a b u : R) : is_RInt f a b u -> is_RInt f b a (- u).
Proof. intros A. exact (is_RInt_swap f b a u A). Qed.
Lemma RI_chasles (f : R -> R) (a b c u v : R) : is_RInt f a b u -> is_RInt f b c v -> is_RInt f a c (u + v).
Proof. intros A B. exact (is_RInt_Chasles f a b c u v A B). Qed.
Lemma RI_point (f : R -> R) a : is_RInt f a a 0. Proof. exact (is_RInt_point f a). Qed.
Lemma RI_val (f : R -> R) (a b u v : R) : is_RInt f a b u -> u = v -> is_RInt f a b v. Proof. intros H <-. exact H. Qed.
Lemma RI_zero (a b : R) : is_RInt (fun _ => 0) a b 0.
Proof. pose proof (is_RInt_const a b 0) as H. eapply RI_val; [exact H|]. unfold scal; cbn; unfold mult; cbn. ring. Qed.
Lemma RI_pow01 k : is_RInt (fun t => t ^ k) 0 1 (1 / INR (k + 1)).
Proof.
  assert (N : INR (k + 1) <> 0) by (apply not_0_INR; lia).
  pose proof (is_RInt_derive (fun t => t ^ (k + 1) / INR (k + 1)) (fun t : R => t ^ k) 0 1) as H.
  eapply RI_val; [apply H|].
  - intros x _. auto_derive; [auto|]. rewrite Nat.add_1_r. cbn [Nat.pred]. rewrite Nat.add_1_r in N. field. exact N.
  - intros x _. apply (ex_derive_continuous (fun t : R => t ^ k)). auto_derive. auto.
  - unfold minus, plus, opp; cbn. rewrite pow1, pow_i by lia. field. exact N.
Qed.
Lemma RI_poly01 n a : is_RInt (poly n a) 0 1 (sum_f_R0 (fun k => a k / INR (k + 1)) n).
Proof.
  induction n as [|n IH].
  - apply (RI_ext (fun t => a 0%nat * t ^ 0)); [reflexivity|]. eapply RI_val; [apply RI_scal, RI_pow01|]. cbn. field.
  - apply (RI_ext (fun t => poly n a t + a (S n) * t ^ S n)); [intros; symmetry; apply poly_last|].
    eapply RI_val; [apply RI_plus; [exact IH|apply RI_scal, RI_pow01]|]. cbn [sum_f_R0]. f_equal. field. apply not_0_INR; lia.
Qed.
(** change of variables *)
Lemma RI_affine (f g : R -> R) u v q : u < v -> (forall t, 0 <= t <= 1 -> f (u + t * (v - u)) = g t) -> is_RInt g 0 1 q -> is_RInt f u v ((v - u) * q).
Proof.
  intros L E H. apply (RI_ext (fun y => (v - u) * (1 / (v - u) * g (1 / (v - u) * y + - u / (v - u))))).
  - intros y Hy. rewrite Rmin_left, Rmax_right in Hy by lra. rewrite <- E.
    + replace (u + (1 / (v - u) * y + - u / (v - u)) * (v - u)) with y by (field; lra). field. lra.
    + split.
      * replace (1 / (v - u) * y + - u / (v - u)) with ((y - u) / (v - u)) by (field; lra). apply Rdiv_le_0_compat; lra.
      * apply Rmult_le_reg_r with (v - u); [lra|]. replace ((1 / (v - u) * y + - u / (v - u)) * (v - u)) with (y - u) by (field; lra). lra.
  - apply RI_scal. pose proof (is_RInt_comp_lin g (1 / (v - u)) (- u / (v - u)) u v q) as C.
    replace (1 / (v - u) * u + - u / (v - u)) with 0 in C by (field; lra). replace (1 / (v - u) * v + - u / (v - u)) with 1 in C by (field; lra).
    exact (C H).
Qed.

(** ---- the range of segments ---- *)
Section Grid.
  Variable x : arr R.
  Notation n := (alen x).
  Hypothesis Hx : increasing x.
  Hypothesis Hn : (2 <= n)%Z.
  Lemma bin_strict t : x_first x <= t <= x_last x -> exists k, binSearchR t (alist x) = Ok k /\ (0 <= k <= n - 2)%Z /\ afn x k <= t <= afn x (k + 1)%Z /\ (t < afn x (k + 1)%Z \/ k = (n - 2)%Z).
  Proof.
    intros Ht. unfold x_first, x_last in Ht.
    assert (Sx : sorted Rle (alist x)).
    { intros i j a b Ha Hb Hij. apply alist_nth_inv in Ha, Hb; try lia. destruct Ha as [? ->], Hb as [? ->]. apply inc_le; try assumption; lia. }
    destruct (C05_binSearch_real t (alist x) Sx) as (k & E & B).
    { intros a0 aN L Ha Hb. rewrite alist_len in *. change 0%nat with (Z.to_nat 0) in Ha. rewrite alist_nth in Ha by lia.
      replace (Z.to_nat n - 1)%nat with (Z.to_nat (n - 1)) in Hb by lia. rewrite alist_nth in Hb by lia.
      injection Ha as <-. injection Hb as <-. apply inc_lt; try assumption; lia. }
    exists k. split; [exact E|]. unfold bin_spec, zlen in B. rewrite alist_len in B.
    destruct B as [[B _]|(a0 & aN & Ha & Hb & B)].
    { apply (f_equal (@length R)) in B. rewrite alist_len in B. cbn in B. lia. }
    change 0%nat with (Z.to_nat 0) in Ha. rewrite alist_nth in Ha by lia.
    replace (Z.to_nat n - 1)%nat with (Z.to_nat (n - 1)) in Hb by lia. rewrite alist_nth in Hb by lia.
    injection Ha as <-. injection Hb as <-. unfold BinSearchSpec.lt in B.
    destruct B as [(B & ->)|[(B & ->)|[(B1 & B2 & B3 & ->)|(B1 & B2 & B3 & ak & ak1 & E1 & E2 & L1 & L2 & L3)]]]; try lia; try lra.
    rewrite alist_nth in E1 by lia. replace (Z.to_nat k + 1)%nat with (Z.to_nat (k + 1)) in E2 by lia. rewrite alist_nth in E2 by lia.
    injection E1 as <-. injection E2 as <-. split; [lia|]. split; [lra|]. destruct L3 as [L3|L3]; [left; lra|right; lia].
  Qed.
  Lemma segRange_ok x1 x2 : x_first x <= x1 -> x1 < x2 -> x2 <= x_last x ->
    exists i1 i2, segRange x x1 x2 = Ok (i1, i2) /\ (0 <= i1 < i2)%Z /\ (i2 < n)%Z /\ afn x i1 <= x1 < afn x (i1 + 1)%Z /\ afn x (i2 - 1)%Z < x2 <= afn x i2.
  Proof.
    intros A B C. destruct (bin_strict x1 ltac:(lra)) as (k & E & K & P & Q). destruct (bin_strict x2 ltac:(lra)) as (l & E' & L & P' & Q').
    unfold segRange. rewrite E, E'. cbn [bind]. rewrite aget_ok by lia. cbn [bind]. replace (l + 1 - 1)%Z with l by lia.
    assert (S1 : x1 < afn x (k + 1)%Z).
    { destruct Q as [Q| ->]; [exact Q|]. unfold x_last in C. replace (n - 2 + 1)%Z with (n - 1)%Z by lia. lra. }
    assert (KL : forall j, (0 <= j < n)%Z -> x2 <= afn x j -> (k < j)%Z).
    { intros j Hj H. destruct (Z_lt_le_dec k j) as [?|G]; [assumption|]. pose proof (inc_le x Hx j k ltac:(lia) G ltac:(lia)). lra. }
    unfold Req_b. destruct (Req_EM_T x2 (afn x l)) as [Ee|Ee].
    - pose proof (KL l ltac:(lia) ltac:(lra)). exists k, l. replace (l + 1 - 1)%Z with l by lia.
      rewrite (proj2 (Z.leb_le 0 k)), (proj2 (Z.ltb_lt k l)), (proj2 (Z.ltb_lt l n)) by lia. cbn [andb].
      pose proof (inc_lt x Hx (l - 1) l ltac:(lia) ltac:(lia) ltac:(lia)). repeat split; try lia; lra.
    - pose proof (KL (l + 1)%Z ltac:(lia) ltac:(lra)). exists k, (l + 1)%Z.
      rewrite (proj2 (Z.leb_le 0 k)), (proj2 (Z.ltb_lt k (l + 1))), (proj2 (Z.ltb_lt (l + 1) n)) by lia. cbn [andb].
      replace (l + 1 - 1)%Z with l by lia. repeat split; try lia; lra.
  Qed.
  (** the partition of [x1,x2] by the grid *)
  Definition pt (x1 x2 : R) (i : Z) : R := Rmax x1 (Rmin x2 (afn x i)).
  Section Part.
    Variables (x1 x2 : R) (i1 i2 : Z).
    Hypothesis H12 : x1 < x2.
    Hypothesis Hi1 : (0 <= i1 < i2)%Z.
    Hypothesis Hi2 : (i2 < n)%Z.
    Hypothesis P1 : afn x i1 <= x1 < afn x (i1 + 1)%Z.
    Hypothesis P2 : afn x (i2 - 1)%Z < x2 <= afn x i2.
    Lemma pt_in i : (i1 < i < i2)%Z -> pt x1 x2 i = afn x i /\ x1 < afn x i < x2.
    Proof.
      intros H. pose proof (inc_le x Hx (i1 + 1) i ltac:(lia) ltac:(lia) ltac:(lia)). pose proof (inc_le x Hx i (i2 - 1) ltac:(lia) ltac:(lia) ltac:(lia)).
      unfold pt. rewrite Rmin_right, Rmax_right by lra. lra.
    Qed.
    Lemma pt_first : pt x1 x2 i1 = x1.
    Proof. unfold pt. rewrite Rmin_right, Rmax_left by lra. reflexivity. Qed.
    Lemma pt_last : pt x1 x2 i2 = x2.
    Proof. unfold pt. rewrite Rmin_left, Rmax_right by lra. reflexivity. Qed.
    Lemma pt_cases i : (i1 <= i <= i2)%Z -> i = i1 \/ (i1 < i < i2)%Z \/ i = i2. Proof. lia. Qed.
    Lemma seg_pts i : (i1 <= i < i2)%Z -> Rmax (afn x i) x1 = pt x1 x2 i /\ Rmin (afn x (i + 1)%Z) x2 = pt x1 x2 (i + 1) /\
      pt x1 x2 i < pt x1 x2 (i + 1) /\ afn x i <= pt x1 x2 i /\ pt x1 x2 (i + 1) <= afn x (i + 1)%Z.
    Proof.
      intros H. pose proof (inc_lt x Hx i (i + 1) ltac:(lia) ltac:(lia) ltac:(lia)) as L.
      assert (A : Rmax (afn x i) x1 = pt x1 x2 i /\ afn x i <= pt x1 x2 i /\ pt x1 x2 i < x2).
      { destruct (Z.eq_dec i i1) as [->|N].
        - rewrite pt_first. split; [apply Rmax_right; lra|lra].
        - destruct (pt_in i ltac:(lia)) as [-> ?]. split; [apply Rmax_left; lra|lra]. }
      assert (B : Rmin (afn x (i + 1)%Z) x2 = pt x1 x2 (i + 1) /\ pt x1 x2 (i + 1) <= afn x (i + 1)%Z).
      { destruct (Z.eq_dec (i + 1) i2) as [->|N].
        - rewrite pt_last. split; [apply Rmin_right; lra|lra].
        - destruct (pt_in (i + 1)%Z ltac:(lia)) as [-> ?]. split; [apply Rmin_left; lra|lra]. }
      destruct A as (A1 & A2 & A3), B as (B1 & B2). repeat split; try assumption.
      rewrite <- B1. unfold Rmin. destruct (Rle_dec (afn x (i + 1)%Z) x2); [|exact A3]. rewrite <- A1. unfold Rmax. destruct (Rle_dec (afn x i) x1); [|lra].
      destruct (Z.eq_dec i i1) as [->|N]; [lra|]. destruct (pt_in i ltac:(lia)). lra.
    Qed.
    Lemma parts_RInt (f : R -> R) (J : Z -> R) : (forall i, (i1 <= i < i2)%Z -> is_RInt f (pt x1 x2 i) (pt x1 x2 (i + 1)) (J i)) -> is_RInt f x1 x2 (zsum i1 i2 J).
    Proof.
      intros H. assert (G : forall m, (0 <= m)%Z -> (i1 + m <= i2)%Z -> is_RInt f x1 (pt x1 x2 (i1 + m)) (zsum i1 (i1 + m) J)).
      { intros m Hm. pattern m. apply natlike_ind; [| |exact Hm].
        - intros _. rewrite Z.add_0_r, pt_first, zsum_nil by lia. apply RI_point.
        - intros k Hk IH L. replace (i1 + Z.succ k)%Z with (i1 + k + 1)%Z by lia. rewrite zsum_last by lia. eapply RI_chasles; [apply IH; lia|apply H; lia]. }
      specialize (G (i2 - i1)%Z ltac:(lia) ltac:(lia)). replace (i1 + (i2 - i1))%Z with i2 in G by lia. rewrite pt_last in G. exact G.
    Qed.
  End Part.
  (** integral of the function set to zero outside of the grid *)
  Lemma cut_RInt (F : R -> R) (g : R -> R) a b I : a <= b ->
    (Rmax a (x_first x) < Rmin b (x_last x) -> is_RInt (fun t => F t * g t) (Rmax a (x_first x)) (Rmin b (x_last x)) I) ->
    (Rmin b (x_last x) <= Rmax a (x_first x) -> I = 0) ->
    is_RInt (fun t => cut x F t * g t) a b I.
  Proof.
    intros L A B. pose proof (inc_lt x Hx 0 (n - 1) ltac:(lia) ltac:(lia) ltac:(lia)) as W. fold (x_first x) in W. fold (x_last x) in W.
    assert (Z0 : forall p q, p <= q -> q <= x_first x \/ x_last x <= p -> is_RInt (fun t => cut x F t * g t) p q 0).
    { intros p q Hpq D. apply (RI_ext (fun _ => 0)); [|apply RI_zero]. intros t Ht. rewrite Rmin_left, Rmax_right in Ht by lra. unfold cut.
      destruct (Rle_dec (x_first x) t); [destruct (Rle_dec t (x_last x))|]; lra. }
    destruct (Rle_lt_dec (Rmin b (x_last x)) (Rmax a (x_first x))) as [D|D].
    - rewrite (B D). unfold Rmin, Rmax in D. destruct (Rle_dec b (x_last x)), (Rle_dec a (x_first x)); try lra.
      + apply Z0; lra.
      + replace b with a by lra. apply RI_point.
      + apply Z0; lra.
    - specialize (A D). set (lo := Rmax a (x_first x)) in *. set (hi := Rmin b (x_last x)) in *.
      assert (La : a <= lo /\ x_first x <= lo) by (split; [apply Rmax_l|apply Rmax_r]).
      assert (Lb : hi <= b /\ hi <= x_last x) by (split; [apply Rmin_l|apply Rmin_r]).
      replace I with (0 + (I + 0)) by ring. eapply RI_chasles; [|eapply RI_chasles; [|]].
      + instantiate (1 := lo). unfold lo, Rmax. destruct (Rle_dec a (x_first x)); [apply Z0; lra|apply RI_point].
      + instantiate (1 := hi). eapply RI_ext; [|exact A]. intros t Ht. cbn beta. rewrite Rmin_left, Rmax_right in Ht by lra. f_equal. unfold cut.
        destruct (Rle_dec (x_first x) t); [destruct (Rle_dec t (x_last x))|]; lra.
      + unfold hi, Rmin. destruct (Rle_dec b (x_last x)); [apply RI_point|apply Z0; lra].
  Qed.
End Grid.
