From Coquelicot Require Import Coquelicot.
From Verif Require Import Arr BinSearchModel SplineModel SplineGlue SplIntModel PolyProofs RootProofs BsplModel SplineSpec BsplSpec.
Local Open Scope R_scope.

Lemma ratio_nz a b : b <> 0 -> ratio a b = a / b. Proof. intros. unfold ratio. destruct (Req_EM_T b 0); [contradiction|reflexivity]. Qed.
Lemma ratio_0 a b : b = 0 -> ratio a b = 0. Proof. intros. unfold ratio. destruct (Req_EM_T b 0); [reflexivity|contradiction]. Qed.

Section Seg.
  Variable x : arr R.
  Hypothesis Hx : increasing x.
  Hypothesis Hn : (2 <= alen x)%Z.
  Lemma knot_le i j : (i <= j)%Z -> knot x i <= knot x j.
  Proof. intros H. apply (inc_le x Hx); lia. Qed.
  Lemma knot_in i : (0 <= i < alen x)%Z -> knot x i = afn x i.
  Proof. intros H. unfold knot. f_equal. lia. Qed.
  Variable m : Z.
  Hypothesis Hm : (0 <= m <= alen x - 2)%Z.
  Lemma knot_m : knot x m < knot x (m + 1)%Z.
  Proof. rewrite !knot_in by lia. apply Hx; lia. Qed.
  Lemma knot_lt i j : (i <= m < j)%Z -> knot x i < knot x j.
  Proof. intros H. pose proof (knot_le i m ltac:(lia)). pose proof (knot_le (m + 1) j ltac:(lia)). pose proof knot_m. lra. Qed.

  (** Cox-de Boor functions restricted to the segment m, extended to all t as polynomials *)
  Fixpoint cox (n : nat) (j : Z) (t : R) : R :=
    match n with
    | O => if (j =? m)%Z then 1 else 0
    | S p => ratio (t - knot x j) (knot x (j + Z.of_nat n)%Z - knot x j) * cox p j t
           + ratio (knot x (j + Z.of_nat n + 1)%Z - t) (knot x (j + Z.of_nat n + 1)%Z - knot x (j + 1)%Z) * cox p (j + 1)%Z t
    end.
  Lemma cox_0 n : forall j t, (j < m - Z.of_nat n \/ m < j)%Z -> cox n j t = 0.
  Proof.
    induction n as [|n IH]; intros j t H; cbn [cox].
    - rewrite (proj2 (Z.eqb_neq j m)) by lia. reflexivity.
    - rewrite !IH by lia. ring.
  Qed.
  (** the recursion without special cases *)
  Lemma cox_S n j t : cox (S n) j t =
    (t - knot x j) / (knot x (j + Z.of_nat n + 1)%Z - knot x j) * cox n j t
    + (knot x (j + Z.of_nat n + 2)%Z - t) / (knot x (j + Z.of_nat n + 2)%Z - knot x (j + 1)%Z) * cox n (j + 1)%Z t.
  Proof.
    cbn [cox]. replace (j + Z.of_nat (S n))%Z with (j + Z.of_nat n + 1)%Z by lia. replace (j + Z.of_nat n + 1 + 1)%Z with (j + Z.of_nat n + 2)%Z by lia.
    f_equal.
    - destruct (Z_lt_le_dec m j); [rewrite cox_0 by lia; ring|]. destruct (Z_lt_le_dec j (m - Z.of_nat n)); [rewrite cox_0 by lia; ring|].
      rewrite ratio_nz; [reflexivity|]. pose proof (knot_lt j (j + Z.of_nat n + 1) ltac:(lia)). lra.
    - destruct (Z_lt_le_dec m (j + 1)); [rewrite cox_0 by lia; ring|]. destruct (Z_lt_le_dec (j + 1) (m - Z.of_nat n)); [rewrite cox_0 by lia; ring|].
      rewrite ratio_nz; [reflexivity|]. pose proof (knot_lt (j + 1) (j + Z.of_nat n + 2) ltac:(lia)). lra.
  Qed.
  Lemma bspline_cox n : forall j t, knot x m <= t -> t < knot x (m + 1)%Z \/ m = (alen x - 2)%Z /\ t = knot x (m + 1)%Z -> bspline x n j t = cox n j t.
  Proof.
    intros j t H1 H2. revert j. induction n as [|n IH]; intros j; cbn [bspline cox]; [|rewrite !IH; reflexivity].
    unfold indicator. destruct (Z.eqb_spec j m) as [->|Nj].
    - rewrite (proj2 (Z.leb_le 0 m)), (proj2 (Z.leb_le m (alen x - 2))) by lia. cbn [andb].
      rewrite (knot_in m) in H1 by lia. rewrite (knot_in (m + 1)) in H2 by lia. destruct (Rle_dec (afn x m) t); [|lra].
      destruct (Rlt_dec t (afn x (m + 1)%Z)); [reflexivity|]. destruct H2 as [H2|[H2 H3]]; [lra|]. rewrite (proj2 (Z.eqb_eq m (alen x - 2))) by lia.
      unfold x_last. replace (alen x - 1)%Z with (m + 1)%Z by lia. destruct (Req_EM_T t (afn x (m + 1)%Z)); [reflexivity|lra].
    - destruct (Z.leb_spec 0 j); [|reflexivity]. destruct (Z.leb_spec j (alen x - 2)); [|reflexivity]. cbn [andb].
      destruct (Rle_dec (afn x j) t) as [L|]; [|reflexivity].
      destruct (Z_lt_le_dec j m) as [J|J].
      + pose proof (inc_le x Hx (j + 1) m ltac:(lia) ltac:(lia) ltac:(lia)). rewrite (knot_in m) in H1 by lia.
        destruct (Rlt_dec t (afn x (j + 1)%Z)); [lra|]. rewrite (proj2 (Z.eqb_neq j (alen x - 2))) by lia. reflexivity.
      + pose proof (inc_le x Hx (m + 1) j ltac:(lia) ltac:(lia) ltac:(lia)). rewrite (knot_in (m + 1)) in H2 by lia. destruct H2 as [H2|[H2 _]]; [lra|lia].
  Qed.
  Lemma cox_nonneg n : forall j t, knot x m <= t <= knot x (m + 1)%Z -> 0 <= cox n j t.
  Proof.
    intros j t H. revert j. induction n as [|n IH]; intros j; [cbn; destruct (_ =? _)%Z; lra|]. rewrite cox_S. apply Rplus_le_le_0_compat.
    - destruct (Z_lt_le_dec m j); [rewrite cox_0 by lia; lra|]. destruct (Z_lt_le_dec j (m - Z.of_nat n)); [rewrite cox_0 by lia; lra|].
      apply Rmult_le_pos; [|apply IH]. pose proof (knot_lt j (j + Z.of_nat n + 1) ltac:(lia)). pose proof (knot_le j m ltac:(lia)).
      apply Rmult_le_pos; [lra|]. left. apply Rinv_0_lt_compat. lra.
    - destruct (Z_lt_le_dec m (j + 1)); [rewrite cox_0 by lia; lra|]. destruct (Z_lt_le_dec (j + 1) (m - Z.of_nat n)); [rewrite cox_0 by lia; lra|].
      apply Rmult_le_pos; [|apply IH]. pose proof (knot_lt (j + 1) (j + Z.of_nat n + 2) ltac:(lia)). pose proof (knot_le (m + 1) (j + Z.of_nat n + 2) ltac:(lia)).
      apply Rmult_le_pos; [lra|]. left. apply Rinv_0_lt_compat. lra.
  Qed.
  Lemma zsum_shift lo hi d f : zsum lo hi (fun k => f (k + d)%Z) = zsum (lo + d) (hi + d) f.
  Proof.
    unfold zsum. replace (hi + d - (lo + d))%Z with (hi - lo)%Z by lia. generalize (Z.to_nat (hi - lo)) as p. intros p. revert lo. induction p as [|p IH]; intros lo; cbn [zsumn]; [reflexivity|].
    rewrite IH. replace (lo + 1 + d)%Z with (lo + d + 1)%Z by lia. reflexivity.
  Qed.
  Lemma cox_sum n t : zsum (m - Z.of_nat n) (m + 1) (fun j => cox n j t) = 1.
  Proof.
    induction n as [|n IH].
    - cbn [Z.of_nat]. rewrite Z.sub_0_r, zsum_one. cbn. rewrite Z.eqb_refl. reflexivity.
    - rewrite (zsum_ext _ _ _ (fun j => (t - knot x j) / (knot x (j + Z.of_nat n + 1)%Z - knot x j) * cox n j t
         + (knot x (j + 1 + Z.of_nat n + 1)%Z - t) / (knot x (j + 1 + Z.of_nat n + 1)%Z - knot x (j + 1)%Z) * cox n (j + 1)%Z t)).
      2:{ intros j _. rewrite cox_S. replace (j + 1 + Z.of_nat n + 1)%Z with (j + Z.of_nat n + 2)%Z by lia. reflexivity. }
      rewrite zsum_plus. rewrite (zsum_shift _ _ 1 (fun j => (knot x (j + Z.of_nat n + 1)%Z - t) / (knot x (j + Z.of_nat n + 1)%Z - knot x j) * cox n j t)).
      rewrite (zsum_extend (m - Z.of_nat n) (m + 1) (m - Z.of_nat (S n)) (m + 1)); try lia.
      2:{ intros k Hk. rewrite cox_0 by lia. ring. }
      rewrite (zsum_extend (m - Z.of_nat n) (m + 1) (m - Z.of_nat (S n) + 1) (m + 1 + 1)); try lia.
      2:{ intros k Hk. rewrite cox_0 by lia. ring. }
      rewrite <- zsum_plus. rewrite <- IH. apply zsum_ext. intros j Hj. pose proof (knot_lt j (j + Z.of_nat n + 1) ltac:(lia)). field. lra.
  Qed.
  (** the derivative *)
  Definition dcox (n : nat) (j : Z) (t : R) : R := INR (S n) *
    (cox n j t / (knot x (j + Z.of_nat n + 1)%Z - knot x j) - cox n (j + 1)%Z t / (knot x (j + Z.of_nat n + 2)%Z - knot x (j + 1)%Z)).
  Lemma cox_derive n : forall j t, is_derive (cox (S n) j) t (dcox n j t).
  Proof.
    induction n as [|n IH]; intros j t.
    - apply (is_derive_ext (fun t => (t - knot x j) / (knot x (j + Z.of_nat 0 + 1)%Z - knot x j) * cox 0 j t
        + (knot x (j + Z.of_nat 0 + 2)%Z - t) / (knot x (j + Z.of_nat 0 + 2)%Z - knot x (j + 1)%Z) * cox 0 (j + 1)%Z t)); [intros u; symmetry; apply cox_S|].
      unfold dcox. change (INR 1) with 1. cbn [cox]. generalize (if (j =? m)%Z then 1 else 0) (if (j + 1 =? m)%Z then 1 else 0). intros c1 c2. change (Z.of_nat 0) with 0%Z. generalize (knot x (j + 0 + 1)%Z) (knot x (j + 0 + 2)%Z) (knot x (j + 1)%Z) (knot x j). intros k1 k2 k3 k4.
      unfold Rdiv. generalize (/ (k1 - k4)) (/ (k2 - k3)). intros u v. auto_derive; [exact Logic.I|]. ring.
    - apply (is_derive_ext (fun t => (t - knot x j) / (knot x (j + Z.of_nat (S n) + 1)%Z - knot x j) * cox (S n) j t
        + (knot x (j + Z.of_nat (S n) + 2)%Z - t) / (knot x (j + Z.of_nat (S n) + 2)%Z - knot x (j + 1)%Z) * cox (S n) (j + 1)%Z t)); [intros u; symmetry; apply cox_S|].
      set (A := knot x (j + Z.of_nat (S n) + 1)%Z - knot x j). set (B := knot x (j + Z.of_nat (S n) + 2)%Z - knot x (j + 1)%Z).
      apply is_derive_Reals.
      replace (dcox (S n) j t) with ((1 / A * cox (S n) j t + (t - knot x j) / A * dcox n j t) +
          ((- 1 / B) * cox (S n) (j + 1)%Z t + (knot x (j + Z.of_nat (S n) + 2)%Z - t) / B * dcox n (j + 1)%Z t)).
      { assert (D1 : derivable_pt_lim (fun u => (u - knot x j) / A) t (1 / A)) by (apply is_derive_Reals; unfold Rdiv; generalize (/ A); intros; auto_derive; try exact Logic.I; ring).
        assert (D2 : derivable_pt_lim (fun u => (knot x (j + Z.of_nat (S n) + 2)%Z - u) / B) t (- 1 / B)) by (apply is_derive_Reals; unfold Rdiv; generalize (/ B); intros; auto_derive; try exact Logic.I; ring).
        exact (derivable_pt_lim_plus _ _ t _ _ (derivable_pt_lim_mult _ _ t _ _ D1 (proj1 (is_derive_Reals _ _ _) (IH j t)))
                 (derivable_pt_lim_mult _ _ t _ _ D2 (proj1 (is_derive_Reals _ _ _) (IH (j + 1)%Z t)))). }
      unfold dcox. fold A B. rewrite !S_INR. set (N := INR n).
      assert (K : (t - knot x j) / A * (cox n j t / (knot x (j + Z.of_nat n + 1)%Z - knot x j) - cox n (j + 1)%Z t / (knot x (j + Z.of_nat n + 2)%Z - knot x (j + 1)%Z))
        + (knot x (j + Z.of_nat (S n) + 2)%Z - t) / B * (cox n (j + 1)%Z t / (knot x (j + 1 + Z.of_nat n + 1)%Z - knot x (j + 1)%Z) - cox n (j + 1 + 1)%Z t / (knot x (j + 1 + Z.of_nat n + 2)%Z - knot x (j + 1 + 1)%Z))
        = cox (S n) j t / A - cox (S n) (j + 1)%Z t / B).
      { rewrite !cox_S. unfold A, B.
        replace (j + Z.of_nat (S n) + 1)%Z with (j + Z.of_nat n + 2)%Z by lia. replace (j + Z.of_nat (S n) + 2)%Z with (j + Z.of_nat n + 3)%Z by lia.
        replace (j + 1 + Z.of_nat n + 1)%Z with (j + Z.of_nat n + 2)%Z by lia. replace (j + 1 + Z.of_nat n + 2)%Z with (j + Z.of_nat n + 3)%Z by lia.
        replace (j + 1 + 1)%Z with (j + 2)%Z by lia.
        assert (H0 : forall k, ((k < m - Z.of_nat n \/ m < k) \/ k <= m <= k + Z.of_nat n)%Z) by (intros; lia).
        (* the three terms separately *)
        assert (T0 : (t - knot x j) / (knot x (j + Z.of_nat n + 2)%Z - knot x j) * (cox n j t / (knot x (j + Z.of_nat n + 1)%Z - knot x j))
                   = (t - knot x j) / (knot x (j + Z.of_nat n + 1)%Z - knot x j) * cox n j t / (knot x (j + Z.of_nat n + 2)%Z - knot x j)).
        { unfold Rdiv. ring. }
        assert (T2 : (knot x (j + Z.of_nat n + 3)%Z - t) / (knot x (j + Z.of_nat n + 3)%Z - knot x (j + 1)%Z) * (cox n (j + 2)%Z t / (knot x (j + Z.of_nat n + 3)%Z - knot x (j + 2)%Z))
                   = (knot x (j + Z.of_nat n + 3)%Z - t) / (knot x (j + Z.of_nat n + 3)%Z - knot x (j + 2)%Z) * cox n (j + 2)%Z t / (knot x (j + Z.of_nat n + 3)%Z - knot x (j + 1)%Z)).
        { unfold Rdiv. ring. }
        assert (T1 : - ((t - knot x j) / (knot x (j + Z.of_nat n + 2)%Z - knot x j) * (cox n (j + 1)%Z t / (knot x (j + Z.of_nat n + 2)%Z - knot x (j + 1)%Z)))
                   + (knot x (j + Z.of_nat n + 3)%Z - t) / (knot x (j + Z.of_nat n + 3)%Z - knot x (j + 1)%Z) * (cox n (j + 1)%Z t / (knot x (j + Z.of_nat n + 2)%Z - knot x (j + 1)%Z))
                   = (knot x (j + Z.of_nat n + 2)%Z - t) / (knot x (j + Z.of_nat n + 2)%Z - knot x (j + 1)%Z) * cox n (j + 1)%Z t / (knot x (j + Z.of_nat n + 2)%Z - knot x j)
                   - (t - knot x (j + 1)%Z) / (knot x (j + Z.of_nat n + 2)%Z - knot x (j + 1)%Z) * cox n (j + 1)%Z t / (knot x (j + Z.of_nat n + 3)%Z - knot x (j + 1)%Z)).
        { destruct (H0 (j + 1)%Z) as [E|E]; [rewrite cox_0 by lia; unfold Rdiv; ring|].
          pose proof (knot_lt (j + 1) (j + Z.of_nat n + 2) ltac:(lia)). pose proof (knot_lt j (j + Z.of_nat n + 2) ltac:(lia)). pose proof (knot_lt (j + 1) (j + Z.of_nat n + 3) ltac:(lia)).
          field. repeat split; lra. }
        lra. }
      apply (f_equal (Rmult (N + 1))) in K. unfold Rdiv in *. lra.
  Qed.
End Seg.
