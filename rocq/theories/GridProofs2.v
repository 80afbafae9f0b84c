(** Proofs about grids: the grid with growing steps. *)
From Coq Require Import Reals Lra Lia ZArith List Psatz.
From Flocq Require Import Core.
From Verif Require Import Arr PolyProofs RootModel RootProofs GridModel GridProofs GridSpec SplineSpec.
Local Open Scope R_scope.

Lemma exp_inj1 A : exp A = 1 -> A = 0.
Proof. intros H. apply exp_inv. rewrite exp_0. exact H. Qed.
Lemma spacing_exp r m A : 1 / 10 ^ 8 <= Rabs A -> spacing r (INR m) A = GS m A - r.
Proof.
  intros H. unfold spacing. rewrite Rlt_b_f by lra. assert (N : exp A - 1 <> 0). { intros E. assert (A = 0) by (apply exp_inj1; lra). subst A. rewrite Rabs_R0 in H. lra. }
  rewrite <- GS_formula. field. exact N.
Qed.
Lemma spacing_taylor r m A : Rabs A < 1 / 10 ^ 8 -> spacing r (INR m) A = INR m - r + 1 / 2 * A * INR m * (INR m - 1).
Proof. intros H. unfold spacing. rewrite Rlt_b_t by lra. reflexivity. Qed.
Lemma spacing_le r m A : spacing r (INR m) A <= GS m A - r.
Proof.
  destruct (Rlt_dec (Rabs A) (1 / 10 ^ 8)) as [H|H]; [rewrite spacing_taylor by lra|rewrite spacing_exp by lra; lra].
  pose proof (GS_taylor_lo m A). lra.
Qed.
Lemma spacing_ge r m A : INR m <= 25000 -> GS m A - r - 1 / 100 <= spacing r (INR m) A.
Proof.
  intros Hm. destruct (Rlt_dec (Rabs A) (1 / 10 ^ 8)) as [H|H]; [rewrite spacing_taylor by lra|rewrite spacing_exp by lra; lra].
  pose proof (pos_INR m). pose proof (Rabs_pos A). pose proof (GS_taylor_hi m A ltac:(nra)) as G.
  assert (A ^ 2 <= / 10 ^ 16). { replace (A ^ 2) with (Rabs A * Rabs A) by (rewrite <- Rabs_mult; rewrite Rabs_right by nra; ring). replace (/ 10 ^ 16) with (1 / 10 ^ 8 * (1 / 10 ^ 8)) by field. apply Rmult_le_compat; lra. }
  assert (INR m ^ 3 <= 25000 ^ 3) by (apply pow_incr; lra). assert (0 <= INR m ^ 3) by (apply pow_le; lra). assert (0 <= A ^ 2) by apply pow2_ge_0.
  assert (A ^ 2 * INR m ^ 3 <= / 10 ^ 16 * 25000 ^ 3) by (apply Rmult_le_compat; lra). lra.
Qed.

Lemma pow2_exp n : 2 ^ n <= exp (INR n).
Proof.
  induction n as [|n IH]; [cbn [INR pow]; rewrite exp_0; lra|]. rewrite S_INR, exp_plus. cbn [pow]. pose proof (exp_ge1 1). assert (0 < 2 ^ n) by (apply pow_lt; lra). nra.
Qed.

Section NU.
  (** number of nonzero nodes, ratio of the last to the first *)
  Variables (m : nat) (r : R).
  Hypothesis Hm : (3 <= m)%nat.
  Hypothesis Hr : 1001 / 1000 * INR m <= r.
  Hypothesis Hlim : INR m * (ln r + 3) <= 100000.
  Let lo := ln (1 - 1 / r).
  Let hi := ln r / (INR m - 2).
  Lemma nu_m : 3 <= INR m. Proof. replace 3 with (INR 3) by (cbn; ring). apply le_INR. exact Hm. Qed.
  Lemma nu_r : 3 < r. Proof. pose proof nu_m. lra. Qed.
  Lemma nu_ln : 1 < ln r.
  Proof. pose proof nu_r. rewrite <- (ln_exp 1). apply ln_increasing; [apply exp_pos|]. pose proof exp_le_3. lra. Qed.
  Lemma nu_m2 : INR m <= 25000. Proof. pose proof nu_ln. pose proof nu_m. nra. Qed.
  Lemma nu_lo : - (2 / r) <= lo <= - (1 / r).
  Proof.
    pose proof nu_r. assert (I0 : 0 < 1 / r) by (apply Rdiv_lt_0_compat; lra). assert (I1 : 1 / r < 1 / 3) by (apply Rmult_lt_reg_r with r; [lra|]; field_simplify; lra). unfold lo. split.
    - rewrite <- (ln_exp (- (2 / r))). destruct (Rle_lt_dec (exp (- (2 / r))) (1 - 1 / r)) as [L|L]; [destruct L as [L|L]; [left; apply ln_increasing; [apply exp_pos|exact L]|right; rewrite L; reflexivity]|].
      exfalso. pose proof (exp_ge1 (2 / r)) as G. assert (E : exp (2 / r) * exp (- (2 / r)) = 1) by (rewrite <- exp_plus; replace (2 / r + - (2 / r)) with 0 by ring; apply exp_0).
      replace (2 / r) with (2 * (1 / r)) in * by (field; lra). set (q := 1 / r) in *. assert ((1 + 2 * q) * (1 - q) < 1); [|nra]. pose proof (exp_pos (2 * q)). pose proof (exp_pos (- (2 * q))). nra.
    - rewrite <- (ln_exp (- (1 / r))). pose proof (exp_ge1 (- (1 / r))) as G. assert (P : 0 < 1 - 1 / r) by lra. destruct (Req_dec (1 - 1 / r) (exp (- (1 / r)))) as [-> | N]; [lra|]. left. apply ln_increasing; lra.
  Qed.
  Lemma nu_hi : 0 < hi /\ hi * (INR m - 2) = ln r /\ 1 / 10 ^ 8 < hi.
  Proof.
    pose proof nu_m. pose proof nu_ln. pose proof nu_m2. unfold hi. assert (E : ln r / (INR m - 2) * (INR m - 2) = ln r) by (field; lra). split; [apply Rdiv_lt_0_compat; lra|]. split; [exact E|].
    apply Rmult_lt_reg_r with (INR m - 2); [lra|]. rewrite E. lra.
  Qed.
  Lemma nu_neg : spacing r (INR m) lo < 0.
  Proof.
    pose proof nu_r. pose proof nu_m. pose proof nu_lo as (L1 & L2). assert (I0 : 0 < 1 / r) by (apply Rdiv_lt_0_compat; lra).
    eapply Rle_lt_trans; [apply spacing_le|]. pose proof (GS_neg m lo ltac:(lra)). lra.
  Qed.
  Lemma nu_pos : 0 < spacing r (INR m) hi.
  Proof.
    destruct nu_hi as (H1 & H2 & H3). pose proof nu_r. rewrite spacing_exp by (rewrite Rabs_right; lra). destruct m as [|k] eqn:Em; [lia|]. cbn [GS].
    pose proof (GS_pos k hi). rewrite S_INR in H2. assert (exp (ln r) < exp (hi * INR k)) by (apply exp_increasing; lra). rewrite exp_ln in H4 by lra. lra.
  Qed.
  Definition eps := 1 / 10 ^ 6 * (hi - lo) + DBL_EPSILON * Rmax (Rabs lo) (Rabs hi).
  Lemma nu_eps : 0 <= eps /\ eps * (INR m - 1) <= 3 / 10 ^ 6 * (ln r + 1) /\ eps * (INR m - 1) <= 3 / 10 / INR m.
  Proof.
    pose proof nu_r. pose proof nu_m. pose proof nu_ln. destruct nu_lo as (L1 & L2). destruct nu_hi as (H1' & H2' & H3'). assert (I0 : 0 < 1 / r) by (apply Rdiv_lt_0_compat; lra).
    assert (EP : 0 < DBL_EPSILON < 1 / 10 ^ 8). { unfold DBL_EPSILON. split; [apply Rinv_0_lt_compat, pow_lt; lra|]. unfold Rdiv. rewrite Rmult_1_l. apply Rinv_lt_contravar; lra. }
    assert (M : Rmax (Rabs lo) (Rabs hi) <= hi - lo) by (apply Rmax_lub; [rewrite Rabs_left1|rewrite Rabs_right]; lra). assert (M0 : 0 <= Rmax (Rabs lo) (Rabs hi)) by (pose proof (Rabs_pos lo); pose proof (Rmax_l (Rabs lo) (Rabs hi)); lra).
    assert (E1 : eps <= 101 / 10 ^ 8 * (hi - lo)). { unfold eps. assert (DBL_EPSILON * Rmax (Rabs lo) (Rabs hi) <= 1 / 10 ^ 8 * (hi - lo)) by (apply Rmult_le_compat; lra). lra. }
    assert (E0 : 0 <= eps) by (unfold eps; assert (0 <= DBL_EPSILON * Rmax (Rabs lo) (Rabs hi)) by (apply Rmult_le_pos; lra); lra). split; [exact E0|].
    assert (K1 : hi * (INR m - 1) <= 2 * ln r) by nra. assert (K2 : - lo * (INR m - 1) <= 2). { assert (- lo * (INR m - 1) <= 2 / r * (INR m - 1)) by (apply Rmult_le_compat_r; lra). assert (2 / r * (INR m - 1) <= 2 / r * r) by (apply Rmult_le_compat_l; lra). replace (2 / r * r) with 2 in H3 by (field; lra). lra. }
    assert (E2 : eps * (INR m - 1) <= 3 / 10 ^ 6 * (ln r + 1)). { assert (eps * (INR m - 1) <= 101 / 10 ^ 8 * (hi - lo) * (INR m - 1)) by (apply Rmult_le_compat_r; lra). nra. }
    split; [exact E2|]. eapply Rle_trans; [exact E2|]. apply Rmult_le_reg_r with (INR m); [lra|]. replace (3 / 10 / INR m * INR m) with (3 / 10) by (field; lra). nra.
  Qed.
  (** the point found by the root finder *)
  Variables (A u v : R).
  Hypothesis Hu : spacing r (INR m) u <= 0.
  Hypothesis Hv : 0 <= spacing r (INR m) v.
  Hypothesis HA : u <= A <= v \/ v <= A <= u.
  Hypothesis Hd : Rabs (u - v) <= eps.
  Lemma nu_v : 0 < v /\ r <= INR m * exp (v * (INR m - 1)).
  Proof.
    pose proof nu_m. pose proof (spacing_le r m v) as G. assert (GV : r <= GS m v) by lra. assert (V : 0 < v). { destruct (Rlt_dec 0 v) as [L|L]; [exact L|]. pose proof (GS_neg m v ltac:(lra)). lra. }
    split; [exact V|]. pose proof (GS_last m v ltac:(lra)). lra.
  Qed.
  Lemma nu_near : u <= A + eps /\ A <= u + eps /\ v <= A + eps /\ A <= v + eps.
  Proof. apply Rabs_le_inv in Hd. pose proof nu_eps as (E & _). lra. Qed.
  Lemma nu_Apos : 0 < A.
  Proof.
    destruct nu_v as (V & GV). destruct nu_near as (_ & _ & N & _). destruct nu_eps as (E0 & E1 & E2). pose proof nu_m. pose proof nu_m2. pose proof nu_r. pose proof nu_ln.
    assert (LV : ln r <= ln (INR m) + v * (INR m - 1)). { rewrite <- (ln_exp (v * (INR m - 1))). rewrite <- ln_mult by (lra || apply exp_pos). destruct GV as [GV|GV]; [left; apply ln_increasing; lra|right; rewrite <- GV; reflexivity]. }
    assert (S1 : ln (INR m) <= 17). { rewrite <- (ln_exp 17). pose proof (pow2_exp 17) as T. replace (INR 17) with 17 in T by (cbn; ring). left. apply ln_increasing; lra. }
    assert (S2 : 9 / 10000 <= ln r - ln (INR m)).
    { assert (T : 9 / 10000 <= ln (1001 / 1000)). { rewrite <- (ln_exp (9 / 10000)). left. apply ln_increasing; [apply exp_pos|]. pose proof (exp_le2 (9 / 10000) ltac:(lra)). lra. }
      assert (T2 : ln (1001 / 1000 * INR m) <= ln r) by (destruct Hr as [Hr'|Hr']; [left; apply ln_increasing; lra|right; rewrite Hr'; reflexivity]). rewrite ln_mult in T2 by lra. lra. }
    destruct (Rlt_dec 0 A) as [P|P]; [exact P|exfalso]. assert (v <= eps) by lra. assert (v * (INR m - 1) <= eps * (INR m - 1)) by (apply Rmult_le_compat_r; lra). lra.
  Qed.
  (** the penultimate node is below the last one *)
  Lemma nu_expu : exp (eps * (INR m - 1)) <= 1 + 6 / 10 / INR m.
  Proof.
    destruct nu_eps as (E0 & E1 & E2). pose proof nu_m. assert (P : 0 < / INR m <= 1 / 3). { split; [apply Rinv_0_lt_compat; lra|]. replace (1 / 3) with (/ 3) by lra. apply Rinv_le_contravar; lra. }
    eapply Rle_trans; [apply exp_le, E2|]. unfold Rdiv in *. pose proof (exp_le2 (3 * / 10 * / INR m) ltac:(lra)). nra.
  Qed.
  Lemma nu_below : GS (m - 1) A < r.
  Proof.
    destruct nu_v as (V & GV). destruct nu_near as (N1 & N2 & N3 & N4). destruct nu_eps as (E0 & E1 & E2). pose proof nu_m as M3. pose proof nu_m2. pose proof nu_r. pose proof nu_expu as XU.
    assert (GU : GS m u <= r + 1 / 100) by (pose proof (spacing_ge r m u nu_m2); lra).
    assert (Em : m = S (m - 1)) by lia. assert (Em2 : (m - 1 = S (m - 2))%nat) by lia. assert (I1 : INR (m - 1) = INR m - 1) by (rewrite minus_INR by lia; cbn; ring).
    rewrite Em in GU. cbn [GS] in GU. rewrite I1 in GU.
    assert (B1 : GS (m - 1) A <= exp (eps * (INR m - 1)) * GS (m - 1) u).
    { eapply Rle_trans; [apply (GS_mono (m - 1) A (u + eps)); lra|]. rewrite Em2. eapply Rle_trans; [apply GS_shift; exact E0|]. apply Rmult_le_compat_r; [apply GS_pos|]. apply exp_le. rewrite minus_INR by lia. cbn [INR]. nra. }
    (* the last term *)
    assert (LT : r / INR m <= exp (u * (INR m - 1)) * exp (eps * (INR m - 1))).
    { rewrite <- exp_plus. apply Rle_trans with (exp (v * (INR m - 1))); [apply Rmult_le_reg_r with (INR m); [lra|]; replace (r / INR m * INR m) with r by (field; lra); lra|]. apply exp_le. apply Rabs_le_inv in Hd. nra. }
    set (X := exp (eps * (INR m - 1))) in *. assert (XP : 0 < X) by apply exp_pos.
    assert (B2 : X * GS (m - 1) u <= X * (r + 1 / 100) - r / INR m) by nra.
    assert (Q : 0 < r / INR m) by (apply Rdiv_lt_0_compat; lra). assert (Q1 : 1 <= r / INR m) by (apply Rmult_le_reg_r with (INR m); [lra|]; replace (r / INR m * INR m) with r by (field; lra); lra).
    assert (B3 : X * (r + 1 / 100) <= (1 + 6 / 10 / INR m) * (r + 1 / 100)) by (apply Rmult_le_compat_r; lra).
    replace ((1 + 6 / 10 / INR m) * (r + 1 / 100)) with (r + 1 / 100 + 6 / 10 * (r / INR m) + 6 / 1000 * / INR m) in B3 by (field; lra).
    assert (P : / INR m <= 1 / 3) by (replace (1 / 3) with (/ 3) by lra; apply Rinv_le_contravar; lra). lra.
  Qed.
  Lemma nu_close : Rabs (GS m A - r) <= r / INR m.
  Proof.
    destruct nu_v as (V & GV). destruct nu_near as (N1 & N2 & N3 & N4). destruct nu_eps as (E0 & E1 & E2). pose proof nu_m as M3. pose proof nu_m2. pose proof nu_r. pose proof nu_expu as XU.
    assert (GU : GS m u <= r + 1 / 100) by (pose proof (spacing_ge r m u nu_m2); lra). assert (GVV : r <= GS m v) by (pose proof (spacing_le r m v); lra).
    assert (Em : m = S (m - 1)) by lia. assert (I1 : INR (m - 1) = INR m - 1) by (rewrite minus_INR by lia; cbn; ring).
    assert (B1 : GS m A <= exp (eps * (INR m - 1)) * GS m u). { eapply Rle_trans; [apply (GS_mono m A (u + eps)); lra|]. rewrite Em at 1 3. rewrite <- I1, (Rmult_comm eps). apply GS_shift. exact E0. }
    assert (B2 : GS m v <= exp (eps * (INR m - 1)) * GS m A). { eapply Rle_trans; [apply (GS_mono m v (A + eps)); lra|]. rewrite Em at 1 3. rewrite <- I1, (Rmult_comm eps). apply GS_shift. exact E0. }
    set (X := exp (eps * (INR m - 1))) in *. assert (XP : 0 < X) by apply exp_pos.
    assert (Q1 : 1 <= r / INR m) by (apply Rmult_le_reg_r with (INR m); [lra|]; replace (r / INR m * INR m) with r by (field; lra); lra).
    assert (P : 0 < / INR m <= 1 / 3) by (split; [apply Rinv_0_lt_compat; lra|]; replace (1 / 3) with (/ 3) by lra; apply Rinv_le_contravar; lra). apply Rabs_le. split.
    - assert (r <= (1 + 6 / 10 / INR m) * GS m A) by (pose proof (GS_pos m A); nra). unfold Rdiv in *.
      assert (0 <= (1 + 6 * / 10 * / INR m) * (GS m A - r + r * / INR m)); [|nra]. 
      replace ((1 + 6 * / 10 * / INR m) * (GS m A - r + r * / INR m)) with ((1 + 6 * / 10 * / INR m) * GS m A - r + r * / INR m * (1 - 6 * / 10 + 6 * / 10 * / INR m)) by ring. nra.
    - assert (GS m A <= (1 + 6 / 10 / INR m) * (r + 1 / 100)) by (pose proof (GS_pos m u); nra).
      replace ((1 + 6 / 10 / INR m) * (r + 1 / 100)) with (r + 1 / 100 + 6 / 10 * (r / INR m) + 6 / 1000 * / INR m) in H1 by (field; lra). lra.
  Qed.
End NU.
