(** Conversion of the 64-bit integers to floating point numbers (math_random.cpp:17, 119-133). *)
From Verif Require Import FloatBase.
Require Import Flocq.Prop.Mult_error.

(** math_random.cpp:17 TWOMINUS64 *)
Definition TWOMINUS64 : double := fdiv (fofZ 1) (fofZ 18446744073709551616).
(** math_random.cpp:128,131: uint64_t is converted to double (round to nearest), then multiplied *)
Definition toUnit (raw : Z) : double := fmul (fofZ raw) TWOMINUS64.

Local Open Scope R_scope.
Lemma fofZ_rnd n : (Z.abs n <= 2 ^ 64)%Z -> B2R (fofZ n) = rnd (IZR n) /\ is_finite (fofZ n) = true.
Proof.
  intros H. unfold fofZ. pose proof (binary_normalize_correct fprec femax _ _ mode_NE n 0 false) as C. cbv zeta in C.
  replace (F2R _) with (IZR n) in C by (unfold F2R; cbn; lra). cbn [round_mode] in C.
  rewrite Rlt_bool_true in C; [tauto|]. apply Rle_lt_trans with (bpow radix2 64).
  - apply abs_round_le_generic; try typeclasses eauto. { apply generic_format_bpow. vm_compute. discriminate. }
    rewrite <- abs_IZR. change (bpow radix2 64) with (IZR (2 ^ 64)). apply IZR_le. exact H.
  - apply bpow_lt. reflexivity.
Qed.
Lemma two64 : B2R TWOMINUS64 = bpow radix2 (-64) /\ is_finite TWOMINUS64 = true.
Proof.
  destruct (fofZ_rnd 18446744073709551616 ltac:(vm_compute; discriminate)) as [E F]. destruct (fofZ_correct 1 ltac:(vm_compute; discriminate)) as [E1 F1].
  assert (E2 : B2R (fofZ 18446744073709551616) = bpow radix2 64).
  { rewrite E. apply rnd_fmt. change (IZR 18446744073709551616) with (bpow radix2 64). apply generic_format_bpow. vm_compute. discriminate. }
  assert (Q : B2R (fofZ 1) / B2R (fofZ 18446744073709551616) = bpow radix2 (-64)). { rewrite E1, E2, (bpow_opp radix2 64 : bpow radix2 (-64) = _). lra. }
  assert (G : rnd (bpow radix2 (-64)) = bpow radix2 (-64)) by (apply rnd_fmt, generic_format_bpow; vm_compute; discriminate).
  pose proof (fdiv_correct (fofZ 1) (fofZ 18446744073709551616) F1) as D. rewrite Q, G in D. apply D.
  - rewrite E2. apply Rgt_not_eq, bpow_gt_0.
  - rewrite Rabs_pos_eq by apply bpow_ge_0. apply bpow_lt. reflexivity.
Qed.
Lemma rnd_scaled x : (0 <= IZR x <= bpow radix2 64) -> generic_format radix2 fexp (rnd (IZR x) * bpow radix2 (-64)).
Proof.
  intros H. destruct (Z.eq_dec x 0) as [->|N].
  - rewrite rnd_0, Rmult_0_l. apply generic_format_0.
  - apply mult_bpow_exact_FLT with (e := (-64)%Z). { apply generic_format_round; typeclasses eauto. }
    assert (1 <= rnd (IZR x)). { assert (X1 : IZR 1 <= IZR x). { apply IZR_le. destruct H as [H _]. apply le_IZR in H. lia. }
      apply rnd_le in X1. rewrite (rnd_fmt (IZR 1) (fmt_IZR 1 ltac:(vm_compute; discriminate))) in X1. exact X1. }
    assert (M : (0 < mag radix2 (rnd (IZR x)))%Z). { apply mag_gt_bpow. change (bpow radix2 0) with 1. rewrite Rabs_pos_eq by lra. exact H0. }
    unfold SpecFloat.emin. lia.
Qed.
Lemma toUnit_eq x : (0 <= x <= 2 ^ 64)%Z -> B2R (toUnit x) = rnd (IZR x) * bpow radix2 (-64) /\ is_finite (toUnit x) = true.
Proof.
  intros H. destruct (fofZ_rnd x ltac:(lia)) as [E F]. destruct two64 as [E2 F2].
  assert (Hx : 0 <= IZR x <= bpow radix2 64). { change (bpow radix2 64) with (IZR (2 ^ 64)). split; apply IZR_le; lia. }
  assert (G : 0 <= rnd (IZR x) <= bpow radix2 64).
  { split; [rewrite <- rnd_0; apply rnd_le; lra|]. rewrite <- (rnd_fmt (bpow radix2 64)) by (apply generic_format_bpow; vm_compute; discriminate). apply rnd_le. lra. }
  pose proof (fmul_correct (fofZ x) TWOMINUS64 F F2) as D. rewrite E, E2, (rnd_fmt _ (rnd_scaled x Hx)) in D. apply D.
  rewrite Rabs_pos_eq by (apply Rmult_le_pos; [apply G|apply bpow_ge_0]). apply Rle_lt_trans with (bpow radix2 64 * bpow radix2 (-64)).
  - apply Rmult_le_compat_r; [apply bpow_ge_0|apply G].
  - rewrite <- bpow_plus. apply bpow_lt. reflexivity.
Qed.
Lemma rnd_hi : rnd (IZR 18446744073709550592) = bpow radix2 64.
Proof.
  destruct (fofZ_rnd 18446744073709550592 ltac:(vm_compute; discriminate)) as [E _]. rewrite <- E.
  replace (fofZ 18446744073709550592) with (fofZ 18446744073709551616). 2: { apply B2SF_inj. vm_compute. reflexivity. }
  destruct (fofZ_rnd 18446744073709551616 ltac:(vm_compute; discriminate)) as [E2 _]. rewrite E2. apply rnd_fmt.
  change (IZR 18446744073709551616) with (bpow radix2 64). apply generic_format_bpow. vm_compute. discriminate.
Qed.
Lemma rnd_lo : rnd (IZR 18446744073709550591) = IZR 18446744073709549568.
Proof.
  destruct (fofZ_rnd 18446744073709550591 ltac:(vm_compute; discriminate)) as [E _]. rewrite <- E.
  set (f := fofZ 18446744073709550591).
  assert (F : B2SF f = SpecFloat.S754_finite false 9007199254740991 11) by (vm_compute; reflexivity).
  destruct f as [s|s| |s m e p]; cbn in F; try discriminate. injection F as -> -> ->. cbn [B2R cond_Zopp]. unfold F2R. cbn [Fnum Fexp].
  change (bpow radix2 11) with (IZR 2048). rewrite <- mult_IZR. reflexivity.
Qed.
Lemma toUnit_one x : (0 <= x < 2 ^ 64)%Z -> (B2R (toUnit x) = 1 <-> (2 ^ 64 - 1024 <= x)%Z).
Proof.
  intros H. destruct (toUnit_eq x ltac:(lia)) as [E _]. rewrite E. assert (B : bpow radix2 64 * bpow radix2 (-64) = 1) by (rewrite <- bpow_plus; reflexivity).
  pose proof (bpow_gt_0 radix2 (-64)) as P. split.
  - intros C. destruct (Z.le_gt_cases (2 ^ 64 - 1024) x) as [L|L]; [exact L|exfalso].
    assert (X : rnd (IZR x) <= IZR 18446744073709549568). { rewrite <- rnd_lo. apply rnd_le, IZR_le. lia. }
    assert (Y : IZR 18446744073709549568 < bpow radix2 64). { change (bpow radix2 64) with (IZR 18446744073709551616). apply IZR_lt. reflexivity. }
    assert (rnd (IZR x) * bpow radix2 (-64) < bpow radix2 64 * bpow radix2 (-64)) by (apply Rmult_lt_compat_r; lra). lra.
  - intros L. rewrite <- B. f_equal. apply Rle_antisym.
    + rewrite <- (rnd_fmt (bpow radix2 64)) by (apply generic_format_bpow; vm_compute; discriminate). apply rnd_le. change (bpow radix2 64) with (IZR (2 ^ 64)). apply IZR_le. lia.
    + rewrite <- rnd_hi. apply rnd_le, IZR_le. lia.
Qed.
Lemma toUnit_range x : (0 <= x < 2 ^ 64)%Z -> is_finite (toUnit x) = true /\ 0 <= B2R (toUnit x) <= 1 /\ Rabs (B2R (toUnit x) - IZR x / IZR (2 ^ 64)) <= bpow radix2 (-53) * (IZR x / IZR (2 ^ 64)).
Proof.
  intros H. destruct (toUnit_eq x ltac:(lia)) as [E F]. split; [exact F|]. assert (B : bpow radix2 64 * bpow radix2 (-64) = 1) by (rewrite <- bpow_plus; reflexivity).
  pose proof (bpow_gt_0 radix2 (-64)) as P.
  assert (G : 0 <= rnd (IZR x) <= bpow radix2 64).
  { split; [rewrite <- rnd_0; apply rnd_le; apply IZR_le; lia|]. rewrite <- (rnd_fmt (bpow radix2 64)) by (apply generic_format_bpow; vm_compute; discriminate). apply rnd_le.
    change (bpow radix2 64) with (IZR (2 ^ 64)). apply IZR_le. lia. }
  split.
  - rewrite E. split; [apply Rmult_le_pos; lra|]. rewrite <- B. apply Rmult_le_compat_r; lra.
  - assert (Q : IZR x / IZR (2 ^ 64) = IZR x * bpow radix2 (-64)). { change (IZR (2 ^ 64)) with (bpow radix2 64). rewrite (bpow_opp radix2 64 : bpow radix2 (-64) = _). reflexivity. }
    rewrite Q, E, <- Rmult_minus_distr_r, Rabs_mult, (Rabs_pos_eq (bpow radix2 (-64))) by lra. rewrite <- Rmult_assoc. apply Rmult_le_compat_r; [lra|].
    assert (X0 : 0 <= IZR x) by (apply IZR_le; lia). pose proof (rnd_rel (IZR x)) as R. rewrite (Rabs_pos_eq (IZR x)) in R by exact X0. apply R.
    destruct (Z.eq_dec x 0) as [->|N]; [left; reflexivity|right]. apply Rle_trans with (bpow radix2 0); [apply bpow_le; discriminate|]. change (bpow radix2 0) with (IZR 1). apply IZR_le. lia.
Qed.
