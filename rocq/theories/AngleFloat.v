(** wrapAngle in IEEE binary64 arithmetic, math_core.cpp:145-154 *)
From Coq Require Import ZArith Reals Lra Lia Psatz Bool.
From Verif Require Import FloatBase.
Local Open Scope R_scope.

(** 2*M_PI: M_PI = 884279719003555 * 2^-48 *)
Definition TWOPI : double := fofZe 884279719003555 (-47).
(** 1/(2*M_PI), folded by the compiler with the same rounding *)
Definition INVTWOPI : double := fdiv (fofZ 1) TWOPI.
(** floor *)
Definition ffloor (x : double) : double := Bnearbyint mode_DN x.
(** math_core.cpp:145-154 wrapAngle *)
Definition wrapAngleF (x : double) : double :=
  let y := fsub x (fmul TWOPI (ffloor (fmul INVTWOPI x))) in
  if (Bleb (fofZ 0) y && Bltb y TWOPI)%bool then y else fofZ 0.

Lemma fofZe_rnd n e : Rabs (rnd (IZR n * bpow radix2 e)) < bpow radix2 1024 -> B2R (fofZe n e) = rnd (IZR n * bpow radix2 e) /\ is_finite (fofZe n e) = true.
Proof.
  intros H. unfold fofZe. pose proof (binary_normalize_correct fprec femax _ _ mode_NE n e false) as C. cbv zeta in C.
  change (F2R (Float radix2 n e)) with (IZR n * bpow radix2 e) in C. cbn [round_mode] in C. rewrite Rlt_bool_true in C by exact H. tauto.
Qed.
Lemma fmt_scaled n e : (Z.abs n < 2 ^ 53)%Z -> (-1074 <= e)%Z -> generic_format radix2 fexp (IZR n * bpow radix2 e).
Proof.
  intros H L. change (IZR n * bpow radix2 e) with (F2R (Float radix2 n e)). apply generic_format_F2R. intros Hn. unfold cexp. rewrite fexp_is_FLT. unfold FLT_exp. cbn [Fnum Fexp].
  assert (mag radix2 (F2R (Float radix2 n e)) <= 53 + e)%Z; [|lia]. apply mag_le_bpow; [apply F2R_neq_0; exact Hn|].
  rewrite <- F2R_Zabs. unfold F2R; cbn [Fnum Fexp]. rewrite bpow_plus. apply Rmult_lt_compat_r; [apply bpow_gt_0|]. change (bpow radix2 53) with (IZR (2 ^ 53)). apply IZR_lt, H.
Qed.
Lemma bp n : (0 <= n)%Z -> bpow radix2 (- n) = / IZR (2 ^ n).
Proof. intros. rewrite bpow_opp. f_equal. symmetry. apply (IZR_Zpower radix2). assumption. Qed.
Lemma bp47 : bpow radix2 (-47) = / IZR (2 ^ 47). Proof. exact (bp 47 ltac:(lia)). Qed.
Lemma bp50 : bpow radix2 (-50) = / IZR (2 ^ 50). Proof. exact (bp 50 ltac:(lia)). Qed.
Lemma bp53 : bpow radix2 (-53) = / IZR (2 ^ 53). Proof. exact (bp 53 ltac:(lia)). Qed.
Lemma bp55 : bpow radix2 (-55) = / IZR (2 ^ 55). Proof. exact (bp 55 ltac:(lia)). Qed.
Definition tp : R := IZR 884279719003555 / IZR (2 ^ 47).
Lemma TWOPI_val : B2R TWOPI = tp /\ is_finite TWOPI = true.
Proof.
  assert (E : rnd (IZR 884279719003555 * bpow radix2 (-47)) = tp). { rewrite rnd_fmt by (apply fmt_scaled; [reflexivity|lia]). rewrite bp47. reflexivity. }
  rewrite <- E. apply fofZe_rnd. rewrite E. unfold tp. rewrite Rabs_right by (cbn; lra). apply Rlt_trans with (bpow radix2 3); [cbn; lra|apply bpow_lt; reflexivity].
Qed.
Lemma F0 : B2R (fofZ 0) = 0 /\ is_finite (fofZ 0) = true. Proof. apply (fofZ_correct 0). cbn. lia. Qed.
Lemma F1 : B2R (fofZ 1) = 1 /\ is_finite (fofZ 1) = true. Proof. apply (fofZ_correct 1). cbn. lia. Qed.
Lemma rnd_err x : Rabs (rnd x - x) <= bpow radix2 (-53) * Rabs x + bpow radix2 (-1075).
Proof.
  destruct (Rle_lt_dec (bpow radix2 (-1022)) (Rabs x)) as [L|L].
  - pose proof (rnd_rel x (or_intror L)). pose proof (bpow_ge_0 radix2 (-1075)). lra.
  - pose proof (error_le_half_ulp radix2 fexp (fun n => negb (Z.even n)) x) as U.
    assert (ulp radix2 fexp x <= bpow radix2 (-1074)). { destruct (Req_dec x 0) as [->|N]; [change (ulp radix2 (FLT_exp (-1074) 53) 0 <= bpow radix2 (-1074)); rewrite ulp_FLT_0 by reflexivity; lra|]. rewrite ulp_neq_0 by exact N. apply bpow_le. unfold cexp. rewrite fexp_is_FLT. unfold FLT_exp.
      assert (mag radix2 x <= -1022)%Z by (apply mag_le_bpow; assumption). lia. }
    assert (bpow radix2 (-1075) = / 2 * bpow radix2 (-1074)). { change (-1075)%Z with (-1 + -1074)%Z. rewrite bpow_plus. cbn [bpow]. change (IZR (Zpower_pos radix2 1)) with 2. reflexivity. }
    pose proof (Rmult_le_pos _ _ (bpow_ge_0 radix2 (-53)) (Rabs_pos x)). lra.
Qed.
Lemma INV_val : is_finite INVTWOPI = true /\ B2R INVTWOPI = IZR 5734161139222659 / IZR (2 ^ 55).
Proof.
  destruct TWOPI_val as [T FT]. destruct F1 as [O FO].
  assert (E : rnd (1 / tp) = IZR 5734161139222659 / IZR (2 ^ 55)).
  { assert (G : generic_format radix2 fexp (IZR 5734161139222659 / IZR (2 ^ 55))). { unfold Rdiv. rewrite <- bp55. apply fmt_scaled; [reflexivity|lia]. }
    assert (M : (mag radix2 (1 / tp) : Z) = (-2)%Z). { apply mag_unique. rewrite Rabs_right by (unfold tp; cbn; lra). unfold tp. cbn. lra. }
    unfold round, scaled_mantissa, cexp. rewrite M. change (fexp (-2)) with (-55)%Z. 
    assert (Z' : ZnearestE (1 / tp * bpow radix2 (- -55)) = 5734161139222659%Z).
    { apply Znearest_imp. unfold tp. change (bpow radix2 (- -55)) with (IZR (2 ^ 55)). apply Rabs_def1; cbn; lra. }
    rewrite Z'. unfold F2R; cbn [Fnum Fexp]. rewrite bp55. reflexivity. }
  destruct (fdiv_correct (fofZ 1) TWOPI FO) as [A B].
  - rewrite T. unfold tp. cbn. lra.
  - rewrite O, T, E. rewrite Rabs_right by (cbn; lra). apply Rlt_trans with (bpow radix2 3); [cbn; lra|apply bpow_lt; reflexivity].
  - rewrite O, T, E in A. split; assumption.
Qed.

Lemma floor_val x : is_finite x = true -> is_finite (ffloor x) = true /\ B2R (ffloor x) = IZR (Zfloor (B2R x)).
Proof.
  intros F. destruct (Bnearbyint_correct fprec femax fprec_lt_emax mode_DN x) as [A [B _]]. split; [unfold ffloor; rewrite B; exact F|]. unfold ffloor. rewrite A. cbn [round_mode].
  unfold round, scaled_mantissa, cexp, FIX_exp, F2R; cbn [Fnum Fexp]. change (bpow radix2 (- 0)) with 1. change (bpow radix2 0) with 1. rewrite !Rmult_1_r. reflexivity.
Qed.

(** every double, including infinities and NaN, is mapped to a finite number in [0, 2*M_PI) *)
Lemma wrapF_range x : is_finite (wrapAngleF x) = true /\ 0 <= B2R (wrapAngleF x) < B2R TWOPI.
Proof.
  destruct TWOPI_val as [T FT]. destruct F0 as [Z0v FZ]. unfold wrapAngleF. cbv zeta. set (y := fsub _ _). 
  assert (Z0 : is_finite (fofZ 0) = true /\ 0 <= B2R (fofZ 0) < B2R TWOPI) by (split; [exact FZ|rewrite Z0v, T; unfold tp; cbn; lra]).
  destruct (Bleb (fofZ 0) y) eqn:A; cbn [andb]; [|exact Z0]. destruct (Bltb y TWOPI) eqn:B; [|exact Z0].
  assert (Fy : is_finite y = true). { destruct y as [s|s| |s m e H]; try reflexivity; [|discriminate A]. destruct s; [discriminate A|discriminate B]. }
  split; [exact Fy|]. rewrite (Bleb_correct _ _ _ _ FZ Fy) in A. rewrite (Bltb_correct _ _ _ _ Fy FT) in B.
  apply Rle_bool_true_inv in A || (destruct (Rle_bool_spec (B2R (fofZ 0)) (B2R y)) as [A'|]; [|discriminate]). destruct (Rlt_bool_spec (B2R y) (B2R TWOPI)) as [B'|]; [|discriminate]. rewrite Z0v in A'. lra.
Qed.

(** angles already in [0, 2*M_PI) are returned unchanged *)
Lemma wrapF_id x : is_finite x = true -> 0 <= B2R x < B2R TWOPI -> B2R (wrapAngleF x) = B2R x.
Proof.
  intros F H. destruct TWOPI_val as [T FT]. destruct F0 as [Z0v FZ]. destruct INV_val as [FI VI]. rewrite T in H.
  assert (Q : 0 <= B2R x <= IZR 7074237752028439 / IZR (2 ^ 50)).
  { split; [apply H|]. apply Rnot_lt_le. intros C.
    pose proof (generic_format_FLT radix2 (-1074) 53 (B2R x)) as _.
    assert (G := B2R_fmt x). assert (M : (mag radix2 (B2R x) : Z) = 3%Z). { apply mag_unique. rewrite Rabs_right by lra. revert C H. unfold tp. cbn. lra. }
    unfold generic_format in G. unfold scaled_mantissa, cexp in G. rewrite M in G. change (fexp 3) with (-50)%Z in G. set (m := Ztrunc _) in G. unfold F2R in G; cbn [Fnum Fexp] in G. rewrite bp50 in G.
    rewrite G in C, H. unfold tp in H. assert (C1 : (7074237752028439 < m)%Z) by (apply lt_IZR; revert C; cbn; lra). assert (C2 : (m < 7074237752028440)%Z) by (apply lt_IZR; destruct H as [_ H]; revert H; cbn; lra). lia. }
  assert (R1 : 0 <= rnd (B2R INVTWOPI * B2R x) < 1).
  { rewrite VI. split. { rewrite <- rnd_0. apply rnd_le. apply Rmult_le_pos; [cbn; lra|lra]. }
    apply Rle_lt_trans with (IZR (2 ^ 53 - 1) * bpow radix2 (-53)); [|rewrite bp53; cbn; lra].
    rewrite <- (rnd_fmt (IZR (2 ^ 53 - 1) * bpow radix2 (-53))) by (apply fmt_scaled; [reflexivity|lia]). 
    apply Rle_trans with (rnd (IZR 5734161139222659 / IZR (2 ^ 55) * (IZR 7074237752028439 / IZR (2 ^ 50)))); [apply rnd_le; apply Rmult_le_compat_l; [cbn; lra|lra]|].
    apply Rle_trans with (rnd (IZR (2 ^ 53 - 1) * bpow radix2 (-53) + / 2 * bpow radix2 (-53) * / 2 * 1)); [apply rnd_le; rewrite bp53; cbn; lra|].
    set (w := IZR (2 ^ 53 - 1) * bpow radix2 (-53) + / 2 * bpow radix2 (-53) * / 2 * 1).
    assert (M : (mag radix2 w : Z) = 0%Z). { apply mag_unique. unfold w. rewrite bp53. rewrite Rabs_right by (cbn; lra). cbn. lra. }
    right. rewrite (rnd_fmt (IZR (2 ^ 53 - 1) * bpow radix2 (-53))) by (apply fmt_scaled; [reflexivity|lia]).
    unfold round, scaled_mantissa, cexp. rewrite M. change (fexp 0) with (-53)%Z.
    assert (Z' : ZnearestE (w * bpow radix2 (- -53)) = (2 ^ 53 - 1)%Z). { apply Znearest_imp. unfold w. rewrite bp53. change (bpow radix2 (- -53)) with (IZR (2 ^ 53)). apply Rabs_def1; cbn; lra. }
    rewrite Z'. reflexivity. }
  destruct (fmul_correct INVTWOPI x FI F) as [Q1 Q2]. { rewrite Rabs_right by lra. apply Rlt_trans with 1; [lra|]. change 1 with (bpow radix2 0). apply bpow_lt. reflexivity. }
  destruct (floor_val _ Q2) as [Q3 Q4]. rewrite Q1 in Q4. assert (Zf : Zfloor (rnd (B2R INVTWOPI * B2R x)) = 0%Z) by (apply Zfloor_imp; change (IZR (0 + 1)) with 1; lra). rewrite Zf in Q4.
  destruct (fmul_correct TWOPI _ FT Q3) as [Q5 Q6]. { rewrite Q4, Rmult_0_r, rnd_0, Rabs_R0. apply bpow_gt_0. }
  rewrite Q4, Rmult_0_r, rnd_0 in Q5.
  assert (Rx : rnd (B2R x - 0) = B2R x) by (rewrite Rminus_0_r; apply rnd_fmt, B2R_fmt).
  destruct (fsub_correct x _ F Q6) as [Q7 Q8]. { rewrite Q5, Rx. rewrite Rabs_right by lra. apply Rle_lt_trans with (bpow radix2 3); [cbn; unfold tp in H; cbn in H; lra|apply bpow_lt; reflexivity]. }
  rewrite Q5, Rx in Q7. unfold wrapAngleF. cbv zeta. rewrite (Bleb_correct _ _ _ _ FZ Q8), (Bltb_correct _ _ _ _ Q8 FT), Q7, Z0v, T. rewrite Rle_bool_true by lra. rewrite Rlt_bool_true by lra. cbn [andb]. exact Q7.
Qed.

(** for any finite double (below 2^1000) the result differs from x by a multiple of 2*M_PI up to a few rounding errors of x *)
Lemma rnd_bounds x X : Rabs x <= X -> Rabs (rnd x - x) <= bpow radix2 (-53) * X + bpow radix2 (-1075).
Proof. intros H. pose proof (rnd_err x). pose proof (Rmult_le_compat_l _ _ _ (bpow_ge_0 radix2 (-53)) H). lra. Qed.
Lemma wrapF_accuracy x : is_finite x = true -> Rabs (B2R x) <= bpow radix2 1000 ->
  exists k : Z, Rabs (B2R (wrapAngleF x) - (B2R x - B2R TWOPI * IZR k)) <= bpow radix2 (-53) * (3 * Rabs (B2R x) + 17).
Proof.
  intros F BX. destruct TWOPI_val as [T FT]. destruct F0 as [Z0v FZ]. destruct INV_val as [FI VI]. rewrite T.
  set (X := Rabs (B2R x)) in *. assert (X0 : 0 <= X) by apply Rabs_pos.
  assert (Tn : 6283 / 1000 < tp < 6284 / 1000) by (unfold tp; cbn; lra). set (c := B2R INVTWOPI) in *. assert (Cn : 159 / 1000 < c < 160 / 1000) by (rewrite VI; cbn; lra).
  assert (CT : Rabs (tp * c - 1) <= bpow radix2 (-53)). { rewrite VI, bp53. unfold tp. apply Rabs_le. cbn. lra. }
  assert (E : 0 < bpow radix2 (-53) < 1 / 1000000) by (rewrite bp53; cbn; lra). 
  assert (N : 0 < bpow radix2 (-1075) <= bpow radix2 (-53) / 100). { split; [apply bpow_gt_0|]. apply Rle_trans with (bpow radix2 (-63)); [apply bpow_le; lia|]. change (-63)%Z with (-53 + -10)%Z. rewrite bpow_plus. change (bpow radix2 (-10)) with (/ 1024). lra. }
  pose proof rnd_bounds as RB. set (e := bpow radix2 (-53)) in *. set (n := bpow radix2 (-1075)) in *.
  assert (EX : 0 <= e * X <= X / 1000000) by (split; [apply Rmult_le_pos; lra|]; replace (X / 1000000) with (1 / 1000000 * X) by field; apply Rmult_le_compat_r; lra).
  assert (BIG : forall v, Rabs v <= 4 * X + 100 -> Rabs v < bpow radix2 1024).
  { intros v Hv. apply Rle_lt_trans with (bpow radix2 1003); [|apply bpow_lt; reflexivity]. change 1003%Z with (3 + 1000)%Z. rewrite bpow_plus. change (bpow radix2 3) with 8. 
    assert (bpow radix2 10 <= bpow radix2 1000) by (apply bpow_le; lia). change (bpow radix2 10) with 1024 in H. lra. }
  assert (ABSb : forall a, Rabs a <= X <-> - X <= a <= X) by (intros; split; [apply Rabs_le_inv|apply Rabs_le]).
  assert (XX : - X <= B2R x <= X) by (apply Rabs_le_inv; unfold X; lra).
  (* q *)
  assert (cX : Rabs (c * B2R x) <= 16 / 100 * X). { rewrite Rabs_mult, (Rabs_right c) by lra. fold X. apply Rmult_le_compat_r; lra. }
  pose proof (RB _ _ cX) as Q. apply Rabs_le_inv in cX.
  destruct (fmul_correct INVTWOPI x FI F) as [Q1 Q2].
  { change (B2R INVTWOPI) with c. apply BIG. apply Rabs_le_inv in Q. apply Rabs_le. lra. }
  change (B2R INVTWOPI) with c in Q1. set (q := rnd (c * B2R x)) in *. apply Rabs_le_inv in Q.
  destruct (floor_val _ Q2) as [K1 K2]. rewrite Q1 in K2. set (k := Zfloor q) in *. pose proof (Zfloor_lb q) as KL. pose proof (Zfloor_ub q) as KU. fold k in KL, KU.
  assert (TQ : - (3 * e * X + 7 * n) <= tp * q - B2R x <= 3 * e * X + 7 * n).
  { assert (H1 : Rabs ((tp * c - 1) * B2R x) <= e * X) by (rewrite Rabs_mult; apply Rmult_le_compat_r; lra). apply Rabs_le_inv in H1.
    assert (H2 : - (e * (16 / 100 * X) + n) * tp <= (q - c * B2R x) * tp <= (e * (16 / 100 * X) + n) * tp) by (split; apply Rmult_le_compat_r; lra).
    assert (H3 : (e * (16 / 100 * X) + n) * tp <= (e * (16 / 100 * X) + n) * (6284 / 1000)) by (apply Rmult_le_compat_l; lra). 
    replace (tp * q - B2R x) with ((tp * c - 1) * B2R x + (q - c * B2R x) * tp) by ring. lra. }
  set (z := B2R x - tp * IZR k).
  assert (Zb : - (3 * e * X + 7 * n) <= z < tp + 3 * e * X + 7 * n).
  { assert (tp * IZR k <= tp * q) by (apply Rmult_le_compat_l; lra). assert (tp * q < tp * (IZR k + 1)) by (apply Rmult_lt_compat_l; lra). unfold z. lra. }
  assert (TK : Rabs (tp * IZR k) <= 2 * X + 8) by (apply Rabs_le; unfold z in Zb; lra).
  pose proof (RB _ _ TK) as P. apply Rabs_le_inv in TK. apply Rabs_le_inv in P.
  assert (eP : e * (2 * X + 8) = 2 * (e * X) + 8 * e) by ring.
  destruct (fmul_correct TWOPI _ FT K1) as [P1 P2]. { rewrite T, K2. apply BIG. apply Rabs_le. lra. }
  rewrite T, K2 in P1. set (p := rnd (tp * IZR k)) in *.
  assert (XP : Rabs (B2R x - p) <= X + 8) by (apply Rabs_le; unfold z in Zb; lra).
  pose proof (RB _ _ XP) as Y. apply Rabs_le_inv in XP. apply Rabs_le_inv in Y. assert (eY : e * (X + 8) = e * X + 8 * e) by ring.
  destruct (fsub_correct x _ F P2) as [Y1 Y2]. { rewrite P1. apply BIG. apply Rabs_le. lra. }
  rewrite P1 in Y1. set (y := rnd (B2R x - p)) in *.
  unfold wrapAngleF. cbv zeta. rewrite (Bleb_correct _ _ _ _ FZ Y2), (Bltb_correct _ _ _ _ Y2 FT), Y1, Z0v, T.
  assert (YZ : - (e * (3 * X + 17)) <= y - z <= e * (3 * X + 17)) by (replace (e * (3 * X + 17)) with (3 * (e * X) + 17 * e) by ring; unfold z; lra).
  assert (eZ : e * (3 * X + 17) = 3 * (e * X) + 17 * e) by ring.
  destruct (Rle_bool_spec 0 y) as [L|L]; cbn [andb].
  - destruct (Rlt_bool_spec y tp) as [U|U].
    + exists k. rewrite Y1. fold y z. apply Rabs_le. lra.
    + exists (k + 1)%Z. rewrite Z0v, plus_IZR. apply Rabs_le. replace (0 - (B2R x - tp * (IZR k + 1))) with (tp - z) by (unfold z; ring). lra.
  - exists k. rewrite Z0v. fold z. apply Rabs_le. lra.
Qed.
