(** IEEE 754 binary64 arithmetic as used by the code (type [double], round to nearest even), taken from Flocq.
    Flocq is used for definitions and lemmas only: it adds no axiom besides those of the standard library's reals. *)
From Coq Require Export ZArith Reals Lra Lia.
From Flocq Require Export Core.Core IEEE754.BinarySingleNaN.
Require Export Flocq.Prop.Relative Flocq.Prop.Plus_error.

Notation fprec := 53%Z.
Notation femax := 1024%Z.
#[export] Instance fprec_gt_0 : Prec_gt_0 fprec. Proof. reflexivity. Qed.
#[export] Instance fprec_lt_emax : Prec_lt_emax fprec femax. Proof. reflexivity. Qed.
Notation double := (binary_float fprec femax).
Notation fexp := (SpecFloat.fexp fprec femax).
Notation rnd := (round radix2 fexp ZnearestE).

Definition fadd : double -> double -> double := Bplus mode_NE.
Definition fsub : double -> double -> double := Bminus mode_NE.
Definition fmul : double -> double -> double := Bmult mode_NE.
Definition fdiv : double -> double -> double := Bdiv mode_NE.
(** conversion of an integer to double *)
Definition fofZ (n : Z) : double := binary_normalize fprec femax _ _ mode_NE n 0 false.
(** integer times a power of two, for writing constants *)
Definition fofZe (n e : Z) : double := binary_normalize fprec femax _ _ mode_NE n e false.

#[export] Instance fexp_valid : Valid_exp fexp := _.
Lemma fexp_is_FLT : forall e, fexp e = FLT_exp (-1074) 53 e.
Proof. reflexivity. Qed.

Lemma rnd_le x y : (x <= y)%R -> (rnd x <= rnd y)%R.
Proof. apply round_le; typeclasses eauto. Qed.
Lemma rnd_0 : rnd 0 = 0%R. Proof. apply round_0. typeclasses eauto. Qed.
Lemma rnd_fmt x : generic_format radix2 fexp x -> rnd x = x.
Proof. apply round_generic; typeclasses eauto. Qed.
Lemma fmt_IZR n : (Z.abs n <= 2^53)%Z -> generic_format radix2 fexp (IZR n).
Proof.
  intros H. replace (IZR n) with (F2R (Float radix2 n 0)) by (unfold F2R; cbn; lra).
  destruct (Z.eq_dec (Z.abs n) (2^53)) as [E|E].
  - assert (n = 2^53 \/ n = -2^53)%Z as [->| ->] by lia.
    + replace (F2R _) with (bpow radix2 53) by (unfold F2R; cbn; lra). apply generic_format_bpow; vm_compute; discriminate.
    + replace (F2R _) with (- bpow radix2 53)%R by (unfold F2R; cbn; lra). apply generic_format_opp, generic_format_bpow; vm_compute; discriminate.
  - apply generic_format_F2R. intros Hn. unfold cexp. rewrite fexp_is_FLT. unfold FLT_exp.
    cbn [Fnum Fexp].
    assert (mag radix2 (F2R (Float radix2 n 0)) <= 53)%Z; [|lia].
    apply mag_le_bpow; [apply F2R_neq_0; exact Hn|].
    replace (F2R _) with (IZR n) by (unfold F2R; cbn; lra).
    rewrite <- abs_IZR. change (bpow radix2 53) with (IZR (2^53)). apply IZR_lt. lia.
Qed.
Lemma fofZ_correct n : (Z.abs n <= 2^53)%Z -> B2R (fofZ n) = IZR n /\ is_finite (fofZ n) = true.
Proof.
  intros H. unfold fofZ. pose proof (binary_normalize_correct fprec femax _ _ mode_NE n 0 false) as C. cbv zeta in C.
  replace (F2R _) with (IZR n) in C by (unfold F2R; cbn; lra).
  cbn [round_mode] in C. rewrite (rnd_fmt (IZR n) (fmt_IZR n H)) in C.
  rewrite Rlt_bool_true in C; [tauto|]. rewrite <- abs_IZR.
  apply Rle_lt_trans with (IZR (2^53)); [apply IZR_le; exact H|].
  change (IZR (2^53)) with (bpow radix2 53). apply bpow_lt. reflexivity.
Qed.
Lemma fsub_finite_inv x y : is_finite x = true -> is_finite y = true -> is_finite (fsub x y) = true ->
  B2R (fsub x y) = rnd (B2R x - B2R y) /\ (Rabs (rnd (B2R x - B2R y)) < bpow radix2 1024)%R.
Proof.
  intros Fx Fy F. pose proof (Bminus_correct fprec femax _ _ mode_NE x y Fx Fy) as C. cbn [round_mode] in C.
  fold (fsub x y) in C. destruct (Rlt_bool_spec (Rabs (rnd (B2R x - B2R y))) (bpow radix2 1024)) as [L|L].
  - tauto.
  - exfalso. destruct C as [C _]. change (binary_overflow fprec femax mode_NE (Bsign x)) with (SpecFloat.S754_infinity (Bsign x)) in C.
    destruct (fsub x y); cbn in C, F; discriminate.
Qed.
Lemma fsub_correct x y : is_finite x = true -> is_finite y = true -> (Rabs (rnd (B2R x - B2R y)) < bpow radix2 1024)%R ->
  B2R (fsub x y) = rnd (B2R x - B2R y) /\ is_finite (fsub x y) = true.
Proof.
  intros Fx Fy F. pose proof (Bminus_correct fprec femax _ _ mode_NE x y Fx Fy) as C. cbn [round_mode] in C.
  fold (fsub x y) in C. rewrite Rlt_bool_true in C by exact F. tauto.
Qed.
Lemma fdiv_correct x y : is_finite x = true -> (B2R y <> 0)%R -> (Rabs (rnd (B2R x / B2R y)) < bpow radix2 1024)%R ->
  B2R (fdiv x y) = rnd (B2R x / B2R y) /\ is_finite (fdiv x y) = true.
Proof.
  intros Fx Fy F. pose proof (Bdiv_correct fprec femax _ _ mode_NE x y Fy) as C. cbn [round_mode] in C.
  fold (fdiv x y) in C. rewrite Rlt_bool_true in C by exact F. rewrite Fx in C. tauto.
Qed.
Lemma fmul_correct x y : is_finite x = true -> is_finite y = true -> (Rabs (rnd (B2R x * B2R y)) < bpow radix2 1024)%R ->
  B2R (fmul x y) = rnd (B2R x * B2R y) /\ is_finite (fmul x y) = true.
Proof.
  intros Fx Fy F. pose proof (Bmult_correct fprec femax _ _ mode_NE x y) as C. cbn [round_mode] in C.
  fold (fmul x y) in C. rewrite Rlt_bool_true in C by exact F. rewrite Fx, Fy in C. tauto.
Qed.
Lemma B2R_fmt (x : double) : generic_format radix2 fexp (B2R x).
Proof. apply generic_format_B2R. Qed.
Lemma rnd_rel x : (x = 0 \/ bpow radix2 (-1022) <= Rabs x)%R -> (Rabs (rnd x - x) <= bpow radix2 (-53) * Rabs x)%R.
Proof.
  intros [->|H]. { rewrite rnd_0, Rminus_0_r, Rabs_R0. lra. }
  pose proof (relative_error_N_FLT radix2 (-1074) 53 ltac:(reflexivity) (fun n => negb (Z.even n)) x H) as E.
  replace (bpow radix2 (-53)) with (/2 * bpow radix2 (-53 + 1))%R; [exact E|].
  change (bpow radix2 (-53 + 1)) with (bpow radix2 (1 + -53)). rewrite bpow_plus. cbn [bpow]. change (IZR (Zpower_pos radix2 1)) with 2%R. lra.
Qed.
