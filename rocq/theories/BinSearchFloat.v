(** math::binSearch<double> in IEEE binary64 arithmetic. *)
From Verif Require Import Base FloatBase BinSearchModel BinSearchProofs.
Local Open Scope Z_scope.

(** comparison operators of double: false when an operand is NaN *)
Definition fgeb (a b : double) : bool := Bleb b a.
Definition fgtb (a b : double) : bool := Bltb b a.
Definition fltb (a b : double) : bool := Bltb a b.
(** math_core.cpp:210 for NumT=double: size-1 (size_t) is converted to double; the cast to ptrdiff_t of a NaN,
    infinite, or out-of-range value is undefined behaviour *)
Definition fguess (x a0 aN : double) (size : Z) : res Z :=
  let q := fmul (fdiv (fsub x a0) (fsub aN a0)) (fofZ (size - 1)) in
  if is_finite q then
    (if (-2^63 <=? Btrunc q) && (Btrunc q <? 2^63) then Ok (Btrunc q) else UB)
  else UB.
Definition binSearchF : double -> list double -> res Z := binSearch fgeb fgtb fltb fguess.

Definition fin (x : double) : Prop := is_finite x = true.

Lemma rlt1024 r : (0 <= r <= bpow radix2 53)%R -> (Rabs r < bpow radix2 1024)%R.
Proof. intros H. rewrite Rabs_pos_eq by lra. apply Rle_lt_trans with (bpow radix2 53); [lra|]. apply bpow_lt. reflexivity. Qed.

Lemma fguess_spec x a0 aN size : 2 <= size -> size <= 2^53 -> fin x -> fin a0 -> fin aN ->
  (B2R a0 <= B2R x)%R -> (B2R x <= B2R aN)%R -> (B2R a0 < B2R aN)%R -> fin (fsub aN a0) ->
  exists g, fguess x a0 aN size = Ok g /\ 0 <= g <= size - 1 /\
     (g = size - 1 -> B2R (fsub x a0) = B2R (fsub aN a0)).
Proof.
  intros Hs Hs2 Fx F0 FN H1 H2 H3 FD. unfold fin in *.
  destruct (fsub_finite_inv aN a0 FN F0 FD) as [DE DB].
  set (D := rnd (B2R aN - B2R a0)) in *. set (A := rnd (B2R x - B2R a0)) in *.
  assert (HA0 : (0 <= A)%R). { unfold A. rewrite <- rnd_0. apply rnd_le. lra. }
  assert (HAD : (A <= D)%R). { unfold A, D. apply rnd_le. lra. }
  assert (HD0 : (0 < D)%R).
  { assert (D <> 0)%R; [|lra]. unfold D. apply (round_plus_neq_0 radix2 fexp ZnearestE).
    - apply B2R_fmt.
    - apply generic_format_opp, B2R_fmt.
    - lra. }
  assert (HDs : (D < bpow radix2 1024)%R) by (rewrite Rabs_pos_eq in DB by lra; lra).
  destruct (fsub_correct x a0 Fx F0) as [AE AF].
  { fold A. rewrite Rabs_pos_eq; lra. }
  fold A in AE.
  assert (HQ : (0 <= A / D <= 1)%R).
  { split; [apply Rmult_le_pos; [lra|apply Rlt_le, Rinv_0_lt_compat; lra]|].
    apply Rmult_le_reg_r with D; [lra|]. unfold Rdiv. rewrite Rmult_assoc, Rinv_l; lra. }
  assert (R1 : rnd 1 = 1%R). { apply rnd_fmt. apply (fmt_IZR 1). lia. }
  assert (HRQ : (0 <= rnd (A / D) <= 1)%R).
  { split; [rewrite <- rnd_0; apply rnd_le; lra|rewrite <- R1; apply rnd_le; lra]. }
  destruct (fdiv_correct (fsub x a0) (fsub aN a0) AF) as [QE QF].
  { rewrite DE. lra. }
  { rewrite AE, DE. apply rlt1024. split; [lra|]. apply Rle_trans with 1%R; [lra|]. change 1%R with (bpow radix2 0). apply bpow_le. lia. }
  rewrite AE, DE in QE. set (Q := rnd (A / D)) in *.
  destruct (fofZ_correct (size - 1)) as [NE NF]; [lia|].
  assert (HNn : rnd (IZR (size - 1)) = IZR (size - 1)) by (apply rnd_fmt, fmt_IZR; lia).
  assert (HN1 : (1 <= IZR (size - 1))%R) by (apply IZR_le; lia).
  assert (HNb : (IZR (size - 1) <= bpow radix2 53)%R) by (change (bpow radix2 53) with (IZR (2^53)); apply IZR_le; lia).
  assert (HQN : (0 <= Q * IZR (size - 1) <= IZR (size - 1))%R).
  { split; [apply Rmult_le_pos; lra|]. rewrite <- (Rmult_1_l (IZR (size - 1))) at 2. apply Rmult_le_compat_r; lra. }
  assert (HP : (0 <= rnd (Q * IZR (size - 1)) <= IZR (size - 1))%R).
  { split; [rewrite <- rnd_0; apply rnd_le; lra|apply Rle_trans with (rnd (IZR (size - 1))); [apply rnd_le; lra|lra]]. }
  destruct (fmul_correct (fdiv (fsub x a0) (fsub aN a0)) (fofZ (size - 1)) QF NF) as [PE PF].
  { rewrite QE, NE. apply rlt1024. lra. }
  rewrite QE, NE in PE. unfold fguess. rewrite PF.
  pose proof (Btrunc_correct fprec femax _ (fmul (fdiv (fsub x a0) (fsub aN a0)) (fofZ (size - 1)))) as T.
  rewrite PE in T. rewrite round_FIX_IZR in T. set (P := rnd (Q * IZR (size - 1))) in *.
  apply eq_IZR in T. rewrite T.
  assert (HT : 0 <= Ztrunc P <= size - 1).
  { rewrite Ztrunc_floor by lra. split.
    - apply Zfloor_lub. lra.
    - apply le_IZR. apply Rle_trans with P; [apply Zfloor_lb|lra]. }
  rewrite (proj2 (Z.leb_le _ _)) by lia. rewrite (proj2 (Z.ltb_lt _ _)) by lia. cbn [andb].
  exists (Ztrunc P). split; [reflexivity|]. split; [exact HT|].
  intros Hg. rewrite AE, DE. destruct (Rle_lt_or_eq_dec _ _ HAD) as [L|E]; [exfalso|exact E].
  (* A < D: show P < size-1 *)
  assert (HPN : (IZR (size - 1) <= P)%R).
  { rewrite <- Hg. rewrite Ztrunc_floor by lra. apply Zfloor_lb. }
  set (u := bpow radix2 (-53)) in *.
  assert (Hu : (u = / 9007199254740992)%R) by (unfold u; cbn; lra).
  assert (HAD' : (A / D <= 1 - u)%R).
  { (* A <= pred D *)
    assert (FA : generic_format radix2 fexp A) by (apply generic_format_round; typeclasses eauto).
    assert (FDD : generic_format radix2 fexp D) by (apply generic_format_round; typeclasses eauto).
    pose proof (pred_ge_gt radix2 fexp A D FA FDD L) as PG.
    rewrite pred_eq_pos in PG by lra. unfold pred_pos in PG.
    assert (HU : (u * D <= D - A)%R).
    { destruct (Req_bool_spec D (bpow radix2 (mag radix2 D - 1))) as [E1|E1].
      - assert (bpow radix2 (fexp (mag radix2 D - 1)) >= u * D)%R; [|lra].
        replace (u * D)%R with (u * bpow radix2 (mag radix2 D - 1))%R by (rewrite <- E1; reflexivity). unfold u. rewrite <- bpow_plus. apply Rle_ge, bpow_le. rewrite fexp_is_FLT. unfold FLT_exp. lia.
      - assert (ulp radix2 fexp D >= u * D)%R; [|lra].
        rewrite ulp_neq_0 by lra. apply Rle_ge. apply Rle_trans with (u * bpow radix2 (mag radix2 D))%R.
        + apply Rmult_le_compat_l; [unfold u; apply bpow_ge_0|]. apply Rlt_le. pose proof (bpow_mag_gt radix2 D) as G. rewrite Rabs_pos_eq in G by lra. exact G.
        + unfold u. rewrite <- bpow_plus. apply bpow_le. unfold cexp. rewrite fexp_is_FLT. unfold FLT_exp. lia. }
    apply Rmult_le_reg_r with D; [lra|]. unfold Rdiv. rewrite Rmult_assoc, Rinv_l by lra. lra. }
  assert (FU : generic_format radix2 fexp (1 - u)).
  { replace (1 - u)%R with (F2R (Float radix2 (2^53 - 1) (-53))) by (rewrite Hu; unfold F2R; cbn; lra).
    apply generic_format_F2R. intros _. unfold cexp. rewrite fexp_is_FLT. unfold FLT_exp. cbn [Fnum Fexp].
    assert (mag radix2 (F2R (Float radix2 (2 ^ 53 - 1) (-53))) <= 0)%Z; [|lia].
    apply mag_le_bpow; [apply F2R_neq_0; discriminate|]. unfold F2R; cbn. rewrite Rabs_pos_eq; lra. }
  assert (HQ1 : (Q <= 1 - u)%R).
  { rewrite <- (rnd_fmt (1 - u) FU). unfold Q. apply rnd_le. exact HAD'. }
  assert (HP1 : (P <= rnd ((1 - u) * IZR (size - 1)))%R).
  { unfold P. apply rnd_le. apply Rmult_le_compat_r; lra. }
  pose proof (rnd_rel ((1 - u) * IZR (size - 1))) as RR.
  assert (HX : (1/2 <= (1 - u) * IZR (size - 1))%R).
  { apply Rle_trans with ((1 - u) * 1)%R; [lra|]. apply Rmult_le_compat_l; lra. }
  assert (Hb : (bpow radix2 (-1022) <= 1/2)%R). { replace (1/2)%R with (bpow radix2 (-1)) by (cbn; lra). apply bpow_le. lia. }
  assert (RR' : (rnd ((1 - u) * IZR (size - 1)) - (1 - u) * IZR (size - 1) <= u * ((1 - u) * IZR (size - 1)))%R).
  { fold u in RR. specialize (RR ltac:(right; rewrite Rabs_pos_eq; lra)).
    rewrite (Rabs_pos_eq ((1 - u) * IZR (size - 1))) in RR by lra.
    eapply Rle_trans; [apply Rle_abs|exact RR]. }
  assert (HF : (rnd ((1 - u) * IZR (size - 1)) <= (1 - u*u) * IZR (size - 1))%R).
  { replace ((1 - u*u) * IZR (size - 1))%R with ((1 - u) * IZR (size - 1) + u * ((1 - u) * IZR (size - 1)))%R by ring. lra. }
  assert (0 < u*u)%R by (rewrite Hu; apply Rmult_lt_0_compat; lra).
  assert (0 < u*u * IZR (size - 1))%R by (apply Rmult_lt_0_compat; lra).
  lra.
Qed.

Lemma get_map {A B} (f : A -> B) l i : get (map f l) i = bind (get l i) (fun a => Ok (f a)).
Proof.
  unfold get. destruct (i <? 0); [reflexivity|]. rewrite nth_error_map. destruct (nth_error l (Z.to_nat i)); reflexivity.
Qed.
Lemma get_In {A} (l : list A) i a : get l i = Ok a -> In a l.
Proof. intros H. apply get_Ok_inv in H. destruct H as [_ H]. eapply nth_error_In; exact H. Qed.

Lemma fgeb_R a b : fin a -> fin b -> fgeb a b = Rgeb (B2R a) (B2R b).
Proof.
  intros Ha Hb. unfold fgeb, Rgeb. rewrite Bleb_correct by assumption.
  destruct (Rle_dec (B2R b) (B2R a)); [apply Rle_bool_true|apply Rle_bool_false]; lra.
Qed.
Lemma fgtb_R a b : fin a -> fin b -> fgtb a b = Rgtb (B2R a) (B2R b).
Proof.
  intros Ha Hb. unfold fgtb, Rgtb. rewrite Bltb_correct by assumption.
  destruct (Rlt_dec (B2R b) (B2R a)); [apply Rlt_bool_true|apply Rlt_bool_false]; lra.
Qed.
Lemma fltb_R a b : fin a -> fin b -> fltb a b = Rltb (B2R a) (B2R b).
Proof.
  intros Ha Hb. unfold fltb, Rltb. rewrite Bltb_correct by assumption.
  destruct (Rlt_dec (B2R a) (B2R b)); [apply Rlt_bool_true|apply Rlt_bool_false]; lra.
Qed.

Lemma bs_loop_R x arr : fin x -> Forall fin arr -> forall fuel lo hi,
  bs_loop fgtb fuel x arr lo hi = bs_loop Rgtb fuel (B2R x) (map (@B2R fprec femax) arr) lo hi.
Proof.
  intros Fx FA. induction fuel as [|fuel IH]; intros lo hi; cbn [bs_loop]; [reflexivity|].
  destruct (hi >? lo + 1); [|reflexivity]. cbv zeta. rewrite get_map.
  destruct (get arr (Z.quot (hi + lo) 2)) as [a| | |] eqn:G; cbn [bind]; try reflexivity.
  rewrite Forall_forall in FA. rewrite fgtb_R by (auto; apply FA; eapply get_In; eassumption).
  destruct (Rgtb (B2R a) (B2R x)); apply IH.
Qed.

(** on finite data the search is the one on real numbers, with the rounded initial guess *)
Lemma binSearchF_R x arr : fin x -> Forall fin arr ->
  binSearchF x arr = binSearch Rgeb Rgtb Rltb
     (fun _ _ _ size => a0 <- get arr 0 ;; aN <- get arr (size - 1) ;; fguess x a0 aN size)
     (B2R x) (map (@B2R fprec femax) arr).
Proof.
  intros Fx FA. unfold binSearchF, binSearch.
  assert (L : zlen (map (@B2R fprec femax) arr) = zlen arr) by (unfold zlen; rewrite map_length; reflexivity).
  rewrite L. destruct (zlen arr <? 1); [reflexivity|]. rewrite !get_map.
  assert (FI : forall i a, get arr i = Ok a -> fin a).
  { intros i a G. rewrite Forall_forall in FA. apply FA. eapply get_In; eassumption. }
  destruct (get arr 0) as [a0| | |] eqn:G0; cbn [bind]; try reflexivity.
  rewrite fgeb_R by eauto. destruct (negb (Rgeb (B2R x) (B2R a0))); [reflexivity|].
  destruct (get arr (zlen arr - 1)) as [aN| | |] eqn:GN; cbn [bind]; try reflexivity.
  rewrite fgtb_R by eauto. destruct (Rgtb (B2R x) (B2R aN) || (zlen arr <? 2))%bool; [reflexivity|].
  destruct (fguess x a0 aN (zlen arr)) as [g| | |]; cbn [bind]; try reflexivity.
  destruct (g =? zlen arr - 1); [reflexivity|]. rewrite !get_map.
  destruct (get arr g) as [ag| | |] eqn:Gg; cbn [bind]; try reflexivity.
  rewrite fgeb_R by eauto. rewrite !bs_loop_R by assumption.
  destruct (Rgeb (B2R x) (B2R ag)); [|reflexivity].
  destruct (get arr (g + 1)) as [a1| | |] eqn:G1; cbn [bind]; try reflexivity.
  rewrite fltb_R by eauto. destruct (Rltb (B2R x) (B2R a1)); reflexivity.
Qed.
