(** C05 (binary search) and the integer half of C04. *)
From Verif Require Import Base FloatBase BinSearchModel BinSearchSpec BinSearchProofs BinSearchFloat NumParseModel.
Local Open Scope Z_scope.

(** C04: an option that parses as a finite number is truncated towards zero and saturated to the range of int *)
Theorem C04_toInt_saturates : forall r : double, is_finite r = true ->
  toInt false (Some r) = Ok (clamp INT_MIN INT_MAX (Ztrunc (B2R r))).
Proof. exact toInt_correct. Qed.
(** C04: nothing else than 0 for the empty string and an exception for anything non-numeric or not finite *)
Theorem C04_toInt_errors : forall parsed,
  toInt true parsed = Ok 0 /\ toInt false None = Throw /\
  (forall r : double, is_finite r = false -> toInt false (Some r) = Throw).
Proof. intros p. repeat split. intros r H. unfold toInt. rewrite H. reflexivity. Qed.
Example C04_ex : toInt false (Some (fofZ (10^10))) = Ok (2^31 - 1) /\ toInt false (Some (fofZe (-5) (-1))) = Ok (-2).
Proof. vm_compute. split; reflexivity. Qed.

(** C05 over exact arithmetic: for every sorted grid with distinct end points and every query, the search terminates,
    reads only inside of the array and returns the enclosing bin *)
Theorem C05_binSearch_real : forall (x : R) (arr : list R), sorted Rle arr ->
  (forall a0 aN, (length arr >= 2)%nat -> nth_error arr 0 = Some a0 -> nth_error arr (length arr - 1) = Some aN -> (a0 < aN)%R) ->
  exists k, binSearchR x arr = Ok k /\ bin_spec Rle x arr k.
Proof.
  intros x arr Hs Hd. unfold binSearchR.
  apply binSearch_correct with (le := Rle).
  - exact Rgeb_spec.
  - exact Rgtb_spec.
  - exact Rltb_spec.
  - intros a b. destruct (Rle_dec a b); [left|right]; lra.
  - intros a b. destruct (Rle_dec a b); auto.
  - exact Hs.
  - intros a0 aN H0 HN L1 L2 HL.
    destruct (guess_R_spec x a0 aN (zlen arr)) as (g & G & B & E); auto.
    { apply Hd; auto. unfold zlen in HL. lia. }
    exists g. split; [exact G|]. split; [exact B|]. intros Eg b Nb. rewrite (E Eg).
    apply (Hs _ _ _ _ Nb HN). lia.
Qed.

(** C05 for all the integer element types [lo..hi] for which the code is instantiated *)
Theorem C05_binSearch_int : forall (lo hi x : Z) (arr : list Z), lo <= 0 -> sorted Z.le arr ->
  (forall a0 aN, (length arr >= 2)%nat -> nth_error arr 0 = Some a0 -> nth_error arr (length arr - 1) = Some aN ->
     a0 < aN /\ aN - a0 <= hi) ->
  exists k, binSearchInt lo hi x arr = Ok k /\ bin_spec Z.le x arr k.
Proof.
  intros lo hi x arr Hlo Hs Hd. unfold binSearchInt.
  apply binSearch_correct with (le := Z.le).
  - intros a b. rewrite Z.geb_le. reflexivity.
  - intros a b. rewrite Z.gtb_lt. lia.
  - intros a b. rewrite Z.ltb_lt. lia.
  - lia.
  - lia.
  - exact Hs.
  - intros a0 aN H0 HN L1 L2 HL.
    destruct (Hd a0 aN) as [D1 D2]; auto. { unfold zlen in HL. lia. }
    destruct (guess_int_spec lo hi x a0 aN (zlen arr)) as (g & G & B & E); auto.
    exists g. split; [exact G|]. split; [exact B|]. intros Eg b Nb. rewrite (E Eg).
    apply (Hs _ _ _ _ Nb HN). lia.
Qed.

(** C05 for double in IEEE arithmetic, any finite query: no undefined behaviour, index in range for every array
    (even unsorted) whose first and last elements are distinct and whose range does not overflow *)
Theorem C05_binSearch_double_safe : forall (x : double) (arr : list double),
  is_finite x = true -> Forall (fun a => is_finite a = true) arr -> zlen arr <= 2^53 ->
  (forall a0 aN, nth_error arr 0 = Some a0 -> nth_error arr (length arr - 1) = Some aN ->
      (B2R a0 < B2R aN)%R /\ is_finite (fsub aN a0) = true) ->
  exists k, binSearchF x arr = Ok k /\ -1 <= k <= zlen arr - 1.
Proof.
  intros x arr Fx FA HL Hd. apply binSearch_safe. intros a0 aN G0 GN E1 E2 L2.
  pose proof (get_In _ _ _ G0) as I0. pose proof (get_In _ _ _ GN) as IN.
  rewrite Forall_forall in FA. pose proof (FA _ I0) as F0. pose proof (FA _ IN) as FN.
  apply get_Ok_inv in G0, GN. destruct G0 as [_ G0], GN as [_ GN].
  replace (Z.to_nat (zlen arr - 1)) with (length arr - 1)%nat in GN by (unfold zlen; lia).
  destruct (Hd a0 aN G0 GN) as [D1 D2].
  rewrite fgeb_R in E1 by assumption. rewrite fgtb_R in E2 by assumption.
  apply Rgeb_spec in E1. assert (B2R x <= B2R aN)%R.
  { destruct (Rle_dec (B2R x) (B2R aN)) as [|N]; [assumption|]. apply Rgtb_spec in N. congruence. }
  destruct (fguess_spec x a0 aN (zlen arr)) as (g & G & B & _); auto; try lia.
  exists g. split; [exact G|exact B].
Qed.

(** C05 for double: the enclosing bin is returned for every finite query provided that the last two nodes remain
    distinguishable after subtracting the first one.  Partial: without the last condition the claim is false (next theorem). *)
Theorem C05_binSearch_double_partial : forall (x : double) (arr : list double),
  is_finite x = true -> Forall (fun a => is_finite a = true) arr -> zlen arr <= 2^53 ->
  sorted Rle (map (@B2R 53 1024) arr) ->
  (forall a0 b aN, (length arr >= 2)%nat -> nth_error arr 0 = Some a0 -> nth_error arr (length arr - 2) = Some b ->
      nth_error arr (length arr - 1) = Some aN ->
      is_finite (fsub aN a0) = true /\ (B2R (fsub b a0) < B2R (fsub aN a0))%R) ->
  exists k, binSearchF x arr = Ok k /\ bin_spec Rle (B2R x) (map (@B2R 53 1024) arr) k.
Proof.
  intros x arr Fx FA HL Hs Hd. rewrite binSearchF_R by assumption.
  assert (LM : length (map (@B2R 53 1024) arr) = length arr) by apply map_length.
  assert (ZM : zlen (map (@B2R 53 1024) arr) = zlen arr) by (unfold zlen; rewrite LM; reflexivity).
  apply binSearch_correct with (le := Rle).
  - exact Rgeb_spec.
  - exact Rgtb_spec.
  - exact Rltb_spec.
  - intros a b. destruct (Rle_dec a b); [left|right]; lra.
  - intros a b. destruct (Rle_dec a b); auto.
  - exact Hs.
  - intros r0 rN H0 HN L1 L2. rewrite LM in *. rewrite ZM. intros Z2.
    assert (L : (length arr >= 2)%nat) by (unfold zlen in Z2; lia).
    rewrite nth_error_map in H0, HN.
    destruct (nth_error arr 0) as [a0|] eqn:E0; [|discriminate]. cbn in H0. injection H0 as <-.
    destruct (nth_error arr (length arr - 1)) as [aN|] eqn:EN; [|discriminate]. cbn in HN. injection HN as <-.
    destruct (nth_error arr (length arr - 2)) as [b|] eqn:Eb; [|apply nth_error_None in Eb; lia].
    destruct (Hd a0 b aN L eq_refl eq_refl eq_refl) as [D1 D2].
    rewrite Forall_forall in FA.
    assert (F0 : is_finite a0 = true) by (apply FA; eapply nth_error_In; eassumption).
    assert (FN : is_finite aN = true) by (apply FA; eapply nth_error_In; eassumption).
    assert (Fb : is_finite b = true) by (apply FA; eapply nth_error_In; eassumption).
    assert (M : forall i j a b, nth_error arr i = Some a -> nth_error arr j = Some b -> (i <= j)%nat -> (B2R a <= B2R b)%R).
    { intros i j p q Hp Hq Hij. apply (Hs i j); auto; rewrite nth_error_map, ?Hp, ?Hq; reflexivity. }
    assert (O1 : (B2R a0 <= B2R b)%R) by (eapply M; eauto; lia).
    assert (O2 : (B2R b <= B2R aN)%R) by (eapply M; eauto; lia).
    destruct (fsub_finite_inv aN a0 FN F0 D1) as [SE SB].
    assert (S0 : (0 <= rnd (B2R aN - B2R a0))%R) by (rewrite <- rnd_0; apply rnd_le; lra).
    rewrite Rabs_pos_eq in SB by exact S0.
    assert (SUB : forall y, is_finite y = true -> (B2R a0 <= B2R y <= B2R aN)%R ->
        B2R (fsub y a0) = rnd (B2R y - B2R a0)).
    { intros y Fy Hy. apply (fsub_correct y a0 Fy F0). rewrite Rabs_pos_eq.
      - apply Rle_lt_trans with (rnd (B2R aN - B2R a0)); [apply rnd_le; lra|exact SB].
      - rewrite <- rnd_0. apply rnd_le. lra. }
    assert (O3 : (B2R a0 < B2R aN)%R).
    { assert (B2R a0 <> B2R aN); [|lra]. intros Eq. rewrite (SUB b Fb ltac:(lra)), SE in D2.
      apply (Rlt_not_le _ _ D2). apply rnd_le. lra. }
    destruct (fguess_spec x a0 aN (zlen arr)) as (g & G & B & E); auto; try lia.
    exists g. split; [|split; [exact B|]].
    { unfold get at 1. cbn [Z.ltb Z.compare Z.to_nat]. rewrite E0. cbn [bind].
      unfold get. rewrite (proj2 (Z.ltb_ge _ _)) by lia.
      replace (Z.to_nat (zlen arr - 1)) with (length arr - 1)%nat by (unfold zlen; lia). rewrite EN. exact G. }
    intros Eg b' Nb. rewrite nth_error_map, Eb in Nb. cbn in Nb. injection Nb as <-.
    destruct (Rle_dec (B2R b) (B2R x)) as [|N]; [assumption|exfalso].
    specialize (E Eg). rewrite (SUB b Fb ltac:(lra)) in D2. rewrite <- E, (SUB x Fx ltac:(lra)) in D2.
    apply (Rlt_not_le _ _ D2). apply rnd_le. lra.
Qed.

(** The unconditional claim fails for double: the rounded initial guess can hit the last node although x is below the
    next-to-last one, and the search then returns the wrong bin. *)
Definition cex_arr : list double := [fofZe (-1) 60; fofZe 1023 (-10); fofZ 1].
Definition cex_x : double := fofZe 511 (-9).
Theorem C05_binSearch_double_refuted : exists (x : double) (arr : list double),
  is_finite x = true /\ Forall (fun a => is_finite a = true) arr /\
  (forall i a b, nth_error arr i = Some a -> nth_error arr (S i) = Some b -> fltb a b = true) /\
  (forall a0 aN, nth_error arr 0 = Some a0 -> nth_error arr (length arr - 1) = Some aN -> is_finite (fsub aN a0) = true) /\
  binSearchF x arr = Ok 1 /\ (exists a1, nth_error arr 1 = Some a1 /\ fltb x a1 = true).
Proof.
  exists cex_x, cex_arr. split; [reflexivity|]. split; [repeat constructor|].
  split. { intros [|[|[|i]]] a b; cbn; intros H1 H2; try discriminate; injection H1 as <-; injection H2 as <-; vm_compute; reflexivity. }
  split. { cbn. intros a0 aN H1 H2. injection H1 as <-; injection H2 as <-. vm_compute. reflexivity. }
  split; [vm_compute; reflexivity|]. exists (fofZe 1023 (-10)). split; [reflexivity|]. vm_compute. reflexivity.
Qed.
(** A grid whose nodes are all equal makes the initial guess 0/0 (undefined cast for double, division by zero for int). *)
Theorem C05_degenerate_grid_refuted :
  (forall a : double, is_finite a = true -> binSearchF a [a; a] = UB) /\
  (forall lo hi a : Z, lo <= 0 <= hi -> binSearchInt lo hi a [a; a] = UB).
Proof.
  split.
  - intros a F. unfold binSearchF, binSearch. cbn [zlen length].
    change (zlen [a; a]) with 2. cbn [Z.ltb Z.compare Pos.compare Pos.compare_cont Z.sub Z.add Z.opp Z.pos_sub Pos.pred_double].
    change (get [a; a] 0) with (Ok a). cbn [bind].
    rewrite fgeb_R by assumption.
    replace (Rgeb (B2R a) (B2R a)) with true by (symmetry; apply Rgeb_spec; lra). cbn [negb].
    change (get [a; a] 1) with (Ok a). cbn [bind]. rewrite fgtb_R by assumption.
    replace (Rgtb (B2R a) (B2R a)) with false by (unfold Rgtb; destruct (Rlt_dec (B2R a) (B2R a)); [lra|reflexivity]).
    cbn [orb]. unfold fguess.
    assert (Z0 : exists s, fsub a a = B754_zero s).
    { destruct (fsub_correct a a F F) as [V Fi].
      { rewrite Rminus_diag_eq, rnd_0, Rabs_R0 by reflexivity. apply bpow_gt_0. }
      rewrite Rminus_diag_eq, rnd_0 in V by reflexivity.
      destruct (fsub a a) as [s| | |s m e Hb]; cbn in Fi; try discriminate; [eauto|].
      exfalso. unfold B2R in V. apply eq_0_F2R in V. destruct s; discriminate. }
    destruct Z0 as [s ->]. destruct s; vm_compute; reflexivity.
  - intros lo hi a H. unfold binSearchInt, binSearch. change (zlen [a; a]) with 2.
    cbn [Z.ltb Z.compare Pos.compare Pos.compare_cont Z.sub Z.add Z.opp Z.pos_sub Pos.pred_double].
    change (get [a; a] 0) with (Ok a). change (get [a; a] 1) with (Ok a). cbn [bind].
    replace (a >=? a) with true by (symmetry; apply Z.geb_le; lia). cbn [negb].
    replace (a >? a) with false by (symmetry; rewrite Z.gtb_ltb; apply Z.ltb_ge; lia). cbn [orb].
    unfold guess_int. rewrite Z.sub_diag, Z.eqb_refl.
    destruct ((0 <? lo) || (hi <? 0) || (0 <? lo) || (hi <? 0))%bool; reflexivity.
Qed.

(** non-vacuity: concrete grids meeting the hypotheses *)
Example C05_ex_double : binSearchF (fofZe 5 (-1)) [fofZ 0; fofZ 1; fofZ 2; fofZ 7] = Ok 2.
Proof. vm_compute. reflexivity. Qed.
Example C05_ex_int : binSearchInt (-2^31) (2^31-1) 5 [0; 1; 5; 7] = Ok 2.
Proof. reflexivity. Qed.
Example C05_ex_hyp : is_finite (fsub (fofZ 7) (fofZ 0)) = true /\ fltb (fsub (fofZ 2) (fofZ 0)) (fsub (fofZ 7) (fofZ 0)) = true.
Proof. vm_compute. split; reflexivity. Qed.
Print Assumptions C05_binSearch_double_partial.
Print Assumptions C05_binSearch_int.
Print Assumptions C05_binSearch_double_refuted.
