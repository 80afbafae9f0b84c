(** C18, C19: the adaptive multidimensional sampler (src/math_sample.cpp). *)
From Coq Require Import Lra Permutation FunctionalExtensionality.
From Verif Require Import Arr PolyModel PolyProofs SampleModel SampleSpec SampleProofs SampleProofs2 SampleProofs3 SampleProofs4 SampleProofs5 SampleProofs6 SampleProofs7 SampleProofs8.
From Flocq Require Import Core.Raux.
Local Open Scope Z_scope.

Lemma rsum_lsum l : rsum l = lsum l. Proof. induction l as [|x l IH]; cbn; [reflexivity|]. fold (rsum l). rewrite IH. reflexivity. Qed.
Lemma listing e s D own pth l : Inv e s D own pth -> lists_points s l -> Permutation l (enum s own).
Proof.
  intros V (N & H). apply NoDup_Permutation; [exact N|apply (nodup_of_map snd); eapply enum_nodup; eauto|]. intros (c, p). rewrite H, in_enum. apply (inv_belongs e s D own pth c p V).
Qed.
Lemma history_inv e s : good_env e -> history e s -> 0 <= npoints s /\ exists own pth, Inv e s (full s) own pth.
Proof.
  intros G H. induction H as [s (H1 & (w & Hw & Ew) & H2 & H3 & H4)|s s' c d lo up p H IH Hb Hd HB E|s s' c p H IH Hb E|s s' c n H IH Hc Lc Hn E|s s' q q' c H IH Hc E|s s' first last H IH Hf Hl E].
  - split; [unfold npoints; lia|]. exists (fun _ => []), (fun _ => []). assert (C0 : forall c, is_cell s c -> c = 0) by (unfold is_cell; intros; lia).
    assert (NP : npoints s = 0) by exact H4.
    constructor.
    + constructor; try (intros; lia); try reflexivity. intros c Hc. left. rewrite (C0 c Hc), Ew. reflexivity.
    + lia.
    + rewrite NP. lia.
    + intros c Hc. rewrite (C0 c Hc). unfold the_cell. rewrite Ew. cbn. lia.
    + intros c p _ [].
    + intros p Hp. exact Hp.
    + intros c _. constructor.
    + intros c c' p _ _ [].
    + intros p Hp. unfold full in Hp. lia.
    + intros c p _ [].
    + intros c p _ [].
    + intros c Hc. rewrite (C0 c Hc). unfold the_cell. rewrite Ew. exact Hw.
  - destruct IH as (NP & own & pth & V). apply (inv_belongs _ _ _ _ _ _ _ V) in Hb. destruct Hb as (Hc & I). destruct (box_of_path e s pth (v_tree _ _ _ _ _ V) c lo up HB) as (_ & B).
    assert (Ho : own c <> []) by (intros Eo; rewrite Eo in I; destruct I).
    destruct (splitCell_ok e s (full s) own pth c d G V Hc Ho Hd) as (s1 & E1 & V1 & _ & F1 & _). destruct (B d Hd) as (-> & ->) in E.
    replace ((blo e (pth c) d + bup e (pth c) d) / 2)%R with (/ 2 * (blo e (pth c) d + bup e (pth c) d))%R in E by field. rewrite E1 in E. injection E as <-.
    split; [unfold npoints; rewrite F1; exact NP|]. do 2 eexists. rewrite (full_eq s s1 F1). exact V1.
  - destruct IH as (NP & own & pth & V). apply (inv_belongs _ _ _ _ _ _ _ V) in Hb. destruct Hb as (Hc & I). assert (Ho : own c <> []) by (intros Eo; rewrite Eo in I; destruct I).
    destruct (decide_ok e s (full s) own pth c G V Hc Ho) as (d & Hd & Ed). rewrite Ed in E.
    destruct (splitCell_ok e s (full s) own pth c d G V Hc Ho Hd) as (s1 & E1 & V1 & _ & F1 & _). rewrite E1 in E. injection E as <-.
    split; [unfold npoints; rewrite F1; exact NP|]. do 2 eexists. rewrite (full_eq s s1 F1). exact V1.
  - destruct IH as (NP & own & pth & V). pose proof (grow_inv e s own pth n G V Hn) as VG. set (g := grow e s n) in *. assert (NG : npoints g = n) by reflexivity.
    rewrite (addPoints_eq e g pth c (npoints s) n G (v_tree _ _ _ _ _ VG) Hc (v_next _ _ _ _ _ VG) (v_coord _ _ _ _ _ VG)) in E by lia. injection E as <-.
    split; [cbn; lia|]. exists (own_add own c (npoints s) n), pth. apply inv_D_ext with (D := fun p => full s p \/ npoints s <= p < n).
    + intros p. unfold full. change (npoints (addp e g (pth c) c (npoints s) n)) with n. lia.
    + apply addp_inv; try assumption; try lia. intros p Hp. unfold full. lia.
  - destruct IH as (NP & own & pth & V). rewrite (addCellToQueue_ok e s (full s) own pth q c V Hc) in E. injection E as <- <-. split; [exact NP|]. exists own, pth. apply (halved_inv e s (full s) own pth c V Hc).
  - destruct IH as (NP & own & pth & V). pose proof (eval_ok e s first last (g_dim e G) Hf Hl (v_coord _ _ _ _ _ V)) as EO. rewrite E in EO. cbn in EO. destruct EO as (fv & -> & A & _).
    split; [unfold npoints in *; cbn; lia|]. exists own, pth. constructor; try (apply V).
    + unfold npoints. cbn. rewrite A. apply (v_next _ _ _ _ _ V).
    + unfold npoints. cbn. rewrite A. apply (v_coord _ _ _ _ _ V).
    + intros k p Hk I. unfold full, npoints. cbn. rewrite A. apply (v_rng _ _ _ _ _ V k p Hk I).
    + intros p Hp. exact Hp.
    + intros p Hp. unfold full, npoints in Hp. cbn in Hp. rewrite A in Hp. apply (v_cover _ _ _ _ _ V p Hp).
Qed.

(** After any history of splittings, additions of points, weight changes and evaluations, the cells are consistent:
    every stored point belongs to exactly one cell, that cell is a leaf and contains it, and the leaves tile the region *)
Theorem C18_any_history_is_consistent : forall e s, good_env e -> history e s -> consistent e s.
Proof. intros e s G H. destruct (history_inv e s G H) as (_ & own & pth & V). eapply inv_consistent; eauto. Qed.
(** ... and the next operation never has undefined behaviour (out-of-range access, failed assertion) or an endless list traversal *)
Theorem C18_operations_are_safe : forall e s, good_env e -> history e s ->
  (forall c p, belongs s c p -> exists s', decideHowToSplitCell e s c = Ok s') /\
  (forall c d lo up p, belongs s c p -> 0 <= d < Ndim e -> cell_box e s c lo up -> exists s', splitCell e s c d ((lo d + up d) / 2)%R = Ok s') /\
  (forall c n, is_cell s c -> npoints s <= n -> exists s', addPointsToCell e (grow e s n) c (npoints s) n = Ok s') /\
  (forall c q, is_cell s c -> exists s' q', addCellToQueue s q c = Ok (s', q')).
Proof.
  intros e s G H. destruct (history_inv e s G H) as (NP & own & pth & V). repeat split.
  - intros c p Hb. apply (inv_belongs _ _ _ _ _ _ _ V) in Hb. destruct Hb as (Hc & I). assert (Ho : own c <> []) by (intros Eo; rewrite Eo in I; destruct I).
    destruct (decide_ok e s (full s) own pth c G V Hc Ho) as (d & Hd & ->). destruct (splitCell_ok e s (full s) own pth c d G V Hc Ho Hd) as (s1 & E1 & _). eauto.
  - intros c d lo up p Hb Hd HB. apply (inv_belongs _ _ _ _ _ _ _ V) in Hb. destruct Hb as (Hc & I). assert (Ho : own c <> []) by (intros Eo; rewrite Eo in I; destruct I).
    destruct (box_of_path e s pth (v_tree _ _ _ _ _ V) c lo up HB) as (_ & B). destruct (B d Hd) as (-> & ->).
    destruct (splitCell_ok e s (full s) own pth c d G V Hc Ho Hd) as (s1 & E1 & _). exists s1. rewrite <- E1. f_equal. field.
  - intros c n Hc Hn. pose proof (grow_inv e s own pth n G V Hn) as VG.
    rewrite (addPoints_eq e (grow e s n) pth c (npoints s) n G (v_tree _ _ _ _ _ VG) Hc (v_next _ _ _ _ _ VG) (v_coord _ _ _ _ _ VG)) by (try (change (npoints (grow e s n)) with n); lia). eauto.
  - intros c q Hc. rewrite (addCellToQueue_ok e s (full s) own pth q c V Hc). eauto.
Qed.
(** getCellBoundaries, which climbs from the cell to the root, returns the box obtained by halving from the root downwards *)
Theorem C18_boundaries_are_the_box : forall e s c, good_env e -> history e s -> is_cell s c ->
  exists lo up, cell_box e s c lo up /\
  exists blo bup, getCellBoundaries e (cells s) c = Ok (blo, bup) /\ forall d, 0 <= d < Ndim e -> afn blo d = lo d /\ afn bup d = up d.
Proof.
  intros e s c G H Hc. destruct (history_inv e s G H) as (NP & own & pth & V). pose proof (v_tree _ _ _ _ _ V) as T.
  destruct (path_box e s pth T (S (Z.to_nat c)) c Hc ltac:(lia)) as (lo & up & B). exists lo, up. split; [exact B|].
  destruct (boundaries_ok e (cells s) pth c T Hc) as (bl & bu & E & _ & _ & Q). exists bl, bu. split; [exact E|]. intros d Hd. destruct (box_of_path e s pth T c lo up B) as (_ & P). destruct (P d Hd) as (-> & ->). exact (Q d Hd).
Qed.
(** The complete refinement procedure: never undefined behaviour; on success the final cells and points are consistent, every point carries
    the value of the user's function at its coordinates, the integral is the weighted sum and no point outweighs one output sample *)
Theorem C18_run : forall F e, good_env e -> 1 <= Nout e ->
  match run F e (anew 1 cell0) with
  | Ok (s, T) => consistent e s /\ (0 < T)%R /\ numInitSamples e <= npoints s /\
      (forall p, 0 <= p < npoints s -> fnc e (point e (coords s) p) = Some (afn (fvals s) p) /\ (0 <= afn (fvals s) p)%R) /\
      (forall l, lists_points s l -> T = rsum (map (weighted s) l)) /\
      (forall c p, belongs s c p -> (weighted s (c, p) <= T / IZR (Nout e))%R)
  | UB => False
  | Throw | Fuel => True
  end.
Proof.
  intros F e G HN. pose proof (run_ok F e G ltac:(lia)) as RO. destruct (run F e (anew 1 cell0)) as [(s, T)| | |]; auto. cbn in RO. destruct RO as (own & pth & [V FVs NP ET HT] & LT & NI).
  split; [eapply inv_consistent; eauto|]. split; [exact HT|]. split; [exact NI|]. split; [exact FVs|]. split.
  - intros l Hl. rewrite (rsum_lsum (map (weighted s) l)). rewrite ET at 1. apply lsum_perm. apply Permutation_map. symmetry. eapply listing; eauto.
  - intros c p Hb. apply (inv_belongs _ _ _ _ _ _ _ V) in Hb. apply in_enum in Hb. specialize (LT _ Hb). assert (1 <= IZR (Nout e))%R by (apply IZR_le; lia).
    apply Rmult_le_reg_r with (IZR (Nout e)); [lra|]. unfold Rdiv. rewrite Rmult_assoc, Rinv_l by lra. rewrite Rmult_1_r. exact LT.
Qed.
(** The result does not depend on the order in which the iterations of the parallel loop over cells are executed *)
Theorem C18_result_independent_of_schedule : forall F e js o1 o2, good_env e -> 0 <= Nout e -> (forall l, Permutation (o1 l) l) -> (forall l, Permutation (o2 l) l) ->
  sampleNdim F (with_order e o1) js = sampleNdim F (with_order e o2) js.
Proof. intros F e js o1 o2 G HN H1 H2. rewrite (sampleNdim_ord e o1 G H1 F js HN). rewrite (sampleNdim_ord e o2 G H2 F js HN). reflexivity. Qed.
(** The loop over the growing list of cells terminates, if no two stored points coincide in any coordinate *)
Theorem C18_loop_over_cells_terminates : forall e s T, good_env e -> (0 < T)%R -> 0 <= Nout e -> history e s -> all_distinct e s ->
  exists F0, forall F, (F0 <= F)%nat -> exists r, processCells F e T 0 s [] = Ok r.
Proof. intros e s T G HT HN H AD. destruct (history_inv e s G H) as (_ & own & pth & V). eapply loop_terminates; eauto. Qed.

(** drawSamples after a successful run: the output has exactly the requested number of rows; each is a different stored point
    with a positive function value, inside the region; each cell contributes its share of points, up to less than one *)
Theorem C19_exactly_N_distinct_points : forall F e js s T, good_env e -> 1 <= Nout e -> length js = Z.to_nat (Nout e) -> run F e (anew 1 cell0) = Ok (s, T) ->
  exists out sel, drawSamples e s T js = Ok out /\ alen out = Nout e * Ndim e /\ length sel = Z.to_nat (Nout e) /\ NoDup sel /\
    (forall r p, nth_error sel r = Some p -> 0 <= p < npoints s /\ (0 < afn (fvals s) p)%R /\ inside e (xlower e) (xupper e) (pt e s p) /\
       forall d, 0 <= d < Ndim e -> afn out (Z.of_nat r * Ndim e + d) = pt e s p d) /\
    (forall c lp, is_cell s c -> NoDup lp -> (forall p, In p lp <-> belongs s c p) ->
       exists lc, NoDup lc /\ (forall p, In p lc <-> belongs s c p /\ In p sel) /\
         (Rabs (IZR (Z.of_nat (length lc)) - IZR (Nout e) * (rsum (map (fun p => weighted s (c, p)) lp) / T)) < 1)%R).
Proof.
  intros F e js s T G HN LJ ER. pose proof (run_ok F e G ltac:(lia)) as RO. rewrite ER in RO. cbn in RO. destruct RO as (own & pth & RI & LT & NI).
  destruct (draw_ok e s T own pth js G HN RI LT LJ) as (out & selp & ED & LO & LS & PS & RS). destruct RI as [V FVs NP ET HT].
  assert (HNr : (1 <= IZR (Nout e))%R) by (apply IZR_le; lia). set (osw := (T / IZR (Nout e))%R) in *. assert (Ho : (0 < osw)%R) by (apply Rmult_lt_0_compat; [exact HT|apply Rinv_0_lt_compat; lra]).
  assert (Hw : forall x, In x (enum s own) -> (0 <= W s x <= osw)%R).
  { intros (c, p) I. pose proof (LT _ I) as L1. apply in_enum in I. destruct I as (Hc & I). pose proof (v_w _ _ _ _ _ V c Hc) as Wc. destruct (FVs p (v_D _ _ _ _ _ V p (v_rng _ _ _ _ _ V c p Hc I))) as (_ & F0).
    split; [unfold W; cbn; apply Rmult_le_pos; lra|]. unfold osw. apply Rmult_le_reg_r with (IZR (Nout e)); [lra|]. unfold Rdiv. rewrite Rmult_assoc, Rinv_l by lra. rewrite Rmult_1_r. exact L1. }
  assert (P0 : pinv osw 0 0) by (unfold pinv; cbn; lra). set (ch := pick osw (W s) (enum s own) 0 0) in *.
  assert (NDc : NoDup (map snd ch)) by (apply pick_nodup; eapply enum_nodup; eauto).
  exists out, (map snd selp). split; [exact ED|]. split; [exact LO|]. split; [rewrite map_length; exact LS|]. split; [apply Permutation_NoDup with (map snd ch); [apply Permutation_map; symmetry; exact PS|exact NDc]|]. split.
  - intros r p Hr. rewrite nth_error_map in Hr. destruct (nth_error selp r) as [(c, q)|] eqn:En; [|discriminate]. cbn in Hr. injection Hr as ->.
    assert (Ic : In (c, p) ch) by (apply (Permutation_in _ PS); eapply nth_error_In; eauto). pose proof (pick_in _ _ _ _ _ _ Ic) as Ie. pose proof (pick_pos osw (W s) Ho _ _ _ _ Hw P0 Ic) as Pos.
    apply in_enum in Ie. destruct Ie as (Hc & I). pose proof (v_rng _ _ _ _ _ V c p Hc I) as Dp. split; [exact Dp|]. destruct (FVs p Dp) as (_ & F0). unfold W in Pos. cbn in Pos.
    split; [destruct (Rle_lt_or_eq_dec _ _ F0) as [L|L]; [exact L|rewrite <- L in Pos; lra]|]. split; [|intros d Hd; apply (RS r (c, p) En d Hd)].
    assert (PI : pinside e [] (pt e s p)).
    { pose proof (v_box _ _ _ _ _ V c p Hc I) as B. revert B. generalize (pth c). intros l. induction l as [|(k, b) l IH]; intros B; [exact B|]. apply IH. eapply pinside_parent; [apply (g_box e G)|exact B]. }
    intros d Hd. specialize (PI d Hd). rewrite blo_nil, bup_nil in PI. exact PI.
  - intros c lp Hc NL HL.
    assert (SP : exists l1 l3, enum s own = l1 ++ map (fun p => (c, p)) (own c) ++ l3 /\ (forall x, In x l1 \/ In x l3 -> fst x <> c)).
    { unfold enum. unfold is_cell in Hc. rewrite (zseq_app 0 c (alen (cells s))) by lia. rewrite (zseq_cons c) by lia. rewrite flat_map_app. cbn [flat_map]. do 2 eexists. split; [reflexivity|].
      intros (k, p) [I|I]; apply in_flat_map in I; destruct I as (j & Ij & I); apply in_map_iff in I; destruct I as (z & E & _); injection E as <- <-; apply in_zseq in Ij; cbn; lia. }
    destruct SP as (l1 & l3 & ES & NC). destruct (pick_quota osw (W s) Ho l1 (map (fun p => (c, p)) (own c)) l3) as (p1 & p2 & p3 & EP & I1 & I2 & I3 & Q). { rewrite <- ES. exact Hw. }
    rewrite <- ES in EP. fold ch in EP. exists (map snd p2). split; [|split].
    + rewrite EP in NDc. rewrite !map_app in NDc. clear - NDc. revert NDc. generalize (map snd p1) (map snd p2) (map snd p3). intros a b d N. induction a as [|x a IH]; cbn in N.
      * induction b as [|y b IHb]; [constructor|]. cbn in N. apply NoDup_cons_iff in N. destruct N as [N1 N2]. constructor; [intros I; apply N1; apply in_or_app; left; exact I|auto].
      * apply NoDup_cons_iff in N. apply IH. apply N.
    + intros p. rewrite (inv_belongs _ _ _ _ _ _ _ V). rewrite !in_map_iff. split.
      * intros ((k, z) & E & I). cbn in E. subst z. pose proof (I2 _ I) as J. apply in_map_iff in J. destruct J as (z & E & J). injection E as <- <-. split; [auto|]. exists (c, z). split; [reflexivity|]. apply (Permutation_in _ (Permutation_sym PS)). rewrite EP. apply in_or_app. right. apply in_or_app. left. exact I.
      * intros ((_ & Io) & ((k, z) & E & I)). cbn in E. subst z. apply (Permutation_in _ PS) in I. pose proof (pick_in _ _ _ _ _ _ I) as Ie. apply in_enum in Ie. destruct Ie as (Hk & Ik). assert (k = c) by (eapply (v_disj _ _ _ _ _ V); eauto). subst k.
        exists (c, p). split; [reflexivity|]. rewrite EP in I. apply in_app_or in I. destruct I as [I|I]; [exfalso; apply (NC (c, p) (or_introl (I1 _ I))); reflexivity|]. apply in_app_or in I. destruct I as [I|I]; [exact I|]. exfalso. apply (NC (c, p) (or_intror (I3 _ I))). reflexivity.
    + rewrite map_length. replace (IZR (Nout e) * (rsum (map (fun p => weighted s (c, p)) lp) / T))%R with (lsum (map (W s) (map (fun p => (c, p)) (own c))) / osw)%R; [exact Q|].
      rewrite (rsum_lsum (map (fun p => weighted s (c, p)) lp)). replace (lsum (map (fun p => weighted s (c, p)) lp)) with (lsum (map (W s) (map (fun p => (c, p)) (own c)))); [unfold osw; field; split; lra|].
      rewrite map_map. apply lsum_perm. apply (Permutation_map (fun p => W s (c, p))). apply NoDup_Permutation; [apply (v_nodup _ _ _ _ _ V c Hc)|exact NL|]. intros p. rewrite HL. rewrite (inv_belongs _ _ _ _ _ _ _ V). tauto.
Qed.
Lemma newSampler_eq e : good_env e -> Ndim e <= 10 -> exists vol, newSampler e = Ok (vol, anew 1 cell0) /\ vol = fold_left Rmult (map (fun d => (xupper e (Z.of_nat d) - xlower e (Z.of_nat d))%R) (seq 0 (Z.to_nat (Ndim e)))) 1%R.
Proof.
  intros G H. unfold newSampler, MAX_PRIMES. rewrite (proj2 (Z.ltb_ge _ _)) by lia. rewrite for_foldm.
  rewrite (foldm_pure _ (fun v d => (v * (xupper e d - xlower e d))%R)). 2:{ intros d v I. apply in_zseq in I. rewrite (Rlt_b_t _ _ (g_box e G d I)). reflexivity. }
  cbn [bind]. eexists. split; [reflexivity|]. unfold zseq. rewrite Z.sub_0_r. generalize 1%R. generalize (Z.to_nat (Ndim e)). intros n.
  assert (Q : forall m a v, fold_left (fun v d => (v * (xupper e d - xlower e d))%R) (zseqn m (Z.of_nat a)) v = fold_left Rmult (map (fun d => (xupper e (Z.of_nat d) - xlower e (Z.of_nat d))%R) (seq a m)) v).
  { induction m as [|m IH]; intros a v; cbn; [reflexivity|]. replace (Z.of_nat a + 1) with (Z.of_nat (S a)) by lia. apply IH. }
  intros v. apply (Q n O v).
Qed.
(** End to end: for every function, region, number of samples, random choices and schedule, sampleNdim never has undefined behaviour; when it
    returns, the matrix has exactly the requested number of rows, each inside the region with positive function value, the reported integral
    is positive, and at least N function evaluations were made *)
Theorem C19_sampleNdim : forall F e js, good_env e -> Ndim e <= 10 -> 1 <= Nout e -> length js = Z.to_nat (Nout e) ->
  match sampleNdim F e js with
  | Ok (out, trials, integral) =>
      alen out = Nout e * Ndim e /\ numInitSamples e <= trials /\ Nout e <= trials /\ (0 < integral)%R /\
      (forall r, 0 <= r < Nout e -> (exists v, fnc e (row (Ndim e) out r) = Some v /\ (0 < v)%R) /\
         forall d, 0 <= d < Ndim e -> (xlower e d <= afn out (r * Ndim e + d) < xupper e d)%R)
  | UB => False
  | Throw | Fuel => True
  end.
Proof.
  intros F e js G H10 HN LJ. unfold sampleNdim. destruct (newSampler_eq e G H10) as (vol & -> & Ev). cbn [bind snd fst].
  pose proof (C18_run F e G HN) as CR. destruct (run F e (anew 1 cell0)) as [(s, T)| | |] eqn:ER; cbn [bind fst snd]; auto. destruct CR as (_ & HT & NI & FVs & _).
  destruct (C19_exactly_N_distinct_points F e js s T G HN LJ ER) as (out & sel & -> & LO & LS & NDs & RS & _). cbn [bind]. split; [exact LO|]. split; [exact NI|]. split; [|split].
  - fold (npoints s). assert (length sel <= Z.to_nat (npoints s))%nat; [|lia]. apply nodup_range_length; [exact NDs|]. intros p I. apply In_nth_error in I. destruct I as (r & I). apply (RS r p I).
  - apply Rmult_lt_0_compat; [|exact HT]. rewrite Ev.
    assert (Q : forall l v, (0 < v)%R -> (forall x, In x l -> (0 < x)%R) -> (0 < fold_left Rmult l v)%R).
    { induction l as [|x l IH]; intros v Hv Hl; cbn; [exact Hv|]. apply IH; [apply Rmult_lt_0_compat; [exact Hv|apply Hl; left; reflexivity]|intros y I; apply Hl; right; exact I]. }
    apply Q; [lra|]. intros x I. apply in_map_iff in I. destruct I as (d & <- & I). apply in_seq in I. pose proof (g_box e G (Z.of_nat d) ltac:(lia)). lra.
  - intros r Hr. destruct (nth_error sel (Z.to_nat r)) as [p|] eqn:En; [|apply nth_error_None in En; lia]. destruct (RS _ _ En) as (Hp & Pp & Ip & Ro). rewrite Z2Nat.id in Ro by lia.
    assert (Er : row (Ndim e) out r = point e (coords s) p). { unfold row, point. apply map_ext_in. intros d I. apply in_seq in I. apply (Ro (Z.of_nat d)). lia. }
    split; [exists (afn (fvals s) p); split; [rewrite Er; apply FVs; exact Hp|exact Pp]|]. intros d Hd. rewrite (Ro d Hd). apply Ip. exact Hd.
Qed.

(** ---- a class of inputs for which the procedure is known to succeed: constant functions, up to 2^20 samples ---- *)
Lemma eval_nothrow e s first last : 1 <= Ndim e -> 0 <= first <= last -> last <= npoints s -> alen (coords s) = npoints s * Ndim e -> (forall x, exists v, fnc e x = Some v /\ (0 <= v)%R) ->
  exists s', evalFncLoop e s first last = Ok s'.
Proof.
  intros GD H1 H2 LC HF. unfold evalFncLoop.
  match goal with |- context [for_ first last ?b ?i] => destruct (for_total (fun _ fv => alen fv = npoints s) first last b i) as (fv & -> & _) end; [lia|reflexivity| |cbn [bind]; eauto].
  intros p fv Hp A. rewrite (proj2 (Z.leb_le 0 p)) by lia. rewrite (proj2 (Z.leb_le ((p + 1) * Ndim e) _)) by (rewrite LC; nia). cbn [andb negb].
  destruct (HF (point e (coords s) p)) as (v & -> & Hv). rewrite (Rlt_b_f v 0) by exact Hv. rewrite aset_ok by lia. eexists. split; [reflexivity|]. exact A.
Qed.
Lemma computeResult_total e s own pth : Inv e s (full s) own pth -> 0 <= npoints s -> (0 < lsum (map (W s) (enum s own)))%R -> exists r, computeResult e s = Ok r.
Proof.
  intros V NP HT. unfold computeResult.
  rewrite (loop_enum e s (full s) own pth (fun c cc p acc => let '(count, integ, mx) := acc in f <- aget (fvals s) p ;; let w := (f * c_weight cc)%R in Ok (count + 1, (integ + w)%R, Rmax mx w))) by exact V.
  rewrite (foldm_pure _ (stats s)).
  2:{ intros (c, p) ((count, integ), mx) I. apply in_enum in I. destruct I as (Hc & I). pose proof (v_D _ _ _ _ _ V p (v_rng _ _ _ _ _ V c p Hc I)) as Hp. cbn [fst snd]. rewrite aget_ok by exact Hp. reflexivity. }
  cbn [bind]. pose proof (stats_spec s (enum s own) 0 0%R 0%R) as ST. destruct (fold_left (stats s) (enum s own) (0, 0%R, 0%R)) as ((count, integ), mx). destruct ST as (E1 & E2 & _).
  assert (C : count = alen (fvals s)).
  { rewrite E1. rewrite <- (map_length snd). rewrite (Permutation_length (enum_perm e s own pth V)). rewrite zseq_len. unfold npoints in *. lia. }
  rewrite C, Z.eqb_refl. cbn [negb]. rewrite (Rle_b_f integ 0) by lra. eauto.
Qed.
Lemma lsum_const (A : Type) (f : A -> R) (l : list A) k : (forall x, In x l -> f x = k) -> lsum (map f l) = (IZR (Z.of_nat (length l)) * k)%R.
Proof.
  induction l as [|x l IH]; intros H; [cbn; ring|]. cbn [map lsum length]. rewrite H by (left; reflexivity). rewrite IH by (intros y I; apply H; right; exact I). rewrite Nat2Z.inj_succ, succ_IZR. ring.
Qed.
Theorem C19_constant_function : forall F e js K, good_env e -> Ndim e <= 10 -> 1 <= Nout e <= 1048576 -> length js = Z.to_nat (Nout e) -> (0 < K)%R -> (forall x, fnc e x = Some K) ->
  exists out, sampleNdim F e js = Ok (out, numInitSamples e, (fold_left Rmult (map (fun d => xupper e (Z.of_nat d) - xlower e (Z.of_nat d)) (seq 0 (Z.to_nat (Ndim e)))) 1 * K)%R).
Proof.
  intros F e js K G H10 HN LJ HK HF. unfold sampleNdim. destruct (newSampler_eq e G H10) as (vol & -> & Ev). cbn [bind snd fst]. rewrite <- Ev.
  pose proof (numInit_pos e ltac:(lia)) as NI. set (n := numInitSamples e) in *.
  assert (Nn : Nout e <= n). { unfold n, numInitSamples, maxInitSamples, minNumPointsInCell. pose proof (Z.div_mod (Nout e) 256 ltac:(lia)). pose proof (Z.mod_pos_bound (Nout e) 256 ltac:(lia)). lia. }
  assert (Hn : (256 <= IZR n)%R) by (apply IZR_le; lia). assert (HNr : (1 <= IZR (Nout e) <= IZR n)%R) by (split; apply IZR_le; lia).
  assert (R1 : exists s, run F e (anew 1 cell0) = Ok (s, K) /\ npoints s = n).
  { unfold run. pose proof (init_ok e G ltac:(lia)) as IO.
    assert (EI : exists s, initState e (anew 1 cell0) = Ok s).
    { unfold initState. fold n. rewrite mod_cell_ok by (unfold is_cell; cbn; lia). cbn [bind].
      match goal with |- context [addPointsToCell e ?g 0 0 n] => assert (T : Tree e (cells g) (fun _ => [])) end.
      { constructor; try reflexivity; cbn; intros; try lia. left. unfold upd. destruct (c =? 0); reflexivity. }
      rewrite (addPoints_eq e _ (fun _ => []) 0 0 n G T) by (try reflexivity; try (unfold is_cell; cbn; lia); cbn; lia). cbn [bind]. apply eval_nothrow; try reflexivity; try (cbn; lia); [apply (g_dim e G)|].
      intros x. exists K. split; [apply HF|lra]. }
    destruct EI as (s & EI). rewrite EI in IO |- *. cbn [bind sf] in IO |- *. destruct IO as (own & pth & V & FVs & NPs & C1 & Wt). fold n in NPs, Wt.
    assert (WK : forall x, In x (enum s own) -> W s x = (K * (1 / IZR n))%R).
    { intros (c, p) I. apply in_enum in I. destruct I as (Hc & I). assert (c = 0) by (unfold is_cell in Hc; lia). subst c. unfold W. cbn [fst snd]. rewrite Wt. f_equal.
      destruct (FVs p (v_D _ _ _ _ _ V p (v_rng _ _ _ _ _ V 0 p Hc I))) as (E & _). rewrite HF in E. congruence. }
    assert (LE : Z.of_nat (length (enum s own)) = n). { rewrite <- (map_length snd). rewrite (Permutation_length (enum_perm e s own pth V)). rewrite zseq_len, NPs. lia. }
    assert (TK : lsum (map (W s) (enum s own)) = K). { rewrite (lsum_const _ _ _ _ WK), LE. field. lra. }
    destruct (computeResult_total e s own pth V ltac:(lia) ltac:(rewrite TK; exact HK)) as (r & Er). pose proof (computeResult_ok e s own pth V ltac:(lia) ltac:(lia)) as CR. rewrite Er in CR |- *. cbn [bind sf] in CR |- *. cbv zeta in CR. rewrite TK in CR.
    destruct CR as (E1 & _ & _ & B). rewrite Rle_b_t.
    - exists s. split; [rewrite E1; reflexivity|exact NPs].
    - destruct (Rle_lt_dec (snd r) 1) as [|L]; [assumption|]. exfalso. destruct (B L) as (c & p & Hc & I & HV). unfold heavy in HV. assert (Ic : In (c, p) (enum s own)) by (apply in_enum; auto). specialize (WK _ Ic). unfold W in WK. cbn [fst snd] in WK. rewrite WK in HV.
      replace (K * (1 / IZR n) * IZR (Nout e) / K)%R with (IZR (Nout e) / IZR n)%R in HV by (field; lra). assert (IZR (Nout e) / IZR n <= 1)%R; [|lra]. apply Rmult_le_reg_r with (IZR n); [lra|]. unfold Rdiv. rewrite Rmult_assoc, Rinv_l by lra. lra. }
  destruct R1 as (s & ER & NPs). rewrite ER. cbn [bind fst snd]. destruct (C19_exactly_N_distinct_points F e js s K G ltac:(lia) LJ ER) as (out & sel & -> & _). cbn [bind]. exists out. fold (npoints s). rewrite NPs. reflexivity.
Qed.

(** ---- examples: the hypotheses are met ---- *)
Definition ex_env : env := mkEnv 2 (fun _ => 0%R) (fun _ => 1%R) 3 (fun x => Some 5%R) (fun a b p d => (1 / (2 + Rabs (IZR p)))%R) (@rev (Z * Z * Z)).
Example ex_env_good : good_env ex_env.
Proof.
  constructor; cbn; intros.
  - lia.
  - lra.
  - assert (0 <= Rabs (IZR p))%R by apply Rabs_pos. split; [apply Rmult_le_pos; [lra|left; apply Rinv_0_lt_compat; lra]|]. apply Rmult_lt_reg_r with (2 + Rabs (IZR p))%R; [lra|]. unfold Rdiv. rewrite Rmult_assoc, Rinv_l by lra. lra.
  - symmetry. apply Permutation_rev.
Qed.
Example ex_success : exists out, sampleNdim 0 ex_env [0; 0; 0]%nat = Ok (out, 256, (1 * (1 - 0) * (1 - 0) * 5)%R).
Proof. destruct (C19_constant_function 0 ex_env [0; 0; 0]%nat 5%R ex_env_good) as (out & E); try (cbn; lia); try lra; [reflexivity|]. exists out. exact E. Qed.
(** a history with a split cell and points in it *)
Definition ex_s0 : smp := mkSmp (anew 1 (set_weight cell0 (/ 4)%R)) (anew 0 0) (anew 0 0%R) (anew 0 0%R).
Example ex_history : exists s, history ex_env s /\ alen (cells s) = 3 /\ npoints s = 4 /\ all_distinct ex_env s.
Proof.
  assert (H0 : history ex_env ex_s0). { apply h_start. repeat split; try reflexivity. exists (/ 4)%R. split; [lra|reflexivity]. }
  destruct (history_inv ex_env ex_s0 ex_env_good H0) as (_ & own & pth & V).
  destruct (proj1 (proj2 (proj2 (C18_operations_are_safe ex_env ex_s0 ex_env_good H0))) 0 4) as (s1 & E1). { unfold is_cell; cbn; lia. } { cbn; lia. }
  assert (H1 : history ex_env s1). { eapply (h_add ex_env ex_s0 s1 0 4); try exact E1; [exact H0|unfold is_cell; cbn; lia|reflexivity|cbn; lia]. }
  pose proof (grow_inv ex_env ex_s0 own pth 4 ex_env_good V ltac:(cbn; lia)) as VG.
  assert (ES : s1 = addp ex_env (grow ex_env ex_s0 4) (pth 0) 0 0 4).
  { change (npoints ex_s0) with 0 in E1. rewrite (addPoints_eq ex_env (grow ex_env ex_s0 4) pth 0 0 4 ex_env_good (v_tree _ _ _ _ _ VG)) in E1; [congruence|unfold is_cell; cbn; lia|reflexivity|reflexivity|lia|cbn; lia]. }
  assert (PT : forall p d, 0 <= p < 4 -> 0 <= d < 2 -> pt ex_env s1 p d = (1 / (2 + IZR p))%R).
  { intros p d Hp Hd. unfold pt. rewrite ES. change 2 with (Ndim ex_env) in Hd. rewrite addp_coord by (try exact Hd; cbn; lia). rewrite (proj2 (Z.leb_le _ _)), (proj2 (Z.ltb_lt _ _)) by lia. cbn [andb].
    rewrite (t_root _ _ _ (v_tree _ _ _ _ _ VG)). rewrite blo_nil, bup_nil. cbn [xlower xupper unif ex_env]. rewrite Rabs_right by (apply Rle_ge, IZR_le; lia). field. assert (0 <= IZR p)%R by (apply IZR_le; lia). lra. }
  assert (AD : all_distinct ex_env s1).
  { intros p q d Hp Hq N Hd E. assert (NP : npoints s1 = 4) by (rewrite ES; reflexivity). rewrite NP in Hp, Hq. rewrite !PT in E by (try assumption; exact Hd). apply N. apply eq_IZR.
    assert (0 <= IZR p)%R by (apply IZR_le; lia). assert (0 <= IZR q)%R by (apply IZR_le; lia). unfold Rdiv in E. rewrite !Rmult_1_l in E. apply (f_equal Rinv) in E. rewrite !Rinv_inv in E. lra. }
  destruct (history_inv ex_env s1 ex_env_good H1) as (_ & own1 & pth1 & V1).
  assert (Hb : belongs s1 0 3). { apply (inv_belongs _ _ _ _ _ _ _ V1). destruct (v_cover _ _ _ _ _ V1 3) as (c & Hc & I). { unfold full. rewrite ES. cbn. lia. } assert (c = 0) by (unfold is_cell in Hc; rewrite ES in Hc; cbn in Hc; lia). subst c. auto. }
  pose proof Hb as Hb'. apply (inv_belongs _ _ _ _ _ _ _ V1) in Hb'. destruct Hb' as (Hc & I). assert (Ho : own1 0 <> []) by (intros Eo; rewrite Eo in I; destruct I).
  destruct (splitCell_ok ex_env s1 (full s1) own1 pth1 0 1 ex_env_good V1 Hc Ho ltac:(cbn; lia)) as (s2 & E2 & _ & C2 & F2 & A2 & _).
  exists s2. split; [|split; [|split]].
  - eapply (h_split ex_env s1 s2 0 1 (fun _ => 0%R) (fun _ => 1%R) 3); try assumption; [cbn; lia|apply (box_root ex_env s1)|].
    rewrite (t_root _ _ _ (v_tree _ _ _ _ _ V1)) in E2. rewrite blo_nil, bup_nil in E2. cbn [xlower xupper ex_env] in E2. rewrite <- E2. f_equal. field.
  - rewrite A2, ES. reflexivity.
  - unfold npoints. rewrite F2, ES. reflexivity.
  - unfold all_distinct, pt, npoints in *. rewrite C2, F2. exact AD.
Qed.

Print Assumptions C18_any_history_is_consistent.
Print Assumptions C18_operations_are_safe.
Print Assumptions C18_boundaries_are_the_box.
Print Assumptions C18_run.
Print Assumptions C18_result_independent_of_schedule.
Print Assumptions C18_loop_over_cells_terminates.
Print Assumptions C19_exactly_N_distinct_points.
Print Assumptions C19_sampleNdim.
Print Assumptions C19_constant_function.
