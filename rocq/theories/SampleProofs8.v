(** Proofs about the sampler, part 8: independence of the execution order of the parallel loop; termination of the loop over cells. *)
From Coq Require Import Lra Permutation FunctionalExtensionality.
From Verif Require Import Arr PolyModel PolyProofs SampleModel SampleSpec SampleProofs SampleProofs2 SampleProofs3 SampleProofs4 SampleProofs5 SampleProofs6 SampleProofs7.
From Flocq Require Import Core.Raux.
Local Open Scope Z_scope.

(** ---- execution order ---- *)
Definition with_order (e : env) (o : list (Z * Z * Z) -> list (Z * Z * Z)) : env := mkEnv (Ndim e) (xlower e) (xupper e) (Nout e) (fnc e) (unif e) o.
Section Ord.
Variables (e : env) (o : list (Z * Z * Z) -> list (Z * Z * Z)).
Let e' := with_order e o.
Lemma split_loop_ord fuel co child dim b : forall p cs nx, split_loop fuel e' co child dim b p cs nx = split_loop fuel e co child dim b p cs nx.
Proof using.
  induction fuel as [|fuel IH]; intros p cs nx; [reflexivity|]. cbn [split_loop]. change (Ndim e') with (Ndim e).
  destruct (aget nx p) as [z| | |]; cbn [bind]; auto. destruct (aget co (p * Ndim e + dim)) as [x| | |]; cbn [bind]; auto. destruct (aget cs _) as [cc| | |]; cbn [bind]; auto.
  destruct (if c_head cc <? 0 then _ else _) as [nx'| | |]; cbn [bind]; auto. destruct (aset cs _ _) as [cs'| | |]; cbn [bind]; auto. destruct (0 <=? z); auto.
Qed.
Lemma splitCell_ord s c dim b : splitCell e' s c dim b = splitCell e s c dim b.
Proof using.
  unfold splitCell. cbv zeta. repeat (match goal with |- bind ?r _ = bind ?r _ => destruct r; cbn [bind]; [|reflexivity|reflexivity|reflexivity] end).
  destruct (c_head a <? 0); [reflexivity|]. match goal with |- bind ?r _ = bind ?r _ => destruct r; cbn [bind]; [|reflexivity|reflexivity|reflexivity] end. rewrite split_loop_ord. reflexivity.
Qed.
Lemma decide_ord s c : decideHowToSplitCell e' s c = decideHowToSplitCell e s c.
Proof using.
  unfold decideHowToSplitCell. change (getCellBoundaries e' (cells s) c) with (getCellBoundaries e (cells s) c). change (Ndim e') with (Ndim e).
  destruct (getCellBoundaries e (cells s) c) as [b| | |]; cbn [bind]; [|reflexivity|reflexivity|reflexivity]. destruct (aget (cells s) c) as [cc| | |]; cbn [bind]; [|reflexivity|reflexivity|reflexivity]. destruct (c_head cc <? 0); [reflexivity|].
  match goal with |- bind ?r _ = bind ?r _ => destruct r as [h| | |]; cbn [bind]; [|reflexivity|reflexivity|reflexivity] end.
  match goal with |- bind ?r _ = bind ?r _ => destruct r as [bs| | |]; cbn [bind]; [|reflexivity|reflexivity|reflexivity] end.
  destruct (fst bs <? 0); [reflexivity|]. destruct (aget (fst b) (fst bs)) as [lo| | |]; cbn [bind]; [|reflexivity|reflexivity|reflexivity]. destruct (aget (snd b) (fst bs)) as [up| | |]; cbn [bind]; [|reflexivity|reflexivity|reflexivity]. apply splitCell_ord.
Qed.
Lemma processCell_ord T s q c : processCell e' T s q c = processCell e T s q c.
Proof using.
  unfold processCell. destruct (aget (cells s) c) as [cc| | |]; cbn [bind]; [|reflexivity|reflexivity|reflexivity]. match goal with |- bind ?r _ = bind ?r _ => destruct r as [((n, l1), l2)| | |]; cbn [bind]; [|reflexivity|reflexivity|reflexivity] end.
  destruct (n =? 0); [reflexivity|]. change (Nout e') with (Nout e). destruct (Rlt_b _ 1); [reflexivity|]. rewrite decide_ord. reflexivity.
Qed.
Lemma processCells_ord T F : forall c s q, processCells F e' T c s q = processCells F e T c s q.
Proof using.
  induction F as [|F IH]; intros c s q; cbn [processCells]; [reflexivity|]. destruct (alen (cells s) <=? c); [reflexivity|]. rewrite processCell_ord. destruct (processCell e T s q c); cbn [bind]; [|reflexivity|reflexivity|reflexivity]. apply IH.
Qed.
Lemma addAll_ord l : forall s, addAll e' s l = addAll e s l.
Proof using.
  induction l as [|((c, a), b) l IH]; intros s; cbn [addAll]; [reflexivity|]. change (addPointsToCell e' s c a b) with (addPointsToCell e s c a b). destruct (addPointsToCell e s c a b); cbn [bind]; [|reflexivity|reflexivity|reflexivity]. apply IH.
Qed.
Hypothesis G : good_env e.
Hypothesis Ho : forall l, Permutation (o l) l.
Lemma good_ord : good_env e'.
Proof using G Ho. destruct G. constructor; auto. Qed.
Lemma refineStep_ord F s T own pth : 0 <= Nout e -> RunInv e s T own pth -> refineStep F e' s T = refineStep F e s T.
Proof using G Ho.
  intros HN RI. unfold refineStep. rewrite processCells_ord.
  assert (PCs : sf (processCells F e T 0 s []) (fun r => exists own pth, PC e s T False (alen (cells (fst r))) (fst r) (snd r) own pth)).
  { apply (processCells_ok e s T False G (r_pos _ _ _ _ _ RI) HN F 0 s [] own pth); [lia|]. constructor; auto.
    - apply RI.
    - constructor.
    - intros c [].
    - exact Logic.I. }
  destruct (processCells F e T 0 s []) as [(s1, q)| | |]; cbn [bind]; [|reflexivity|reflexivity|reflexivity]. cbn in PCs. destruct PCs as (own1 & pth1 & P). destruct P.
  destruct (length q =? 0)%nat; [reflexivity|]. cbv zeta. rewrite last_qend. change (alen (fvals s1)) with (npoints s1). change (grow e' s1) with (grow e s1).
  assert (NP1 : npoints s1 = npoints s) by (unfold npoints; rewrite pc_fv; reflexivity). pose proof (r_np _ _ _ _ _ RI) as NP.
  assert (Hq : forall c, In c (map fst q) -> is_cell s1 c /\ leaf s1 c) by (intros c I; destruct (pc_q c I) as (A & B & _); auto).
  destruct (additions_ok e s1 q own1 pth1 G pc_inv ltac:(lia) pc_nd pc_inc Hq (order e (calls (npoints s1) 0 q)) (g_order e G _)) as (E1 & _).
  destruct (additions_ok e s1 q own1 pth1 G pc_inv ltac:(lia) pc_nd pc_inc Hq (o (calls (npoints s1) 0 q)) (Ho _)) as (E2 & _).
  rewrite addAll_ord. change (order e') with o. rewrite E1, E2. reflexivity.
Qed.
Lemma refineLoop_ord F : 0 <= Nout e -> forall it s T own pth, RunInv e s T own pth -> Heavy e s own T -> refineLoop it F e' s T = refineLoop it F e s T.
Proof using G Ho.
  intros HN. induction it as [|it IH]; intros s T own pth RI HV; [reflexivity|]. cbn [refineLoop]. rewrite (refineStep_ord F s T own pth HN RI).
  pose proof (refineStep_ok F e s T own pth G HN RI HV) as RS. destruct (refineStep F e s T) as [((s', T'), rf)| | |]; cbn [bind]; [|reflexivity|reflexivity|reflexivity]. destruct RS as (own' & pth' & RI' & _ & _ & B).
  destruct (Rle_b rf 1) eqn:E; [reflexivity|]. apply (IH s' T' own' pth' RI'). apply B. unfold Rle_b in E. destruct (Rle_dec rf 1); [discriminate|lra].
Qed.
Lemma run_ord F : 0 <= Nout e -> run F e' (anew 1 cell0) = run F e (anew 1 cell0).
Proof using G Ho.
  intros HN. unfold run. generalize (maxNumIter - 1)%nat. intros it. change (initState e' (anew 1 cell0)) with (initState e (anew 1 cell0)).
  pose proof (init_ok e G HN) as IO. destruct (initState e (anew 1 cell0)) as [s| | |]; cbn [bind]; [|reflexivity|reflexivity|reflexivity]. destruct IO as (own & pth & V & FVs & NPs & _).
  change (computeResult e' s) with (computeResult e s). pose proof (numInit_pos e HN) as NI. pose proof (computeResult_ok e s own pth V ltac:(lia) HN) as CR. cbv zeta in CR.
  destruct (computeResult e s) as [r| | |]; cbn [bind sf] in CR |- *; [|reflexivity|reflexivity|reflexivity]. destruct CR as (E & Pos & A & B).
  destruct (Rle_b (snd r) 1) eqn:ER; [reflexivity|]. unfold Rle_b in ER; destruct (Rle_dec (snd r) 1) as [L|L]; try discriminate.
  apply (refineLoop_ord F HN it s (fst r) own pth); [constructor; auto; try lia; rewrite E; exact Pos|]. unfold Heavy. rewrite E. apply B. lra.
Qed.
Lemma sampleNdim_ord F js : 0 <= Nout e -> sampleNdim F e' js = sampleNdim F e js.
Proof using G Ho.
  intros HN. unfold sampleNdim. change (newSampler e') with (newSampler e). destruct (newSampler e) as [(vol, cs)| | |] eqn:E; cbn [bind snd fst]; [|reflexivity|reflexivity|reflexivity].
  assert (cs = anew 1 cell0). { unfold newSampler in E. destruct (MAX_PRIMES <? Ndim e); [discriminate|]. destruct (for_ _ _ _ _); cbn in E; congruence. } subst cs.
  rewrite run_ord by exact HN. reflexivity.
Qed.
End Ord.

(** ---- termination ---- *)
Definition cnt (d : Z) (r : path) : nat := length (filter (fun kb => fst kb =? d) r).
Lemma width_pow e r d : (bup e r d - blo e r d = (xupper e d - xlower e d) * (/ 2) ^ cnt d r)%R.
Proof.
  unfold bup, blo. assert (H : (ap r d 1 - ap r d 0 = (/ 2) ^ cnt d r)%R); [|rewrite <- H; ring].
  induction r as [|(k, b) r IH]; cbn [ap]; [cbn; ring|]. unfold cnt. cbn [filter fst]. destruct (k =? d).
  - cbn [length pow]. fold (cnt d r). rewrite <- IH. rewrite (ap_affine r d (half b 1)), (ap_affine r d (half b 0)). unfold half. destruct b; ring.
  - fold (cnt d r). exact IH.
Qed.
Lemma cnt_total (M : nat) : forall n r, (forall k b, In (k, b) r -> 0 <= k < Z.of_nat n) -> (forall d, 0 <= d < Z.of_nat n -> (cnt d r <= M)%nat) -> (length r <= n * M)%nat.
Proof.
  induction n as [|n IH]; intros r Hr Hc.
  - destruct r as [|(k, b) r]; [cbn; lia|]. specialize (Hr k b (or_introl eq_refl)). lia.
  - set (r' := filter (fun kb => negb (fst kb =? Z.of_nat n)) r).
    assert (E : length r = (cnt (Z.of_nat n) r + length r')%nat). { unfold cnt, r'. clear. induction r as [|x r IH]; [reflexivity|]. cbn. destruct (fst x =? Z.of_nat n); cbn; lia. }
    assert (length r' <= n * M)%nat.
    { apply IH.
      - intros k b I. apply filter_In in I. destruct I as (I & J). cbn in J. apply negb_true_iff, Z.eqb_neq in J. specialize (Hr k b I). lia.
      - intros d Hd. apply Nat.le_trans with (cnt d r); [|apply Hc; lia]. unfold cnt, r'. clear. induction r as [|x r IH]; [cbn; lia|]. cbn. destruct (fst x =? Z.of_nat n); cbn; destruct (fst x =? d); cbn; lia. }
    specialize (Hc (Z.of_nat n) ltac:(lia)). lia.
Qed.
Lemma pos_min (l : list R) : (forall x, In x l -> (0 < x)%R) -> exists m, (0 < m)%R /\ forall x, In x l -> (m <= x)%R.
Proof.
  induction l as [|x l IH]; intros H; [exists 1%R; split; [lra|intros x []]|]. destruct IH as (m & Hm & Hl); [intros y I; apply H; right; exact I|].
  pose proof (H x (or_introl eq_refl)). exists (Rmin x m). split; [apply Rmin_pos; assumption|]. intros y [<-|I]; [apply Rmin_l|]. apply Rle_trans with m; [apply Rmin_r|auto].
Qed.
Lemma tree_dims e cs pth : Tree e cs pth -> forall n c, 0 <= c < alen cs -> (Z.to_nat c < n)%nat -> forall k b, In (k, b) (pth c) -> 0 <= k < Ndim e.
Proof.
  intros T. induction n as [|n IH]; intros c Hc Hn k b I; [lia|]. destruct (Z.eq_dec c 0) as [->|N0]; [rewrite (t_root _ _ _ T) in I; destruct I|].
  destruct (t_par _ _ _ T c ltac:(lia)) as (P1 & P2 & P3 & P4). rewrite P4 in I. destruct I as [E|I]; [|apply (IH (c_parent (afn cs c)) ltac:(lia) ltac:(lia) k b I)].
  injection E as <- <-. destruct (t_child _ _ _ T (c_parent (afn cs c)) ltac:(lia)) as [L|(_ & _ & L & _)]; [contradiction|exact L].
Qed.
(** points that differ pairwise in every coordinate *)
Definition spread (e : env) (s : smp) : Prop := forall p q d, 0 <= p < npoints s -> 0 <= q < npoints s -> p <> q -> 0 <= d < Ndim e -> pt e s p d <> pt e s q d.
Lemma depth_bound e s : good_env e -> spread e s -> exists B : nat, forall r p q, (forall k b, In (k, b) r -> 0 <= k < Ndim e) ->
  0 <= p < npoints s -> 0 <= q < npoints s -> p <> q -> pinside e r (pt e s p) -> pinside e r (pt e s q) -> (length r <= B)%nat.
Proof.
  intros G Sp. pose proof (g_dim e G) as GD.
  set (gap := fun pqd : Z * Z * Z => let '(p, q, d) := pqd in (Rabs (pt e s p d - pt e s q d) / (xupper e d - xlower e d))%R).
  set (L := filter (fun pqd : Z * Z * Z => let '(p, q, d) := pqd in negb (p =? q)) (list_prod (list_prod (zseq 0 (npoints s)) (zseq 0 (npoints s))) (zseq 0 (Ndim e)))).
  destruct (pos_min (map gap L)) as (m & Hm & HL).
  { intros x I. apply in_map_iff in I. destruct I as (((p, q), d) & <- & I). apply filter_In in I. destruct I as (I & N). apply in_prod_iff in I. destruct I as (I & Id). apply in_prod_iff in I. destruct I as (Ip & Iq). apply in_zseq in Ip, Iq, Id.
    apply negb_true_iff, Z.eqb_neq in N. unfold gap. apply Rmult_lt_0_compat; [apply Rabs_pos_lt; intros E; apply (Sp p q d Ip Iq N Id); lra|apply Rinv_0_lt_compat; pose proof (g_box e G d Id); lra]. }
  destruct (pow_lt_1_zero (/ 2) ltac:(rewrite Rabs_right; lra) m Hm) as (M & HM).
  exists (Z.to_nat (Ndim e) * M)%nat. intros r p q Hr Hp Hq N Ip Iq. apply cnt_total; [intros k b I; rewrite Z2Nat.id by lia; eapply Hr; eauto|].
  intros d Hd. rewrite Z2Nat.id in Hd by lia. destruct (Nat.le_gt_cases (cnt d r) M) as [|Gt]; [assumption|]. exfalso.
  specialize (HM (cnt d r) ltac:(lia)). rewrite Rabs_right in HM by (apply Rle_ge, pow_le; lra).
  assert (m <= gap (p, q, d))%R. { apply HL. apply in_map. apply filter_In. split; [apply in_prod; [apply in_prod|]; apply in_zseq; assumption|apply negb_true_iff, Z.eqb_neq; exact N]. }
  unfold gap in H. specialize (Ip d Hd). specialize (Iq d Hd). pose proof (width_pow e r d) as Wd. pose proof (g_box e G d Hd) as Bx. set (X := (xupper e d - xlower e d)%R) in *.
  assert (Rabs (pt e s p d - pt e s q d) < X * (/ 2) ^ cnt d r)%R by (rewrite <- Wd; apply Rabs_def1; lra).
  assert (Rabs (pt e s p d - pt e s q d) / X < (/ 2) ^ cnt d r)%R. { apply Rmult_lt_reg_r with X; [unfold X; lra|]. unfold Rdiv. rewrite Rmult_assoc, Rinv_l by (unfold X; lra). lra. }
  lra.
Qed.
Definition mea (B : nat) (pth : Z -> path) (c : Z) : nat := (2 * 2 ^ (B + 1 - length (pth c)) - 1)%nat.
Fixpoint nsum (l : list nat) : nat := match l with [] => O | x :: l' => (x + nsum l')%nat end.
Lemma nsum_app a b : nsum (a ++ b) = (nsum a + nsum b)%nat.
Proof. induction a as [|x a IH]; cbn; lia. Qed.
Definition todo (B : nat) (pth : Z -> path) (i n : Z) : nat := nsum (map (mea B pth) (zseq i n)).
Lemma zseq_cons a b : a < b -> zseq a b = a :: zseq (a + 1) b.
Proof. intros H. unfold zseq. replace (Z.to_nat (b - a)) with (S (Z.to_nat (b - (a + 1)))) by lia. reflexivity. Qed.
Lemma mea_pos B pth c : (1 <= mea B pth c)%nat.
Proof. unfold mea. assert (1 <= 2 ^ (B + 1 - length (pth c)))%nat by (apply Nat.neq_0_lt_0, Nat.pow_nonzero; lia). lia. Qed.
Lemma two_distinct (l : list Z) : NoDup l -> (1 < length l)%nat -> exists p q, In p l /\ In q l /\ p <> q.
Proof. destruct l as [|p [|q l]]; cbn; intros N H; try lia. exists p, q. split; [auto|]. split; [auto|]. intros ->. apply NoDup_cons_iff in N. destruct N as [N _]. apply N. left; reflexivity. Qed.
Lemma processCells_term e s0 T B : good_env e -> (0 < T)%R -> 0 <= Nout e ->
  (forall r p q, (forall k b, In (k, b) r -> 0 <= k < Ndim e) -> 0 <= p < npoints s0 -> 0 <= q < npoints s0 -> p <> q -> pinside e r (pt e s0 p) -> pinside e r (pt e s0 q) -> (length r <= B)%nat) ->
  forall F i s q own pth, 0 <= i -> PC e s0 T False i s q own pth -> (todo B pth i (alen (cells s)) <= F)%nat -> exists r, processCells F e T i s q = Ok r.
Proof.
  intros G HT HN HB. induction F as [|F IH]; intros i s q own pth Hi P HF; cbn [processCells].
  - destruct (alen (cells s) <=? i) eqn:E; [eauto|]. apply Z.leb_gt in E. exfalso. unfold todo in HF. rewrite zseq_cons in HF by lia. cbn [map nsum] in HF. pose proof (mea_pos B pth i). lia.
  - destruct (alen (cells s) <=? i) eqn:E; [eauto|]. apply Z.leb_gt in E. unfold todo in HF. rewrite zseq_cons in HF by lia. cbn [map nsum] in HF. pose proof (mea_pos B pth i) as MP.
    pose proof (pc_inv _ _ _ _ _ _ _ _ _ P) as V. assert (Hc : is_cell s i) by (unfold is_cell; lia).
    destruct (processCell_ok e s (full s) own pth T q i G V Hc HT HN) as (s' & q' & EQ & [(-> & -> & NH)|[(dim & Hd & Ho & Hbig & -> & ES)|(Ho & _ & -> & ->)]]); rewrite EQ; cbn [bind fst snd].
    + apply (IH (i + 1) s q own pth ltac:(lia)); [|unfold todo; lia]. destruct P. constructor; auto.
      * intros c I. destruct (pc_q c I) as (A & B' & C). split; [exact A|]. split; [exact B'|]. lia.
    + destruct (splitCell_ok e s (full s) own pth i dim G V Hc Ho Hd) as (s1 & E1 & V1 & C1 & F1 & A1 & W1 & W2 & W3 & CH). rewrite E1 in ES. injection ES as <-.
      eapply (IH (i + 1) s1 q _ (pth_split s pth i dim) ltac:(lia)).
      * destruct P. constructor.
        -- rewrite (full_eq s s1 F1). exact V1.
        -- rewrite C1. exact pc_co.
        -- rewrite F1. exact pc_fv.
        -- exact pc_nd.
        -- intros c I. destruct (pc_q c I) as (A & B' & C). unfold is_cell in *. split; [rewrite A1; lia|]. split; [|lia]. unfold leaf. rewrite CH by (unfold is_cell; lia). exact B'.
        -- exact pc_inc.
        -- intros [].
      * rewrite A1. assert (LD : (length (pth i) <= B)%nat).
        { destruct (two_distinct (own i) (v_nodup _ _ _ _ _ V i Hc) ltac:(lia)) as (p & r & Ip & Ir & Npr).
          assert (PT : forall x, pt e s0 x = pt e s x) by (intros x; unfold pt; rewrite (pc_co _ _ _ _ _ _ _ _ _ P); reflexivity).
          assert (NPt : npoints s0 = npoints s) by (unfold npoints; rewrite (pc_fv _ _ _ _ _ _ _ _ _ P); reflexivity).
          apply (HB (pth i) p r).
          - intros k b I. apply (tree_dims e (cells s) pth (v_tree _ _ _ _ _ V) (S (Z.to_nat i)) i Hc ltac:(lia) k b I).
          - rewrite NPt. apply (v_rng _ _ _ _ _ V i p Hc Ip).
          - rewrite NPt. apply (v_rng _ _ _ _ _ V i r Hc Ir).
          - exact Npr.
          - rewrite PT. apply (v_box _ _ _ _ _ V i p Hc Ip).
          - rewrite PT. apply (v_box _ _ _ _ _ V i r Hc Ir). }
        unfold todo. replace (alen (cells s) + 2) with (alen (cells s) + 1 + 1) by lia. rewrite !zseq_snoc by lia. rewrite !map_app, !nsum_app. cbn [map nsum].
        assert (Eo : map (mea B (pth_split s pth i dim)) (zseq (i + 1) (alen (cells s))) = map (mea B pth) (zseq (i + 1) (alen (cells s)))).
        { apply map_ext_in. intros c I. apply in_zseq in I. unfold mea, pth_split. rewrite (proj2 (Z.eqb_neq c _)), (proj2 (Z.eqb_neq c (alen (cells s) + 1))) by lia. reflexivity. }
        rewrite Eo.
        assert (Ec : mea B (pth_split s pth i dim) (alen (cells s)) = (2 * 2 ^ (B - length (pth i)) - 1)%nat).
        { unfold mea, pth_split. rewrite Z.eqb_refl. cbn [length]. do 3 f_equal. lia. }
        assert (Ec1 : mea B (pth_split s pth i dim) (alen (cells s) + 1) = (2 * 2 ^ (B - length (pth i)) - 1)%nat).
        { unfold mea, pth_split. rewrite (proj2 (Z.eqb_neq (alen (cells s) + 1) _)) by lia. rewrite Z.eqb_refl. cbn [length]. do 3 f_equal. lia. }
        rewrite Ec, Ec1. unfold mea at 1 in HF. replace (B + 1 - length (pth i))%nat with (S (B - length (pth i))) in HF by lia. cbn [Nat.pow] in HF.
        assert (1 <= 2 ^ (B - length (pth i)))%nat by (apply Nat.neq_0_lt_0, Nat.pow_nonzero; lia). lia.
    + assert (P' : PC e s0 T False i (halved s i) q own pth \/ True) by auto. clear P'.
      eapply (IH (i + 1) _ _ own pth ltac:(lia)); [|unfold todo; change (alen (cells (halved s i))) with (alen (cells s)); lia].
      pose proof (halved_inv e s (full s) own pth i V Hc) as V'. destruct P. constructor.
      * exact V'.
      * exact pc_co.
      * exact pc_fv.
      * rewrite map_app. cbn. apply nodup_app; [exact pc_nd|repeat constructor; intros []|]. intros x I [<-|[]]. destruct (pc_q i I) as (_ & _ & Q). lia.
      * intros c I. rewrite map_app in I. apply in_app_or in I.
        assert (LF : leaf (halved s i) c <-> leaf s c). { unfold leaf, the_cell, halved. cbn. unfold upd. destruct (c =? i) eqn:Ec; [apply Z.eqb_eq in Ec; subst c|]; reflexivity. }
        destruct I as [I|[<-|[]]].
        -- destruct (pc_q c I) as (A & B' & C). split; [exact A|]. split; [apply LF; exact B'|lia].
        -- split; [exact Hc|]. split; [|cbn; lia]. apply LF. destruct (own i) as [|p l] eqn:Eo; [contradiction|]. apply (v_leaf _ _ _ _ _ V i p Hc). rewrite Eo. left; reflexivity.
      * rewrite last_qend. apply incr_app; [|exact pc_inc]. rewrite Ztrunc_floor.
        -- apply Zfloor_lub. unfold expected. apply Rmult_le_pos; [unfold Rdiv; rewrite Rmult_1_l; left; apply Rinv_0_lt_compat; apply (v_w _ _ _ _ _ V i Hc)|apply pow_le; lra].
        -- unfold expected. apply Rmult_le_pos; [unfold Rdiv; rewrite Rmult_1_l; left; apply Rinv_0_lt_compat; apply (v_w _ _ _ _ _ V i Hc)|apply pow_le; lra].
      * intros [].
Qed.
Lemma loop_terminates e s own pth T : good_env e -> (0 < T)%R -> 0 <= Nout e -> Inv e s (full s) own pth -> spread e s -> exists F0, forall F, (F0 <= F)%nat -> exists r, processCells F e T 0 s [] = Ok r.
Proof.
  intros G HT HN V Sp. destruct (depth_bound e s G Sp) as (B & HB). exists (todo B pth 0 (alen (cells s))). intros F HF.
  apply (processCells_term e s T B G HT HN HB F 0 s [] own pth ltac:(lia)); [|exact HF]. constructor; auto.
  - constructor.
  - intros c [].
  - exact Logic.I.
Qed.
