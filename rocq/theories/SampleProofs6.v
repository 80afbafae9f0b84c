(** Proofs about the sampler, part 6: evaluation of the function, the parallel loop, the refinement step, run(). *)
From Coq Require Import Lra Permutation FunctionalExtensionality.
From Verif Require Import Arr PolyModel PolyProofs SampleModel SampleSpec SampleProofs SampleProofs2 SampleProofs3 SampleProofs4 SampleProofs5.
From Flocq Require Import Core.Raux.
Local Open Scope Z_scope.

(** ---- evalFncLoop ---- *)
Definition FVat (e : env) (co fv : arr R) (p : Z) : Prop := fnc e (point e co p) = Some (afn fv p) /\ (0 <= afn fv p)%R.
Lemma for_sf {S} (I : Z -> S -> Prop) lo hi body s :
  lo <= hi -> I lo s -> (forall i s, lo <= i < hi -> I i s -> sf (body i s) (I (i + 1))) -> sf (for_ lo hi body s) (I hi).
Proof.
  intros Hle H0 Hstep. unfold for_.
  assert (G : forall n i s, lo <= i -> i + Z.of_nat n = hi -> I i s -> sf (forn n i body s) (I hi)).
  { induction n as [|n IH]; intros i s' Hi Hn HI; cbn [forn].
    - replace hi with i by lia. exact HI.
    - apply sf_bind with (P := I (i + 1)); [apply Hstep; [lia|exact HI]|]. intros a Ha. apply IH; try lia. exact Ha. }
  apply G; auto; lia.
Qed.
Lemma eval_ok e s first last : 1 <= Ndim e -> 0 <= first <= last -> last <= npoints s -> alen (coords s) = npoints s * Ndim e ->
  sf (evalFncLoop e s first last) (fun s' => exists fv, s' = mkSmp (cells s) (nextp s) (coords s) fv /\ alen fv = npoints s /\
     (forall p, p < first \/ last <= p -> afn fv p = afn (fvals s) p) /\ (forall p, first <= p < last -> FVat e (coords s) fv p)).
Proof.
  intros GD H1 H2 LC. unfold evalFncLoop.
  apply sf_bind with (P := fun fv => alen fv = npoints s /\ (forall p, p < first \/ last <= p -> afn fv p = afn (fvals s) p) /\ (forall p, first <= p < last -> FVat e (coords s) fv p)).
  2:{ intros fv (A & B & C). cbn. exists fv. repeat split; auto; apply C; assumption. }
  apply (for_sf (fun j fv => alen fv = npoints s /\ (forall p, p < first \/ j <= p -> afn fv p = afn (fvals s) p) /\ (forall p, first <= p < j -> FVat e (coords s) fv p))).
  - lia.
  - split; [reflexivity|]. split; [reflexivity|]. intros; lia.
  - intros p fv Hp (A & B & C). rewrite (proj2 (Z.leb_le 0 p)) by lia. rewrite (proj2 (Z.leb_le ((p + 1) * Ndim e) _)) by (rewrite LC; nia). cbn [andb negb].
    destruct (fnc e (point e (coords s) p)) as [v|] eqn:EF; [|exact Logic.I]. destruct (Rlt_b v 0) eqn:EV; [exact Logic.I|]. unfold Rlt_b in EV. destruct (Rlt_dec v 0) as [|NV]; [discriminate|].
    rewrite aset_ok by lia. cbn. split; [exact A|]. split.
    + intros q Hq. rewrite upd_other by lia. apply B. lia.
    + intros q Hq. unfold FVat. cbn [afn]. destruct (Z.eq_dec q p) as [->|NE]; [rewrite upd_same; split; [exact EF|lra]|]. rewrite upd_other by exact NE. apply C. lia.
Qed.

(** ---- grow ---- *)
Lemma grow_inv e s own pth n : good_env e -> Inv e s (full s) own pth -> npoints s <= n -> Inv e (grow e s n) (full s) own pth.
Proof.
  intros G V Hn. pose proof (g_dim e G) as GD. constructor; try (apply V).
  - reflexivity.
  - reflexivity.
  - intros c Hc. apply lst_frame with (f := afn (nextp s)); [|apply (v_lst _ _ _ _ _ V c Hc)]. intros p I. cbn. rewrite (v_next _ _ _ _ _ V). pose proof (v_D _ _ _ _ _ V p (v_rng _ _ _ _ _ V c p Hc I)). rewrite (proj2 (Z.ltb_lt _ _)) by lia. reflexivity.
  - intros p Hp. unfold full in Hp. change (npoints (grow e s n)) with n. lia.
  - intros c p Hc I d Hd. pose proof (v_D _ _ _ _ _ V p (v_rng _ _ _ _ _ V c p Hc I)). unfold pt. cbn. rewrite (v_coord _ _ _ _ _ V). rewrite (proj2 (Z.ltb_lt _ _)) by nia. apply (v_box _ _ _ _ _ V c p Hc I d Hd).
Qed.

(** ---- the parallel loop: every call has an exact effect ---- *)
Definition addp1 (e : env) (pth : Z -> path) (s : smp) (x : Z * Z * Z) : smp := let '(c, a, b) := x in addp e s (pth c) c a b.
Definition fits (s : smp) (x : Z * Z * Z) : Prop := let '(c, a, b) := x in is_cell s c /\ 0 <= a <= b /\ b <= npoints s.
Lemma addp_tree e s pth r c a b : Tree e (cells s) pth -> Tree e (cells (addp e s r c a b)) pth.
Proof.
  intros T. apply tree_same with (cs := cells s); [exact T|reflexivity|]. intros k. cbn. destruct (upd_head_other s c (if b <=? a then c_head (the_cell s c) else b - 1) k) as (A & B & C & _). auto.
Qed.
Lemma addAll_eq e pth : good_env e -> forall l s, Tree e (cells s) pth -> alen (nextp s) = npoints s -> alen (coords s) = npoints s * Ndim e -> Forall (fits s) l ->
  addAll e s l = Ok (fold_left (addp1 e pth) l s).
Proof.
  intros G. induction l as [|((c, a), b) l IH]; intros s T Ln Lc H; [reflexivity|]. inversion H as [|? ? HF H4]; subst. unfold fits in HF. destruct HF as (H1 & H2 & H3). cbn [addAll fold_left addp1].
  rewrite (addPoints_eq e s pth c a b) by (try assumption; lia). cbn [bind]. apply IH; [apply addp_tree; exact T|exact Ln|exact Lc|]. exact H4.
Qed.
Lemma addp1_comm e pth s x y : 1 <= Ndim e -> apart x y -> addp1 e pth (addp1 e pth s x) y = addp1 e pth (addp1 e pth s y) x.
Proof.
  destruct x as ((c, a), b). destruct y as ((c', a'), b'). intros GD (NC & AP). unfold addp1, addp, the_cell. cbn [cells nextp coords fvals afn alen]. f_equal.
  - f_equal. apply functional_extensionality. intros k. rewrite !(upd_other _ _ _ c') by congruence. rewrite !(upd_other _ _ _ c) by congruence. unfold upd. destruct (k =? c') eqn:E1; destruct (k =? c) eqn:E2; try reflexivity.
    apply Z.eqb_eq in E1, E2. congruence.
  - f_equal. apply functional_extensionality. intros p. rewrite !(upd_other _ _ _ c') by congruence. rewrite !(upd_other _ _ _ c) by congruence.
    destruct ((a <=? p) && (p <? b)) eqn:E1; destruct ((a' <=? p) && (p <? b')) eqn:E2; try reflexivity.
    apply andb_true_iff in E1, E2. rewrite !Z.leb_le, !Z.ltb_lt in *. destruct (AP p). auto.
  - f_equal. apply functional_extensionality. intros k. set (N := Ndim e) in *.
    destruct ((a * N <=? k) && (k <? b * N)) eqn:E1; destruct ((a' * N <=? k) && (k <? b' * N)) eqn:E2; try reflexivity.
    apply andb_true_iff in E1, E2. rewrite !Z.leb_le, !Z.ltb_lt in *. exfalso. apply (AP (k / N)).
    pose proof (Z.div_mod k N ltac:(lia)). pose proof (Z.mod_pos_bound k N ltac:(lia)). nia.
Qed.
Lemma fold_comm {A B} (f : A -> B -> A) (P : B -> B -> Prop) l l' : (forall s x y, P x y -> f (f s x) y = f (f s y) x) -> (forall x y, P x y -> P y x) ->
  Permutation l l' -> ForallOrdPairs P l -> forall s, fold_left f l s = fold_left f l' s.
Proof.
  intros C Sy H. induction H as [|x l l' H IH|x y l|l l' l'' H1 IH1 H2 IH2]; intros F s; auto.
  - cbn. inversion F; subst. apply IH. assumption.
  - cbn. inversion F as [|? ? F1 F2]; subst. inversion F1 as [|? ? F3 F4]; subst. rewrite (C s y x F3). reflexivity.
  - rewrite IH1 by assumption. apply IH2. apply FOP_perm with l; assumption.
Qed.
Lemma addp1_fields e pth s x : fvals (addp1 e pth s x) = fvals s /\ alen (cells (addp1 e pth s x)) = alen (cells s) /\
  (forall k, c_weight (the_cell (addp1 e pth s x) k) = c_weight (the_cell s k) /\ c_child (the_cell (addp1 e pth s x) k) = c_child (the_cell s k)).
Proof.
  destruct x as ((c, a), b). cbn. split; [reflexivity|]. split; [reflexivity|]. intros k. unfold the_cell. cbn.
  destruct (upd_head_other s c (if b <=? a then c_head (the_cell s c) else b - 1) k) as (A & _ & _ & D). split; assumption.
Qed.
Definition covered (l : list (Z * Z * Z)) (p : Z) : Prop := exists c a b, In (c, a, b) l /\ a <= p < b.
Lemma addFold_ok e pth : good_env e -> forall l s D own, Inv e s D own pth -> ForallOrdPairs apart l -> Forall (fits s) l ->
  (forall c a b, In (c, a, b) l -> leaf s c /\ forall p, a <= p < b -> ~ D p) ->
  let s' := fold_left (addp1 e pth) l s in exists own',
  Inv e s' (fun p => D p \/ covered l p) own' pth /\ fvals s' = fvals s /\ alen (cells s') = alen (cells s) /\
  (forall k, c_weight (the_cell s' k) = c_weight (the_cell s k)) /\
  (forall p d, 0 <= d < Ndim e -> ~ covered l p -> pt e s' p d = pt e s p d).
Proof.
  intros G. pose proof (g_dim e G) as GD. induction l as [|((c, a), b) l IH]; intros s D own V F Ft Hl; cbv zeta; cbn [fold_left].
  - exists own. split; [|repeat split; reflexivity]. apply inv_D_ext with D; [|exact V]. intros p. split; [auto|]. intros [H|(c & a & b & [] & _)]; exact H.
  - inversion F as [|? ? F1 F2]; subst. inversion Ft as [|? ? HF Ft2]; subst. unfold fits in HF. destruct HF as (Q1 & Q2 & Q3). destruct (Hl c a b (or_introl eq_refl)) as (Lc & Nw).
    destruct (addp1_fields e pth s (c, a, b)) as (X1 & X2 & X3).
    destruct (IH (addp1 e pth s (c, a, b)) (fun p => D p \/ a <= p < b) (own_add own c a b)) as (own' & V' & E1 & E2 & E3 & E4).
    + apply addp_inv; try assumption; lia.
    + exact F2.
    + exact Ft2.
    + intros c' a' b' I. destruct (Hl c' a' b' (or_intror I)) as (Lc' & Nw'). split; [unfold leaf; rewrite (proj2 (X3 c')); exact Lc'|]. intros p Hp [HD|HD]; [exact (Nw' p Hp HD)|].
      rewrite Forall_forall in F1. destruct (F1 _ I) as (_ & AP). exact (AP p (conj HD Hp)).
    + exists own'. cbv zeta in *. split; [|split; [|split; [|split]]].
      * apply inv_D_ext with (2 := V'). intros p. split.
        -- intros [[H|H]|(c' & a' & b' & I & Hp)]; [left; exact H|right; exists c, a, b; split; [left; reflexivity|exact H]|right; exists c', a', b'; split; [right; exact I|exact Hp]].
        -- intros [H|(c' & a' & b' & [E|I] & Hp)]; [left; left; exact H|injection E as <- <- <-; left; right; exact Hp|right; exists c', a', b'; split; [exact I|exact Hp]].
      * rewrite E1. exact X1.
      * rewrite E2. exact X2.
      * intros k. rewrite E3. apply X3.
      * intros p d Hd NCv. rewrite E4; [|exact Hd|].
        -- unfold pt, addp1. rewrite addp_coord by assumption. destruct ((a <=? p) && (p <? b)) eqn:E; [|reflexivity]. apply andb_true_iff in E. rewrite Z.leb_le, Z.ltb_lt in E. exfalso. apply NCv. exists c, a, b. split; [left; reflexivity|lia].
        -- intros (c' & a' & b' & I & Hp). apply NCv. exists c', a', b'. split; [right; exact I|exact Hp].
Qed.

(** ---- the state between iterations ---- *)
Definition FV (e : env) (s : smp) : Prop := forall p, 0 <= p < npoints s -> FVat e (coords s) (fvals s) p.
Lemma point_pt e s s' p : (forall d, 0 <= d < Ndim e -> pt e s p d = pt e s' p d) -> point e (coords s) p = point e (coords s') p.
Proof. intros H. unfold point. apply map_ext_in. intros d I. apply in_seq in I. apply (H (Z.of_nat d)). lia. Qed.
Definition light (e : env) (s : smp) (own : Z -> list Z) (T : R) : Prop := forall x, In x (enum s own) -> (W s x * IZR (Nout e) <= T)%R.
Record RunInv (e : env) (s : smp) (T : R) (own : Z -> list Z) (pth : Z -> path) : Prop := {
  r_inv : Inv e s (full s) own pth;
  r_fv : FV e s;
  r_np : 0 <= npoints s;
  r_T : T = lsum (map (W s) (enum s own));
  r_pos : (0 < T)%R }.
Definition Heavy (e : env) (s : smp) (own : Z -> list Z) (T : R) : Prop := exists c p, is_cell s c /\ In p (own c) /\ heavy e s T c p.
Lemma qend_app q c n : forall prev, qend prev (q ++ [(c, n)]) = n.
Proof. induction q as [|(d, m) q IH]; intros prev; cbn; auto. Qed.
(** the state just before the evaluation of the function at the new points, for a given execution order of the loop *)
Lemma additions_ok e s q own pth : good_env e -> Inv e s (full s) own pth -> 0 <= npoints s -> NoDup (map fst q) -> incr 0 q -> (forall c, In c (map fst q) -> is_cell s c /\ leaf s c) ->
  forall l, Permutation l (calls (npoints s) 0 q) ->
  let n := npoints s + qend 0 q in let g := grow e s n in
  addAll e g l = Ok (fold_left (addp1 e pth) (calls (npoints s) 0 q) g) /\ npoints s <= n /\
  exists s' own', addAll e g l = Ok s' /\ Inv e s' (full s') own' pth /\ npoints s' = n /\ (forall p, p < npoints s -> afn (fvals s') p = afn (fvals s) p) /\
    (forall p d, 0 <= d < Ndim e -> 0 <= p < npoints s -> pt e s' p d = pt e s p d).
Proof.
  intros G V NP ND IC Hq l PL n g. pose proof (g_dim e G) as GD. destruct (calls_spec (npoints s) q 0 IC ND) as (FOP & Cin & Ccov). pose proof (incr_le q 0 IC) as QL.
  assert (VG : Inv e g (full s) own pth) by (apply grow_inv; try assumption; unfold n; lia).
  assert (Fit : Forall (fits g) (calls (npoints s) 0 q)).
  { apply Forall_forall. intros ((c, a), b) I. destruct (Cin c a b I) as (I1 & I2 & I3). destruct (Hq c I1) as (Hc & _). split; [exact Hc|]. change (npoints g) with n. unfold n. lia. }
  assert (FitL : Forall (fits g) l).
  { rewrite Forall_forall in *. intros x I. apply Fit. apply Permutation_in with l; assumption. }
  assert (E : addAll e g l = Ok (fold_left (addp1 e pth) (calls (npoints s) 0 q) g)).
  { rewrite (addAll_eq e pth G l g (v_tree _ _ _ _ _ VG) (v_next _ _ _ _ _ VG) (v_coord _ _ _ _ _ VG) FitL). f_equal. symmetry.
    apply (fold_comm (addp1 e pth) apart); [intros; apply addp1_comm; assumption|apply apart_sym|symmetry; exact PL|exact FOP]. }
  split; [exact E|]. split; [unfold n; lia|].
  destruct (addFold_ok e pth G (calls (npoints s) 0 q) g (full s) own VG FOP Fit) as (own' & V' & E1 & E2 & E3 & E4).
  { intros c a b I. destruct (Cin c a b I) as (I1 & I2 & I3). split; [apply (Hq c I1)|]. intros p Hp. unfold full. lia. }
  cbv zeta in *. set (s' := fold_left (addp1 e pth) (calls (npoints s) 0 q) g) in *. exists s', own'. split; [exact E|].
  assert (NPs : npoints s' = n) by (unfold npoints at 1; rewrite E1; reflexivity).
  split; [|split; [exact NPs|split]].
  - apply inv_D_ext with (2 := V'). intros p. unfold full. rewrite NPs. unfold n. split.
    + intros [H|(c & a & b & I & Hp)]; [lia|]. destruct (Cin c a b I) as (_ & I2 & I3). lia.
    + intros H. destruct (Z_lt_le_dec p (npoints s)) as [L|L]; [left; lia|]. right. destruct (Ccov p ltac:(lia)) as (c & a & b & I & Hp). exists c, a, b. auto.
  - intros p Hp. rewrite E1. cbn. fold (npoints s). rewrite (proj2 (Z.ltb_lt _ _)) by exact Hp. reflexivity.
  - intros p d Hd Hp. rewrite E4; [|exact Hd|].
    + unfold pt. cbn. rewrite (v_coord _ _ _ _ _ V). rewrite (proj2 (Z.ltb_lt _ _)) by nia. reflexivity.
    + intros (c & a & b & I & Hp'). destruct (Cin c a b I) as (_ & I2 & I3). lia.
Qed.
Lemma fvals_enum s s' own : fvals s' = fvals s -> alen (cells s') = alen (cells s) -> (forall k, c_weight (the_cell s' k) = c_weight (the_cell s k)) -> map (W s') (enum s' own) = map (W s) (enum s own).
Proof. intros E1 E2 E3. unfold enum. rewrite E2. apply map_ext. intros (c, p). unfold W. rewrite E1, E3. reflexivity. Qed.
Lemma eval_inv e s own pth first last : good_env e -> Inv e s (full s) own pth -> 0 <= first <= last -> last = npoints s -> (forall p, 0 <= p < first -> FVat e (coords s) (fvals s) p) ->
  sf (evalFncLoop e s first last) (fun s' => Inv e s' (full s') own pth /\ FV e s' /\ npoints s' = npoints s /\ cells s' = cells s /\ coords s' = coords s).
Proof.
  intros G V H1 H2 HF. eapply sf_mono; [|apply (eval_ok e s first last (g_dim e G)); [exact H1|lia|apply (v_coord _ _ _ _ _ V)]].
  intros s' (fv & -> & A & B & C). assert (NP : npoints (mkSmp (cells s) (nextp s) (coords s) fv) = npoints s) by exact A. split; [|split; [|split; [exact NP|split; reflexivity]]].
  - constructor; try (apply V).
    + rewrite NP. apply (v_next _ _ _ _ _ V).
    + rewrite NP. apply (v_coord _ _ _ _ _ V).
    + intros c p Hc I. unfold full. rewrite NP. apply (v_rng _ _ _ _ _ V c p Hc I).
    + intros p Hp. exact Hp.
    + intros p Hp. unfold full in Hp. rewrite NP in Hp. apply (v_cover _ _ _ _ _ V p Hp).
  - intros p Hp. cbn [coords fvals]. rewrite NP in Hp. destruct (Z_lt_le_dec p first) as [L|L]; [|apply C; lia]. destruct (HF p ltac:(lia)) as (F1 & F2). unfold FVat. rewrite B by lia. auto.
Qed.
Lemma refineStep_ok F e s T own pth : good_env e -> 0 <= Nout e -> RunInv e s T own pth -> Heavy e s own T ->
  sf (refineStep F e s T) (fun r => let '(s', T', refine) := r in exists own' pth', RunInv e s' T' own' pth' /\ npoints s <= npoints s' /\ ((refine <= 1)%R -> light e s' own' T') /\ ((1 < refine)%R -> Heavy e s' own' T')).
Proof.
  intros G HN RI (hc & hp & H1 & H2 & H3). unfold refineStep.
  apply sf_bind with (P := fun r => exists own pth, PC e s T True (alen (cells (fst r))) (fst r) (snd r) own pth).
  { apply (processCells_ok e s T True G (r_pos _ _ _ _ _ RI) HN F 0 s [] own pth); [lia|]. constructor; auto.
    - apply RI.
    - constructor.
    - intros c [].
    - exact Logic.I.
    - intros _. right. exists hc, hp. split; [apply H1|]. auto. }
  intros (s1, q) (own1 & pth1 & P). cbn [fst snd] in P. destruct P.
  destruct q as [|qx q'] eqn:Eq.
  { destruct (pc_hv Logic.I) as [A|(c & p & A & B & _)]; [contradiction|]. unfold is_cell in B. lia. }
  rewrite <- Eq in *. replace (length q =? 0)%nat with false by (rewrite Eq; reflexivity). cbv zeta.
  rewrite last_qend. change (alen (fvals s1)) with (npoints s1). assert (NP1 : npoints s1 = npoints s) by (unfold npoints; rewrite pc_fv; reflexivity).
  pose proof (r_np _ _ _ _ _ RI) as NP.
  destruct (additions_ok e s1 q own1 pth1 G pc_inv ltac:(lia) pc_nd pc_inc) with (l := order e (calls (npoints s1) 0 q)) as (_ & LE & s2 & own2 & E2 & V2 & N2 & F2 & C2).
  { intros c I. destruct (pc_q c I) as (A & B & _). auto. } { apply (g_order e G). }
  rewrite E2. cbn [bind].
  apply sf_bind with (P := fun s' => Inv e s' (full s') own2 pth1 /\ FV e s' /\ npoints s' = npoints s2 /\ cells s' = cells s2 /\ coords s' = coords s2).
  { apply eval_inv; try assumption; try lia. intros p Hp. unfold FVat. rewrite F2 by lia. rewrite (point_pt e s2 s1 p) by (intros d Hd; apply C2; lia).
    rewrite pc_co, pc_fv. apply (r_fv _ _ _ _ _ RI). lia. }
  intros s3 (V3 & FV3 & N3 & _ & _).
  pose proof (computeResult_ok e s3 own2 pth1 V3 ltac:(lia) HN) as CR. cbv zeta in CR. destruct (computeResult e s3) as [r| | |]; cbn in CR |- *; auto.
  destruct CR as (E & Pos & A & B). exists own2, pth1. split; [|split; [lia|split]].
  - constructor; auto; try lia. rewrite E. exact Pos.
  - intros HR x I. rewrite E. apply A; assumption.
  - intros HR. rewrite E. apply B. exact HR.
Qed.
Lemma refineLoop_ok F e : good_env e -> 0 <= Nout e -> forall it s T own pth, RunInv e s T own pth -> Heavy e s own T ->
  sf (refineLoop it F e s T) (fun r => exists own' pth', RunInv e (fst r) (snd r) own' pth' /\ light e (fst r) own' (snd r) /\ npoints s <= npoints (fst r)).
Proof.
  intros G HN. induction it as [|it IH]; intros s T own pth RI HV; [exact Logic.I|]. cbn [refineLoop].
  eapply sf_bind; [apply (refineStep_ok F e s T own pth); assumption|]. intros ((s', T'), rf) (own' & pth' & RI' & LE & A & B).
  destruct (Rle_b rf 1) eqn:E; unfold Rle_b in E; destruct (Rle_dec rf 1) as [L|L]; try discriminate.
  - cbn. exists own', pth'. auto.
  - eapply sf_mono; [|apply (IH s' T' own' pth' RI')]; [|apply B; lra]. intros r (o & p & X & Y & Zz). exists o, p. split; [exact X|]. split; [exact Y|lia].
Qed.
(** ---- the first iteration ---- *)
Lemma numInit_pos e : 0 <= Nout e -> 256 <= numInitSamples e.
Proof. intros H. unfold numInitSamples, maxInitSamples, minNumPointsInCell. assert (0 <= Nout e / 256) by (apply Z.div_pos; lia). lia. Qed.
Lemma init_ok e : good_env e -> 0 <= Nout e ->
  sf (initState e (anew 1 cell0)) (fun s => exists own pth, Inv e s (full s) own pth /\ FV e s /\ npoints s = numInitSamples e /\ alen (cells s) = 1 /\ c_weight (the_cell s 0) = (1 / IZR (numInitSamples e))%R).
Proof.
  intros G HN. pose proof (numInit_pos e HN) as NI. pose proof (g_dim e G) as GD. unfold initState. set (n := numInitSamples e) in *. rewrite mod_cell_ok by (unfold is_cell; cbn; lia). cbn [bind].
  match goal with |- context [grow e ?x n] => set (s0 := x) end.
  assert (V0 : Inv e s0 (full s0) (fun _ => []) (fun _ => [])).
  { constructor; try reflexivity.
    - constructor; try reflexivity; cbn; intros; try lia. left. unfold upd. destruct (c =? 0); reflexivity.
    - intros c Hc. cbn. unfold is_cell in Hc. cbn in Hc. replace c with 0 by lia. cbn. lia.
    - intros c p Hc [].
    - intros p Hp. exact Hp.
    - intros c Hc. constructor.
    - intros c c' p _ _ [].
    - intros p Hp. unfold full, npoints in Hp. cbn in Hp. lia.
    - intros c p Hc [].
    - intros c p Hc [].
    - intros c Hc. unfold is_cell in Hc. cbn in Hc. replace c with 0 by lia. cbn. unfold upd. cbn. unfold Rdiv. rewrite Rmult_1_l. apply Rinv_0_lt_compat. apply IZR_lt. lia. }
  pose proof (grow_inv e s0 _ _ n G V0 ltac:(cbn; lia)) as VG. set (g := grow e s0 n) in *.
  rewrite (addPoints_eq e g (fun _ => []) 0 0 n); try assumption; try reflexivity; try (cbn; lia); [|apply (v_tree _ _ _ _ _ VG)|unfold is_cell; cbn; lia]. cbn [bind].
  pose proof (addp_inv e g (full s0) (fun _ => []) (fun _ => []) 0 0 n G VG ltac:(unfold is_cell; cbn; lia) eq_refl ltac:(lia) ltac:(cbn; lia)) as VA. cbv beta in VA.
  match type of VA with ?X -> _ => assert (HX : X) end.
  { intros p Hp. unfold full, npoints. cbn. lia. }
  specialize (VA HX). set (s1 := addp e g [] 0 0 n) in *. assert (N1 : npoints s1 = n) by reflexivity.
  assert (V1 : Inv e s1 (full s1) (own_add (fun _ => []) 0 0 n) (fun _ => [])).
  { apply inv_D_ext with (2 := VA). intros p. unfold full. rewrite N1. unfold npoints. cbn. lia. }
  eapply sf_mono; [|apply (eval_inv e s1 _ _ 0 n G V1 ltac:(lia) ltac:(lia))]; [|intros; lia].
  intros s' (A & B & C & D & _). exists (own_add (fun _ => []) 0 0 n), (fun _ => []). split; [exact A|]. split; [exact B|]. split; [lia|]. unfold the_cell. rewrite D. split; reflexivity.
Qed.
Lemma run_ok F e : good_env e -> 0 <= Nout e ->
  sf (run F e (anew 1 cell0)) (fun r => exists own pth, RunInv e (fst r) (snd r) own pth /\ light e (fst r) own (snd r) /\ numInitSamples e <= npoints (fst r)).
Proof.
  intros G HN. unfold run. generalize (maxNumIter - 1)%nat. intros iters. eapply sf_bind; [apply init_ok; assumption|]. intros s (own & pth & V & FVs & NPs & _). pose proof (numInit_pos e HN) as NI.
  pose proof (computeResult_ok e s own pth V ltac:(lia) HN) as CR. cbv zeta in CR. destruct (computeResult e s) as [r| | |]; cbn in CR |- *; auto. destruct CR as (E & Pos & A & B).
  assert (RI : RunInv e s (fst r) own pth) by (constructor; auto; try lia; rewrite E; exact Pos).
  destruct (Rle_b (snd r) 1) eqn:ER; unfold Rle_b in ER; destruct (Rle_dec (snd r) 1) as [L|L]; try discriminate.
  - cbn. exists own, pth. split; [exact RI|]. split; [|lia]. intros x I. rewrite E. apply A; assumption.
  - eapply sf_mono; [|apply (refineLoop_ok F e G HN _ s (fst r) own pth RI)].
    + intros x (o & p & X & Y & Zz). exists o, p. split; [exact X|]. split; [exact Y|lia].
    + unfold Heavy. rewrite E. apply B. lra.
Qed.
