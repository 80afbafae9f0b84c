(** Proofs about the sampler, part 3: adding points, choosing the dimension, processing cells. *)
From Coq Require Import Lra Permutation FunctionalExtensionality.
From Verif Require Import Arr PolyModel PolyProofs SampleModel SampleSpec SampleProofs SampleProofs2.
From Flocq Require Import Core.Raux.
Local Open Scope Z_scope.

Lemma nodup_app {A} (l l' : list A) : NoDup l -> NoDup l' -> (forall x, In x l -> In x l' -> False) -> NoDup (l ++ l').
Proof.
  induction l as [|x l IH]; intros N N' H; cbn; [exact N'|]. apply NoDup_cons_iff in N. destruct N as [Nx N]. constructor.
  - intros I. apply in_app_or in I. destruct I as [I|I]; [contradiction|]. apply (H x (or_introl eq_refl) I).
  - apply IH; auto. intros y I I'. apply (H y (or_intror I) I').
Qed.
Lemma foldm_total {A B} (f : B -> A -> res A) (Q : A -> Prop) l : forall acc, Q acc -> (forall x a, In x l -> Q a -> exists a', f x a = Ok a' /\ Q a') -> exists a', foldm f l acc = Ok a' /\ Q a'.
Proof.
  induction l as [|x l IH]; intros acc H0 H; cbn; [eauto|]. destruct (H x acc (or_introl eq_refl) H0) as (a & -> & Ha). cbn [bind]. apply IH; [exact Ha|]. intros y b I. apply H. right; exact I.
Qed.
Lemma walkp_fold {A} e s D own pth c (body : Z -> A -> res A) acc : Inv e s D own pth -> is_cell s c -> walkp s (c_head (the_cell s c)) body acc = foldm body (own c) acc.
Proof.
  intros V Hc. assert (H : forall p, In p (own c) -> 0 <= p < npoints s) by (intros p I; apply (v_D _ _ _ _ _ V); eapply v_rng; eauto).
  unfold walkp. apply walk_fold.
  - apply (v_lst _ _ _ _ _ V c Hc).
  - rewrite (v_next _ _ _ _ _ V). exact H.
  - rewrite (v_next _ _ _ _ _ V). apply Nat.le_trans with (Z.to_nat (npoints s)); [apply nodup_range_length; [apply (v_nodup _ _ _ _ _ V c Hc)|exact H]|lia].
Qed.

(** ---- addPointsToCell ---- *)
Definition newcoord (e : env) (r : path) (first last k : Z) : R :=
  let d := k mod Ndim e in (blo e r d + (bup e r d - blo e r d) * unif e first last (k / Ndim e) d)%R.
Definition addp (e : env) (s : smp) (r : path) (c first last : Z) : smp :=
  mkSmp (mkArr (alen (cells s)) (upd (afn (cells s)) c (set_head (the_cell s c) (if last <=? first then c_head (the_cell s c) else last - 1))))
        (mkArr (alen (nextp s)) (fun p => if (first <=? p) && (p <? last) then (if p =? first then c_head (the_cell s c) else p - 1) else afn (nextp s) p))
        (mkArr (alen (coords s)) (fun k => if (first * Ndim e <=? k) && (k <? last * Ndim e) then newcoord e r first last k else afn (coords s) k))
        (fvals s).
Lemma div_mod_unique a n d : 0 <= d < n -> (a * n + d) / n = a /\ (a * n + d) mod n = d.
Proof. intros H. split; [rewrite Z.div_add_l by lia; rewrite Z.div_small by lia; lia|]. rewrite Z.add_comm, Z.mod_add by lia. apply Z.mod_small. lia. Qed.
Lemma addPoints_eq e s pth c first last : good_env e -> Tree e (cells s) pth -> is_cell s c -> alen (nextp s) = npoints s -> alen (coords s) = npoints s * Ndim e ->
  0 <= first -> last <= npoints s -> addPointsToCell e s c first last = Ok (addp e s (pth c) c first last).
Proof.
  intros G T Hc Ln Lc Hf Hl. unfold addPointsToCell. destruct (boundaries_ok e (cells s) pth c T Hc) as (lo & up & -> & Llo & Lup & B). cbn [bind fst snd].
  rewrite aget_ok by exact Hc. cbn [bind]. fold (the_cell s c). pose proof (g_dim e G) as GD. set (N := Ndim e) in *.
  set (h0 := c_head (the_cell s c)).
  destruct (Z_le_gt_dec last first) as [LE|LT].
  - rewrite for_empty by lia. cbn [bind]. rewrite aset_ok by exact Hc. cbn [bind]. f_equal. unfold addp. rewrite (proj2 (Z.leb_le last first)) by lia. f_equal.
    + destruct (nextp s) as [ln fn]. cbn. f_equal. apply functional_extensionality. intros p. destruct ((first <=? p) && (p <? last)) eqn:E; [|reflexivity]. apply andb_true_iff in E. rewrite Z.leb_le, Z.ltb_lt in E. lia.
    + destruct (coords s) as [ln fn]. cbn. f_equal. apply functional_extensionality. intros k. destruct ((first * Ndim e <=? k) && (k <? last * Ndim e)) eqn:E; [|reflexivity]. apply andb_true_iff in E. rewrite Z.leb_le, Z.ltb_lt in E. fold N in E. nia.
  - set (J := fun (j : Z) (acc : arr Z * arr R * Z) => acc =
       (mkArr (alen (nextp s)) (fun p => if (first <=? p) && (p <? j) then (if p =? first then h0 else p - 1) else afn (nextp s) p),
        mkArr (alen (coords s)) (fun k => if (first * N <=? k) && (k <? j * N) then newcoord e (pth c) first last k else afn (coords s) k),
        if j =? first then h0 else j - 1)).
    match goal with |- context [for_ first last ?bd ?ini] => destruct (for_total J first last bd ini) as (r & -> & Jr) end.
    + lia.
    + unfold J. rewrite Z.eqb_refl. do 2 f_equal.
      * destruct (nextp s) as [ln fn]. cbn. f_equal. apply functional_extensionality. intros p. destruct ((first <=? p) && (p <? first)) eqn:E; [|reflexivity]. apply andb_true_iff in E. rewrite Z.leb_le, Z.ltb_lt in E. lia.
      * destruct (coords s) as [ln fn]. cbn. f_equal. apply functional_extensionality. intros k. destruct ((first * N <=? k) && (k <? first * N)) eqn:E; [|reflexivity]. apply andb_true_iff in E. rewrite Z.leb_le, Z.ltb_lt in E. lia.
    + intros p acc Hp ->. set (I := fun (d : Z) (co : arr R) => co = mkArr (alen (coords s)) (fun k => if (first * N <=? k) && (k <? p * N + d) then newcoord e (pth c) first last k else afn (coords s) k)).
      match goal with |- context [for_ 0 N ?bd ?ini] => destruct (for_total I 0 N bd ini) as (co & -> & Ir) end.
      * lia.
      * unfold I. rewrite Z.add_0_r. reflexivity.
      * intros d co Hd ->. rewrite !aget_ok by lia. cbn [bind]. rewrite aset_ok by (cbn [alen]; rewrite Lc; nia). eexists. split; [reflexivity|]. unfold I. cbn [alen afn]. f_equal. apply functional_extensionality. intros k.
        unfold upd. destruct (Z.eq_dec k (p * N + d)) as [->|NE].
        -- rewrite Z.eqb_refl. rewrite (proj2 (Z.leb_le _ _)) by nia. rewrite (proj2 (Z.ltb_lt _ _)) by lia. cbn [andb]. unfold newcoord. fold N. destruct (div_mod_unique p N d Hd) as [-> ->].
           destruct (B d Hd) as [-> ->]. reflexivity.
        -- rewrite (proj2 (Z.eqb_neq _ _) NE). destruct (k <? p * N + (d + 1)) eqn:E1; destruct (k <? p * N + d) eqn:E2; try reflexivity.
           ++ apply Z.ltb_lt in E1. apply Z.ltb_ge in E2. lia.
           ++ apply Z.ltb_ge in E1. apply Z.ltb_lt in E2. lia.
      * cbn [bind]. rewrite aset_ok by (cbn [alen]; lia). cbn [bind]. eexists. split; [reflexivity|]. unfold J. rewrite Ir. cbn [alen afn]. rewrite (proj2 (Z.eqb_neq (p + 1) first)) by lia.
        f_equal; [f_equal|lia].
        -- f_equal. apply functional_extensionality. intros q. unfold upd. destruct (Z.eq_dec q p) as [->|NE].
           ++ rewrite Z.eqb_refl. rewrite (proj2 (Z.leb_le _ _)), (proj2 (Z.ltb_lt p (p + 1))) by lia. cbn [andb]. reflexivity.
           ++ rewrite (proj2 (Z.eqb_neq _ _) NE). destruct (q <? p + 1) eqn:E1; destruct (q <? p) eqn:E2; try reflexivity.
              ** apply Z.ltb_lt in E1. apply Z.ltb_ge in E2. lia.
              ** apply Z.ltb_ge in E1. apply Z.ltb_lt in E2. lia.
        -- f_equal. apply functional_extensionality. intros k. replace (p * N + N) with ((p + 1) * N) by ring. reflexivity.
    + unfold J in Jr. rewrite Jr. cbn [bind]. rewrite aset_ok by exact Hc. cbn [bind]. f_equal. unfold addp. rewrite (proj2 (Z.leb_gt last first)) by lia. rewrite (proj2 (Z.eqb_neq last first)) by lia. reflexivity.
Qed.
Lemma addp_coord e s r c first last p d : 1 <= Ndim e -> 0 <= d < Ndim e -> afn (coords (addp e s r c first last)) (p * Ndim e + d) =
  if (first <=? p) && (p <? last) then (blo e r d + (bup e r d - blo e r d) * unif e first last p d)%R else afn (coords s) (p * Ndim e + d).
Proof.
  intros GD Hd. cbn. unfold newcoord. destruct (div_mod_unique p (Ndim e) d Hd) as [-> ->].
  destruct (first <=? p) eqn:E1; [apply Z.leb_le in E1; rewrite (proj2 (Z.leb_le _ _)) by nia|apply Z.leb_gt in E1; rewrite (proj2 (Z.leb_gt _ _)) by nia]; cbn [andb]; [|reflexivity].
  destruct (p <? last) eqn:E2; [apply Z.ltb_lt in E2; rewrite (proj2 (Z.ltb_lt _ _)) by nia|apply Z.ltb_ge in E2; rewrite (proj2 (Z.ltb_ge _ _)) by nia]; reflexivity.
Qed.
Lemma lst_new nx h old first last : (0 <= first) -> lst nx h old -> (forall p, first <= p < last -> nx p = if p =? first then h else p - 1) ->
  lst nx (if last <=? first then h else last - 1) (rev (zseq first last) ++ old).
Proof.
  intros Hf L H. destruct (Z_le_gt_dec last first) as [LE|LT]; [rewrite zseq_nil by lia; rewrite (proj2 (Z.leb_le _ _)) by lia; exact L|].
  rewrite (proj2 (Z.leb_gt _ _)) by lia.
  assert (Q : forall n j, j = first + Z.of_nat n -> j <= last -> lst nx (if n then h else j - 1) (rev (zseq first j) ++ old)).
  { induction n as [|n IH]; intros j Ej Hj.
    - rewrite zseq_nil by lia. exact L.
    - replace j with ((j - 1) + 1) by lia. rewrite zseq_snoc by lia. rewrite rev_app_distr. cbn [rev app lst]. split; [lia|]. split; [lia|].
      rewrite H by lia. specialize (IH (j - 1) ltac:(lia) ltac:(lia)). destruct n as [|n].
      + rewrite (proj2 (Z.eqb_eq _ _)) by lia. exact IH.
      + rewrite (proj2 (Z.eqb_neq _ _)) by lia. exact IH. }
  specialize (Q (Z.to_nat (last - first)) last ltac:(lia) ltac:(lia)). destruct (Z.to_nat (last - first)) eqn:En; [lia|exact Q].
Qed.
Definition own_add (own : Z -> list Z) (c first last : Z) : Z -> list Z := upd own c (rev (zseq first last) ++ own c).
Lemma upd_head_other (s : smp) c h k : let cs := upd (afn (cells s)) c (set_head (the_cell s c) h) in
  c_child (cs k) = c_child (the_cell s k) /\ c_dim (cs k) = c_dim (the_cell s k) /\ c_parent (cs k) = c_parent (the_cell s k) /\ c_weight (cs k) = c_weight (the_cell s k).
Proof. cbv zeta. unfold upd. destruct (k =? c) eqn:E; [apply Z.eqb_eq in E; subst k|]; repeat split; reflexivity. Qed.
Lemma tree_same e cs cs' pth : Tree e cs pth -> alen cs' = alen cs -> (forall k, c_child (afn cs' k) = c_child (afn cs k) /\ c_dim (afn cs' k) = c_dim (afn cs k) /\ c_parent (afn cs' k) = c_parent (afn cs k)) -> Tree e cs' pth.
Proof.
  intros T A H. constructor.
  - rewrite A. apply (t_nc _ _ _ T).
  - apply (t_root _ _ _ T).
  - intros c Hc. cbv zeta. rewrite A in Hc. destruct (H c) as (_ & _ & ->). destruct (H (c_parent (afn cs c))) as (-> & -> & _). apply (t_par _ _ _ T c Hc).
  - intros c Hc. rewrite A in Hc |- *. destruct (H c) as (-> & -> & _). destruct (H (c_child (afn cs c))) as (_ & _ & ->). destruct (H (c_child (afn cs c) + 1)) as (_ & _ & ->). apply (t_child _ _ _ T c Hc).
Qed.
Lemma addp_inv e s D own pth c first last : good_env e -> Inv e s D own pth -> is_cell s c -> leaf s c -> 0 <= first -> last <= npoints s -> (forall p, first <= p < last -> ~ D p) ->
  Inv e (addp e s (pth c) c first last) (fun p => D p \/ first <= p < last) (own_add own c first last) pth.
Proof.
  intros G V Hc Lc Hf Hl Nw. set (s' := addp e s (pth c) c first last). pose proof (g_dim e G) as GD.
  assert (Ocell : forall k, is_cell s' k -> is_cell s k) by (intros k Hk; exact Hk).
  assert (Old : forall k p, is_cell s k -> In p (own k) -> ~ (first <= p < last)) by (intros k p Hk I Q; apply (Nw p Q); eapply v_rng; eauto).
  assert (Sp : forall k p, In p (own_add own c first last k) -> In p (own k) \/ (k = c /\ first <= p < last)).
  { intros k p I. unfold own_add, upd in I. destruct (k =? c) eqn:E; [|left; exact I]. apply Z.eqb_eq in E. subst k. apply in_app_or in I. destruct I as [I|I]; [right|left; exact I]. split; [reflexivity|]. apply in_rev in I. apply in_zseq. exact I. }
  constructor.
  - apply tree_same with (cs := cells s); [apply (v_tree _ _ _ _ _ V)|reflexivity|]. intros k. cbn. destruct (upd_head_other s c (if last <=? first then c_head (the_cell s c) else last - 1) k) as (A & B & C & _). auto.
  - apply (v_next _ _ _ _ _ V).
  - apply (v_coord _ _ _ _ _ V).
  - intros k Hk. unfold the_cell. cbn [cells s' addp afn nextp]. unfold own_add, upd. destruct (k =? c) eqn:E.
    + apply Z.eqb_eq in E. subst k. cbn [set_head c_head]. fold (the_cell s c). apply lst_new; [exact Hf| |].
      * apply lst_frame with (f := afn (nextp s)); [|apply (v_lst _ _ _ _ _ V c Hc)]. intros p I. pose proof (Old c p Hc I). destruct ((first <=? p) && (p <? last)) eqn:E; [|reflexivity]. apply andb_true_iff in E. rewrite Z.leb_le, Z.ltb_lt in E. lia.
      * intros p Hp. rewrite (proj2 (Z.leb_le _ _)), (proj2 (Z.ltb_lt _ _)) by lia. reflexivity.
    + apply lst_frame with (f := afn (nextp s)); [|apply (v_lst _ _ _ _ _ V k Hk)]. intros p I. pose proof (Old k p Hk I). destruct ((first <=? p) && (p <? last)) eqn:E'; [|reflexivity]. apply andb_true_iff in E'. rewrite Z.leb_le, Z.ltb_lt in E'. lia.
  - intros k p Hk I. destruct (Sp k p I) as [I'|(-> & I')]; [left; eapply v_rng; eauto|right; exact I'].
  - intros p [Hp|Hp]; [apply (v_D _ _ _ _ _ V p Hp)|]. change (npoints s') with (npoints s). lia.
  - intros k Hk. unfold own_add, upd. destruct (k =? c) eqn:E; [|apply (v_nodup _ _ _ _ _ V k Hk)]. apply nodup_app.
    + apply NoDup_rev, zseq_nodup.
    + apply (v_nodup _ _ _ _ _ V c Hc).
    + intros p I I'. apply in_rev in I. apply in_zseq in I. exact (Old c p Hc I' I).
  - intros k k' p Hk Hk' I I'. destruct (Sp k p I) as [J|(-> & J)]; destruct (Sp k' p I') as [J'|(-> & J')]; auto.
    + eapply v_disj; eauto.
    + exfalso. exact (Old k p Hk J J').
    + exfalso. exact (Old k' p Hk' J' J).
  - intros p [Hp|Hp].
    + destruct (v_cover _ _ _ _ _ V p Hp) as (k & Hk & I). exists k. split; [exact Hk|]. unfold own_add, upd. destruct (k =? c) eqn:E; [|exact I]. apply Z.eqb_eq in E. subst k. apply in_or_app. right; exact I.
    + exists c. split; [exact Hc|]. unfold own_add, upd. rewrite Z.eqb_refl. apply in_or_app. left. apply -> in_rev. apply in_zseq. exact Hp.
  - intros k p Hk I. unfold leaf, the_cell. cbn [cells s' addp afn]. destruct (upd_head_other s c (if last <=? first then c_head (the_cell s c) else last - 1) k) as (-> & _).
    destruct (Sp k p I) as [J|(-> & J)]; [apply (v_leaf _ _ _ _ _ V k p Hk J)|exact Lc].
  - intros k p Hk I d Hd. unfold pt. unfold s'. rewrite addp_coord by assumption. destruct (Sp k p I) as [J|(-> & J)].
    + pose proof (Old k p Hk J). destruct ((first <=? p) && (p <? last)) eqn:E'; [apply andb_true_iff in E'; rewrite Z.leb_le, Z.ltb_lt in E'; lia|]. apply (v_box _ _ _ _ _ V k p Hk J d Hd).
    + rewrite (proj2 (Z.leb_le _ _)), (proj2 (Z.ltb_lt _ _)) by lia. cbn [andb]. pose proof (g_unif e G first last p d) as U. pose proof (blo_bup e (pth c) d (g_box e G d Hd)) as W.
      set (u := unif e first last p d) in *. set (l := blo e (pth c) d) in *. set (h := bup e (pth c) d) in *. split.
      * assert (0 <= (h - l) * u)%R by (apply Rmult_le_pos; lra). lra.
      * assert ((h - l) * u < (h - l) * 1)%R by (apply Rmult_lt_compat_l; lra). lra.
  - intros k Hk. unfold the_cell. cbn [cells s' addp afn]. destruct (upd_head_other s c (if last <=? first then c_head (the_cell s c) else last - 1) k) as (_ & _ & _ & ->). apply (v_w _ _ _ _ _ V k Hk).
Qed.

(** ---- decideHowToSplitCell ---- *)
Lemma trunc_bin t : (0 <= t < 1)%R -> 0 <= Ztrunc (t * IZR numBinsEntropy) < numBinsEntropy.
Proof.
  intros H. unfold numBinsEntropy. rewrite Ztrunc_floor by lra. split.
  - apply Zfloor_lub. cbn. lra.
  - apply lt_IZR. apply Rle_lt_trans with (t * 16)%R; [apply Zfloor_lb|lra].
Qed.
Lemma entropy_ok h d n : alen h = n * numBinsEntropy -> 0 <= d < n -> exists en, entropy_of h d = Ok en.
Proof.
  intros L Hd. unfold entropy_of. destruct (for_total (fun _ _ => True) 0 numBinsEntropy (fun bin en => v <- aget h (d * numBinsEntropy + bin) ;; if Rlt_b 0 v then Ok (en - v * ln v)%R else Ok en) 0%R) as (en & -> & _); eauto.
  - unfold numBinsEntropy; lia.
  - intros i en Hi _. rewrite aget_ok by (rewrite L; unfold numBinsEntropy in *; nia). cbn [bind]. destruct (Rlt_b 0 _); eauto.
Qed.
Lemma decide_ok e s D own pth c : good_env e -> Inv e s D own pth -> is_cell s c -> own c <> [] ->
  exists dim, 0 <= dim < Ndim e /\ decideHowToSplitCell e s c = splitCell e s c dim (/ 2 * (blo e (pth c) dim + bup e (pth c) dim))%R.
Proof.
  intros G V Hc Ho. unfold decideHowToSplitCell. destruct (boundaries_ok e (cells s) pth c (v_tree _ _ _ _ _ V) Hc) as (lo & up & -> & Llo & Lup & B). cbn [bind fst snd].
  rewrite aget_ok by exact Hc. cbn [bind]. fold (the_cell s c). pose proof (g_dim e G) as GD.
  pose proof (v_lst _ _ _ _ _ V c Hc) as Lst. assert (Hh : c_head (the_cell s c) <? 0 = false). { destruct (own c) as [|p l]; [contradiction|]. cbn in Lst. apply Z.ltb_ge. lia. }
  rewrite Hh. rewrite (walkp_fold e s D own pth c) by assumption.
  match goal with |- context [foldm ?f (own c) ?ini] => destruct (foldm_total f (fun h => alen h = Ndim e * numBinsEntropy) (own c) ini) as (h & -> & Lh) end.
  { reflexivity. }
  { intros p h I Lh. pose proof (v_D _ _ _ _ _ V p (v_rng _ _ _ _ _ V c p Hc I)) as Hp. rewrite aget_ok by exact Hp. cbn [bind].
    match goal with |- context [for_ 0 (Ndim e) ?f h] => destruct (for_total (fun _ h => alen h = Ndim e * numBinsEntropy) 0 (Ndim e) f h) as (h' & -> & Lh') end; [lia|exact Lh| |eauto].
    intros d h1 Hd Lh1. pose proof (v_box _ _ _ _ _ V c p Hc I d Hd) as Bx. unfold pt in Bx. destruct (B d Hd) as [B1 B2].
    rewrite aget_ok by (rewrite (v_coord _ _ _ _ _ V); nia). cbn [bind]. rewrite !aget_ok by lia. cbn [bind].
    rewrite B1, B2. set (x := afn (coords s) (p * Ndim e + d)) in *.
    assert (Q : (0 <= (x - blo e (pth c) d) / (bup e (pth c) d - blo e (pth c) d) < 1)%R).
    { split; [apply Rmult_le_pos; [lra|left; apply Rinv_0_lt_compat; lra]|]. apply Rmult_lt_reg_r with (bup e (pth c) d - blo e (pth c) d)%R; [lra|]. unfold Rdiv. rewrite Rmult_assoc, Rinv_l by lra. lra. }
    apply trunc_bin in Q. set (bin := Ztrunc _) in *. rewrite aget_ok by (rewrite Lh1; unfold numBinsEntropy in *; nia). cbn [bind]. rewrite aset_ok by (rewrite Lh1; unfold numBinsEntropy in *; nia). eexists. split; [reflexivity|]. exact Lh1. }
  cbn [bind].
  match goal with |- context [for_ 0 (Ndim e) ?f ?ini] => destruct (for_total (fun d (acc : Z * option R) => (d = 0 /\ acc = (-1, None)) \/ (0 < d /\ 0 <= fst acc < Ndim e /\ snd acc <> None)) 0 (Ndim e) f ini) as (best & -> & Hb) end.
  { lia. } { left; auto. }
  { intros d acc Hd I. destruct (entropy_ok h d (Ndim e) Lh Hd) as (en & ->). cbn [bind]. destruct I as [(-> & ->)|(Hd' & Ha & Hn)].
    - cbn. eexists. split; [reflexivity|]. right. cbn. split; [lia|]. split; [lia|discriminate].
    - destruct (snd acc) as [m|] eqn:E; [|contradiction]. destruct (Rlt_b en m).
      + eexists. split; [reflexivity|]. right. cbn. split; [lia|]. split; [lia|discriminate].
      + eexists. split; [reflexivity|]. right. rewrite E. split; [lia|]. split; [lia|discriminate]. }
  cbn [bind]. destruct Hb as [(Hb & _)|(_ & Hb & _)]; [lia|]. exists (fst best). split; [exact Hb|]. rewrite (proj2 (Z.ltb_ge _ _)) by lia. rewrite !aget_ok by lia. cbn [bind]. destruct (B (fst best) Hb) as [-> ->]. reflexivity.
Qed.

(** ---- processCell ---- *)
Definition halved (s : smp) (c : Z) : smp := with_cells s (mkArr (alen (cells s)) (upd (afn (cells s)) c (set_weight (the_cell s c) (c_weight (the_cell s c) * / 2)%R))).
Definition expected (s : smp) (pth : Z -> path) (c : Z) : R := (1 / c_weight (the_cell s c) * (/ 2) ^ length (pth c))%R.
Lemma addCellToQueue_ok e s D own pth q c : Inv e s D own pth -> is_cell s c ->
  addCellToQueue s q c = Ok (halved s c, q ++ [(c, Ztrunc (expected s pth c) + snd (last q (0, 0)))]).
Proof.
  intros V Hc. unfold addCellToQueue. rewrite aget_ok by exact Hc. cbn [bind]. rewrite (halve_loop_ok e (cells s) pth (v_tree _ _ _ _ _ V)) by (try exact Hc; unfold is_cell in Hc; lia). cbn [bind].
  rewrite mod_cell_ok by exact Hc. reflexivity.
Qed.
Lemma halved_inv e s D own pth c : Inv e s D own pth -> is_cell s c -> Inv e (halved s c) D own pth.
Proof.
  intros V Hc.
  assert (Q : forall k, c_head (the_cell (halved s c) k) = c_head (the_cell s k) /\ c_child (the_cell (halved s c) k) = c_child (the_cell s k) /\ c_dim (the_cell (halved s c) k) = c_dim (the_cell s k) /\ c_parent (the_cell (halved s c) k) = c_parent (the_cell s k)).
  { intros k. unfold the_cell, halved. cbn. unfold upd. destruct (k =? c) eqn:E; [apply Z.eqb_eq in E; subst k|]; repeat split; reflexivity. }
  constructor; try (apply V).
  - apply tree_same with (cs := cells s); [apply (v_tree _ _ _ _ _ V)|reflexivity|]. intros k. destruct (Q k) as (_ & A). exact A.
  - intros k Hk. destruct (Q k) as (-> & _). apply (v_lst _ _ _ _ _ V k Hk).
  - intros k p Hk I. unfold leaf. destruct (Q k) as (_ & -> & _). apply (v_leaf _ _ _ _ _ V k p Hk I).
  - intros k Hk. unfold the_cell, halved. cbn. unfold upd. destruct (k =? c); [|apply (v_w _ _ _ _ _ V k Hk)]. cbn. pose proof (v_w _ _ _ _ _ V c Hc). unfold the_cell in *. lra.
Qed.
Definition top2 (fv : Z -> R) (acc : Z * R * R) (p : Z) : Z * R * R :=
  let '(num, l1, l2) := acc in if Rlt_b l1 (fv p) then (num + 1, fv p, l1) else if Rlt_b l2 (fv p) then (num + 1, l1, fv p) else (num + 1, l1, l2).
Lemma top2_spec fv l : forall num l1 l2, (l2 <= l1)%R -> let '(num', l1', l2') := fold_left (top2 fv) l (num, l1, l2) in
  num' = num + Z.of_nat (length l) /\ (l2' <= l1')%R /\ (l1 <= l1')%R /\ (forall p, In p l -> (fv p <= l1')%R).
Proof.
  induction l as [|p l IH]; intros num l1 l2 H; cbn [fold_left].
  - repeat split; try lra. cbn; lia. intros p [].
  - unfold top2 at 2. unfold Rlt_b. destruct (Rlt_dec l1 (fv p)) as [A|A]; [|destruct (Rlt_dec l2 (fv p)) as [B|B]].
    + specialize (IH (num + 1) (fv p) l1 ltac:(lra)). destruct (fold_left _ _ _) as ((n', a), b). destruct IH as (E & H1 & H2 & H3). cbn [length]. repeat split; try lra; try lia. intros q [<-|I]; [lra|auto].
    + specialize (IH (num + 1) l1 (fv p) ltac:(lra)). destruct (fold_left _ _ _) as ((n', a), b). destruct IH as (E & H1 & H2 & H3). cbn [length]. repeat split; try lra; try lia. intros q [<-|I]; [lra|auto].
    + specialize (IH (num + 1) l1 l2 ltac:(lra)). destruct (fold_left _ _ _) as ((n', a), b). destruct IH as (E & H1 & H2 & H3). cbn [length]. repeat split; try lra; try lia. intros q [<-|I]; [lra|auto].
Qed.
Definition heavy (e : env) (s : smp) (integ : R) (c p : Z) : Prop := (1 < afn (fvals s) p * c_weight (the_cell s c) * IZR (Nout e) / integ)%R.
Lemma processCell_ok e s D own pth integ q c : good_env e -> Inv e s D own pth -> is_cell s c -> (0 < integ)%R -> 0 <= Nout e ->
  exists s' q', processCell e integ s q c = Ok (s', q') /\
   ((s' = s /\ q' = q /\ forall p, In p (own c) -> ~ heavy e s integ c p) \/
    (exists dim, 0 <= dim < Ndim e /\ own c <> [] /\ 512 < Z.of_nat (length (own c)) /\ q' = q /\ splitCell e s c dim (/ 2 * (blo e (pth c) dim + bup e (pth c) dim))%R = Ok s') \/
    (own c <> [] /\ Z.of_nat (length (own c)) <= 512 /\ s' = halved s c /\ q' = q ++ [(c, Ztrunc (expected s pth c) + snd (last q (0, 0)))])).
Proof.
  intros G V Hc HI HN. unfold processCell. rewrite aget_ok by exact Hc. cbn [bind]. fold (the_cell s c). rewrite (walkp_fold e s D own pth c) by assumption.
  rewrite (foldm_pure _ (top2 (afn (fvals s)))).
  2:{ intros p ((num, l1), l2) I. pose proof (v_D _ _ _ _ _ V p (v_rng _ _ _ _ _ V c p Hc I)) as Hp. rewrite aget_ok by exact Hp. cbn [bind]. unfold top2. destruct (Rlt_b l1 _); [reflexivity|]. destruct (Rlt_b l2 _); reflexivity. }
  cbn [bind]. pose proof (top2_spec (afn (fvals s)) (own c) 0 0%R 0%R ltac:(lra)) as TS. destruct (fold_left (top2 (afn (fvals s))) (own c) (0, 0%R, 0%R)) as ((num, l1), l2). destruct TS as (En & H1 & H2 & H3).
  destruct (num =? 0) eqn:E0.
  - apply Z.eqb_eq in E0. exists s, q. split; [reflexivity|]. left. repeat split; auto. intros p I. destruct (own c); [destruct I|cbn in En; lia].
  - apply Z.eqb_neq in E0. assert (Ho : own c <> []) by (intros E; rewrite E in En; cbn in En; lia).
    destruct (Rlt_b _ 1) eqn:ER.
    + exists s, q. split; [reflexivity|]. left. repeat split; auto. intros p I Hv. unfold heavy in Hv. unfold Rlt_b in ER. destruct (Rlt_dec _ _) as [L|]; [|discriminate].
      specialize (H3 p I). pose proof (v_w _ _ _ _ _ V c Hc) as W. assert (0 <= c_weight (the_cell s c) * IZR (Nout e) / integ)%R.
      { apply Rmult_le_pos; [apply Rmult_le_pos; [lra|apply IZR_le; exact HN]|left; apply Rinv_0_lt_compat; exact HI]. }
      assert (c_weight (the_cell s c) * IZR (Nout e) / integ * afn (fvals s) p <= c_weight (the_cell s c) * IZR (Nout e) / integ * (l1 * 2 - l2))%R by (apply Rmult_le_compat_l; lra).
      replace (afn (fvals s) p * c_weight (the_cell s c) * IZR (Nout e) / integ)%R with (c_weight (the_cell s c) * IZR (Nout e) / integ * afn (fvals s) p)%R in Hv by (field; lra). lra.
    + change (2 * minNumPointsInCell) with 512. destruct (512 <? num) eqn:EN.
      * apply Z.ltb_lt in EN. destruct (decide_ok e s D own pth c G V Hc Ho) as (dim & Hd & ->).
        destruct (splitCell_ok e s D own pth c dim G V Hc Ho Hd) as (s' & E & _). rewrite E. cbn [bind]. exists s', q. split; [reflexivity|]. right. left. exists dim. repeat split; auto; try lia.
      * apply Z.ltb_ge in EN. rewrite (addCellToQueue_ok e s D own pth q c V Hc). do 2 eexists. split; [reflexivity|]. right. right. repeat split; auto; lia.
Qed.
