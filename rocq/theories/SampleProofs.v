(** Proofs about the sampler, part 1: linked lists, the tree of cells, boundaries. *)
From Coq Require Import Lra Permutation FunctionalExtensionality.
From Verif Require Import Arr PolyModel PolyProofs SampleModel SampleSpec.
Local Open Scope Z_scope.

(** ---- integer ranges and folds ---- *)
Fixpoint zseqn (n : nat) (a : Z) : list Z := match n with O => [] | S n' => a :: zseqn n' (a + 1) end.
Definition zseq (a b : Z) : list Z := zseqn (Z.to_nat (b - a)) a.
Lemma in_zseqn n a x : In x (zseqn n a) <-> a <= x < a + Z.of_nat n.
Proof. revert a. induction n as [|n IH]; intros a; cbn [zseqn In]; [lia|]. rewrite IH. lia. Qed.
Lemma in_zseq a b x : In x (zseq a b) <-> a <= x < b.
Proof. unfold zseq. rewrite in_zseqn. lia. Qed.
Lemma zseqn_nodup n a : NoDup (zseqn n a).
Proof. revert a. induction n as [|n IH]; intros a; cbn [zseqn]; constructor; [rewrite in_zseqn; lia|apply IH]. Qed.
Lemma zseq_nodup a b : NoDup (zseq a b). Proof. apply zseqn_nodup. Qed.
Lemma zseq_len a b : length (zseq a b) = Z.to_nat (b - a).
Proof. unfold zseq. generalize (Z.to_nat (b - a)). intros n. revert a. induction n as [|n IH]; intros a; cbn; auto. Qed.
Lemma zseqn_snoc n a : zseqn (S n) a = zseqn n a ++ [a + Z.of_nat n].
Proof. revert a. induction n as [|n IH]; intros a; [cbn; f_equal; lia|]. cbn [zseqn app]. f_equal. specialize (IH (a + 1)). cbn [zseqn] in IH. rewrite IH. f_equal. f_equal. lia. Qed.
Lemma zseq_snoc a b : a <= b -> zseq a (b + 1) = zseq a b ++ [b].
Proof. intros H. unfold zseq. replace (Z.to_nat (b + 1 - a)) with (S (Z.to_nat (b - a))) by lia. rewrite zseqn_snoc. do 2 f_equal. lia. Qed.
Lemma zseq_nil a b : b <= a -> zseq a b = [].
Proof. intros H. unfold zseq. replace (Z.to_nat (b - a)) with O by lia. reflexivity. Qed.
Lemma zseqn_app n m a : zseqn (n + m) a = zseqn n a ++ zseqn m (a + Z.of_nat n).
Proof. revert a. induction n as [|n IH]; intros a; cbn [zseqn app Nat.add]; [f_equal; lia|]. f_equal. rewrite IH. do 2 f_equal. lia. Qed.
Lemma zseq_app a b c : a <= b <= c -> zseq a c = zseq a b ++ zseq b c.
Proof. intros H. unfold zseq. replace (Z.to_nat (c - a)) with (Z.to_nat (b - a) + Z.to_nat (c - b))%nat by lia. rewrite zseqn_app. do 2 f_equal. lia. Qed.

Fixpoint foldm {A B} (body : B -> A -> res A) (l : list B) (acc : A) : res A :=
  match l with [] => Ok acc | p :: l' => a <- body p acc ;; foldm body l' a end.
Lemma for_foldm {A} lo hi (body : Z -> A -> res A) acc : for_ lo hi body acc = foldm body (zseq lo hi) acc.
Proof.
  unfold for_, zseq. generalize (Z.to_nat (hi - lo)). intros n. revert lo acc. induction n as [|n IH]; intros lo acc; cbn; [reflexivity|].
  destruct (body lo acc); cbn; auto.
Qed.
Lemma foldm_app {A B} (body : B -> A -> res A) l1 l2 acc : foldm body (l1 ++ l2) acc = (a <- foldm body l1 acc ;; foldm body l2 a).
Proof. revert acc. induction l1 as [|x l1 IH]; intros acc; cbn; [reflexivity|]. destruct (body x acc); cbn; auto. Qed.
Lemma foldm_ext {A B} (f g : B -> A -> res A) l acc : (forall x a, In x l -> f x a = g x a) -> foldm f l acc = foldm g l acc.
Proof. revert acc. induction l as [|x l IH]; intros acc H; cbn; [reflexivity|]. rewrite H by (left; reflexivity). destruct (g x acc); cbn; auto. apply IH. intros; apply H; right; assumption. Qed.
Lemma foldm_pure {A B} (f : B -> A -> res A) (g : A -> B -> A) l acc : (forall x a, In x l -> f x a = Ok (g a x)) -> foldm f l acc = Ok (fold_left g l acc).
Proof. revert acc. induction l as [|x l IH]; intros acc H; cbn; [reflexivity|]. rewrite H by (left; reflexivity). cbn. apply IH. intros; apply H; right; assumption. Qed.
Lemma foldm_nest {A B C} (f : B -> C -> A -> res A) (own : B -> list C) l acc :
  foldm (fun c a => foldm (f c) (own c) a) l acc = foldm (fun cp a => f (fst cp) (snd cp) a) (flat_map (fun c => map (fun p => (c, p)) (own c)) l) acc.
Proof.
  revert acc. induction l as [|c l IH]; intros acc; cbn; [reflexivity|]. rewrite foldm_app.
  assert (E : forall ps a, foldm (f c) ps a = foldm (fun cp a => f (fst cp) (snd cp) a) (map (fun p => (c, p)) ps) a).
  { induction ps as [|p ps IHp]; intros a; cbn; [reflexivity|]. destruct (f c p a); cbn; auto. }
  rewrite E. destruct (foldm _ (map _ (own c)) acc); cbn; auto.
Qed.

(** ---- linked lists ---- *)
Fixpoint lst (nx : Z -> Z) (h : Z) (l : list Z) : Prop :=
  match l with [] => h < 0 | p :: l' => h = p /\ 0 <= p /\ lst nx (nx p) l' end.
Lemma lst_frame f g h l : (forall p, In p l -> f p = g p) -> lst f h l -> lst g h l.
Proof.
  revert h. induction l as [|p l IH]; intros h H L; cbn in *; [exact L|]. destruct L as (E & P & L). split; [exact E|]. split; [exact P|].
  rewrite <- (H p (or_introl eq_refl)). apply IH; auto.
Qed.
Lemma lst_linked nx h l p : lst nx h l -> (linked nx h p <-> In p l).
Proof.
  intros L. split.
  - intros K. revert l L. induction K as [p P|h p P K IH]; intros l L.
    + destruct l as [|q l]; cbn in L; [lia|]. destruct L as (-> & _). left; reflexivity.
    + destruct l as [|q l]; cbn in L; [lia|]. destruct L as (-> & _ & L). right. apply IH. exact L.
  - revert h L. induction l as [|q l IH]; intros h L I; [destruct I|]. destruct L as (-> & P & L). destruct I as [->|I].
    + constructor. exact P.
    + apply linked_next; auto.
Qed.
Lemma lst_unique nx h l l' : lst nx h l -> lst nx h l' -> l = l'.
Proof.
  revert h l'. induction l as [|p l IH]; intros h [|q l'] L L'; cbn in *; auto; try lia.
  destruct L as (-> & P & L). destruct L' as (-> & _ & L'). f_equal. eapply IH; eauto.
Qed.
Lemma walk_fold {A} nx (body : Z -> A -> res A) l : forall fuel h acc, lst (afn nx) h l -> (forall p, In p l -> 0 <= p < alen nx) -> (length l <= fuel)%nat ->
  walk fuel nx h body acc = foldm body l acc.
Proof.
  induction l as [|p l IH]; intros fuel h acc L H F.
  - cbn in L. destruct fuel; cbn [walk foldm]; rewrite (proj2 (Z.ltb_lt h 0)) by lia; reflexivity.
  - destruct L as (-> & P & L). destruct fuel as [|fuel]; [cbn in F; lia|]. cbn [walk foldm]. rewrite (proj2 (Z.ltb_ge p 0)) by lia.
    destruct (body p acc) as [a| | |]; cbn [bind]; auto. rewrite aget_ok by (apply H; left; reflexivity). cbn [bind].
    apply IH; [exact L|intros; apply H; right; assumption|cbn in F; lia].
Qed.
Lemma nodup_range_length (l : list Z) n : NoDup l -> (forall p, In p l -> 0 <= p < n) -> (length l <= Z.to_nat n)%nat.
Proof.
  intros N H. replace (Z.to_nat n) with (length (zseq 0 n)) by (rewrite zseq_len; f_equal; lia).
  apply NoDup_incl_length; [exact N|]. intros p I. apply in_zseq. apply H. exact I.
Qed.

(** ---- paths in the tree and relative coordinates ---- *)
Definition path := list (Z * bool).
Definition half (b : bool) (x : R) : R := (if b then / 2 * (1 + x) else x * / 2)%R.
Fixpoint ap (r : path) (d : Z) (x : R) : R :=
  match r with [] => x | (k, b) :: r' => ap r' d (if k =? d then half b x else x) end.
Lemma ap_affine r d x : ap r d x = (ap r d 0 + (ap r d 1 - ap r d 0) * x)%R.
Proof.
  revert x. induction r as [|(k, b) r IH]; intros x; cbn [ap]; [ring|]. destruct (k =? d); [|apply IH].
  rewrite (IH (half b x)), (IH (half b 0)), (IH (half b 1)). unfold half. destruct b; field.
Qed.
Lemma ap_pos r d : (0 < ap r d 1 - ap r d 0)%R.
Proof.
  induction r as [|(k, b) r IH]; cbn [ap]; [lra|]. destruct (k =? d); [|exact IH].
  rewrite (ap_affine r d (half b 1)), (ap_affine r d (half b 0)). unfold half. destruct b; lra.
Qed.
Definition blo (e : env) (r : path) (d : Z) : R := (xlower e d + (xupper e d - xlower e d) * ap r d 0)%R.
Definition bup (e : env) (r : path) (d : Z) : R := (xlower e d + (xupper e d - xlower e d) * ap r d 1)%R.
Lemma bup_nil e d : bup e [] d = xupper e d. Proof. unfold bup. cbn. ring. Qed.
Lemma blo_nil e d : blo e [] d = xlower e d. Proof. unfold blo. cbn. ring. Qed.
Lemma blo_bup e r d : (xlower e d < xupper e d)%R -> (blo e r d < bup e r d)%R.
Proof. intros H. unfold blo, bup. pose proof (ap_pos r d). assert (0 < (xupper e d - xlower e d) * (ap r d 1 - ap r d 0))%R by (apply Rmult_lt_0_compat; lra). lra. Qed.
Lemma b_other e k b r d : k <> d -> blo e ((k, b) :: r) d = blo e r d /\ bup e ((k, b) :: r) d = bup e r d.
Proof. intros H. unfold blo, bup. cbn [ap]. rewrite (proj2 (Z.eqb_neq k d) H). split; reflexivity. Qed.
Lemma b_lower e r d : blo e ((d, false) :: r) d = blo e r d /\ bup e ((d, false) :: r) d = ((blo e r d + bup e r d) / 2)%R.
Proof.
  unfold blo, bup. cbn [ap]. rewrite Z.eqb_refl. rewrite (ap_affine r d (half false 0)), (ap_affine r d (half false 1)). unfold half. split; [ring|field].
Qed.
Lemma b_upper e r d : blo e ((d, true) :: r) d = ((blo e r d + bup e r d) / 2)%R /\ bup e ((d, true) :: r) d = bup e r d.
Proof.
  unfold blo, bup. cbn [ap]. rewrite Z.eqb_refl. rewrite (ap_affine r d (half true 0)), (ap_affine r d (half true 1)). unfold half. split; field.
Qed.

(** ---- the tree invariant (no points) ---- *)
Record Tree (e : env) (cs : arr cell) (pth : Z -> path) : Prop := {
  t_nc : 1 <= alen cs;
  t_root : pth 0 = [];
  t_par : forall c, 0 < c < alen cs -> let P := c_parent (afn cs c) in let K := afn cs P in
            0 <= P < c /\ (c = c_child K \/ c = c_child K + 1) /\ c_child K <> -1 /\ pth c = (c_dim K, c =? c_child K + 1) :: pth P;
  t_child : forall c, 0 <= c < alen cs -> c_child (afn cs c) = -1 \/
            (c < c_child (afn cs c) /\ c_child (afn cs c) + 1 < alen cs /\ 0 <= c_dim (afn cs c) < Ndim e /\
             c_parent (afn cs (c_child (afn cs c))) = c /\ c_parent (afn cs (c_child (afn cs c) + 1)) = c) }.

Lemma bound_loop_ok e cs pth : Tree e cs pth -> forall fuel c lo up, 0 <= c < alen cs -> (Z.to_nat c < fuel)%nat -> alen lo = Ndim e -> alen up = Ndim e ->
  exists lo' up', bound_loop fuel cs c (lo, up) = Ok (lo', up') /\ alen lo' = Ndim e /\ alen up' = Ndim e /\
    forall d, 0 <= d < Ndim e -> afn lo' d = ap (pth c) d (afn lo d) /\ afn up' d = ap (pth c) d (afn up d).
Proof.
  intros T. induction fuel as [|fuel IH]; intros c lo up Hc HF HL HU; [lia|]. cbn [bound_loop].
  destruct (Z_le_gt_dec c 0) as [C|C].
  - rewrite (proj2 (Z.leb_le c 0)) by lia. replace c with 0 by lia. rewrite (t_root _ _ _ T). exists lo, up. repeat split; auto.
  - rewrite (proj2 (Z.leb_gt c 0)) by lia. rewrite aget_ok by lia. cbn [bind]. cbv zeta.
    destruct (t_par _ _ _ T c ltac:(lia)) as (HP & HC & HN & HPth). set (P := c_parent (afn cs c)) in *. set (K := afn cs P) in *.
    rewrite aget_ok by lia. cbn [bind]. fold K.
    destruct (t_child _ _ _ T P ltac:(lia)) as [B|(_ & _ & HD & _)]; [contradiction|]. fold K in HD.
    assert (Hor : negb ((c =? c_child K) || (c =? c_child K + 1)) = false).
    { destruct HC as [E | E]; rewrite (proj2 (Z.eqb_eq _ _) E); [reflexivity|]. rewrite orb_true_r. reflexivity. }
    rewrite Hor. cbn [fst snd]. rewrite !aget_ok by lia. cbn [bind].
    assert (G : exists lo1 up1, (if c =? c_child K then lo' <- aset lo (c_dim K) (afn lo (c_dim K) * / 2)%R ;; up' <- aset up (c_dim K) (afn up (c_dim K) * / 2)%R ;; Ok (lo', up')
             else lo' <- aset lo (c_dim K) (/ 2 * (1 + afn lo (c_dim K)))%R ;; up' <- aset up (c_dim K) (/ 2 * (1 + afn up (c_dim K)))%R ;; Ok (lo', up')) = Ok (lo1, up1) /\
             alen lo1 = Ndim e /\ alen up1 = Ndim e /\ forall d, afn lo1 d = (if c_dim K =? d then half (c =? c_child K + 1) (afn lo d) else afn lo d) /\
               afn up1 d = (if c_dim K =? d then half (c =? c_child K + 1) (afn up d) else afn up d)).
    { destruct (c =? c_child K) eqn:E1.
      - apply Z.eqb_eq in E1. rewrite (proj2 (Z.eqb_neq c (c_child K + 1))) by lia. rewrite !aset_ok by lia. cbn [bind]. do 2 eexists. split; [reflexivity|].
        cbn [alen afn]. split; [exact HL|]. split; [exact HU|]. intros d. unfold upd. rewrite (Z.eqb_sym d). destruct (c_dim K =? d) eqn:Ed; [apply Z.eqb_eq in Ed; subst d|]; split; reflexivity.
      - apply Z.eqb_neq in E1. rewrite (proj2 (Z.eqb_eq c (c_child K + 1))) by lia. rewrite !aset_ok by lia. cbn [bind]. do 2 eexists. split; [reflexivity|].
        cbn [alen afn]. split; [exact HL|]. split; [exact HU|]. intros d. unfold upd. rewrite (Z.eqb_sym d). destruct (c_dim K =? d) eqn:Ed; [apply Z.eqb_eq in Ed; subst d|]; split; reflexivity. }
    destruct G as (lo1 & up1 & -> & L1 & U1 & G). cbn [bind].
    destruct (IH P lo1 up1 ltac:(lia) ltac:(lia) L1 U1) as (lo' & up' & E & L' & U' & H). exists lo', up'. split; [exact E|]. split; [exact L'|]. split; [exact U'|].
    intros d Hd. destruct (H d Hd) as [H1 H2]. destruct (G d) as [G1 G2]. rewrite H1, H2, G1, G2, HPth. cbn [ap]. split; reflexivity.
Qed.
Lemma boundaries_ok e cs pth c : Tree e cs pth -> 0 <= c < alen cs -> exists lo up, getCellBoundaries e cs c = Ok (lo, up) /\ alen lo = Ndim e /\ alen up = Ndim e /\
  forall d, 0 <= d < Ndim e -> afn lo d = blo e (pth c) d /\ afn up d = bup e (pth c) d.
Proof.
  intros T Hc. unfold getCellBoundaries.
  destruct (bound_loop_ok e cs pth T (S (Z.to_nat (alen cs))) c (anew (Ndim e) 0%R) (anew (Ndim e) 1%R) Hc ltac:(lia) eq_refl eq_refl) as (lo & up & -> & L & U & H).
  cbn [bind fst snd]. do 2 eexists. split; [reflexivity|]. cbn [alen afn]. split; [reflexivity|]. split; [reflexivity|].
  intros d Hd. destruct (H d Hd) as [-> ->]. split; reflexivity.
Qed.
Lemma halve_loop_ok e cs pth : Tree e cs pth -> forall fuel c n, 0 <= c < alen cs -> (Z.to_nat c < fuel)%nat ->
  halve_loop fuel cs c n = Ok (n * (/ 2) ^ length (pth c))%R.
Proof.
  intros T. induction fuel as [|fuel IH]; intros c n Hc HF; [lia|]. cbn [halve_loop]. destruct (Z_le_gt_dec c 0) as [C|C].
  - rewrite (proj2 (Z.leb_le c 0)) by lia. replace c with 0 by lia. rewrite (t_root _ _ _ T). cbn. f_equal. ring.
  - rewrite (proj2 (Z.leb_gt c 0)) by lia. rewrite aget_ok by lia. cbn [bind].
    destruct (t_par _ _ _ T c ltac:(lia)) as (HP & HC & HN & HPth). rewrite IH by lia. rewrite HPth. cbn [length pow]. f_equal. ring.
Qed.

(** the spec boxes *)
Lemma box_of_path e s pth : Tree e (cells s) pth -> forall c lo up, cell_box e s c lo up -> is_cell s c /\ forall d, 0 <= d < Ndim e -> lo d = blo e (pth c) d /\ up d = bup e (pth c) d.
Proof.
  intros T c lo up B. unfold is_cell. pose proof (t_nc _ _ _ T) as N1. induction B as [|c lo up B (Hc & IH) C L d|c lo up B (Hc & IH) C L d].
  - split; [lia|]. intros d Hd. rewrite (t_root _ _ _ T), blo_nil, bup_nil. split; reflexivity.
  - destruct (t_child _ _ _ T c Hc) as [A|(A1 & A2 & A3 & A4 & A5)]; [contradiction L; exact A|]. fold (the_cell s c) in A1, A2, A3, A4, A5. split; [lia|]. intros d' Hd'.
    destruct (t_par _ _ _ T (c_child (the_cell s c)) ltac:(lia)) as (_ & _ & _ & P). rewrite A4 in P. fold (the_cell s c) in P. rewrite (proj2 (Z.eqb_neq _ _)) in P by lia. rewrite P.
    destruct (IH d' Hd') as [I1 I2]. subst d. unfold upd. destruct (Z.eq_dec d' (c_dim (the_cell s c))) as [->|N].
    + destruct (b_lower e (pth c) (c_dim (the_cell s c))) as [-> ->]. rewrite Z.eqb_refl. rewrite I1, I2. split; reflexivity.
    + destruct (b_other e (c_dim (the_cell s c)) false (pth c) d' ltac:(congruence)) as [-> ->]. rewrite (proj2 (Z.eqb_neq _ _) N). split; assumption.
  - destruct (t_child _ _ _ T c Hc) as [A|(A1 & A2 & A3 & A4 & A5)]; [contradiction L; exact A|]. fold (the_cell s c) in A1, A2, A3, A4, A5. split; [lia|]. intros d' Hd'.
    destruct (t_par _ _ _ T (c_child (the_cell s c) + 1) ltac:(lia)) as (_ & _ & _ & P). rewrite A5 in P. fold (the_cell s c) in P. rewrite Z.eqb_refl in P. rewrite P.
    destruct (IH d' Hd') as [I1 I2]. subst d. unfold upd. destruct (Z.eq_dec d' (c_dim (the_cell s c))) as [->|N].
    + destruct (b_upper e (pth c) (c_dim (the_cell s c))) as [-> ->]. rewrite Z.eqb_refl. rewrite I1, I2. split; reflexivity.
    + destruct (b_other e (c_dim (the_cell s c)) true (pth c) d' ltac:(congruence)) as [-> ->]. rewrite (proj2 (Z.eqb_neq _ _) N). split; assumption.
Qed.
Lemma path_box e s pth : Tree e (cells s) pth -> forall n c, 0 <= c < alen (cells s) -> (Z.to_nat c < n)%nat -> exists lo up, cell_box e s c lo up.
Proof.
  intros T. induction n as [|n IH]; intros c Hc Hn; [lia|]. destruct (Z.eq_dec c 0) as [->|N]; [exists (xlower e), (xupper e); constructor|].
  destruct (t_par _ _ _ T c ltac:(lia)) as (HP & HC & HN & _). set (P := c_parent (afn (cells s) c)) in *.
  destruct (IH P ltac:(lia) ltac:(lia)) as (lo & up & B). destruct HC as [E | E]; rewrite E; do 2 eexists; [apply box_lower|apply box_upper]; eauto; unfold is_cell; lia.
Qed.
Definition pinside (e : env) (r : path) (x : Z -> R) : Prop := forall d, 0 <= d < Ndim e -> (blo e r d <= x d < bup e r d)%R.
Lemma in_box_path e s pth c x : Tree e (cells s) pth -> is_cell s c -> (in_box e s c x <-> pinside e (pth c) x).
Proof.
  intros T Hc. split.
  - intros (lo & up & B & H) d Hd. destruct (box_of_path e s pth T c lo up B) as (_ & K). destruct (K d Hd) as [<- <-]. apply H. exact Hd.
  - intros H. destruct (path_box e s pth T (S (Z.to_nat c)) c Hc ltac:(lia)) as (lo & up & B). exists lo, up. split; [exact B|]. intros d Hd.
    destruct (box_of_path e s pth T c lo up B) as (_ & K). destruct (K d Hd) as [-> ->]. apply H. exact Hd.
Qed.
(** halves *)
Lemma pinside_parent e r k b x : (forall d, 0 <= d < Ndim e -> (xlower e d < xupper e d)%R) -> pinside e ((k, b) :: r) x -> pinside e r x.
Proof.
  intros G H d Hd. pose proof (blo_bup e r d (G d Hd)) as Q. specialize (H d Hd). destruct (Z.eq_dec k d) as [->|N].
  - destruct b; [destruct (b_upper e r d) as [E1 E2]|destruct (b_lower e r d) as [E1 E2]]; rewrite E1, E2 in H; lra.
  - destruct (b_other e k b r d N) as [E1 E2]. rewrite E1, E2 in H. exact H.
Qed.
Lemma pinside_halves e r k x : 0 <= k < Ndim e -> pinside e r x ->
  pinside e ((k, if Rlt_b (x k) ((blo e r k + bup e r k) / 2)%R then false else true) :: r) x.
Proof.
  intros Hk H d Hd. destruct (Z.eq_dec k d) as [->|N].
  - specialize (H d Hd). unfold Rlt_b. destruct (Rlt_dec (x d) ((blo e r d + bup e r d) / 2)).
    + destruct (b_lower e r d) as [E1 E2]; rewrite E1, E2. lra.
    + destruct (b_upper e r d) as [E1 E2]; rewrite E1, E2. lra.
  - destruct (b_other e k (if Rlt_b (x k) ((blo e r k + bup e r k) / 2)%R then false else true) r d N) as [E1 E2]. rewrite E1, E2. apply H. exact Hd.
Qed.
Lemma pinside_excl e r k x : 0 <= k < Ndim e -> pinside e ((k, false) :: r) x -> pinside e ((k, true) :: r) x -> False.
Proof.
  intros Hk A B. specialize (A k Hk). specialize (B k Hk). destruct (b_lower e r k) as [E1 E2]. destruct (b_upper e r k) as [E3 E4]. rewrite E1, E2 in A. rewrite E3, E4 in B. lra.
Qed.
(** ---- tiling ---- *)
Section Tile.
Variables (e : env) (cs : arr cell) (pth : Z -> path) (x : Z -> R).
Hypothesis T : Tree e cs pth.
Hypothesis G : forall d, 0 <= d < Ndim e -> (xlower e d < xupper e d)%R.
Let Lf c := c_child (afn cs c) = -1.
Lemma tile_exists : forall n c, 0 <= c < alen cs -> (Z.to_nat (alen cs - c) <= n)%nat -> pinside e (pth c) x -> exists l, 0 <= l < alen cs /\ Lf l /\ pinside e (pth l) x.
Proof.
  induction n as [|n IH]; intros c Hc Hn H; [lia|]. destruct (t_child _ _ _ T c Hc) as [A|(A1 & A2 & A3 & A4 & A5)]; [exists c; auto|].
  set (k := c_dim (afn cs c)) in *. pose proof (pinside_halves e (pth c) k x A3 H) as Q.
  destruct (Rlt_b (x k) _).
  - apply (IH (c_child (afn cs c))); try lia. destruct (t_par _ _ _ T (c_child (afn cs c)) ltac:(lia)) as (_ & _ & _ & P). rewrite P, A4. rewrite (proj2 (Z.eqb_neq _ _)) by lia. exact Q.
  - apply (IH (c_child (afn cs c) + 1)); try lia. destruct (t_par _ _ _ T (c_child (afn cs c) + 1) ltac:(lia)) as (_ & _ & _ & P). rewrite P, A5, Z.eqb_refl. exact Q.
Qed.
Inductive anc (a : Z) : Z -> Prop := anc_self : anc a a | anc_step : forall l, 0 < l < alen cs -> anc a (c_parent (afn cs l)) -> anc a l.
Lemma anc_root : forall n l, (Z.to_nat l < n)%nat -> 0 <= l < alen cs -> anc 0 l.
Proof.
  induction n as [|n IH]; intros l Hn Hl; [lia|]. destruct (Z.eq_dec l 0) as [->|N]; [constructor|]. apply anc_step; [lia|].
  destruct (t_par _ _ _ T l ltac:(lia)) as (HP & _). apply IH; lia.
Qed.
Lemma anc_inside a l : anc a l -> pinside e (pth l) x -> pinside e (pth a) x.
Proof.
  induction 1 as [|l Hl A IH]; [auto|]. intros H. apply IH. destruct (t_par _ _ _ T l Hl) as (_ & _ & _ & P). rewrite P in H. eapply pinside_parent; eauto.
Qed.
Lemma anc_child a l : anc a l -> a = l \/ exists c, 0 < c < alen cs /\ c_parent (afn cs c) = a /\ anc c l.
Proof.
  induction 1 as [|l Hl A IH]; [left; reflexivity|]. right. destruct IH as [E|(c & Hc & Pc & Ac)].
  - exists l. rewrite E. repeat split; try lia. constructor.
  - exists c. repeat split; auto; try lia. apply anc_step; auto.
Qed.
Lemma anc_all : forall n c l, (Z.to_nat c < n)%nat -> 0 <= c < alen cs -> 0 <= l < alen cs -> Lf l -> pinside e (pth c) x -> pinside e (pth l) x -> anc c l.
Proof.
  induction n as [|n IH]; intros c l Hn Hc Hl L Pc Pl; [lia|]. destruct (Z.eq_dec c 0) as [->|N]; [apply (anc_root (S (Z.to_nat l))); lia|].
  destruct (t_par _ _ _ T c ltac:(lia)) as (HP & HC & HN & Hp). set (P := c_parent (afn cs c)) in *.
  assert (PP : pinside e (pth P) x) by (rewrite Hp in Pc; eapply pinside_parent; eauto).
  pose proof (IH P l ltac:(lia) ltac:(lia) Hl L PP Pl) as A. destruct (anc_child P l A) as [E|(c' & Hc' & P' & A')]; [subst l; contradiction|].
  destruct (t_par _ _ _ T c' ltac:(lia)) as (_ & HC' & _ & Hp'). rewrite P' in *. pose proof (anc_inside c' l A' Pl) as Pc'. rewrite Hp' in Pc'. rewrite Hp in Pc.
  destruct (t_child _ _ _ T P ltac:(lia)) as [B|(_ & _ & HD & _)]; [contradiction|].
  assert (c = c'); [|subst; exact A'].
  destruct HC as [E | E]; destruct HC' as [E' | E']; try congruence; exfalso.
  - rewrite (proj2 (Z.eqb_neq _ _)) in Pc by lia. rewrite (proj2 (Z.eqb_eq _ _) E') in Pc'. eapply pinside_excl; eauto.
  - rewrite (proj2 (Z.eqb_neq _ _)) in Pc' by lia. rewrite (proj2 (Z.eqb_eq _ _) E) in Pc. eapply pinside_excl; eauto.
Qed.
Lemma tile_unique l l' : 0 <= l < alen cs -> 0 <= l' < alen cs -> Lf l -> Lf l' -> pinside e (pth l) x -> pinside e (pth l') x -> l = l'.
Proof.
  intros Hl Hl' L L' P P'. pose proof (anc_all (S (Z.to_nat l)) l l' ltac:(lia) Hl Hl' L' P P') as A. destruct (anc_child l l' A) as [E|(c & Hc & Pc & _)]; [exact E|].
  destruct (t_par _ _ _ T c Hc) as (_ & _ & HN & _). rewrite Pc in HN. contradiction.
Qed.
End Tile.

(** ---- the full invariant; D = the set of points that have been assigned to cells ---- *)
Record Inv (e : env) (s : smp) (D : Z -> Prop) (own : Z -> list Z) (pth : Z -> path) : Prop := {
  v_tree : Tree e (cells s) pth;
  v_next : alen (nextp s) = npoints s;
  v_coord : alen (coords s) = npoints s * Ndim e;
  v_lst : forall c, is_cell s c -> lst (afn (nextp s)) (c_head (the_cell s c)) (own c);
  v_rng : forall c p, is_cell s c -> In p (own c) -> D p;
  v_D : forall p, D p -> 0 <= p < npoints s;
  v_nodup : forall c, is_cell s c -> NoDup (own c);
  v_disj : forall c c' p, is_cell s c -> is_cell s c' -> In p (own c) -> In p (own c') -> c = c';
  v_cover : forall p, D p -> exists c, is_cell s c /\ In p (own c);
  v_leaf : forall c p, is_cell s c -> In p (own c) -> leaf s c;
  v_box : forall c p, is_cell s c -> In p (own c) -> pinside e (pth c) (pt e s p);
  v_w : forall c, is_cell s c -> (0 < c_weight (the_cell s c))%R }.
Definition full (s : smp) : Z -> Prop := fun p => 0 <= p < npoints s.
Lemma inv_belongs e s D own pth c p : Inv e s D own pth -> (belongs s c p <-> is_cell s c /\ In p (own c)).
Proof.
  intros V. unfold belongs. split; intros (Hc & H); split; auto; apply (lst_linked _ _ _ p (v_lst _ _ _ _ _ V c Hc)); exact H.
Qed.
Lemma inv_consistent e s own pth : good_env e -> Inv e s (full s) own pth -> consistent e s.
Proof.
  intros G V. constructor.
  - split; [apply (v_next _ _ _ _ _ V)|apply (v_coord _ _ _ _ _ V)].
  - intros p Hp. destruct (v_cover _ _ _ _ _ V p Hp) as (c & Hc & I). exists c. split; [apply (inv_belongs _ _ _ _ _ _ _ V); auto|].
    intros c' B. apply (inv_belongs _ _ _ _ _ _ _ V) in B. destruct B as (Hc' & I'). eapply v_disj; eauto.
  - intros c p B. apply (inv_belongs _ _ _ _ _ _ _ V) in B. destruct B as (Hc & I). split; [apply (v_rng _ _ _ _ _ V c p Hc I)|].
    split; [eapply v_leaf; eauto|]. apply (in_box_path e s pth c _ (v_tree _ _ _ _ _ V) Hc). eapply v_box; eauto.
  - intros x Hx. pose proof (v_tree _ _ _ _ _ V) as T. assert (P0 : pinside e (pth 0) x).
    { intros d Hd. rewrite (t_root _ _ _ T), blo_nil, bup_nil. apply Hx. exact Hd. }
    destruct (tile_exists e (cells s) pth x T (Z.to_nat (alen (cells s) - 0)) 0 ltac:(pose proof (t_nc _ _ _ T); lia) (le_n _) P0) as (l & Hl & L & Pl).
    exists l. split; [split; [exact Hl|]; split; [exact L|apply (in_box_path e s pth l x T Hl); exact Pl]|].
    intros l' (Hl' & L' & B'). apply (in_box_path e s pth l' x T Hl') in B'. apply (tile_unique e (cells s) pth x T (g_box e G) l l'); assumption.
Qed.
