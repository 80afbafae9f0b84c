(** Proofs about the sampler, part 2: splitting cells and adding points preserve the invariant. *)
From Coq Require Import Lra Permutation FunctionalExtensionality.
From Verif Require Import Arr PolyModel PolyProofs SampleModel SampleSpec SampleProofs.
From Flocq Require Import Core.Raux.
Local Open Scope Z_scope.

Definition head (cs : arr cell) (c : Z) : Z := c_head (afn cs c).
Definition isLow (e : env) (co : arr R) (dim : Z) (b : R) (p : Z) : bool := Rlt_b (afn co (p * Ndim e + dim)) b.

Lemma split_loop_ok e co child dim b : forall l' p fuel cs nx A B,
  let l := p :: l' in
  lst (afn nx) p l -> NoDup l -> (forall q, In q l -> 0 <= q < alen nx /\ 0 <= q * Ndim e + dim < alen co) ->
  0 <= child -> child + 1 < alen cs ->
  lst (afn nx) (head cs child) A -> lst (afn nx) (head cs (child + 1)) B ->
  (forall q, In q l -> ~ In q A /\ ~ In q B) -> (length l <= fuel)%nat ->
  exists cs' nx', split_loop fuel e co child dim b p cs nx = Ok (cs', nx') /\ alen cs' = alen cs /\ alen nx' = alen nx /\
    lst (afn nx') (head cs' child) (rev (filter (isLow e co dim b) l) ++ A) /\
    lst (afn nx') (head cs' (child + 1)) (rev (filter (fun q => negb (isLow e co dim b q)) l) ++ B) /\
    (forall q, ~ In q l -> afn nx' q = afn nx q) /\
    (forall c, c <> child -> c <> child + 1 -> afn cs' c = afn cs c) /\
    (forall c, exists h, afn cs' c = set_head (afn cs c) h).
Proof.
  induction l' as [|q l' IH]; intros p fuel cs nx A B l L N Rg C0 C1 LA LB Dj F; subst l.
  - destruct fuel as [|fuel]; [cbn in F; lia|]. cbn [split_loop]. destruct L as (_ & P & L). destruct (Rg p (or_introl eq_refl)) as [R1 R2].
    rewrite !aget_ok by lia. cbn [bind]. fold (isLow e co dim b p). set (ch := if isLow e co dim b p then child else child + 1).
    assert (Hch : 0 <= ch < alen cs) by (unfold ch; destruct (isLow _ _ _ _ _); lia). rewrite (aget_ok cs ch Hch). cbn [bind].
    set (v := if c_head (afn cs ch) <? 0 then -1 else c_head (afn cs ch)).
    assert (E : (if c_head (afn cs ch) <? 0 then aset nx p (-1) else aset nx p (c_head (afn cs ch))) = Ok (mkArr (alen nx) (upd (afn nx) p v))).
    { unfold v. destruct (_ <? 0); apply aset_ok; lia. }
    rewrite E. cbn [bind]. rewrite aset_ok by exact Hch. cbn [bind]. cbn in L. rewrite (proj2 (Z.leb_gt 0 _)) by lia.
    do 2 eexists. split; [reflexivity|]. cbn [alen afn]. split; [reflexivity|]. split; [reflexivity|].
    destruct (Dj p (or_introl eq_refl)) as [DA DB].
    assert (fr : forall X h, ~ In p X -> lst (afn nx) h X -> lst (upd (afn nx) p v) h X).
    { intros X h NI HL. eapply lst_frame; [|exact HL]. intros z Hz. rewrite upd_other; [reflexivity|]. intros ->. contradiction. }
    assert (hv : forall X, ~ In p X -> lst (afn nx) (c_head (afn cs ch)) X -> lst (upd (afn nx) p v) v X).
    { intros X NI HL. unfold v at 2. destruct (c_head (afn cs ch) <? 0) eqn:Eh; [|apply fr; assumption].
      apply Z.ltb_lt in Eh. destruct X as [|z X]; [cbn; lia|]. cbn in HL. lia. }
    cbn [filter]. unfold head in *. cbn [afn]. unfold ch in *. destruct (isLow e co dim b p); cbn [negb rev app].
    + split; [|split; [|split; [|split]]].
      * rewrite upd_same. cbn [set_head c_head lst]. split; [reflexivity|]. split; [exact P|]. rewrite upd_same. apply hv; assumption.
      * rewrite upd_other by lia. apply fr; assumption.
      * intros z Nz. apply upd_other. intros ->. apply Nz. left; reflexivity.
      * intros c K1 K2. apply upd_other. exact K1.
      * intros c. unfold upd. destruct (c =? child) eqn:Ec; [apply Z.eqb_eq in Ec; subst c; eexists; reflexivity|]. exists (c_head (afn cs c)). destruct (afn cs c); reflexivity.
    + split; [|split; [|split; [|split]]].
      * rewrite upd_other by lia. apply fr; assumption.
      * rewrite upd_same. cbn [set_head c_head lst]. split; [reflexivity|]. split; [exact P|]. rewrite upd_same. apply hv; assumption.
      * intros z Nz. apply upd_other. intros ->. apply Nz. left; reflexivity.
      * intros c K1 K2. apply upd_other. exact K2.
      * intros c. unfold upd. destruct (c =? child + 1) eqn:Ec; [apply Z.eqb_eq in Ec; subst c; eexists; reflexivity|]. exists (c_head (afn cs c)). destruct (afn cs c); reflexivity.
  - destruct fuel as [|fuel]; [cbn in F; lia|]. cbn [split_loop]. destruct L as (_ & P & L). destruct (Rg p (or_introl eq_refl)) as [R1 R2].
    rewrite !aget_ok by lia. cbn [bind]. fold (isLow e co dim b p). set (ch := if isLow e co dim b p then child else child + 1).
    assert (Hch : 0 <= ch < alen cs) by (unfold ch; destruct (isLow _ _ _ _ _); lia). rewrite (aget_ok cs ch Hch). cbn [bind].
    set (v := if c_head (afn cs ch) <? 0 then -1 else c_head (afn cs ch)).
    assert (E : (if c_head (afn cs ch) <? 0 then aset nx p (-1) else aset nx p (c_head (afn cs ch))) = Ok (mkArr (alen nx) (upd (afn nx) p v))).
    { unfold v. destruct (_ <? 0); apply aset_ok; lia. }
    rewrite E. cbn [bind]. rewrite aset_ok by exact Hch. cbn [bind].
    pose proof L as Lq. destruct Lq as (Eq & Pq & _). rewrite Eq. rewrite (proj2 (Z.leb_le 0 q)) by lia. rewrite Eq in L.
    destruct (Dj p (or_introl eq_refl)) as [DA DB]. apply NoDup_cons_iff in N. destruct N as [Np N'].
    assert (fr : forall X h, ~ In p X -> lst (afn nx) h X -> lst (upd (afn nx) p v) h X).
    { intros X h NI HL. eapply lst_frame; [|exact HL]. intros z Hz. rewrite upd_other; [reflexivity|]. intros ->. contradiction. }
    assert (hv : forall X, ~ In p X -> lst (afn nx) (c_head (afn cs ch)) X -> lst (upd (afn nx) p v) v X).
    { intros X NI HL. unfold v at 2. destruct (c_head (afn cs ch) <? 0) eqn:Eh; [|apply fr; assumption].
      apply Z.ltb_lt in Eh. destruct X as [|z X]; [cbn; lia|]. cbn in HL. lia. }
    set (A' := if isLow e co dim b p then p :: A else A). set (B' := if isLow e co dim b p then B else p :: B).
    destruct (IH q fuel (mkArr (alen cs) (upd (afn cs) ch (set_head (afn cs ch) p))) (mkArr (alen nx) (upd (afn nx) p v)) A' B') as (cs' & nx' & E' & L1 & L2 & K1 & K2 & K3 & K4 & K5).
    + apply fr; assumption.
    + exact N'.
    + intros z Hz. cbn [alen]. apply Rg. right; exact Hz.
    + exact C0.
    + exact C1.
    + unfold head, A' in *. cbn [afn]. unfold ch in *. destruct (isLow e co dim b p).
      * rewrite upd_same. cbn. split; [reflexivity|]. split; [exact P|]. rewrite upd_same. apply hv; assumption.
      * rewrite upd_other by lia. apply fr; assumption.
    + unfold head, B' in *. cbn [afn]. unfold ch in *. destruct (isLow e co dim b p).
      * rewrite upd_other by lia. apply fr; assumption.
      * rewrite upd_same. cbn. split; [reflexivity|]. split; [exact P|]. rewrite upd_same. apply hv; assumption.
    + intros z Hz. destruct (Dj z (or_intror Hz)) as [Z1 Z2]. unfold A', B'. destruct (isLow e co dim b p); split; auto; intros [->|W]; auto; contradiction.
    + cbn in F |- *. lia.
    + exists cs', nx'. split; [exact E'|]. cbn [alen] in L1, L2. split; [exact L1|]. split; [exact L2|]. cbn [afn] in K3, K4, K5.
      split; [|split; [|split; [|split]]].
      * cbn [filter] in K1 |- *. unfold A' in K1. destruct (isLow e co dim b p); [|exact K1]. cbn [rev]. rewrite <- app_assoc. exact K1.
      * cbn [filter] in K2 |- *. unfold B' in K2. destruct (isLow e co dim b p); cbn [negb] in *; [exact K2|]. cbn [rev]. rewrite <- app_assoc. exact K2.
      * intros z Nz. rewrite K3; [apply upd_other; intros ->; apply Nz; left; reflexivity|]. intros W. apply Nz. right; exact W.
      * intros c Q1 Q2. rewrite (K4 c Q1 Q2). apply upd_other. unfold ch. destruct (isLow _ _ _ _ _); assumption.
      * intros c. destruct (K5 c) as (h & ->). unfold upd. destruct (c =? ch) eqn:Ec; [apply Z.eqb_eq in Ec; subst c; eexists; reflexivity|]. eexists; reflexivity.
Qed.

Lemma mod_cell_ok s c f : is_cell s c -> mod_cell s c f = Ok (with_cells s (mkArr (alen (cells s)) (upd (afn (cells s)) c (f (afn (cells s) c))))).
Proof. intros H. unfold mod_cell. rewrite aget_ok by exact H. cbn [bind]. rewrite aset_ok by exact H. reflexivity. Qed.

Definition own_split (e : env) (s : smp) (own : Z -> list Z) (c dim : Z) (b : R) (k : Z) : list Z :=
  if k =? c then [] else
  if k =? alen (cells s) then rev (filter (isLow e (coords s) dim b) (own c)) else
  if k =? alen (cells s) + 1 then rev (filter (fun q => negb (isLow e (coords s) dim b q)) (own c)) else own k.
Definition pth_split (s : smp) (pth : Z -> path) (c dim : Z) (k : Z) : path :=
  if k =? alen (cells s) then (dim, false) :: pth c else if k =? alen (cells s) + 1 then (dim, true) :: pth c else pth k.

Lemma splitCell_ok e s D own pth c dim : good_env e -> Inv e s D own pth -> is_cell s c -> own c <> [] -> 0 <= dim < Ndim e ->
  let b := (/ 2 * (blo e (pth c) dim + bup e (pth c) dim))%R in
  exists s', splitCell e s c dim b = Ok s' /\ Inv e s' D (own_split e s own c dim b) (pth_split s pth c dim) /\
    coords s' = coords s /\ fvals s' = fvals s /\ alen (cells s') = alen (cells s) + 2 /\
    (forall k, is_cell s k -> c_weight (the_cell s' k) = c_weight (the_cell s k)) /\
    c_weight (the_cell s' (alen (cells s))) = c_weight (the_cell s c) /\ c_weight (the_cell s' (alen (cells s) + 1)) = c_weight (the_cell s c) /\
    (forall k, is_cell s k -> k <> c -> c_child (the_cell s' k) = c_child (the_cell s k)).
Proof.
  intros G V Hc Ho Hd b. set (child := alen (cells s)).
  assert (Hcc : 0 <= c < child) by exact Hc. pose proof (v_tree _ _ _ _ _ V) as T.
  assert (Lc : leaf s c). { destruct (own c) as [|p l] eqn:Eo; [contradiction|]. apply (v_leaf _ _ _ _ _ V c p Hc). rewrite Eo. left; reflexivity. }
  unfold splitCell. fold child.
  set (s1 := with_cells s (resize (cells s) (child + 2) cell0)).
  assert (A1 : alen (cells s1) = child + 2) by reflexivity.
  rewrite aget_ok by (rewrite A1; lia). cbn [bind].
  assert (old : forall k, k < child -> afn (cells s1) k = afn (cells s) k).
  { intros k Hk. cbn. fold child. rewrite (proj2 (Z.ltb_lt k child)) by lia. reflexivity. }
  assert (new : forall k, child <= k -> afn (cells s1) k = cell0).
  { intros k Hk. cbn. fold child. rewrite (proj2 (Z.ltb_ge k child)) by lia. reflexivity. }
  rewrite (old c) by lia. set (cc := afn (cells s) c).
  rewrite (mod_cell_ok s1) by (unfold is_cell; rewrite A1; lia). cbn [bind].
  match goal with |- context [mod_cell ?x (child + 1) (fun x0 => set_parent x0 c)] => set (s2 := x) end. assert (A2 : alen (cells s2) = child + 2) by reflexivity.
  rewrite (mod_cell_ok s2) by (unfold is_cell; rewrite A2; lia). cbn [bind].
  match goal with |- context [mod_cell ?x child (fun x0 => set_weight x0 (c_weight cc))] => set (s3 := x) end. assert (A3 : alen (cells s3) = child + 2) by reflexivity.
  rewrite (mod_cell_ok s3) by (unfold is_cell; rewrite A3; lia). cbn [bind].
  match goal with |- context [mod_cell ?x (child + 1) (fun x0 => set_weight x0 (c_weight cc))] => set (s4 := x) end. assert (A4 : alen (cells s4) = child + 2) by reflexivity.
  rewrite (mod_cell_ok s4) by (unfold is_cell; rewrite A4; lia). cbn [bind].
  match goal with |- context [mod_cell ?x c (fun x0 => set_dim x0 dim)] => set (s5 := x) end. assert (A5 : alen (cells s5) = child + 2) by reflexivity.
  rewrite (mod_cell_ok s5) by (unfold is_cell; rewrite A5; lia). cbn [bind].
  match goal with |- context [mod_cell ?x c (fun x0 => set_child x0 child)] => set (s6 := x) end. assert (A6 : alen (cells s6) = child + 2) by reflexivity.
  rewrite (mod_cell_ok s6) by (unfold is_cell; rewrite A6; lia). cbn [bind].
  pose proof (v_lst _ _ _ _ _ V c Hc) as Lst. change (the_cell s c) with cc in Lst.
  destruct (own c) as [|p l] eqn:Eo; [contradiction|]. pose proof Lst as Lst'. destruct Lst' as (Ep & Pp & _). rewrite Ep. rewrite (proj2 (Z.ltb_ge p 0)) by lia. rewrite Ep in Lst.
  match goal with |- context [mod_cell ?x c (fun x0 => set_head x0 (-1))] => set (s7 := x) end. assert (A7 : alen (cells s7) = child + 2) by reflexivity.
  rewrite (mod_cell_ok s7) by (unfold is_cell; rewrite A7; lia). cbn [bind].
  match goal with |- context [split_loop _ _ _ _ _ _ _ (cells ?x) _] => set (s8 := x) end. assert (A8 : alen (cells s8) = child + 2) by reflexivity.
  (* contents of the cells before the loop *)
  assert (Cold : forall k, k < child -> k <> c -> afn (cells s8) k = afn (cells s) k).
  { intros k K1 K2. cbn. repeat rewrite upd_other by lia. fold child. rewrite (proj2 (Z.ltb_lt k child)) by lia. reflexivity. }
  assert (Cc : afn (cells s8) c = mkCell (-1) (c_parent cc) child dim (c_weight cc)).
  { cbn. repeat (rewrite upd_same || rewrite upd_other by lia). fold child. rewrite (proj2 (Z.ltb_lt c child)) by lia. reflexivity. }
  assert (Cn : afn (cells s8) child = mkCell (-1) c (-1) (-1) (c_weight cc)).
  { cbn. repeat (rewrite upd_same || rewrite upd_other by lia). fold child. rewrite (proj2 (Z.ltb_ge child child)) by lia. reflexivity. }
  assert (Cn1 : afn (cells s8) (child + 1) = mkCell (-1) c (-1) (-1) (c_weight cc)).
  { cbn. repeat (rewrite upd_same || rewrite upd_other by lia). fold child. rewrite (proj2 (Z.ltb_ge (child + 1) child)) by lia. reflexivity. }
  change (nextp s8) with (nextp s). clearbody s8. clear s2 s3 s4 s5 s6 s7 A2 A3 A4 A5 A6 A7.
  assert (RgD : forall q, In q (p :: l) -> 0 <= q < npoints s).
  { intros q Hq. apply (v_D _ _ _ _ _ V). apply (v_rng _ _ _ _ _ V c q Hc). rewrite Eo. exact Hq. }
  pose proof (v_nodup _ _ _ _ _ V c Hc) as ND. rewrite Eo in ND.
  destruct (split_loop_ok e (coords s) child dim b l p (S (Z.to_nat (alen (nextp s)))) (cells s8) (nextp s) [] []) as (cs' & nx' & E' & L1 & L2 & K1 & K2 & K3 & K4 & K5); try lia.
  { exact Lst. } { exact ND. }
  { intros q Hq. pose proof (RgD q Hq). rewrite (v_next _ _ _ _ _ V), (v_coord _ _ _ _ _ V). split; [lia|]. nia. }
  { unfold head. rewrite Cn. cbn. lia. } { unfold head. rewrite Cn1. cbn. lia. }
  { intros q _. split; intros []. }
  { rewrite (v_next _ _ _ _ _ V). apply Nat.le_trans with (Z.to_nat (npoints s)); [apply nodup_range_length; assumption|lia]. }
  rewrite E'. cbn [bind fst snd]. rewrite app_nil_r in K1, K2.
  set (s' := mkSmp cs' nx' (coords s) (fvals s)). exists s'. split; [reflexivity|].
  assert (Wt : forall k, c_weight (afn cs' k) = c_weight (afn (cells s8) k) /\ c_parent (afn cs' k) = c_parent (afn (cells s8) k) /\ c_child (afn cs' k) = c_child (afn (cells s8) k) /\ c_dim (afn cs' k) = c_dim (afn (cells s8) k)).
  { intros k. destruct (K5 k) as (h & ->). repeat split; reflexivity. }
  assert (Oc : own_split e s own c dim b c = []) by (unfold own_split; rewrite Z.eqb_refl; reflexivity).
  assert (On : own_split e s own c dim b child = rev (filter (isLow e (coords s) dim b) (p :: l))).
  { unfold own_split. fold child. rewrite (proj2 (Z.eqb_neq child c)) by lia. rewrite Z.eqb_refl. rewrite Eo. reflexivity. }
  assert (On1 : own_split e s own c dim b (child + 1) = rev (filter (fun q => negb (isLow e (coords s) dim b q)) (p :: l))).
  { unfold own_split. fold child. rewrite (proj2 (Z.eqb_neq (child + 1) c)), (proj2 (Z.eqb_neq (child + 1) child)) by lia. rewrite Z.eqb_refl. rewrite Eo. reflexivity. }
  assert (Ok' : forall k, k < child -> k <> c -> own_split e s own c dim b k = own k).
  { intros k H1 H2. unfold own_split. fold child. rewrite (proj2 (Z.eqb_neq k c)), (proj2 (Z.eqb_neq k child)), (proj2 (Z.eqb_neq k (child + 1))) by lia. reflexivity. }
  assert (Pn : pth_split s pth c dim child = (dim, false) :: pth c) by (unfold pth_split; fold child; rewrite Z.eqb_refl; reflexivity).
  assert (Pn1 : pth_split s pth c dim (child + 1) = (dim, true) :: pth c).
  { unfold pth_split; fold child. rewrite (proj2 (Z.eqb_neq (child + 1) child)) by lia. rewrite Z.eqb_refl. reflexivity. }
  assert (Pk : forall k, k < child -> pth_split s pth c dim k = pth k).
  { intros k H. unfold pth_split; fold child. rewrite (proj2 (Z.eqb_neq k child)), (proj2 (Z.eqb_neq k (child + 1))) by lia. reflexivity. }
  (* classification of cells *)
  assert (cl : forall k, is_cell s' k -> k = c \/ (is_cell s k /\ k <> c) \/ k = child \/ k = child + 1).
  { intros k Hk. unfold is_cell in *. cbn in Hk. fold child in Hc |- *. rewrite L1, A8 in Hk. lia. }
  assert (subn : forall k q, is_cell s' k -> In q (own_split e s own c dim b k) -> exists k0, is_cell s k0 /\ In q (own k0) /\
            ((k0 = k /\ k <> c) \/ (k0 = c /\ k = child /\ isLow e (coords s) dim b q = true) \/ (k0 = c /\ k = child + 1 /\ isLow e (coords s) dim b q = false))).
  { intros k q Hk I. destruct (cl k Hk) as [-> | [(Hk' & N) | [-> | ->]]].
    - rewrite Oc in I. destruct I.
    - rewrite Ok' in I by (unfold is_cell in Hk'; fold child in Hk'; lia). exists k. auto.
    - rewrite On in I. apply in_rev in I. apply filter_In in I. destruct I as [I F]. exists c. rewrite Eo. repeat split; auto; try lia.
    - rewrite On1 in I. apply in_rev in I. apply filter_In in I. destruct I as [I F]. apply negb_true_iff in F. exists c. rewrite Eo. repeat split; auto; try lia. }
  split; [|].
  - assert (T' : Tree e cs' (pth_split s pth c dim)).
    { constructor.
      - rewrite L1, A8. lia.
      - rewrite Pk by lia. apply (t_root _ _ _ T).
      - intros k Hk. cbv zeta. rewrite L1, A8 in Hk. destruct (Wt k) as (_ & -> & _).
        destruct (Z.eq_dec k child) as [->|N1]; [|destruct (Z.eq_dec k (child + 1)) as [->|N2]].
        + rewrite Cn. cbn [c_parent]. destruct (Wt c) as (_ & _ & -> & ->). rewrite Cc. cbn [c_child c_dim]. rewrite Pn, (Pk c) by lia. rewrite (proj2 (Z.eqb_neq child (child + 1))) by lia. repeat split; try lia; auto.
        + rewrite Cn1. cbn [c_parent]. destruct (Wt c) as (_ & _ & -> & ->). rewrite Cc. cbn [c_child c_dim]. rewrite Pn1, (Pk c) by lia. rewrite Z.eqb_refl. repeat split; try lia; auto.
        + assert (Hk' : 0 < k < child) by lia. destruct (t_par _ _ _ T k Hk') as (H1 & H2 & H3 & H4). set (P := c_parent (afn (cells s) k)) in *.
          assert (EP : c_parent (afn (cells s8) k) = P). { destruct (Z.eq_dec k c) as [->|NK]; [rewrite Cc; reflexivity|]. rewrite Cold by lia. reflexivity. }
          rewrite EP. assert (NP : P <> c). { intros E. apply H3. rewrite E. exact Lc. }
          destruct (Wt P) as (_ & _ & -> & ->). rewrite Cold by lia. rewrite !Pk by lia. repeat split; try lia; auto.
      - intros k Hk. rewrite L1, A8 in Hk. destruct (Wt k) as (_ & _ & -> & ->).
        destruct (Z.eq_dec k child) as [->|N1]; [left; rewrite Cn; reflexivity|]. destruct (Z.eq_dec k (child + 1)) as [->|N2]; [left; rewrite Cn1; reflexivity|].
        destruct (Z.eq_dec k c) as [->|N3].
        + right. rewrite Cc. cbn [c_child c_dim]. destruct (Wt child) as (_ & -> & _). destruct (Wt (child + 1)) as (_ & -> & _). rewrite Cn, Cn1, L1, A8. cbn. repeat split; lia.
        + rewrite Cold by lia. destruct (t_child _ _ _ T k ltac:(fold child; lia)) as [A|(B1 & B2 & B3 & B4 & B5)]; [left; exact A|]. right. fold child in B2.
          set (j := c_child (afn (cells s) k)) in *. destruct (Wt j) as (_ & -> & _). destruct (Wt (j + 1)) as (_ & -> & _). rewrite L1, A8.
          assert (Ej : forall i, 0 <= i < child -> c_parent (afn (cells s8) i) = c_parent (afn (cells s) i)).
          { intros i Hi. destruct (Z.eq_dec i c) as [->|Ni]; [rewrite Cc; reflexivity|rewrite Cold by lia; reflexivity]. }
          rewrite !Ej by lia. repeat split; try lia; auto. }
    constructor.
    + exact T'.
    + cbn. rewrite L2. apply (v_next _ _ _ _ _ V).
    + cbn. apply (v_coord _ _ _ _ _ V).
    + intros k Hk. unfold the_cell. cbn [cells nextp s']. destruct (cl k Hk) as [-> | [(Hk' & N) | [-> | ->]]].
      * rewrite Oc. rewrite K4 by lia. rewrite Cc. cbn. lia.
      * assert (k < child) by (unfold is_cell in Hk'; fold child in Hk'; lia). rewrite Ok' by assumption. rewrite K4 by lia. rewrite Cold by assumption.
        apply lst_frame with (f := afn (nextp s)); [|apply (v_lst _ _ _ _ _ V k Hk')]. intros q Hq. symmetry. apply K3. intros I. apply N.
        apply (v_disj _ _ _ _ _ V k c q Hk' Hc Hq). rewrite Eo. exact I.
      * rewrite On. exact K1.
      * rewrite On1. exact K2.
    + intros k q Hk I. destruct (subn k q Hk I) as (k0 & Hk0 & I0 & _). eapply v_rng; eauto.
    + intros q Hq. apply (v_D _ _ _ _ _ V q Hq).
    + intros k Hk. destruct (cl k Hk) as [-> | [(Hk' & N) | [-> | ->]]].
      * rewrite Oc. constructor.
      * rewrite Ok' by (unfold is_cell in Hk'; fold child in Hk'; lia). apply (v_nodup _ _ _ _ _ V k Hk').
      * rewrite On. apply NoDup_rev, NoDup_filter. exact ND.
      * rewrite On1. apply NoDup_rev, NoDup_filter. exact ND.
    + intros k k' q Hk Hk' I I'. destruct (subn k q Hk I) as (k0 & Hk0 & I0 & Q). destruct (subn k' q Hk' I') as (k0' & Hk0' & I0' & Q').
      pose proof (v_disj _ _ _ _ _ V k0 k0' q Hk0 Hk0' I0 I0') as E.
      destruct Q as [(Q1 & Q2)|[(Q1 & Q2 & Q3)|(Q1 & Q2 & Q3)]]; destruct Q' as [(R1 & R2)|[(R1 & R2 & R3)|(R1 & R2 & R3)]]; congruence.
    + intros q Hq. destruct (v_cover _ _ _ _ _ V q Hq) as (k & Hk & I). assert (Hk1 : is_cell s' k). { unfold is_cell in *. cbn. fold child in Hk. rewrite L1, A8. lia. }
      destruct (Z.eq_dec k c) as [->|N].
      * destruct (isLow e (coords s) dim b q) eqn:F.
        -- exists child. split; [unfold is_cell; cbn; rewrite L1, A8; lia|]. rewrite On. apply -> in_rev. apply filter_In. rewrite <- Eo. auto.
        -- exists (child + 1). split; [unfold is_cell; cbn; rewrite L1, A8; lia|]. rewrite On1. apply -> in_rev. apply filter_In. rewrite <- Eo. rewrite F. auto.
      * exists k. split; [exact Hk1|]. rewrite Ok' by (unfold is_cell in Hk; fold child in Hk; lia). exact I.
    + intros k q Hk I. unfold leaf, the_cell. cbn [cells s']. destruct (Wt k) as (_ & _ & -> & _). destruct (cl k Hk) as [-> | [(Hk' & N) | [-> | ->]]].
      * rewrite Oc in I. destruct I.
      * assert (k < child) by (unfold is_cell in Hk'; fold child in Hk'; lia). rewrite Ok' in I by assumption. rewrite Cold by assumption. apply (v_leaf _ _ _ _ _ V k q Hk' I).
      * rewrite Cn. reflexivity.
      * rewrite Cn1. reflexivity.
    + intros k q Hk I. change (pt e s' q) with (pt e s q). destruct (subn k q Hk I) as (k0 & Hk0 & I0 & Q). pose proof (v_box _ _ _ _ _ V k0 q Hk0 I0) as Bx.
      assert (Hk0' : 0 <= k0 < child) by exact Hk0. destruct Q as [(Q1 & Q2)|[(Q1 & Q2 & Q3)|(Q1 & Q2 & Q3)]].
      * subst k0. rewrite Pk by lia. exact Bx.
      * subst k0 k. rewrite Pn. pose proof (pinside_halves e (pth c) dim (pt e s q) Hd Bx) as PH. unfold isLow in Q3. unfold pt in PH at 1. replace ((blo e (pth c) dim + bup e (pth c) dim) / 2)%R with b in PH by (unfold b; field). rewrite Q3 in PH. exact PH.
      * subst k0 k. rewrite Pn1. pose proof (pinside_halves e (pth c) dim (pt e s q) Hd Bx) as PH. unfold isLow in Q3. unfold pt in PH at 1. replace ((blo e (pth c) dim + bup e (pth c) dim) / 2)%R with b in PH by (unfold b; field). rewrite Q3 in PH. exact PH.
    + intros k Hk. unfold the_cell. cbn [cells s']. destruct (Wt k) as (-> & _). destruct (cl k Hk) as [-> | [(Hk' & N) | [-> | ->]]].
      * rewrite Cc. cbn. apply (v_w _ _ _ _ _ V c Hc).
      * rewrite Cold by (try (unfold is_cell in Hk'; fold child in Hk'); lia). apply (v_w _ _ _ _ _ V k Hk').
      * rewrite Cn. cbn. apply (v_w _ _ _ _ _ V c Hc).
      * rewrite Cn1. cbn. apply (v_w _ _ _ _ _ V c Hc).
  - split; [reflexivity|]. split; [reflexivity|]. split; [cbn; rewrite L1; exact A8|]. unfold the_cell. cbn [cells s']. split; [|split; [|split]].
    + intros k Hk. destruct (Wt k) as (-> & _). unfold is_cell in Hk. fold child in Hk. destruct (Z.eq_dec k c) as [->|N]; [rewrite Cc; reflexivity|rewrite Cold by lia; reflexivity].
    + destruct (Wt child) as (-> & _). rewrite Cn. reflexivity.
    + destruct (Wt (child + 1)) as (-> & _). rewrite Cn1. reflexivity.
    + intros k Hk N. destruct (Wt k) as (_ & _ & -> & _). unfold is_cell in Hk. fold child in Hk. rewrite Cold by lia. reflexivity.
Qed.
