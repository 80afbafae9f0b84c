From Coq Require Import Permutation.
From Verif Require Import Base SharedPtrModel SharedPtrSpec.
Local Open Scope Z_scope.

Definition cv (b : nat) (l : list var) : Z := Z.of_nat (length (filter (fun x => Nat.eqb (vpi x) b) l)).
Definition pc (b : nat) (l : list nat) : Z := Z.of_nat (length (filter (fun i => Nat.eqb i b) l)).

Record Inv (h : heap) (pend : list nat) : Prop := mkInv {
  i_nodup : NoDup (map vid (vars h));
  i_cnt : forall b, cnt (blocks h b) = cv b (vars h) + pc b pend;
  i_next : forall b, (next h <= b)%nat -> cnt (blocks h b) = 0;
  i_targ : forall b, (b < next h)%nat -> targ (blocks h b) = 0 \/ In (targ (blocks h b)) (given h);
  i_dist : forall b b', (b < next h)%nat -> (b' < next h)%nat -> targ (blocks h b) = targ (blocks h b') -> targ (blocks h b) <> 0 -> b = b';
  i_disp : forall o, In o (log h) -> In o (given h) /\ forall b, (b < next h)%nat -> targ (blocks h b) = o -> cnt (blocks h b) = 0;
  i_undisp : forall o, In o (given h) -> ~ In o (log h) -> exists b, (b < next h)%nat /\ targ (blocks h b) = o /\ 0 < cnt (blocks h b);
  i_lognd : NoDup (log h);
  i_nz : ~ In 0 (given h);
  i_hold : forall x o, In x (vars h) -> vholder x = Some o -> o <> 0 /\ ~ In o (log h) }.

Lemma cv_nonneg b l : 0 <= cv b l. Proof. unfold cv. lia. Qed.
Lemma pc_nonneg b l : 0 <= pc b l. Proof. unfold pc. lia. Qed.
Lemma cv_cons b x l : cv b (x :: l) = (if Nat.eqb (vpi x) b then 1 else 0) + cv b l.
Proof. unfold cv. cbn [filter]. destruct (Nat.eqb (vpi x) b); cbn [length]; lia. Qed.
Lemma pc_cons b i l : pc b (i :: l) = (if Nat.eqb i b then 1 else 0) + pc b l.
Proof. unfold pc. cbn [filter]. destruct (Nat.eqb i b); cbn [length]; lia. Qed.
Lemma pc_app b l l' : pc b (l ++ l') = pc b l + pc b l'.
Proof. unfold pc. rewrite filter_app, app_length. lia. Qed.
Lemma cv_split b (p : var -> bool) l : cv b l = cv b (filter p l) + cv b (filter (fun x => negb (p x)) l).
Proof.
  induction l as [|x l IH]; [reflexivity|]. cbn [filter]. rewrite cv_cons, IH.
  destruct (p x); cbn [negb]; rewrite cv_cons; lia.
Qed.
Lemma pc_map b l : pc b (map vpi l) = cv b l.
Proof. induction l as [|x l IH]; [reflexivity|]. cbn [map]. rewrite pc_cons, cv_cons, IH. reflexivity. Qed.
Lemma cv_in b l x : In x l -> vpi x = b -> 0 < cv b l.
Proof.
  intros H E. unfold cv. assert (In x (filter (fun x => Nat.eqb (vpi x) b) l)) by (apply filter_In; split; [exact H|apply Nat.eqb_eq; exact E]).
  destruct (filter _ l); [contradiction|cbn; lia].
Qed.
Lemma cv_pos b l : 0 < cv b l -> exists x, In x l /\ vpi x = b.
Proof.
  unfold cv. intros H. destruct (filter (fun x => Nat.eqb (vpi x) b) l) as [|x r] eqn:E; [cbn in H; lia|].
  exists x. assert (In x (filter (fun x => Nat.eqb (vpi x) b) l)) by (rewrite E; left; reflexivity).
  apply filter_In in H0. destruct H0. split; [assumption|]. apply Nat.eqb_eq. assumption.
Qed.
Lemma filter_len {A} (p : A -> bool) l : (length (filter p l) + length (filter (fun x => negb (p x)) l) = length l)%nat.
Proof. induction l as [|x l IH]; [reflexivity|]. cbn. destruct (p x); cbn; lia. Qed.
Lemma NoDup_map_filter {A B} (f : A -> B) p l : NoDup (map f l) -> NoDup (map f (filter p l)).
Proof.
  induction l as [|x l IH]; cbn; [constructor|]. intros H. inversion H; subst. destruct (p x); cbn; [constructor|]; auto.
  intros C. apply H2. apply in_map_iff in C. destruct C as (y & E & I). apply filter_In in I. rewrite <- E. apply in_map. apply I.
Qed.
Lemma setb_same f b x : setb f b x b = x. Proof. unfold setb. rewrite Nat.eqb_refl. reflexivity. Qed.
Lemma setb_other f b x i : i <> b -> setb f b x i = f i. Proof. unfold setb. intros H. rewrite (proj2 (Nat.eqb_neq _ _) H). reflexivity. Qed.
Lemma setb_cnt f b c i : cnt (setb f b (mkBlk c (targ (f b))) i) = if Nat.eqb i b then c else cnt (f i).
Proof. unfold setb. destruct (Nat.eqb i b); reflexivity. Qed.
Lemma setb_targ f b c i : targ (setb f b (mkBlk c (targ (f b))) i) = targ (f i).
Proof. unfold setb. destruct (Nat.eqb_spec i b); [subst|]; reflexivity. Qed.
Lemma existsb_In o l : existsb (Z.eqb o) l = true <-> In o l.
Proof. rewrite existsb_exists. split; [intros (x & I & E); apply Z.eqb_eq in E; subst; exact I|intros I; exists o; split; [exact I|apply Z.eqb_refl]]. Qed.
Lemma existsb_nIn o l : existsb (Z.eqb o) l = false <-> ~ In o l.
Proof. rewrite <- existsb_In. destruct (existsb (Z.eqb o) l); split; congruence || (intros; try congruence; contradiction). Qed.

(** what release() may change *)
Record frame (h h' : heap) : Prop := mkFrame {
  f_given : given h' = given h; f_next : next h' = next h;
  f_targ : forall b, targ (blocks h' b) = targ (blocks h b);
  f_log : exists l, log h' = l ++ log h;
  f_vars : forall x, In x (vars h') <-> In x (vars h) /\ match vholder x with Some o => ~ In o (log h') | None => True end }.

Lemma frame_refl h pend : Inv h pend -> frame h h.
Proof.
  intros I. constructor; auto. { exists []. reflexivity. }
  intros x. split; [|tauto]. intros H. split; [exact H|]. destruct (vholder x) as [o|] eqn:E; [|exact Logic.I]. apply (i_hold _ _ I x o H E).
Qed.

(** one block's count goes down without reaching zero, or its target is null *)
Lemma Inv_dec h b rest : Inv h (b :: rest) -> (cnt (blocks h b) - 1 = 0 -> targ (blocks h b) = 0) ->
  Inv (mkHeap (vars h) (setb (blocks h) b (mkBlk (cnt (blocks h b) - 1) (targ (blocks h b)))) (next h) (log h) (given h)) rest.
Proof.
  intros I Hz. pose proof I as [A1 A2 A3 A4 A5 A6 A7 A8 A9 A10].
  assert (P : 0 < cnt (blocks h b)). { rewrite A2, pc_cons, Nat.eqb_refl. pose proof (cv_nonneg b (vars h)). pose proof (pc_nonneg b rest). lia. }
  assert (L : (b < next h)%nat). { destruct (le_lt_dec (next h) b) as [G|G]; [|exact G]. rewrite (A3 b G) in P. lia. }
  constructor; cbn [vars blocks next log given]; auto.
  - intros i. rewrite setb_cnt. destruct (Nat.eqb_spec i b) as [->|N].
    + rewrite A2, pc_cons, Nat.eqb_refl. lia.
    + rewrite A2, pc_cons. rewrite (proj2 (Nat.eqb_neq b i)) by congruence. lia.
  - intros i Hi. rewrite setb_cnt. destruct (Nat.eqb_spec i b) as [->|N]; [lia|auto].
  - intros i Hi. rewrite setb_targ. auto.
  - intros i j Hi Hj. rewrite !setb_targ. auto.
  - intros o Ho. destruct (A6 o Ho) as [G1 G2]. split; [exact G1|]. intros i Hi. rewrite setb_targ, setb_cnt. intros E.
    destruct (Nat.eqb_spec i b) as [->|N]; [rewrite (G2 b L E) in P; lia|auto].
  - intros o Ho Hn. destruct (A7 o Ho Hn) as (i & Hi & E & C). exists i. split; [exact Hi|]. rewrite setb_targ, setb_cnt. split; [exact E|].
    destruct (Nat.eqb_spec i b) as [->|N]; [|exact C]. destruct (Z.eq_dec (cnt (blocks h b) - 1) 0) as [Z|Z]; [|lia].
    exfalso. apply A9. rewrite <- (Hz Z), E. exact Ho.
Qed.

Lemma dispose_vars h o (x : var) : In x (filter (fun x => negb (held_by o x)) (vars h)) <-> In x (vars h) /\ vholder x <> Some o.
Proof.
  rewrite filter_In. unfold held_by. destruct (vholder x) as [o'|].
  - destruct (Z.eqb_spec o o'); cbn; split; intros [? H]; split; auto; try congruence.
  - cbn. split; intros [? H]; split; auto; congruence.
Qed.
Lemma Inv_dispose h b rest : Inv h (b :: rest) -> cnt (blocks h b) - 1 = 0 -> targ (blocks h b) <> 0 ->
  let o := targ (blocks h b) in
  ~ In o (log h) /\
  Inv (mkHeap (filter (fun x => negb (held_by o x)) (vars h)) (setb (blocks h) b (mkBlk (cnt (blocks h b) - 1) o)) (next h) (o :: log h) (given h))
      (map vpi (filter (held_by o) (vars h)) ++ rest).
Proof.
  intros I Hc Ht o. pose proof I as [A1 A2 A3 A4 A5 A6 A7 A8 A9 A10].
  assert (L : (b < next h)%nat). { destruct (le_lt_dec (next h) b) as [G|G]; [|exact G]. rewrite (A3 b G) in Hc. lia. }
  assert (NL : ~ In o (log h)). { intros C. destruct (A6 o C) as [_ G]. rewrite (G b L eq_refl) in Hc. lia. }
  split; [exact NL|]. constructor; cbn [vars blocks next log given]; auto.
  - apply NoDup_map_filter. exact A1.
  - intros i. unfold o. rewrite setb_cnt. rewrite pc_app, pc_map.
    pose proof (cv_split i (held_by o) (vars h)) as S. unfold o in S. pose proof (A2 i) as C. rewrite pc_cons in C.
    destruct (Nat.eqb_spec i b) as [->|N]; [rewrite Nat.eqb_refl in C|rewrite (proj2 (Nat.eqb_neq b i)) in C by congruence]; lia.
  - intros i Hi. unfold o. rewrite setb_cnt. destruct (Nat.eqb_spec i b) as [->|N]; [lia|auto].
  - intros i Hi. unfold o. rewrite setb_targ. auto.
  - intros i j Hi Hj. unfold o. rewrite !setb_targ. auto.
  - intros p [<-|Hp].
    + split. { destruct (A4 b L) as [G|G]; [unfold o in *; congruence|exact G]. }
      intros i Hi. unfold o. rewrite setb_targ, setb_cnt. intros E. rewrite (A5 i b Hi L E) by congruence. rewrite Nat.eqb_refl. exact Hc.
    + destruct (A6 p Hp) as [G1 G2]. split; [exact G1|]. intros i Hi. unfold o. rewrite setb_targ, setb_cnt. intros E.
      destruct (Nat.eqb_spec i b) as [->|N]; [lia|auto].
  - intros p Hp Hn. destruct (A7 p Hp) as (i & Hi & E & C). { intros G. apply Hn. right. exact G. }
    exists i. split; [exact Hi|]. unfold o. rewrite setb_targ, setb_cnt. split; [exact E|].
    destruct (Nat.eqb_spec i b) as [->|N]; [|exact C]. exfalso. apply Hn. left. exact E.
  - constructor; assumption.
  - intros x p Hx Hp. apply dispose_vars in Hx. destruct Hx as [Hx Hne]. destruct (A10 x p Hx Hp) as [G1 G2]. split; [exact G1|].
    intros [C|C]; [congruence|contradiction].
Qed.

Lemma release_ok fuel : forall h pend resv, Inv h (pend ++ resv) -> (length pend + length (vars h) <= fuel)%nat ->
  exists h', release fuel h pend = Ok h' /\ Inv h' resv /\ frame h h'.
Proof.
  induction fuel as [|fuel IH]; intros h pend resv I Hf; destruct pend as [|b rest]; cbn [release app] in *.
  - exists h. split; [reflexivity|]. split; [exact I|]. apply (frame_refl _ _ I).
  - cbn in Hf. lia.
  - exists h. split; [reflexivity|]. split; [exact I|]. apply (frame_refl _ _ I).
  - pose proof (i_cnt _ _ I b) as C. rewrite pc_cons, Nat.eqb_refl in C. pose proof (cv_nonneg b (vars h)). pose proof (pc_nonneg b (rest ++ resv)).
    rewrite (proj2 (Z.leb_gt _ _)) by lia. cbn [length] in Hf.
    destruct (Z.eqb_spec (cnt (blocks h b) - 1) 0) as [Z|Z].
    + destruct (Z.eqb_spec (targ (blocks h b)) 0) as [T|T].
      * destruct (IH _ rest resv (Inv_dec h b _ I (fun _ => T)) ltac:(cbn [vars]; lia)) as (h' & E & I' & F).
        exists h'. split; [exact E|]. split; [exact I'|].
        destruct F as [F1 F2 F3 F4 F5]. constructor; auto. intros i. rewrite F3. apply setb_targ.
      * destruct (Inv_dispose h b _ I Z T) as [NL I2]. rewrite (proj2 (existsb_nIn _ _) NL).
        rewrite app_assoc in I2.
        destruct (IH _ _ _ I2) as (h' & E & I' & F).
        { cbn [vars]. rewrite app_length, map_length. pose proof (filter_len (held_by (targ (blocks h b))) (vars h)). lia. }
        exists h'. split; [exact E|]. split; [exact I'|]. destruct F as [F1 F2 F3 F4 F5]. cbn [given next blocks log vars] in *. constructor; auto.
        -- intros i. rewrite F3. apply setb_targ.
        -- destruct F4 as (l & F4). exists (l ++ [targ (blocks h b)]). rewrite F4, <- app_assoc. reflexivity.
        -- intros x. rewrite F5, dispose_vars. destruct F4 as (l & F4). split; [tauto|]. intros [G1 G2]. split; [|exact G2]. split; [exact G1|].
           intros E2. rewrite E2 in G2. apply G2. rewrite F4. apply in_or_app. right. left. reflexivity.
    + destruct (IH _ rest resv (Inv_dec h b _ I (fun C => False_ind _ (Z C))) ltac:(cbn [vars]; lia)) as (h' & E & I' & F).
      exists h'. split; [exact E|]. split; [exact I'|].
      destruct F as [F1 F2 F3 F4 F5]. constructor; auto. intros i. rewrite F3. apply setb_targ.
Qed.

(** ---- variables ---- *)
Lemma find_In h v x : find_var h v = Some x -> In x (vars h) /\ vid x = v.
Proof. intros H. apply find_some in H. destruct H as [H E]. apply Nat.eqb_eq in E. auto. Qed.
Lemma find_unique h x pend : Inv h pend -> In x (vars h) -> find_var h (vid x) = Some x.
Proof.
  intros I H. pose proof (i_nodup _ _ I) as N. unfold find_var. induction (vars h) as [|y l IH]; [contradiction|].
  cbn [map] in N. inversion N; subst. cbn [find]. destruct H as [->|H]; [rewrite Nat.eqb_refl; reflexivity|].
  destruct (Nat.eqb_spec (vid y) (vid x)) as [E|E]; [|auto]. exfalso. apply H2. rewrite E. apply in_map. exact H.
Qed.
Lemma find_none h v : find_var h v = None -> forall x, In x (vars h) -> vid x <> v.
Proof. intros H x Hx E. pose proof (find_none _ _ H x Hx) as F. cbn in F. apply Nat.eqb_neq in F. contradiction. Qed.
Lemma find_none_intro h v : (forall x, In x (vars h) -> vid x <> v) -> find_var h v = None.
Proof. intros H. destruct (find_var h v) as [x|] eqn:E; [|reflexivity]. apply find_In in E. destruct E as [E1 E2]. exfalso. exact (H x E1 E2). Qed.
Lemma live_true h v : live h v = true -> exists x, find_var h v = Some x /\ In x (vars h) /\ vid x = v.
Proof.
  intros H. destruct (find_var h v) as [x|] eqn:E. { exists x. split; [reflexivity|]. apply find_In. exact E. }
  unfold live in H. apply existsb_exists in H. destruct H as (x & Hx & E2). apply Nat.eqb_eq in E2. exfalso. exact (find_none _ _ E x Hx E2).
Qed.
Lemma live_false h v : live h v = false -> find_var h v = None.
Proof.
  intros H. apply find_none_intro. intros x Hx E. assert (live h v = true); [|congruence].
  unfold live. apply existsb_exists. exists x. split; [exact Hx|]. apply Nat.eqb_eq. exact E.
Qed.

Lemma state_release g h' pend pend' : Inv g pend -> Inv h' pend' -> frame g h' -> forall u, state_of h' u = purge (log h') (state_of g u).
Proof.
  intros I I' [F1 F2 F3 F4 F5] u. unfold state_of. destruct (find_var g u) as [x|] eqn:E.
  - pose proof (find_In _ _ _ E) as [Hx Hu]. destruct (find_var h' u) as [y|] eqn:E'.
    + pose proof (find_In _ _ _ E') as [Hy Hy2]. pose proof Hy as Hy3. apply F5 in Hy. destruct Hy as [Hy Hh].
      pose proof (find_unique g y _ I Hy) as U. rewrite Hy2 in U. rewrite E in U. injection U as <-.
      unfold owner. rewrite F3. unfold purge. destruct (vholder x) as [o|]; [|reflexivity]. rewrite (proj2 (existsb_nIn _ _) Hh). reflexivity.
    + unfold purge. destruct (vholder x) as [o|] eqn:V.
      * destruct (existsb (Z.eqb o) (log h')) eqn:B; [reflexivity|]. apply existsb_nIn in B. exfalso.
        refine (find_none _ _ E' x _ Hu). apply F5. rewrite V. auto.
      * exfalso. refine (find_none _ _ E' x _ Hu). apply F5. rewrite V. auto.
  - cbn. rewrite find_none_intro; [reflexivity|]. intros x Hx. apply F5 in Hx. apply (find_none _ _ E). apply Hx.
Qed.
Lemma purge_alive h pend u : Inv h pend -> purge (log h) (state_of h u) = state_of h u.
Proof.
  intros I. unfold state_of. destruct (find_var h u) as [x|] eqn:E; [|reflexivity]. cbn. destruct (vholder x) as [o|] eqn:V; [|reflexivity].
  apply find_In in E. rewrite (proj2 (existsb_nIn _ _)); [reflexivity|]. apply (i_hold _ _ I x o); [apply E|exact V].
Qed.

(** ---- elementary changes ---- *)
Lemma Inv_add_ref h b pend : Inv h pend -> 0 < cnt (blocks h b) ->
  exists h', add_ref h b = Ok h' /\ Inv h' (b :: pend) /\ vars h' = vars h /\ log h' = log h /\ given h' = given h /\ next h' = next h /\
    forall i, targ (blocks h' i) = targ (blocks h i).
Proof.
  intros [A1 A2 A3 A4 A5 A6 A7 A8 A9 A10] P. unfold add_ref. rewrite (proj2 (Z.leb_gt _ _)) by lia. eexists. split; [reflexivity|].
  assert (L : (b < next h)%nat). { destruct (le_lt_dec (next h) b) as [G|G]; [|exact G]. rewrite (A3 b G) in P. lia. }
  cbn [vars log given next blocks]. split; [|repeat split; auto; intros; apply setb_targ].
  constructor; cbn [vars blocks next log given]; auto.
  - intros i. rewrite setb_cnt, pc_cons. destruct (Nat.eqb_spec i b) as [->|N].
    + rewrite Nat.eqb_refl, A2. lia.
    + rewrite (proj2 (Nat.eqb_neq b i)) by congruence. rewrite A2. lia.
  - intros i Hi. rewrite setb_cnt. destruct (Nat.eqb_spec i b) as [->|N]; [lia|auto].
  - intros i Hi. rewrite setb_targ. auto.
  - intros i j Hi Hj. rewrite !setb_targ. auto.
  - intros o Ho. destruct (A6 o Ho) as [G1 G2]. split; [exact G1|]. intros i Hi. rewrite setb_targ, setb_cnt. intros E.
    destruct (Nat.eqb_spec i b) as [->|N]; [rewrite (G2 b L E) in P; lia|auto].
  - intros o Ho Hn. destruct (A7 o Ho Hn) as (i & Hi & E & C). exists i. split; [exact Hi|]. rewrite setb_targ, setb_cnt. split; [exact E|].
    destruct (Nat.eqb_spec i b) as [->|N]; lia.
Qed.
Lemma Inv_new_block h p pend : Inv h pend -> fresh h p -> Inv (fst (new_block h p)) (next h :: pend).
Proof.
  intros [A1 A2 A3 A4 A5 A6 A7 A8 A9 A10] Fr. unfold new_block, give. cbn [fst].
  assert (T : forall i, (i < Datatypes.S (next h))%nat -> (i = next h /\ setb (blocks h) (next h) (mkBlk 1 p) i = mkBlk 1 p) \/
            ((i < next h)%nat /\ setb (blocks h) (next h) (mkBlk 1 p) i = blocks h i)).
  { intros i Hi. destruct (Nat.eq_dec i (next h)) as [->|N]; [left; split; [reflexivity|apply setb_same]|right; split; [lia|apply setb_other; exact N]]. }
  assert (G : forall o, In o (given h) -> In o (if p =? 0 then given h else p :: given h)) by (intros o Ho; destruct (p =? 0); [|right]; exact Ho).
  constructor; cbn [vars blocks next log given]; auto.
  - intros i. rewrite pc_cons. unfold setb. destruct (Nat.eqb_spec i (next h)) as [->|N].
    + rewrite Nat.eqb_refl. cbn [cnt]. pose proof (A2 (next h)) as C. rewrite A3 in C by lia. lia.
    + rewrite (proj2 (Nat.eqb_neq (next h) i)) by congruence. rewrite A2. lia.
  - intros i Hi. rewrite setb_other by lia. apply A3. lia.
  - intros i Hi. destruct (T i Hi) as [[-> ->]|[Hl ->]]; cbn [targ].
    + destruct (Z.eqb_spec p 0); [left; assumption|right; left; reflexivity].
    + destruct (A4 i Hl) as [|H]; [left; assumption|right; apply G; exact H].
  - intros i j Hi Hj. destruct (T i Hi) as [[-> ->]|[Hl ->]], (T j Hj) as [[-> ->]|[Hm ->]]; cbn [targ]; intros E N; auto.
    + destruct Fr as [->|Fr]; [congruence|]. destruct (A4 j Hm) as [|H]; [congruence|]. exfalso. apply Fr. rewrite E. exact H.
    + destruct Fr as [->|Fr]; [congruence|]. destruct (A4 i Hl) as [|H]; [congruence|]. exfalso. apply Fr. rewrite <- E. exact H.
  - intros o Ho. destruct (A6 o Ho) as [G1 G2]. split; [apply G; exact G1|]. intros i Hi. destruct (T i Hi) as [[-> ->]|[Hl ->]]; cbn [targ cnt]; [|auto].
    intros <-. destruct Fr as [->|Fr]; [exfalso; apply A9; exact G1|contradiction].
  - intros o Ho Hn. assert (o = p /\ p <> 0 \/ In o (given h)) as [[-> P0]|Ho'].
    { destruct (Z.eqb_spec p 0); [right; exact Ho|]. destruct Ho as [<-|Ho]; auto. }
    + exists (next h). rewrite setb_same. cbn. split; [lia|]. split; [reflexivity|lia].
    + destruct (A7 o Ho' Hn) as (i & Hi & E & C). exists i. split; [lia|]. rewrite setb_other by lia. auto.
  - destruct (Z.eqb_spec p 0); [exact A9|]. intros [C|C]; [congruence|contradiction].
Qed.
Lemma Inv_add_var h x pend : Inv h (vpi x :: pend) -> (forall y, In y (vars h) -> vid y <> vid x) -> holder_alive h (vholder x) -> Inv (add_var h x) pend.
Proof.
  intros [A1 A2 A3 A4 A5 A6 A7 A8 A9 A10] N Hh. unfold add_var. constructor; cbn [vars blocks next log given]; auto.
  - cbn [map]. constructor; [|exact A1]. intros C. apply in_map_iff in C. destruct C as (y & E & Hy). exact (N y Hy E).
  - intros b. rewrite cv_cons, A2, pc_cons. lia.
  - intros y o [<-|Hy] E; [|eapply A10; eassumption]. rewrite E in Hh. exact Hh.
Qed.
Lemma without_cv h x : NoDup (map vid (vars h)) -> In x (vars h) -> forall b, cv b (vars h) = (if Nat.eqb (vpi x) b then 1 else 0) + cv b (without h (vid x)).
Proof.
  unfold without. intros N H b. induction (vars h) as [|y l IH]; [contradiction|]. cbn [map] in N. inversion N; subst.
  cbn [filter]. destruct H as [->|H].
  - rewrite Nat.eqb_refl. cbn [negb]. rewrite cv_cons. f_equal. f_equal. symmetry. 
    assert (forall z, In z l -> vid z <> vid x) as G. { intros z Hz E. apply H2. rewrite <- E. apply in_map. exact Hz. }
    clear -G. induction l as [|z l IH]; [reflexivity|]. cbn [filter]. rewrite (proj2 (Nat.eqb_neq _ _) (G z (or_introl eq_refl))). cbn [negb]. f_equal.
    apply IH. intros w Hw. apply G. right. exact Hw.
  - destruct (Nat.eqb_spec (vid y) (vid x)) as [E|E]; [exfalso; apply H2; rewrite E; apply in_map; exact H|].
    cbn [negb]. rewrite !cv_cons, (IH H3 H). lia.
Qed.
Lemma in_without h v x : In x (without h v) <-> In x (vars h) /\ vid x <> v.
Proof. unfold without. rewrite filter_In, negb_true_iff, Nat.eqb_neq. tauto. Qed.
Lemma Inv_drop_var h x pend : Inv h pend -> In x (vars h) -> Inv (drop_var h (vid x)) (vpi x :: pend).
Proof.
  intros [A1 A2 A3 A4 A5 A6 A7 A8 A9 A10] Hx. unfold drop_var. constructor; cbn [vars blocks next log given]; auto.
  - apply NoDup_map_filter. exact A1.
  - intros b. rewrite A2, pc_cons, (without_cv h x A1 Hx b). lia.
  - intros y o Hy. apply in_without in Hy. apply A10. apply Hy.
Qed.
Lemma find_add_var h x u : find_var (add_var h x) u = if Nat.eqb u (vid x) then Some x else find_var h u.
Proof. unfold find_var, add_var. cbn [vars find]. rewrite (Nat.eqb_sym (vid x) u). reflexivity. Qed.
Lemma find_drop_var h v u : find_var (drop_var h v) u = if Nat.eqb u v then None else find_var h u.
Proof.
  unfold find_var, drop_var, without. cbn [vars]. induction (vars h) as [|y l IH]; [destruct (Nat.eqb u v); reflexivity|].
  cbn [filter find]. destruct (Nat.eqb_spec (vid y) v) as [E|E]; cbn [negb].
  - rewrite IH. destruct (Nat.eqb_spec u v) as [->|N]; [reflexivity|]. rewrite (proj2 (Nat.eqb_neq (vid y) u)) by congruence. reflexivity.
  - cbn [find]. destruct (Nat.eqb_spec (vid y) u) as [E2|E2]; [rewrite (proj2 (Nat.eqb_neq u v)) by congruence; reflexivity|exact IH].
Qed.
Lemma find_set_var h v p b u : find_var (set_var h v p b) u =
  if Nat.eqb u v then match find_var h u with Some x => Some (mkVar (vid x) (vholder x) p b) | None => None end else find_var h u.
Proof.
  unfold find_var, set_var. cbn [vars]. induction (vars h) as [|y l IH]; [destruct (Nat.eqb u v); reflexivity|].
  cbn [map find]. destruct (Nat.eqb_spec (vid y) v) as [E|E]; cbn [vid].
  - destruct (Nat.eqb_spec (vid y) u) as [E2|E2]; [rewrite <- E2, E, Nat.eqb_refl; reflexivity|exact IH].
  - destruct (Nat.eqb_spec (vid y) u) as [E2|E2]; [rewrite (proj2 (Nat.eqb_neq u v)) by congruence; reflexivity|exact IH].
Qed.
Lemma set_var_cv h x p c : NoDup (map vid (vars h)) -> In x (vars h) -> forall b,
  cv b (vars (set_var h (vid x) p c)) + (if Nat.eqb (vpi x) b then 1 else 0) = cv b (vars h) + (if Nat.eqb c b then 1 else 0).
Proof.
  unfold set_var. cbn [vars]. intros N H b. induction (vars h) as [|y l IH]; [contradiction|]. cbn [map] in N. inversion N; subst. cbn [map].
  destruct H as [->|H].
  - rewrite Nat.eqb_refl. rewrite !cv_cons. cbn [vpi].
    assert (map (fun x0 : var => if Nat.eqb (vid x0) (vid x) then mkVar (vid x0) (vholder x0) p c else x0) l = l) as ->; [|lia].
    assert (forall z, In z l -> vid z <> vid x) as G. { intros z Hz E. apply H2. rewrite <- E. apply in_map. exact Hz. }
    clear -G. induction l as [|z l IH]; [reflexivity|]. cbn [map]. rewrite (proj2 (Nat.eqb_neq _ _) (G z (or_introl eq_refl))). f_equal.
    apply IH. intros w Hw. apply G. right. exact Hw.
  - destruct (Nat.eqb_spec (vid y) (vid x)) as [E|E]; [exfalso; apply H2; rewrite E; apply in_map; exact H|].
    rewrite !cv_cons. specialize (IH H3 H). lia.
Qed.
Lemma set_var_vid h v p c : map vid (vars (set_var h v p c)) = map vid (vars h).
Proof. unfold set_var. cbn [vars]. rewrite map_map. apply map_ext. intros y. destruct (Nat.eqb (vid y) v); reflexivity. Qed.
Lemma set_var_in h v p c x : In x (vars (set_var h v p c)) -> exists y, In y (vars h) /\ vholder y = vholder x.
Proof. unfold set_var. cbn [vars]. intros H. apply in_map_iff in H. destruct H as (y & <- & Hy). exists y. split; [exact Hy|]. destruct (Nat.eqb (vid y) v); reflexivity. Qed.
Lemma Inv_set_var h x p c pend pend' : Inv h pend -> In x (vars h) ->
  (forall b, pc b pend' + (if Nat.eqb c b then 1 else 0) = pc b pend + (if Nat.eqb (vpi x) b then 1 else 0)) -> Inv (set_var h (vid x) p c) pend'.
Proof.
  intros [A1 A2 A3 A4 A5 A6 A7 A8 A9 A10] Hx Hp. constructor; auto.
  - rewrite set_var_vid. exact A1.
  - intros b. pose proof (set_var_cv h x p c A1 Hx b). cbn [blocks set_var]. rewrite A2. specialize (Hp b). lia.
  - intros y o Hy Ho. apply set_var_in in Hy. destruct Hy as (z & Hz & E). apply (A10 z o Hz). congruence.
Qed.

(** ---- lifetime facts that follow from the invariant ---- *)
Lemma var_block h x pend : Inv h pend -> In x (vars h) -> 0 < cnt (blocks h (vpi x)) /\ (vpi x < next h)%nat.
Proof.
  intros I Hx. assert (P : 0 < cnt (blocks h (vpi x))). { rewrite (i_cnt _ _ I). pose proof (cv_in (vpi x) _ x Hx eq_refl). pose proof (pc_nonneg (vpi x) pend). lia. }
  split; [exact P|]. destruct (le_lt_dec (next h) (vpi x)) as [G|G]; [|exact G]. rewrite (i_next _ _ I _ G) in P. lia.
Qed.
Lemma owned_alive h x pend : Inv h pend -> In x (vars h) -> ~ In (owner h x) (log h).
Proof.
  intros I Hx C. destruct (var_block h x pend I Hx) as [P L]. destruct (i_disp _ _ I _ C) as [_ G]. unfold owner in G. rewrite (G _ L eq_refl) in P. lia.
Qed.
Lemma exactly_when h : Inv h [] -> forall o, In o (given h) -> (In o (log h) <-> ~ owned h o).
Proof.
  intros I o Ho. split.
  - intros C (x & Hx & E). apply (owned_alive h x [] I Hx). rewrite E. exact C.
  - intros N. destruct (in_dec Z.eq_dec o (log h)) as [Y|Y]; [exact Y|]. exfalso. apply N.
    destruct (i_undisp _ _ I o Ho Y) as (b & Hb & E & P). rewrite (i_cnt _ _ I b) in P. cbn [pc filter length] in P.
    destruct (cv_pos b (vars h)) as (x & Hx & Ex). { unfold pc in P. cbn in P. lia. }
    exists x. split; [exact Hx|]. unfold owner. rewrite Ex. exact E.
Qed.
Lemma kept h g h' v pend : Inv h' pend -> frame g h' -> given g = given h -> (forall b, targ (blocks g b) = targ (blocks h b)) ->
  (forall x, In x (vars h) -> vid x <> v -> In x (vars g)) ->
  forall o, kept_alive h v o -> ~ In o (log h').
Proof.
  intros I' [F1 F2 F3 F4 F5] Eg Et Ev o K. induction K as [o Ho|x Hx Nv Hr|x o Hx Nv Hr K IH].
  - intros C. apply Ho. rewrite <- Eg, <- F1. apply (i_disp _ _ I'). exact C.
  - assert (Hx' : In x (vars h')). { apply F5. rewrite Hr. auto. }
    pose proof (owned_alive h' x pend I' Hx') as G. unfold owner in *. rewrite F3, Et in G. exact G.
  - assert (Hx' : In x (vars h')). { apply F5. rewrite Hr. auto. }
    pose proof (owned_alive h' x pend I' Hx') as G. unfold owner in *. rewrite F3, Et in G. exact G.
Qed.

(** ---- one operation ---- *)
Definition given_of (o : op) : list obj :=
  match o with New _ _ p _ | Reset _ p _ => if p =? 0 then [] else [p] | _ => [] end.
Definition good (h : heap) (o : op) (h' : heap) : Prop :=
  Inv h' [] /\ (forall u, state_of h' u = purge (log h') (intended h o u)) /\ (exists l, log h' = l ++ log h) /\
  (forall p, In p (given h') -> In p (given h) \/ In p (given_of o)) /\ (forall p, In p (given h) -> In p (given h')).
Lemma fresh_nlog h p pend : Inv h pend -> fresh h p -> ~ In p (log h).
Proof. intros I [->|F] C; destruct (i_disp _ _ I _ C) as [G _]; [exact (i_nz _ _ I G)|contradiction]. Qed.
Lemma alloc_failure_ok h p : Inv h [] -> fresh h p -> exists h', alloc_failure h p = Ok h' /\ Inv h' [] /\
  (forall u, state_of h' u = purge (log h') (state_of h u)) /\ (exists l, log h' = l ++ log h) /\ given h' = give h p.
Proof.
  intros I Fr. unfold alloc_failure, give. destruct (Z.eqb_spec p 0) as [->|P0].
  { exists h. split; [reflexivity|]. split; [exact I|]. split; [intros u; symmetry; eapply purge_alive; exact I|]. split; [exists []; reflexivity|reflexivity]. }
  pose proof (fresh_nlog h p _ I Fr) as NL. destruct Fr as [F|Fr]; [contradiction|].
  set (g := mkHeap _ _ _ _ _).
  assert (Ig : Inv g (map vpi (filter (held_by p) (vars h)) ++ [])).
  { rewrite app_nil_r. destruct I as [A1 A2 A3 A4 A5 A6 A7 A8 A9 A10]. unfold g. constructor; cbn [vars blocks next log given]; auto.
    - apply NoDup_map_filter. exact A1.
    - intros i. rewrite pc_map, A2. pose proof (cv_split i (held_by p) (vars h)). unfold pc. cbn [filter length]. lia.
    - intros b Hb. destruct (A4 b Hb); [left; assumption|right; right; assumption].
    - intros o [<-|Ho]; [split; [left; reflexivity|]|].
      + intros b Hb E. exfalso. destruct (A4 b Hb) as [E2|E2]; congruence.
      + destruct (A6 o Ho). split; [right; assumption|assumption].
    - intros o [<-|Ho] Hn; [exfalso; apply Hn; left; reflexivity|]. apply A7; [exact Ho|]. intros C. apply Hn. right. exact C.
    - constructor; assumption.
    - intros [C|C]; [congruence|contradiction].
    - intros x o Hx Ho. apply dispose_vars in Hx. destruct Hx as [Hx N]. destruct (A10 x o Hx Ho) as [G1 G2]. split; [exact G1|]. intros [C|C]; [congruence|contradiction]. }
  destruct (release_ok (length (vars h)) g _ _ Ig) as (h' & E & I' & F).
  { rewrite map_length. unfold g. cbn [vars]. pose proof (filter_len (held_by p) (vars h)). lia. }
  exists h'. split; [exact E|]. split; [exact I'|]. split; [|split].
  - intros u. rewrite (state_release _ _ _ _ Ig I' F u). destruct F as [F1 F2 F3 (l & F4) F5]. cbn [g log] in F4.
    unfold state_of. assert (NDg := i_nodup _ _ Ig). destruct (find_var h u) as [x|] eqn:Ex.
    + apply find_In in Ex. destruct Ex as [Hx <-]. destruct (vholder x) as [o|] eqn:V.
      * destruct (Z.eq_dec o p) as [->|Nop].
        -- rewrite find_none_intro. { cbn. rewrite (proj2 (existsb_In _ _)); [reflexivity|]. rewrite F4. apply in_or_app. right. left. reflexivity. }
           intros y Hy. cbn [g vars] in Hy. apply dispose_vars in Hy. destruct Hy as [Hy Ny]. intros Ev.
           pose proof (find_unique _ _ _ I Hx) as U1. pose proof (find_unique _ _ _ I Hy) as U2. rewrite Ev in U2. congruence.
        -- rewrite (find_unique g x _ Ig). { cbn [purge]. rewrite V. unfold owner, g. cbn [blocks]. reflexivity. }
           unfold g. cbn [vars]. apply dispose_vars. split; [exact Hx|congruence].
      * rewrite (find_unique g x _ Ig). { rewrite V. reflexivity. } unfold g. cbn [vars]. apply dispose_vars. split; [exact Hx|congruence].
    + rewrite find_none_intro; [reflexivity|]. intros y Hy. cbn [g vars] in Hy. apply dispose_vars in Hy. apply (find_none _ _ Ex). apply Hy.
  - destruct F as [F1 F2 F3 (l & F4) F5]. exists (l ++ [p]). rewrite F4, <- app_assoc. reflexivity.
  - destruct F as [F1 F2 F3 F4 F5]. rewrite F1. reflexivity.
Qed.

Lemma give_in h p q : In q (give h p) -> In q (given h) \/ In q (if p =? 0 then [] else [p]).
Proof. unfold give. destruct (p =? 0); [auto|]. intros [<-|H]; [right; left; reflexivity|auto]. Qed.
Lemma give_incl h p q : In q (given h) -> In q (give h p).
Proof. unfold give. destruct (p =? 0); [auto|]. intros; right; assumption. Qed.

Lemma state_find h u x : find_var h u = Some x -> state_of h u = Some (vholder x, vpx x, owner h x).
Proof. unfold state_of. intros ->. reflexivity. Qed.
Lemma step_ok h o : Inv h [] -> legal h o -> exists h', step h o = Ok h' /\ good h o h'.
Proof.
  intros I L. destruct o as [v hd p oom|v hd w|v hd w p|v w|v p oom|v w|v]; cbn [legal step] in *.
  - (* New *)
    destruct L as (Lv & Hh & Fr). rewrite Lv. apply live_false in Lv. destruct oom.
    + destruct (alloc_failure_ok h p I Fr) as (h' & E & I' & S & Lg & G). exists h'. split; [exact E|]. split; [exact I'|].
      split; [|split; [exact Lg|rewrite G; split; [intros q; apply give_in|intros q; apply give_incl]]].
      intros u. rewrite S. cbn [intended negb]. rewrite andb_false_r. reflexivity.
    + pose proof (Inv_new_block h p [] I Fr) as I1. cbn [new_block] in *. cbn [fst] in I1. eexists. split; [reflexivity|].
      set (g := mkHeap _ _ _ _ _) in *.
      assert (I2 : Inv (add_var g (mkVar v hd p (next h))) []).
      { apply Inv_add_var; cbn [vpi vid vholder]; [exact I1| |exact Hh]. intros y Hy. exact (find_none _ _ Lv y Hy). }
      split; [exact I2|]. split; [|split; [exists []; reflexivity|split; [intros q; apply give_in|intros q; apply give_incl]]].
      intros u. rewrite <- (purge_alive _ _ u I2). f_equal. cbn [intended negb]. rewrite andb_true_r. unfold state_of. rewrite find_add_var. cbn [vid].
      destruct (Nat.eqb_spec u v) as [->|N].
      * cbn [vholder vpx]. unfold owner. cbn [vpi]. unfold add_var, g. cbn [blocks]. rewrite setb_same. reflexivity.
      * replace (find_var g u) with (find_var h u) by reflexivity. destruct (find_var h u) as [x|] eqn:E; [|reflexivity].
        do 2 f_equal. unfold owner, add_var, g. cbn [blocks]. rewrite setb_other; [reflexivity|]. apply find_In in E. destruct (var_block h x [] I (proj1 E)). lia.
  - (* Copy *)
    destruct L as (Lv & Hh & Lw). rewrite Lv. apply live_false in Lv. destruct (live_true _ _ Lw) as (x & Ex & Hx & Vx). rewrite Ex.
    destruct (var_block h x [] I Hx) as [P Lt]. destruct (Inv_add_ref h (vpi x) [] I P) as (h1 & E1 & I1 & V1 & L1 & G1 & N1 & T1). rewrite E1. cbn [bind].
    eexists. split; [reflexivity|].
    assert (I2 : Inv (add_var h1 (mkVar v hd (vpx x) (vpi x))) []).
    { apply Inv_add_var; cbn [vpi vid vholder]; [exact I1| |]. { rewrite V1. exact (find_none _ _ Lv). } unfold holder_alive in *. rewrite L1. exact Hh. }
    split; [exact I2|]. split; [|cbn [add_var log given]; rewrite L1, G1; split; [exists []; reflexivity|auto]].
    intros u. rewrite <- (purge_alive _ _ u I2). f_equal. cbn [intended]. rewrite (state_find _ _ _ Ex). unfold state_of. rewrite find_add_var. cbn [vid].
    destruct (Nat.eqb_spec u v) as [->|N].
    + cbn [vholder vpx]. unfold owner, add_var. cbn [vpi blocks]. rewrite T1. reflexivity.
    + assert (EF : find_var h1 u = find_var h u) by (unfold find_var; rewrite V1; reflexivity). rewrite EF.
      destruct (find_var h u); [|reflexivity]. unfold owner, add_var. cbn [blocks]. rewrite T1. reflexivity.
  - (* Alias *)
    destruct L as (Lv & Hh & Lw). rewrite Lv. apply live_false in Lv. destruct (live_true _ _ Lw) as (x & Ex & Hx & Vx). rewrite Ex.
    destruct (var_block h x [] I Hx) as [P Lt]. destruct (Inv_add_ref h (vpi x) [] I P) as (h1 & E1 & I1 & V1 & L1 & G1 & N1 & T1). rewrite E1. cbn [bind].
    eexists. split; [reflexivity|].
    assert (I2 : Inv (add_var h1 (mkVar v hd p (vpi x))) []).
    { apply Inv_add_var; cbn [vpi vid vholder]; [exact I1| |]. { rewrite V1. exact (find_none _ _ Lv). } unfold holder_alive in *. rewrite L1. exact Hh. }
    split; [exact I2|]. split; [|cbn [add_var log given]; rewrite L1, G1; split; [exists []; reflexivity|auto]].
    intros u. rewrite <- (purge_alive _ _ u I2). f_equal. cbn [intended]. rewrite (state_find _ _ _ Ex). unfold state_of. rewrite find_add_var. cbn [vid].
    destruct (Nat.eqb_spec u v) as [->|N].
    + cbn [vholder vpx]. unfold owner, add_var. cbn [vpi blocks]. rewrite T1. reflexivity.
    + assert (EF : find_var h1 u = find_var h u) by (unfold find_var; rewrite V1; reflexivity). rewrite EF.
      destruct (find_var h u); [|reflexivity]. unfold owner, add_var. cbn [blocks]. rewrite T1. reflexivity.
  - (* Assign *)
    destruct L as (Lw & x & Hx & Vx & K). destruct (live_true _ _ Lw) as (y & Ey & Hy & Vy).
    pose proof (find_unique _ _ _ I Hx) as Ex. rewrite Vx in Ex. rewrite Ex, Ey.
    destruct (var_block h y [] I Hy) as [P Lt]. destruct (Inv_add_ref h (vpi y) [] I P) as (h1 & E1 & I1 & V1 & L1 & G1 & N1 & T1). rewrite E1. cbn [bind].
    assert (Hx1 : In x (vars h1)) by (rewrite V1; exact Hx).
    pose proof (Inv_drop_var h1 x _ I1 Hx1) as I2. rewrite Vx in I2.
    destruct (release_ok (Datatypes.S (length (vars (drop_var h1 v)))) (drop_var h1 v) [vpi x] [vpi y] I2 ltac:(cbn [length]; lia)) as (h2 & E2 & I3 & F).
    unfold rel. rewrite E2. cbn [bind].
    assert (KA : match vholder x with Some o' => ~ In o' (log h2) | None => True end).
    { destruct (vholder x) as [o'|] eqn:V; [|exact Logic.I]. eapply (kept h (drop_var h1 v) h2 v); [exact I3|exact F| | | |exact K].
      - cbn. exact G1. - cbn. exact T1. - intros z Hz Nz. unfold drop_var. cbn [vars]. apply in_without. rewrite V1. auto. }
    replace (match vholder x with Some o' => existsb (Z.eqb o') (log h2) | None => false end) with false.
    2: { destruct (vholder x) as [o'|]; [|reflexivity]. symmetry. apply existsb_nIn. exact KA. }
    eexists. split; [reflexivity|].
    assert (I4 : Inv (add_var h2 (mkVar v (vholder x) (vpx y) (vpi y))) []).
    { apply Inv_add_var; cbn [vpi vid vholder]; [exact I3| |].
      - intros z Hz. destruct F as [F1 F2 F3 F4 F5]. apply F5 in Hz. destruct Hz as [Hz _]. unfold drop_var in Hz. cbn [vars] in Hz. apply in_without in Hz. apply Hz.
      - unfold holder_alive. destruct (vholder x) as [o'|] eqn:V; [|exact Logic.I]. split; [|exact KA]. apply (i_hold _ _ I x o' Hx V). }
    split; [exact I4|]. split; [|split; [|cbn [add_var given]; destruct F as [F1 _ _ _ _]; rewrite F1; cbn [drop_var given]; rewrite G1; auto]].
    + intros u. cbn [intended]. rewrite (state_find _ _ _ Ex), (state_find _ _ _ Ey). change (log (add_var h2 (mkVar v (vholder x) (vpx y) (vpi y)))) with (log h2).
      destruct (Nat.eqb_spec u v) as [->|N].
      * unfold state_of. rewrite find_add_var. cbn [vid]. rewrite Nat.eqb_refl. cbn [vholder vpx]. unfold owner, add_var. cbn [vpi blocks].
        destruct F as [F1 F2 F3 F4 F5]. rewrite F3. cbn [drop_var blocks]. rewrite T1. cbn [purge]. destruct (vholder x) as [o'|]; [|reflexivity].
        rewrite (proj2 (existsb_nIn _ _) KA). reflexivity.
      * transitivity (state_of h2 u).
        { unfold state_of. rewrite find_add_var. cbn [vid]. rewrite (proj2 (Nat.eqb_neq _ _) N). reflexivity. }
        rewrite (state_release _ _ _ _ I2 I3 F u). f_equal. unfold state_of. rewrite find_drop_var, (proj2 (Nat.eqb_neq _ _) N).
        assert (EF : find_var h1 u = find_var h u) by (unfold find_var; rewrite V1; reflexivity). rewrite EF.
        destruct (find_var h u); [|reflexivity]. unfold owner, drop_var. cbn [blocks]. rewrite T1. reflexivity.
    + cbn [add_var log]. destruct F as [F1 F2 F3 (l & F4) F5]. exists l. rewrite F4. cbn [drop_var log]. rewrite L1. reflexivity.
  - (* Reset *)
    destruct L as (Lv & Fr). destruct (live_true _ _ Lv) as (x & Ex & Hx & Vx). rewrite Ex.
    destruct (Z.eqb_spec (vpx x) p) as [Ep|Np].
    { exists h. split; [reflexivity|]. split; [exact I|]. split; [|split; [exists []; reflexivity|auto]].
      intros u. rewrite <- (purge_alive _ _ u I). f_equal. cbn [intended]. destruct (Nat.eqb_spec u v) as [->|N]; [|reflexivity].
      destruct oom; [reflexivity|]. cbn [andb negb]. rewrite (state_find _ _ _ Ex). rewrite (proj2 (Z.eqb_eq _ _) Ep). reflexivity. }
    assert (Fr' : fresh h p). { destruct Fr as [Fr|(x' & Hx' & Vx' & Ep')]; [exact Fr|]. pose proof (find_unique _ _ _ I Hx') as U. rewrite Vx' in U. congruence. }
    clear Fr. rename Fr' into Fr. destruct oom.
    + destruct (alloc_failure_ok h p I Fr) as (h' & E & I' & S & Lg & G). exists h'. split; [exact E|]. split; [exact I'|].
      split; [|split; [exact Lg|rewrite G; split; [intros q; apply give_in|intros q; apply give_incl]]].
      intros u. rewrite S. cbn [intended negb]. rewrite andb_false_r. reflexivity.
    + pose proof (Inv_new_block h p [] I Fr) as I1. cbn [new_block] in *. cbn [fst] in I1. set (g := mkHeap _ _ _ _ _) in *.
      assert (I2 : Inv (set_var g v p (next h)) ([vpi x] ++ [])).
      { rewrite <- Vx. eapply Inv_set_var; [exact I1|exact Hx|]. intros b. cbn [app]. rewrite !pc_cons. lia. }
      unfold rel. destruct (release_ok (Datatypes.S (length (vars (set_var g v p (next h))))) _ _ _ I2 ltac:(cbn [length]; lia)) as (h2 & E2 & I3 & F).
      exists h2. split; [exact E2|]. split; [exact I3|]. pose proof (state_release _ _ _ _ I2 I3 F) as St. destruct F as [F1 F2 F3 F4 F5].
      split; [|split; [exact F4|rewrite F1; split; [intros q; apply give_in|intros q; apply give_incl]]].
      intros u. rewrite St. f_equal. cbn [intended negb]. rewrite andb_true_r. unfold state_of at 1. rewrite find_set_var.
      destruct (Nat.eqb_spec u v) as [->|N].
      * replace (find_var g v) with (find_var h v) by reflexivity. rewrite Ex, (state_find _ _ _ Ex). cbn [vholder vpx].
        rewrite (proj2 (Z.eqb_neq _ _) Np). unfold owner, set_var, g. cbn [vpi blocks]. rewrite setb_same. reflexivity.
      * replace (find_var g u) with (find_var h u) by reflexivity. unfold state_of. destruct (find_var h u) as [z|] eqn:E; [|reflexivity].
        do 2 f_equal. unfold owner, set_var, g. cbn [blocks]. rewrite setb_other; [reflexivity|]. apply find_In in E. destruct (var_block h z [] I (proj1 E)). lia.
  - (* Swap *)
    destruct L as (Lv & Lw). destruct (live_true _ _ Lv) as (x & Ex & Hx & Vx). destruct (live_true _ _ Lw) as (y & Ey & Hy & Vy). rewrite Ex, Ey.
    eexists. split; [reflexivity|].
    set (h1 := set_var h v (vpx y) (vpi y)).
    assert (N1 : NoDup (map vid (vars h1))) by (unfold h1; rewrite set_var_vid; apply (i_nodup _ _ I)).
    assert (Hy1 : In y (vars h1)).
    { unfold h1, set_var. cbn [vars]. apply in_map_iff. exists y. split; [|exact Hy]. destruct (Nat.eqb (vid y) v); [destruct y|]; reflexivity. }
    assert (I2 : Inv (set_var h1 w (vpx x) (vpi x)) []).
    { pose proof (i_nodup _ _ I) as N0. pose proof I as [A1 A2 A3 A4 A5 A6 A7 A8 A9 A10]. constructor; auto.
      - rewrite set_var_vid. exact N1.
      - intros b. cbn [blocks set_var h1]. rewrite A2.
        pose proof (set_var_cv h x (vpx y) (vpi y) N0 Hx b) as C1. rewrite Vx in C1. fold h1 in C1.
        pose proof (set_var_cv h1 y (vpx x) (vpi x) N1 Hy1 b) as C2. rewrite Vy in C2. lia.
      - intros z o Hz Ho. apply set_var_in in Hz. destruct Hz as (z1 & Hz1 & E1). apply set_var_in in Hz1. destruct Hz1 as (z2 & Hz2 & E2).
        apply (A10 z2 o Hz2). congruence. }
    split; [exact I2|]. split; [|split; [exists []; reflexivity|auto]].
    intros u. rewrite <- (purge_alive _ _ u I2). f_equal. cbn [intended]. rewrite (state_find _ _ _ Ex), (state_find _ _ _ Ey).
    unfold state_of at 1. rewrite find_set_var. unfold h1. rewrite find_set_var. unfold owner, set_var. cbn [blocks].
    destruct (Nat.eqb_spec u v) as [Eu|Nv], (Nat.eqb_spec u w) as [Ew|Nw]; try rewrite Eu; try rewrite Ew.
    + rewrite Ex. rewrite <- Eu, Ew, Ey in Ex. injection Ex as <-. reflexivity.
    + rewrite Ex. reflexivity.
    + rewrite Ey. reflexivity.
    + reflexivity.
  - (* Destroy *)
    destruct (live_true _ _ L) as (x & Ex & Hx & Vx). rewrite Ex.
    pose proof (Inv_drop_var h x _ I Hx) as I2. rewrite Vx in I2.
    destruct (release_ok (Datatypes.S (length (vars (drop_var h v)))) (drop_var h v) [vpi x] [] I2 ltac:(cbn [length]; lia)) as (h2 & E2 & I3 & F).
    unfold rel. rewrite E2. exists h2. split; [reflexivity|]. split; [exact I3|]. pose proof (state_release _ _ _ _ I2 I3 F) as St. destruct F as [F1 F2 F3 F4 F5].
    split; [|split; [exact F4|rewrite F1; auto]].
    intros u. rewrite St. f_equal. cbn [intended]. unfold state_of. rewrite find_drop_var. destruct (Nat.eqb u v); reflexivity.
Qed.

Lemma Inv0 : Inv heap0 [].
Proof. constructor; cbn; try (intros; lia); try (intros; contradiction); try constructor; auto. Qed.
(** histories *)
Lemma run_app h l1 l2 : run h (l1 ++ l2) = (h' <- run h l1 ;; run h' l2).
Proof. revert h. induction l1 as [|o l IH]; intros h; cbn [run app]; [reflexivity|]. destruct (step h o); cbn [bind]; auto. Qed.
Lemma run_ok l : forall h, Inv h [] -> legal_history h l -> exists h', run h l = Ok h' /\ Inv h' [].
Proof.
  induction l as [|o l IH]; intros h I H; cbn [run]; [eauto|]. inversion H; subst.
  destruct (step_ok h o I H3) as (h1 & E & G). rewrite E. cbn [bind]. apply IH; [apply G|auto].
Qed.
