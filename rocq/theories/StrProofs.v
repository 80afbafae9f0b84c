(** Lemmas about StrModel. *)
From Verif Require Import StrModel.

Lemma ceqb_eq a b : ceqb a b = true <-> a = b.
Proof. unfold ceqb. destruct (Ascii.eqb_spec a b); split; congruence. Qed.
Lemma ceqb_neq a b : ceqb a b = false <-> a <> b.
Proof. unfold ceqb. destruct (Ascii.eqb_spec a b); split; congruence. Qed.
Lemma ceqb_refl a : ceqb a a = true.
Proof. apply ceqb_eq; reflexivity. Qed.

Lemma mem_In c l : mem c l = true <-> In c l.
Proof.
  unfold mem. rewrite existsb_exists. split.
  - intros [x [Hx He]]. apply ceqb_eq in He. subst; exact Hx.
  - intros H. exists c. split; [exact H | apply ceqb_refl].
Qed.

(** finite sweep over all 256 characters *)
Definition all_chars : list ascii := map ascii_of_nat (seq 0 256).
Lemma all_chars_complete c : In c all_chars.
Proof.
  unfold all_chars. rewrite <- (ascii_nat_embedding c). apply in_map.
  apply in_seq. pose proof (nat_ascii_bounded c). lia.
Qed.
Lemma char_sweep (P : ascii -> bool) : forallb P all_chars = true -> forall c, P c = true.
Proof. intros H c. rewrite forallb_forall in H. apply H, all_chars_complete. Qed.

Lemma tolower_NUL_inv c : tolower c = NUL -> c = NUL.
Proof.
  intros H. assert (E : (if ceqb (tolower c) NUL then ceqb c NUL else true) = true).
  { revert c H; intros c _. apply (char_sweep (fun c => if ceqb (tolower c) NUL then ceqb c NUL else true)).
    vm_compute. reflexivity. }
  rewrite (proj2 (ceqb_eq _ _) H) in E. apply ceqb_eq; exact E.
Qed.

Lemma tolower_idem c : tolower (tolower c) = tolower c.
Proof.
  apply ceqb_eq. apply (char_sweep (fun c => ceqb (tolower (tolower c)) (tolower c))).
  vm_compute. reflexivity.
Qed.

Lemma stringsEqual_spec s1 s2 : stringsEqual s1 s2 = true <-> map tolower s1 = map tolower s2.
Proof.
  unfold stringsEqual. revert s2. induction s1 as [|a s1 IH]; intros [|b s2]; cbn.
  - tauto.
  - split; discriminate.
  - split; discriminate.
  - specialize (IH s2). destruct (length s1 =? length s2) eqn:El; cbn in *.
    + rewrite andb_true_iff, IH, ceqb_eq. split.
      * intros [-> ->]; reflexivity.
      * intros H; injection H; auto.
    + split; [discriminate|]. intros H. injection H as _ H.
      apply (f_equal (@length ascii)) in H. rewrite !map_length in H.
      apply Nat.eqb_neq in El. congruence.
Qed.

Lemma stringsEqual_refl s : stringsEqual s s = true.
Proof. apply stringsEqual_spec; reflexivity. Qed.
Lemma stringsEqual_sym s t : stringsEqual s t = stringsEqual t s.
Proof.
  destruct (stringsEqual s t) eqn:E, (stringsEqual t s) eqn:F; try reflexivity.
  - apply stringsEqual_spec in E. symmetry in E. apply stringsEqual_spec in E. congruence.
  - apply stringsEqual_spec in F. symmetry in F. apply stringsEqual_spec in F. congruence.
Qed.
Lemma stringsEqual_trans a b c : stringsEqual a b = true -> stringsEqual b c = true -> stringsEqual a c = true.
Proof. rewrite !stringsEqual_spec. congruence. Qed.
Lemma stringsEqual_cong a b c : stringsEqual a b = true -> stringsEqual a c = stringsEqual b c.
Proof.
  intros H. destruct (stringsEqual b c) eqn:E.
  - eapply stringsEqual_trans; eassumption.
  - destruct (stringsEqual a c) eqn:F; [|reflexivity].
    rewrite stringsEqual_sym in H. rewrite (stringsEqual_trans _ _ _ H F) in E. discriminate.
Qed.
Lemma stringsEqual_cons a s b t :
  stringsEqual (a :: s) (b :: t) = ceqb (tolower a) (tolower b) && stringsEqual s t.
Proof.
  unfold stringsEqual. cbn. destruct (length s =? length t); cbn; [reflexivity|].
  destruct (ceqb _ _); reflexivity.
Qed.

Lemma stringsEqualC_spec s1 s2 junk :
  ~ In NUL s2 ->
  stringsEqualC s1 (Some (s2 ++ NUL :: junk)) = Some (stringsEqual s1 s2).
Proof.
  unfold stringsEqualC. revert s2. induction s1 as [|a s1 IH]; intros [|b s2] Hn.
  - reflexivity.
  - cbn. f_equal. unfold stringsEqual; cbn. apply ceqb_neq. intros ->. apply Hn; left; reflexivity.
  - reflexivity.
  - cbn [stringsEqualC_loop app]. rewrite stringsEqual_cons.
    assert (b <> NUL) by (intros ->; apply Hn; left; reflexivity).
    rewrite (proj2 (ceqb_neq b NUL) H). cbn.
    destruct (ceqb (tolower a) (tolower b)); cbn; [|reflexivity].
    apply IH. intros Hi; apply Hn; right; exact Hi.
Qed.

(** ---- find_first / find_last ---- *)
Lemma find_first_Some p s i : find_first p s = Some i ->
  exists c, nth_error s i = Some c /\ p c = true /\ forallb (fun c => negb (p c)) (firstn i s) = true /\ i < length s.
Proof.
  revert i. induction s as [|a s IH]; cbn; intros i H; [discriminate|].
  destruct (p a) eqn:E.
  - injection H as <-. exists a. cbn. repeat split; auto; lia.
  - destruct (find_first p s) as [j|]; cbn in H; [|discriminate]. injection H as <-.
    destruct (IH j eq_refl) as (c & H1 & H2 & H3 & H4). exists c. cbn. rewrite E, H3. repeat split; auto; lia.
Qed.
Lemma find_first_None p s : find_first p s = None <-> forallb (fun c => negb (p c)) s = true.
Proof.
  induction s as [|a s IH]; cbn; [tauto|]. destruct (p a); cbn.
  - split; discriminate.
  - destruct (find_first p s); cbn; rewrite <- IH; split; congruence.
Qed.
Lemma find_first_app p s t c :
  forallb (fun c => negb (p c)) s = true -> p c = true -> find_first p (s ++ c :: t) = Some (length s).
Proof.
  intros H Hc. induction s as [|a s IH]; cbn in *; [rewrite Hc; reflexivity|].
  apply andb_true_iff in H as [Ha Hs]. destruct (p a); [discriminate|]. rewrite IH; auto.
Qed.
Lemma find_last_Some p s i : find_last p s = Some i ->
  exists c, nth_error s i = Some c /\ p c = true /\ forallb (fun c => negb (p c)) (skipn (i+1) s) = true /\ i < length s.
Proof.
  revert i. induction s as [|a s IH]; cbn; intros i H; [discriminate|].
  destruct (find_last p s) as [j|] eqn:F.
  - injection H as <-. destruct (IH j eq_refl) as (c & H1 & H2 & H3 & H4). exists c. cbn. repeat split; auto; lia.
  - destruct (p a) eqn:E; [|discriminate]. injection H as <-. exists a. cbn. repeat split; auto; [|lia].
    clear -F. induction s as [|b s IH]; cbn in *; [reflexivity|].
    destruct (find_last p s); [discriminate|]. destruct (p b); [discriminate|]. cbn. auto.
Qed.
Lemma find_last_None p s : find_last p s = None <-> forallb (fun c => negb (p c)) s = true.
Proof.
  induction s as [|a s IH]; cbn; [tauto|].
  destruct (find_last p s) as [i|].
  - split; [discriminate|]. rewrite andb_true_iff. intros [_ H]. apply IH in H. discriminate.
  - destruct (p a); cbn; [split; discriminate|]. split; [intros _|reflexivity]. apply IH. reflexivity.
Qed.
Lemma find_last_snoc p s c : p c = true -> find_last p (s ++ [c]) = Some (length s).
Proof. intros H. induction s as [|a s IH]; cbn; [rewrite H; reflexivity|]. rewrite IH. reflexivity. Qed.

(** ---- splitString ---- *)
(** Independent characterisation of tokenisation: [src] is delimiters*, token, then either the end or a
    delimiter, and so on. *)
Inductive Tokens (isdelim : ascii -> bool) : str -> list str -> Prop :=
| Tok_nil d : forallb isdelim d = true -> Tokens isdelim d []
| Tok_cons d t rest l :
    forallb isdelim d = true -> t <> [] -> forallb (fun c => negb (isdelim c)) t = true ->
    (rest = [] \/ exists c r, rest = c :: r /\ isdelim c = true) ->
    Tokens isdelim rest l -> Tokens isdelim (d ++ t ++ rest) (t :: l).

Lemma forallb_firstn_find p s i :
  find_first p s = Some i -> forallb (fun c => negb (p c)) (firstn i s) = true.
Proof. intros H; apply find_first_Some in H as (c & _ & _ & H & _); exact H. Qed.

Lemma nth_error_skipn_cons {A} (s : list A) i c : nth_error s i = Some c -> skipn i s = c :: skipn (S i) s.
Proof.
  revert i. induction s as [|a s IH]; intros [|i]; cbn; try discriminate.
  - congruence.
  - intros H. apply IH in H. exact H.
Qed.

Lemma forallb_ext' {A} (f g : A -> bool) l : (forall x, f x = g x) -> forallb f l = forallb g l.
Proof. intros H. induction l; cbn; [reflexivity|]. rewrite H, IHl. reflexivity. Qed.

Lemma split_loop_spec delim fuel s acc :
  length s < fuel ->
  (s = [] \/ exists c r, s = c :: r /\ mem c delim = false) ->
  exists l, split_loop fuel delim s acc = SplitOk (rev acc ++ l) /\ Tokens (fun c => mem c delim) s l.
Proof.
  revert s acc. induction fuel as [|fuel IH]; intros s acc Hf Hs; [lia|].
  destruct Hs as [->|(c & r & -> & Hc)].
  - exists []. cbn. rewrite app_nil_r. split; [reflexivity|]. apply Tok_nil. reflexivity.
  - set (s := c :: r) in *. cbn [split_loop]. unfold s at 1.
    set (p := fun c => mem c delim) in *.
    destruct (find_first p s) as [i|] eqn:Fi.
    + (* a delimiter exists *)
      destruct (find_first_Some _ _ _ Fi) as (d & Hd & Hpd & Hall & Hlt).
      assert (Hi : i <> 0).
      { intros ->. cbn in Hd. injection Hd as <-. unfold p in Hpd. congruence. }
      destruct (i =? 0) eqn:Ei; [apply Nat.eqb_eq in Ei; congruence|].
      assert (Ht : firstn i s <> []).
      { destruct i; [congruence|]. unfold s. cbn. discriminate. }
      destruct (find_first (fun c => negb (p c)) (skipn i s)) as [j|] eqn:Fj.
      * destruct (find_first_Some _ _ _ Fj) as (e & He & Hpe & Hallj & Hltj).
        assert (L : length (skipn j (skipn i s)) < fuel).
        { rewrite !skipn_length. rewrite skipn_length in Hltj. unfold s in *; cbn [length] in *. lia. }
        destruct (IH (skipn j (skipn i s)) (firstn i s :: acc) L) as (l & Hl & Tl).
        { right. exists e, (skipn (S j) (skipn i s)). split.
          - apply nth_error_skipn_cons; exact He.
          - unfold p in Hpe. apply negb_true_iff; exact Hpe. }
        exists (firstn i s :: l). split.
        { unfold p in Fj. rewrite Fj.
          unfold s in Hl |- *. rewrite Hl. cbn [rev]. rewrite <- app_assoc. reflexivity. }
        rewrite <- (firstn_skipn i s) at 1.
        change (firstn i s ++ skipn i s) with ([] ++ firstn i s ++ skipn i s).
        apply Tok_cons; auto.
        { right. exists d, (skipn (S i) s). split; [apply nth_error_skipn_cons; exact Hd|exact Hpd]. }
        (* Tokens for delimiters ++ rest *)
        rewrite <- (firstn_skipn j (skipn i s)).
        assert (Hdel : forallb p (firstn j (skipn i s)) = true).
        { rewrite <- Hallj. apply forallb_ext'. intros x. rewrite negb_involutive. reflexivity. }
        remember (skipn j (skipn i s)) as s2 eqn:Es2. clear - Tl Hdel.
        destruct Tl as [d Hd|d t rest l Hd Ht Hnt Hr Tr].
        -- apply Tok_nil. rewrite forallb_app. rewrite Hdel, Hd. reflexivity.
        -- rewrite app_assoc. apply Tok_cons; auto. rewrite forallb_app, Hdel, Hd. reflexivity.
      * exists [firstn i s]. unfold p in Fj. rewrite Fj. cbn [rev]. split; [reflexivity|].
        rewrite <- (firstn_skipn i s) at 1.
        change (firstn i s ++ skipn i s) with ([] ++ firstn i s ++ skipn i s).
        apply Tok_cons; auto.
        { right. exists d, (skipn (S i) s). split; [apply nth_error_skipn_cons; exact Hd|exact Hpd]. }
        apply Tok_nil. apply find_first_None in Fj. rewrite <- Fj.
        apply forallb_ext'. intros x. rewrite negb_involutive. reflexivity.
    + apply find_first_None in Fi.
      assert (El : (length s =? 0) = false) by reflexivity. rewrite El.
      rewrite firstn_all, skipn_all. cbn [find_first rev]. exists [s]. split; [reflexivity|].
      rewrite <- (app_nil_r s) at 1. change (s ++ []) with ([] ++ s ++ []).
      apply Tok_cons; auto; [discriminate|]. apply Tok_nil; reflexivity.
Qed.

Lemma splitString_spec src delim :
  exists l, splitString src delim = SplitOk l /\ Tokens (fun c => mem c delim) src l.
Proof.
  unfold splitString. destruct (find_first _ src) as [i|] eqn:F.
  - destruct (find_first_Some _ _ _ F) as (e & He & Hpe & Hall & Hlt).
    destruct (split_loop_spec delim (S (length src)) (skipn i src) []) as (l & Hl & Tl).
    + rewrite skipn_length. lia.
    + right. exists e, (skipn (S i) src). split; [apply nth_error_skipn_cons; exact He|].
      apply negb_true_iff; exact Hpe.
    + exists l. split; [exact Hl|]. rewrite <- (firstn_skipn i src).
      assert (Hdel : forallb (fun c => mem c delim) (firstn i src) = true).
      { rewrite <- Hall. apply forallb_ext'. intros x. rewrite negb_involutive. reflexivity. }
      remember (skipn i src) as s2. remember (firstn i src) as s1. clear - Tl Hdel.
      destruct Tl as [d Hd|d t rest l Hd Ht Hnt Hr Tr].
      * apply Tok_nil. rewrite forallb_app, Hdel, Hd. reflexivity.
      * rewrite app_assoc. apply Tok_cons; auto. rewrite forallb_app, Hdel, Hd. reflexivity.
  - exists []. split; [reflexivity|]. apply Tok_nil. apply find_first_None in F. rewrite <- F.
    apply forallb_ext'. intros x. rewrite negb_involutive. reflexivity.
Qed.

Lemma Tokens_props isd s l : Tokens isd s l ->
  Forall (fun t => t <> [] /\ forallb (fun c => negb (isd c)) t = true) l /\
  concat l = filter (fun c => negb (isd c)) s.
Proof.
  assert (F1 : forall d, forallb isd d = true -> filter (fun c => negb (isd c)) d = []).
  { induction d as [|a d IH]; cbn; [reflexivity|]. intros H. apply andb_true_iff in H as [-> H]. cbn; auto. }
  assert (F2 : forall d, forallb (fun c => negb (isd c)) d = true -> filter (fun c => negb (isd c)) d = d).
  { induction d as [|a d IH]; cbn; [reflexivity|]. intros H. apply andb_true_iff in H as [-> H].
    f_equal; auto. }
  induction 1 as [d Hd|d t rest l Hd Ht Hnt Hr Tr [IH1 IH2]].
  - split; [constructor|]. cbn. rewrite F1; auto.
  - split; [constructor; auto|]. cbn. rewrite !filter_app, F1, F2 by assumption. cbn. f_equal. exact IH2.
Qed.

Lemma app_eq_split {A} (p : A -> bool) (a b c d : list A) :
  forallb p a = true -> forallb p c = true ->
  (b = [] \/ exists x r, b = x :: r /\ p x = false) ->
  (d = [] \/ exists x r, d = x :: r /\ p x = false) ->
  a ++ b = c ++ d -> a = c /\ b = d.
Proof.
  revert c. induction a as [|x a IH]; intros [|y c] Ha Hc Hb Hd E; cbn in *.
  - auto.
  - subst b. destruct Hb as [Hb|(z & r & Hb & Hz)]; [discriminate|]. injection Hb as -> ->.
    rewrite Hz in Hc. discriminate.
  - subst d. destruct Hd as [Hd|(z & r & Hd & Hz)]; [discriminate|]. injection Hd as -> ->.
    rewrite Hz in Ha. discriminate.
  - injection E as -> E. apply andb_true_iff in Ha as [_ Ha], Hc as [_ Hc].
    destruct (IH c Ha Hc Hb Hd E) as [-> ->]. auto.
Qed.

Lemma Tokens_unique isd s l1 l2 : Tokens isd s l1 -> Tokens isd s l2 -> l1 = l2.
Proof.
  intros H. revert l2. induction H as [d Hd|d t rest l Hd Ht Hnt Hr Tr IH]; intros l2 H2.
  - inversion H2 as [d' Hd'|d' t' rest' l' Hd' Ht' Hnt' Hr' Tr']; [reflexivity|]. subst.
    rewrite !forallb_app in Hd. apply andb_true_iff in Hd as [_ Hd]. apply andb_true_iff in Hd as [Hd _].
    destruct t' as [|c t']; [congruence|]. cbn in *. apply andb_true_iff in Hd as [Hc _], Hnt' as [Hn _].
    rewrite Hc in Hn. discriminate.
  - inversion H2 as [d' Hd' E1 E2|d' t' rest' l' Hd' Ht' Hnt' Hr' Tr' E1 E2].
    + subst. rewrite !forallb_app in Hd'. apply andb_true_iff in Hd' as [_ H']. apply andb_true_iff in H' as [H' _].
      destruct t as [|c t]; [congruence|]. cbn in *. apply andb_true_iff in H' as [Hc _], Hnt as [Hn _].
      rewrite Hc in Hn. discriminate.
    + destruct (app_eq_split isd d' (t' ++ rest') d (t ++ rest)) as [-> E]; auto.
      * destruct t' as [|c t']; [congruence|]. cbn in *. apply andb_true_iff in Hnt' as [Hn _].
        right. exists c, (t' ++ rest'). split; auto. apply negb_true_iff; auto.
      * destruct t as [|c t]; [congruence|]. cbn in *. apply andb_true_iff in Hnt as [Hn _].
        right. exists c, (t ++ rest). split; auto. apply negb_true_iff; auto.
      * destruct (app_eq_split (fun c => negb (isd c)) t' rest' t rest) as [-> ->]; auto.
        -- destruct Hr' as [->|(c & r & -> & Hc)]; auto. right. exists c, r. rewrite Hc. auto.
        -- destruct Hr as [->|(c & r & -> & Hc)]; auto. right. exists c, r. rewrite Hc. auto.
        -- f_equal. apply IH. exact Tr'.
Qed.

(** ---- endsWithStr ---- *)
Lemma prefixb_spec p s : prefixb p s = true <-> exists r, s = p ++ r.
Proof.
  revert s. induction p as [|a p IH]; intros s; cbn.
  - split; [intros _; exists s; reflexivity|auto].
  - destruct s as [|b s]; [split; [discriminate|intros (r & H); discriminate]|].
    rewrite andb_true_iff, ceqb_eq, IH. split.
    + intros [-> (r & ->)]. exists r; reflexivity.
    + intros (r & H). injection H as -> ->. split; eauto.
Qed.

Lemma find_str_short e s : length s <= length e ->
  (exists i, find_str e s = Some i) <-> s = e.
Proof.
  intros HL. split.
  - intros (i & H). destruct (prefixb e s) eqn:P.
    + apply prefixb_spec in P as (r & ->). rewrite app_length in HL.
      destruct r; [apply app_nil_r|cbn in HL; lia].
    + exfalso. assert (G : forall s, length s < length e -> find_str e s = None).
      { clear. intros s. induction s as [|a s IH]; intros L; cbn.
        - destruct e; [cbn in L; lia|reflexivity].
        - destruct (prefixb e (a :: s)) eqn:P.
          + apply prefixb_spec in P as (r & P). rewrite P, app_length in L. lia.
          + rewrite IH by (cbn in L; lia). reflexivity. }
      destruct s as [|a s]; cbn in H; rewrite P in H; [discriminate|].
      rewrite G in H by (cbn in HL; lia). discriminate.
  - intros ->. exists 0. assert (P : prefixb e e = true) by (apply prefixb_spec; exists []; rewrite app_nil_r; auto).
    destruct e; cbn in *; [reflexivity|]. rewrite P; reflexivity.
Qed.

Lemma endsWithStr_spec s e : endsWithStr s e = true <-> exists p, s = p ++ e.
Proof.
  unfold endsWithStr. rewrite andb_true_iff, Nat.leb_le. split.
  - intros [HL H]. destruct (find_str e (skipn (length s - length e) s)) eqn:F; [|discriminate].
    assert (E : skipn (length s - length e) s = e).
    { apply find_str_short; [rewrite skipn_length; lia|eauto]. }
    exists (firstn (length s - length e) s). rewrite <- E at 2. symmetry; apply firstn_skipn.
  - intros (p & ->). rewrite app_length. split; [lia|].
    replace (length p + length e - length e) with (length p) by lia.
    rewrite skipn_app, skipn_all, Nat.sub_diag. cbn [skipn app].
    destruct (proj2 (find_str_short e e (le_n _)) eq_refl) as (i & ->). reflexivity.
Qed.

(** ---- toBool ---- *)
Definition blank (c : ascii) : Prop := c = " "%char \/ c = TAB.
Definition false_start (s : str) : Prop := s = [] \/ exists c r, s = c :: r /\ In c (NUL :: lit "0nNfF").
Definition true_start (s : str) : Prop := exists c r, s = c :: r /\ In c (lit "1yYtT").

Lemma toBool_spec s b : toBool s = Some b <->
  exists ws r, s = ws ++ r /\ Forall blank ws /\ (if b then true_start r else false_start r).
Proof.
  split.
  - induction s as [|c s IH]; cbn [toBool].
    + intros H. injection H as <-. exists [], []. repeat split; auto. left; reflexivity.
    + destruct (mem c (NUL :: lit "0nNfF")) eqn:M0.
      { intros H; injection H as <-. apply mem_In in M0. exists [], (c :: s). repeat split; auto. right; eauto. }
      destruct (mem c (lit "1yYtT")) eqn:M1.
      { intros H; injection H as <-. apply mem_In in M1. exists [], (c :: s). repeat split; auto.
        unfold true_start; eauto. }
      destruct (mem c [SP; TAB]) eqn:M2; [|discriminate].
      intros H. destruct (IH H) as (ws & r & -> & Hw & Hr). exists (c :: ws), r. repeat split; auto.
      constructor; auto. apply mem_In in M2. destruct M2 as [<-|[<-|[]]]; [left|right]; reflexivity.
  - intros (ws & r & -> & Hw & Hr). induction Hw as [|c ws Hc Hw IH]; cbn [app].
    + destruct b.
      * destruct Hr as (c & r' & -> & Hi). cbn [toBool].
        destruct Hi as [<-|[<-|[<-|[<-|[<-|[]]]]]]; reflexivity.
      * destruct Hr as [->|(c & r' & -> & Hi)]; [reflexivity|]. cbn [toBool].
        apply mem_In in Hi. rewrite Hi. reflexivity.
    + cbn [toBool]. destruct Hc as [->| ->]; cbn; exact IH.
Qed.

Lemma c_str_spec s : exists r, s = c_str s ++ r /\ ~ In NUL (c_str s) /\ (r = [] \/ exists r', r = NUL :: r').
Proof.
  induction s as [|c s (r & IH1 & IH2 & IH3)]; cbn.
  - exists []. auto.
  - destruct (ceqb c NUL) eqn:E.
    + apply ceqb_eq in E. subst. exists (NUL :: s). cbn. eauto 6.
    + apply ceqb_neq in E. exists r. cbn. rewrite <- IH1. split; auto. split; auto.
      intros [->|H]; auto.
Qed.

Lemma c_str_id s : ~ In NUL s -> c_str s = s.
Proof.
  induction s as [|c s IH]; cbn; [reflexivity|]. intros H.
  destruct (ceqb c NUL) eqn:E; [apply ceqb_eq in E; subst; exfalso; auto|].
  f_equal. apply IH. auto.
Qed.
