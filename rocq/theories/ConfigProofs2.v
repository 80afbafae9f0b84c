(** Everything the INI reader produces is well-formed; user-level modifications keep it so. *)
From Verif Require Import StrModel StrProofs KVModel KVSpec KVProofs ConfigProofs.

Lemma trim_left_spec s : exists p, s = p ++ trim_left s /\ forallb blankc p = true /\
  (forallb blankc (trim_left s) = true \/ first_ok (fun c => negb (blankc c)) (trim_left s) = true).
Proof.
  unfold trim_left. destruct (find_first (fun c => negb (isWS c)) s) as [i|] eqn:F.
  - destruct (find_first_Some _ _ _ F) as (c & H1 & H2 & H3 & H4). exists (firstn i s).
    rewrite firstn_skipn. split; [reflexivity|]. split.
    + rewrite <- H3. apply forallb_ext'. intros x. rewrite negb_involutive. reflexivity.
    + right. rewrite (nth_error_skipn_cons _ _ _ H1). exact H2.
  - exists []. split; [reflexivity|]. split; [reflexivity|]. left. apply find_first_None in F. rewrite <- F.
    apply forallb_ext'. intros x. rewrite negb_involutive. reflexivity.
Qed.

Lemma last_ok_snoc_iff p s c : last_ok p (s ++ [c]) = p c.
Proof. unfold last_ok. rewrite rev_app_distr. reflexivity. Qed.

Lemma nth_error_firstn_snoc {A} (s : list A) i c : nth_error s i = Some c -> firstn (i + 1) s = firstn i s ++ [c].
Proof.
  revert i. induction s as [|a s IH]; intros [|i] H; cbn in *; try discriminate.
  - congruence.
  - f_equal. apply IH; exact H.
Qed.

Lemma trim_right_spec s : exists p, s = trim_right s ++ p /\
  ((forallb blankc (trim_right s) = true /\ p = []) \/ last_ok (fun c => negb (blankc c)) (trim_right s) = true).
Proof.
  unfold trim_right. destruct (find_last (fun c => negb (isWS c)) s) as [i|] eqn:F.
  - destruct (find_last_Some _ _ _ F) as (c & H1 & H2 & H3 & H4).
    assert (E : firstn (i + 1) s = firstn i s ++ [c]) by (apply nth_error_firstn_snoc; exact H1).
    destruct (i + 1 <? length s) eqn:L.
    + exists (skipn (i + 1) s). rewrite firstn_skipn. split; [reflexivity|]. right. rewrite E, last_ok_snoc_iff. exact H2.
    + exists []. rewrite app_nil_r. split; [reflexivity|]. right. apply Nat.ltb_ge in L.
      rewrite <- (firstn_all2 s L), E, last_ok_snoc_iff. exact H2.
  - exists []. rewrite app_nil_r. split; [reflexivity|]. left. split; [|reflexivity]. apply find_last_None in F. rewrite <- F.
    apply forallb_ext'. intros x. rewrite negb_involutive. reflexivity.
Qed.

Lemma trim_both_trimmed s : trimmed (trim_right (trim_left s)) = true.
Proof.
  destruct (trim_left_spec s) as (p & _ & _ & HL). destruct (trim_right_spec (trim_left s)) as (q & E & HR).
  unfold trimmed. apply orb_true_iff. destruct HL as [HL|HL].
  - left. rewrite E in HL. rewrite forallb_app in HL. apply andb_true_iff in HL; tauto.
  - destruct HR as [[HR _]|HR]; [left; exact HR|].
    right. rewrite HR, andb_true_r. rewrite E in HL. destruct (trim_right (trim_left s)) as [|c r] eqn:T.
    + discriminate.
    + exact HL.
Qed.

Lemma sub_In_trim c s : In c (trim_right (trim_left s)) -> In c s.
Proof.
  intros H. destruct (trim_left_spec s) as (p & E1 & _). destruct (trim_right_spec (trim_left s)) as (q & E2 & _).
  rewrite E1, E2. apply in_or_app. right. apply in_or_app. left. exact H.
Qed.

Lemma firstn_In {A} n (l : list A) x : In x (firstn n l) -> In x l.
Proof. intros H. rewrite <- (firstn_skipn n l). apply in_or_app. left; exact H. Qed.
Lemma skipn_In {A} n (l : list A) x : In x (skipn n l) -> In x l.
Proof. intros H. rewrite <- (firstn_skipn n l). apply in_or_app. right; exact H. Qed.
Lemma c_str_In c s : In c (c_str s) -> In c s.
Proof. destruct (c_str_spec s) as (r & E & _). intros H. rewrite E. apply in_or_app; left; exact H. Qed.

Lemma c_str_idem l : c_str (c_str l) = c_str l.
Proof. apply c_str_id. destruct (c_str_spec l) as (r & _ & H & _). exact H. Qed.
Lemma parse_line_c_str l : parse_line (c_str l) = parse_line l.
Proof. unfold parse_line. rewrite c_str_idem. reflexivity. Qed.

(** first non-blank character of a line that is not a header *)
Lemma not_header_inv line c r :
  section_header line = None -> trim_left (c_str line) = c :: r -> blankc c = false ->
  c = "["%char -> ~ In "]"%char line.
Proof.
  intros H T Hb -> Hin.
  destruct (trim_left_spec (c_str line)) as (p & E1 & Hp & _). rewrite T in E1.
  destruct (c_str_spec line) as (q & E2 & _). rewrite E1, <- app_assoc in E2. cbn [app] in E2.
  unfold section_header in H.
  assert (F : find_first (fun c => negb (isWS c)) line = Some (length p)).
  { rewrite E2. apply find_first_app; [|reflexivity].
    rewrite <- Hp. apply forallb_ext'. intros x. rewrite negb_involutive. reflexivity. }
  rewrite F in H.
  destruct (find_first (fun c => ceqb c "]") line) as [j|] eqn:G.
  - assert (N : nth_error line (length p) = Some "["%char).
    { rewrite E2. rewrite nth_error_app2 by lia. rewrite Nat.sub_diag. reflexivity. }
    rewrite N in H. change (ceqb "[" "[") with true in H. cbn [andb] in H.
    destruct (length p <? j) eqn:L; [discriminate|]. apply Nat.ltb_ge in L.
    destruct (find_first_Some _ _ _ G) as (d & Hd & He & _ & _). apply ceqb_eq in He. subst d.
    destruct (Nat.eq_dec j (length p)) as [->|Hne].
    + rewrite N in Hd. discriminate.
    + rewrite E2 in Hd. rewrite nth_error_app1 in Hd by lia. apply nth_error_In in Hd.
      rewrite forallb_forall in Hp. apply Hp in Hd. discriminate.
  - apply find_first_None in G. rewrite forallb_forall in G. apply G in Hin. discriminate.
Qed.

Lemma not_llh_intro l (line : str) :
  (forall c, In c l -> c = "="%char \/ In c line) ->
  (first_ok (fun c => ceqb c "["%char) l = true -> ~ In "]"%char line) -> looks_like_header l = false.
Proof.
  intros Hs Hf. unfold looks_like_header. destruct (first_ok _ l) eqn:F; [|reflexivity]. cbn [andb].
  apply not_true_iff_false. rewrite mem_In. intros Hi. destruct (Hs _ Hi) as [E|E]; [discriminate|]. exact (Hf eq_refl E).
Qed.

Lemma parse_line_wf line : no_chars [LF] line = true -> section_header line = None ->
  match parse_line line with inl it => wf_item it = true | inr l => wf_item ([], l) = true end.
Proof.
  intros Hlf Hh. unfold parse_line.
  destruct (trim_left_spec (c_str line)) as (p & E1 & Hp & HT).
  assert (Hsub : forall c, In c (trim_left (c_str line)) -> In c line /\ c <> NUL).
  { intros c Hc. assert (Hi : In c (c_str line)) by (rewrite E1; apply in_or_app; right; exact Hc).
    split; [apply c_str_In; exact Hi|]. destruct (c_str_spec line) as (r & _ & Hn & _). intros ->; auto. }
  set (b := trim_left (c_str line)) in *.
  assert (HNL : forall c, In c b -> c <> LF).
  { intros c Hc ->. rewrite no_chars_In in Hlf. apply Hsub in Hc as [Hc _]. apply (Hlf _ Hc). left; reflexivity. }
  (* the verbatim case *)
  assert (HV :
     (forallb blankc b = true \/ first_ok (fun c => mem c (lit "#;=")) b = true \/ no_chars ["="%char] b = true) ->
     wf_item ([], match find_first (fun c => mem c [LF; CR]) b with None => b | Some j => firstn j b end) = true).
  { intros Hcase. remember (match find_first (fun c => mem c [LF; CR]) b with None => b | Some j => firstn j b end) as l eqn:Hldef.
    assert (Hl : exists q, b = l ++ q).
    { rewrite Hldef. destruct (find_first _ b) as [j|]; [exists (skipn j b); rewrite firstn_skipn; reflexivity|exists []; rewrite app_nil_r; reflexivity]. }
    destruct Hl as (q & Hq).
    assert (Hcr : forallb (fun c => negb (mem c [LF; CR])) l = true).
    { rewrite Hldef. destruct (find_first (fun c => mem c [LF; CR]) b) as [j|] eqn:F.
      - apply forallb_firstn_find in F. exact F.
      - apply find_first_None in F. exact F. }
    assert (Hlb : forall c, In c l -> In c b) by (intros c Hc; rewrite Hq; apply in_or_app; left; exact Hc).
    unfold wf_item. cbn [fst snd]. apply andb_true_iff. split.
    - unfold wf_verbatim. apply andb_true_iff. split.
      + apply no_chars_In. intros c Hc Hb. rewrite forallb_forall in Hcr. specialize (Hcr c Hc).
        apply negb_true_iff in Hcr. destruct Hb as [<-|[<-|[<-|[]]]]; try discriminate.
        apply Hlb, Hsub in Hc as [_ Hc]. congruence.
      + apply orb_true_iff. destruct HT as [HT|HT].
        { left. apply orb_true_iff. left. rewrite Hq, forallb_app in HT. apply andb_true_iff in HT; tauto. }
        apply first_ok_cons in HT as (c0 & b0 & Eb & HT).
        assert (Hl0 : exists l0, l = c0 :: l0).
        { rewrite Eb in Hldef. destruct (find_first (fun c => mem c [LF; CR]) (c0 :: b0)) as [j|] eqn:F; [|eauto].
          destruct j as [|j]; [|cbn in Hldef; eauto]. exfalso.
          apply find_first_Some in F as (d & Hd & Hm & _). cbn in Hd. injection Hd as <-.
          apply mem_In in Hm. destruct Hm as [<-|[<-|[]]]; discriminate. }
        destruct Hl0 as (l0 & El).
        destruct Hcase as [Hc|[Hc|Hc]].
        * exfalso. rewrite Eb in Hc. cbn [forallb] in Hc. apply andb_true_iff in Hc as [Hc _]. rewrite Hc in HT. discriminate.
        * left. apply orb_true_iff. right. rewrite El. rewrite Eb in Hc. exact Hc.
        * right. apply andb_true_iff. split; [rewrite El; exact HT|]. rewrite Hq, no_chars_app in Hc.
          apply andb_true_iff in Hc; tauto.
    - apply negb_true_iff. apply (not_llh_intro l line).
      + intros c Hc. right. apply Hlb, Hsub in Hc. tauto.
      + intros Hf. apply first_ok_cons in Hf as (x & l0 & El & Hf). apply ceqb_eq in Hf. subst x.
        apply (not_header_inv line "["%char (l0 ++ q)); auto. fold b. rewrite Hq, El. reflexivity. }
  destruct (find_first (fun c => ceqb c "=") b) as [i|] eqn:F.
  2:{ apply HV. right. right. apply find_first_None in F.
      etransitivity; [|exact F]. apply forallb_ext'. intros x. unfold mem; cbn [existsb]. rewrite orb_false_r. reflexivity. }
  destruct ((0 <? i) && negb (match b with [] => false | c :: _ => isComment c end)) eqn:C.
  2:{ apply HV. right. left. apply andb_false_iff in C as [C|C].
      - apply Nat.ltb_ge in C. assert (i = 0) by lia. subst i. apply find_first_Some in F as (d & Hd & He & _).
        destruct b as [|c0 b0]; [discriminate|]. cbn in Hd. injection Hd as <-. apply ceqb_eq in He. subst c0. reflexivity.
      - destruct b as [|c0 b0]; [discriminate|]. apply negb_false_iff in C. cbn [first_ok].
        unfold isComment in C. apply mem_In. apply orb_true_iff in C as [C|C]; apply ceqb_eq in C; subst c0; cbn; auto. }
  apply andb_true_iff in C as [Ci Cc]. apply Nat.ltb_lt in Ci. apply negb_true_iff in Cc.
  destruct (find_first_Some _ _ _ F) as (d & Hd & He & Hall & Hlt). apply ceqb_eq in He. subst d.
  assert (Eb : b = firstn i b ++ "="%char :: skipn (i + 1) b).
  { rewrite <- (firstn_skipn i b) at 1. f_equal. rewrite (nth_error_skipn_cons _ _ _ Hd). do 2 f_equal. lia. }
  destruct HT as [HT|HT].
  { exfalso. rewrite Eb, forallb_app in HT. cbn in HT. rewrite andb_false_r in HT. discriminate. }
  assert (Hk : exists c0 k0, firstn i b = c0 :: k0 /\ blankc c0 = false /\ isComment c0 = false /\ exists b0, b = c0 :: b0).
  { apply first_ok_cons in HT as (c0 & b0 & Eb0 & HT). rewrite Eb0 in *. destruct i as [|i]; [lia|]. cbn [firstn].
    exists c0, (firstn i b0). apply negb_true_iff in HT. eauto. }
  destruct Hk as (c0 & k0 & Ek & Hc0 & Hcm & b0 & Eb0).
  destruct (trim_right_spec (firstn i b)) as (q & Eq & Hq).
  destruct (trim_right_cons c0 k0) as (kr & Ekr); [exact Hc0|].
  assert (Ekr' : trim_right (firstn i b) = c0 :: kr) by (rewrite Ek; exact Ekr).
  assert (HkS : forall c, In c (trim_right (firstn i b)) -> In c (firstn i b)).
  { intros c Hc. rewrite Eq. apply in_or_app; left; exact Hc. }
  assert (HvS : forall c, In c (trim_right (trim_left (skipn (i+1) b))) -> In c b).
  { intros c Hc. apply sub_In_trim in Hc. apply skipn_In in Hc. exact Hc. }
  unfold wf_item. cbn [fst snd].
  assert (R : wf_key (trim_right (firstn i b)) && wf_val (trim_right (trim_left (skipn (i + 1) b))) &&
     negb (looks_like_header (trim_right (firstn i b) ++ "="%char :: trim_right (trim_left (skipn (i + 1) b)))) = true).
  { rewrite !andb_true_iff. split; [split|].
    - unfold wf_key. rewrite !andb_true_iff. split; [split|].
      + apply no_chars_In. intros c Hc. apply HkS in Hc. intros [<-|[<-|[<-|[]]]].
        * rewrite forallb_forall in Hall. apply Hall in Hc. discriminate.
        * apply firstn_In, HNL in Hc. congruence.
        * apply firstn_In, Hsub in Hc as [_ Hc]. congruence.
      + rewrite Ekr'. cbn [first_ok]. rewrite Hc0. cbn [negb andb]. apply negb_true_iff. apply not_true_iff_false.
        rewrite mem_In. intros [<-|[<-|[]]]; discriminate.
      + destruct Hq as [[Hq _]|Hq]; [|exact Hq]. exfalso. rewrite Ekr' in Hq. cbn [forallb] in Hq.
        rewrite Hc0 in Hq. discriminate.
    - unfold wf_val. apply andb_true_iff. split; [|apply trim_both_trimmed].
      apply no_chars_In. intros c Hc. apply HvS in Hc. intros [<-|[<-|[]]].
      + apply HNL in Hc. congruence.
      + apply Hsub in Hc as [_ Hc]. congruence.
    - apply negb_true_iff. apply (not_llh_intro _ line).
      + intros c Hc. apply in_app_iff in Hc as [Hc|[Hc|Hc]]; [right|left; auto|right].
        * apply HkS, firstn_In, Hsub in Hc. tauto.
        * apply HvS, Hsub in Hc. tauto.
      + intros Hf. rewrite Ekr' in Hf. cbn in Hf. apply ceqb_eq in Hf. subst c0.
        apply (not_header_inv line "["%char b0); auto. }
  rewrite Ekr' in *. exact R.
Qed.

Lemma getlines_noLF bytes : Forall (fun l => no_chars [LF] l = true) (getlines bytes).
Proof.
  unfold getlines. assert (G : forall bytes cur, no_chars [LF] cur = true -> Forall (fun l => no_chars [LF] l = true) (getlines_aux cur bytes)).
  { clear. assert (R : forall l, no_chars [LF] l = true -> no_chars [LF] (rev l) = true).
    { intros l. rewrite !no_chars_In. intros H c Hc. apply H. apply in_rev; exact Hc. }
    induction bytes as [|c bs IH]; intros cur H; cbn [getlines_aux].
    - destruct cur as [|x cur]; constructor; auto. 
    - destruct (ceqb c LF) eqn:E; [constructor; auto|].
      apply IH. unfold no_chars in *. cbn [forallb]. rewrite H, andb_true_r. unfold mem. cbn [existsb].
      rewrite E. reflexivity. }
  apply G. reflexivity.
Qed.

Lemma header_wf line n : no_chars [LF] line = true -> section_header line = Some n -> n = [] \/ wf_name n = true.
Proof.
  intros Hlf. unfold section_header.
  destruct (find_first (fun c => negb (isWS c)) line) as [i|]; [|discriminate].
  destruct (find_first (fun c => ceqb c "]") line) as [j|] eqn:F; [|discriminate].
  destruct (_ && (i <? j)) eqn:C; [|discriminate]. intros H. injection H as <-.
  apply andb_true_iff in C as [_ C]. apply Nat.ltb_lt in C.
  set (n := trim_right _). destruct n as [|c r] eqn:En; [left; reflexivity|right]. rewrite <- En.
  assert (W : no_chars ["]"%char; LF] n && trimmed n = true).
  { apply andb_true_iff. split; [|apply trim_both_trimmed].
    apply no_chars_In. intros x Hx Hb. unfold n in Hx. apply sub_In_trim in Hx. destruct Hb as [<-|[<-|[]]].
    - destruct (find_first_Some _ _ _ F) as (d & _ & _ & Hall & _). rewrite forallb_forall in Hall.
      assert (Hx' : In "]"%char (firstn j line)).
      { replace j with ((i + 1) + (j - i - 1)) by lia. clear -Hx.
        assert (G : forall (a b : nat) (l : str) x, In x (firstn b (skipn a l)) -> In x (firstn (a + b) l)).
        { induction a as [|a IH]; intros b l x H; [exact H|]. destruct l as [|y l]; cbn in *; [destruct b; exact H|].
          right. apply IH; exact H. }
        apply G; exact Hx. }
      apply Hall in Hx'. discriminate.
    - apply firstn_In, skipn_In in Hx. rewrite no_chars_In in Hlf. apply (Hlf _ Hx). left; reflexivity. }
  unfold wf_name. rewrite En in *. exact W.
Qed.

(** invariant of the reader *)
Definition names_ok (secs : sections_t) : Prop :=
  match secs with [] => True | s :: rest => (fst s = [] \/ wf_name (fst s) = true) /\ Forall (fun s => wf_name (fst s) = true) rest end.
Definition RInv (secs : sections_t) : Prop := Forall sec_ok secs /\ distinct (map fst secs) = true /\ names_ok secs.

Lemma RInv_wf secs : RInv secs <-> wf_config secs = true.
Proof.
  split.
  - intros (H1 & H2 & H3). unfold wf_config. rewrite H2. cbn [andb]. apply andb_true_iff. split.
    + apply forallb_forall. intros s Hs. rewrite Forall_forall in H1. destruct (H1 s Hs) as [A B].
      unfold wf_map. rewrite A. cbn [andb]. apply keys_distinct_items. exact B.
    + destruct secs as [|s rest]; [reflexivity|]. destruct H3 as [A B]. apply andb_true_iff. split.
      * destruct A as [->|A]; [reflexivity|]. destruct (fst s); [reflexivity|exact A].
      * apply forallb_forall. rewrite Forall_forall in B. exact B.
  - intros H. apply wf_config_parts in H as (H1 & H2 & H3). split; [exact H1|split; [exact H2|]].
    destruct secs; [exact I|]. destruct H3 as [[[A _]|A] B]; split; auto.
Qed.

Lemma last_match_neg l name i a : (0 <= i)%Z -> (last_match l name i a < 0)%Z ->
  existsb (fun s => stringsEqual (fst s) name) l = false.
Proof.
  revert i a. induction l as [|s l IH]; intros i a Hi H; [reflexivity|]. cbn in *.
  destruct (stringsEqual (fst s) name) eqn:E; cbn.
  - exfalso. destruct (last_match_bound l name (i+1) i) as [G|G]; lia.
  - eapply IH; [|exact H]. lia.
Qed.

Lemma distinct_snoc l x : distinct (l ++ [x]) = true <->
  distinct l = true /\ existsb (fun y => stringsEqual y x) l = false.
Proof.
  induction l as [|a l IH]; cbn [distinct app existsb]; [split; auto|].
  rewrite andb_true_iff, IH, negb_true_iff, existsb_app', orb_false_iff. cbn [existsb].
  rewrite orb_false_r, andb_true_iff, negb_true_iff, orb_false_iff.
  assert (E : (if list_eq_dec ascii_dec (lower a) (lower x) then true else false) = stringsEqual a x).
  { destruct (list_eq_dec ascii_dec (lower a) (lower x)) as [E|E].
    - symmetry. apply stringsEqual_spec. exact E.
    - symmetry. apply not_true_iff_false. rewrite stringsEqual_spec. exact E. }
  rewrite E. tauto.
Qed.
Lemma existsb_map_fst (l : sections_t) x :
  existsb (fun y => stringsEqual y x) (map fst l) = existsb (fun s => stringsEqual (fst s) x) l.
Proof. induction l as [|a l IH]; cbn; [reflexivity|]. rewrite IH. reflexivity. Qed.

Lemma RInv_new secs name : RInv secs -> wf_name name = true ->
  existsb (fun s => stringsEqual (fst s) name) secs = false -> RInv (secs ++ [(name, kv_empty)]).
Proof.
  intros (H1 & H2 & H3) Hn He. split; [|split].
  - apply Forall_app. split; [exact H1|]. repeat constructor.
  - rewrite map_app. cbn [map]. apply distinct_snoc. split; [exact H2|]. cbn [fst]. rewrite existsb_map_fst. exact He.
  - destruct secs as [|s rest]; cbn.
    + split; [right; exact Hn|constructor].
    + destruct H3 as [A B]. split; [exact A|]. apply Forall_app. split; [exact B|]. repeat constructor. exact Hn.
Qed.

Lemma sec_ok_add s line m : sec_ok s -> no_chars [LF] line = true -> section_header line = None ->
  add (snd s) (c_str line) = Some m -> sec_ok (fst s, m).
Proof.
  intros [A B] Hl Hh. unfold add. rewrite parse_line_c_str. pose proof (parse_line_wf line Hl Hh) as W.
  destruct (parse_line line) as [[k v]|l].
  - destruct (contains (snd s) k) eqn:C; [discriminate|]. intros H. injection H as <-. split; cbn.
    + rewrite forallb_app, A. cbn [forallb]. rewrite W. reflexivity.
    + apply uniq_snoc. split; [exact B|]. intros _. exact C.
  - intros H. injection H as <-. split; cbn.
    + rewrite forallb_app, A. cbn [forallb]. rewrite W. reflexivity.
    + apply uniq_snoc. split; [exact B|]. cbn. congruence.
Qed.

Lemma update_nth_RInv n f secs secs' :
  (forall s s', sec_ok s -> f s = Some s' -> sec_ok s' /\ fst s' = fst s) ->
  RInv secs -> update_nth n f secs = Some (Some secs') -> RInv secs'.
Proof.
  intros Hf (H1 & H2 & H3) Hu.
  assert (G : Forall sec_ok secs' /\ map fst secs' = map fst secs).
  { clear H2 H3. revert secs secs' H1 Hu. induction n as [|n IH]; intros [|s l] secs' H1 Hu; cbn in Hu; try discriminate.
    - destruct (f s) as [s'|] eqn:E; [|discriminate]. injection Hu as <-. inversion H1; subst.
      destruct (Hf s s') as [Q1 Q2]; auto. split; [constructor; auto|]. cbn. rewrite Q2. reflexivity.
    - destruct (update_nth n f l) as [[r|]|] eqn:E; try discriminate. injection Hu as <-. inversion H1; subst.
      destruct (IH l r) as [Q1 Q2]; auto. split; [constructor; auto|]. cbn. rewrite Q2. reflexivity. }
  destruct G as [G1 G2]. split; [exact G1|]. split; [rewrite G2; exact H2|].
  assert (N : forall a b : sections_t, map fst a = map fst b -> names_ok b -> names_ok a).
  { clear. intros [|a al] [|b bl] E; cbn in *; try discriminate; auto. injection E as E1 E2. rewrite E1.
    intros [A B]. split; auto. clear -E2 B. revert bl E2 B. induction al as [|x al IH]; intros [|y bl] E B; cbn in *; try discriminate; constructor.
    - injection E as E1 E2. inversion B; subst. rewrite E1. auto.
    - injection E as E1 E2. inversion B; subst. eauto. }
  eapply N; [exact G2|exact H3].
Qed.

Lemma parse_lines_RInv lines : forall secs i r,
  Forall (fun l => no_chars [LF] l = true) lines -> RInv secs -> parse_lines lines secs i = PRok r -> RInv r.
Proof.
  induction lines as [|l lines IH]; intros secs i r Hl HI H.
  - cbn in H. injection H as <-. exact HI.
  - inversion Hl as [|? ? Hl0 Hl']; subst. cbn [parse_lines] in H.
    destruct (section_header l) as [[|c n]|] eqn:Eh.
    + eapply IH; eauto.
    + destruct (header_wf l (c :: n) Hl0 Eh) as [Hw|Hw]; [discriminate|].
      destruct (last_match secs (c :: n) 0 (-1) <? 0)%Z eqn:El.
      * eapply IH; [exact Hl'| |exact H]. apply RInv_new; auto. apply Z.ltb_lt in El.
        eapply last_match_neg; [|exact El]. lia.
      * eapply IH; eauto.
    + set (p := match secs with [] => ([([], kv_empty)], 0%Z) | _ => (secs, i) end) in *.
      assert (HI' : RInv (fst p)).
      { unfold p. destruct secs; [|exact HI]. split; [repeat constructor|]. split; [reflexivity|]. cbn. auto. }
      destruct p as [secs1 i1]. cbn [fst] in HI'.
      destruct (i1 <? 0)%Z; [discriminate|].
      destruct (update_nth _ _ secs1) as [[secs2|]|] eqn:E; try discriminate.
      eapply IH; [exact Hl'| |exact H]. eapply update_nth_RInv; [|exact HI'|exact E].
      intros s s' Hs Hf. cbv beta in Hf. match type of Hf with (match ?e with _ => _ end = _) => destruct e as [m|] eqn:Ea; [|discriminate Hf] end.
      injection Hf as <-. split; [|reflexivity]. eapply sec_ok_add; eauto.
Qed.

Lemma config_read_wf bytes secs : config_read bytes = PRok secs -> wf_config secs = true.
Proof.
  intros H. apply RInv_wf. eapply parse_lines_RInv; [apply getlines_noLF| |exact H].
  split; [constructor|]. split; [reflexivity|exact I].
Qed.

(** user-level modification of a section *)
Lemma wf_item_key k v : k <> [] -> wf_item (k, v) =
  wf_key k && wf_val v && negb (looks_like_header (k ++ "="%char :: v)).
Proof. destruct k; [congruence|reflexivity]. Qed.

Lemma wf_key_ne k : wf_key k = true -> k <> [].
Proof. intros H ->. discriminate. Qed.

(** keys not starting with '[' are always fine *)
Definition plain_key (k : str) : bool := wf_key k && first_ok (fun c => negb (ceqb c "["%char)) k.
Lemma plain_key_item k v : plain_key k = true -> wf_val v = true -> wf_item (k, v) = true.
Proof.
  intros H Hv. apply andb_true_iff in H as [H1 H2]. rewrite wf_item_key by (apply wf_key_ne; exact H1).
  rewrite H1, Hv. cbn [andb]. apply negb_true_iff. unfold looks_like_header.
  apply first_ok_cons in H2 as (c & r & -> & H2). cbn [app first_ok]. apply negb_true_iff in H2. rewrite H2. reflexivity.
Qed.

(** the key stored in the map may have a different letter case, hence possibly be stored already: the value is
    replaced under the old spelling, which must not look like a header either *)
Lemma tolower_bracket c : tolower c = "["%char -> c = "["%char.
Proof.
  intros H. assert (E : (if ceqb (tolower c) "["%char then ceqb c "["%char else true) = true).
  { apply (char_sweep (fun c => if ceqb (tolower c) "["%char then ceqb c "["%char else true)). vm_compute. reflexivity. }
  rewrite (proj2 (ceqb_eq _ _) H) in E. apply ceqb_eq; exact E.
Qed.

Lemma set_items_wf its k v : forallb wf_item its = true -> plain_key k = true -> wf_val v = true ->
  forallb wf_item (set_items its k v) = true.
Proof.
  intros Hw Hk Hv. induction its as [|it its IH]; cbn [set_items].
  - cbn [forallb]. rewrite plain_key_item by assumption. reflexivity.
  - cbn [forallb] in Hw. apply andb_true_iff in Hw as [H1 H2]. destruct (matches k it) eqn:M.
    + cbn [forallb]. rewrite H2, andb_true_r. destruct it as [k' v']. cbn [fst].
      assert (N : k' <> []) by (intros ->; discriminate).
      rewrite wf_item_key in * by exact N. rewrite !andb_true_iff in H1. destruct H1 as [[H1 _] _].
      rewrite H1, Hv. cbn [andb]. apply negb_true_iff.
      unfold matches in M. cbn [fst] in M. destruct k' as [|c' r']; [congruence|].
      destruct k as [|c r]; [discriminate|]. rewrite stringsEqual_cons in M. apply andb_true_iff in M as [M _].
      apply ceqb_eq in M. unfold plain_key in Hk. apply andb_true_iff in Hk as [_ Hk]. cbn [first_ok] in Hk.
      apply negb_true_iff, ceqb_neq in Hk. unfold looks_like_header. cbn [app first_ok].
      destruct (ceqb c' "["%char) eqn:E; [|reflexivity]. exfalso. apply ceqb_eq in E. subst c'.
      apply Hk. apply tolower_bracket. rewrite <- M. reflexivity.
    + cbn [forallb]. rewrite H1, IH by exact H2. reflexivity.
Qed.

Lemma with_section_in secs name f :
  existsb (fun s => stringsEqual (fst s) name) secs = true -> map fst (with_section secs name f) = map fst secs.
Proof.
  induction secs as [|s rest IH]; cbn; [discriminate|]. destruct (stringsEqual (fst s) name); cbn; [reflexivity|].
  intros H. rewrite IH by exact H. reflexivity.
Qed.
Lemma with_section_new secs name f :
  existsb (fun s => stringsEqual (fst s) name) secs = false -> with_section secs name f = secs ++ [(name, f kv_empty)].
Proof.
  induction secs as [|s rest IH]; cbn; [reflexivity|]. intros H. apply orb_false_iff in H as [-> H].
  rewrite IH by exact H. reflexivity.
Qed.
Lemma with_section_ok secs name f : (forall m, sec_ok ([], m) -> sec_ok ([], f m)) ->
  Forall sec_ok secs -> Forall sec_ok (with_section secs name f).
Proof.
  intros Hf. induction 1 as [|s rest Hs Hr IH]; cbn.
  - constructor; [|constructor]. apply (Hf kv_empty). split; [reflexivity|exact I].
  - destruct (stringsEqual (fst s) name); constructor; auto. apply (Hf (snd s)). exact Hs.
Qed.

Lemma set_in_section_wf secs sec k v :
  wf_config secs = true -> wf_name sec = true -> plain_key k = true -> wf_val v = true ->
  wf_config (with_section secs sec (fun m => set m k v)) = true.
Proof.
  intros H Hs Hk Hv. apply RInv_wf. apply RInv_wf in H as (H1 & H2 & H3).
  assert (A : Forall sec_ok (with_section secs sec (fun m => set m k v))).
  { apply with_section_ok; [|exact H1]. intros m [Q1 Q2]. split; cbn in *; [apply set_items_wf; auto|apply uniq_set; auto]. }
  destruct (existsb (fun s => stringsEqual (fst s) sec) secs) eqn:E.
  - pose proof (with_section_in secs sec (fun m => set m k v) E) as M. split; [exact A|]. split; [rewrite M; exact H2|].
    clear - H3 M. remember (with_section secs sec (fun m => set m k v)) as w. clear Heqw.
    destruct w as [|a al], secs as [|b bl]; cbn in *; try discriminate; auto. injection M as E1 E2. rewrite E1.
    destruct H3 as [P Q]. split; auto. revert bl E2 Q. clear. induction al as [|x al IH]; intros [|y bl] E B; cbn in *; try discriminate; constructor.
    + injection E as E1 E2. inversion B; subst. rewrite E1. auto.
    + injection E as E1 E2. inversion B; subst. eauto.
  - split; [exact A|]. rewrite with_section_new by exact E. split.
    + rewrite map_app. cbn [map fst]. apply distinct_snoc. split; [exact H2|]. rewrite existsb_map_fst. exact E.
    + destruct secs as [|s rest]; cbn.
      * split; [right; exact Hs|constructor].
      * destruct H3 as [P Q]. split; [exact P|]. apply Forall_app. split; [exact Q|]. repeat constructor. exact Hs.
Qed.

Lemma value_of_set secs sec k v sec' k' : Forall sec_ok secs ->
  value_of (with_section secs sec (fun m => set m k v)) sec' k' =
  if stringsEqual sec sec' && same_key k k' then Some v else value_of secs sec' k'.
Proof.
  unfold value_of. induction 1 as [|s rest [Hs1 Hs2] Hr IH]; cbn [with_section findSection].
  - cbn [fst snd]. destruct (stringsEqual sec sec') eqn:E; cbn; [|reflexivity].
    rewrite <- (same_key_matches (k, v) k'). cbn. destruct (same_key k k'); reflexivity.
  - destruct (stringsEqual (fst s) sec) eqn:E; cbn [findSection fst snd].
    + rewrite (stringsEqual_cong _ _ sec' E). destruct (stringsEqual sec sec') eqn:E'; cbn [andb]; [|reflexivity].
      cbn [set items]. rewrite lookup_set by exact Hs2. reflexivity.
    + destruct (stringsEqual (fst s) sec') eqn:E''.
      * destruct (stringsEqual sec sec') eqn:E'; [|reflexivity]. exfalso.
        rewrite stringsEqual_sym in E'. rewrite (stringsEqual_trans _ _ _ E'' E') in E. discriminate.
      * exact IH.
Qed.

Lemma with_section_modified secs sec k v :
  existsb (fun s => modified (snd s)) (with_section secs sec (fun m => set m k v)) = true /\
  (0 <? length (with_section secs sec (fun m => set m k v))) = true.
Proof.
  induction secs as [|s rest [IH1 IH2]]; cbn [with_section]; [split; reflexivity|].
  destruct (stringsEqual (fst s) sec); [split; reflexivity|]. split; [|reflexivity].
  cbn [existsb]. rewrite IH1. apply orb_true_r.
Qed.

(** edit-save-reload *)
Lemma edit_save_reload bytes secs sec k v :
  config_read bytes = PRok secs -> wf_name sec = true -> plain_key k = true -> wf_val v = true ->
  exists r, config_read (config_write (with_section secs sec (fun m => set m k v)) bytes) = PRok r /\
    forall sec' k', value_of r sec' k' =
      if stringsEqual sec sec' && same_key k k' then Some v else value_of secs sec' k'.
Proof.
  intros H Hs Hk Hv. apply config_read_wf in H.
  pose proof (set_in_section_wf secs sec k v H Hs Hk Hv) as W.
  set (secs' := with_section secs sec (fun m => set m k v)) in *.
  exists (reread secs'). split.
  - unfold config_write. destruct (with_section_modified secs sec k v) as [M1 M2]. fold secs' in M1, M2.
    rewrite M1, M2. cbn [andb]. apply config_roundtrip; exact W.
  - intros sec' k'. apply RInv_wf in W as (W1 & W2 & W3). rewrite value_of_reread by exact W2.
    apply value_of_set. apply RInv_wf in H. apply H.
Qed.

(** parsing of a "key = value" line with arbitrary blanks around both *)
Lemma trim_left_app p s : forallb blankc p = true -> first_ok (fun c => negb (blankc c)) s = true ->
  trim_left (p ++ s) = s.
Proof.
  intros Hp Hs. apply first_ok_cons in Hs as (c & r & -> & Hc). unfold trim_left.
  rewrite (find_first_app (fun c => negb (isWS c)) p r c).
  - rewrite skipn_app, skipn_all, Nat.sub_diag. reflexivity.
  - rewrite <- Hp. apply forallb_ext'. intros x. rewrite negb_involutive. reflexivity.
  - exact Hc.
Qed.
Lemma find_last_app_blank p s q : forallb (fun c => negb (p c)) q = true -> find_last p (s ++ q) = find_last p s.
Proof.
  intros H. induction s as [|a s IH]; cbn [app find_last].
  - apply find_last_None in H. exact H.
  - rewrite IH. reflexivity.
Qed.
Lemma trim_right_app s q : forallb blankc q = true -> last_ok (fun c => negb (blankc c)) s = true ->
  trim_right (s ++ q) = s.
Proof.
  intros Hq Hs. apply last_ok_snoc in Hs as (r & c & -> & Hc). unfold trim_right.
  rewrite find_last_app_blank.
  2:{ rewrite <- Hq. apply forallb_ext'. intros x. rewrite negb_involutive. reflexivity. }
  rewrite (find_last_snoc (fun c => negb (isWS c)) r c Hc).
  rewrite !app_length. cbn [length].
  destruct (length r + 1 <? length r + 1 + length q) eqn:E.
  - rewrite firstn_app. rewrite app_length. cbn [length].
    replace (length r + 1 - (length r + 1)) with 0 by lia. cbn [firstn]. rewrite app_nil_r.
    apply firstn_all2. rewrite app_length. cbn. lia.
  - apply Nat.ltb_ge in E. destruct q; [rewrite app_nil_r; reflexivity|cbn in E; lia].
Qed.
Lemma last_ok_app p a b : last_ok p b = true -> last_ok p (a ++ b) = true.
Proof. intros H. apply last_ok_snoc in H as (r & c & -> & H). rewrite app_assoc, last_ok_snoc_iff. exact H. Qed.
Lemma first_ok_app p a b : first_ok p a = true -> first_ok p (a ++ b) = true.
Proof. destruct a; [discriminate|]. auto. Qed.

Lemma parse_line_blanks b1 k b2 b3 v b4 :
  forallb blankc b1 = true -> forallb blankc b2 = true -> forallb blankc b3 = true -> forallb blankc b4 = true ->
  wf_key k = true -> no_chars [NUL] v = true ->
  first_ok (fun c => negb (blankc c)) v = true -> last_ok (fun c => negb (blankc c)) v = true ->
  parse_line (b1 ++ k ++ b2 ++ "="%char :: b3 ++ v ++ b4) = inl (k, v).
Proof.
  intros H1 H2 H3 H4 Hk Hvn Hvf Hvl. unfold wf_key in Hk. apply andb_true_iff in Hk as [Hk Hl].
  apply andb_true_iff in Hk as [Hn Hf].
  assert (BN : forall b, forallb blankc b = true -> ~ In NUL b).
  { intros b Hb Hi. rewrite forallb_forall in Hb. apply Hb in Hi. discriminate. }
  unfold parse_line. rewrite c_str_id.
  2:{ intros Hi. apply in_app_iff in Hi as [Hi|Hi]; [exact (BN _ H1 Hi)|].
      apply in_app_iff in Hi as [Hi|Hi]; [rewrite no_chars_In in Hn; apply (Hn _ Hi); cbn; auto|].
      apply in_app_iff in Hi as [Hi|[Hi|Hi]]; [exact (BN _ H2 Hi)|discriminate|].
      apply in_app_iff in Hi as [Hi|Hi]; [exact (BN _ H3 Hi)|].
      apply in_app_iff in Hi as [Hi|Hi]; [rewrite no_chars_In in Hvn; apply (Hvn _ Hi); cbn; auto|exact (BN _ H4 Hi)]. }
  assert (Hf' : first_ok (fun c => negb (blankc c)) k = true).
  { apply first_ok_cons in Hf as (c & r & -> & Hc). apply andb_true_iff in Hc as [Hc _]. exact Hc. }
  rewrite trim_left_app; [|exact H1|apply first_ok_app; exact Hf'].
  rewrite app_assoc.
  rewrite (find_first_app (fun c => ceqb c "=") (k ++ b2)); [|..|reflexivity].
  2:{ apply forallb_forall. intros x Hx. apply negb_true_iff, ceqb_neq. intros ->.
      apply in_app_iff in Hx as [Hx|Hx].
      - rewrite no_chars_In in Hn. apply (Hn _ Hx). cbn; auto.
      - rewrite forallb_forall in H2. apply H2 in Hx. discriminate. }
  destruct (first_ok_cons _ _ Hf) as (c & r & Ek & Hc).
  assert (C : (0 <? length (k ++ b2)) && negb (match (k ++ b2) ++ "="%char :: b3 ++ v ++ b4 with [] => false | c :: _ => isComment c end) = true).
  { rewrite Ek. cbn [app length]. apply andb_true_iff. split; [reflexivity|].
    apply andb_true_iff in Hc as [_ Hc]. apply negb_true_iff in Hc. apply negb_true_iff. apply not_true_iff_false.
    apply not_true_iff_false in Hc. rewrite mem_In in Hc. unfold isComment. rewrite orb_true_iff, !ceqb_eq.
    intros [->| ->]; apply Hc; cbn; auto. }
  rewrite C. rewrite firstn_app, firstn_all, Nat.sub_diag. cbn [firstn]. rewrite app_nil_r.
  rewrite trim_right_app by assumption.
  rewrite skipn_app, (skipn_all2 (k ++ b2)) by lia. replace (length (k ++ b2) + 1 - length (k ++ b2)) with 1 by lia.
  cbn [skipn app]. rewrite trim_left_app; [|exact H3|apply first_ok_app; exact Hvf].
  rewrite trim_right_app by assumption. reflexivity.
Qed.
