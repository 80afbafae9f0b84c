(** Round trip of INI files. *)
From Verif Require Import StrModel StrProofs KVModel KVSpec KVProofs.

Lemma no_chars_In bad s : no_chars bad s = true <-> forall c, In c s -> ~ In c bad.
Proof.
  unfold no_chars. rewrite forallb_forall. split; intros H c Hc.
  - specialize (H c Hc). apply negb_true_iff in H. intros Hb. apply mem_In in Hb. congruence.
  - apply negb_true_iff. apply not_true_iff_false. rewrite mem_In. auto.
Qed.
Lemma no_chars_app bad a b : no_chars bad (a ++ b) = no_chars bad a && no_chars bad b.
Proof. apply forallb_app. Qed.

Lemma isWS_blankc c : isWS c = blankc c. Proof. reflexivity. Qed.

Lemma last_ok_snoc p s : last_ok p s = true -> exists r c, s = r ++ [c] /\ p c = true.
Proof.
  unfold last_ok. destruct (rev s) as [|c r] eqn:E; [discriminate|]. cbn. intros H.
  exists (rev r), c. split; auto. rewrite <- (rev_involutive s), E. reflexivity.
Qed.
Lemma first_ok_cons p s : first_ok p s = true -> exists c r, s = c :: r /\ p c = true.
Proof. destruct s as [|c r]; [discriminate|]. cbn. eauto. Qed.

Lemma trim_left_first_ok s : first_ok (fun c => negb (blankc c)) s = true -> trim_left s = s.
Proof. intros H. apply first_ok_cons in H as (c & r & -> & H). unfold trim_left. cbn [find_first]. rewrite isWS_blankc, H. reflexivity. Qed.
Lemma trim_right_last_ok s : last_ok (fun c => negb (blankc c)) s = true -> trim_right s = s.
Proof.
  intros H. apply last_ok_snoc in H as (r & c & -> & H). unfold trim_right.
  rewrite (find_last_snoc (fun c => negb (isWS c)) r c H), app_length. cbn [length].
  rewrite (proj2 (Nat.ltb_ge _ _)) by lia. reflexivity.
Qed.
Lemma trim_left_blank s : forallb blankc s = true -> trim_left s = s.
Proof.
  intros H. unfold trim_left. replace (find_first (fun c => negb (isWS c)) s) with (@None nat); [reflexivity|].
  symmetry. apply find_first_None. rewrite <- H. apply forallb_ext'. intros x. rewrite negb_involutive. reflexivity.
Qed.
Lemma trim_right_blank s : forallb blankc s = true -> trim_right s = s.
Proof.
  intros H. unfold trim_right. replace (find_last (fun c => negb (isWS c)) s) with (@None nat); [reflexivity|].
  symmetry. apply find_last_None. rewrite <- H. apply forallb_ext'. intros x. rewrite negb_involutive. reflexivity.
Qed.
Lemma trim_trimmed s : trimmed s = true -> trim_right (trim_left s) = s.
Proof.
  unfold trimmed. rewrite orb_true_iff, andb_true_iff. intros [H|[H1 H2]].
  - rewrite trim_left_blank, trim_right_blank; auto.
  - rewrite trim_left_first_ok, trim_right_last_ok; auto.
Qed.

Lemma find_first_eq_None s : no_chars ["="%char] s = true -> find_first (fun c => ceqb c "=") s = None.
Proof.
  intros H. apply find_first_None. etransitivity; [|exact H]. apply forallb_ext'. intros x. unfold mem; cbn.
  rewrite orb_false_r. reflexivity.
Qed.

Lemma parse_dump_key k v : wf_key k = true -> wf_val v = true ->
  parse_line (k ++ "="%char :: v) = inl (k, v).
Proof.
  intros Hk Hv. unfold wf_key in Hk. apply andb_true_iff in Hk as [Hk Hl]. apply andb_true_iff in Hk as [Hn Hf].
  unfold wf_val in Hv. apply andb_true_iff in Hv as [Hvn Hvt].
  unfold parse_line.
  assert (Hc : c_str (k ++ "="%char :: v) = k ++ "="%char :: v).
  { apply c_str_id. intros Hi. apply in_app_iff in Hi as [Hi|[Hi|Hi]].
    - rewrite no_chars_In in Hn. apply (Hn NUL Hi). cbn; auto.
    - discriminate.
    - rewrite no_chars_In in Hvn. apply (Hvn NUL Hi). cbn; auto. }
  rewrite Hc. destruct (first_ok_cons _ _ Hf) as (c & r & -> & Hcf).
  apply andb_true_iff in Hcf as [Hb Hm].
  rewrite trim_left_first_ok by exact Hb.
  assert (E : find_first (fun c => ceqb c "=") ((c :: r) ++ "="%char :: v) = Some (length (c :: r))).
  { apply find_first_app; [|reflexivity]. unfold no_chars in Hn. apply forallb_forall. intros x Hx.
    rewrite forallb_forall in Hn. specialize (Hn x Hx). apply negb_true_iff in Hn. apply negb_true_iff.
    cbn in Hn. apply orb_false_iff in Hn as [Hn _]. exact Hn. }
  rewrite E. cbn [length]. cbn [app]. rewrite (proj2 (Nat.ltb_lt _ _)) by lia.
  assert (Hcomm : isComment c = false).
  { apply negb_true_iff in Hm. cbn in Hm. unfold isComment. apply orb_false_iff in Hm as [-> Hm].
    apply orb_false_iff in Hm as [-> Hm]. reflexivity. }
  rewrite Hcomm. cbn [negb andb]. f_equal. f_equal.
  - change (c :: r ++ "="%char :: v) with ((c :: r) ++ "="%char :: v).
    change (S (length r)) with (length (c :: r)). rewrite firstn_app, firstn_all, Nat.sub_diag. cbn [firstn].
    rewrite app_nil_r. apply trim_right_last_ok; exact Hl.
  - change (c :: r ++ "="%char :: v) with ((c :: r) ++ "="%char :: v).
    change (S (length r)) with (length (c :: r)). rewrite skipn_app.
    rewrite (skipn_all2 (c :: r)) by lia.
    replace (length (c :: r) + 1 - length (c :: r)) with 1 by lia. cbn. apply trim_trimmed; exact Hvt.
Qed.

Lemma parse_dump_verbatim l : wf_verbatim l = true -> parse_line l = inr l.
Proof.
  intros H. unfold wf_verbatim in H. apply andb_true_iff in H as [Hn H].
  assert (Hc : c_str l = l).
  { apply c_str_id. intros Hi. rewrite no_chars_In in Hn. apply (Hn NUL Hi). cbn; auto. }
  assert (Hlf : find_first (fun c => mem c [LF; CR]) l = None).
  { apply find_first_None. apply forallb_forall. intros x Hx. apply negb_true_iff. apply not_true_iff_false.
    rewrite mem_In. intros Hi. rewrite no_chars_In in Hn. apply (Hn x Hx). cbn in *. tauto. }
  unfold parse_line. rewrite Hc.
  apply orb_true_iff in H as [H|H]; [apply orb_true_iff in H as [H|H]|].
  - rewrite trim_left_blank by exact H. rewrite Hlf.
    rewrite find_first_eq_None; [reflexivity|]. apply no_chars_In. intros x Hx [<-|[]].
    rewrite forallb_forall in H. apply H in Hx. discriminate.
  - apply first_ok_cons in H as (c & r & -> & H). apply mem_In in H.
    assert (Hnb : blankc c = false). { destruct H as [<-|[<-|[<-|[]]]]; reflexivity. }
    rewrite trim_left_first_ok by (cbn [first_ok]; rewrite Hnb; reflexivity). rewrite Hlf.
    assert (Hcomm : isComment c = true \/ find_first (fun c => ceqb c "=") (c :: r) = Some 0).
    { destruct H as [<-|[<-|[<-|[]]]]; [left|left|right]; reflexivity. }
    destruct Hcomm as [Hcomm|Hcomm]; [|rewrite Hcomm; reflexivity].
    destruct (find_first (fun c => ceqb c "=") (c :: r)); [|reflexivity]. rewrite Hcomm. cbn [negb]. rewrite andb_false_r. reflexivity.
  - apply andb_true_iff in H as [Hf Hr]. 
    rewrite trim_left_first_ok by exact Hf. rewrite Hlf.
    rewrite (find_first_eq_None l Hr). reflexivity.
Qed.

(** a well-formed line is not a section header *)
Lemma not_header_first c r : blankc c = false -> looks_like_header (c :: r) = false -> section_header (c :: r) = None.
Proof.
  intros Hb Hc. unfold section_header. cbn [find_first]. rewrite isWS_blankc, Hb. cbn [negb].
  cbn [nth_error]. unfold looks_like_header in Hc. cbn [first_ok] in Hc.
  destruct (ceqb c "["%char) eqn:E.
  - rewrite andb_true_l in Hc. apply ceqb_eq in E. subst c. cbn [ceqb Ascii.eqb Bool.eqb].
    unfold mem in Hc. cbn [existsb] in Hc. apply orb_false_iff in Hc as [_ Hc].
    replace (find_first (fun c => ceqb c "]") r) with (@None nat); [reflexivity|].
    symmetry. apply find_first_None. apply forallb_forall. intros x Hx. apply negb_true_iff, ceqb_neq. intros ->.
    apply not_true_iff_false in Hc. apply Hc. apply existsb_exists. exists "]"%char. split; [exact Hx|apply ceqb_refl].
  - match goal with |- match ?e with _ => _ end = _ => destruct e; reflexivity end.
Qed.
Lemma not_header_blank s : forallb blankc s = true -> section_header s = None.
Proof.
  intros H. unfold section_header.
  replace (find_first (fun c => negb (isWS c)) s) with (@None nat); [reflexivity|].
  symmetry. apply find_first_None. rewrite <- H. apply forallb_ext'. intros x. rewrite negb_involutive. reflexivity.
Qed.
Lemma not_header_item it : wf_item it = true -> section_header (dump_item it) = None.
Proof.
  destruct it as [k v]. unfold wf_item, dump_item; cbn [fst snd]. destruct k as [|c k].
  - intros H. apply andb_true_iff in H as [H HH]. apply negb_true_iff in HH.
    unfold wf_verbatim in H. apply andb_true_iff in H as [Hn H].
    apply orb_true_iff in H as [H|H]; [apply orb_true_iff in H as [H|H]|].
    + apply not_header_blank; exact H.
    + apply first_ok_cons in H as (c & r & -> & H). apply mem_In in H.
      apply not_header_first; auto. destruct H as [<-|[<-|[<-|[]]]]; reflexivity.
    + apply andb_true_iff in H as [H _]. apply first_ok_cons in H as (c & r & -> & H).
      apply negb_true_iff in H. apply not_header_first; auto.
  - rewrite !andb_true_iff, negb_true_iff. intros [[H _] HH]. unfold wf_key in H. apply andb_true_iff in H as [H _].
    apply andb_true_iff in H as [_ H]. cbn [first_ok] in H. apply andb_true_iff in H as [H1 H2].
    apply negb_true_iff in H1. cbn [app]. apply not_header_first; auto.
Qed.
Lemma parse_item it : wf_item it = true ->
  parse_line (c_str (dump_item it)) = match fst it with [] => inr (snd it) | _ => inl it end.
Proof.
  assert (A : forall l, parse_line (c_str l) = parse_line l).
  { intros l. unfold parse_line. replace (c_str (c_str l)) with (c_str l); [reflexivity|].
    symmetry. apply c_str_id. destruct (c_str_spec l) as (r & _ & H & _). exact H. }
  rewrite A. destruct it as [k v]. unfold wf_item, dump_item; cbn [fst snd]. destruct k as [|c k].
  - rewrite andb_true_iff. intros [H _]. apply parse_dump_verbatim; exact H.
  - rewrite !andb_true_iff. intros [[H1 H2] _]. apply parse_dump_key; auto.
Qed.

Lemma header_name n : wf_name n = true -> section_header ("["%char :: n ++ ["]"%char]) = Some n.
Proof.
  intros H. destruct n as [|c r] eqn:En; [discriminate|]. rewrite <- En in *.
  assert (H' : no_chars ["]"%char; LF] n && trimmed n = true) by (rewrite En in *; exact H).
  apply andb_true_iff in H' as [Hn Ht].
  unfold section_header.
  assert (F1 : find_first (fun c => negb (isWS c)) ("["%char :: n ++ ["]"%char]) = Some 0) by reflexivity.
  assert (F2 : find_first (fun c => ceqb c "]") ("["%char :: n ++ ["]"%char]) = Some (S (length n))).
  { cbn. rewrite find_first_app; [reflexivity| |reflexivity].
    apply forallb_forall. intros x Hx. apply negb_true_iff, ceqb_neq. intros ->.
    rewrite no_chars_In in Hn. apply (Hn _ Hx). cbn; auto. }
  rewrite F1, F2. cbn [nth_error]. rewrite (proj2 (Nat.ltb_lt 0 (S (length n)))) by lia.
  change (ceqb "[" "[") with true. cbn [andb]. f_equal.
  replace (S (length n) - 0 - 1) with (length n) by lia. cbn [plus skipn].
  rewrite firstn_app, firstn_all, Nat.sub_diag. cbn [firstn]. rewrite app_nil_r. apply trim_trimmed; exact Ht.
Qed.

(** getlines *)
Lemma getlines_aux_line cur l rest : no_chars [LF] l = true ->
  getlines_aux cur (l ++ LF :: rest) = (rev cur ++ l) :: getlines_aux [] rest.
Proof.
  revert cur. induction l as [|c l IH]; intros cur H; cbn [app getlines_aux].
  - rewrite ceqb_refl, app_nil_r. reflexivity.
  - unfold no_chars in H. cbn [forallb] in H. apply andb_true_iff in H as [Hc H]. apply negb_true_iff in Hc.
    unfold mem in Hc. cbn [existsb] in Hc. rewrite orb_false_r in Hc. rewrite Hc. rewrite IH by exact H. cbn. rewrite <- app_assoc. reflexivity.
Qed.
Lemma getlines_line l rest : no_chars [LF] l = true -> getlines (l ++ LF :: rest) = l :: getlines rest.
Proof. intros H. unfold getlines. rewrite getlines_aux_line by exact H. reflexivity. Qed.
Lemma getlines_lines ls rest : forallb (no_chars [LF]) ls = true ->
  getlines (flat_map (fun l => l ++ [LF]) ls ++ rest) = ls ++ getlines rest.
Proof.
  induction ls as [|l ls IH]; cbn [flat_map app forallb]; [reflexivity|].
  intros H. apply andb_true_iff in H as [H1 H2]. rewrite <- !app_assoc. cbn [app].
  rewrite getlines_line by exact H1. rewrite IH by exact H2. reflexivity.
Qed.

Lemma no_LF_sub bad s : mem LF bad = true -> no_chars bad s = true -> no_chars [LF] s = true.
Proof.
  intros Hb. apply mem_In in Hb. rewrite !no_chars_In. intros H c Hc [<-|[]]. exact (H _ Hc Hb).
Qed.
Lemma dump_item_noLF it : wf_item it = true -> no_chars [LF] (dump_item it) = true.
Proof.
  destruct it as [k v]. unfold wf_item, dump_item; cbn [fst snd]. destruct k as [|c k].
  - intros H. apply andb_true_iff in H as [H _]. unfold wf_verbatim in H. apply andb_true_iff in H as [H _].
    eapply no_LF_sub; [|exact H]. reflexivity.
  - rewrite !andb_true_iff. intros [[H1 H2] _]. unfold wf_key in H1. apply andb_true_iff in H1 as [H1 _].
    apply andb_true_iff in H1 as [H1 _]. unfold wf_val in H2. apply andb_true_iff in H2 as [H2 _].
    rewrite !no_chars_app. rewrite (no_LF_sub ["="%char; LF; NUL] _ eq_refl H1), (no_LF_sub [LF; NUL] _ eq_refl H2).
    reflexivity.
Qed.

(** lines of a written section *)
Definition blank_after (its : list item) (lastsec : bool) : list str :=
  match last_str (map dump_item its) with [] => [] | _ => if lastsec then [] else [[]] end.
Lemma getlines_section n m lastsec rest :
  items m <> [] -> (n = [] \/ wf_name n = true) -> forallb wf_item (items m) = true ->
  getlines (write_section (n, m) lastsec ++ rest) =
  (match n with [] => [] | _ => ["["%char :: n ++ ["]"%char]] end)
  ++ map dump_item (items m) ++ blank_after (items m) lastsec ++ getlines rest.
Proof.
  intros Hi Hn Hw. unfold write_section, dumpLines. cbn [fst snd].
  destruct (map dump_item (items m)) as [|x xs] eqn:E; [destruct (items m); cbn in E; congruence|].
  unfold blank_after. rewrite E, <- E. clear E x xs.
  assert (HL : forallb (no_chars [LF]) (map dump_item (items m)) = true).
  { apply forallb_forall. intros l Hl. apply in_map_iff in Hl as (it & <- & Hit).
    apply dump_item_noLF. rewrite forallb_forall in Hw. auto. }
  assert (A : getlines ((flat_map (fun l => l ++ [LF]) (map dump_item (items m)) ++
       match last_str (map dump_item (items m)) with [] => [] | _ => if lastsec then [] else [LF] end) ++ rest)
     = map dump_item (items m) ++ (match last_str (map dump_item (items m)) with [] => [] | _ => if lastsec then [] else [[]] end)
       ++ getlines rest).
  { rewrite <- app_assoc. rewrite getlines_lines by exact HL. f_equal.
    destruct (last_str (map dump_item (items m))); [reflexivity|]. destruct lastsec; [reflexivity|].
    change ([LF] ++ rest) with ([] ++ LF :: rest). rewrite getlines_line by reflexivity. reflexivity. }
  destruct n as [|c n'] eqn:En.
  - cbn [app]. exact A.
  - rewrite <- En in *. destruct Hn as [Hn|Hn]; [congruence|].
    assert (Hnl : no_chars [LF] ("["%char :: n ++ ["]"%char]) = true).
    { change ("["%char :: n ++ ["]"%char]) with (["["%char] ++ n ++ ["]"%char]). rewrite !no_chars_app.
      rewrite En in Hn. unfold wf_name in Hn. rewrite <- En in Hn. apply andb_true_iff in Hn as [Hn _].
      rewrite (no_LF_sub ["]"%char; LF] _ eq_refl Hn). reflexivity. }
    rewrite <- (app_assoc (["["%char] ++ _)).
    replace ((["["%char] ++ n ++ ["]"%char; LF])) with (("["%char :: n ++ ["]"%char]) ++ [LF])
      by (cbn; rewrite <- app_assoc; reflexivity).
    rewrite <- (app_assoc _ [LF]). change ([LF] ++ ?x) with (LF :: x).
    rewrite getlines_line by exact Hnl. cbn [app]. f_equal. exact A.
Qed.

(** adding a run of well-formed items to the current (last) section *)
Lemma update_nth_last {A} (acc : list A) x f y :
  f x = Some y -> update_nth (length acc) f (acc ++ [x]) = Some (Some (acc ++ [y])).
Proof. intros H. induction acc as [|a acc IH]; cbn; [rewrite H; reflexivity|]. rewrite IH. reflexivity. Qed.

Lemma uniq_app_mid l it r : uniq (l ++ it :: r) -> fst it <> [] -> existsb (matches (fst it)) l = false.
Proof.
  intros H. assert (uniq (l ++ [it])).
  { clear -H. induction l as [|a l IH]; cbn in *.
    - auto.
    - destruct H as [H1 H2]. split; auto. intros N. specialize (H1 N). rewrite existsb_app' in *. cbn in *.
      apply orb_false_iff in H1 as [-> H1]. apply orb_false_iff in H1 as [-> _]. reflexivity. }
  apply uniq_snoc in H0. tauto.
Qed.

Lemma parse_items its : forall acc n its0 rest,
  forallb wf_item its = true -> uniq (its0 ++ its) ->
  parse_lines (map dump_item its ++ rest) (acc ++ [(n, KV its0 false)]) (Z.of_nat (length acc)) =
  parse_lines rest (acc ++ [(n, KV (its0 ++ its) false)]) (Z.of_nat (length acc)).
Proof.
  induction its as [|it its IH]; intros acc n its0 rest Hw Hu.
  - rewrite app_nil_r. reflexivity.
  - cbn in Hw. apply andb_true_iff in Hw as [Hit Hw].
    cbn [map app parse_lines]. rewrite (not_header_item it Hit).
    destruct (acc ++ [(n, KV its0 false)]) as [|s0 l0] eqn:E; [destruct acc; discriminate|]. rewrite <- E.
    rewrite (proj2 (Z.ltb_ge _ _)) by lia. rewrite Nat2Z.id.
    rewrite (update_nth_last acc (n, KV its0 false) _ (n, KV (its0 ++ [it]) false)).
    2:{ cbn [snd fst]. unfold add. rewrite (parse_item it Hit). pose proof (uniq_app_mid _ _ _ Hu) as Q.
        destruct it as [k v]. cbn [fst snd] in *.
        destruct k as [|c k]; [reflexivity|]. unfold contains. cbn [items].
        rewrite Q by discriminate. reflexivity. }
    rewrite IH; [| exact Hw | rewrite <- app_assoc; exact Hu].
    rewrite <- app_assoc. reflexivity.
Qed.

Lemma last_match_none l name i a :
  existsb (fun s => stringsEqual (fst s) name) l = false -> last_match l name i a = a.
Proof.
  revert i. induction l as [|s l IH]; intros i H; [reflexivity|]. cbn in *.
  apply orb_false_iff in H as [-> H]. auto.
Qed.

Lemma write_sections_cons s rest :
  write_sections (s :: rest) = write_section s (match rest with [] => true | _ => false end) ++ write_sections rest.
Proof. destruct rest; cbn; [rewrite app_nil_r; reflexivity|reflexivity]. Qed.

Definition reread_items (its : list item) (lastsec : bool) : list item :=
  if ends_blank its then its else if lastsec then its else its ++ [blank_line].

Lemma dump_item_nil it : dump_item it = [] <-> it = blank_line.
Proof.
  destruct it as [k v]. unfold dump_item, blank_line; cbn. destruct k as [|c k]; cbn.
  - split; [intros ->; reflexivity|congruence].
  - split; discriminate.
Qed.
Lemma last_str_snoc l x : last_str (l ++ [x]) = x.
Proof. unfold last_str. apply last_last. Qed.
Lemma blank_after_spec its lastsec : its <> [] ->
  map dump_item its ++ blank_after its lastsec = map dump_item (reread_items its lastsec).
Proof.
  intros H. destruct (exists_last H) as (l & it & ->). unfold blank_after, reread_items, ends_blank.
  rewrite map_app. cbn [map]. rewrite last_str_snoc, rev_app_distr. cbn [rev app].
  destruct it as [k v]. destruct (dump_item (k, v)) as [|c r] eqn:E.
  - apply dump_item_nil in E. injection E as -> ->. rewrite app_nil_r, map_app. reflexivity.
  - assert (E' : match k, v with [], [] => true | _, _ => false end = false).
    { destruct k; [|reflexivity]. destruct v; [discriminate|reflexivity]. }
    rewrite E'. destruct lastsec; cbn; rewrite ?app_nil_r, ?map_app; cbn; rewrite E; reflexivity.
Qed.

Lemma uniq_reread its b : uniq its -> uniq (reread_items its b).
Proof.
  intros H. unfold reread_items. destruct (ends_blank its); [exact H|]. destruct b; [exact H|].
  apply uniq_snoc. split; [exact H|]. cbn. congruence.
Qed.
Lemma wf_reread its b : forallb wf_item its = true -> forallb wf_item (reread_items its b) = true.
Proof.
  intros H. unfold reread_items. destruct (ends_blank its); [exact H|]. destruct b; [exact H|].
  rewrite forallb_app, H. reflexivity.
Qed.

Definition sec_ok (s : str * kvmap) : Prop := forallb wf_item (items (snd s)) = true /\ uniq (items (snd s)).

Lemma parse_start lines i : match lines with [] => False | l :: _ => section_header l = None end ->
  parse_lines lines [] i = parse_lines lines [([], kv_empty)] 0.
Proof. destruct lines as [|l ls]; [tauto|]. intros H. cbn [parse_lines]. rewrite H. reflexivity. Qed.

Lemma distinct_cons x l : distinct (x :: l) = true ->
  distinct l = true /\ forall y, In y l -> stringsEqual x y = false.
Proof.
  cbn. rewrite andb_true_iff, negb_true_iff. intros [H1 H2]. split; auto. intros y Hy.
  apply not_true_iff_false. rewrite stringsEqual_spec. intros E.
  apply not_true_iff_false in H1. apply H1. apply existsb_exists. exists y. split; auto.
  unfold lower. rewrite E. destruct (list_eq_dec ascii_dec _ _); congruence.
Qed.

Lemma reread_cons n m rest : items m <> [] ->
  reread ((n, m) :: rest) = (n, KV (reread_items (items m) (match rest with [] => true | _ => false end)) false) :: reread rest.
Proof.
  intros H. cbn. destruct (items m) as [|a l] eqn:E; [congruence|]. unfold reread_items.
  destruct (ends_blank (a :: l)); [reflexivity|]. destruct rest; reflexivity.
Qed.

Lemma parse_written secs : forall acc i,
  Forall sec_ok secs -> distinct (map fst secs) = true ->
  (forall s, In s secs -> existsb (fun a => stringsEqual (fst a) (fst s)) acc = false) ->
  (match secs with [] => True | s :: rest => ((fst s = [] /\ acc = []) \/ wf_name (fst s) = true) /\
                                             Forall (fun s => wf_name (fst s) = true) rest end) ->
  parse_lines (getlines (write_sections secs)) acc i = PRok (acc ++ reread secs).
Proof.
  induction secs as [|[n m] rest IH]; intros acc i Hok Hd Hacc Hn.
  - cbn. rewrite app_nil_r. reflexivity.
  - rewrite write_sections_cons. set (b := match rest with [] => true | _ => false end).
    inversion Hok as [|? ? [Hw Hu] Hok']; subst. cbn [snd] in *. destruct Hn as [Hn1 Hn2]. cbn [fst] in *.
    cbn [map] in Hd. apply distinct_cons in Hd as [Hd1 Hd2].
    destruct (items m) as [|it0 its0] eqn:Em.
    + (* nothing written *)
      unfold write_section, dumpLines. cbn [snd]. rewrite Em. cbn [map app].
      replace (reread ((n, m) :: rest)) with (reread rest) by (cbn; rewrite Em; reflexivity).
      apply IH; auto.
      * intros s Hs. apply Hacc. right; exact Hs.
      * destruct rest as [|s' r']; [exact I|]. inversion Hn2; subst. auto.
    + assert (Hne : items m <> []) by congruence. rewrite <- Em in Hw, Hu.
      rewrite getlines_section by (auto; destruct Hn1 as [[? _]|?]; auto).
      rewrite (app_assoc (map dump_item (items m))), blank_after_spec by exact Hne.
      set (its := reread_items (items m) b).
      rewrite reread_cons by exact Hne. fold b. fold its.
      assert (Hits : its <> []).
      { unfold its, reread_items. rewrite Em. destruct (ends_blank _); [discriminate|]. destruct b; discriminate. }
      assert (Hw' : forallb wf_item its = true) by (apply wf_reread; exact Hw).
      assert (Hu' : uniq its) by (apply uniq_reread; exact Hu).
      assert (Hcont : forall acc', (forall s, In s rest -> existsb (fun a => stringsEqual (fst a) (fst s)) acc' = false) ->
         parse_lines (map dump_item its ++ getlines (write_sections rest)) (acc' ++ [(n, kv_empty)]) (Z.of_nat (length acc'))
         = PRok (acc' ++ (n, KV its false) :: reread rest)).
      { intros acc' Ha'. unfold kv_empty. rewrite parse_items by auto. cbn [app].
        rewrite IH; auto.
        - rewrite <- app_assoc. reflexivity.
        - intros s Hs. rewrite existsb_app'. rewrite (Ha' s Hs). cbn. rewrite orb_false_r.
          apply Hd2. apply in_map; exact Hs.
        - destruct rest as [|s' r']; [exact I|]. inversion Hn2; subst. auto. }
      destruct n as [|c n'] eqn:En.
      * destruct Hn1 as [[_ ->]|Hn1]; [|discriminate]. cbn [app].
        rewrite parse_start.
        -- apply (Hcont []). intros s Hs. reflexivity.
        -- destruct its as [|x xs]; [congruence|]. cbn. apply not_header_item. cbn in Hw'.
           apply andb_true_iff in Hw'; tauto.
      * rewrite <- En in *. destruct Hn1 as [[Hn1 _]|Hn1]; [congruence|].
        cbn [app parse_lines]. rewrite header_name by exact Hn1.
        replace (match n with [] => parse_lines (map dump_item its ++ getlines (write_sections rest)) acc i | _ => _ end)
        with (let j := last_match acc n 0 (-1) in if (j <? 0)%Z then parse_lines (map dump_item its ++ getlines (write_sections rest)) (acc ++ [(n, kv_empty)]) (Z.of_nat (length (acc ++ [(n, kv_empty)])) - 1) else parse_lines (map dump_item its ++ getlines (write_sections rest)) acc j)
          by (rewrite En; reflexivity). cbv zeta.
        rewrite last_match_none by (apply (Hacc (n, m)); left; reflexivity).
        cbn [Z.ltb Z.compare]. rewrite app_length. cbn [length].
        replace (Z.of_nat (length acc + 1) - 1)%Z with (Z.of_nat (length acc)) by lia.
        apply Hcont. intros s Hs. apply Hacc. right; exact Hs.
Qed.

Lemma wf_config_parts secs : wf_config secs = true ->
  Forall sec_ok secs /\ distinct (map fst secs) = true /\
  (match secs with [] => True | s :: rest => ((fst s = [] /\ True) \/ wf_name (fst s) = true) /\
                                             Forall (fun s => wf_name (fst s) = true) rest end).
Proof.
  unfold wf_config. rewrite !andb_true_iff. intros [[H1 H2] H3]. split; [|split]; auto.
  - apply Forall_forall. intros s Hs. rewrite forallb_forall in H2. specialize (H2 s Hs).
    unfold wf_map in H2. apply andb_true_iff in H2 as [H2 H4]. split; auto. apply keys_distinct_items. exact H4.
  - destruct secs as [|s rest]; [exact I|]. apply andb_true_iff in H3 as [H3 H4]. split.
    + destruct (fst s); auto.
    + apply Forall_forall. rewrite forallb_forall in H4. exact H4.
Qed.

Lemma config_roundtrip secs : wf_config secs = true ->
  config_read (write_sections secs) = PRok (reread secs).
Proof.
  intros H. apply wf_config_parts in H as (H1 & H2 & H3). unfold config_read.
  rewrite (parse_written secs [] (-1) H1 H2); [reflexivity|reflexivity|].
  destruct secs; [exact I|]. destruct H3 as [[[A _]|A] B]; auto.
Qed.

(** what matters to users: values and section order *)
Lemma lookup_reread its b k : lookup_items (reread_items its b) k = lookup_items its k.
Proof.
  unfold reread_items. destruct (ends_blank its); [reflexivity|]. destruct b; [reflexivity|].
  rewrite lookup_app. cbn. destruct (lookup_items its k); reflexivity.
Qed.
Definition value_of (secs : sections_t) (sec key : str) : option str :=
  match findSection secs sec with Some m => lookup_items (items m) key | None => None end.

Lemma findSection_In secs n m : distinct (map fst secs) = true -> In (n, m) secs -> findSection secs n = Some m.
Proof.
  induction secs as [|s rest IH]; [intros _ []|]. intros Hd Hi. cbn [map] in Hd. apply distinct_cons in Hd as [Hd1 Hd2].
  cbn. destruct Hi as [->|Hi].
  - cbn. rewrite stringsEqual_refl. reflexivity.
  - rewrite Hd2; auto. apply (in_map fst) in Hi. exact Hi.
Qed.

Lemma findSection_none_reread secs sec :
  existsb (fun s => stringsEqual (fst s) sec) secs = false -> findSection (reread secs) sec = None.
Proof.
  induction secs as [|[n m] rest IH]; [reflexivity|]. intros H. cbn in H. apply orb_false_iff in H as [H1 H2].
  destruct (items m) eqn:E.
  - cbn. rewrite E. auto.
  - rewrite reread_cons by congruence. cbn. rewrite H1. auto.
Qed.
Lemma value_of_reread secs sec key : distinct (map fst secs) = true ->
  value_of (reread secs) sec key = value_of secs sec key.
Proof.
  unfold value_of. induction secs as [|[n m] rest IH]; [reflexivity|].
  cbn [map]. intros H. apply distinct_cons in H as [H1 H2]. specialize (IH H1).
  destruct (items m) eqn:E.
  - cbn [reread]. rewrite E. cbn [findSection fst snd]. destruct (stringsEqual n sec) eqn:Q; [|exact IH].
    rewrite E. cbn [lookup_items].
    rewrite findSection_none_reread; [reflexivity|].
    apply not_true_iff_false. intros X. apply existsb_exists in X as (s & Hs & Hx).
    specialize (H2 (fst s) (in_map fst _ _ Hs)). cbn [fst] in H2. cbn beta in Hx.
    pose proof (stringsEqual_cong n sec (fst s) Q) as Q2. rewrite (stringsEqual_sym sec) in Q2.
    assert (H2' : stringsEqual n (fst s) = false) by exact H2.
    assert (Hx' : stringsEqual (fst s) sec = true) by exact Hx. congruence.
  - rewrite reread_cons by congruence. cbn [findSection fst snd].
    destruct (stringsEqual n sec) eqn:Q; [|exact IH]. cbn [items]. apply lookup_reread.
Qed.

Lemma listSections_reread secs :
  listSections (reread secs) = map fst (filter (fun s => match items (snd s) with [] => false | _ => true end) secs).
Proof.
  induction secs as [|[n m] rest IH]; [reflexivity|].
  destruct (items m) eqn:E.
  - cbn [reread filter snd]. rewrite E. exact IH.
  - rewrite reread_cons by congruence. cbn [filter snd]. rewrite E. cbn. f_equal. exact IH.
Qed.

(** stability: rewriting the re-read configuration gives the same bytes *)
Lemma ends_blank_reread its b : its <> [] -> ends_blank (reread_items its b) = ends_blank its || negb b.
Proof.
  intros H. unfold reread_items. destruct (ends_blank its) eqn:E; [exact E|].
  destruct b; [exact E|]. unfold ends_blank. rewrite rev_app_distr. reflexivity.
Qed.
Lemma reread_items_idem its b b' : its <> [] -> (b = true -> b' = true) ->
  reread_items (reread_items its b) b' = reread_items its b.
Proof.
  intros H Hb. unfold reread_items at 1. rewrite ends_blank_reread by exact H.
  destruct (ends_blank its) eqn:E; cbn; [reflexivity|]. destruct b; cbn; [|reflexivity]. rewrite Hb; auto.
Qed.
Lemma reread_idem secs : reread (reread secs) = reread secs.
Proof.
  induction secs as [|[n m] rest IH]; [reflexivity|].
  destruct (items m) as [|a l] eqn:E.
  - cbn. rewrite E. exact IH.
  - rewrite reread_cons by congruence. rewrite reread_cons.
    + rewrite IH. cbn [items]. rewrite reread_items_idem; [reflexivity|congruence|].
      destruct rest; [reflexivity|discriminate].
    + cbn. unfold reread_items. rewrite E. destruct (ends_blank _); [discriminate|]. destruct rest; discriminate.
Qed.

(** no undefined behaviour for any file content *)
Lemma update_nth_ok {A} n (f : A -> option A) l : n < length l -> update_nth n f l <> None.
Proof.
  revert l. induction n as [|n IH]; intros [|x l] H; cbn in *; try lia.
  - destruct (f x); discriminate.
  - specialize (IH l ltac:(lia)). destruct (update_nth n f l) as [[r|]|]; congruence.
Qed.
Lemma update_nth_length {A} n (f : A -> option A) l l' : update_nth n f l = Some (Some l') -> length l' = length l.
Proof.
  revert l l'. induction n as [|n IH]; intros [|x l] l' H; cbn in *; try discriminate.
  - destruct (f x); [|discriminate]. injection H as <-. reflexivity.
  - destruct (update_nth n f l) as [[r|]|] eqn:E; try discriminate. injection H as <-. cbn. f_equal. eauto.
Qed.
Lemma last_match_bound l name i a :
  (last_match l name i a = a \/ i <= last_match l name i a < i + Z.of_nat (length l))%Z.
Proof.
  revert i a. induction l as [|s l IH]; intros i a; cbn [last_match length]; [left; reflexivity|].
  destruct (IH (i + 1)%Z (if stringsEqual (fst s) name then i else a)) as [->|H]; [|right; lia].
  destruct (stringsEqual (fst s) name); [right; lia|left; reflexivity].
Qed.
Lemma parse_lines_no_ub lines : forall secs i,
  (secs = [] \/ (0 <= i < Z.of_nat (length secs))%Z) -> parse_lines lines secs i <> PRub.
Proof.
  induction lines as [|l lines IH]; intros secs i H; [discriminate|].
  cbn [parse_lines]. destruct (section_header l) as [[|c n]|].
  - apply IH; exact H.
  - destruct (last_match_bound secs (c :: n) 0 (-1)) as [E|E].
    + rewrite E. cbn [Z.ltb Z.compare]. apply IH. right. rewrite app_length. cbn [length]. lia.
    + rewrite (proj2 (Z.ltb_ge _ _)) by lia. apply IH. right. lia.
  - assert (G : forall s1 i1, (0 <= i1 < Z.of_nat (length s1))%Z ->
      (if (i1 <? 0)%Z then PRub else
       match update_nth (Z.to_nat i1) (fun s => match add (snd s) (c_str l) with Some m => Some (fst s, m) | None => None end) s1 with
       | None => PRub | Some None => PRthrow | Some (Some s2) => parse_lines lines s2 i1 end) <> PRub).
    { intros s1 i1 Hi. rewrite (proj2 (Z.ltb_ge _ _)) by lia.
      destruct (update_nth (Z.to_nat i1) _ s1) as [[s2|]|] eqn:E.
      - apply IH. right. rewrite (update_nth_length _ _ _ _ E). exact Hi.
      - discriminate.
      - exfalso. revert E. apply update_nth_ok. lia. }
    destruct secs as [|s0 ss]; apply G; [cbn; lia|]. destruct H as [H|H]; [discriminate|exact H].
Qed.
Lemma config_read_no_ub bytes : config_read bytes <> PRub.
Proof. apply parse_lines_no_ub. left; reflexivity. Qed.

(** the empty-name section created after others is merged into the previous section *)
Definition bad_cfg : sections_t :=
  [(lit "sec", KV [(lit "a", lit "1")] true); ([], KV [(lit "b", lit "2")] true)].
Lemma bad_cfg_refuted :
  value_of bad_cfg [] (lit "b") = Some (lit "2") /\
  exists r, config_read (config_write bad_cfg []) = PRok r /\ value_of r [] (lit "b") = None
            /\ value_of r (lit "sec") (lit "b") = Some (lit "2").
Proof. split; [vm_compute; reflexivity|]. eexists. split; [vm_compute; reflexivity|]. split; vm_compute; reflexivity. Qed.
