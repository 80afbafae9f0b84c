(** Properties C01-C03 and the string half of C04.  Only statements; proofs are in *Proofs.v. *)
From Verif Require Import StrModel StrProofs KVModel KVSpec KVProofs ConfigProofs ConfigProofs2.

(** C01: for any history of operations, a lookup returns the value that the history says is current. *)
Theorem C01_get_returns_latest : forall (ops : list kvop) (k dflt : str),
  getString (run ops) k dflt = match hist (rev ops) k with Some v => v | None => dflt end.
Proof. exact getString_run. Qed.
Print Assumptions C01_get_returns_latest.

Theorem C01_contains_iff_present : forall (ops : list kvop) (k : str),
  contains (run ops) k = match hist (rev ops) k with Some _ => true | None => false end.
Proof. exact contains_run. Qed.
Print Assumptions C01_contains_iff_present.

(** the key and value recorded by adding a line "key = value" are independent of the blanks around them *)
Theorem C01_add_line_parsing : forall b1 k b2 b3 v b4 : str,
  forallb blankc b1 = true -> forallb blankc b2 = true -> forallb blankc b3 = true -> forallb blankc b4 = true ->
  wf_key k = true -> no_chars [NUL] v = true ->
  first_ok (fun c => negb (blankc c)) v = true -> last_ok (fun c => negb (blankc c)) v = true ->
  parse_line (b1 ++ k ++ b2 ++ "="%char :: b3 ++ v ++ b4) = inl (k, v).
Proof. exact parse_line_blanks. Qed.
Print Assumptions C01_add_line_parsing.

Theorem C01_add_line_verbatim : forall l : str, wf_verbatim l = true -> parse_line l = inr l.
Proof. exact parse_dump_verbatim. Qed.
Print Assumptions C01_add_line_verbatim.

(** keys are listed in the order of first insertion, without case-insensitive duplicates *)
Theorem C01_keys_in_insertion_order : forall ops : list kvop, keys (run ops) = spec_keys ops.
Proof. exact keys_run. Qed.
Print Assumptions C01_keys_in_insertion_order.

Theorem C01_keys_distinct : forall ops : list kvop, distinct (keys (run ops)) = true.
Proof. exact keys_distinct. Qed.
Print Assumptions C01_keys_distinct.

(** comments and other verbatim lines are not affected by setting or removing keys *)
Theorem C01_comments_kept : forall (m : kvmap) (k v : str), k <> [] ->
  verbatim (set m k v) = verbatim m /\ verbatim (fst (unset m k)) = verbatim m.
Proof. exact (fun m k v H => conj (verbatim_set m k v H) (verbatim_unset m k)). Qed.
Print Assumptions C01_comments_kept.

Example C01_example :
  let ops := [OSet (lit "Mass") (lit "1"); OAdd (lit "  rad = 2 3 "); OSet (lit "MASS") (lit "4"); OUnset (lit "RAD");
              OAdd (lit "mass=9"); OSet (lit "rad") (lit "5"); OAdd (lit "# x=1")] in
  getString (run ops) (lit "mAss") [] = lit "4" /\ getString (run ops) (lit "RAD") [] = lit "5" /\
  keys (run ops) = [lit "Mass"; lit "rad"] /\ dumpLines (run ops) = [lit "Mass=4"; lit "rad=5"; lit "# x=1"].
Proof. vm_compute. repeat split; reflexivity. Qed.

(** two strings are the same for the library iff they agree after lower-casing *)
Theorem C01_stringsEqual : forall s1 s2 : str, stringsEqual s1 s2 = true <-> map tolower s1 = map tolower s2.
Proof. exact stringsEqual_spec. Qed.
Print Assumptions C01_stringsEqual.
(** the overload taking a C string agrees with the other one and never reads past the terminator *)
Theorem C01_stringsEqual_cstring : forall s1 s2 junk : str, ~ In NUL s2 ->
  stringsEqualC s1 (Some (s2 ++ NUL :: junk)) = Some (stringsEqual s1 s2).
Proof. exact stringsEqualC_spec. Qed.
Print Assumptions C01_stringsEqual_cstring.

(** C02: writing and re-reading any well-formed configuration *)
Theorem C02_ini_roundtrip : forall secs : sections_t, wf_config secs = true ->
  exists r, config_read (write_sections secs) = PRok r /\
    (forall sec key, value_of r sec key = value_of secs sec key) /\
    listSections r = map fst (filter (fun s => match items (snd s) with [] => false | _ => true end) secs) /\
    r = reread secs /\ config_read (write_sections r) = PRok r.
Proof.
  exact (fun secs H =>
    let P := proj1 (proj2 (wf_config_parts secs H)) in
    ex_intro _ (reread secs)
      (conj (config_roundtrip secs H)
      (conj (fun sec key => value_of_reread secs sec key P)
      (conj (listSections_reread secs)
      (conj eq_refl
        (eq_trans (config_roundtrip (reread secs) (config_read_wf _ _ (config_roundtrip secs H)))
                  (f_equal PRok (reread_idem secs)))))))).
Qed.
Print Assumptions C02_ini_roundtrip.

(** every file that can be read at all yields a well-formed configuration, so the above applies to it *)
Theorem C02_read_is_wellformed : forall bytes secs, config_read bytes = PRok secs -> wf_config secs = true.
Proof. exact config_read_wf. Qed.
Print Assumptions C02_read_is_wellformed.

(** reading never has undefined behaviour, whatever the bytes *)
Theorem C02_read_no_ub : forall bytes, config_read bytes <> PRub.
Proof. exact config_read_no_ub. Qed.
Print Assumptions C02_read_no_ub.

(** open a file, set one value, close, open again: exactly that value has changed *)
Theorem C02_edit_save_reload : forall bytes secs sec k v,
  config_read bytes = PRok secs -> wf_name sec = true -> plain_key k = true -> wf_val v = true ->
  exists r, config_read (config_write (with_section secs sec (fun m => set m k v)) bytes) = PRok r /\
    forall sec' k', value_of r sec' k' =
      if stringsEqual sec sec' && same_key k k' then Some v else value_of secs sec' k'.
Proof. exact edit_save_reload. Qed.
Print Assumptions C02_edit_save_reload.

Definition C02_demo_file : str :=
  lit "# model" ++ [LF] ++ lit "[Potential disk]" ++ [LF] ++ lit "type = Disk " ++ [LF] ++ lit "mass=1" ++ [LF; LF] ++
  lit "  [ Bulge ]" ++ [LF] ++ lit "; old=1" ++ [LF] ++ lit "Gamma=1.5".
Example C02_example :
  match config_read C02_demo_file with
  | PRok secs => wf_config secs = true /\ listSections secs = [[]; lit "Potential disk"; lit "Bulge"] /\
                 value_of secs (lit "BULGE") (lit "gamma") = Some (lit "1.5") /\
                 wf_name (lit "Halo") = true /\ plain_key (lit "scaleRadius") = true /\ wf_val (lit "10 20") = true
  | _ => False end.
Proof. vm_compute. repeat split; reflexivity. Qed.

(** without the restriction on section names the round trip is false of the code: an unnamed section created after
    a named one loses its entries to the latter *)
Theorem C02_unnamed_section_refuted : exists secs sec key v,
  forallb (fun s => wf_map (snd s)) secs = true /\ distinct (map fst secs) = true /\
  value_of secs sec key = Some v /\
  exists r, config_read (config_write secs []) = PRok r /\ value_of r sec key = None.
Proof.
  exact (ex_intro _ bad_cfg (ex_intro _ [] (ex_intro _ (lit "b") (ex_intro _ (lit "2")
   (conj eq_refl (conj eq_refl (conj eq_refl
      (match proj2 bad_cfg_refuted with ex_intro _ r (conj A (conj B _)) => ex_intro _ r (conj A B) end)))))))).
Qed.
Print Assumptions C02_unnamed_section_refuted.

(** C03: the tokenizer *)
Theorem C03_split_is_tokenisation : forall src delim : str,
  exists l, splitString src delim = SplitOk l /\ Tokens (fun c => mem c delim) src l /\
    (forall l', Tokens (fun c => mem c delim) src l' -> l' = l) /\
    Forall (fun t => t <> [] /\ forallb (fun c => negb (mem c delim)) t = true) l /\
    concat l = filter (fun c => negb (mem c delim)) src.
Proof.
  exact (fun src delim => match splitString_spec src delim with ex_intro _ l (conj A B) =>
    ex_intro _ l (conj A (conj B (conj (fun l' H => Tokens_unique _ _ _ _ H B) (Tokens_props _ _ _ B)))) end).
Qed.
Print Assumptions C03_split_is_tokenisation.
Example C03_example : splitString (lit ", a,,bc  d") (lit ", ") = SplitOk [lit "a"; lit "bc"; lit "d"].
Proof. vm_compute. reflexivity. Qed.

Theorem C03_endsWith : forall s e : str, endsWithStr s e = true <-> exists p, s = p ++ e.
Proof. exact endsWithStr_spec. Qed.
Print Assumptions C03_endsWith.

(** C04, boolean half *)
Theorem C04_toBool_language : forall (s : str) (b : bool), toBool s = Some b <->
  exists ws r, s = ws ++ r /\ Forall blank ws /\ (if b then true_start r else false_start r).
Proof. exact toBool_spec. Qed.
Print Assumptions C04_toBool_language.
Example C04_toBool_example : toBool (lit "  Yes") = Some true /\ toBool [] = Some false /\ toBool (lit "maybe") = None.
Proof. vm_compute. auto. Qed.
