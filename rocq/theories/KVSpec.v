(** Independent specification of the key/value map and of well-formed INI contents. *)
From Verif Require Import StrModel KVModel.

(** operations available to a user of KeyValueMap *)
Inductive kvop := OSet (k v : str) | OUnset (k : str) | OAdd (line : str).

(** the state after a sequence of operations; a throwing [add] leaves the map unchanged
    (utils_config.cpp:46-47 throws before push_back) *)
Definition exec (m : kvmap) (o : kvop) : kvmap :=
  match o with
  | OSet k v => set m k v
  | OUnset k => fst (unset m k)
  | OAdd l => match add m l with Some m' => m' | None => m end
  end.
Definition run (ops : list kvop) : kvmap := fold_left exec ops kv_empty.

(** two keys are the same: non-empty and equal up to letter case *)
Definition lower (s : str) : str := map tolower s.
Definition same_key (k' k : str) : bool :=
  match k' with [] => false | _ => if list_eq_dec ascii_dec (lower k') (lower k) then true else false end.

(** what a history (most recent operation first) says about the value of a key *)
Fixpoint hist (h : list kvop) (k : str) : option str :=
  match h with
  | [] => None
  | OSet k' v :: h' => if same_key k' k then Some v else hist h' k
  | OUnset k' :: h' => if same_key k' k then None else hist h' k
  | OAdd line :: h' =>
    match parse_line line with
    | inl (k', v) => if same_key k' k
                     then match hist h' k with Some old => Some old (* rejected as a duplicate *) | None => Some v end
                     else hist h' k
    | inr _ => hist h' k
    end
  end.

(** the list of keys in order of first insertion, according to the history *)
Definition keys_step (ks : list str) (o : kvop) : list str :=
  match o with
  | OSet [] _ => ks
  | OSet k _ => if existsb (fun k' => same_key k' k) ks then ks else ks ++ [k]
  | OUnset k => filter (fun k' => negb (same_key k' k)) ks
  | OAdd line => match parse_line line with
                 | inl (k, _) => if existsb (fun k' => same_key k' k) ks then ks else ks ++ [k]
                 | inr _ => ks
                 end
  end.
Definition spec_keys (ops : list kvop) : list str := fold_left keys_step ops [].

(** ---- well-formedness of INI contents ---- *)
Definition blankc (c : ascii) : bool := mem c [SP; TAB; LF; CR].
Definition no_chars (bad : str) (s : str) : bool := forallb (fun c => negb (mem c bad)) s.
Definition first_ok (p : ascii -> bool) (s : str) : bool := match s with [] => false | c :: _ => p c end.
Definition last_ok (p : ascii -> bool) (s : str) : bool := first_ok p (rev s).
(** not surrounded by blanks (or nothing but blanks, which the reader does not touch) *)
Definition trimmed (s : str) : bool :=
  forallb blankc s || (first_ok (fun c => negb (blankc c)) s && last_ok (fun c => negb (blankc c)) s).

Definition wf_key (k : str) : bool :=
  no_chars ["="%char; LF; NUL] k &&
  first_ok (fun c => negb (blankc c) && negb (mem c (lit "#;"))) k && last_ok (fun c => negb (blankc c)) k.
Definition wf_val (v : str) : bool := no_chars [LF; NUL] v && trimmed v.
(** a line kept verbatim: blank, or a comment, or a line starting with '=', or a line without '=' *)
Definition wf_verbatim (l : str) : bool :=
  no_chars [LF; CR; NUL] l &&
  (forallb blankc l || first_ok (fun c => mem c (lit "#;=")) l ||
   (first_ok (fun c => negb (blankc c)) l && no_chars ["="%char] l)).
(** a line that looks like a section header *)
Definition looks_like_header (l : str) : bool := first_ok (fun c => ceqb c "["%char) l && mem "]"%char l.
Definition wf_item (it : item) : bool :=
  match fst it with
  | [] => wf_verbatim (snd it) && negb (looks_like_header (snd it))
  | k => wf_key k && wf_val (snd it) && negb (looks_like_header (k ++ "="%char :: snd it))
  end.
Definition wf_name (n : str) : bool :=
  match n with [] => false | _ => no_chars ["]"%char; LF] n && trimmed n end.

Fixpoint distinct (l : list str) : bool :=
  match l with [] => true | x :: l' => negb (existsb (fun y => if list_eq_dec ascii_dec (lower x) (lower y) then true else false) l') && distinct l' end.

Definition wf_map (m : kvmap) : bool := forallb wf_item (items m) && distinct (keys m).

Definition wf_config (secs : sections_t) : bool :=
  distinct (map fst secs) && forallb (fun s => wf_map (snd s)) secs &&
  match secs with
  | [] => true
  | s :: rest => (match fst s with [] => true | n => wf_name n end) && forallb (fun s => wf_name (fst s)) rest
  end.

(** the contents expected after re-reading: sections without any line disappear; a blank line is appended to
    every section but the last if it did not end with one; nothing is marked as modified *)
Definition blank_line : item := ([], []).
Definition ends_blank (its : list item) : bool :=
  match rev its with (k, v) :: _ => match k, v with [], [] => true | _, _ => false end | [] => true end.
Fixpoint reread (secs : sections_t) : sections_t :=
  match secs with
  | [] => []
  | (n, m) :: rest =>
    match items m with
    | [] => reread rest
    | its => (n, KV (if ends_blank its then its else match rest with [] => its | _ => its ++ [blank_line] end) false)
             :: reread rest
    end
  end.
