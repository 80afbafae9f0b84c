(** Model of KeyValueMap and ConfigFile (/repo/src/utils_config.cpp, utils_config.h). *)
From Verif Require Export StrModel.

(** utils_config.h:180-181: items and the [modified] flag *)
Definition item := (str * str)%type.
Record kvmap := KV { items : list item; modified : bool }.
Definition kv_empty : kvmap := KV [] false.

(** "if(indx!=npos) buffer.erase(0,indx)" utils_config.cpp:27-29 and 38-40 (the extra test indx>0 is
    immaterial); a string consisting only of blanks is left alone *)
Definition trim_left (s : str) : str :=
  match find_first (fun c => negb (isWS c)) s with Some i => skipn i s | None => s end.
(** utils_config.cpp:35-37, 41-43: "if(indx!=npos && indx+1<size) erase(indx+1)" *)
Definition trim_right (s : str) : str :=
  match find_last (fun c => negb (isWS c)) s with
  | Some i => if (i + 1 <? length s) then firstn (i + 1) s else s
  | None => s
  end.

(** utils_config.cpp:59-65 contains *)
Definition matches (k : str) (it : item) : bool :=
  match fst it with [] => false | _ => stringsEqual (fst it) k end.
Definition contains (m : kvmap) (k : str) : bool := existsb (matches k) (items m).

(** first-match lookup shared by getString (utils_config.cpp:67-73) *)
Fixpoint lookup_items (l : list item) (k : str) : option str :=
  match l with
  | [] => None
  | it :: l' => if matches k it then Some (snd it) else lookup_items l' k
  end.
Definition getString (m : kvmap) (k dflt : str) : str :=
  match lookup_items (items m) k with Some v => v | None => dflt end.

(** utils_config.cpp:75-90 getStringAlt; None = throws *)
Definition getStringAlt (m : kvmap) (k1 k2 dflt : str) : option str :=
  if contains m k1 then (if contains m k2 then None else Some (getString m k1 []))
  else (if contains m k2 then Some (getString m k2 []) else Some dflt).

(** utils_config.cpp:118-121 getBool; outer None = throws *)
Definition getBool (m : kvmap) (k : str) (d : bool) : option bool :=
  toBool (c_str (getString m k (if d then lit "True" else lit "False"))).

(** utils_config.cpp:24-57 KeyValueMap::add(const char* ), first half: classification of a line.
    Inl = (key,value) entry, Inr = verbatim line *)
Definition parse_line (line : str) : (item + str) :=
  let buffer := trim_left (c_str line) in
  match find_first (fun c => ceqb c "="%char) buffer with
  | Some indx =>
    if (0 <? indx) && negb (match buffer with [] => false | c :: _ => isComment c end) then
      let key := firstn indx buffer in
      let rest := skipn (indx + 1) buffer in
      inl (trim_right key, trim_right (trim_left rest))
    else inr (match find_first (fun c => mem c [LF; CR]) buffer with
              | None => buffer | Some j => firstn j buffer end)
  | None => inr (match find_first (fun c => mem c [LF; CR]) buffer with
              | None => buffer | Some j => firstn j buffer end)
  end.

(** utils_config.cpp:24-57 add; None = throws on a duplicate key *)
Definition add (m : kvmap) (line : str) : option kvmap :=
  match parse_line line with
  | inl (key, v) => if contains m key then None else Some (KV (items m ++ [(key, v)]) (modified m))
  | inr l => Some (KV (items m ++ [([], l)]) (modified m))
  end.

(** utils_config.cpp:139-148 set(key, string) *)
Fixpoint set_items (l : list item) (k v : str) : list item :=
  match l with
  | [] => [(k, v)]
  | it :: l' => if matches k it then (fst it, v) :: l' else it :: set_items l' k v
  end.
Definition set (m : kvmap) (k v : str) : kvmap := KV (set_items (items m) k v) true.

(** utils_config.cpp:175-184 unset; second component: the returned flag *)
Fixpoint unset_items (l : list item) (k : str) : list item * bool :=
  match l with
  | [] => ([], false)
  | it :: l' => if matches k it then (l', true)
                else let (r, b) := unset_items l' k in (it :: r, b)
  end.
Definition unset (m : kvmap) (k : str) : kvmap * bool :=
  let (r, b) := unset_items (items m) k in (KV r (modified m || b), b).

(** utils_config.h:74-78 popString *)
Definition popString (m : kvmap) (k dflt : str) : kvmap * str :=
  (fst (unset m k), getString m k dflt).

(** utils_config.cpp:186-196 dumpLines *)
Definition dump_item (it : item) : str :=
  match fst it with [] => snd it | _ => fst it ++ ["="%char] ++ snd it end.
Definition dumpLines (m : kvmap) : list str := map dump_item (items m).

Definition has_key (it : item) : bool := match fst it with [] => false | _ => true end.

(** utils_config.cpp:198-205 dumpSingleLine *)
Definition dumpSingleLine (m : kvmap) : str :=
  flat_map (fun it => if has_key it then fst it ++ ["="%char] ++ snd it ++ [SP] else []) (items m).

(** utils_config.cpp:207-214 keys *)
Definition keys (m : kvmap) : list str := map fst (filter has_key (items m)).

(** utils_config.cpp:10-22: the two constructors; None = throws *)
Fixpoint add_all (m : kvmap) (lines : list str) : option kvmap :=
  match lines with
  | [] => Some m
  | l :: ls => match add m l with Some m' => add_all m' ls | None => None end
  end.
Definition kv_of_lines (lines : list str) : option kvmap := add_all kv_empty lines.
Definition kv_of_string (params whitespace : str) : option kvmap :=
  match splitString params whitespace with SplitOk l => kv_of_lines l | _ => None end.

(** ------- ConfigFile ------- *)

(** utils_config.h:214 *)
Definition sections_t := list (str * kvmap).

(** std::getline loop: split a file's bytes at '\n'; a trailing fragment without newline is a line too *)
Fixpoint getlines_aux (cur : str) (bytes : str) : list str :=
  match bytes with
  | [] => match cur with [] => [] | _ => [rev cur] end
  | c :: bs => if ceqb c LF then rev cur :: getlines_aux [] bs else getlines_aux (c :: cur) bs
  end.
Definition getlines (bytes : str) : list str := getlines_aux [] bytes.

(** outcome of parsing a file: normal, exception (duplicate key), or undefined behaviour
    (vector access with the index secIndex out of range, utils_config.cpp:258) *)
Inductive parse_result := PRok (s : sections_t) | PRthrow | PRub.

(** index of the LAST section with an equal name, starting from -1 (utils_config.cpp:245-248) *)
Fixpoint last_match (l : sections_t) (name : str) (i : Z) (acc : Z) : Z :=
  match l with
  | [] => acc
  | s :: l' => last_match l' name (i + 1) (if stringsEqual (fst s) name then i else acc)
  end.

(** section header recognition (utils_config.cpp:231-243): Some name if the line is a header *)
Definition section_header (buffer : str) : option str :=
  match find_first (fun c => negb (isWS c)) buffer, find_first (fun c => ceqb c "]"%char) buffer with
  | Some indx, Some indx1 =>
    if (match nth_error buffer indx with Some c => ceqb c "["%char | None => false end) && (indx <? indx1)
    then Some (trim_right (trim_left (firstn (indx1 - indx - 1) (skipn (indx + 1) buffer))))
    else None
  | _, _ => None
  end.

Fixpoint update_nth {A} (n : nat) (f : A -> option A) (l : list A) : option (option (list A)) :=
  (* None = index out of range; Some None = f failed *)
  match l, n with
  | [], _ => None
  | x :: l', 0 => match f x with Some y => Some (Some (y :: l')) | None => Some None end
  | x :: l', S n' =>
    match update_nth n' f l' with
    | None => None | Some None => Some None | Some (Some r) => Some (Some (x :: r))
    end
  end.

(** body of the while loop, utils_config.cpp:230-260 *)
Fixpoint parse_lines (lines : list str) (secs : sections_t) (secIndex : Z) : parse_result :=
  match lines with
  | [] => PRok secs
  | buffer :: rest =>
    match section_header buffer with
    | Some [] => parse_lines rest secs secIndex                        (* continue *)
    | Some name =>
      let i := last_match secs name 0 (-1) in
      if (i <? 0)%Z then
        parse_lines rest (secs ++ [(name, kv_empty)]) (Z.of_nat (length (secs ++ [(name, kv_empty)])) - 1)
      else parse_lines rest secs i
    | None =>
      let '(secs1, idx1) := match secs with [] => ([([], kv_empty)], 0%Z) | _ => (secs, secIndex) end in
      if (idx1 <? 0)%Z then PRub else
      match update_nth (Z.to_nat idx1)
              (fun s => match add (snd s) (c_str buffer) with
                        | Some m => Some (fst s, m) | None => None end) secs1 with
      | None => PRub
      | Some None => PRthrow
      | Some (Some secs2) => parse_lines rest secs2 idx1
      end
    end
  end.

(** utils_config.cpp:218-262 the constructor, for an existing file with the given content *)
Definition config_read (bytes : str) : parse_result := parse_lines (getlines bytes) [] (-1).

(** utils_config.cpp:275-286: the text written by the destructor for one section;
    [lastsec] says whether is==sections.size()-1 *)
Definition last_str (l : list str) : str := last l [].
Definition write_section (s : str * kvmap) (lastsec : bool) : str :=
  let lines := dumpLines (snd s) in
  match lines with
  | [] => []
  | _ =>
    (match fst s with [] => [] | n => ["["%char] ++ n ++ ["]"%char; LF] end)
    ++ flat_map (fun l => l ++ [LF]) lines
    ++ (match last_str lines with [] => [] | _ => if lastsec then [] else [LF] end)
  end.
Fixpoint write_sections (secs : sections_t) : str :=
  match secs with
  | [] => []
  | [s] => write_section s true
  | s :: rest => write_section s false ++ write_sections rest
  end.

(** utils_config.cpp:264-288 destructor: new content of the file given the old one
    (an unwritable file is not modelled) *)
Definition config_write (secs : sections_t) (old : str) : str :=
  if existsb (fun s => modified (snd s)) secs && (0 <? length secs) then write_sections secs else old.

(** utils_config.cpp:298-306 non-const findSection combined with a modification of the returned reference *)
Fixpoint with_section (secs : sections_t) (name : str) (f : kvmap -> kvmap) : sections_t :=
  match secs with
  | [] => [(name, f kv_empty)]
  | s :: rest => if stringsEqual (fst s) name then (fst s, f (snd s)) :: rest
                 else s :: with_section rest name f
  end.
(** utils_config.cpp:308-315 const findSection; None = throws *)
Fixpoint findSection (secs : sections_t) (name : str) : option kvmap :=
  match secs with
  | [] => None
  | s :: rest => if stringsEqual (fst s) name then Some (snd s) else findSection rest name
  end.
(** utils_config.cpp:290-296 *)
Definition listSections (secs : sections_t) : list str := map fst secs.
