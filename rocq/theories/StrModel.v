(** Model of the string helpers of /repo/src/utils.cpp and utils.h.
    C++ [std::string] is modelled as a list of 8-bit characters ([ascii]), so NUL bytes are allowed;
    a C string [const char*] is the prefix up to the first NUL ([c_str]). *)
From Coq Require Export Ascii String NArith ZArith Bool Arith List Lia.
Export ListNotations.
Open Scope list_scope.

Definition str := list ascii.

(** literal helper: Coq string -> list of characters *)
Definition lit (s : string) : str := list_ascii_of_string s.

Definition NUL : ascii := Ascii.zero.
Definition TAB : ascii := ascii_of_nat 9.
Definition LF  : ascii := ascii_of_nat 10.
Definition CR  : ascii := ascii_of_nat 13.
Definition SP  : ascii := ascii_of_nat 32.

Definition ceqb (a b : ascii) : bool := Ascii.eqb a b.

(** C library tolower in the "C" locale (used at utils.cpp:500, 510); other locales are not modelled *)
Definition tolower (c : ascii) : ascii :=
  let n := N_of_ascii c in
  if (65 <=? n)%N && (n <=? 90)%N then ascii_of_N (n + 32) else c.

(** std::string::c_str() followed by construction of a std::string: cut at the first NUL
    (utils_config.cpp:21 and 258 [add(arr[i].c_str())], utils_config.cpp:26 [std::string buffer(line)]) *)
Fixpoint c_str (s : str) : str :=
  match s with
  | [] => []
  | c :: s' => if ceqb c NUL then [] else c :: c_str s'
  end.

(** std::string::find_first_of / find_first_not_of / find: index of the first character satisfying p;
    None = npos *)
Fixpoint find_first (p : ascii -> bool) (s : str) : option nat :=
  match s with
  | [] => None
  | c :: s' => if p c then Some 0 else option_map S (find_first p s')
  end.

(** std::string::find_last_not_of *)
Fixpoint find_last (p : ascii -> bool) (s : str) : option nat :=
  match s with
  | [] => None
  | c :: s' => match find_last p s' with
               | Some i => Some (S i)
               | None => if p c then Some 0 else None
               end
  end.

Definition mem (c : ascii) (set : str) : bool := existsb (ceqb c) set.

(** utils.cpp:464-487 splitString.  [str.erase(0,indx)] is skipn, [substr(0,indx)] is firstn.
    The while loop is modelled with fuel; SplitFuel marks exhaustion (proved impossible),
    SplitAssert marks a failed assert(indx>0) at line 478 (proved impossible). *)
Inductive split_result := SplitOk (l : list str) | SplitFuel | SplitAssert.

Fixpoint split_loop (fuel : nat) (delim : str) (s : str) (acc : list str) : split_result :=
  match fuel with
  | 0 => SplitFuel
  | S fuel' =>
    match s with
    | [] => SplitOk (rev acc)
    | _ =>
      let indx := match find_first (fun c => mem c delim) s with None => length s | Some i => i end in
      if indx =? 0 then SplitAssert else
      let acc' := firstn indx s :: acc in
      let s1 := skipn indx s in
      match find_first (fun c => negb (mem c delim)) s1 with
      | None => SplitOk (rev acc')
      | Some i => split_loop fuel' delim (skipn i s1) acc'
      end
    end
  end.

Definition splitString (src delim : str) : split_result :=
  match find_first (fun c => negb (mem c delim)) src with
  | None => SplitOk []
  | Some i => split_loop (S (length src)) delim (skipn i src) []
  end.

(** std::string::find(needle, pos): index of the first occurrence of needle at or after pos *)
Fixpoint prefixb (p s : str) : bool :=
  match p, s with
  | [], _ => true
  | a :: p', b :: s' => ceqb a b && prefixb p' s'
  | _ :: _, [] => false
  end.

Fixpoint find_str (needle s : str) : option nat :=
  if prefixb needle s then Some 0 else
  match s with
  | [] => None
  | _ :: s' => option_map S (find_str needle s')
  end.

(** utils.cpp:489-492 endsWithStr; str.find(end, pos) is modelled as a search in the suffix *)
Definition endsWithStr (s e : str) : bool :=
  (length e <=? length s) &&
  match find_str e (skipn (length s - length e) s) with Some _ => true | None => false end.

(** utils.cpp:494-503 stringsEqual(std::string, std::string) *)
Definition stringsEqual (s1 s2 : str) : bool :=
  if negb (length s1 =? length s2) then false
  else forallb (fun p => ceqb (tolower (fst p)) (tolower (snd p))) (combine s1 s2).

(** utils.cpp:505-513 stringsEqual(std::string, const char* ).  [mem2 i] is the byte at offset i of the
    C buffer; the loop reads mem2[0..size-1] then mem2[size].
    The result None stands for reading beyond the terminating NUL (undefined behaviour). The buffer is
    the list of readable bytes (including the terminator). *)
Fixpoint stringsEqualC_loop (s1 : str) (buf : str) : option bool :=
  match s1 with
  | [] => match buf with [] => None | c :: _ => Some (ceqb c NUL) end
  | a :: s1' =>
    match buf with
    | [] => None
    | b :: buf' => if ceqb b NUL || negb (ceqb (tolower a) (tolower b)) then Some false
                   else stringsEqualC_loop s1' buf'
    end
  end.
Definition stringsEqualC (s1 : str) (buf : option str) : option bool :=
  match buf with None => Some false | Some b => stringsEqualC_loop s1 b end.

(** utils.cpp:273-292 toBool; None = throws std::invalid_argument *)
Fixpoint toBool (s : str) : option bool :=
  match s with
  | [] => Some false                                    (* terminating '\0' *)
  | c :: s' =>
    if mem c (NUL :: lit "0nNfF") then Some false
    else if mem c (lit "1yYtT") then Some true
    else if mem c [SP; TAB] then toBool s'
    else None
  end.

(** utils.h:195 isComment *)
Definition isComment (c : ascii) : bool := ceqb c "#"%char || ceqb c ";"%char.

(** utils.h:155-156 toString(bool) *)
Definition toString_bool (b : bool) : str := if b then lit "true" else lit "false".

(** whitespace set " \t\n\r" used throughout utils_config.cpp *)
Definition isWS (c : ascii) : bool := mem c [SP; TAB; LF; CR].

(** utils.cpp:66-79 undecorateFunction: remove everything from the first open parenthesis on, then
    everything up to and including the last space *)
Definition undecorateFunction (s : str) : str :=
  let s1 := match find_first (fun c => ceqb c "("%char) s with Some i => firstn i s | None => s end in
  match find_last (fun c => ceqb c SP) s1 with Some i => skipn (i + 1) s1 | None => s1 end.
