(** Model of the NEMO snapshot writer of /repo/src/particles_io.cpp and of the reader and writer of /repo/py/nemofile.py,
    at the level of bytes, for a little-endian machine with 4-byte int and float, 8-byte double.
    Numbers stored in the file are represented by their bit patterns (non-negative integers). *)
From Verif Require Export TextIOModel.
Local Open Scope Z_scope.

Definition byt (z : Z) : ascii := ascii_of_N (Z.to_N (z mod 256)).
(** little-endian n-byte representation of z mod 256^n, and back *)
Fixpoint le (n : nat) (z : Z) : str := match n with O => [] | S n' => byt z :: le n' (z / 256) end.
Fixpoint unle (s : str) : Z := match s with [] => 0 | c :: s' => Z.of_N (N_of_ascii c) + 256 * unle s' end.
Definition NULc : ascii := ascii_of_nat 0.
Definition MAGIC : ascii := byt (-110).     (* snap.put(-110) *)

(** ---- C++ writer: class NemoSnapshotWriter (particles_io.cpp:137-215).
    Only the bytes sent to the stream are modelled; [level] is only used in an assertion. *)
(** lines 203-207 putZString *)
Definition putZString (name : str) : str := NULc :: name ++ [NULc].
(** lines 154-160 putVal, [letter] = typeLetter<T>() (lines 217-220), [bits] = the sizeof(T) bytes of the value *)
Definition putVal (name : str) (letter : ascii) (bytes : str) : str :=
  MAGIC :: byt 9 :: letter :: putZString name ++ bytes.
(** lines 163-175 putArray; [data] are the bytes of the array *)
Definition putArray (name : str) (letter : ascii) (dim : list Z) (data : str) : str :=
  MAGIC :: byt 11 :: letter :: putZString name ++ concat (map (le 4) dim) ++ le 4 0 ++ data.
(** lines 178-184 startLevel *)
Definition startLevel (name : str) : str := MAGIC :: byt 9 :: "("%char :: putZString name.
(** lines 187-194 endLevel *)
Definition endLevel : str := [MAGIC; byt 9; ")"%char; NULc].
(** lines 197-200 putString *)
Definition putString (name s : str) : str := putArray name "c"%char [zlen s] s.

Definition COORDSYS : Z := 66306.

Section Writer.
(** double numbers; [f32 v u] is the bit pattern of static_cast<float>(v / u), [d64 v u] that of the double v / u;
    [fin] is isFinite *)
Context {A : Type}.
Variables (f32 d64 : A -> A -> Z) (fin : A -> bool).

Record nunits := mkNU { nlength : A; nvelocity : A; nmass : A; ntime : A }.
(** positions, velocities and auxiliary attributes of a particle; the flavour tells which are present *)
Record npart := mkNP { n_x : A; n_y : A; n_z : A; n_vx : A; n_vy : A; n_vz : A; n_sm : A; n_sr : A; n_m : A }.

Definition floats (l : list Z) : str := concat (map (le 4) l).
Definition posArr (c : nunits) (pts : list npart) : list Z :=
  flat_map (fun p => [f32 (n_x p) (nlength c); f32 (n_y p) (nlength c); f32 (n_z p) (nlength c)]) pts.
Definition velArr (c : nunits) (pts : list npart) : list Z :=
  flat_map (fun p => [f32 (n_vx p) (nvelocity c); f32 (n_vy p) (nvelocity c); f32 (n_vz p) (nvelocity c)]) pts.
Definition massArr (c : nunits) (pts : list npart) : list Z := map (fun p => f32 (n_m p) (nmass c)) pts.
Definition auxArr (c : nunits) (pts : list npart) : list Z := map (fun p => f32 (n_sm p) (nmass c)) pts.
Definition epsArr (c : nunits) (pts : list npart) : list Z := map (fun p => f32 (n_sr p) (nlength c)) pts.

Inductive flavour := FPos | FPosVel | FAux.
(** lines 222-278 writeParticles for the three particle types; &pos[0] of an empty vector is undefined behaviour *)
Definition writeParticles (fl : flavour) (pts : list npart) (c : nunits) : res str :=
  match pts with
  | [] => UB
  | _ =>
    let n := zlen pts in
    let pos := putArray (lit "Position") "f"%char [n; 3] (floats (posArr c pts)) in
    let vel := putArray (lit "Velocity") "f"%char [n; 3] (floats (velArr c pts)) in
    let mass := putArray (lit "Mass") "f"%char [n] (floats (massArr c pts)) in
    let aux := putArray (lit "Aux") "f"%char [n] (floats (auxArr c pts)) in
    let eps := putArray (lit "Eps") "f"%char [n] (floats (epsArr c pts)) in
    Ok (match fl with
        | FPos => pos ++ mass
        | FPosVel => pos ++ vel ++ mass
        | FAux => pos ++ vel ++ mass ++ aux ++ eps
        end)
  end.
(** lines 280-310 writeSnapshotNEMO: new contents of the file, given the old ones.
    header.c_str() cuts the header at the first NUL. *)
Definition writeNEMO (old : str) (fl : flavour) (pts : list npart) (c : nunits) (header : str) (time : A) (append : bool) : res str :=
  parts <- writeParticles fl pts c ;;
  Ok ((if append then old else []) ++
      (match header with [] => [] | _ => putString (lit "History") (c_str header) end) ++
      startLevel (lit "SnapShot") ++
      startLevel (lit "Parameters") ++
      putVal (lit "Nobj") "i"%char (le 4 (zlen pts)) ++
      (if fin time then putVal (lit "Time") "d"%char (le 8 (d64 time (ntime c))) else []) ++
      endLevel ++
      startLevel (lit "Particles") ++
      putVal (lit "CoordSystem") "i"%char (le 4 COORDSYS) ++
      parts ++
      endLevel ++
      endLevel).
End Writer.

(** ---- Python reader: py/nemofile.py.  Outcomes: Throw = a Python exception, Fuel = an infinite loop. *)
(** lines 356-368 read_array for one-byte elements (read_string, lines 370-374): read up to and excluding the next 0;
    at the end of the file the loop repeats forever if something has been read, and fails otherwise *)
Fixpoint read_string (first : bool) (s : str) : res (str * str) :=
  match s with
  | [] => if first then Throw else Fuel
  | c :: s' => if ceqb c NULc then Ok ([], s') else
               r <- read_string false s' ;; Ok (c :: fst r, snd r)
  end.
Definition int32 (s : str) : Z := let z := unle s in if 2 ^ 31 <=? z then z - 2 ^ 32 else z.
(** lines 356-368 read_array('i') *)
Fixpoint read_dims (fuel : nat) (first : bool) (s : str) : res (list Z * str) :=
  match fuel with
  | O => Fuel
  | S f =>
      match s with
      | [] => if first then Throw else Fuel
      | _ => if (length s <? 4)%nat then Throw else
             let z := int32 (firstn 4 s) in
             if z =? 0 then Ok ([], skipn 4 s) else
             r <- read_dims f false (skipn 4 s) ;; Ok (z :: fst r, snd r)
      end
  end.
(** an item of the file: a leaf with its type letter, tag, dimensions and raw data, a set, or the end of a set *)
Inductive item := Leaf (letter : ascii) (tag : str) (dims : list Z) (data : str) | SetI (tag : str) (l : list item) | EndSet.

(** lines 147-227: itemsize of the numpy dtype for each type letter; None for "(", ")", unknown letters (KeyError) and
    the story items "[" "]", which are not modelled *)
Definition itemsize (c : ascii) : option nat :=
  if mem c (lit "abc") then Some 1%nat else if mem c (lit "sh") then Some 2%nat else
  if mem c (lit "if") then Some 4%nat else if mem c (lit "ld") then Some 8%nat else None.
Definition prodZ (l : list Z) : Z := fold_left Z.mul l 1.

(** lines 349-412 read_magic_number and get_item_header (the byte-swapped magic numbers are rejected at line 398 because
    lines 391/394 compare instead of assigning), lines 414-420 read_item, lines 114-119 NemoItem.read and lines 240-245
    SetItem.read.  None = end of file.  A negative number of elements (file.read(negative)) is not modelled: Throw.
    A truncated array fails in reshape (Throw); this is also assumed for char arrays. *)
Definition header (s : str) : res (option (str * str * list Z * str)) :=
  match s with
  | [] | [_] => Ok None
  | m1 :: m2 :: s1 =>
      if negb (ceqb m1 MAGIC && (ceqb m2 (byt 9) || ceqb m2 (byt 11))) then Throw else
      t <- read_string true s1 ;;
      tg <- (if match fst t with [c] => ceqb c ")"%char | _ => false end then Ok ([], snd t) else read_string true (snd t)) ;;
      d <- (if ceqb m2 (byt 11) then read_dims (S (length s)) true (snd tg) else Ok ([1], snd tg)) ;;
      Ok (Some (fst t, fst tg, fst d, snd d))
  end.
Fixpoint read_item (fuel : nat) (s : str) : res (option (item * str)) :=
  match fuel with
  | O => Fuel
  | S f =>
      h <- header s ;;
      match h with
      | None => Ok None
      | Some ([letter], tag, dims, s1) =>
          if ceqb letter "("%char then
            r <- read_set f s1 ;; Ok (Some (SetI tag (fst r), snd r))
          else if ceqb letter ")"%char then Ok (Some (EndSet, s1))
          else match itemsize letter with
               | None => Throw
               | Some k =>
                   let n := Z.of_nat k * prodZ dims in
                   if (n <? 0) || (zlen s1 <? n) then Throw
                   else Ok (Some (Leaf letter tag dims (firstn (Z.to_nat n) s1), skipn (Z.to_nat n) s1))
               end
      | Some _ => Throw
      end
  end
with read_set (fuel : nat) (s : str) : res (list item * str) :=
  match fuel with
  | O => Fuel
  | S f =>
      r <- read_item f s ;;
      match r with
      | None => Throw
      | Some (EndSet, s') => Ok ([], s')
      | Some (it, s') => r' <- read_set f s' ;; Ok (it :: fst r', snd r')
      end
  end.

Definition tag_of (it : item) : str := match it with Leaf _ t _ _ => t | SetI t _ => t | EndSet => [] end.
Definition seq (a b : str) : bool := if list_eq_dec Ascii.ascii_dec a b then true else false.
(** OrderedMultiDictionary: data[key][0] is the first item with this tag *)
Definition lookup (key : str) (l : list item) : option item := find (fun it => seq (tag_of it) key) l.
(** elements of a numeric array as bit patterns *)
Fixpoint chunks (fuel k : nat) (s : str) : list Z :=
  match fuel with O => [] | S f => match s with [] => [] | _ => unle (firstn k s) :: chunks f k (skipn k s) end end.
Definition elements (it : item) : res (list Z * list Z) :=
  match it with
  | Leaf c _ dims data => match itemsize c with Some k => Ok (dims, chunks (length data) k data) | None => Throw end
  | _ => Throw
  end.
(** the dictionary returned by NemoFile.read: Time, and the arrays (name, shape, elements) in order.
    The "PhaseSpace" entry (never written by this code) is not modelled. *)
Record snapshot := mkSnap { s_time : option Z; s_arrays : list (str * list Z * list Z) }.
Fixpoint arrays (all l : list item) : res (list (str * list Z * list Z)) :=
  match l with
  | [] => Ok []
  | it :: l' =>
      if seq (tag_of it) (lit "CoordSystem") then arrays all l' else
      match lookup (tag_of it) all with
      | Some it0 => e <- elements it0 ;; r <- arrays all l' ;; Ok ((tag_of it, fst e, snd e) :: r)
      | None => Throw
      end
  end.
Definition set_items (it : item) : res (list item) := match it with SetI _ l => Ok l | _ => Throw end.
(** lines 456-486 NemoFile.read: skip items until a SnapShot is found; None = no more snapshots *)
Definition decode (l : list item) : res snapshot :=
  t <- (match lookup (lit "Parameters") l with
        | Some p => pl <- set_items p ;;
                    match lookup (lit "Time") pl with
                    | Some ti => e <- elements ti ;; match snd e with v :: _ => Ok (Some v) | [] => Throw end
                    | None => Ok None
                    end
        | None => Ok None
        end) ;;
  a <- (match lookup (lit "Particles") l with
        | Some p => pl <- set_items p ;; arrays pl pl
        | None => Ok []
        end) ;;
  Ok (mkSnap t a).
Fixpoint read_snap (fuel : nat) (s : str) : res (option (snapshot * str)) :=
  match fuel with
  | O => Fuel
  | S f =>
      r <- read_item (S (length s)) s ;;
      match r with
      | None => Ok None
      | Some (it, s') =>
          if negb (seq (tag_of it) (lit "SnapShot")) then read_snap f s' else
          l <- set_items it ;; d <- decode l ;; Ok (Some (d, s'))
      end
  end.
(** iteration over all snapshots of a file (lines 336-337, 488-492) *)
Fixpoint read_all (fuel : nat) (s : str) : res (list snapshot) :=
  match fuel with
  | O => Fuel
  | S f =>
      r <- read_snap (S (length s)) s ;;
      match r with
      | None => Ok []
      | Some (d, s') => l <- read_all f s' ;; Ok (d :: l)
      end
  end.
Definition readNEMO (file : str) : res (list snapshot) := read_all (S (length file)) file.

(** ---- Python writer: lines 423-450 and 496-527.  An item is written with the singular header if its only dimension
    is <= 1 (is_plural, lines 108-112). *)
Definition is_plural (dims : list Z) : bool := match dims with [d] => negb (d <=? 1) | _ => true end.
Definition py_leaf (letter : ascii) (tag : str) (dims : list Z) (data : str) : str :=
  MAGIC :: byt (if is_plural dims then 11 else 9) :: letter :: putZString tag ++
  (if is_plural dims then concat (map (le 4) dims) ++ le 4 0 else []) ++ data.
(** NemoFile.write of a dictionary with optional Time (double) and float32 or float64 arrays ([true] = float32) in the
    given order; nbody is the length of the last array.  The History is not written. *)
Definition py_array (a : str * bool * list Z * list Z) : str :=
  let '(name, single, dims, el) := a in
  if single : bool then py_leaf "f"%char name dims (concat (map (le 4) el))
  else py_leaf "d"%char name dims (concat (map (le 8) el)).
Definition py_write (time : option Z) (nbody : Z) (arrs : list (str * bool * list Z * list Z)) : str :=
  startLevel (lit "SnapShot") ++
  startLevel (lit "Parameters") ++
  (match time with Some t => py_leaf "d"%char (lit "Time") [1] (le 8 t) | None => [] end) ++
  py_leaf "i"%char (lit "Nobj") [1] (le 4 nbody) ++
  endLevel ++
  startLevel (lit "Particles") ++ concat (map py_array arrs) ++ endLevel ++ endLevel.
