(** Model of the text snapshot format of /repo/src/particles_io.cpp and of the format detection.
    Files are byte strings.  A double is [Fin q] (finite, exact rational value), an infinity or a NaN with its sign;
    the multiplications and divisions by the unit factors are exact (rounding not modelled). *)
From Verif Require Export NumFmtModel.
Local Open Scope Z_scope.

Inductive num := Fin (q : Q) | Inf (neg : bool) | NaN (neg : bool).

(** multiplication/division of a double by a positive finite unit *)
Definition nmul (v : num) (u : Q) : num := match v with Fin q => Fin (q * u) | _ => v end.
Definition ndiv (v : num) (u : Q) : num := match v with Fin q => Fin (q / u) | _ => v end.

(** utils.cpp:295-299 toString for any double: printf prints "inf"/"nan" with a minus sign if the sign bit is set *)
Definition toStr (width : Z) (v : num) : str :=
  match v with
  | Fin q => toString_double width q
  | Inf neg => (if neg then lit "-" else []) ++ lit "inf"
  | NaN neg => (if neg then lit "-" else []) ++ lit "nan"
  end.

Definition lower (s : str) : str := map tolower s.
(** utils.cpp:262-271 toDouble: strtod also recognises inf and nan in any letter case *)
Definition toNum (s : str) : res num :=
  match c_str s with
  | [] => Ok (Fin 0)
  | t =>
      let (neg, t1) := sign t in
      if prefixb (lit "inf") (lower t1) then Ok (Inf neg) else
      if prefixb (lit "nan") (lower t1) then Ok (NaN neg) else
      match strtod t with Some (v, _) => Ok (Fin v) | None => Throw end
  end.

(** units.h ExternalUnits (only the factors) *)
Record unitsQ := mkUnits { lengthU : Q; velocityU : Q; massU : Q; timeU : Q }.

(** coord::PosCar, coord::PosVelCar and particles_base.h:16-21 ParticleAux *)
Record posCar := mkPos { p_x : num; p_y : num; p_z : num }.
Record posVelCar := mkPV { v_pos : posCar; v_x : num; v_y : num; v_z : num }.
Record particleAux := mkAux { a_pv : posVelCar; a_stellarMass : num; a_stellarRadius : num }.

(** separator-joined fields followed by the end of line, as in particles_io.cpp:36-69 *)
Fixpoint tabbed (l : list str) : str :=
  match l with
  | [] => [LF]
  | [f] => f ++ [LF]
  | f :: r => f ++ TAB :: tabbed r
  end.
Definition tabs (l : list string) : str := tabbed (map lit l).

(** particles_io.cpp:23-25 and 35-43 *)
Definition headerPos : str := "#"%char :: tabs ["x"; "y"; "z"; "mass"]%string.
Definition formatPos (c : unitsQ) (e : posCar * num) : str :=
  let (p, m) := e in
  tabbed [ toStr 8 (ndiv (p_x p) (lengthU c)); toStr 8 (ndiv (p_y p) (lengthU c)); toStr 8 (ndiv (p_z p) (lengthU c));
           toStr 8 (ndiv m (massU c)) ].
(** particles_io.cpp:27-29 and 45-56 *)
Definition headerPosVel : str := "#"%char :: tabs ["x"; "y"; "z"; "vx"; "vy"; "vz"; "mass"]%string.
Definition formatPosVel (c : unitsQ) (e : posVelCar * num) : str :=
  let (v, m) := e in let p := v_pos v in
  tabbed [ toStr 8 (ndiv (p_x p) (lengthU c)); toStr 8 (ndiv (p_y p) (lengthU c)); toStr 8 (ndiv (p_z p) (lengthU c));
           toStr 8 (ndiv (v_x v) (velocityU c)); toStr 8 (ndiv (v_y v) (velocityU c)); toStr 8 (ndiv (v_z v) (velocityU c));
           toStr 8 (ndiv m (massU c)) ].
(** particles_io.cpp:31-33 and 58-70 *)
Definition headerAux : str :=
  "#"%char :: tabs ["x"; "y"; "z"; "vx"; "vy"; "vz"; "particleMass"; "stellarMass"; "stellarRadius"]%string.
Definition formatAux (c : unitsQ) (e : particleAux * num) : str :=
  let (a, m) := e in let v := a_pv a in let p := v_pos v in
  tabbed [ toStr 8 (ndiv (p_x p) (lengthU c)); toStr 8 (ndiv (p_y p) (lengthU c)); toStr 8 (ndiv (p_z p) (lengthU c));
           toStr 8 (ndiv (v_x v) (velocityU c)); toStr 8 (ndiv (v_y v) (velocityU c)); toStr 8 (ndiv (v_z v) (velocityU c));
           toStr 8 (ndiv m (massU c));
           toStr 8 (ndiv (a_stellarMass a) (massU c)); toStr 8 (ndiv (a_stellarRadius a) (lengthU c)) ].

(** particles_io.cpp:72-92 writeSnapshotText: the contents of the (truncated) file; i/o errors not modelled.
    [strm << double] prints with %g and precision 6. *)
Definition isFin (v : num) : bool := match v with Fin _ => true | _ => false end.
Definition writeText {P} (colhdr : str) (fmt : unitsQ -> P * num -> str) (points : list (P * num)) (c : unitsQ)
    (header : str) (time : num) : str :=
  (match header with [] => [] | _ => "#"%char :: header ++ [LF] end) ++
  (if isFin time then lit "#time: " ++ toStr 6 (ndiv time (timeU c)) ++ [LF] else []) ++
  colhdr ++ concat (map (fmt c) points).
Definition writeTextPos := writeText headerPos formatPos.
Definition writeTextPosVel := writeText headerPosVel formatPosVel.
Definition writeTextAux := writeText headerAux formatAux.

(** [while(std::getline(strm, buffer) && !strm.eof())] (particles_io.cpp:105): the lines that are terminated by an
    end-of-line character; an unterminated last line sets eof and is dropped *)
Fixpoint complete_lines (cur : str) (s : str) : list str :=
  match s with
  | [] => []
  | c :: s' => if ceqb c LF then rev cur :: complete_lines [] s' else complete_lines (c :: cur) s'
  end.

(** char is signed: bytes >= 128 are negative *)
Definition schar (c : ascii) : Z := let n := Z.of_N (N_of_ascii c) in if 128 <=? n then n - 256 else n.

(** particles_io.cpp:105-129, body of the loop; None = the line is skipped *)
Definition numeric_start (s : str) : res bool :=
  c <- get s 0 ;; Ok (isdig c || ceqb c "-"%char || ceqb c "+"%char).
Definition readFields (c : unitsQ) (fields : list str) : res (option (particleAux * num)) :=
      let numFields := zlen fields in
      if numFields <? 4 then Ok None else
      f0 <- get fields 0 ;;
      st <- numeric_start f0 ;;
      if negb st then Ok None else
      let haveVel := 7 <=? numFields in
      fm <- get fields (if haveVel then 6 else 3) ;; nm <- toNum fm ;; let particleMass := nmul nm (massU c) in
      stellarMass <- (if 8 <=? numFields then f7 <- get fields 7 ;; n7 <- toNum f7 ;; Ok (nmul n7 (massU c)) else Ok particleMass) ;;
      stellarRadius <- (if 9 <=? numFields then f8 <- get fields 8 ;; n8 <- toNum f8 ;; Ok (nmul n8 (lengthU c)) else Ok (Fin 0)) ;;
      x <- toNum f0 ;;
      f1 <- get fields 1 ;; y <- toNum f1 ;;
      f2 <- get fields 2 ;; z <- toNum f2 ;;
      vx <- (if haveVel then f3 <- get fields 3 ;; n3 <- toNum f3 ;; Ok (nmul n3 (velocityU c)) else Ok (Fin 0)) ;;
      vy <- (if haveVel then f4 <- get fields 4 ;; n4 <- toNum f4 ;; Ok (nmul n4 (velocityU c)) else Ok (Fin 0)) ;;
      vz <- (if haveVel then f5 <- get fields 5 ;; n5 <- toNum f5 ;; Ok (nmul n5 (velocityU c)) else Ok (Fin 0)) ;;
      Ok (Some (mkAux (mkPV (mkPos (nmul x (lengthU c)) (nmul y (lengthU c)) (nmul z (lengthU c))) vx vy vz)
                      stellarMass stellarRadius, particleMass)).
Definition readLine (c : unitsQ) (buffer : str) : res (option (particleAux * num)) :=
  let comment := match buffer with [] => false | b :: _ => isComment b end in
  if comment then Ok None else
  match splitString buffer (lit "#;, " ++ [TAB]) with
  | SplitOk fields => readFields c fields
  | _ => UB
  end.
Fixpoint readLines (c : unitsQ) (l : list str) : res (list (particleAux * num)) :=
  match l with
  | [] => Ok []
  | b :: l' =>
      o <- readLine c b ;; r <- readLines c l' ;;
      Ok (match o with Some e => e :: r | None => r end)
  end.
(** particles_io.cpp:94-131 readSnapshotText; peek() of an empty file gives -1 *)
Definition readText (c : unitsQ) (file : str) : res (list (particleAux * num)) :=
  match file with
  | [] => Throw
  | b :: _ => if schar b <? 32 then Throw else readLines c (complete_lines [] file)
  end.

(** particles_io.cpp:430-463 readSnapshot, built without UNSIO.  The buffer of 8 bytes is uninitialised beyond
    the bytes that could be read: reading them is UB ([byte]).  The conditions are evaluated with short circuit. *)
Definition byte (file : str) (i : Z) : res Z := if i <? 8 then c <- get file i ;; Ok (schar c) else UB.
Definition band (a : res bool) (b : res bool) : res bool := x <- a ;; if x : bool then b else Ok false.
Definition bor (a : res bool) (b : res bool) : res bool := x <- a ;; if x : bool then Ok true else b.
Definition beq (file : str) (i v : Z) : res bool := b <- byte file i ;; Ok (b =? v).
Definition code (c : ascii) : Z := schar c.
Definition is_binary (f : str) : res bool :=
  bor (band (beq f 0 (-110))
            (bor (beq f 2 (code "c"%char)) (bor (beq f 2 (code "i"%char)) (bor (beq f 2 (code "f"%char))
            (bor (beq f 2 (code "d"%char)) (beq f 2 (code "("%char)))))))
  (bor (band (beq f 0 8) (band (beq f 1 0) (band (beq f 2 0) (beq f 3 0))))
  (bor (band (beq f 0 0) (band (beq f 1 1) (band (beq f 2 0) (beq f 3 0))))
  (bor (band (beq f 0 0) (band (beq f 1 0) (band (beq f 2 8) (beq f 3 0))))
       (band (beq f 0 0) (band (beq f 1 0) (band (beq f 2 0) (beq f 3 1))))))).
Definition readSnapshot (c : unitsQ) (file : str) : res (list (particleAux * num)) :=
  bin <- is_binary file ;;
  if bin : bool then Throw else
  b <- byte file 0 ;;
  if 32 <=? b then readText c file else Throw.
