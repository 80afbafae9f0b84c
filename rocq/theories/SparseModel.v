(** Model of SparseMatrix enumeration and of the triplet/matrix conversions
    (/repo/src/math_linalg.cpp:394-442, 468-545, 962-1014, 1057-1175).
    The compressed-column storage is the one documented by Eigen and GSL: [souter] (cols+1 offsets), [sinner]
    (row indices), [svals]; building it (setFromTriplets, gsl_spmatrix_compcol) is library code, not modelled. *)
From Verif Require Import Arr BinSearchModel BandModel.
Local Open Scope Z_scope.

Section S.
  Context {T : Type}.
  Record csc := mkCsc { srows : Z; scols : Z; souter : list Z; sinner : list Z; svals : list T }.
  Definition INTMAX : Z := 2^31 - 1.
  (** elem: Eigen version math_linalg.cpp:514-521, GSL (>=2.6) version 1124-1136 *)
  Definition sp_elem (m : csc) (index : Z) : res (Z * Z * T) :=
    if negb ((0 <=? index) && (index <? zlen (svals m))) then Throw else
    row <- get (sinner m) index ;;
    col <- binSearchInt (-2^31) INTMAX index (souter m) ;;
    v <- get (svals m) index ;; Ok (row, col, v).
  (** values, Eigen version math_linalg.cpp:529-538: for each column, its entries in order *)
  Definition sp_values_eigen (m : csc) : res (list (Z * Z * T)) :=
    for_ 0 (scols m) (fun j acc =>
      o <- get (souter m) j ;; o1 <- get (souter m) (j + 1) ;;
      for_ o o1 (fun k acc => r <- get (sinner m) k ;; v <- get (svals m) k ;; Ok (acc ++ [(r, j, v)])) acc) [].
  (** values, GSL version math_linalg.cpp:1144-1159 *)
  Fixpoint sp_skip (fuel : nat) (m : csc) (col k : Z) : res Z :=
    if col <? scols m then
      p <- get (souter m) (col + 1) ;;
      if p <=? k then match fuel with O => Fuel | S f => sp_skip f m (col + 1) k end else Ok col
    else Ok col.
  Definition sp_values_gsl (m : csc) : res (list (Z * Z * T)) :=
    st <- for_ 0 (zlen (svals m)) (fun k (st : Z * list (Z * Z * T)) =>
      let (col, acc) := st in
      col <- sp_skip (Z.to_nat (scols m)) m col k ;;
      r <- get (sinner m) k ;; v <- get (svals m) k ;; Ok (col, acc ++ [(r, col, v)])) (0, [] : list (Z * Z * T)) ;;
    Ok (snd st).
End S.
Arguments csc T : clear implicits.

(** ---- dense matrices from a list of triplets ---- *)
Definition upd2 {A} (f : Z -> Z -> A) (i j : Z) (v : A) : Z -> Z -> A :=
  fun a b => if (a =? i) && (b =? j) then v else f a b.
(** Eigen version, math_linalg.cpp:424-433 (and the loops over elem() at 409-421, 951-961, 981-993): plain assignment.
    An index out of range is undefined behaviour. *)
Fixpoint dense_assign {T} (nr nc : Z) (l : list (Z * Z * T)) (f : Z -> Z -> T) : res (Z -> Z -> T) :=
  match l with
  | [] => Ok f
  | (i, j, v) :: l' =>
      if (0 <=? i) && (i <? nr) && (0 <=? j) && (j <? nc) then dense_assign nr nc l' (upd2 f i j v) else UB
  end.
(** GSL version, math_linalg.cpp:995-1012: accumulation, out-of-range indices throw *)
Fixpoint dense_accum (nr nc : Z) (l : list (Z * Z * R)) (f : Z -> Z -> R) : res (Z -> Z -> R) :=
  match l with
  | [] => Ok f
  | (i, j, v) :: l' =>
      if (0 <=? i) && (i <? nr) && (0 <=? j) && (j <? nc) then dense_accum nr nc l' (upd2 f i j (f i j + v)%R) else Throw
  end.
(** Matrix(const IMatrix&), math_linalg.cpp:409-421 and 981-993: for(k=0; k<src.size(); k++) { v=src.elem(k,i,j); M(i,j)=v; } *)
Definition dense_from_elem {T} (zero : T) (nr nc size : Z) (elem : Z -> res (Z * Z * T)) : res (Z -> Z -> T) :=
  for_ 0 size (fun k f =>
    t <- elem k ;; let '(i, j, v) := t in
    if (0 <=? i) && (i <? nr) && (0 <=? j) && (j <? nc) then Ok (upd2 f i j v) else UB) (fun _ _ => zero).
(** Matrix(const BandMatrix&), math_linalg.cpp:392-407 and 964-979 *)
Definition dense_from_band {T} (zero : T) (m : band_matrix T) : res (Z -> Z -> T) :=
  data <- bm_raw m ;;
  for_ 0 (bN m) (fun r f =>
    let cl := Z.max 0 (r - bB m) in
    let cr := Z.min (bN m - 1) (r + bB m) in
    for_ cl (cr + 1) (fun c f =>
      d <- aget data (r * (bB m * 2 + 1) + cl - r + bB m + (c - cl)) ;; Ok (upd2 f r c d)) f) (fun _ _ => zero).
