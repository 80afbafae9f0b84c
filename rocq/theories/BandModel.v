(** Model of math::BandMatrix, blas_dgemv/daxpy/dmul for band matrices, and solveBand
    (/repo/src/math_linalg.cpp:141-324, /repo/src/math_linalg.h:153-201).
    size_t/ptrdiff_t indices are integers: N*(2B+1) is assumed not to overflow 64 bits. *)
From Verif Require Import Arr.
Local Open Scope Z_scope.

Section Storage.
  Context {T : Type}.
  Variable zero : T.

  (** math_linalg.h:154-201 *)
  Record band_matrix := mkBand { bN : Z; bB : Z; bdata : arr T }.
  Definition width (m : band_matrix) : Z := 2 * bB m + 1.

  (** constructor, math_linalg.cpp:141-146 *)
  Definition bm_new (size bandWidth : Z) (value : T) : res band_matrix :=
    if bandWidth >=? size then Throw
    else Ok (mkBand size bandWidth (anew (size * (2 * bandWidth + 1)) value)).
  (** diagonal constructor, math_linalg.h:169-170 *)
  Definition bm_diag (src : arr T) : band_matrix := mkBand (alen src) 0 src.

  (** at, math_linalg.cpp:149-155 *)
  Definition bm_at (m : band_matrix) (row col : Z) : res T :=
    if negb ((row <? bN m) && (col <? bN m)) then Throw else
    if (col >? row + bB m) || (row >? col + bB m) then Ok zero else
    aget (bdata m) (row * (2 * bB m + 1) + col + bB m - row).

  Definition bm_inrange (m : band_matrix) (row col : Z) : bool :=
    (row <? bN m) && (col <? bN m) && (col <=? row + bB m) && (row <=? col + bB m).
  (** operator() for reading, math_linalg.cpp:158-163 *)
  Definition bm_ref (m : band_matrix) (row col : Z) : res T :=
    if negb (bm_inrange m row col) then Throw else
    aget (bdata m) (row * (2 * bB m + 1) + col + bB m - row).
  (** assignment through operator(), math_linalg.cpp:166-170 *)
  Definition bm_set (m : band_matrix) (row col : Z) (v : T) : res band_matrix :=
    if negb (bm_inrange m row col) then Throw else
    d <- aset (bdata m) (row * (2 * bB m + 1) + col + bB m - row) v ;; Ok (mkBand (bN m) (bB m) d).

  (** size, math_linalg.cpp:173-176 *)
  Definition bm_size (m : band_matrix) : Z := bN m * (2 * bB m + 1) - bB m * (bB m + 1).

  (** the two identical while loops, math_linalg.cpp:190-193 and 203-206; fuel bounds the number of iterations *)
  Fixpoint clip_loop (fuel : nat) (band row col : Z) : res (Z * Z) :=
    if col >=? row + band + 1 then
      match fuel with O => Fuel | S f => clip_loop f band (row + 1) (col - (row + band + 1)) end
    else Ok (row, col).
  (** elem, math_linalg.cpp:179-211; returns (row, col, value) *)
  Definition bm_elem (m : band_matrix) (index : Z) : res (Z * Z * T) :=
    let band := bB m in let nRows := bN m in let width := 2 * band + 1 in
    let total := nRows * width - band * (band + 1) in
    let nclip := band * band + band * (band + 1) / 2 in
    rc <- (if index <? nclip then clip_loop (Z.to_nat index) band 0 index
           else if index + nclip <? total then
             let row := (index - nclip) / width + band in
             Ok (row, (index - nclip) mod width + row - band)
           else if index <? total then
             rc <- clip_loop (Z.to_nat (total - 1 - index)) band 0 (total - 1 - index) ;;
             Ok (nRows - 1 - fst rc, nRows - 1 - snd rc)
           else Throw) ;;
    let (row, col) := rc in
    v <- aget (bdata m) (row * width + col + band - row) ;; Ok (row, col, v).

  (** values, math_linalg.cpp:214-226 *)
  Definition bm_row_values (m : band_matrix) (r : Z) (acc : list (Z * Z * T)) : res (list (Z * Z * T)) :=
    let cl := Z.max 0 (r - bB m) in
    let cr := Z.min (bN m - 1) (r + bB m) in
    for_ cl (cr + 1) (fun c acc => v <- aget (bdata m) (r * width m + cl - r + bB m + (c - cl)) ;; Ok (acc ++ [(r, c, v)])) acc.
  Definition bm_values (m : band_matrix) : res (list (Z * Z * T)) :=
    for_ 0 (bN m) (bm_row_values m) [].
End Storage.
Arguments band_matrix T : clear implicits.

(** ---- arithmetic over exact reals ---- *)
Local Open Scope R_scope.
(** the expression &(mat(0,0))-band used to reach the storage: throws for an empty matrix *)
Definition bm_raw {T} (m : band_matrix T) : res (arr T) :=
  x <- bm_ref m 0 0 ;; Ok (bdata m).

(** blas_daxpy, math_linalg.cpp:229-239: Y += alpha*X *)
Definition bm_daxpy (alpha : R) (X Y : band_matrix R) : res (band_matrix R) :=
  if negb ((bN Y =? bN X) && (bB Y =? bB X))%Z then Throw else
  if Req_EM_T alpha 0 then Ok Y else
  x <- bm_raw X ;; y <- bm_raw Y ;;
  d <- for_ 0%Z (bN X * (bB X * 2 + 1))%Z (fun i y => xi <- aget x i ;; yi <- aget y i ;; aset y i (yi + alpha * xi)) y ;;
  Ok (mkBand (bN Y) (bB Y) d).
(** blas_dmul, math_linalg.cpp:241-247 *)
Definition bm_dmul (alpha : R) (Y : band_matrix R) : res (band_matrix R) :=
  y <- bm_raw Y ;;
  d <- for_ 0%Z (bN Y * (bB Y * 2 + 1))%Z (fun i y => yi <- aget y i ;; aset y i (yi * alpha)) y ;;
  Ok (mkBand (bN Y) (bB Y) d).

(** blas_dgemv, math_linalg.cpp:250-278: result = alpha * mat * vec + beta * result (or mat transposed) *)
Definition bm_dgemv (trans : bool) (alpha : R) (m : band_matrix R) (vec : arr R) (beta : R) (result : arr R) : res (arr R) :=
  let size := bN m in let band := bB m in let width := (band * 2 + 1)%Z in
  if negb ((alen vec =? size) && (alen result =? size))%Z then Throw else
  result <- (if Req_EM_T beta 0 then Ok (anew size 0)
             else for_ 0%Z size (fun i r => ri <- aget r i ;; aset r i (ri * beta)) result) ;;
  data <- bm_raw m ;;
  for_ 0%Z size (fun r result =>
    let cl := Z.max 0 (r - band) in
    let cr := Z.min (size - 1) (r + band) in
    if trans then
      vr <- aget vec r ;;
      for_ cl (cr + 1)%Z (fun c result =>
        d <- aget data (r * width + cl - r + band + (c - cl))%Z ;;
        rc <- aget result c ;; aset result c (rc + (alpha * vr) * d)) result
    else
      for_ cl (cr + 1)%Z (fun c result =>
        vc <- aget vec c ;;
        d <- aget data (r * width + cl - r + band + (c - cl))%Z ;;
        rr <- aget result r ;; aset result r (rr + alpha * vc * d)) result) result.

(** 1/p: a zero pivot produces an infinite or NaN result, represented here by [Throw] *)
Definition rinv (p : R) : res R := if Req_EM_T p 0 then Throw else Ok (1 / p).

(** solveBand, math_linalg.cpp:280-325 *)
(** tridiagonal branch, lines 289-300; state: (U, x) *)
Definition solve_tri_row (data rhs : arr R) (i : Z) (st : arr R * arr R) : res (arr R * arr R) :=
  let (U, x) := st in
  diag <- aget data (i * 3 + 1)%Z ;;
  t <- (if (i >? 0)%Z then d <- aget data (i * 3)%Z ;; u <- aget U (i - 1)%Z ;; Ok (d * u) else Ok 0) ;;
  ipiv <- rinv (diag - t) ;;
  d2 <- aget data (i * 3 + 2)%Z ;;
  U <- aset U i (d2 * ipiv) ;;
  ri <- aget rhs i ;;
  t2 <- (if (i >? 0)%Z then d <- aget data (i * 3)%Z ;; xp <- aget x (i - 1)%Z ;; Ok (d * xp) else Ok 0) ;;
  x <- aset x i ((ri - t2) * ipiv) ;;
  Ok (U, x).
Definition solve_tri (size : Z) (data rhs : arr R) : res (arr R) :=
  st <- for_ 0%Z size (solve_tri_row data rhs) (anew size 0, rhs) ;;
  let (U, x) := st in
  fordown (size - 2)%Z 0%Z (fun i x =>
    xi <- aget x i ;; u <- aget U i ;; xn <- aget x (i + 1)%Z ;; aset x i (xi - u * xn)) x.

(** general branch: one row of the elimination, lines 302-319; state: (U, x) *)
Definition solve_gen_row (band : Z) (data : arr R) (i : Z) (st : arr R * arr R) : res (arr R * arr R) :=
  let (U, x) := st in
  let width := (band * 2 + 1)%Z in
  L <- for_ 0%Z width (fun c L => d <- aget data (i * width + c)%Z ;; aset L c d) (anew width 0) ;;
  L <- for_ 1%Z (2 * band)%Z (fun c L =>
         let rmin := Z.max 0 (Z.max (band - i) (c - band)) in
         let rmax := Z.min band c in
         for_ rmin rmax (fun r L =>
           lc <- aget L c ;; lr <- aget L r ;; u <- aget U ((i - band + r) * band + c - r - 1)%Z ;;
           aset L c (lc - lr * u)) L) L ;;
  piv <- aget L band ;;
  ipiv <- rinv piv ;;
  U <- for_ (band + 1)%Z (2 * band + 1)%Z (fun c U => lc <- aget L c ;; aset U (i * band + c - band - 1)%Z (lc * ipiv)) U ;;
  x <- for_ (Z.max 0 (band - i)) band (fun c x =>
         xi <- aget x i ;; lc <- aget L c ;; xc <- aget x (i - band + c)%Z ;; aset x i (xi - lc * xc)) x ;;
  xi <- aget x i ;;
  x <- aset x i (xi * ipiv) ;;
  Ok (U, x).
(** lines 301-324 *)
Definition solve_gen (size band : Z) (data rhs : arr R) : res (arr R) :=
  st <- for_ 0%Z size (solve_gen_row band data) (anew (size * band) 0, rhs) ;;
  let (U, x) := st in
  fordown (size - 2)%Z 0%Z (fun i x =>
    fordown (Z.min (band - 1) (size - 2 - i)) 0%Z (fun j x =>
      xi <- aget x i ;; xj <- aget x (i + j + 1)%Z ;; u <- aget U (i * band + j)%Z ;;
      aset x i (xi - xj * u)) x) x.
Definition solveBand (m : band_matrix R) (rhs : arr R) : res (arr R) :=
  if negb (alen rhs =? bN m)%Z then Throw else
  data <- bm_raw m ;;
  if (bB m =? 1)%Z then solve_tri (bN m) data rhs else solve_gen (bN m) (bB m) data rhs.
