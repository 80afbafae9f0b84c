(** Model of math::binSearch (/repo/src/math_core.cpp:202-233), generic in the number type. *)
From Verif Require Export Base.
From Coq Require Import Reals.
Local Open Scope Z_scope.

Section Generic.
  Context {T : Type}.
  (** the comparison operators >=, >, < of the C++ number type *)
  Variables (geb gtb ltb : T -> T -> bool).
  (** the initial guess, math_core.cpp:210: (x-arr[0]) / (arr[size-1]-arr[0]) * (size-1) cast to ptrdiff_t;
      arguments x, arr[0], arr[size-1], size *)
  Variable guess : T -> T -> T -> Z -> res Z.

  (** while loop, math_core.cpp:225-231; ptrdiff_t arithmetic does not overflow for indices of an array *)
  Fixpoint bs_loop (fuel : nat) (x : T) (arr : list T) (index indhi : Z) : res Z :=
    if indhi >? index + 1 then
      match fuel with
      | O => Fuel
      | S fuel' =>
        let i := Z.quot (indhi + index) 2 in
        a <- get arr i ;;
        if gtb a x then bs_loop fuel' x arr index i else bs_loop fuel' x arr i indhi
      end
    else Ok index.

  (** math_core.cpp:203-233 *)
  Definition binSearch (x : T) (arr : list T) : res Z :=
    let size := zlen arr in
    let loop lo hi := bs_loop (Z.to_nat (hi - lo)) x arr lo hi in
    if size <? 1 then Ok (-1) else
    a0 <- get arr 0 ;;
    if negb (geb x a0) then Ok (-1) else
    aN <- get arr (size - 1) ;;
    if gtb x aN || (size <? 2) then Ok (size - 1) else
    index <- guess x a0 aN size ;;
    if index =? size - 1 then Ok (size - 2) else
    ai <- get arr index ;;
    if geb x ai then
      a1 <- get arr (index + 1) ;;
      if ltb x a1 then Ok index else loop index (size - 1)
    else loop 0 index.
End Generic.

(** ---- integer element types (template instantiations at math_core.cpp:237-242) ----
    [lo,hi] is the range of the type; overflow of the subtractions is undefined behaviour for signed types
    (wrap-around for unsigned types cannot occur since x>=arr[0] and arr[size-1]>=x).  The quotient is an
    integer division, then multiplied by size-1 as size_t (no overflow: the quotient is 0 or 1). *)
Definition guess_int (lo hi : Z) (x a0 aN size : Z) : res Z :=
  let num := x - a0 in
  let den := aN - a0 in
  if (num <? lo) || (hi <? num) || (den <? lo) || (hi <? den) then UB else
  if den =? 0 then UB else Ok (Z.quot num den * (size - 1)).
Definition binSearchInt (lo hi : Z) : Z -> list Z -> res Z :=
  binSearch Z.geb Z.gtb Z.ltb (guess_int lo hi).

(** ---- exact real numbers: the double version without rounding; division by zero (all nodes equal) is
    NaN in the code and its conversion to ptrdiff_t is undefined ---- *)
Definition Rgeb (x y : R) : bool := if Rle_dec y x then true else false.
Definition Rgtb (x y : R) : bool := if Rlt_dec y x then true else false.
Definition Rltb (x y : R) : bool := if Rlt_dec x y then true else false.
(** truncation towards zero of a non-negative real *)
Definition trunc_nonneg (r : R) : Z := Int_part r.
Definition guess_R (x a0 aN : R) (size : Z) : res Z :=
  if Req_EM_T (aN - a0) 0 then UB else Ok (trunc_nonneg ((x - a0) / (aN - a0) * IZR (size - 1))).
Definition binSearchR : R -> list R -> res Z := binSearch Rgeb Rgtb Rltb guess_R.
