(** Index bookkeeping of spherical-harmonic expansions: src/math_sphharm.{h,cpp}, symmetry flags of coord.h:49-137 (constants in PotModel).
    C++ `int` is Z: the sizes are far below the overflow limit (stated where it matters). *)
From Coq Require Import ZArith List Bool.
From Verif Require Import Base Arr FloatBase PotModel.
Import ListNotations.
Local Open Scope Z_scope.

(** coord.h:78-110 *)
Definition isXReflSymmetric (sym : Z) : bool := Z.eqb (Z.land sym ST_XREFLECTION) ST_XREFLECTION.
Definition isYReflSymmetric (sym : Z) : bool := Z.eqb (Z.land sym ST_YREFLECTION) ST_YREFLECTION.
Definition isZReflSymmetric (sym : Z) : bool := Z.eqb (Z.land sym ST_ZREFLECTION) ST_ZREFLECTION.
Definition isReflSymmetric (sym : Z) : bool := Z.eqb (Z.land sym ST_REFLECTION) ST_REFLECTION.
Definition isBisymmetric (sym : Z) : bool := Z.eqb (Z.land sym ST_BISYMMETRIC) ST_BISYMMETRIC.

(** math_sphharm.h:116-160 SphHarmIndices: lmax, mmax, step, sym, lmin_arr *)
Record shi := mkShi { i_lmax : Z; i_mmax : Z; i_step : Z; i_sym : Z; i_lmin_arr : arr Z }.

(** math_sphharm.cpp:177-183 body of the loop over m that fills lmin_arr; C's m%2 is Z.rem *)
Definition lminm (lmax sym m : Z) : Z :=
  let lm := if isReflSymmetric sym && negb (Z.rem m 2 =? 0) then Z.abs m + 1 else Z.abs m in
  if (isYReflSymmetric sym && (m <? 0)) || (isXReflSymmetric sym && xorb (m <? 0) (negb (Z.rem m 2 =? 0))) || (isBisymmetric sym && negb (Z.rem m 2 =? 0))
  then lmax + 1 else lm.

(** math_sphharm.cpp:156-186 SphHarmIndices::SphHarmIndices *)
Definition SphHarmIndices (lmax mmax sym0 : Z) : res shi :=
  let step := if isZReflSymmetric sym0 || isReflSymmetric sym0 then 2 else 1 in
  if (lmax <? 0) || (mmax <? 0) || (lmax <? mmax) then Throw else
  if isUnknown sym0 then Throw else
  if isXReflSymmetric sym0 && isYReflSymmetric sym0 && isZReflSymmetric sym0 && negb (isReflSymmetric sym0) then Throw else
  let sym1 := if mmax =? 0 then Z.lor (Z.lor (Z.lor sym0 ST_ZROTATION) ST_XREFLECTION) ST_YREFLECTION else sym0 in
  let sym := if lmax =? 0 then Z.lor (Z.lor (Z.lor sym1 ST_ROTATION) ST_ZREFLECTION) ST_REFLECTION else sym1 in
  (** lmin_arr.resize(2*mmax+1); for(m=-mmax; m<=mmax; m++) lmin_arr[m+mmax] = lminm *)
  a <- for_ (- mmax) (mmax + 1) (fun m a => aset a (m + mmax) (lminm lmax sym m)) (anew (2 * mmax + 1) 0) ;;
  Ok (mkShi lmax mmax step sym a).

(** math_sphharm.h:139 size *)
Definition shi_size (i : shi) : Z := (i_lmax i + 1) * (i_lmax i + 1).
(** math_sphharm.h:143 index *)
Definition sh_index (l m : Z) : Z := l * (l + 1) + m.
(** math_sphharm.cpp:188-191 index_l: (int)sqrt(c), in double precision *)
Definition index_l (c : Z) : Z := Btrunc (Bsqrt mode_NE (fofZ c)).
(** math_sphharm.cpp:193-197 index_m *)
Definition index_m (c : Z) : Z := let l := index_l c in c - l * (l + 1).
(** math_sphharm.h:152 lmin; aget cannot fail (C30_no_out_of_range), so the default of the match is never used *)
Definition lmin (i : shi) (m : Z) : Z :=
  if (- i_mmax i <=? m) && (m <=? i_mmax i) then match aget (i_lmin_arr i) (m + i_mmax i) with Ok v => v | _ => 0 end else i_lmax i + 1.
(** math_sphharm.h:155 mmin *)
Definition mmin (i : shi) : Z := if isYReflSymmetric (i_sym i) then 0 else - i_mmax i.

(** for(v=lo; v<=hi; v+=step): the values taken by v *)
Definition range (lo hi step : Z) : list Z := map (fun k => lo + Z.of_nat k * step) (seq 0 (Z.to_nat ((hi - lo) / step + 1))).
(** math_sphharm.h:55-61: the documented double loop over the coefficients; the pairs (l, m) in the order of visiting *)
Definition visited (i : shi) : list (Z * Z) :=
  flat_map (fun m => map (fun l => (l, m)) (range (lmin i m) (i_lmax i) (i_step i))) (range (mmin i) (i_mmax i) 1).

(** math_sphharm.cpp:206-228 loop body of getIndicesFromCoefs for a nonzero coefficient; nz : C[c] != 0; state (sym, mmax).
    sym &= ~FLAG *)
Definition clear (sym flag : Z) : Z := Z.ldiff sym flag.
Definition coef_step (nz : bool) (c : Z) (st : Z * Z) : Z * Z :=
  let '(sym, mmax) := st in
  if nz then
    let l := index_l c in
    let m := index_m c in
    let sym := if Z.rem l 2 =? 1 then clear sym ST_REFLECTION else sym in
    let sym := if m <? 0 then clear sym ST_YREFLECTION else sym in
    let sym := if Z.rem (l + m) 2 =? 1 then clear sym ST_ZREFLECTION else sym in
    let sym := if xorb (m <? 0) (negb (Z.rem m 2 =? 0)) then clear sym ST_XREFLECTION else sym in
    let '(sym, mmax) := if negb (m =? 0) then (clear sym ST_ZROTATION, if mmax <? Z.abs m then Z.abs m else mmax) else (sym, mmax) in
    let sym := if 0 <? l then clear sym ST_ROTATION else sym in
    (sym, mmax)
  else (sym, mmax).
(** a coefficient, as far as this function looks at it *)
Inductive coef := CNotFinite | CZero | CNonzero.
(** math_sphharm.cpp:199-230 getIndicesFromCoefs *)
Definition getIndicesFromCoefs (C : list coef) : res shi :=
  let size := zlen C in
  let lmax := index_l size - 1 in
  if (lmax <? 0) || negb (size =? (lmax + 1) * (lmax + 1)) then Throw else
  s <- for_ 0 size (fun c st => x <- get C c ;; match x with CNotFinite => Throw | CZero => Ok (coef_step false c st) | CNonzero => Ok (coef_step true c st) end) (ST_SPHERICAL, 0) ;;
  SphHarmIndices lmax (snd s) (fst s).

(** math_sphharm.cpp:232-262 getIndicesAzimuthal: body of the loop over m, result of push_back *)
Definition azim_step (sym m : Z) (result : list Z) : list Z :=
  if isBisymmetric sym && negb (Z.rem m 2 =? 0) then result else
  let addminusm := if isYReflSymmetric sym then false else true in
  let addplusm := if isXReflSymmetric sym && (Z.rem m 2 =? 1) then false else true in
  let addminusm := if isXReflSymmetric sym && negb (Z.rem m 2 =? 1) then false else addminusm in
  let result := if addminusm then result ++ [- m] else result in
  if addplusm then result ++ [m] else result.
Definition getIndicesAzimuthal (mmax sym : Z) : res (list Z) :=
  if isUnknown sym then Throw else
  if mmax <? 0 then Throw else
  if Z.eqb (Z.land sym ST_ZROTATION) ST_ZROTATION then Ok [0] else
  for_ 1 (mmax + 1) (fun m r => Ok (azim_step sym m r)) [0].

(** potential_multipole.cpp:118-153 restrictSphHarmCoefs, for the harmonic terms of K arrays: term c is the list of its radial values in all K arrays,
    concatenated; nonzeroTerms is filled by the documented double loop *)
Definition nonzeroTerms (ind : shi) : res (arr bool) :=
  fold_left (fun r lm => a <- r ;; aset a (sh_index (fst lm) (snd lm)) true) (visited ind) (Ok (anew (shi_size ind) false)).
(** one harmonic term: for each of the K arrays, the values at all radii *)
Definition term := list (list R).
Definition term_zero (t : term) : bool := forallb (forallb (fun x => if Req_EM_T x 0 then true else false)) t.
Definition zero_out (t : term) : term := map (map (fun _ => 0%R)) t.
Definition restrictSphHarmCoefs (lmax mmax sym : Z) (coefs : list term) : res (list term) :=
  ind <- SphHarmIndices lmax mmax sym ;;
  nz <- nonzeroTerms ind ;;
  s <- for_ 0 (zlen coefs) (fun c '(out, lact) =>
    t <- get coefs c ;;
    let l := index_l c in let m := index_m c in
    drop <- (if (lmax <? l) || (mmax <? Z.abs m) then Ok true else b <- aget nz c ;; Ok (negb b)) ;;
    let isZero := if (drop : bool) then true else term_zero t in
    let t' := if drop then zero_out t else t in
    Ok (out ++ [t'], if isZero then lact else Z.max lact l)) ([], 0) ;;
  let '(out, lact) := s in
  (** resize down to (lmax_actual+1)^2 *)
  Ok (if (lact + 1) * (lact + 1) <? zlen out then firstn (Z.to_nat ((lact + 1) * (lact + 1))) out else out).
