(** Roots and extrema of one-dimensional interpolators, /repo/src/math_spline.cpp.  Exact reals.
    Simplifications: numbers are finite, except that an argument x1, x2 may be NaN ([None], the default); a failed assertion is [UB]. *)
From Verif Require Export Arr BinSearchModel SplineModel PolyModel SplIntModel BsplModel.
From Coq Require Export List Bool.
Export ListNotations.
Local Open Scope Z_scope.

(** math_spline.cpp:397-400 *)
Definition isLarger (x1 x2 : R) : bool := Rle_b (x2 + Rmax (Rabs x1) (Rabs x2) * (10 * deps))%R x1.
(** swapIfNeeded, fmax, fmin: math_spline.cpp:388-395, 943-945 *)
Definition interval (xval : arr R) (x1 x2 : option R) : res (R * R) :=
  x0 <- aget xval 0 ;; xn <- aget xval (alen xval - 1) ;;
  let xx := match x1, x2 with Some p, Some q => if Rlt_b q p then (x2, x1) else (x1, x2) | _, _ => (x1, x2) end in
  Ok (match fst xx with Some p => Rmax p x0 | None => x0 end, match snd xx with Some q => Rmin q xn | None => xn end).
(** math_spline.cpp:954-958 *)
Definition segments (xval : arr R) (a b : R) : res (Z * Z) :=
  i1 <- binSearchR a (alist xval) ;;
  i2 <- binSearchR b (alist xval) ;;
  if (0 <=? i1) && (i1 <=? i2) && (i2 <=? alen xval - 2) then Ok (i1, i2) else UB.
(** roots[k] >= t1 && roots[k] <= t2 && (result.empty() || isLarger(roots[k], result.back())); lists of results are kept in reverse order *)
Definition admit_root (t1 t2 : R) (result : list R) (r : R) : bool :=
  Rle_b t1 r && Rle_b r t2 && match result with [] => true | p :: _ => isLarger r p end.

(** math_spline.cpp:934-993 findRoots<false>; rootFnc gives the list of roots of the polynomial on the given segment, relative to its left boundary *)
Definition pushRoot (t1 t2 : R) (result : list R) (r : R) : list R := if admit_root t1 t2 result r then r :: result else result.
Definition findRoots (xval : arr R) (rootFnc : Z -> res (list R)) (x1 x2 : option R) : res (list R) :=
  if alen xval =? 0 then Ok [] else
  ab <- interval xval x1 x2 ;;
  let (a, b) := ab : R * R in
  if Req_b a b then Ok [] else
  ij <- segments xval a b ;;
  result <- for_ (fst ij) (snd ij + 1) (fun i result =>
    xi <- aget xval i ;; xj <- aget xval (i + 1) ;;
    roots <- rootFnc i ;;
    if (4 <? length roots)%nat then UB else
    Ok (fold_left (pushRoot (Rmax a xi) (Rmin b xj)) (map (fun r => (r + xi)%R) roots) result)) [] ;;
  Ok (rev result).
(** math_spline.cpp:934-993 findRoots<true>; the state is the list of results, prevValue, sign *)
Definition extState := (list R * R * R)%type.
Definition pushExt (ev : R -> res R) (t1 t2 : R) (st : extState) (r : R) : res extState :=
  let '(result, prev, sign) := st in
  if admit_root t1 t2 result r then
    v <- ev r ;;
    if (Rlt_b 0 sign && Rlt_b prev v) || (Rlt_b sign 0 && Rlt_b v prev) then Ok (r :: tl result, v, sign)
    else if negb (Req_b v prev) then Ok (r :: result, v, if Rlt_b prev v then 1 else -1)%R
    else Ok st
  else Ok st.
Fixpoint foldRes {A B} (f : B -> A -> res B) (l : list A) (s : B) : res B :=
  match l with [] => Ok s | x :: l => s' <- f s x ;; foldRes f l s' end.
Definition findExtrema (xval : arr R) (ev : R -> res R) (rootFnc : Z -> res (list R)) (x1 x2 : option R) : res (list R) :=
  if alen xval =? 0 then Ok [] else
  ab <- interval xval x1 x2 ;;
  let (a, b) := ab : R * R in
  prev <- ev a ;;
  if Req_b a b then Ok [a] else
  ij <- segments xval a b ;;
  st <- for_ (fst ij) (snd ij + 1) (fun i st =>
    xi <- aget xval i ;; xj <- aget xval (i + 1) ;;
    roots <- rootFnc i ;;
    if (4 <? length roots)%nat then UB else
    foldRes (pushExt ev (Rmax a xi) (Rmin b xj)) (map (fun r => (r + xi)%R) roots ++ if i =? snd ij then [Rmin b xj] else []) st) ([a], prev, 0%R) ;;
  Ok (rev (fst (fst st))).

(** math_spline.cpp:998-1027 RootsCubicSpline<D> *)
Definition rootsCubic (D : nat) (xval fval fder : arr R) (y : R) (index : Z) : res (list R) :=
  x1 <- aget xval (index + 1) ;; x0 <- aget xval index ;; f1 <- aget fval (index + 1) ;; f0 <- aget fval index ;; dl <- aget fder index ;; dh <- aget fder (index + 1) ;;
  let dx := (x1 - x0)%R in let dy := (f1 - f0)%R in
  let a := ((dl + dh - 2 * dy / dx) / pow_2 dx)%R in
  let b := ((3 * dy / dx - 2 * dl - dh) / dx)%R in
  let c := dl in
  Ok (match D with O => solveCubic a b c (f0 - y)%R | _ => solveQuadratic (3 * a)%R (2 * b)%R c end).
(** math_spline.cpp:1031-1055 RootsDerivQuinticSpline *)
Definition rootsDerivQuintic (xval fval fder fder2 : arr R) (index : Z) : res (list R) :=
  x1 <- aget xval (index + 1) ;; x0 <- aget xval index ;; f1 <- aget fval (index + 1) ;; f0 <- aget fval index ;; dl <- aget fder index ;; dh <- aget fder (index + 1) ;;
  sl <- aget fder2 index ;; sh <- aget fder2 (index + 1) ;;
  (let dx := x1 - x0 in let dy := f1 - f0 in
  let a := 25 / 10 * (sh - sl) * dx - 15 * (dh + dl) + 30 * dy / dx in
  let b := ((6 * sl - 4 * sh) * dx + 32 * dl + 28 * dh) * dx - 60 * dy in
  let c := (((15 / 10 * sh - 45 / 10 * sl) * dx - 18 * dl - 12 * dh) * dx + 30 * dy) * dx in
  let d := sl * pow_2 (pow_2 dx) in
  let e := dl * pow_2 (pow_2 dx) in
  Ok (solveQuartic a b c d e))%R.
(** math_spline.cpp:1057-1083 RootsBspline<N,D>; coefs[d-D] is the derivative of order d at the left boundary of the segment *)
Definition rootsBspline (N D : nat) (xval ampl : arr R) (y : R) (index : Z) : res (list R) :=
  xi <- aget xval index ;;
  let coef k := bsplDeriv N (D + k) (mkBW xval ampl) xi index in
  match (N - D)%nat with
  | 3%nat => c0 <- coef 0%nat ;; c1 <- coef 1%nat ;; c2 <- coef 2%nat ;; c3 <- coef 3%nat ;; Ok (solveCubic (1 / 6 * c3) (1 / 2 * c2) c1 (c0 - y))%R
  | 2%nat => c0 <- coef 0%nat ;; c1 <- coef 1%nat ;; c2 <- coef 2%nat ;; Ok (solveQuadratic (1 / 2 * c2) c1 (c0 - y))%R
  | 1%nat => c0 <- coef 0%nat ;; c1 <- coef 1%nat ;; Ok (solveLinear c1 (c0 - y))%R
  | _ => UB
  end.
(** math_spline.cpp:1085-1115 findExtremaBspline<N>, N=0 or 1 *)
Definition findExtremaBspline (N : nat) (xval ampl : arr R) (x1 x2 : option R) : res (list R) :=
  let size := alen xval in
  if size =? 0 then Ok [] else
  ab <- interval xval x1 x2 ;;
  let (a, b) := ab : R * R in
  i1 <- binSearchR a (alist xval) ;;
  i2 <- binSearchR b (alist xval) ;;
  if negb ((0 <=? i1) && (i2 <=? size - 2)) then UB else
  result <- for_ (i1 + 1) (i2 + 1) (fun i result =>
    this <- aget ampl i ;; prev <- aget ampl (i - 1) ;;
    next <- (if (N =? 0)%nat && (i =? size - 2) then Ok this else aget ampl (i + 1)) ;;
    xi <- aget xval i ;;
    Ok (if negb (Req_b this prev) && Rle_b ((this - prev) * (next - this))%R 0 then xi :: result else result)) [a] ;;
  last <- (if (N =? 1)%nat then
      xi2 <- aget xval i2 ;;
      if Rlt_b xi2 b then a1 <- aget ampl (i2 + 1) ;; a0 <- aget ampl i2 ;; Ok (negb (Req_b a1 a0)) else Ok false
    else Ok false) ;;
  Ok (rev (if last : bool then b :: result else result)).

(** LinearInterpolator::roots, extrema: math_spline.cpp:1255-1263 *)
Definition linRoots (s : linSpline) (y : R) (x1 x2 : option R) : res (list R) := findRoots (l_x s) (rootsBspline 1 0 (l_x s) (l_f s) y) x1 x2.
Definition linExtrema (s : linSpline) (x1 x2 : option R) : res (list R) := findExtremaBspline 1 (l_x s) (l_f s) x1 x2.
(** CubicSpline::roots, extrema: math_spline.cpp:1365-1373 *)
Definition cubRoots (s : cubSpline) (y : R) (x1 x2 : option R) : res (list R) := findRoots (c_x s) (rootsCubic 0 (c_x s) (c_f s) (c_d s) y) x1 x2.
Definition cubExtrema (s : cubSpline) (x1 x2 : option R) : res (list R) :=
  findExtrema (c_x s) (i_ev (cubI s)) (rootsCubic 1 (c_x s) (c_f s) (c_d s) 0) x1 x2.
(** QuinticSpline::extrema: math_spline.cpp:1481-1484 *)
Definition quiExtrema (s : quiSpline) (x1 x2 : option R) : res (list R) :=
  findExtrema (q_x s) (i_ev (quiI s)) (rootsDerivQuintic (q_x s) (q_f s) (q_d s) (q_d2 s)) x1 x2.
(** BsplineWrapper<0>::roots, math_spline.cpp:1805-1822 *)
Definition bsplRoots0 (s : bsplWrapper) (y : R) (x1 x2 : option R) : res (list R) :=
  let xval := b_x s in let ampl := b_a s in
  if alen xval =? 0 then Ok [] else
  ab <- interval xval x1 x2 ;;
  let (a, b) := ab : R * R in
  i1 <- binSearchR a (alist xval) ;;
  b2 <- binSearchR b (alist xval) ;;
  let i2 := b2 + 1 in
  result <- for_ (i1 + 1) i2 (fun i result =>
    a0 <- aget ampl (i - 1) ;; a1 <- aget ampl i ;; xi <- aget xval i ;;
    Ok (if Rle_b ((a0 - y) * (a1 - y))%R 0 then xi :: result else result)) [] ;;
  Ok (rev result).
(** BsplineWrapper<N>::roots, extrema: math_spline.cpp:1791-1803, 1824-1838 *)
Definition bsplRoots (N : nat) (s : bsplWrapper) (y : R) (x1 x2 : option R) : res (list R) :=
  match N with O => bsplRoots0 s y x1 x2 | _ => findRoots (b_x s) (rootsBspline N 0 (b_x s) (b_a s) y) x1 x2 end.
Definition bsplExtrema (N : nat) (s : bsplWrapper) (x1 x2 : option R) : res (list R) :=
  match N with
  | O => findExtremaBspline 0 (b_x s) (b_a s) x1 x2
  | 1%nat => findExtremaBspline 1 (b_x s) (b_a s) x1 x2
  | _ => findExtrema (b_x s) (i_ev (bsplI N s)) (rootsBspline N 1 (b_x s) (b_a s) 0) x1 x2
  end.
