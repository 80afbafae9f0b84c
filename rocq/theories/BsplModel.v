(** B-splines, /repo/src/math_spline.cpp.  Exact reals.
    Simplifications: numbers are finite (NaN arguments are not modelled; [None] stands for a NaN result); GLPOINTS, GLWEIGHTS are a parameter;
    the template parameters N (degree) and Order are ordinary arguments. *)
From Verif Require Export Arr BinSearchModel SplineModel PolyModel SplIntModel.
Local Open Scope Z_scope.

(** grid[i<0 ? 0 : i>=size ? size-1 : i], lines 39-40 and 51-52 *)
Definition gridAt (grid : arr R) (i : Z) : res R :=
  aget grid (if i <? 0 then 0 else if alen grid <=? i then alen grid - 1 else i).
(** math_spline.cpp:36-46 *)
Definition linInt (x : R) (grid : arr R) (i1 i2 : Z) : res R :=
  x1 <- gridAt grid i1 ;; x2 <- gridAt grid i2 ;;
  Ok (if Req_b x1 x2 then (if Req_b x x1 then 1 else 0) else (x - x1) / (x2 - x1))%R.
(** math_spline.cpp:49-54 *)
Definition denom (grid : arr R) (i1 i2 : Z) : res R :=
  x1 <- gridAt grid i1 ;; x2 <- gridAt grid i2 ;;
  Ok (if Req_b x1 x2 then 0 else 1 / (x2 - x1))%R.

(** math_spline.cpp:66-83 bsplineValues<N>; the output array B has N+1 elements; the inner loop variables are i=N-k, j=ind-k *)
Definition bsplineValues (N : Z) (x : R) (ind : Z) (grid : arr R) : res (arr R) :=
  B <- for_ 0 (N + 1) (fun i B => aset B i (if i =? N then 1 else 0)%R) (anew (N + 1) 0%R) ;;
  for_ 1 (N + 1) (fun l B =>
    st <- for_ 0 (l + 1) (fun k (st : arr R * R) =>
      let (B, Bip1) := st in
      let i := N - k in let j := ind - k in
      b <- aget B i ;;
      w1 <- linInt x grid j (j + l) ;;
      w2 <- linInt x grid (j + l + 1) (j + 1) ;;
      B <- aset B i (b * w1 + Bip1 * w2)%R ;;
      Ok (B, b)) (B, 0%R) ;;
    Ok (fst st)) B.

(** math_spline.cpp:85-127 bsplineDerivs<N,Order>; the recursive call fills B[1..N] *)
Fixpoint bsplineDerivs (N Order : nat) (x : R) (ind : Z) (grid : arr R) : res (arr R) :=
  match Order with
  | O => bsplineValues (Z.of_nat N) x ind grid
  | Datatypes.S o =>
    match N with
    | O => UB  (* assert(!"Should not be called") *)
    | Datatypes.S n =>
      B1 <- bsplineDerivs n o x ind grid ;;
      let NN := Z.of_nat N in
      let B := mkArr (NN + 1) (fun i => if i =? 0 then 0%R else afn B1 (i - 1)) in
      for_ 0 (NN + 1) (fun i B =>
        let j := ind - NN + i in
        b <- aget B i ;;
        d1 <- denom grid j (j + NN) ;;
        t <- (if i <? NN then bn <- aget B (i + 1) ;; d2 <- denom grid (j + NN + 1) (j + 1) ;; Ok (bn * d2)%R else Ok 0%R) ;;
        aset B i (IZR NN * (b * d1 + t))%R) B
    end
  end.

(** \sum_i bspl[i] * ampl[i+ind] *)
Definition bsplSum (N : nat) (bspl ampl : arr R) (ind : Z) : res R :=
  for_ 0 (Z.of_nat N + 1) (fun i s => b <- aget bspl i ;; a <- aget ampl (i + ind) ;; Ok (s + b * a)%R) 0%R.

(** math_spline.h:431-466 *)
Record bsplWrapper := mkBW { b_x : arr R; b_a : arr R }.
(** math_spline.cpp:1722-1730 (BaseInterpolator1d checks the grid) *)
Definition bsplNew (N : nat) (xval ampl : arr R) : res bsplWrapper :=
  u <- checkMonotonic xval ;;
  if alen xval <? 2 then Throw else
  if negb (alen ampl =? alen xval + Z.of_nat N - 1) then Throw else Ok (mkBW xval ampl).
(** the derivative of the given order, or 0 when N is less than that: lines 1747-1770 *)
Definition bsplDeriv (N d : nat) (s : bsplWrapper) (x : R) (ind : Z) : res R :=
  if (d <=? N)%nat then B <- bsplineDerivs N d x ind (b_x s) ;; bsplSum N B (b_a s) ind else Ok 0%R.
(** math_spline.cpp:1732-1771 *)
Definition bsplEval (N : nat) (s : bsplWrapper) (x : R) : res (option vals) :=
  let size := alen (b_x s) in
  ind <- binSearchR x (alist (b_x s)) ;;
  if (ind <? 0) || (size - 1 <=? ind) then Ok None else
  v0 <- bsplDeriv N 0 s x ind ;; v1 <- bsplDeriv N 1 s x ind ;; v2 <- bsplDeriv N 2 s x ind ;; v3 <- bsplDeriv N 3 s x ind ;;
  Ok (Some (v0, v1, v2, v3)).
Definition bsplI (N : nat) (s : bsplWrapper) : interp := mkInterp (b_x s) (fun x => valueOf (bsplEval N s x)).

(** math_spline.cpp:878-914 integrateBspline<N> *)
Definition integrateBspline (T : gltab) (N : nat) (xval ampl : arr R) (x1 x2 : R) (n : Z) : res R :=
  let order := (Z.of_nat N + n) / 2 + 1 in
  if MAX_GL_TABLE <=? order then Throw else
  let flip := Rlt_b x2 x1 in
  let a := if flip then x2 else x1 in let b := if flip then x1 else x2 in
  let size := alen xval in
  b1 <- binSearchR a (alist xval) ;;
  b2 <- binSearchR b (alist xval) ;;
  let i1 := Z.max b1 0 in let i2 := Z.min b2 (size - 2) in
  result <- for_ i1 (i2 + 1) (fun i result =>
    yl <- aget xval i ;; yh <- aget xval (i + 1) ;;
    let xleft := Rmax yl a in
    let dx := (Rmin yh b - xleft)%R in
    for_ 0 order (fun k result =>
      let x := (xleft + glp T order k * dx)%R in
      bspl <- bsplineValues (Z.of_nat N) x i xval ;;
      fval <- bsplSum N bspl ampl i ;;
      Ok (result + fval * x ^ Z.to_nat n * dx * glw T order k)%R) result) 0%R ;;
  Ok (if flip then - result else result)%R.

(** ---- BsplineInterpolator1d ---- *)
(** math_spline.cpp:1848-1855: xval.size()<2 is tested first; numComp = xval.size()+N-1 *)
Definition bi1New (xval : arr R) : res (arr R) := if alen xval <? 2 then Throw else u <- checkMonotonic xval ;; Ok xval.
Definition numComp (N : nat) (xval : arr R) : Z := alen xval + Z.of_nat N - 1.
(** math_spline.cpp:1857-1868; bsplineDerivs with an integer order (lines 131-141) throws if it exceeds 3 *)
Definition nonzeroComponents (N : nat) (xval : arr R) (x : R) (d : nat) : res (Z * arr R) :=
  let size := alen xval in
  ind <- binSearchR x (alist xval) ;;
  if (ind <? 0) || (size - 1 <=? ind) || (N <? d)%nat then Ok (if ind <? 0 then 0 else size - 2, anew (Z.of_nat N + 1) 0%R) else
  if (3 <? d)%nat then Throw else
  B <- bsplineDerivs N d x ind xval ;; Ok (ind, B).
(** math_spline.cpp:1870-1883 *)
Definition bi1Interpolate (N : nat) (xval : arr R) (x : R) (ampl : arr R) (d : nat) : res R :=
  if negb (alen ampl =? numComp N xval) then Throw else
  if (N <? d)%nat then Ok 0%R else
  st <- nonzeroComponents N xval x d ;; let (ind, B) := st : Z * arr R in bsplSum N B ampl ind.
(** math_spline.cpp:1885-1894 eval: bsplineValues writes to bspl[ind], ..., bspl[ind+N], where bspl is a local array of N+1 elements:
    out of bounds unless ind=0; the output array holds zeros *)
Definition bi1Eval (N : nat) (xval : arr R) (x : R) : res (arr R) :=
  let values := anew (numComp N xval) 0%R in
  let size := alen xval in
  ind <- binSearchR x (alist xval) ;;
  if (ind <? 0) || (size - 1 <=? ind) then Ok values else
  if negb (ind =? 0) then UB else
  B <- bsplineValues (Z.of_nat N) x ind xval ;; Ok values.
(** math_spline.cpp:1896-1906 *)
Definition bi1AddPoint (N : nat) (xval : arr R) (x mult : R) (values : arr R) : res (arr R) :=
  let size := alen xval in
  ind <- binSearchR x (alist xval) ;;
  if (ind <? 0) || (size - 1 <=? ind) then Ok values else
  bspl <- bsplineValues (Z.of_nat N) x ind xval ;;
  for_ 0 (Z.of_nat N + 1) (fun i values => b <- aget bspl i ;; v <- aget values (i + ind) ;; aset values (i + ind) (v + mult * b)%R) values.
(** math_spline.cpp:1908-1919; N>=1 *)
Definition bi1Deriv (N : nat) (xval : arr R) (ampl : arr R) : res (arr R) :=
  if negb (alen ampl =? numComp N xval) then Throw else
  r <- for_ 0 (numComp N xval - 1) (fun i r =>
    rn <- aget r (i + 1) ;; ri <- aget r i ;; d <- denom xval (i - Z.of_nat N + 1) (i + 1) ;;
    aset r i (INR N * (rn - ri) * d)%R) ampl ;;
  Ok (mkArr (alen r - 1) (afn r)).
(** math_spline.cpp:1921-1931 *)
Definition bi1Antideriv (N : nat) (xval : arr R) (ampl : arr R) : res (arr R) :=
  if negb (alen ampl =? numComp N xval) then Throw else
  for_ 0 (numComp N xval) (fun i r =>
    ri <- aget r i ;; a <- aget ampl i ;; d <- denom xval (i - Z.of_nat N) (i + 1) ;;
    aset r (i + 1) (ri + a / INR (N + 1) / d)%R) (anew (numComp N xval + 1) 0%R).
(** math_spline.cpp:1933-1940 *)
Definition bi1Integrate (T : gltab) (N : nat) (xval : arr R) (x1 x2 : R) (ampl : arr R) (n : Z) : res R :=
  if negb (alen ampl =? numComp N xval) then Throw else integrateBspline T N xval ampl x1 x2 n.
