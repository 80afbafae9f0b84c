(** Integration of one-dimensional interpolators, /repo/src/math_spline.cpp.  Exact reals.
    Simplifications: numbers are finite; the tables GLPOINTS, GLWEIGHTS of math_core.cpp are a parameter. *)
From Verif Require Export Arr BinSearchModel SplineModel PolyModel.
Local Open Scope Z_scope.

(** math_core.h:544 *)
Definition MAX_GL_TABLE : Z := 20.
(** GLPOINTS[order][k], GLWEIGHTS[order][k] (math_core.h:546-549) *)
Record gltab := mkGL { glp : Z -> Z -> R; glw : Z -> Z -> R }.
(** what the generic routines use of a BaseInterpolator1d: xvalues() and operator() (math_spline.h:88-140) *)
Record interp := mkInterp { i_x : arr R; i_ev : R -> res R }.
(** the value returned by operator() of an interpolator with a method evalDeriv; NaN for an empty interpolator is not needed *)
Definition valueOf (r : res (option vals)) : res R := v <- r ;; match v with Some v => Ok (v_f v) | None => Throw end.
Definition linI (s : linSpline) : interp := mkInterp (l_x s) (fun x => valueOf (linearEval s x)).
Definition cubI (s : cubSpline) : interp := mkInterp (c_x s) (fun x => valueOf (cubicEval s x)).
Definition quiI (s : quiSpline) : interp := mkInterp (q_x s) (fun x => valueOf (quinticEval s x)).

(** reading an element of memory allocated by alloca, which holds an indeterminate value until it is written *)
Definition oget {A} (a : arr (option A)) (i : Z) : res A := v <- aget a i ;; match v with Some v => Ok v | None => UB end.

(** math_spline.cpp:375-387 vandermonde<N>; x, y are arrays of length N+1 *)
Definition vandermonde (N : Z) (x y : arr R) : res (arr R) :=
  let c := anew (N + 1) 0%R in
  c <- for_ 0 (N + 1) (fun i c => yi <- aget y i ;; aset c i yi) c ;;
  c <- for_ 0 N (fun i c => fordown N (i + 1) (fun j c =>
         cj <- aget c j ;; ck <- aget c (j - 1) ;; xj <- aget x j ;; xk <- aget x (j - i - 1) ;;
         aset c j ((cj - ck) / (xj - xk))%R) c) c ;;
  fordown (N - 1) 0 (fun i c => for_ i N (fun j c =>
         xi <- aget x i ;; cj <- aget c j ;; ck <- aget c (j + 1) ;; aset c j (cj - xi * ck)%R) c) c.

(** math_spline.cpp:778-785, 845-855: the range of segments; None: x1>=x2, the integral is zero *)
Definition segRange (xval : arr R) (x1 x2 : R) : res (Z * Z) :=
  let size := alen xval in
  i1 <- binSearchR x1 (alist xval) ;;
  b2 <- binSearchR x2 (alist xval) ;;
  let i2 := b2 + 1 in
  xp <- aget xval (i2 - 1) ;;
  let i2 := if Req_b x2 xp then i2 - 1 else i2 in
  if (0 <=? i1) && (i1 <? i2) && (i2 <? size) then Ok (i1, i2) else UB.

(** math_spline.cpp:786-823: the part of integratePiecewise<N,CONV> after the range of segments is determined; x is the argument
    of the convolution *)
Definition integrateSegs (N : Z) (CONV : bool) (S : interp) (F : R -> R -> Z -> R) (x x1 x2 : R) (i1 i2 : Z) : res R :=
  let xval := i_x S in
  let tlo yl yh := (if CONV then x - yh else Rmax x1 yl)%R in
  let thi yl yh := (if CONV then x - yl else Rmin x2 yh)%R in
  st <- for_ i1 i2 (fun i (st : arr (option R) * R) =>
          let (I0, sum) := st in
          yl <- aget xval i ;; yh <- aget xval (i + 1) ;;
          I0 <- aset I0 (i - i1) (Some (F (tlo yl yh) (thi yl yh) 0)) ;;
          a <- oget I0 i ;;
          Ok (I0, (sum + a)%R)) (anew (i2 - i1) None, 0%R) ;;
  let (I0, sum) := st : arr (option R) * R in
  for_ i1 i2 (fun i result =>
    Ii <- oget I0 (i - i1) ;;
    if Rlt_b (Rabs Ii) (Rabs sum * deps)%R then Ok result else
    yl <- aget xval i ;; yh <- aget xval (i + 1) ;;
    tv <- for_ 0 (N + 1) (fun k (tv : arr R * arr R) =>
            let (t, v) := tv in
            let yk := (yl + (IZR k + / 2) / IZR (N + 1) * (yh - yl))%R in
            t <- aset t k (if CONV then x - yk else yk)%R ;;
            sv <- i_ev S yk ;;
            v <- aset v k sv ;;
            Ok (t, v)) (anew (N + 1) 0%R, anew (N + 1) 0%R) ;;
    let (t, v) := tv : arr R * arr R in
    c <- vandermonde N t v ;;
    for_ 0 (N + 1) (fun n result =>
      let In := if n =? 0 then Ii else F (tlo yl yh) (thi yl yh) n in
      cn <- aget c n ;;
      Ok (result + In * cn)%R) result) 0%R.

(** math_spline.cpp:751-825 integratePiecewise<N,false>: the integral of S times F from a to b *)
Definition integrateProduct (N : Z) (S : interp) (F : R -> R -> Z -> R) (a b : R) : res R :=
  let xval := i_x S in
  let size := alen xval in
  if size <? 2 then Ok 0%R else
  x0 <- aget xval 0 ;; xe <- aget xval (size - 1) ;;
  let flip := negb (Rle_b a b) in
  let x1 := Rmax (if flip then b else a) x0 in
  let x2 := Rmin (if flip then a else b) xe in
  if Rle_b x2 x1 then Ok 0%R else
  ij <- segRange xval x1 x2 ;;
  result <- integrateSegs N false S F 0 x1 x2 (fst ij) (snd ij) ;;
  Ok (if flip then - result else result)%R.
(** math_spline.cpp:751-825 integratePiecewise<N,true>: the convolution of S with F at the point x *)
Definition convolve (N : Z) (S : interp) (F : R -> R -> Z -> R) (x : R) : res R :=
  let xval := i_x S in
  let size := alen xval in
  if size <? 2 then Ok 0%R else
  x0 <- aget xval 0 ;; xe <- aget xval (size - 1) ;;
  integrateSegs N true S F x x0 xe 0 (size - 1).

(** math_core.cpp:436-439 Monomial::integrate for m+n>=0 *)
Definition monomialIntegrate (m : Z) (x1 x2 : R) (n : Z) : R := ((x2 ^ Z.to_nat (m + n + 1) - x1 ^ Z.to_nat (m + n + 1)) / IZR (m + n + 1))%R.

(** math_spline.cpp:833-866 integratePiecewise<N>: the integral of S times y^n from x1 to x2; n>=0 *)
Definition integratePower (T : gltab) (N : Z) (S : interp) (x1 x2 : R) (n : Z) : res R :=
  let order := (N + n) / 2 + 1 in
  if MAX_GL_TABLE <? order then integrateProduct N S (monomialIntegrate n) x1 x2 else
  let xval := i_x S in
  let size := alen xval in
  if size <? 2 then Ok 0%R else
  x0 <- aget xval 0 ;; xe <- aget xval (size - 1) ;;
  let flip := Rlt_b x2 x1 in
  let a := if flip then x2 else x1 in let b := if flip then x1 else x2 in
  let x1 := Rmax a x0 in
  let x2 := Rmin b xe in
  if Rle_b x2 x1 then Ok 0%R else
  ij <- segRange xval x1 x2 ;;
  result <- for_ (fst ij) (snd ij) (fun i result =>
    yl <- aget xval i ;; yh <- aget xval (i + 1) ;;
    let xleft := Rmax yl x1 in
    let dx := (Rmin yh x2 - xleft)%R in
    for_ 0 order (fun k result =>
      let x := (xleft + glp T order k * dx)%R in
      s <- i_ev S x ;;
      Ok (result + s * x ^ Z.to_nat n * dx * glw T order k)%R) result) 0%R ;;
  Ok (if flip then - result else result)%R.

(** math_spline.cpp:1240-1253, 1350-1363, 1449-1462 *)
Definition linearIntegrate T s := integratePower T 1 (linI s).
Definition cubicIntegrate T s := integratePower T 3 (cubI s).
Definition quinticIntegrate T s := integratePower T 5 (quiI s).
Definition linearIntegrateF s := integrateProduct 1 (linI s).
Definition cubicIntegrateF s := integrateProduct 3 (cubI s).
Definition quinticIntegrateF s := integrateProduct 5 (quiI s).
Definition linearConvolve s := convolve 1 (linI s).
Definition cubicConvolve s := convolve 3 (cubI s).
Definition quinticConvolve s := convolve 5 (quiI s).
