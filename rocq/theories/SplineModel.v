(** Model of the one-dimensional interpolators of /repo/src/math_spline.cpp (exact real arithmetic).
    An endpoint derivative that is not finite (the default NaN) is [None]. *)
From Verif Require Export Arr BandModel BinSearchModel.
Local Open Scope Z_scope.

(** contents of a vector *)
Definition alist {A} (a : arr A) : list A := map (fun k => afn a (Z.of_nat k)) (seq 0 (Z.to_nat (alen a))).

(** value and three derivatives; [None] = all NaN (fillVals with default arguments, math_spline.cpp:388-399) *)
Definition vals : Type := (R * R * R * R)%type.
Definition v_f (v : vals) : R := let '(f, _, _, _) := v in f.
Definition v_d (v : vals) : R := let '(_, d, _, _) := v in d.
Definition v_d2 (v : vals) : R := let '(_, _, d2, _) := v in d2.
Definition v_d3 (v : vals) : R := let '(_, _, _, d3) := v in d3.

(** math_spline.cpp:1150-1167 checkFiniteAndMonotonic (numbers are finite in this model), called by
    BaseInterpolator1d::BaseInterpolator1d, lines 1208-1212 *)
Definition checkMonotonic (a : arr R) : res unit :=
  for_ 0 (alen a) (fun i _ =>
    if i >? 0 then ai <- aget a i ;; ap <- aget a (i - 1) ;; if Rle_dec ai ap then Throw else Ok tt else Ok tt) tt.

(** band matrix element update: mat(r,c) += v *)
Definition bm_add (m : band_matrix R) (r c : Z) (v : R) : res (band_matrix R) := x <- bm_ref m r c ;; bm_set m r c (x + v)%R.
Definition aadd (a : arr R) (i : Z) (v : R) : res (arr R) := x <- aget a i ;; aset a i (x + v)%R.

(** ---- constructCubicSpline, math_spline.cpp:419-468 ---- *)
Local Open Scope R_scope.
(** body of the loop, lines 433-443 *)
Definition cubic_row (xval fval : arr R) (i : Z) (st : band_matrix R * arr R) : res (band_matrix R * arr R) :=
  let (mat, rhs) := st in
  x0 <- aget xval i ;; x1 <- aget xval (i + 1)%Z ;; f0 <- aget fval i ;; f1 <- aget fval (i + 1)%Z ;;
  let dxi := 1 / (x1 - x0) in
  let dyx := (f1 - f0) * (dxi * dxi) in
  mat <- bm_add mat i i (2 * dxi) ;;
  mat <- bm_add mat (i + 1)%Z (i + 1)%Z (2 * dxi) ;;
  mat <- bm_set mat i (i + 1)%Z dxi ;;
  mat <- bm_set mat (i + 1)%Z i dxi ;;
  rhs <- aadd rhs i (3 * dyx) ;;
  rhs <- aadd rhs (i + 1)%Z (3 * dyx) ;;
  Ok (mat, rhs).
(** lines 444-453 *)
Definition cubic_clamp (n : Z) (derivLeft derivRight : option R) (st : band_matrix R * arr R) : res (band_matrix R * arr R) :=
  let (mat, rhs) := st in
  st <- (match derivLeft with
         | Some d => mat <- bm_set mat 0 0 1 ;; mat <- bm_set mat 0 1 0 ;; rhs <- aset rhs 0 d ;; Ok (mat, rhs)
         | None => Ok (mat, rhs)
         end) ;;
  let (mat, rhs) := st in
  match derivRight with
  | Some d => mat <- bm_set mat (n - 1)%Z (n - 1)%Z 1 ;; mat <- bm_set mat (n - 1)%Z (n - 2)%Z 0 ;; rhs <- aset rhs (n - 1)%Z d ;; Ok (mat, rhs)
  | None => Ok (mat, rhs)
  end.
(** lines 456-460: the data are symmetric about the grid centre *)
Definition isSymmetric (xval fval : arr R) : res bool :=
  let n := alen xval in
  for_ 0%Z ((n + 1) / 2)%Z (fun i (s : bool) =>
    if s then xi <- aget xval i ;; xj <- aget xval (n - 1 - i)%Z ;; fi <- aget fval i ;; fj <- aget fval (n - 1 - i)%Z ;;
      Ok ((if Req_EM_T xi (- xj) then true else false) && (if Req_EM_T fi fj then true else false))%bool
    else Ok false) true.
(** lines 461-466 *)
Definition antisymmetrize (n : Z) (fder : arr R) : res (arr R) :=
  fder <- for_ 0%Z (n / 2)%Z (fun i fder => d <- aget fder (n - 1 - i)%Z ;; aset fder i (- d)) fder ;;
  if (n mod 2 =? 1)%Z then aset fder (n / 2)%Z 0 else Ok fder.
Definition constructCubicSpline (xval fval : arr R) (derivLeft derivRight : option R) : res (arr R) :=
  let n := alen xval in
  if negb (alen fval =? n)%Z then Throw else
  if (n <? 2)%Z then
    Ok (anew n (match derivLeft, derivRight with Some d, _ => d | None, Some d => d | None, None => 0 end)) else
  m0 <- bm_new n 1 0 ;;
  st <- for_ 0%Z (n - 1)%Z (cubic_row xval fval) (m0, anew n 0) ;;
  st <- cubic_clamp n derivLeft derivRight st ;;
  fder <- solveBand (fst st) (snd st) ;;
  s <- isSymmetric xval fval ;;
  if s : bool then antisymmetrize n fder else Ok fder.

(** ---- constructQuinticSpline from values and first derivatives, math_spline.cpp:473-507 ---- *)
(** body of the loop, lines 481-494 *)
Definition quintic_row (xval fval fder : arr R) (i : Z) (st : band_matrix R * arr R) : res (band_matrix R * arr R) :=
  let n := alen xval in
  let (mat, rhs) := st in
  st <- (if (i >? 0)%Z then
           x1 <- aget xval i ;; x0 <- aget xval (i - 1)%Z ;; f1 <- aget fval i ;; f0 <- aget fval (i - 1)%Z ;;
           d1 <- aget fder i ;; d0 <- aget fder (i - 1)%Z ;;
           let hi := 1 / (x1 - x0) in
           mat <- bm_add mat i i (hi * 3) ;;
           mat <- bm_set mat (i - 1)%Z i (- hi) ;;
           rhs <- aadd rhs i (- ((20 * (f1 - f0) * hi - 12 * d1 - 8 * d0) * hi * hi)) ;;
           Ok (mat, rhs)
         else Ok (mat, rhs)) ;;
  let (mat, rhs) := st in
  if (i <? n - 1)%Z then
    x1 <- aget xval (i + 1)%Z ;; x0 <- aget xval i ;; f1 <- aget fval (i + 1)%Z ;; f0 <- aget fval i ;;
    d1 <- aget fder (i + 1)%Z ;; d0 <- aget fder i ;;
    let hi := 1 / (x1 - x0) in
    mat <- bm_add mat i i (hi * 3) ;;
    mat <- bm_set mat (i + 1)%Z i (- hi) ;;
    rhs <- aadd rhs i ((20 * (f1 - f0) * hi - 12 * d0 - 8 * d1) * hi * hi) ;;
    Ok (mat, rhs)
  else Ok (mat, rhs).
Definition constructQuinticSpline (xval fval fder : arr R) : res (arr R) :=
  let n := alen xval in
  if (n <? 2)%Z then Ok (anew n 0) else
  m0 <- bm_new n 1 0 ;;
  st <- for_ 0%Z n (quintic_row xval fval fder) (m0, anew n 0) ;;
  let (mat, rhs) := st in
  (* lines 497-505 *)
  x1 <- aget xval 1 ;; x0 <- aget xval 0 ;; f1 <- aget fval 1 ;; f0 <- aget fval 0 ;; d1 <- aget fder 1 ;; d0 <- aget fder 0 ;;
  let hi := 1 / (x1 - x0) in
  mat <- bm_set mat 0 1 (- 2 * hi) ;;
  rhs <- aset rhs 0 ((30 * (f1 - f0) * hi - 14 * d1 - 16 * d0) * hi * hi) ;;
  xn <- aget xval (n - 1)%Z ;; xm <- aget xval (n - 2)%Z ;; fn <- aget fval (n - 1)%Z ;; fm <- aget fval (n - 2)%Z ;;
  dn <- aget fder (n - 1)%Z ;; dm <- aget fder (n - 2)%Z ;;
  let hi := 1 / (xn - xm) in
  mat <- bm_set mat (n - 1)%Z (n - 2)%Z (- 2 * hi) ;;
  rhs <- aset rhs (n - 1)%Z ((- 30 * (fn - fm) * hi + 14 * dm + 16 * dn) * hi * hi) ;;
  solveBand mat rhs.

(** ---- evaluation on one segment ---- *)
(** math_spline.cpp:608-661 evalCubicSplines (the branch compiled, lines 648-660) *)
Definition evalCubic (x xl xh fl fh dl dh : R) : vals :=
  let h := xh - xl in let hi := 1 / h in let t := (x - xl) / h in let T := 1 - t in let tT := t * T in
  let dif := fh - fl in let Q := 3 * (dl + dh) - 6 * hi * dif in
  (fl * T + fh * t + (dif * (t - T) + (dl * T - dh * t) * h) * tT,
   dl * T + dh * t - Q * tT,
   (dh - dl + Q * (t - T)) * hi,
   2 * Q * hi * hi).
(** math_spline.cpp:666-736 evalQuinticSplines *)
Definition evalQuintic (x xl xh fl fh f1l f1h f2l f2h : R) : vals :=
  if Req_EM_T x xh then
    (fh, f1h, f2h, ((60 * (fh - fl) / (xh - xl) - (36 * f1h + 24 * f1l)) / (xh - xl) + (9 * f2h - 3 * f2l)) / (xh - xl))
  else
  let dx := x - xl in let dx2 := 5 / 10 * dx * dx in let h := xh - xl in let hi := 1 / h in let h2 := h * h in
  let t := dx * hi in let t2 := t * t in let t3 := t * t2 in let t1t := t * (1 - t) in
  let P := t3 * (10 - t * (15 - 6 * t)) in
  let Q := t3 * (1 - t * (5 / 10)) * h in
  let RR := t3 * (1 - t * (125 / 100 - 5 / 10 * t)) * h2 in
  let Px := 30 * t1t * hi in
  let Pp := Px * t1t in
  let Qp := t2 * (3 - t * 2) in
  let Rp := t2 * (3 - t * (5 - 25 / 10 * t)) * h in
  let Ppp := Px * hi * (2 - 4 * t) in
  let Qpp := Px * (2 / 10) in
  let Rpp := t * (6 - t * (15 - 10 * t)) in
  let fd := fh - fl - 5 / 10 * h * (f1h + f1l) in
  let f1d := f1h - f1l - 5 / 10 * h * (f2h + f2l) in
  let f2d := f2h - f2l in
  (fl + P * fd + dx * f1l + Q * f1d + dx2 * f2l + RR * f2d,
   Pp * fd + f1l + Qp * f1d + dx * f2l + Rp * f2d,
   Ppp * fd + Qpp * f1d + f2l + Rpp * f2d,
   hi * hi * (60 * hi - 12 * Px) * fd + hi * hi * (6 - 12 * t) * f1d + (6 * hi - Px) * f2d).
(** math_core.h:74-75 linearInterp *)
Definition linearInterp (x x1 x2 y1 y2 : R) : R := ((x - x1) * y2 + (x2 - x) * y1) / (x2 - x1).

(** ---- the classes ---- *)
Record linSpline := mkLin { l_x : arr R; l_f : arr R }.
Record cubSpline := mkCub { c_x : arr R; c_f : arr R; c_d : arr R }.
Record quiSpline := mkQui { q_x : arr R; q_f : arr R; q_d : arr R; q_d2 : arr R }.

(** math_spline.cpp:1215-1223 *)
Definition linearNew (xval fval : arr R) : res linSpline :=
  u <- checkMonotonic xval ;; if negb (alen fval =? alen xval)%Z then Throw else Ok (mkLin xval fval).
(** math_spline.cpp:1225-1238 *)
Definition linearEval (s : linSpline) (x : R) : res (option vals) :=
  let size := alen (l_x s) in
  if (size =? 0)%Z then Ok None else
  b <- binSearchR x (alist (l_x s)) ;;
  let i := Z.max 0 (Z.min (size - 2) b) in
  if (size >? 1)%Z then
    xi <- aget (l_x s) i ;; xj <- aget (l_x s) (i + 1)%Z ;; fi <- aget (l_f s) i ;; fj <- aget (l_f s) (i + 1)%Z ;;
    Ok (Some (linearInterp x xi xj fi fj, (fj - fi) / (xj - xi), 0, 0))
  else f0 <- aget (l_f s) 0 ;; Ok (Some (f0, 0, 0, 0)).

(** regularizeSpline, math_spline.cpp:1124-1147; [sign] is math_core.h sign, [clip] math_core.h clip, [THREE] = 3-3e-15 *)
Definition THREE : R := 3 - 3 / 10 ^ 15.
Definition sgn (x : R) : R := if Rlt_dec 0 x then 1 else if Rlt_dec x 0 then -1 else 0.
Definition clip (x lo up : R) : R := if Rlt_dec up x then up else if Rlt_dec lo x then x else lo.
Definition regular_row (xval fval : arr R) (i : Z) (fder : arr R) : res (arr R) :=
  let n := alen xval in
  if ((i =? 0) || (i =? n - 1))%Z then
    let k := (if i =? 0 then i else n - 2)%Z in
    f1 <- aget fval (k + 1)%Z ;; f0 <- aget fval k ;; x1 <- aget xval (k + 1)%Z ;; x0 <- aget xval k ;;
    let sec := (f1 - f0) / (x1 - x0) in
    d <- aget fder i ;;
    aset fder i (if Rle_dec 0 sec then clip d 0 (THREE * sec) else clip d (THREE * sec) 0)
  else
    f <- aget fval i ;; fl <- aget fval (i - 1)%Z ;; fr <- aget fval (i + 1)%Z ;;
    x <- aget xval i ;; xl <- aget xval (i - 1)%Z ;; xr <- aget xval (i + 1)%Z ;;
    let secL := (f - fl) / (x - xl) in
    let secR := (fr - f) / (xr - x) in
    d <- aget fder i ;;
    aset fder i (Rmin (Rabs d) (THREE * Rmin (Rabs secL) (Rabs secR)) *
                 (if Rle_dec 0 (secL * secR) then sgn secL else sgn d)).
Definition regularizeSpline (xval fval fder : arr R) : res (arr R) :=
  if (alen xval <? 2)%Z then Ok fder else for_ 0%Z (alen xval) (regular_row xval fval) fder.

(** math_spline.cpp:1269-1308, for fval.size() = xval.size() (the branch that interprets fvalues as amplitudes of
    B-splines, taken when there are one or two more values than nodes, is not modelled here: [UB] marks it) *)
Definition cubicNew (xval fval : arr R) (regularize : bool) (derivLeft derivRight : option R) : res cubSpline :=
  u <- checkMonotonic xval ;;
  if ((alen fval =? alen xval + 1) || (alen fval =? alen xval + 2))%Z then UB else
  fder <- constructCubicSpline xval fval derivLeft derivRight ;;
  fder <- (if regularize then regularizeSpline xval fval fder else Ok fder) ;;
  Ok (mkCub xval fval fder).
(** math_spline.cpp:1311-1321 *)
Definition cubicHermite (xval fval fder : arr R) : res cubSpline :=
  u <- checkMonotonic xval ;;
  if negb ((alen fval =? alen xval) && (alen fder =? alen xval))%Z then Throw else Ok (mkCub xval fval fder).
(** linear extrapolation, lines 1333-1345 and 1433-1444 *)
Definition extrap (x x0 f0 d0 : R) : vals := (f0 + (if Req_EM_T d0 0 then 0 else d0 * (x - x0)), d0, 0, 0).
(** math_spline.cpp:1323-1348 *)
Definition cubicEval (s : cubSpline) (x : R) : res (option vals) :=
  let size := alen (c_x s) in
  if (size =? 0)%Z then Ok None else
  index <- binSearchR x (alist (c_x s)) ;;
  if (index <? 0)%Z then
    x0 <- aget (c_x s) 0 ;; f0 <- aget (c_f s) 0 ;; d0 <- aget (c_d s) 0 ;; Ok (Some (extrap x x0 f0 d0))
  else if (index >=? size - 1)%Z then
    x0 <- aget (c_x s) (size - 1)%Z ;; f0 <- aget (c_f s) (size - 1)%Z ;; d0 <- aget (c_d s) (size - 1)%Z ;; Ok (Some (extrap x x0 f0 d0))
  else
    xl <- aget (c_x s) index ;; xh <- aget (c_x s) (index + 1)%Z ;; fl <- aget (c_f s) index ;; fh <- aget (c_f s) (index + 1)%Z ;;
    dl <- aget (c_d s) index ;; dh <- aget (c_d s) (index + 1)%Z ;;
    Ok (Some (evalCubic x xl xh fl fh dl dh)).

(** math_spline.cpp:1394-1406 *)
Definition quinticNew (xval fval fder : arr R) : res quiSpline :=
  u <- checkMonotonic xval ;;
  if negb ((alen fval =? alen xval) && (alen fder =? alen xval))%Z then Throw else
  fder2 <- constructQuinticSpline xval fval fder ;; Ok (mkQui xval fval fder fder2).
(** math_spline.cpp:1409-1421 *)
Definition quinticHermite (xval fval fder fder2 : arr R) : res quiSpline :=
  u <- checkMonotonic xval ;;
  if negb ((alen fval =? alen xval) && (alen fder =? alen xval) && (alen fder2 =? alen xval))%Z then Throw else
  Ok (mkQui xval fval fder fder2).
(** math_spline.cpp:1423-1447 *)
Definition quinticEval (s : quiSpline) (x : R) : res (option vals) :=
  let size := alen (q_x s) in
  if (size =? 0)%Z then Ok None else
  index <- binSearchR x (alist (q_x s)) ;;
  if (index <? 0)%Z then
    x0 <- aget (q_x s) 0 ;; f0 <- aget (q_f s) 0 ;; d0 <- aget (q_d s) 0 ;; Ok (Some (extrap x x0 f0 d0))
  else if (index >=? size - 1)%Z then
    x0 <- aget (q_x s) (size - 1)%Z ;; f0 <- aget (q_f s) (size - 1)%Z ;; d0 <- aget (q_d s) (size - 1)%Z ;; Ok (Some (extrap x x0 f0 d0))
  else
    xl <- aget (q_x s) index ;; xh <- aget (q_x s) (index + 1)%Z ;; fl <- aget (q_f s) index ;; fh <- aget (q_f s) (index + 1)%Z ;;
    dl <- aget (q_d s) index ;; dh <- aget (q_d s) (index + 1)%Z ;; sl <- aget (q_d2 s) index ;; sh <- aget (q_d2 s) (index + 1)%Z ;;
    Ok (Some (evalQuintic x xl xh fl fh dl dh sl sh)).
