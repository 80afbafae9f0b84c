(** Model over exact real numbers of the elementary functions of math_core (powers, angles, averages, interpolation, simple function objects). *)
From Coq Require Export Reals Lra Lia ZArith List.
From Verif Require Export Base RandReal PolyModel.
Export ListNotations.
Local Open Scope R_scope.

(** math_core.cpp:122-127: the loop of pow(double,int); n%2 and n>>=1 for a non-negative int.
    [fuel] bounds the number of iterations, None = not finished *)
Fixpoint powLoop (fuel : nat) (result x : R) (n : Z) : option R :=
  match fuel with
  | O => None
  | S fuel' =>
    let result := if Z.eqb (Z.rem n 2) 0 then result else result * x in
    let n := Z.shiftr n 1 in
    let x := x * x in
    if Z.eqb n 0 then Some result else powLoop fuel' result x n
  end.
(** math_core.cpp:116-129 pow(double,int); [n = -n] overflows (undefined behaviour) for n = INT_MIN: None *)
Definition pow_int (fuel : nat) (x : R) (n : Z) : option R :=
  if Z.ltb n 0 then
    if Z.eqb n (- 2 ^ 31) then None else powLoop fuel 1 (1 / x) (- n)
  else powLoop fuel 1 x n.

(** math_core.cpp:131-143 pow(double,double), for positive x *)
Definition pow_real (x n : R) : R :=
  if Req_b n 0 then 1
  else if Req_b n 1 then x
  else if Req_b n (-1) then 1 / x
  else if Req_b n 2 then x * x
  else if Req_b n (-2) then 1 / (x * x)
  else if Req_b n (1 / 2) then sqrt x
  else if Req_b n (- (1 / 2)) then 1 / sqrt x
  else if Req_b n 3 then x * x * x
  else if Req_b n (-3) then 1 / (x * x * x)
  else Rpower x n.

(** math_core.cpp:145-154 wrapAngle; [P] is the value of the constant 2*M_PI *)
Definition wrapAngle (P x : R) : R :=
  let y := x - P * IZR (Int_part (1 / P * x)) in
  if Rle_b 0 y && Rlt_b y P then y else 0.

(** C library modf: the integral part, rounded towards zero *)
Definition trunc (x : R) : R := if Rle_b 0 x then IZR (Int_part x) else - IZR (Int_part (- x)).
(** math_core.cpp:156-165 unwrapAngle *)
Definition unwrapAngle (P x xprev : R) : R :=
  let diff := (x - xprev) / P in
  let nwraps := if Rlt_b (1 / 2) diff then trunc (diff + 1 / 2)
                else if Rlt_b diff (- (1 / 2)) then trunc (diff - 1 / 2) else 0 in
  x - P * nwraps.
(** math_core.h:46-50: "may be used in a loop over elements of an array, by providing the previous element, already processed by this function, as xprev" *)
Fixpoint unwrapSeq (P xprev : R) (l : list R) : list R :=
  match l with [] => [] | x :: t => let y := unwrapAngle P x xprev in y :: unwrapSeq P y t end.

(** math_core.h:88-109 Averager: (avg, ssq, num) *)
Definition avg_state := (R * R * nat)%type.
Definition avg_init : avg_state := (0, 0, 0%nat).
Definition avg_add (st : avg_state) (value : R) : avg_state :=
  let '(avg, ssq, num) := st in
  let diff := value - avg in
  let avg' := avg + diff / (INR num + 1) in
  (avg', ssq + diff * (value - avg'), S num).
Definition avg_mean (st : avg_state) : R := fst (fst st).
Definition avg_disp (st : avg_state) : R :=
  let '(_, ssq, num) := st in if Nat.ltb 1 num then ssq / (INR num - 1) else 0.
Definition avg_count (st : avg_state) : nat := snd st.

(** math_core.h:73-75 linearInterp *)
Definition linearInterp (x x1 x2 y1 y2 : R) : R := ((x - x1) * y2 + (x2 - x) * y1) / (x2 - x1).
(** math_core.h:77-84 hermiteInterp *)
Definition hermiteInterp (x x1 x2 y1 y2 dy1 dy2 : R) : R :=
  let t := (x - x1) / (x2 - x1) in
  pow_2 (1 - t) * ((1 + 2 * t) * y1 + t * dy1 * (x2 - x1))
  + pow_2 t * ((3 - 2 * t) * y2 + (t - 1) * dy2 * (x2 - x1)).

(** math_core.cpp:576-613 hermiteDerivs: (der2, der3, der4, der5); der3 is None (NaN, from 0*(x/0)) for an equally spaced grid *)
Definition hermiteDerivs (x0 x1 x2 f0 f1 f2 df0 df1 df2 : R) : R * option R * R * R :=
  let dx10 := x1 - x0 in let dx21 := x2 - x1 in let dx20 := x2 - x0 in let sx20 := dx21 - dx10 in
  let f00 := df0 in let f01 := (f1 - f0) / dx10 in let f11 := df1 in let f12 := (f2 - f1) / dx21 in let f22 := df2 in
  let f001 := (f01 - f00) / dx10 in let f011 := (f11 - f01) / dx10 in
  let f112 := (f12 - f11) / dx21 in let f122 := (f22 - f12) / dx21 in
  let f0011 := (f011 - f001) / dx10 in let f0112 := (f112 - f011) / dx20 in let f1122 := (f122 - f112) / dx21 in
  let f00112 := (f0112 - f0011) / dx20 in let f01122 := (f1122 - f0112) / dx20 in
  let der5 := (f01122 - f00112) / dx20 * 120 in
  let der4 := (f01122 + f00112) * 12 - sx20 * der5 * (3 / 10) in
  let der3 := if Req_b sx20 0 then None
              else Some (f0112 * 6 - sx20 * (der4 + der5 * (sx20 + dx10 * dx21 / sx20) * (2 / 10)) * (1 / 4)) in
  let der2 := f011 + f112 - f0112 * sx20 - dx10 * dx21 * (der4 + der5 * sx20 * (2 / 10)) / 12 in
  (der2, der3, der4, der5).

(** A function object providing the value and two derivatives (interface IFunction::evalDeriv) *)
Record fnc := { fv : R -> R; fd : R -> R; fd2 : R -> R }.
(** math_core.cpp:390-402 FncProduct::evalDeriv *)
Definition fncProduct (f g : fnc) : fnc := {|
  fv := fun x => fv f x * fv g x;
  fd := fun x => fv f x * fd g x + fv g x * fd f x;
  fd2 := fun x => fv f x * fd2 g x + 2 * fd f x * fd g x + fv g x * fd2 f x |}.
(** math_core.h:269-279 FncShifted::evalDeriv *)
Definition fncShifted (f : fnc) (dx dy : R) : fnc := {|
  fv := fun x => fv f (x - dx) - dy; fd := fun x => fd f (x - dx); fd2 := fun x => fd2 f (x - dx) |}.
(** math_core.cpp:404-423 LogLogScaledFnc::evalDeriv; DBL_MIN = 2^-1022 *)
Definition dbl_min : R := / 2 ^ 1022.
Definition fncLogLog (f : fnc) : fnc := {|
  fv := fun logx => ln (fv f (exp logx));
  fd := fun logx => fd f (exp logx) * exp logx / fv f (exp logx);
  fd2 := fun logx =>
    let x := exp logx in let fval := fv f x in
    let logder := fd f x * x / fval in
    let fder := fd f x * (logder - 1) in
    if Rlt_b (Rabs fder) dbl_min || Rlt_b (Rabs (fd2 f x)) dbl_min then 0
    else (fd2 f x * x - fder) * x / fval |}.
(** math_core.cpp:426-434 Monomial::evalDeriv with pow(x,m) of an integer power *)
Definition monomial (m : Z) : fnc := {|
  fv := fun x => powerRZ x m;
  fd := fun x => if Z.eqb m 0 then 0 else IZR m * powerRZ x (m - 1);
  fd2 := fun x => if Z.eqb m 0 || Z.eqb m 1 then 0 else IZR (m * (m - 1)) * powerRZ x (m - 2) |}.
(** math_core.cpp:436-439 Monomial::integrate *)
Definition monomial_integrate (m : Z) (x1 x2 : R) (n : Z) : R :=
  if Z.eqb (m + n + 1) 0 then ln (x2 / x1) else (powerRZ x2 (m + n + 1) - powerRZ x1 (m + n + 1)) / IZR (m + n + 1).
(** math_core.cpp:441-450 Gaussian::evalDeriv *)
Definition gaussian (sigma : R) : fnc :=
  let v := fun x => 1 / sqrt 2 / sqrt PI / sigma * exp (- (1 / 2) * pow_2 (x / sigma)) in {|
  fv := v;
  fd := fun x => - x / pow_2 sigma * v x;
  fd2 := fun x => (pow_2 (x / sigma) - 1) / pow_2 sigma * v x |}.
(** math_core.cpp:452-492 Gaussian::integrate for sigma<>0 and 0<=n<=7.  [Phi y] stands for sqrt(pi/2) erf(y/sqrt 2), i.e. the antiderivative of exp(-y^2/2)
    (the asymptotic expansion used for |y|>7 and the general case n>=8 via incomplete gamma functions are not modelled) *)
Definition gaussian_integrate (Phi : R -> R) (sigma x1 x2 : R) (n : nat) : R :=
  if Req_b (x1 + x2) 0 && Nat.eqb (n mod 2) 1 then 0
  else
  let y1 := x1 / sigma in let y2 := x2 / sigma in
  let e1 := exp (- (1 / 2) * y1 * y1) in let e2 := exp (- (1 / 2) * y2 * y2) in
  let deltaf := Phi y2 - Phi y1 in
  let val := match n with
    | 0%nat => deltaf
    | 1%nat => e1 - e2
    | 2%nat => y1 * e1 - y2 * e2 + deltaf
    | 3%nat => (2 + y1 * y1) * e1 - (2 + y2 * y2) * e2
    | 4%nat => y1 * (3 + y1 * y1) * e1 - y2 * (3 + y2 * y2) * e2 + 3 * deltaf
    | 5%nat => (8 + y1 * y1 * (4 + y1 * y1)) * e1 - (8 + y2 * y2 * (4 + y2 * y2)) * e2
    | 6%nat => y1 * (15 + y1 * y1 * (5 + y1 * y1)) * e1 - y2 * (15 + y2 * y2 * (5 + y2 * y2)) * e2 + 15 * deltaf
    | _ => (48 + y1 * y1 * (24 + y1 * y1 * (6 + y1 * y1))) * e1 - (48 + y2 * y2 * (24 + y2 * y2 * (6 + y2 * y2))) * e2
    end in
  val * sigma ^ n / (sqrt PI * sqrt 2).

(** math_core.cpp:527-551 PointNeighborhood::dxToPosneg is not modelled (heuristic); 553-574 dxToNearestRoot, dxBetweenRoots *)
Definition dxToNearestRoot (f0 fder fder2 : R) : R :=
  if Req_b f0 0 then 0
  else if Rlt_b (f0 * fder2) 0 then
    let discr := sqrt (fder * fder - 2 * f0 * fder2) in
    if Rlt_b fder 0 then 2 * f0 / (discr - fder) else 2 * f0 / (- discr - fder)
  else - f0 / fder.
Definition dxBetweenRoots (f0 fder fder2 : R) : R :=
  if Req_b f0 0 && Req_b fder 0 then 0 else sqrt (fder * fder - 2 * f0 * fder2) / Rabs fder2.

(** math_core.cpp:511-522, the estimates of derivatives of PointNeighborhood at x0 from values at x0 and x0+delta (x0-delta):
    value and first derivative known at both points: fder2 *)
Definition pnFder2_both (f0 fder fplus fderplus delta : R) : R := (6 * (fplus - f0) / delta - (4 * fder + 2 * fderplus)) / delta.
(** derivative known only at x0+delta: (fder, fder2) *)
Definition pn_one (f0 fplus fderplus delta : R) : R * R :=
  (2 * (fplus - f0) / delta - fderplus, 2 * (fderplus - (fplus - f0) / delta) / delta).
(** values only: (fder, fder2) *)
Definition pn_none (f0 fplus fminus delta : R) : R * R :=
  ((fplus - fminus) / (2 * delta), (fplus + fminus - 2 * f0) / (delta * delta)).
