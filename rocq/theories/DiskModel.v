(** Model of src/potential_disk.{h,cpp}: separable disk density profiles and the DiskAnsatz potential. Exact real arithmetic;
    infinity and NaN appear where a division by a zero radius produces them. Infinite radii are not modelled. *)
From Coq Require Import Reals Lra Bool ZArith.
From Verif Require Import RandReal PolyModel CoordModel.
Local Open Scope R_scope.

(** ** floating-point numbers: exact reals, infinities, NaN; IEEE-754 rules for operations *)
Inductive num := Fin (r : R) | Inf (positive : bool) | NaN.
Definition Rpos_b (a : R) : bool := Rlt_b 0 a.
Definition nopp (x : num) : num := match x with Fin a => Fin (- a) | Inf s => Inf (negb s) | NaN => NaN end.
Definition nadd (x y : num) : num :=
  match x, y with
  | Fin a, Fin b => Fin (a + b)
  | NaN, _ | _, NaN => NaN
  | Inf s, Inf t => if Bool.eqb s t then Inf s else NaN
  | Inf s, _ | _, Inf s => Inf s
  end.
Definition nsub (x y : num) : num := nadd x (nopp y).
Definition nmul (x y : num) : num :=
  match x, y with
  | Fin a, Fin b => Fin (a * b)
  | NaN, _ | _, NaN => NaN
  | Inf s, Inf t => Inf (Bool.eqb s t)
  | Inf s, Fin a | Fin a, Inf s => if Req_b a 0 then NaN else Inf (Bool.eqb s (Rpos_b a))
  end.
(** 1/a; the only zero that occurs is +0 *)
Definition ninv (a : R) : num := if Req_b a 0 then Inf true else Fin (1 / a).
(** exp *)
Definition nexp (x : num) : num := match x with Fin a => Fin (exp a) | Inf true => Inf true | Inf false => Fin 0 | NaN => NaN end.
(** the C++ conversion of a number to bool in  val ? ... : 0 *)
Definition nonzero (x : num) : bool := match x with Fin a => negb (Req_b a 0) | _ => true end.
Declare Scope num_scope.
Delimit Scope num_scope with num.
Infix "+" := nadd : num_scope.
Infix "-" := nsub : num_scope.
Infix "*" := nmul : num_scope.
Notation "- x" := (nopp x) : num_scope.

(** math::pow(double,double), math_core.cpp:131-143; std::pow(0,n)=0 for n>0; it is only called with x>=0 and n>0 here *)
Definition mpow (x n : R) : R :=
  if Req_b n 0 then 1 else if Req_b n 1 then x else if Req_b n (-1) then 1 / x else if Req_b n 2 then x * x else if Req_b n (-2) then 1 / (x * x)
  else if Req_b n 0.5 then sqrt x else if Req_b n (-0.5) then 1 / sqrt x else if Req_b n 3 then x * x * x else if Req_b n (-3) then 1 / (x * x * x)
  else if Req_b x 0 then 0 else Rpower x n.
(** math::sign, math_core.h:21 *)
Definition msign (x : R) : R := if Rlt_b 0 x then 1 else if Rlt_b x 0 then -1 else 0.

(** DiskParam, potential_disk.h:93-117 *)
Record diskParam := mkDisk { surfaceDensity : R; scaleRadius : R; scaleHeight : R; innerCutoffRadius : R; modulationAmplitude : R; sersicIndex : R }.
(** a function with two derivatives: math::IFunction::evalDeriv *)
Definition fnc := R -> num * num * num.

(** DiskDensityRadialExp, potential_disk.cpp:36-54 *)
Definition radialExp (P : diskParam) : fnc := fun r =>
  let inv := 1 / scaleRadius P in
  let val := surfaceDensity P * exp (- r * inv) in
  (Fin val, Fin (- val * inv), Fin (val * pow_2 inv)).
(** DiskDensityRadialRichExp, potential_disk.cpp:57-97 *)
Definition radialRich (P : diskParam) : fnc := fun r =>
  let inv := 1 / scaleRadius P in
  let hole := innerCutoffRadius P in
  let eps := modulationAmplitude P in
  let invn := 1 / sersicIndex P in
  if negb (Req_b hole 0) && Req_b r 0 then (Fin 0, Fin 0, Fin 0) else
  let Rinv := ninv r in
  let Rrel := r * inv in
  let Rrn := mpow Rrel invn in
  let RrnR := if Rlt_b 0 r then nmul (Fin Rrn) Rinv else if Req_b invn 1 then Fin 1 else if Rlt_b 1 invn then Fin 0 else Inf true in
  let Rcut := if negb (Req_b hole 0) then nmul (Fin hole) Rinv else Fin 0 in
  let cr := if negb (Req_b eps 0) then eps * cos Rrel else 0 in
  let sr := if negb (Req_b eps 0) then eps * sin Rrel else 0 in
  let val := (Fin (surfaceDensity P) * nexp (- Rcut - Fin Rrn + Fin cr))%num in
  let fp := (Rcut * Rinv - Fin invn * RrnR - Fin (sr * inv))%num in
  let fpprime := (if nonzero val then
      val * (fp * fp - Fin 2 * Rcut * (Rinv * Rinv) - Fin (cr * pow_2 inv) +
        (if Req_b invn 1 then Fin 0 else RrnR * Rinv * Fin invn * Fin (1 - invn)))
    else Fin 0)%num in
  let fprime := (if nonzero val then fp * val else Fin 0)%num in
  (val, fprime, fpprime).
(** DiskDensityVerticalExp, potential_disk.cpp:115-131 *)
Definition verticalExp (h : R) : fnc := fun z =>
  let inv := 1 / h in
  let x := Rabs (z * inv) in
  let e := exp (- x) in
  (Fin (0.5 / inv * (if Rlt_b 0.00001 x then e - 1 + x else x * x * (0.5 - 1 / 6 * x))), Fin (0.5 * msign z * (1 - e)), Fin (0.5 * e * inv)).
(** DiskDensityVerticalIsothermal, potential_disk.cpp:134-151 *)
Definition verticalIso (h : R) : fnc := fun z =>
  let inv := 1 / h in
  let x := Rabs (z * inv) in
  let e := exp (- x) in
  let sh1 := 1 + e in let invsh1 := 1 / sh1 in
  (Fin (1 / inv * (if Rlt_b 0.001 x then 0.5 * x + ln (0.5 * sh1) else x * x * (1 / 8 - 1 / 192 * x * x))), Fin (0.5 * msign z * (1 - e) * invsh1), Fin (e * inv * pow_2 invsh1)).
(** DiskDensityVerticalThin, potential_disk.cpp:154-166 *)
Definition verticalThin : fnc := fun z => (Fin (0.5 * Rabs z), Fin (0.5 * msign z), Fin 0).

(** createRadialDiskFnc, potential_disk.cpp:171-182; None: std::invalid_argument *)
Definition createRadial (P : diskParam) : option fnc :=
  if Rle_b (scaleRadius P) 0 then None else
  if Rlt_b (innerCutoffRadius P) 0 then None else
  if Rle_b (sersicIndex P) 0 then None else
  if Req_b (innerCutoffRadius P) 0 && Req_b (modulationAmplitude P) 0 && Req_b (sersicIndex P) 1 then Some (radialExp P) else Some (radialRich P).
(** createVerticalDiskFnc, potential_disk.cpp:185-193 *)
Definition createVertical (P : diskParam) : fnc :=
  if Rlt_b 0 (scaleHeight P) then verticalExp (scaleHeight P) else if Rlt_b (scaleHeight P) 0 then verticalIso (- scaleHeight P) else verticalThin.

(** DiskParam::mass without modulation and without an inner hole, potential_disk.cpp:195-200; gamma is math::gamma.
    The other two branches (Bessel functions and numerical integration) are not modelled *)
Definition diskMass (gamma : R -> R) (P : diskParam) : option R :=
  if Req_b (modulationAmplitude P) 0 then
    if Req_b (innerCutoffRadius P) 0 then Some (PI * pow_2 (scaleRadius P) * surfaceDensity P * gamma (2 * sersicIndex P + 1)) else None
  else None.

(** DiskDensity::densityCyl, potential_disk.cpp:209-214; pos = (R, z, phi) *)
Definition diskDensity (rad vert : fnc) (pos : vec3) : num :=
  let '(Rc, z, phi) := pos in
  let '(_, _, h) := vert z in
  let '(f, _, _) := rad Rc in (f * h)%num.
(** DiskAnsatz::densityCyl, potential_disk.cpp:216-222 *)
Definition ansatzDensity (rad vert : fnc) (pos : vec3) : num :=
  let '(Rc, z, phi) := pos in
  let r := sqrt (pow_2 Rc + pow_2 z) in
  let '(H, Hp, h) := vert z in
  let '(f, fp, fpp) := rad r in
  (f * h + (if negb (Req_b z 0) then Fin 2 * fp * (H + Fin z * Hp) * ninv r else Fin 0) + fpp * H)%num.
(** DiskAnsatz::evalCyl, potential_disk.cpp:224-250: potential, (dR, dz), (dR2, dz2, dRdz); all other derivatives are zero.
    Here all outputs are requested; fewer requests skip the computation of some of them *)
Definition is_zero (x : num) : bool := match x with Fin a => Req_b a 0 | _ => false end.
Definition ansatzEval (rad vert : fnc) (pos : vec3) : num * (num * num) * (num * num * num) :=
  let '(Rc, z, phi) := pos in
  let r := sqrt (pow_2 Rc + pow_2 z) in
  let '(H, Hp, h) := vert z in
  let '(f, fp, fpp) := rad r in
  let fourpi := Fin (4 * PI) in
  let f := nmul f fourpi in let fp := nmul fp fourpi in let fpp := nmul fpp fourpi in
  let rinv := Fin (if Rlt_b 0 r then 1 / r else 1) in
  let Rr := (Fin Rc * rinv)%num in
  let zr := (Fin z * rinv)%num in
  (if is_zero f then Fin 0 else f * H,
   (H * Rr * fp, H * zr * fp + Hp * f),
   (H * (fpp * (Rr * Rr) + fp * rinv * (zr * zr)), H * (fpp * (zr * zr) + fp * rinv * (Rr * Rr)) + fp * Hp * zr * Fin 2 + f * h,
    H * Rr * zr * (fpp - fp * rinv) + fp * Hp * Rr))%num.
