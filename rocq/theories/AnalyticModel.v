(** Analytic potentials: src/potential_analytic.h, src/potential_analytic.cpp.
    Exact reals.  The evalDeriv/evalCyl/evalCar functions compute every requested output independently, so that they are modelled
    as the triple of outputs, masked by the NULL pointers (maskres in PotModel).  Not modelled: r==INFINITY in NFW, totalMass() =
    INFINITY of NFW, Logarithmic, Harmonic (the argument `inf` stands for the returned value), names. *)
From Coq Require Import Reals Lra Bool ZArith List.
From Verif Require Import RandReal PolyModel CoordModel OrientModel PotModel.
Import ListNotations.
Local Open Scope R_scope.

(* ---------- Plummer ---------- *)
(** potential_analytic.cpp:8-20 *)
Definition Plummer_evalDeriv (mass scaleRadius r : R) : R * R * R :=
  let invrsq := if negb (Req_b mass 0) then 1 / (pow_2 r + pow_2 scaleRadius) else 0 in
  let pot := - mass * sqrt invrsq in
  (pot, - pot * r * invrsq, pot * (2 * pow_2 (r * invrsq) - pow_2 (scaleRadius * invrsq))).
(** potential_analytic.cpp:22-26 *)
Definition Plummer_density (mass scaleRadius : R) (pos : vec3) : R :=
  let invrsq := 1 / (pow_2 (v1 pos) + pow_2 scaleRadius) in
  3 / 4 / PI * mass * pow_2 (scaleRadius * invrsq) * sqrt invrsq.
(** potential_analytic.cpp:28-33 *)
Definition Plummer_enclosedMass (mass scaleRadius r : R) : R :=
  if Req_b scaleRadius 0 then mass else mass / pow_3 (sqrt (pow_2 (scaleRadius / r) + 1)).
(** potential_analytic.h:14-33; totalMass() = mass *)
Definition Plummer (mass scaleRadius : R) : pot :=
  sphericalPot (Plummer_evalDeriv mass scaleRadius) (Plummer_density mass scaleRadius) mass (Plummer_enclosedMass mass scaleRadius).

(* ---------- Isochrone ---------- *)
(** potential_analytic.cpp:35-47 *)
Definition Isochrone_evalDeriv (mass scaleRadius r : R) : R * R * R :=
  let rb := sqrt (pow_2 r + pow_2 scaleRadius) in
  let brb := scaleRadius + rb in
  let pot := - mass / brb in
  (pot, - pot * r / (rb * brb),
   pot * (2 * pow_2 (r / (rb * brb)) - pow_2 (scaleRadius / (rb * brb)) * (1 + scaleRadius / rb))).
(** potential_analytic.cpp:49-54 *)
Definition Isochrone_density (mass scaleRadius : R) (pos : vec3) : R :=
  let rb := sqrt (pow_2 (v1 pos) + pow_2 scaleRadius) in
  let brb := scaleRadius + rb in
  1 / 4 / PI * mass * scaleRadius * (3 * scaleRadius * brb + 2 * pow_2 (v1 pos)) / pow_3 (rb * brb).
(** potential_analytic.h:37-51; enclosedMass is the numerical default of the base class: parameter *)
Definition Isochrone (mass scaleRadius : R) (encl : R -> R) : pot :=
  sphericalPot (Isochrone_evalDeriv mass scaleRadius) (Isochrone_density mass scaleRadius) mass encl.

(* ---------- NFW ---------- *)
(** potential_analytic.cpp:56-75 *)
Definition NFW_evalDeriv (mass scaleRadius r : R) : R * R * R :=
  let rrel := r / scaleRadius in
  let large := Rlt_b (7 / 10000) rrel in
  let ln_over_r := if large then ln (1 + rrel) / r
    else (1 + rrel * (- 1 / 2 + rrel * (1 / 3 + rrel * (- 1 / 4)))) / scaleRadius in
  (- mass * ln_over_r,
   mass * (if large then (ln_over_r - 1 / (r + scaleRadius)) / r
           else (1 / 2 + rrel * (- 2 / 3 + rrel * 3 / 4)) / pow_2 scaleRadius),
   - mass * (if large then (2 * ln_over_r - (2 * scaleRadius + 3 * r) / pow_2 (scaleRadius + r)) / pow_2 r
             else (2 / 3 - rrel * 3 / 2) / pow_3 scaleRadius)).
(** potential_analytic.h:69-70 *)
Definition NFW_density (mass scaleRadius : R) (pos : vec3) : R := 1 / 4 / PI * mass / v1 pos / pow_2 (v1 pos + scaleRadius).
(** potential_analytic.h:55-71 *)
Definition NFW (mass scaleRadius inf : R) (encl : R -> R) : pot :=
  sphericalPot (NFW_evalDeriv mass scaleRadius) (NFW_density mass scaleRadius) inf encl.

(* ---------- Miyamoto-Nagai ---------- *)
(** potential_analytic.cpp:77-103; Hessian in Cyl: h11=dR2, h22=dz2, h33=dphi2, h12=dRdz, h23=dzdphi, h13=dRdphi *)
Definition MN_evalCyl (mass A B : R) (pos : vec3) : R * vec3 * hess6 :=
  let '(Rc, z, phi) := pos in
  let zb := sqrt (pow_2 z + pow_2 B) in
  let azb2 := pow_2 (A + zb) in
  let den2 := 1 / (pow_2 Rc + azb2) in
  let denom := sqrt den2 in
  let Rsc := Rc * denom in
  let zsc := z * denom in
  let mden3 := mass * denom * den2 in
  (- mass * denom,
   (mass * den2 * Rsc, mass * den2 * zsc * (1 + A / zb), 0),
   {| h11 := mden3 * (azb2 * den2 - 2 * pow_2 Rsc);
      h22 := mden3 * ((pow_2 Rsc - 2 * azb2 * den2) * pow_2 (z / zb) + pow_2 B * (A / zb + 1) * (pow_2 Rsc + azb2 * den2) / pow_2 zb);
      h12 := mden3 * - 3 * Rsc * zsc * (A / zb + 1);
      h13 := 0; h23 := 0; h33 := 0 |}).
(** potential_analytic.cpp:105-112 *)
Definition MN_density (mass A B : R) (pos : vec3) : R :=
  let '(Rc, z, phi) := pos in
  let zb := sqrt (pow_2 z + pow_2 B) in
  let azb2 := pow_2 (A + zb) in
  1 / 4 / PI * mass * pow_2 B * (A * pow_2 Rc + (A + 3 * zb) * azb2) /
    (pow_3 zb * sqrt (pow_2 Rc + azb2) * pow_2 (pow_2 Rc + azb2)).
(** potential_analytic.h:75-92 *)
Definition MiyamotoNagai (mass A B : R) (encl : R -> R) : pot :=
  basePot Cyl (fun fl t pos => maskres fl (MN_evalCyl mass A B pos)) (fun t => MN_density mass A B) mass encl ST_AXISYMMETRIC.

(* ---------- Logarithmic ---------- *)
(** potential_analytic.cpp:114-133 *)
Definition Log_evalCar (v0squared coreRadius2 p2 q2 lengthUnit2 : R) (pos : vec3) : R * vec3 * hess6 :=
  let '(x, y, z) := pos in
  let m2 := coreRadius2 + pow_2 x + pow_2 y / p2 + pow_2 z / q2 in
  (1 / 2 * v0squared * ln (m2 / lengthUnit2),
   (x * v0squared / m2, y * v0squared / m2 / p2, z * v0squared / m2 / q2),
   {| h11 := v0squared * (1 / m2 - 2 * pow_2 (x / m2));
      h22 := v0squared * (1 / m2 / p2 - 2 * pow_2 (y / (m2 * p2)));
      h33 := v0squared * (1 / m2 / q2 - 2 * pow_2 (z / (m2 * q2)));
      h12 := - v0squared * x * y * 2 / (pow_2 m2 * p2);
      h23 := - v0squared * y * z * 2 / (pow_2 m2 * p2 * q2);
      h13 := - v0squared * z * x * 2 / (pow_2 m2 * q2) |}).
(** potential_analytic.h:109-111, 144-145 symmetry() *)
Definition axes_sym (p2 q2 : R) : Z := if Req_b p2 1 then (if Req_b q2 1 then ST_SPHERICAL else ST_AXISYMMETRIC) else ST_TRIAXIAL.
(** potential_analytic.h:100-125; the density is that of the base class, potential_base.cpp:42-47 *)
Definition Logarithmic (v0 coreRadius axisRatioYtoX axisRatioZtoX lengthUnit inf : R) (encl : R -> R) : pot :=
  let p2 := pow_2 axisRatioYtoX in let q2 := pow_2 axisRatioZtoX in
  let native := fun (fl : flags) (t : R) pos => maskres fl (Log_evalCar (pow_2 v0) (pow_2 coreRadius) p2 q2 (pow_2 lengthUnit) pos) in
  basePot Car native (fun t => lapCar (fun fl => native fl t)) inf encl (axes_sym p2 q2).

(* ---------- Harmonic ---------- *)
(** potential_analytic.cpp:135-151 *)
Definition Harm_evalCar (Omega2 p2 q2 : R) (pos : vec3) : R * vec3 * hess6 :=
  let '(x, y, z) := pos in
  (1 / 2 * Omega2 * (pow_2 x + pow_2 y / p2 + pow_2 z / q2),
   (x * Omega2, y * Omega2 / p2, z * Omega2 / q2),
   {| h11 := Omega2; h22 := Omega2 / p2; h33 := Omega2 / q2; h12 := 0; h23 := 0; h13 := 0 |}).
(** potential_analytic.h:129-153 *)
Definition Harmonic (Omega axisRatioYtoX axisRatioZtoX inf : R) (encl : R -> R) : pot :=
  let p2 := pow_2 axisRatioYtoX in let q2 := pow_2 axisRatioZtoX in
  let native := fun (fl : flags) (t : R) pos => maskres fl (Harm_evalCar (pow_2 Omega) p2 q2 pos) in
  basePot Car native (fun t => lapCar (fun fl => native fl t)) inf encl (axes_sym p2 q2).
