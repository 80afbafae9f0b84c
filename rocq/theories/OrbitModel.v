(** The equations of motion solved by the orbit integrators, and the conversion of initial conditions and results:
    src/orbit.cpp:76-283 (class OrbitIntegrator<CoordT>).  A state of the ODE solver (six numbers) is a pair of triples, coordinates
    and velocities of the native system.  Exact real arithmetic; sincos of coord/math is (sin, cos); potentials are the objects of PotModel. *)
From Coq Require Import Reals Lra Bool ZArith.
From Verif Require Import RandReal PolyModel MathModel CoordModel PotModel.
Local Open Scope R_scope.

(** C library fmod for finite arguments: x - P * trunc(x/P) *)
Definition fmod (x P : R) : R := x - P * trunc (x / P).

(** orbit.cpp:76-82 (Cyl, Sph) and 86-104 (Car): the Cartesian initial conditions are given in the rotating frame *)
Definition init_Car (Om t : R) (ic : posvel) : posvel :=
  let '((x, y, z), (vx, vy, vz)) := ic in
  if Req_b Om 0 then ic else
  let ca := cos (Om * t) in let sa := sin (Om * t) in
  ((x * ca - y * sa, y * ca + x * sa, z), (vx * ca - vy * sa, vy * ca + vx * sa, vz)).
Definition init_Cyl (ic : posvel) : posvel := toPosVel_CY ic.
Definition init_Sph (ic : posvel) : posvel := toPosVel_CS ic.

(** orbit.cpp:106-120 *)
Definition getSol_Car (Om t : R) (d : posvel) : posvel :=
  let '((d0, d1, d2), (d3, d4, d5)) := d in
  if Req_b Om 0 then d else
  let ca := cos (Om * t) in let sa := sin (Om * t) in
  ((d0 * ca + d1 * sa, d1 * ca - d0 * sa, d2), (d3 * ca + d4 * sa, d4 * ca - d3 * sa, d5)).
(** orbit.cpp:123-136 *)
Definition getSol_Cyl (d : posvel) : posvel :=
  let '((d0, d1, d2), (d3, d4, d5)) := d in
  if Rlt_b d0 0 then ((- d0, d1, d2 + PI), (- d3, d4, - d5)) else d.
(** orbit.cpp:144-163 and 221-240: normalisation of r and theta; signs are the int variables signr, signt *)
Definition normSph (r th phi : R) : vec3 * R * R :=
  let theta := fmod th (2 * PI) in
  let '(theta, signt) := if Rlt_b theta (- PI) then (theta + 2 * PI, 1)
                         else if Rlt_b theta 0 then (- theta, -1)
                         else if Rlt_b PI theta then (2 * PI - theta, -1) else (theta, 1) in
  let '(r, theta, signr) := if Rlt_b r 0 then (- r, PI - theta, -1) else (r, theta, 1) in
  let phi := if xorb (Req_b signr (-1)) (Req_b signt (-1)) then phi + PI else phi in
  ((r, theta, phi), signr, signt).
(** orbit.cpp:138-167; wrapAngle is modelled in MathModel *)
Definition getSol_Sph (d : posvel) : posvel :=
  let '((d0, d1, d2), (d3, d4, d5)) := d in
  let '((r, theta, phi), signr, signt) := normSph d0 d1 d2 in
  ((r, theta, wrapAngle (2 * PI) phi), (d3 * signr, d4 * signt, d5 * signr * signt)).
(** orbit.h getSol(time): conversion of the native solution to Cartesian coordinates *)
Definition out_Car := getSol_Car.
Definition out_Cyl (d : posvel) : posvel := toPosVel_YC (getSol_Cyl d).
Definition out_Sph (d : posvel) : posvel := toPosVel_SC (getSol_Sph d).

Definition gradOnly : flags := (false, true, false).
(** orbit.cpp:169-189 *)
Definition eval_Car (c : pot) (Om t : R) (x : posvel) : posvel :=
  let '((x0, x1, x2), (x3, x4, x5)) := x in
  let '(ca, sa) := if Req_b Om 0 then (1, 0) else (cos (Om * t), sin (Om * t)) in
  let '(gx, gy, gz) := gof (p_eval c Car gradOnly t (x0 * ca + x1 * sa, x1 * ca - x0 * sa, x2)) in
  ((x3, x4, x5), (- gx * ca + gy * sa, - gy * ca - gx * sa, - gz)).
(** orbit.cpp:191-195, 197-215: None = exception.  Result: acceleration and its time derivative *)
Definition evalHermite_Car (c : pot) (Om t : R) (xv : posvel) : option (vec3 * vec3) :=
  let '((x, y, z), (vx, vy, vz)) := xv in
  if Req_b Om 0 then
    let r := p_eval c Car (false, true, true) t (x, y, z) in
    let g := gof r in let h := hof r in
    Some ((- v1 g, - v2 g, - v3 g),
          (- h11 h * vx - h12 h * vy - h13 h * vz, - h12 h * vx - h22 h * vy - h23 h * vz, - h13 h * vx - h23 h * vy - h33 h * vz))
  else None.
Definition evalHermite_other (c : pot) (Om t : R) (xv : posvel) : option (vec3 * vec3) := None.
(** orbit.cpp:217-237 *)
Definition eval_Cyl (c : pot) (Om t : R) (x : posvel) : posvel :=
  let '((x0, x1, x2), (vR, vz, vphi)) := x in
  let '(pR, pphi) := if Rlt_b x0 0 then (- x0, x2 + PI) else (x0, x2) in
  let '(gR, gz, gphi) := gof (p_eval c Cyl gradOnly t (pR, x1, pphi)) in
  let Rinv := if Req_b pR 0 then 0 else 1 / pR in
  let gR := if Rlt_b x0 0 then - gR else gR in
  ((vR, vz, vphi * Rinv - Om), (- gR + pow_2 vphi * Rinv, - gz, - (gphi + vR * vphi) * Rinv)).
(** orbit.cpp:239-276 *)
Definition eval_Sph (c : pot) (Om t : R) (x : posvel) : posvel :=
  let '((x0, x1, x2), (vr, vtheta, vphi)) := x in
  let '((r, theta, phi), signr, signt) := normSph x0 x1 x2 in
  let '(gr, gtheta, gphi) := gof (p_eval c Sph gradOnly t (r, theta, phi)) in
  let rinv := if Req_b r 0 then 0 else 1 / r in
  let sinthinv := if Req_b (sin theta) 0 then 0 else 1 / sin theta in
  let cottheta := cos theta * sinthinv in
  ((vr, vtheta * rinv, vphi * rinv * sinthinv - Om),
   (- gr * signr + (pow_2 vtheta + pow_2 vphi) * rinv,
    (- gtheta * signt + pow_2 vphi * cottheta - vr * vtheta) * rinv,
    (- gphi * sinthinv - (vr + vtheta * cottheta) * vphi) * rinv)).
(** orbit.cpp:278-284 (only used by the integrator to loosen or tighten its tolerance) *)
Definition accuracyFactor (Epot : R) (v : vec3) : R :=
  let Ekin := 1 / 2 * (v1 v * v1 v + v2 v * v2 v + v3 v * v3 v) in
  Rmin 1 (Rabs (Epot + Ekin) / Rmax (Rabs Epot) Ekin).
