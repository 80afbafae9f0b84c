(** Model of the spheroidal coordinate systems (coord.cpp) and the Perfect Ellipsoid potentials (potential_perfect_ellipsoid.cpp).
    Exact real arithmetic; coordinates are finite. *)
From Coq Require Import Reals Lra Bool.
From Verif Require Import RandReal PolyModel CoordModel.
Local Open Scope R_scope.

(** ** universal axisymmetric spheroidal coordinates *)
(** cotangent of the polar angle: infinite on the symmetry axis *)
Inductive cotan := Fin (x : R) | Inf (positive : bool).
(** getPosAxi, coord.cpp:373-405 (det is finite): chi, psi, cosnu, sinnu *)
Definition getPosAxi (D2 Rc z : R) : R * R * R * R :=
  let r2 := pow_2 Rc + pow_2 z in
  let sum := 0.5 * (r2 + D2) in
  let dif := 0.5 * (r2 - D2) in
  let det := if Rle_b 0 D2 then sqrt (pow_2 dif + mul (pow_2 Rc) D2) else sqrt (pow_2 sum - mul (pow_2 z) D2) in
  let '(psi, cosnu) :=
    if Rle_b 0 sum then let psi := sqrt (det + sum) in (psi, if Req_b z 0 then 0 else z / psi)
    else let cosnu := sqrt ((det - sum) / - D2) * (if Rle_b 0 z then 1 else -1) in (z / cosnu, cosnu) in
  let '(chi, sinnu) :=
    if Rle_b 0 dif then let chi := sqrt (det + dif) in (chi, if Req_b Rc 0 then 0 else Rc / chi)
    else let sinnu := sqrt ((det - dif) / D2) in (Rc / sinnu, sinnu) in
  (chi, psi, cosnu, sinnu).
(** the position returned by toPosDeriv<Cyl,Axi>, coord.cpp:411-421, 443: rho, cotnu *)
Definition posAxi (D2 Rc z : R) : R * cotan :=
  let '(chi, psi, cosnu, sinnu) := getPosAxi D2 Rc z in
  (if Rle_b 0 D2 then chi else psi, if Req_b sinnu 0 then Inf (Rlt_b 0 cosnu) else Fin (cosnu / sinnu)).
Record axi1 := mkA1 { drhodR : R; drhodz : R; dnudR : R; dnudz : R }.
Record axi2 := mkA2 { d2rhodR2 : R; d2rhodz2 : R; d2rhodRdz : R; d2nudR2 : R; d2nudz2 : R; d2nudRdz : R }.
(** coord.cpp:422-428 *)
Definition axiDeriv (D2 Rc z : R) : axi1 :=
  let '(chi, psi, cosnu, sinnu) := getPosAxi D2 Rc z in
  let eta := if Rle_b 0 D2 then psi else chi in
  let M := 1 / (pow_2 (chi * cosnu) + pow_2 (psi * sinnu)) in
  mkA1 (M * psi * sinnu * eta) (M * chi * cosnu * eta) (M * chi * cosnu) (- M * psi * sinnu).
(** coord.cpp:429-442 *)
Definition axiDeriv2 (D2 Rc z : R) : axi2 :=
  let '(chi, psi, cosnu, sinnu) := getPosAxi D2 Rc z in
  let eta := if Rle_b 0 D2 then psi else chi in
  let rho := if Rle_b 0 D2 then chi else psi in
  let M := 1 / (pow_2 (chi * cosnu) + pow_2 (psi * sinnu)) in
  let common := pow_2 (chi * chi * cosnu) + pow_2 (psi * psi * sinnu) - 3 * pow_2 (chi * psi) in
  let nuRR := M ^ 3 * cosnu * sinnu * common in
  mkA2
    (pow_2 M * psi * (chi * eta * pow_2 cosnu * (1 - 4 * M * D2 * pow_2 sinnu) + (if Rle_b 0 D2 then 0 else D2 * pow_2 sinnu)))
    (pow_2 M * chi * (psi * eta * pow_2 sinnu * (1 + 4 * M * D2 * pow_2 cosnu) - (if Rle_b D2 0 then 0 else D2 * pow_2 cosnu)))
    (pow_2 M * cosnu * sinnu * eta * (pow_2 rho + M * common))
    nuRR (- nuRR)
    (M ^ 3 * psi * chi * (pow_2 (psi * sinnu) * (3 - 2 * pow_2 sinnu) - pow_2 (chi * cosnu) * (3 - 2 * pow_2 cosnu))).
(** toPosDeriv<Axi,Cyl>, coord.cpp:341-358, 369: the inverse transformation (R, z) *)
Definition sincos (cot : cotan) : R * R :=
  match cot with
  | Fin x => let s := 1 / sqrt (1 + pow_2 x) in (s, if Req_b s 0 then (if Rlt_b 0 x then 1 else -1) else x * s)
  | Inf b => (0, if b then 1 else -1)
  end.
Definition axiToCyl (D2 rho : R) (cot : cotan) : R * R :=
  let eta := sqrt (pow_2 rho + Rabs D2) in
  let chi := if Rle_b 0 D2 then rho else eta in
  let psi := if Rle_b 0 D2 then eta else rho in
  let '(s, c) := sincos cot in (mul chi s, mul psi c).

(** ** Perfect Ellipsoid *)
(** inverse hyperbolic tangent from the C library *)
Definition atanh (x : R) : R := ln ((1 + x) / (1 - x)) / 2.
Record axiRes := mkRes { pval : R; gRho : R; gNu : R; hRho : R; hNu : R; hRhoNu : R }.
(** PerfectEllipsoid::evalAxi, potential_perfect_ellipsoid.cpp:79-136 (psi is finite) *)
Definition evalAxi (mass B D2 rho : R) (cot : cotan) : axiRes :=
  let norm := -2 / PI * mass in
  let D := sqrt (Rabs D2) in
  let '(sinnu, cosnu) := sincos cot in
  let psi := if Rle_b 0 D2 then sqrt (pow_2 rho + D2) else rho in
  let M := if Rle_b 0 D2 then 1 / (pow_2 rho + D2 * pow_2 sinnu) else 1 / (pow_2 rho - D2 * pow_2 cosnu) in
  let Fv := if Rle_b 0 D2 then - D * atan (D / B * cosnu) else D * atanh (D / B * cosnu) in
  let Fu := atan (psi / B) in
  let Phi := norm * M * (psi * Fu + cosnu * Fv) in
  let dpsidrho := if Rle_b D2 0 then 1 else rho / psi in
  let dcosnudnu := - sinnu in
  let dFudpsi := B / (pow_2 B + pow_2 psi) in
  let dFvdcosnu := - B / (pow_2 B + pow_2 cosnu * D2) in
  let dGrhodpsi := Fu + dFudpsi * psi in
  let dGnudcosnu := Fv + dFvdcosnu * cosnu * D2 in
  let dGrho := dGrhodpsi * dpsidrho in
  let dGnu := dGnudcosnu * dcosnudnu in
  let dlnMdrho := -2 * M * rho in
  let dlnMdnu := 2 * M * cosnu * D2 * dcosnudnu in
  let d2psidrho2 := if Rle_b D2 0 then 0 else D2 / psi ^ 3 in
  let d2cosnudnu2 := - cosnu in
  let d2Grho := dGrhodpsi * d2psidrho2 + 2 * B * pow_2 (dFudpsi * dpsidrho) in
  let d2Gnu := dGnudcosnu * d2cosnudnu2 - 2 * B * pow_2 (dFvdcosnu * dcosnudnu) * D2 in
  let d2Mdrho2 := 2 * pow_2 dlnMdrho - 2 * M in
  let d2Mdnu2 := 2 * pow_2 dlnMdnu + 2 * M * D2 * (pow_2 dcosnudnu + cosnu * d2cosnudnu2) in
  let d2Mdrhodnu := 2 * dlnMdrho * dlnMdnu in
  mkRes Phi
    (Phi * dlnMdrho + norm * M * dGrho)
    (Phi * dlnMdnu + norm * M * dGnu)
    (Phi * d2Mdrho2 + norm * M * (2 * dlnMdrho * dGrho + d2Grho))
    (Phi * d2Mdnu2 + norm * M * (2 * dlnMdnu * dGnu + d2Gnu))
    (Phi * d2Mdrhodnu + norm * M * (dlnMdrho * dGnu + dlnMdnu * dGrho)).
(** results in cylindrical coordinates: value, gradient, Hessian (components containing phi are zero) *)
Record cylRes := mkCyl { cval : R; cdR : R; cdz : R; cdR2 : R; cdz2 : R; cdRdz : R }.
(** potential_perfect_ellipsoid.cpp:195-215 with toGrad (coord.cpp:680-686) and toHess (878-897) *)
Definition convert (r : axiRes) (a : axi1) (b : axi2) : cylRes :=
  mkCyl (pval r)
    (gRho r * drhodR a + gNu r * dnudR a)
    (gRho r * drhodz a + gNu r * dnudz a)
    ((hRho r * drhodR a + hRhoNu r * dnudR a) * drhodR a + (hRhoNu r * drhodR a + hNu r * dnudR a) * dnudR a + gRho r * d2rhodR2 b + gNu r * d2nudR2 b)
    ((hRho r * drhodz a + hRhoNu r * dnudz a) * drhodz a + (hRhoNu r * drhodz a + hNu r * dnudz a) * dnudz a + gRho r * d2rhodz2 b + gNu r * d2nudz2 b)
    ((hRho r * drhodz a + hRhoNu r * dnudz a) * drhodR a + (hRhoNu r * drhodz a + hNu r * dnudz a) * dnudR a + gRho r * d2rhodRdz b + gNu r * d2nudRdz b).
(** the region where the Taylor expansion is used, potential_perfect_ellipsoid.cpp:142-156 *)
Definition focal (A B Rc z : R) : bool :=
  let D2 := pow_2 A - pow_2 B in
  let D := sqrt (Rabs D2) in
  let p := (if Rle_b D2 0 then Rc else Rabs z) - D in
  let q := if Rle_b D2 0 then z else Rc in
  let eps := if Rle_b D2 0 then 1 / 10000 else 6 / 10000 in
  Rlt_b (pow_2 p + pow_2 q) (pow_2 (Rmax A B * eps)).
(** the coefficients, potential_perfect_ellipsoid.cpp:158-169 *)
Definition taylorK (A B : R) : R * R * R * R :=
  let D2 := pow_2 A - pow_2 B in
  let D := sqrt (Rabs D2) in
  if Rle_b D2 0 then
    let K0 := 1 / B in let K1 := - 1 / 3 * K0 / pow_2 B in let K2 := - 3 / 5 * K1 / pow_2 B in let K3 := - 5 / 7 * K2 / pow_2 B in (K0, K1, K2, K3)
  else
    let K0 := 0.5 * (atan (D / B) / D + B / pow_2 A) in
    let K1 := (- 1 / 4 * K0 + 1 / 4 * B ^ 3 / pow_2 (pow_2 A)) / D2 in
    let K2 := (- 3 / 6 * K1 - 1 / 6 * (B / pow_2 A) ^ 3) / D2 in
    let K3 := (- 5 / 8 * K2 + 1 / 8 * (B / pow_2 A) ^ 3 / pow_2 A) / D2 in (K0, K1, K2, K3).
(** potential_perfect_ellipsoid.cpp:145-147, 170-193 *)
Definition taylor (mass A B Rc z : R) : cylRes :=
  let D2 := pow_2 A - pow_2 B in
  let D := sqrt (Rabs D2) in
  let p := (if Rle_b D2 0 then Rc else Rabs z) - D in
  let signp := if Rle_b D 0 || Rle_b 0 z then 1 else -1 in
  let q := if Rle_b D2 0 then z else Rc in
  let '(K0, K1, K2, K3) := taylorK A B in
  let norm := -2 / PI * mass in
  let Kp := 2 * K1 * D in
  let Kpp := 2 * K1 + 8 * K2 * D * D in
  let Kqq := 2 * K1 + 2 * K2 * D * D in
  let Kppp := 24 * K2 * D + 48 * K3 * D * D * D in
  let Kpqq := 8 * K2 * D + 8 * K3 * D * D * D in
  let val := norm * (K0 + Kp * p + 0.5 * Kpp * p * p + 0.5 * Kqq * q * q + 1 / 6 * Kppp * p * p * p + 0.5 * Kpqq * p * q * q) in
  let along := norm * (Kp + Kpp * p + 0.5 * Kppp * p * p + 0.5 * Kpqq * q * q) * signp in
  let across := norm * (Kqq * q + Kpqq * p * q) in
  let hAlong := norm * (Kpp + Kppp * p) in
  let hAcross := norm * (Kqq + Kpqq * p) in
  mkCyl val (if Rle_b D2 0 then along else across) (if Rle_b D2 0 then across else along)
    (if Rle_b D2 0 then hAlong else hAcross) (if Rle_b D2 0 then hAcross else hAlong) (norm * Kpqq * q * signp).
(** PerfectEllipsoid::evalCyl, potential_perfect_ellipsoid.cpp:139-216 *)
Definition evalCyl (mass A B Rc z : R) : cylRes :=
  if focal A B Rc z then taylor mass A B Rc z else
  let D2 := pow_2 A - pow_2 B in
  let '(rho, cot) := posAxi D2 Rc z in
  convert (evalAxi mass B D2 rho cot) (axiDeriv D2 Rc z) (axiDeriv2 D2 Rc z).
(** PerfectEllipsoid::densityCyl, potential_perfect_ellipsoid.cpp:218-222 *)
Definition densityCyl (mass A B Rc z : R) : R :=
  1 / PI / PI * mass / (B * pow_2 A * pow_2 (pow_2 (Rc / A) + pow_2 (z / B) + 1)).

(** ** prolate spheroidal coordinates and OblatePerfectEllipsoid *)
(** toPosDeriv<Cyl,ProlSph>, coord.cpp:293-318, 337: lambda, nu *)
Definition prolSph (D2 Rc z : R) : R * R :=
  let R2 := pow_2 Rc in let z2 := pow_2 z in
  let signz := if Rle_b 0 z then 1 else -1 in
  let sum := R2 + z2 + D2 in
  let dif := R2 + z2 - D2 in
  let sqD := if Req_b R2 0 then Rabs dif else if Req_b z2 0 then sum else sqrt (pow_2 dif + 4 * R2 * D2) in
  let '(lmd, dmn) := if Rle_b 0 dif then let lmd := 0.5 * (sqD + dif) in (lmd, if Rlt_b 0 R2 then D2 * R2 / lmd else 0)
    else let dmn := 0.5 * (sqD - dif) in (D2 * R2 / dmn, dmn) in
  let lambda := D2 + lmd in
  let absnu := 2 * D2 / (sum + sqD) * z2 in
  let absnu := if Rlt_b D2 (absnu * 2) then D2 - dmn else absnu in
  (lambda, absnu * signz).
(** OblatePerfectEllipsoid::OblatePerfectEllipsoid (9-16) and ProlSph::ProlSph (coord.cpp:9-14): Delta2, or an exception *)
Definition oblConstruct (major minor : R) : option R :=
  let Delta := sqrt (pow_2 major - pow_2 minor) in
  if Rle_b Delta 0 then None else if Rle_b minor 0 || Rle_b major minor then None else Some (Delta * Delta).
(** OblatePerfectEllipsoid::evalDeriv, potential_perfect_ellipsoid.cpp:51-76: G, G', G'' *)
Definition oblG (mass c tau : R) : option (R * R * R) :=
  if Rlt_b tau 0 then None else
  let c2 := pow_2 c in
  let fac := mass / c * (2 / PI) in
  let tauc := tau / c2 in
  let arct := if Rlt_b (1 / 10 ^ 16) tauc then atan (sqrt tauc) / sqrt tauc else 1 in
  Some (fac * arct,
    if Rlt_b (1 / 10 ^ 8) tauc then fac * 0.5 * (1 / (1 + tauc) - arct) / tau else fac * (- 1 / 3 + 2 / 5 * tauc) / c2,
    if Rlt_b (1 / 10 ^ 5) tauc then fac * 0.75 * (arct - (1 + 5 / 3 * tauc) / pow_2 (1 + tauc)) / pow_2 tau else fac * (2 / 5 - 6 / 7 * tauc) / pow_2 c2).
Record prolRes := mkProl { oval : R; olam : R; onu : R; olam2 : R; onu2 : R; olamnu : R }.
(** OblatePerfectEllipsoid::evalScalar, potential_perfect_ellipsoid.cpp:18-49 (finite arguments); None: an exception *)
Definition oblScalar (mass c D2 lambda nu : R) : option prolRes :=
  let absnu := Rabs nu in
  let signu := if Rle_b 0 nu then 1 else -1 in
  let lmn := lambda - absnu in
  if Rlt_b D2 absnu || Rlt_b lambda D2 then None else
  match oblG mass c lambda, oblG mass c absnu with
  | Some (Gl, dGl, d2Gl), Some (Gn, dGn, d2Gn) =>
      let coef := (Gl - Gn) / pow_2 lmn in
      Some (mkProl ((absnu * Gn - lambda * Gl) / lmn)
        (coef * absnu - dGl * lambda / lmn)
        ((- coef * lambda + dGn * absnu / lmn) * signu)
        ((2 * absnu * (- coef + dGl / lmn) - d2Gl * lambda) / lmn)
        ((2 * lambda * (- coef + dGn / lmn) + d2Gn * absnu) / lmn)
        (((lambda + absnu) * coef - (lambda * dGl + absnu * dGn) / lmn) / lmn * signu))
  | _, _ => None
  end.
