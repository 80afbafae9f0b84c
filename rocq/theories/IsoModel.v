(** Actions, angles and frequencies in the isochrone potential, /repo/src/actions_isochrone.cpp.  Exact reals.
    Simplifications: M_PI is the number pi; the inputs are finite; None stands for NaN (in any of the components); the signs of zeros are not distinguished;
    the angles of a point with zero angular momentum are not modelled (None, although some of them are finite in the code). *)
From Coq Require Import Reals Lra Bool.
From Verif Require Import RandReal PolyModel CoordModel MathModel.
Local Open Scope R_scope.

(** math_core.h:21 *)
Definition sign (x : R) : R := if Rlt_b 0 x then 1 else if Rlt_b x 0 then -1 else 0.
(** the value of atan(f * t), where f>0 and t is None for +INFINITY *)
Definition atanMul (f : R) (t : option R) : R := match t with Some t => atan (f * t) | None => PI / 2 end.

(** actions_base.h:14-46; a NaN is None *)
Record evaluated := mkEval { e_Jr : option R; e_Jz : R; e_Jphi : R; e_angles : option R * option R * option R; e_freq : option (R * R * R) }.

(** actions_isochrone.cpp:9-52, with all three output arguments given; the angles (lines 27-44) are in a separate function *)
Definition evalAngles (M b : R) (pointCyl : posvel) (L L1 Lz E J0 : R) : option R * option R * option R :=
  let '((Rc, z, _), (_, vz, _)) := pointCyl in
  let '((r, _, phi), (vr, vtheta, vphi)) := toPosVel_YS pointCyl in
  let rb := sqrt (b * b + pow_2 r) in
  if Rle_b 0 E then (None, None, None) else
  let planar := Req_b z 0 && Req_b vz 0 in
  let zero (t : option R) := if planar then Some 0 else t in
  if Req_b L 0 then (None, zero None, None) else
  let j0invsq := M * b / pow_2 J0 in
  let ecc := sqrt (pow_2 (1 - j0invsq) - pow_2 (L / J0)) in
  let fac1 := (1 + ecc - j0invsq) * J0 / L in
  let fac2 := (1 + ecc + j0invsq) * J0 / L1 in
  let k1 := r * vr in
  let k2 := J0 - M * rb / J0 in
  let psi := atan2 (z * L) (- Rc * vtheta * r) in
  let chi := atan2 (z * vphi) (- vtheta * r) in
  let eta := atan2 k1 k2 in
  (* k1=k2=0: sineta is 0/0 *)
  if Req_b (k1 * k1 + k2 * k2) 0 then (None, zero None, None) else
  let sineta := k1 / sqrt (k1 * k1 + k2 * k2) in
  let tanhalfeta := if Req_b eta 0 then Some 0 else if Req_b k1 0 then None else Some (- k2 / k1 + 1 / sineta) in
  let thetar := wrapAngle (2 * PI) (eta - sineta * ecc) in
  let thetaz := wrapAngle (2 * PI) (psi + 0.5 * (1 + L / L1) * (thetar - (if Rlt_b eta 0 then 2 * PI else 0))
      - atanMul fac1 tanhalfeta - atanMul fac2 tanhalfeta * L / L1) in
  let thetaphi := wrapAngle (2 * PI) (phi - chi + sign Lz * thetaz) in
  (Some thetar, zero (Some thetaz), Some thetaphi).
Definition evalIsochrone (M b : R) (pointCyl : posvel) : evaluated :=
  let '((Rc, z, _), (_, vz, vphiCyl)) := pointCyl in
  let point := toPosVel_YS pointCyl in
  let '((r, _, _), (vr, vtheta, vphi)) := point in
  let rb := sqrt (b * b + pow_2 r) in
  let L := Ltotal_S point in
  let L1 := sqrt (L * L + 4 * M * b) in
  let Lz := Rc * vphiCyl in
  let E := - M / (b + rb) + 0.5 * (pow_2 vr + pow_2 vtheta + pow_2 vphi) in
  let J0 := M / sqrt (-2 * E) in
  mkEval
    (if Rle_b 0 E then None else Some (Rmax 0 (J0 - 0.5 * (L + L1))))
    (if Req_b z 0 && Req_b vz 0 then 0 else Rmax 0 (L - Rabs Lz))
    Lz
    (evalAngles M b pointCyl L L1 Lz E J0)
    (* E>0: sqrt of a negative number; E=0: J0 is infinite *)
    (if Rlt_b 0 E then None else
     let Omegar := if Req_b E 0 then 0 else pow_2 M / pow_3 J0 in
     let Omegaz := Omegar * 0.5 * (1 + L / L1) in
     Some (Omegar, Omegaz, sign Lz * Omegaz)).

(** actions_isochrone.cpp:54-107, the returned point; kep = math::solveKepler as a function of ecc and phase.
    If L=0 then sini=NaN and so is the position; if sintheta=0 (over the pole) then vtheta=0/0 *)
Definition mapIsochrone (kep : R -> R -> R) (M b Jr Jz Jphi thetar thetaz thetaphi : R) : option posvel :=
  if Rlt_b Jr 0 || Rlt_b Jz 0 then None else
  let signJphi := sign Jphi in
  let absJphi := signJphi * Jphi in
  let L := Jz + absJphi in
  if Req_b L 0 then None else
  let L1 := sqrt (L * L + 4 * M * b) in
  let LL1 := 0.5 + 0.5 * L / L1 in
  let J0 := Jr + 0.5 * (L + L1) in
  let j0invsq := M * b / pow_2 J0 in
  let ecc := Rmin (sqrt (Jr * (Jr + L) * (Jr + L1) * (Jr + L + L1)) / pow_2 J0) 1 in
  let fac1 := (1 + ecc - j0invsq) * J0 / L in
  let fac2 := (1 + ecc + j0invsq) * J0 / L1 in
  let eta := kep ecc thetar in
  let sineta := sin eta in let coseta := cos eta in
  let ra := 1 - ecc * coseta in
  let tanhalfeta := if Req_b coseta (-1) then None else Some (sineta / (1 + coseta)) in
  let thetar' := thetar - (if Rlt_b PI eta then 2 * PI else 0) in
  let psi1 := atanMul fac1 tanhalfeta in
  let psi2 := atanMul fac2 tanhalfeta in
  let psi := thetaz - LL1 * thetar' + psi1 + psi2 * L / L1 in
  let sinpsi := sin psi in let cospsi := cos psi in
  let chi := if negb (Req_b Jz 0) then atan2 (absJphi * sinpsi) (L * cospsi) else psi in
  let sini := sqrt (1 - pow_2 (Jphi / L)) in
  let costheta := sini * sinpsi in
  let sintheta := sqrt (1 - pow_2 costheta) in
  if Req_b sintheta 0 then None else
  let r := sqrt (Rmax 0 (pow_2 (ra * J0 * J0 / M) - b * b)) in
  let vr := J0 * ecc * sineta / r in
  let vtheta := - L * sini * cospsi / (r * sintheta) in
  Some ((r * sintheta, r * costheta, wrapAngle (2 * PI) (thetaphi + (chi - thetaz) * signJphi)),
        (vr * sintheta + vtheta * costheta, vr * costheta - vtheta * sintheta, Jphi / (r * sintheta))).
(** the same, the frequencies, lines 57-61 and 101-105 *)
Definition mapFreq (M b Jr Jz Jphi : R) : option (R * R * R) :=
  if Rlt_b Jr 0 || Rlt_b Jz 0 then None else
  let signJphi := sign Jphi in
  let L := Jz + signJphi * Jphi in
  let L1 := sqrt (L * L + 4 * M * b) in
  let LL1 := 0.5 + 0.5 * L / L1 in
  let J0 := Jr + 0.5 * (L + L1) in
  let Omegar := pow_2 M / pow_3 J0 in
  let Omegaz := Omegar * LL1 in
  Some (Omegar, Omegaz, Omegaz * signJphi).
