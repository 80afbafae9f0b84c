(** Coordinate systems and their transformations: src/coord.h, src/coord.cpp.
    Numbers are exact reals; positions in any system are triples in the order of the fields of the C++ structure:
    Car (x,y,z), Cyl (R,z,phi), Sph (r,theta,phi).  Not modelled: infinite coordinates, signed zeros, roundoff. *)
From Coq Require Import Reals Lra Bool.
From Verif Require Import RandReal PolyModel.
Local Open Scope R_scope.

Definition v1 (v : vec3) : R := fst (fst v).
Definition v2 (v : vec3) : R := snd (fst v).
Definition v3 (v : vec3) : R := snd v.
(** coord.h:494-519 HessT: six independent second derivatives; fields numbered by the order of coordinates in PosT *)
Record hess6 := mkH { h11 : R; h22 : R; h33 : R; h12 : R; h23 : R; h13 : R }.

(** C library atan2 (C99 7.12.4.4), value in (-pi,pi]; atan2(0,0)=0 *)
Definition atan2 (y x : R) : R :=
  if Rlt_b 0 x then atan (y / x)
  else if Rlt_b x 0 then (if Rle_b 0 y then atan (y / x) + PI else atan (y / x) - PI)
  else if Rlt_b 0 y then PI / 2 else if Rlt_b y 0 then - (PI / 2) else 0.

(** coord.cpp:49 mul *)
Definition mul (x y : R) : R := if Req_b y 0 then 0 else x * y.

(* ---------- positions: coord.cpp:53-81 (math::sincos computes sin and cos) ---------- *)
(** coord.cpp:53-57 *)
Definition toPos_YC (p : vec3) : vec3 := let '(Rc, z, phi) := p in (mul Rc (cos phi), mul Rc (sin phi), z).
(** coord.cpp:58-63 *)
Definition toPos_SC (p : vec3) : vec3 := let '(r, theta, phi) := p in
  (mul r (sin theta * cos phi), mul r (sin theta * sin phi), mul r (cos theta)).
(** coord.cpp:64-66 *)
Definition toPos_CY (p : vec3) : vec3 := let '(x, y, z) := p in (sqrt (pow_2 x + pow_2 y), z, atan2 y x).
(** coord.cpp:67-71 *)
Definition toPos_SY (p : vec3) : vec3 := let '(r, theta, phi) := p in (mul r (sin theta), mul r (cos theta), phi).
(** coord.cpp:72-75 *)
Definition toPos_CS (p : vec3) : vec3 := let '(x, y, z) := p in
  (sqrt (pow_2 x + pow_2 y + pow_2 z), atan2 (sqrt (pow_2 x + pow_2 y)) z, atan2 y x).
(** coord.cpp:76-78 *)
Definition toPos_YS (p : vec3) : vec3 := let '(Rc, z, phi) := p in (sqrt (pow_2 Rc + pow_2 z), atan2 Rc z, phi).

(* ---------- positions and velocities: coord.cpp:452-524; a PosVel is a pair (position, velocity) ---------- *)
Definition posvel := (vec3 * vec3)%type.
(** coord.cpp:452-458 *)
Definition toPosVel_YC (p : posvel) : posvel := let '((Rc, z, phi), (vR, vz, vphi)) := p in
  let sinphi := sin phi in let cosphi := cos phi in
  let vx := vR * cosphi - vphi * sinphi in
  let vy := vR * sinphi + vphi * cosphi in
  ((Rc * cosphi, Rc * sinphi, z), (vx, vy, vz)).
(** coord.cpp:460-469 *)
Definition toPosVel_SC (p : posvel) : posvel := let '((r, theta, phi), (vr, vtheta, vphi)) := p in
  let sintheta := sin theta in let costheta := cos theta in
  let sinphi := sin phi in let cosphi := cos phi in
  let Rc := r * sintheta in let vR := vr * sintheta + vtheta * costheta in
  let vx := vR * cosphi - vphi * sinphi in
  let vy := vR * sinphi + vphi * cosphi in
  let vz := vr * costheta - vtheta * sintheta in
  ((Rc * cosphi, Rc * sinphi, r * costheta), (vx, vy, vz)).
(** coord.cpp:471-479 *)
Definition toPosVel_CY (p : posvel) : posvel := let '((x, y, z), (vx, vy, vz)) := p in
  let Rc := sqrt (pow_2 x + pow_2 y) in
  if Req_b Rc 0 then ((Rc, z, atan2 vy vx), (sqrt (pow_2 vx + pow_2 vy), vz, 0)) else
  let cosphi := x / Rc in let sinphi := y / Rc in
  let vR := vx * cosphi + vy * sinphi in
  let vphi := - vx * sinphi + vy * cosphi in
  ((Rc, z, atan2 y x), (vR, vz, vphi)).
(** coord.cpp:481-488 *)
Definition toPosVel_SY (p : posvel) : posvel := let '((r, theta, phi), (vr, vtheta, vphi)) := p in
  let sintheta := sin theta in let costheta := cos theta in
  let Rc := r * sintheta in let z := r * costheta in
  let vR := vr * sintheta + vtheta * costheta in
  let vz := vr * costheta - vtheta * sintheta in
  ((Rc, z, phi), (vR, vz, vphi)).
(** coord.cpp:490-506 *)
Definition toPosVel_CS (p : posvel) : posvel := let '((x, y, z), (vx, vy, vz)) := p in
  let R2 := pow_2 x + pow_2 y in let Rc := sqrt R2 in let invR := 1 / Rc in
  let r2 := R2 + pow_2 z in let r := sqrt r2 in let invr := 1 / r in
  if Req_b Rc 0 then
    let vR := sqrt (pow_2 vx + pow_2 vy) in
    let phi := atan2 vy vx in
    if Req_b z 0 then ((0, atan2 vR vz, phi), (sqrt (pow_2 vR + pow_2 vz), 0, 0))
    else ((r, (if Rle_b 0 z then 0 else PI), phi), (vz * (if Rle_b 0 z then 1 else -1), vR * (if Rle_b 0 z then 1 else -1), 0))
  else
  let temp := x * vx + y * vy in
  let vr := (temp + z * vz) * invr in
  let vtheta := (temp * z * invR - vz * Rc) * invr in
  let vphi := (x * vy - y * vx) * invR in
  ((r, atan2 Rc z, atan2 y x), (vr, vtheta, vphi)).
(** coord.cpp:508-518 *)
Definition toPosVel_YS (p : posvel) : posvel := let '((Rc, z, phi), (vR, vz, vphi)) := p in
  let r := sqrt (pow_2 Rc + pow_2 z) in
  if Req_b r 0 then ((0, atan2 vR vz, phi), (sqrt (pow_2 vR + pow_2 vz), 0, 0)) else
  let invr := 1 / r in
  let costheta := z * invr in let sintheta := Rc * invr in
  let vr := vR * sintheta + vz * costheta in
  let vtheta := vR * costheta - vz * sintheta in
  ((r, atan2 Rc z, phi), (vr, vtheta, vphi)).

(* ---------- angular momentum: coord.cpp:18-38 ---------- *)
(** coord.cpp:18-20 *)
Definition Ltotal_C (p : posvel) : R := let '((x, y, z), (vx, vy, vz)) := p in
  sqrt (pow_2 (y * vz - z * vy) + pow_2 (z * vx - x * vz) + pow_2 (x * vy - y * vx)).
(** coord.cpp:21-23 *)
Definition Ltotal_Y (p : posvel) : R := let '((Rc, z, phi), (vR, vz, vphi)) := p in
  sqrt ((pow_2 Rc + pow_2 z) * pow_2 vphi + pow_2 (Rc * vz - z * vR)).
(** coord.cpp:24-26 *)
Definition Ltotal_S (p : posvel) : R := let '((r, theta, phi), (vr, vtheta, vphi)) := p in
  sqrt (pow_2 vtheta + pow_2 vphi) * r.
(** coord.cpp:31 *)
Definition Lz_C (p : posvel) : R := let '((x, y, z), (vx, vy, vz)) := p in x * vy - y * vx.
(** coord.cpp:32 *)
Definition Lz_Y (p : posvel) : R := let '((Rc, z, phi), (vR, vz, vphi)) := p in Rc * vphi.
(** coord.cpp:33-37 *)
Definition Lz_S (p : posvel) : R := let '((r, theta, phi), (vr, vtheta, vphi)) := p in r * sin theta * vphi.
(** coord.h:400, 430 and coord.cpp:577-582 momenta *)
Definition momenta_Y (p : posvel) : vec3 := let '((Rc, z, phi), (vR, vz, vphi)) := p in (vR, vz, vphi * Rc).
Definition momenta_S (p : posvel) : vec3 := let '((r, theta, phi), (vr, vtheta, vphi)) := p in (vr, vtheta * r, Lz_S p).

(* ---------- tables of derivatives ---------- *)
(** coord.h:554-556 PosDerivT<Car,Cyl> *)
Record DCY := mkDCY { dRdx_CY : R; dRdy_CY : R; dphidx_CY : R; dphidy_CY : R }.
(** coord.h:557-559 PosDerivT<Car,Sph> *)
Record DCS := mkDCS { drdx_CS : R; drdy_CS : R; drdz_CS : R; dthetadx_CS : R; dthetady_CS : R; dthetadz_CS : R; dphidx_CS : R; dphidy_CS : R }.
(** coord.h:560-562 PosDerivT<Cyl,Car> *)
Record DYC := mkDYC { dxdR_YC : R; dxdphi_YC : R; dydR_YC : R; dydphi_YC : R }.
(** coord.h:563-565 PosDerivT<Cyl,Sph> *)
Record DYS := mkDYS { drdR_YS : R; drdz_YS : R; dthetadR_YS : R; dthetadz_YS : R }.
(** coord.h:566-568 PosDerivT<Sph,Car> *)
Record DSC := mkDSC { dxdr_SC : R; dxdtheta_SC : R; dxdphi_SC : R; dydr_SC : R; dydtheta_SC : R; dydphi_SC : R; dzdr_SC : R; dzdtheta_SC : R }.
(** coord.h:569-571 PosDerivT<Sph,Cyl> *)
Record DSY := mkDSY { dRdr_SY : R; dRdtheta_SY : R; dzdr_SY : R; dzdtheta_SY : R }.
(** coord.h:590-592 PosDeriv2T<Cyl,Car> *)
Record DDYC := mkDDYC { d2xdRdphi_YC : R; d2xdphi2_YC : R; d2ydRdphi_YC : R; d2ydphi2_YC : R }.
(** coord.h:593-597 PosDeriv2T<Sph,Car> *)
Record DDSC := mkDDSC { d2xdrdtheta_SC : R; d2xdrdphi_SC : R; d2xdtheta2_SC : R; d2xdthetadphi_SC : R; d2xdphi2_SC : R; d2ydrdtheta_SC : R; d2ydrdphi_SC : R; d2ydtheta2_SC : R; d2ydthetadphi_SC : R; d2ydphi2_SC : R; d2zdrdtheta_SC : R; d2zdtheta2_SC : R }.
(** coord.h:598-600 PosDeriv2T<Car,Cyl> *)
Record DDCY := mkDDCY { d2Rdx2_CY : R; d2Rdxdy_CY : R; d2Rdy2_CY : R; d2phidx2_CY : R; d2phidxdy_CY : R; d2phidy2_CY : R }.
(** coord.h:601-603 PosDeriv2T<Sph,Cyl> *)
Record DDSY := mkDDSY { d2Rdrdtheta_SY : R; d2Rdtheta2_SY : R; d2zdrdtheta_SY : R; d2zdtheta2_SY : R }.
(** coord.h:604-608 PosDeriv2T<Car,Sph> *)
Record DDCS := mkDDCS { d2rdx2_CS : R; d2rdxdy_CS : R; d2rdxdz_CS : R; d2rdy2_CS : R; d2rdydz_CS : R; d2rdz2_CS : R; d2thetadx2_CS : R; d2thetadxdy_CS : R; d2thetadxdz_CS : R; d2thetady2_CS : R; d2thetadydz_CS : R; d2thetadz2_CS : R; d2phidx2_CS : R; d2phidxdy_CS : R; d2phidy2_CS : R }.
(** coord.h:609-611 PosDeriv2T<Cyl,Sph> *)
Record DDYS := mkDDYS { d2rdR2_YS : R; d2rdRdz_YS : R; d2rdz2_YS : R; d2thetadR2_YS : R; d2thetadRdz_YS : R; d2thetadz2_YS : R }.

(* ---------- values of the tables: toPosDeriv ---------- *)
(** coord.cpp:94-123 Car => Cyl: point, first and second derivatives *)
Definition posD_CY (p : vec3) : vec3 := let '(x, y, z) := p in
  let R2 := pow_2 x + pow_2 y in let Rc := sqrt R2 in
  if Req_b Rc 0 then (0, z, 0) else (Rc, z, atan2 y x).
Definition deriv_CY (p : vec3) : DCY := let '(x, y, z) := p in
  let R2 := pow_2 x + pow_2 y in let Rc := sqrt R2 in
  if Req_b Rc 0 then {| dRdx_CY := 1; dRdy_CY := 1; dphidx_CY := 1; dphidy_CY := 1 |} else
  let cosphi := x / Rc in let sinphi := y / Rc in
  {| dRdx_CY := cosphi; dRdy_CY := sinphi; dphidx_CY := - sinphi / Rc; dphidy_CY := cosphi / Rc |}.
Definition deriv2_CY (p : vec3) : DDCY := let '(x, y, z) := p in
  let R2 := pow_2 x + pow_2 y in let Rc := sqrt R2 in
  if Req_b Rc 0 then {| d2Rdx2_CY := 1; d2Rdy2_CY := 1; d2Rdxdy_CY := 1; d2phidx2_CY := 1; d2phidy2_CY := 1; d2phidxdy_CY := 1 |} else
  let cosphi := x / Rc in let sinphi := y / Rc in
  {| d2Rdx2_CY := pow_2 sinphi / Rc; d2Rdy2_CY := pow_2 cosphi / Rc; d2Rdxdy_CY := - sinphi * cosphi / Rc;
     d2phidx2_CY := 2 * sinphi * cosphi / R2; d2phidy2_CY := - (2 * sinphi * cosphi / R2);
     d2phidxdy_CY := (pow_2 sinphi - pow_2 cosphi) / R2 |}.
(** coord.cpp:126-164 Car => Sph *)
Definition posD_CS (p : vec3) : vec3 := let '(x, y, z) := p in
  let x2 := pow_2 x in let y2 := pow_2 y in let z2 := pow_2 z in
  let R2 := x2 + y2 in let Rc := sqrt R2 in let r2 := R2 + z2 in
  (sqrt r2, atan2 Rc z, atan2 y x).
Definition deriv_CS (p : vec3) : DCS := let '(x, y, z) := p in
  let x2 := pow_2 x in let y2 := pow_2 y in let z2 := pow_2 z in
  let R2 := x2 + y2 in let Rc := sqrt R2 in let r2 := R2 + z2 in let r := sqrt r2 in let invr := 1 / r in
  let temp := z / (Rc * r2) in
  {| drdx_CS := x * invr; drdy_CS := y * invr; drdz_CS := z * invr;
     dthetadx_CS := x * temp; dthetady_CS := y * temp; dthetadz_CS := - Rc / r2;
     dphidx_CS := - y / R2; dphidy_CS := x / R2 |}.
Definition deriv2_CS (p : vec3) : DDCS := let '(x, y, z) := p in
  let x2 := pow_2 x in let y2 := pow_2 y in let z2 := pow_2 z in
  let R2 := x2 + y2 in let Rc := sqrt R2 in let r2 := R2 + z2 in let r := sqrt r2 in let invr := 1 / r in
  let invr3 := invr / r2 in
  let invr4 := 1 / (r2 * r2) in
  let temp := z * invr4 / (Rc * R2) in
  let temp2 := (R2 - z2) * invr4 / Rc in
  {| d2rdx2_CS := (r2 - x2) * invr3; d2rdy2_CS := (r2 - y2) * invr3; d2rdz2_CS := R2 * invr3;
     d2rdxdy_CS := - x * y * invr3; d2rdxdz_CS := - x * z * invr3; d2rdydz_CS := - y * z * invr3;
     d2thetadx2_CS := (r2 * y2 - 2 * R2 * x2) * temp; d2thetady2_CS := (r2 * x2 - 2 * R2 * y2) * temp;
     d2thetadz2_CS := 2 * Rc * z * invr4; d2thetadxdy_CS := - x * y * (r2 + 2 * R2) * temp;
     d2thetadxdz_CS := x * temp2; d2thetadydz_CS := y * temp2;
     d2phidx2_CS := 2 * x * y / pow_2 R2; d2phidy2_CS := - (2 * x * y / pow_2 R2); d2phidxdy_CS := (y2 - x2) / pow_2 R2 |}.
(** coord.cpp:167-185 Cyl => Car *)
Definition posD_YC (p : vec3) : vec3 := let '(Rc, z, phi) := p in (mul Rc (cos phi), mul Rc (sin phi), z).
Definition deriv_YC (p : vec3) : DYC := let '(Rc, z, phi) := p in
  let sinphi := sin phi in let cosphi := cos phi in let x := mul Rc cosphi in let y := mul Rc sinphi in
  {| dxdR_YC := cosphi; dydR_YC := sinphi; dxdphi_YC := - y; dydphi_YC := x |}.
Definition deriv2_YC (p : vec3) : DDYC := let '(Rc, z, phi) := p in
  let sinphi := sin phi in let cosphi := cos phi in let x := mul Rc cosphi in let y := mul Rc sinphi in
  {| d2xdRdphi_YC := - sinphi; d2ydRdphi_YC := cosphi; d2xdphi2_YC := - x; d2ydphi2_YC := - y |}.
(** coord.cpp:188-208 Cyl => Sph *)
Definition posD_YS (p : vec3) : vec3 := let '(Rc, z, phi) := p in (sqrt (pow_2 Rc + pow_2 z), atan2 Rc z, phi).
Definition deriv_YS (p : vec3) : DYS := let '(Rc, z, phi) := p in
  let r := sqrt (pow_2 Rc + pow_2 z) in let rinv := 1 / r in let costheta := z * rinv in let sintheta := Rc * rinv in
  {| drdR_YS := sintheta; drdz_YS := costheta; dthetadR_YS := costheta * rinv; dthetadz_YS := - sintheta * rinv |}.
Definition deriv2_YS (p : vec3) : DDYS := let '(Rc, z, phi) := p in
  let r := sqrt (pow_2 Rc + pow_2 z) in let rinv := 1 / r in let costheta := z * rinv in let sintheta := Rc * rinv in
  {| d2rdR2_YS := pow_2 costheta * rinv; d2rdz2_YS := pow_2 sintheta * rinv; d2rdRdz_YS := - costheta * sintheta * rinv;
     d2thetadR2_YS := -2 * costheta * sintheta * pow_2 rinv; d2thetadz2_YS := - (-2 * costheta * sintheta * pow_2 rinv);
     d2thetadRdz_YS := (pow_2 sintheta - pow_2 costheta) * pow_2 rinv |}.
(** coord.cpp:211-242 Sph => Car *)
Definition posD_SC (p : vec3) : vec3 := let '(r, theta, phi) := p in
  let Rc := mul r (sin theta) in (mul Rc (cos phi), mul Rc (sin phi), mul r (cos theta)).
Definition deriv_SC (p : vec3) : DSC := let '(r, theta, phi) := p in
  let sintheta := sin theta in let costheta := cos theta in let sinphi := sin phi in let cosphi := cos phi in
  let Rc := mul r sintheta in let x := mul Rc cosphi in let y := mul Rc sinphi in let z := mul r costheta in
  {| dxdr_SC := sintheta * cosphi; dydr_SC := sintheta * sinphi; dzdr_SC := costheta;
     dxdtheta_SC := z * cosphi; dydtheta_SC := z * sinphi; dzdtheta_SC := - Rc; dxdphi_SC := - y; dydphi_SC := x |}.
Definition deriv2_SC (p : vec3) : DDSC := let '(r, theta, phi) := p in
  let sintheta := sin theta in let costheta := cos theta in let sinphi := sin phi in let cosphi := cos phi in
  let Rc := mul r sintheta in let x := mul Rc cosphi in let y := mul Rc sinphi in let z := mul r costheta in
  {| d2xdrdtheta_SC := costheta * cosphi; d2ydrdtheta_SC := costheta * sinphi; d2zdrdtheta_SC := - sintheta;
     d2xdrdphi_SC := - sintheta * sinphi; d2ydrdphi_SC := sintheta * cosphi;
     d2xdtheta2_SC := - x; d2ydtheta2_SC := - y; d2zdtheta2_SC := - z;
     d2xdthetadphi_SC := - z * sinphi; d2ydthetadphi_SC := z * cosphi; d2xdphi2_SC := - x; d2ydphi2_SC := - y |}.
(** coord.cpp:245-263 Sph => Cyl *)
Definition posD_SY (p : vec3) : vec3 := let '(r, theta, phi) := p in (mul r (sin theta), mul r (cos theta), phi).
Definition deriv_SY (p : vec3) : DSY := let '(r, theta, phi) := p in
  let sintheta := sin theta in let costheta := cos theta in let Rc := mul r sintheta in let z := mul r costheta in
  {| dRdr_SY := sintheta; dRdtheta_SY := z; dzdr_SY := costheta; dzdtheta_SY := - Rc |}.
Definition deriv2_SY (p : vec3) : DDSY := let '(r, theta, phi) := p in
  let sintheta := sin theta in let costheta := cos theta in
  {| d2Rdrdtheta_SY := costheta; d2Rdtheta2_SY := - r * sintheta; d2zdrdtheta_SY := - sintheta; d2zdtheta2_SY := - r * costheta |}.

(* ---------- conversion of gradients and hessians ---------- *)
(** coord.cpp:608-614 toGrad: gradient in Car from the gradient in Cyl *)
Definition toGrad_CY (g : vec3) (d : DCY) : vec3 :=
  (v1 g * dRdx_CY d + v3 g * dphidx_CY d,
   v1 g * dRdy_CY d + v3 g * dphidy_CY d,
   v2 g).
(** coord.cpp:617-623 toGrad: gradient in Car from the gradient in Sph *)
Definition toGrad_CS (g : vec3) (d : DCS) : vec3 :=
  (v1 g * drdx_CS d + v2 g * dthetadx_CS d + v3 g * dphidx_CS d,
   v1 g * drdy_CS d + v2 g * dthetady_CS d + v3 g * dphidy_CS d,
   v1 g * drdz_CS d + v2 g * dthetadz_CS d).
(** coord.cpp:626-632 toGrad: gradient in Cyl from the gradient in Car *)
Definition toGrad_YC (g : vec3) (d : DYC) : vec3 :=
  (v1 g * dxdR_YC d + v2 g * dydR_YC d,
   v3 g,
   v1 g * dxdphi_YC d + v2 g * dydphi_YC d).
(** coord.cpp:635-641 toGrad: gradient in Cyl from the gradient in Sph *)
Definition toGrad_YS (g : vec3) (d : DYS) : vec3 :=
  (v1 g * drdR_YS d + v2 g * dthetadR_YS d,
   v1 g * drdz_YS d + v2 g * dthetadz_YS d,
   v3 g).
(** coord.cpp:644-650 toGrad: gradient in Sph from the gradient in Car *)
Definition toGrad_SC (g : vec3) (d : DSC) : vec3 :=
  (v1 g * dxdr_SC d + v2 g * dydr_SC d + v3 g * dzdr_SC d,
   v1 g * dxdtheta_SC d + v2 g * dydtheta_SC d + v3 g * dzdtheta_SC d,
   v1 g * dxdphi_SC d + v2 g * dydphi_SC d).
(** coord.cpp:653-659 toGrad: gradient in Sph from the gradient in Cyl *)
Definition toGrad_SY (g : vec3) (d : DSY) : vec3 :=
  (v1 g * dRdr_SY d + v2 g * dzdr_SY d,
   v1 g * dRdtheta_SY d + v2 g * dzdtheta_SY d,
   v3 g).
(** coord.cpp:700-719 toHess: hessian in Car from the gradient and hessian in Cyl *)
Definition toHess_CY (g : vec3) (h : hess6) (d : DCY) (d2 : DDCY) : hess6 := {|
  h11 := (h11 h * dRdx_CY d + h13 h * dphidx_CY d) * dRdx_CY d + (h13 h * dRdx_CY d + h33 h * dphidx_CY d) * dphidx_CY d + v1 g * d2Rdx2_CY d2 + v3 g * d2phidx2_CY d2;
  h22 := (h11 h * dRdy_CY d + h13 h * dphidy_CY d) * dRdy_CY d + (h13 h * dRdy_CY d + h33 h * dphidy_CY d) * dphidy_CY d + v1 g * d2Rdy2_CY d2 + v3 g * d2phidy2_CY d2;
  h33 := h22 h;
  h12 := (h11 h * dRdy_CY d + h13 h * dphidy_CY d) * dRdx_CY d + (h13 h * dRdy_CY d + h33 h * dphidy_CY d) * dphidx_CY d + v1 g * d2Rdxdy_CY d2 + v3 g * d2phidxdy_CY d2;
  h23 := h12 h * dRdy_CY d + h23 h * dphidy_CY d;
  h13 := h12 h * dRdx_CY d + h23 h * dphidx_CY d |}.
(** coord.cpp:722-755 toHess: hessian in Car from the gradient and hessian in Sph *)
Definition toHess_CS (g : vec3) (h : hess6) (d : DCS) (d2 : DDCS) : hess6 := {|
  h11 := (h11 h * drdx_CS d + h12 h * dthetadx_CS d + h13 h * dphidx_CS d) * drdx_CS d + (h12 h * drdx_CS d + h22 h * dthetadx_CS d + h23 h * dphidx_CS d) * dthetadx_CS d + (h13 h * drdx_CS d + h23 h * dthetadx_CS d + h33 h * dphidx_CS d) * dphidx_CS d + v1 g * d2rdx2_CS d2 + v2 g * d2thetadx2_CS d2 + v3 g * d2phidx2_CS d2;
  h22 := (h11 h * drdy_CS d + h12 h * dthetady_CS d + h13 h * dphidy_CS d) * drdy_CS d + (h12 h * drdy_CS d + h22 h * dthetady_CS d + h23 h * dphidy_CS d) * dthetady_CS d + (h13 h * drdy_CS d + h23 h * dthetady_CS d + h33 h * dphidy_CS d) * dphidy_CS d + v1 g * d2rdy2_CS d2 + v2 g * d2thetady2_CS d2 + v3 g * d2phidy2_CS d2;
  h33 := (h11 h * drdz_CS d + h12 h * dthetadz_CS d) * drdz_CS d + (h12 h * drdz_CS d + h22 h * dthetadz_CS d) * dthetadz_CS d + v1 g * d2rdz2_CS d2 + v2 g * d2thetadz2_CS d2;
  h12 := (h11 h * drdy_CS d + h12 h * dthetady_CS d + h13 h * dphidy_CS d) * drdx_CS d + (h12 h * drdy_CS d + h22 h * dthetady_CS d + h23 h * dphidy_CS d) * dthetadx_CS d + (h13 h * drdy_CS d + h23 h * dthetady_CS d + h33 h * dphidy_CS d) * dphidx_CS d + v1 g * d2rdxdy_CS d2 + v2 g * d2thetadxdy_CS d2 + v3 g * d2phidxdy_CS d2;
  h23 := (h11 h * drdz_CS d + h12 h * dthetadz_CS d) * drdy_CS d + (h12 h * drdz_CS d + h22 h * dthetadz_CS d) * dthetady_CS d + (h13 h * drdz_CS d + h23 h * dthetadz_CS d) * dphidy_CS d + v1 g * d2rdydz_CS d2 + v2 g * d2thetadydz_CS d2;
  h13 := (h11 h * drdz_CS d + h12 h * dthetadz_CS d) * drdx_CS d + (h12 h * drdz_CS d + h22 h * dthetadz_CS d) * dthetadx_CS d + (h13 h * drdz_CS d + h23 h * dthetadz_CS d) * dphidx_CS d + v1 g * d2rdxdz_CS d2 + v2 g * d2thetadxdz_CS d2 |}.
(** coord.cpp:758-776 toHess: hessian in Cyl from the gradient and hessian in Car *)
Definition toHess_YC (g : vec3) (h : hess6) (d : DYC) (d2 : DDYC) : hess6 := {|
  h11 := (h11 h * dxdR_YC d + h12 h * dydR_YC d) * dxdR_YC d + (h12 h * dxdR_YC d + h22 h * dydR_YC d) * dydR_YC d;
  h22 := h33 h;
  h33 := (h11 h * dxdphi_YC d + h12 h * dydphi_YC d) * dxdphi_YC d + (h12 h * dxdphi_YC d + h22 h * dydphi_YC d) * dydphi_YC d + v1 g * d2xdphi2_YC d2 + v2 g * d2ydphi2_YC d2;
  h12 := h13 h * dxdR_YC d + h23 h * dydR_YC d;
  h23 := (h13 h * dxdphi_YC d + h23 h * dydphi_YC d);
  h13 := (h11 h * dxdphi_YC d + h12 h * dydphi_YC d) * dxdR_YC d + (h12 h * dxdphi_YC d + h22 h * dydphi_YC d) * dydR_YC d + v1 g * d2xdRdphi_YC d2 + v2 g * d2ydRdphi_YC d2 |}.
(** coord.cpp:779-798 toHess: hessian in Cyl from the gradient and hessian in Sph *)
Definition toHess_YS (g : vec3) (h : hess6) (d : DYS) (d2 : DDYS) : hess6 := {|
  h11 := (h11 h * drdR_YS d + h12 h * dthetadR_YS d) * drdR_YS d + (h12 h * drdR_YS d + h22 h * dthetadR_YS d) * dthetadR_YS d + v1 g * d2rdR2_YS d2 + v2 g * d2thetadR2_YS d2;
  h22 := (h11 h * drdz_YS d + h12 h * dthetadz_YS d) * drdz_YS d + (h12 h * drdz_YS d + h22 h * dthetadz_YS d) * dthetadz_YS d + v1 g * d2rdz2_YS d2 + v2 g * d2thetadz2_YS d2;
  h33 := h33 h;
  h12 := (h11 h * drdz_YS d + h12 h * dthetadz_YS d) * drdR_YS d + (h12 h * drdz_YS d + h22 h * dthetadz_YS d) * dthetadR_YS d + v1 g * d2rdRdz_YS d2 + v2 g * d2thetadRdz_YS d2;
  h23 := h13 h * drdz_YS d + h23 h * dthetadz_YS d;
  h13 := h13 h * drdR_YS d + h23 h * dthetadR_YS d |}.
(** coord.cpp:801-833 toHess: hessian in Sph from the gradient and hessian in Car *)
Definition toHess_SC (g : vec3) (h : hess6) (d : DSC) (d2 : DDSC) : hess6 := {|
  h11 := (h11 h * dxdr_SC d + h12 h * dydr_SC d + h13 h * dzdr_SC d) * dxdr_SC d + (h12 h * dxdr_SC d + h22 h * dydr_SC d + h23 h * dzdr_SC d) * dydr_SC d + (h13 h * dxdr_SC d + h23 h * dydr_SC d + h33 h * dzdr_SC d) * dzdr_SC d;
  h22 := (h11 h * dxdtheta_SC d + h12 h * dydtheta_SC d + h13 h * dzdtheta_SC d) * dxdtheta_SC d + (h12 h * dxdtheta_SC d + h22 h * dydtheta_SC d + h23 h * dzdtheta_SC d) * dydtheta_SC d + (h13 h * dxdtheta_SC d + h23 h * dydtheta_SC d + h33 h * dzdtheta_SC d) * dzdtheta_SC d + v1 g * d2xdtheta2_SC d2 + v2 g * d2ydtheta2_SC d2 + v3 g * d2zdtheta2_SC d2;
  h33 := (h11 h * dxdphi_SC d + h12 h * dydphi_SC d) * dxdphi_SC d + (h12 h * dxdphi_SC d + h22 h * dydphi_SC d) * dydphi_SC d + v1 g * d2xdphi2_SC d2 + v2 g * d2ydphi2_SC d2;
  h12 := (h11 h * dxdtheta_SC d + h12 h * dydtheta_SC d + h13 h * dzdtheta_SC d) * dxdr_SC d + (h12 h * dxdtheta_SC d + h22 h * dydtheta_SC d + h23 h * dzdtheta_SC d) * dydr_SC d + (h13 h * dxdtheta_SC d + h23 h * dydtheta_SC d + h33 h * dzdtheta_SC d) * dzdr_SC d + v1 g * d2xdrdtheta_SC d2 + v2 g * d2ydrdtheta_SC d2 + v3 g * d2zdrdtheta_SC d2;
  h23 := (h11 h * dxdphi_SC d + h12 h * dydphi_SC d) * dxdtheta_SC d + (h12 h * dxdphi_SC d + h22 h * dydphi_SC d) * dydtheta_SC d + (h13 h * dxdphi_SC d + h23 h * dydphi_SC d) * dzdtheta_SC d + v1 g * d2xdthetadphi_SC d2 + v2 g * d2ydthetadphi_SC d2;
  h13 := (h11 h * dxdphi_SC d + h12 h * dydphi_SC d) * dxdr_SC d + (h12 h * dxdphi_SC d + h22 h * dydphi_SC d) * dydr_SC d + (h13 h * dxdphi_SC d + h23 h * dydphi_SC d) * dzdr_SC d + v1 g * d2xdrdphi_SC d2 + v2 g * d2ydrdphi_SC d2 |}.
(** coord.cpp:836-854 toHess: hessian in Sph from the gradient and hessian in Cyl *)
Definition toHess_SY (g : vec3) (h : hess6) (d : DSY) (d2 : DDSY) : hess6 := {|
  h11 := (h11 h * dRdr_SY d + h12 h * dzdr_SY d) * dRdr_SY d + (h12 h * dRdr_SY d + h22 h * dzdr_SY d) * dzdr_SY d;
  h22 := (h11 h * dRdtheta_SY d + h12 h * dzdtheta_SY d) * dRdtheta_SY d + (h12 h * dRdtheta_SY d + h22 h * dzdtheta_SY d) * dzdtheta_SY d + v1 g * d2Rdtheta2_SY d2 + v2 g * d2zdtheta2_SY d2;
  h33 := h33 h;
  h12 := (h11 h * dRdtheta_SY d + h12 h * dzdtheta_SY d) * dRdr_SY d + (h12 h * dRdtheta_SY d + h22 h * dzdtheta_SY d) * dzdr_SY d + v1 g * d2Rdrdtheta_SY d2 + v2 g * d2zdrdtheta_SY d2;
  h23 := h13 h * dRdtheta_SY d + h23 h * dzdtheta_SY d;
  h13 := h13 h * dRdr_SY d + h23 h * dzdr_SY d |}.

(* ---------- spherically-symmetric functions: evalAndConvertSph; der, der2 = F'(r), F''(r) at the radius of the point ---------- *)
(** coord.cpp:923-957 Car *)
Definition sphR_C (p : vec3) : R := let '(x, y, z) := p in sqrt (pow_2 x + pow_2 y + pow_2 z).
Definition sphGrad_C (p : vec3) (der : R) : vec3 := let '(x, y, z) := p in let r := sphR_C p in
  let '(xr, yr, zr) := if Req_b r 0 then (0, 0, 0) else (x / r, y / r, z / r) in
  (xr * der, yr * der, zr * der).
Definition sphHess_C (p : vec3) (der der2 : R) : hess6 := let '(x, y, z) := p in let r := sphR_C p in
  let '(xr, yr, zr) := if Req_b r 0 then (0, 0, 0) else (x / r, y / r, z / r) in
  let '(dd, der_over_r) := if Req_b r 0 then (0, if Req_b der 0 then der2 else der / r) else (der2 - der / r, der / r) in
  {| h11 := pow_2 xr * dd + der_over_r; h22 := pow_2 yr * dd + der_over_r; h33 := pow_2 zr * dd + der_over_r;
     h12 := xr * yr * dd; h23 := yr * zr * dd; h13 := xr * zr * dd |}.
(** coord.cpp:959-990 Cyl *)
Definition sphR_Y (p : vec3) : R := let '(Rc, z, phi) := p in sqrt (pow_2 Rc + pow_2 z).
Definition sphGrad_Y (p : vec3) (der : R) : vec3 := let '(Rc, z, phi) := p in let r := sphR_Y p in
  let '(Rr, zr) := if Req_b r 0 then (0, 0) else (Rc / r, z / r) in
  (Rr * der, zr * der, 0).
Definition sphHess_Y (p : vec3) (der der2 : R) : hess6 := let '(Rc, z, phi) := p in let r := sphR_Y p in
  let '(Rr, zr) := if Req_b r 0 then (0, 0) else (Rc / r, z / r) in
  let '(dd, der_over_r) := if Req_b r 0 then (0, if Req_b der 0 then der2 else der / r) else (der2 - der / r, der / r) in
  {| h11 := pow_2 Rr * dd + der_over_r; h22 := pow_2 zr * dd + der_over_r; h33 := 0;
     h12 := Rr * zr * dd; h23 := 0; h13 := 0 |}.
(** coord.cpp:993-1006 Sph *)
Definition sphGrad_S (p : vec3) (der : R) : vec3 := (der, 0, 0).
Definition sphHess_S (p : vec3) (der der2 : R) : hess6 := {| h11 := der2; h22 := 0; h33 := 0; h12 := 0; h23 := 0; h13 := 0 |}.

(* ---------- evaluation in another coordinate system ---------- *)
(** coord.h:831-855 evalAndConvert: F = evalScalar of the function in its own coordinates (value, gradient, hessian);
    the flags say which of the output pointers are not NULL.  The value pointer is always requested here. *)
Definition evalAndConvert {D D2 : Type} (toPos posD : vec3 -> vec3) (deriv : vec3 -> D) (deriv2 : vec3 -> D2)
    (toGrad : vec3 -> D -> vec3) (toHess : vec3 -> hess6 -> D -> D2 -> hess6)
    (F : vec3 -> R * vec3 * hess6) (wantGrad wantHess : bool) (pos : vec3) : R * option vec3 * option hess6 :=
  let needDeriv := wantGrad || wantHess in
  let evalPos := if needDeriv then posD pos else toPos pos in
  let '(value, evalGrad, evalHess) := F evalPos in
  (value, (if wantGrad then Some (toGrad evalGrad (deriv pos)) else None),
          (if wantHess then Some (toHess evalGrad evalHess (deriv pos) (deriv2 pos)) else None)).
(** the six instances: first letter = output system, second = system in which F is computed *)
Definition evalAndConvert_CY := evalAndConvert toPos_CY posD_CY deriv_CY deriv2_CY toGrad_CY toHess_CY.
Definition evalAndConvert_CS := evalAndConvert toPos_CS posD_CS deriv_CS deriv2_CS toGrad_CS toHess_CS.
Definition evalAndConvert_YC := evalAndConvert toPos_YC posD_YC deriv_YC deriv2_YC toGrad_YC toHess_YC.
Definition evalAndConvert_YS := evalAndConvert toPos_YS posD_YS deriv_YS deriv2_YS toGrad_YS toHess_YS.
Definition evalAndConvert_SC := evalAndConvert toPos_SC posD_SC deriv_SC deriv2_SC toGrad_SC toHess_SC.
Definition evalAndConvert_SY := evalAndConvert toPos_SY posD_SY deriv_SY deriv2_SY toGrad_SY toHess_SY.
(** coord.h:870-909 evalAndConvertTwoStep (instance Car <- Cyl <- evaluation system) for an evaluation system reached
    from Cyl by the functions of the first argument list *)
Definition evalAndConvertTwoStep {D D2 E E2 : Type}
    (toPosIE posDIE : vec3 -> vec3) (derivIE : vec3 -> D) (deriv2IE : vec3 -> D2) (toGradIE : vec3 -> D -> vec3) (toHessIE : vec3 -> hess6 -> D -> D2 -> hess6)
    (toPosOI posDOI : vec3 -> vec3) (derivOI : vec3 -> E) (deriv2OI : vec3 -> E2) (toGradOI : vec3 -> E -> vec3) (toHessOI : vec3 -> hess6 -> E -> E2 -> hess6)
    (F : vec3 -> R * vec3 * hess6) (wantGrad wantHess : bool) (pos : vec3) : R * option vec3 * option hess6 :=
  let needDeriv := wantGrad || wantHess in
  let intermedPos := if needDeriv then posDOI pos else toPosOI pos in
  let evalPos := if needDeriv then posDIE intermedPos else toPosIE intermedPos in
  let '(value, evalGrad, evalHess) := F evalPos in
  let intermedGrad := toGradIE evalGrad (derivIE intermedPos) in
  let intermedHess := toHessIE evalGrad evalHess (derivIE intermedPos) (deriv2IE intermedPos) in
  (value, (if wantGrad then Some (toGradOI intermedGrad (derivOI pos)) else None),
          (if wantHess then Some (toHessOI intermedGrad intermedHess (derivOI pos) (deriv2OI pos)) else None)).
