(** Rotations of the Cartesian frame given by Euler angles: class Orientation, src/coord.h:955-1155, src/coord.cpp:1012-1046.
    A matrix mat[9] is a triple of rows.  Exact real arithmetic. *)
From Coq Require Import Reals Lra Bool.
From Verif Require Import RandReal PolyModel CoordModel.
Local Open Scope R_scope.

Definition mat3 := (vec3 * vec3 * vec3)%type.
(** coord.cpp:1012-1027 *)
Definition Orientation (alpha beta gamma : R) : mat3 :=
  let sa := sin alpha in let ca := cos alpha in let sb := sin beta in let cb := cos beta in let sc := sin gamma in let cc := cos gamma in
  ((ca * cc - sa * cb * sc, sa * cc + ca * cb * sc, sb * sc),
   (- ca * sc - sa * cb * cc, - sa * sc + ca * cb * cc, sb * cc),
   (sa * sb, - ca * sb, cb)).
(** coord.h:967 *)
Definition isFaceOn (m : mat3) : bool := let '(_, _, (_, _, m8)) := m in Req_b m8 1 || Req_b m8 (-1).
(** coord.cpp:1029-1046 *)
Definition toEulerAngles (m : mat3) : vec3 :=
  let '((m0, m1, m2), (m3, m4, m5), (m6, m7, m8)) := m in
  let beta := atan2 (sqrt (pow_2 m2 + pow_2 m5)) m8 in
  if Req_b m2 0 && Req_b m5 0 && Req_b m6 0 && Req_b m7 0 then
    (0, beta, atan2 m1 m0 * (if Rlt_b 0 m8 then 1 else -1))
  else (atan2 m6 (- m7), beta, atan2 m2 m5).
(** coord.h:979-984; the overloads for positions, velocities and gradients (988-1055, 1097-1116) apply it to the three components *)
Definition toRotated (m : mat3) (v : vec3) : vec3 :=
  let '((m0, m1, m2), (m3, m4, m5), (m6, m7, m8)) := m in
  (m0 * v1 v + m1 * v2 v + m2 * v3 v, m3 * v1 v + m4 * v2 v + m5 * v3 v, m6 * v1 v + m7 * v2 v + m8 * v3 v).
(** coord.h:987-993 *)
Definition fromRotated (m : mat3) (v : vec3) : vec3 :=
  let '((m0, m1, m2), (m3, m4, m5), (m6, m7, m8)) := m in
  (m0 * v1 v + m3 * v2 v + m6 * v3 v, m1 * v1 v + m4 * v2 v + m7 * v3 v, m2 * v1 v + m5 * v2 v + m8 * v3 v).
(** coord.h:1034-1055 position-velocity pairs *)
Definition toRotatedPV (m : mat3) (p : posvel) : posvel := (toRotated m (fst p), toRotated m (snd p)).
Definition fromRotatedPV (m : mat3) (p : posvel) : posvel := (fromRotated m (fst p), fromRotated m (snd p)).
(** coord.h:1118-1137 HessCar; coord.h:1057-1075 Vel2Car is the same text with vx2.. in place of dx2.. *)
Definition toRotatedH (m : mat3) (h : hess6) : hess6 :=
  let resx := toRotated m (h11 h, h12 h, h13 h) in
  let resy := toRotated m (h12 h, h22 h, h23 h) in
  let resz := toRotated m (h13 h, h23 h, h33 h) in
  let '((m0, m1, m2), (m3, m4, m5), (m6, m7, m8)) := m in
  {| h11 := m0 * v1 resx + m1 * v1 resy + m2 * v1 resz;
     h22 := m3 * v2 resx + m4 * v2 resy + m5 * v2 resz;
     h33 := m6 * v3 resx + m7 * v3 resy + m8 * v3 resz;
     h12 := m3 * v1 resx + m4 * v1 resy + m5 * v1 resz;
     h23 := m6 * v2 resx + m7 * v2 resy + m8 * v2 resz;
     h13 := m0 * v3 resx + m1 * v3 resy + m2 * v3 resz |}.
(** coord.h:1139-1158 HessCar; coord.h:1077-1095 Vel2Car *)
Definition fromRotatedH (m : mat3) (h : hess6) : hess6 :=
  let resx := fromRotated m (h11 h, h12 h, h13 h) in
  let resy := fromRotated m (h12 h, h22 h, h23 h) in
  let resz := fromRotated m (h13 h, h23 h, h33 h) in
  let '((m0, m1, m2), (m3, m4, m5), (m6, m7, m8)) := m in
  {| h11 := m0 * v1 resx + m3 * v1 resy + m6 * v1 resz;
     h22 := m1 * v2 resx + m4 * v2 resy + m7 * v2 resz;
     h33 := m2 * v3 resx + m5 * v3 resy + m8 * v3 resz;
     h12 := m1 * v1 resx + m4 * v1 resy + m7 * v1 resz;
     h23 := m2 * v2 resx + m5 * v2 resy + m8 * v2 resz;
     h13 := m0 * v3 resx + m3 * v3 resy + m6 * v3 resz |}.
