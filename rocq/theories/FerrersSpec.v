(** The Ferrers n=2 model (potential_ferrers.h:12-19) and the spherical Dehnen model (potential_dehnen.h:12-24). *)
From Coq Require Import Reals.
From Coquelicot Require Import Coquelicot.
From Verif Require Import RandReal CoordModel CoordSpec FerrersModel.
Local Open Scope R_scope.

(** left-hand side of the equation of the confocal ellipsoid  x^2/(a^2+l) + y^2/(b^2+l) + z^2/(c^2+l) *)
Definition ell (P : ferrers) (pos : vec3) (l : R) : R := v1 pos ^ 2 / (fa P ^ 2 + l) + v2 pos ^ 2 / (fb P ^ 2 + l) + v3 pos ^ 2 / (fc P ^ 2 + l).
(** the root-finder delivers the exact positive root for each point outside the ellipsoid *)
Definition is_root (P : ferrers) (root : vec3 -> R) : Prop := forall pos, 1 < ell P pos 0 -> 0 < root pos /\ ell P pos (root pos) = 1.
(** documented density: 105 M / (32 pi p q R^3) (1 - (r/R)^2)^2 inside the ellipsoid r = sqrt(x^2 + (y/p)^2 + (z/q)^2) < R, zero outside *)
Definition ferrers_rho (mass Rs p q : R) (pos : vec3) : R :=
  let m2 := (v1 pos ^ 2 + (v2 pos / p) ^ 2 + (v3 pos / q) ^ 2) / Rs ^ 2 in
  if Rle_dec m2 1 then 105 * mass / (32 * PI * p * q * Rs ^ 3) * (1 - m2) ^ 2 else 0.
(** potential of a heterogeneous ellipsoid (Ferrers, Chandrasekhar): -pi/3 rho0 a b c int_l^infinity (1 - ell(s))^3 / sqrt((a^2+s)(b^2+s)(c^2+s)) ds *)
Definition ferrers_Phi (P : ferrers) (pos : vec3) (l : R) (phi : R) : Prop :=
  exists I, is_RInt_gen (fun s => (1 - ell P pos s) ^ 3 / sqrt ((fa P ^ 2 + s) * (fb P ^ 2 + s) * (fc P ^ 2 + s))) (at_point l) (Rbar_locally p_infty) I /\
    phi = - PI / 3 * frho0 P * fa P * fb P * fc P * I.
(** spherical Dehnen (1993) model: M / a (1 - (r/(r+a))^(2-gamma)) / (gamma-2), logarithmic for gamma = 2, and its density (3-gamma) M a / (4 pi r^gamma (r+a)^(4-gamma)) *)
Definition dehnen_Phi (M a g : R) (pos : vec3) : R :=
  let r := sqrt (v1 pos ^ 2 + v2 pos ^ 2 + v3 pos ^ 2) in
  if Req_EM_T g 2 then M / a * ln (r / (r + a)) else - (M / a) * (1 - Rpower (r / (r + a)) (2 - g)) / (2 - g).
Definition dehnen_rho (M a g : R) (pos : vec3) : R :=
  let r := sqrt (v1 pos ^ 2 + v2 pos ^ 2 + v3 pos ^ 2) in (3 - g) * M / (4 * PI) * a / (Rpower r g * Rpower (r + a) (4 - g)).
