(** What a user expects of disk models (C62): the formulas in the comments of src/potential_disk.h *)
From Coq Require Import Reals.
From Coquelicot Require Import Coquelicot.
From Verif Require Import RandReal CoordModel AnalyticSpec DiskModel.
Local Open Scope R_scope.

Definition valid (P : diskParam) : Prop := 0 < scaleRadius P /\ 0 <= innerCutoffRadius P /\ 0 < sersicIndex P.
(** surface density: Sigma_0 exp[ -(R/R_d)^(1/n) - R_0/R + eps cos(R/R_d) ],  R>0 *)
Definition Sigma (P : diskParam) (Rc : R) : R :=
  surfaceDensity P * exp (- Rpower (Rc / scaleRadius P) (1 / sersicIndex P) - innerCutoffRadius P / Rc + modulationAmplitude P * cos (Rc / scaleRadius P)).
(** vertical profile: 1/(2h) exp(-|z/h|) for h>0,  1/(4|h|) sech^2(|z/2h|) for h<0 *)
Definition sech (x : R) : R := 2 / (exp x + exp (- x)).
Definition vprofile (h z : R) : R :=
  if Rlt_dec 0 h then 1 / (2 * h) * exp (- Rabs (z / h)) else 1 / (4 * Rabs h) * sech (Rabs (z / (2 * h))) ^ 2.
(** a function of one variable with its two derivatives on an open interval (a,b) of the real line or beyond *)
Definition twice_derivable (dom : R -> Prop) (F F1 F2 : R -> R) : Prop := forall x, dom x -> is_derive F x (F1 x) /\ is_derive F1 x (F2 x).
(** the function object returns these values *)
Definition computes (dom : R -> Prop) (g : fnc) (F F1 F2 : R -> R) : Prop := forall x, dom x -> g x = (Fin (F x), Fin (F1 x), Fin (F2 x)).
(** the part of the potential provided analytically: 4 pi f(r) H(z) *)
Definition Ansatz (f H : R -> R) (x : vec3) : R := 4 * PI * f (radius x) * H (v3 x).
(** the residual density: [f(R)-f(r)] h(z) - f''(r) H(z) - 2 f'(r) [H(z) + z H'(z)] / r *)
Definition residual (f f1 f2 H H1 h : R -> R) (Rc z : R) : R :=
  let r := sqrt (Rc ^ 2 + z ^ 2) in (f Rc - f r) * h z - f2 r * H z - 2 * f1 r * (H z + z * H1 z) / r.
(** accuracy of the antiderivative H(z): exact outside a thin layer around the disk plane, where a series is used *)
Definition vtol (h z : R) : R :=
  let x := Rabs (z / h) in
  if Rlt_dec 0 h then (if Rle_dec x 0.00001 then h * x ^ 4 / 48 else 0) else (if Rle_dec x 0.001 then Rabs h * x ^ 6 / 2880 else 0).
