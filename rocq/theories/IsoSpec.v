(** Action-angle variables of the isochrone potential (C58); independent of the code. *)
From Coq Require Import Reals List.
From Coquelicot Require Import Coquelicot.
From Verif Require Import RandReal CoordModel CoordSpec.
Local Open Scope R_scope.

(** Henon's isochrone potential *)
Definition iso_Phi (M b : R) (x : vec3) : R := - M / (b + sqrt (b * b + (v1 x * v1 x + v2 x * v2 x + v3 x * v3 x))).
(** energy of a particle at the position x with the velocity v *)
Definition iso_energy (M b : R) (x v : vec3) : R := iso_Phi M b x + / 2 * (v1 v * v1 v + v2 v * v2 v + v3 v * v3 v).
(** the Hamiltonian as a function of actions (Binney & Tremaine, eq. 3.226) *)
Definition iso_H (M b Jr Jz Jphi : R) : R :=
  let L := Jz + Rabs Jphi in - (M * M) / (2 * (Jr + / 2 * (L + sqrt (L * L + 4 * M * b))) ^ 2).
(** a solver of Kepler's equation that is exact and returns the root in the main turn *)
Definition kepler_solver (kep : R -> R -> R) : Prop :=
  forall e M, 0 <= e < 1 -> 0 <= kep e M < 2 * PI /\ exists k : Z, kep e M - e * sin (kep e M) = M - 2 * PI * IZR k.
(** x(t), v(t) is the motion of a particle in the potential Phi: dx/dt = v, dv/dt = -grad Phi *)
Definition newton (Phi : vec3 -> R) (x v : R -> vec3) : Prop :=
  forall t, is_derive (fun s => v1 (x s)) t (v1 (v t)) /\ is_derive (fun s => v2 (x s)) t (v2 (v t)) /\ is_derive (fun s => v3 (x s)) t (v3 (v t)) /\
    exists g, is_grad Phi (x t) g /\ is_derive (fun s => v1 (v s)) t (- v1 g) /\ is_derive (fun s => v2 (v s)) t (- v2 g) /\ is_derive (fun s => v3 (v s)) t (- v3 g).
(** equal up to a whole number of turns *)
Definition same_angle (a b : R) : Prop := exists k : Z, a = b - 2 * PI * IZR k.
