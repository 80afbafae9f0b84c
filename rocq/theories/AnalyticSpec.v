(** Documented formulas of the analytic potentials (comments in src/potential_analytic.h and doc/reference), as functions of the
    Cartesian position; and what enclosed and total mass mean. *)
From Coq Require Import Reals.
From Coquelicot Require Import Coquelicot.
From Verif Require Import RandReal CoordModel.
Local Open Scope R_scope.

Definition radius (x : vec3) : R := sqrt (v1 x ^ 2 + v2 x ^ 2 + v3 x ^ 2).
(** - M / sqrt(r^2 + b^2) *)
Definition Plummer_Phi (M b : R) (t : R) (x : vec3) : R := - M / sqrt (radius x ^ 2 + b ^ 2).
(** 3 M b^2 / (4 pi (r^2 + b^2)^(5/2)) *)
Definition Plummer_rho (M b : R) (t : R) (x : vec3) : R := 3 * M * b ^ 2 / (4 * PI * sqrt (radius x ^ 2 + b ^ 2) ^ 5).
(** - M / (b + sqrt(r^2 + b^2)) *)
Definition Isochrone_Phi (M b : R) (t : R) (x : vec3) : R := - M / (b + sqrt (radius x ^ 2 + b ^ 2)).
(** - M ln(1 + r/rs) / r, with its limit value - M / rs in the centre *)
Definition NFW_Phi (M rs : R) (t : R) (x : vec3) : R := if Req_EM_T (radius x) 0 then - M / rs else - M * ln (1 + radius x / rs) / radius x.
(** M / (4 pi r (r + rs)^2) *)
Definition NFW_rho (M rs : R) (t : R) (x : vec3) : R := M / (4 * PI * radius x * (radius x + rs) ^ 2).
(** - M / sqrt(R^2 + (A + sqrt(z^2 + B^2))^2) *)
Definition MN_Phi (M A B : R) (t : R) (x : vec3) : R := - M / sqrt (v1 x ^ 2 + v2 x ^ 2 + (A + sqrt (v3 x ^ 2 + B ^ 2)) ^ 2).
(** v0^2 / 2 ln[(rc^2 + x^2 + (y/p)^2 + (z/q)^2) / L^2] *)
Definition Log_Phi (v0 rc p q L : R) (t : R) (x : vec3) : R := v0 ^ 2 / 2 * ln ((rc ^ 2 + v1 x ^ 2 + (v2 x / p) ^ 2 + (v3 x / q) ^ 2) / L ^ 2).
(** Omega^2 / 2 [x^2 + (y/p)^2 + (z/q)^2] *)
Definition Harm_Phi (Om p q : R) (t : R) (x : vec3) : R := Om ^ 2 / 2 * (v1 x ^ 2 + (v2 x / p) ^ 2 + (v3 x / q) ^ 2).

(** mass within radius r of a spherical density profile rho(r) *)
Definition mass_within (rho : R -> R) (r m : R) : Prop := is_RInt (fun s => 4 * PI * s ^ 2 * rho s) 0 r m.
(** the total mass M seen from afar: - |x| Phi(x) -> M along every ray *)
Definition far_mass (Phi : vec3 -> R) (M : R) : Prop :=
  forall x, radius x <> 0 -> is_lim (fun k => - (k * radius x) * Phi (k * v1 x, k * v2 x, k * v3 x)) p_infty M.
