(** What a user expects of a two-dimensional quintic spline (C61): polynomials of degree 3, with coefficients a 0 .. a 3, and their derivatives. *)
From Verif Require Import Arr.
Local Open Scope R_scope.
Definition poly3 (a : Z -> R) (t : R) : R := a 0%Z + a 1%Z * t + a 2%Z * (t * t) + a 3%Z * (t * t * t).
Definition dpoly3 (a : Z -> R) (t : R) : R := a 1%Z + 2 * a 2%Z * t + 3 * a 3%Z * (t * t).
Definition ddpoly3 (a : Z -> R) (t : R) : R := 2 * a 2%Z + 6 * a 3%Z * t.
