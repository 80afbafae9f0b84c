(** What the transforms should compute, independently of the code: trigonometric functions, Legendre functions by the formula of Rodrigues *)
From Coq Require Import Reals Arith List.
From Coquelicot Require Import Coquelicot.
Local Open Scope R_scope.

(** Legendre polynomial: P_l(x) = 1/(2^l l!) d^l/dx^l (x^2-1)^l *)
Definition LegendreP (l : nat) (x : R) : R := Derive_n (fun y => (y * y - 1) ^ l) l x / (2 ^ l * INR (fact l)).
(** associated Legendre function of the polar angle, with the Condon-Shortley phase: (-1)^m sin(theta)^m d^m P_l / dx^m at x = cos(theta) *)
Definition AssocP (l m : nat) (theta : R) : R := (-1) ^ m * sin theta ^ m * Derive_n (LegendreP l) m (cos theta).
(** normalisation of the spherical harmonic: the integral of (Norm P_lm exp(i m phi))^2 over the sphere is 1 *)
Definition Norm (l m : nat) : R := sqrt ((2 * INR l + 1) / (4 * PI) * (INR (fact (l - m)) / INR (fact (l + m)))).
Definition Ylm (l m : nat) (theta : R) : R := Norm l m * AssocP l m theta.
(** the argument tau = cos(theta) / (1 + sin(theta)) passed to the library routines *)
Definition tau_of (theta : R) : R := cos theta / (1 + sin theta).
