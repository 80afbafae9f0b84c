(** The collocation solution of a linear second-order system on one timestep *)
From Coq Require Import Reals List.
From Coquelicot Require Import Coquelicot.
Local Open Scope R_scope.

Fixpoint fsum (n : nat) (f : nat -> R) : R := match n with O => 0 | S m => fsum m f + f m end.
(** W is a polynomial of degree <= n *)
Definition poly_deg (n : nat) (W : R -> R) : Prop := exists c : nat -> R, forall t, W t = fsum (S n) (fun k => c k * t ^ k).
(** V is the derivative of X, W of V, at all times *)
Definition motion (X V W : R -> R) : Prop := (forall t, is_derive X t (V t)) /\ (forall t, is_derive V t (W t)).
(** the equation x''_d = sum_j A_dj x_j + B_dj x'_j for the first N components at time t; the matrices are flattened in the row-major order *)
Definition satisfies (N : nat) (A B : R -> nat -> R) (X V W : nat -> R -> R) (t : R) : Prop :=
  forall d, (d < N)%nat -> W d t = fsum N (fun j => A t (d * N + j)%nat * X j t + B t (d * N + j)%nat * V j t).
(** a motion X with the acceleration W of degree < number of nodes, the given initial conditions at t0, which satisfies the equation at the times t0 + dt*h for h in the list of nodes *)
Definition collocation (N : nat) (A B : R -> nat -> R) (nodes : list R) (t0 dt : R) (x0 v0 : nat -> R) (X V W : nat -> R -> R) : Prop :=
  (forall d, (d < N)%nat -> motion (X d) (V d) (W d) /\ poly_deg (length nodes - 1) (W d) /\ X d t0 = x0 d /\ V d t0 = v0 d) /\
  (forall h, In h nodes -> satisfies N A B X V W (t0 + dt * h)).
(** the bound on the sum of moduli in each row of the matrix *)
Definition rows_le (N : nat) (M : nat -> R) (b : R) : Prop := forall d, (d < N)%nat -> fsum N (fun j => Rabs (M (d * N + j)%nat)) <= b.
