(** Specification of the ODE solvers (C59) *)
From Coq Require Import Reals List QArith.
From Coquelicot Require Import Coquelicot.
From Verif Require Import OdeModel.
Local Open Scope R_scope.

(** a linear map of vectors, and its powers *)
Definition linear_map (L : vec -> vec) : Prop :=
  (forall x y i, L (fun j => x j + y j) i = L x i + L y i) /\ (forall c x i, L (fun j => c * x j) i = c * L x i).
Fixpoint power (L : vec -> vec) (k : nat) (x : vec) : vec := match k with O => x | S k => L (power L k x) end.

(** the state of the solver is consistent: the stored derivative is the right-hand side at the current point *)
Definition consistent (rhs : R -> vec -> vec) (s : dop) : Prop := d_k1 s = rhs (d_time s) (d_x s).

(** the internal estimate of the error of a trial timestep h from the state s, in units of the tolerance *)
Definition estimate (N : nat) (rhs : R -> vec -> vec) (accFac : R -> vec -> R) (accRel accAbs : R) (s : dop) (h : R) : R :=
  errEst N accFac accRel accAbs (d_time s) (d_x s) h (rkStages rhs (d_time s) (d_x s) (d_k1 s) h).

(** the right-hand side is bounded by M near the point (t0, x0) *)
Definition locally_bounded (N : nat) (rhs : R -> vec -> vec) (t0 : R) (x0 : vec) : Prop :=
  exists delta M, 0 < delta /\ forall t x, Rabs (t - t0) <= delta -> (forall i, (i < N)%nat -> Rabs (x i - x0 i) <= delta) ->
    forall i, (i < N)%nat -> Rabs (rhs t x i) <= M.

(** a polynomial of degree < n in t - t0 *)
Definition poly (n : nat) (G : nat -> R) (t0 t : R) : R := vsum n (fun m => G m * (t - t0) ^ m).
(** its integral from t0 to t *)
Definition poly_int (n : nat) (G : nat -> R) (t0 t : R) : R := vsum n (fun m => G m * (t - t0) ^ S m / INR (S m)).
