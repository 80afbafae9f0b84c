(** The textbook definition of B-splines (C54). *)
From Coquelicot Require Import Coquelicot.
From Verif Require Import Arr SplineModel SplineSpec.
Local Open Scope R_scope.

(** the grid nodes, padded by repeating the first and the last node *)
Definition knot (x : arr R) (j : Z) : R := afn x (Z.max 0 (Z.min (alen x - 1) j)).
(** the convention 0/0=0 *)
Definition ratio (a b : R) : R := if Req_EM_T b 0 then 0 else a / b.
(** the indicator function of the segment j: x_j <= t < x_{j+1}, the last segment is closed on both sides *)
Definition indicator (x : arr R) (j : Z) (t : R) : R :=
  if (0 <=? j)%Z && (j <=? alen x - 2)%Z then
    if Rle_dec (afn x j) t then
      if Rlt_dec t (afn x (j + 1)%Z) then 1 else if (j =? alen x - 2)%Z then if Req_EM_T t (x_last x) then 1 else 0 else 0
    else 0
  else 0.
(** Cox-de Boor recursion: the basis function of degree n with the knots j, j+1, ..., j+n+1 *)
Fixpoint bspline (x : arr R) (n : nat) (j : Z) (t : R) : R :=
  match n with
  | O => indicator x j t
  | S p => ratio (t - knot x j) (knot x (j + Z.of_nat n)%Z - knot x j) * bspline x p j t
         + ratio (knot x (j + Z.of_nat n + 1)%Z - t) (knot x (j + Z.of_nat n + 1)%Z - knot x (j + 1)%Z) * bspline x p (j + 1)%Z t
  end.
(** the number of basis functions of degree n, and the k-th of them *)
Definition nbasis (n : nat) (x : arr R) : Z := (alen x + Z.of_nat n - 1)%Z.
Definition basis (n : nat) (x : arr R) (k : Z) (t : R) : R := bspline x n (k - Z.of_nat n)%Z t.
(** the spline with the given amplitudes *)
Definition combination (n : nat) (x ampl : arr R) (t : R) : R := zsum 0 (nbasis n x) (fun k => afn ampl k * basis n x k t).
(** a grid that the constructors accept *)
Definition grid_ok (x : arr R) : Prop := increasing x /\ (2 <= alen x)%Z.
Definition within (x : arr R) (t : R) : Prop := x_first x <= t <= x_last x.
Definition inside (x : arr R) (t : R) : Prop := x_first x < t < x_last x.
