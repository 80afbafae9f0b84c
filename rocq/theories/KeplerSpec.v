(** What Kepler's equation, the two-body problem and the potential of point masses are; independent of the code. *)
From Coq Require Import Reals List.
From Coquelicot Require Import Coquelicot.
From Verif Require Import RandReal CoordModel OrientModel.
Import ListNotations.
Local Open Scope R_scope.

(** eta is the eccentric anomaly for eccentricity e and mean anomaly M *)
Definition kepler_eq (e M eta : R) : Prop := eta - e * sin eta = M.
(** a solver which is exact up to whole turns: the result solves Kepler's equation for the phase reduced by some multiple of 2 pi *)
Definition exact_solver (kep : R -> R -> R) : Prop := forall e M, 0 <= e < 1 -> exists k : Z, kepler_eq e (M - 2 * PI * IZR k) (kep e M).

(** two bodies of masses m1, m2 in the x-y plane with positions r1(t), r2(t) and velocities v1(t), v2(t): velocity is the derivative of
    the position, and the acceleration is the Newtonian attraction by the other body (G = 1) *)
Definition dist2 (a b : R * R) : R := sqrt ((fst a - fst b) ^ 2 + (snd a - snd b) ^ 2).
Definition moves (r v : R -> R * R) (t : R) (acc : R * R) : Prop :=
  is_derive (fun s => fst (r s)) t (fst (v t)) /\ is_derive (fun s => snd (r s)) t (snd (v t)) /\
  is_derive (fun s => fst (v s)) t (fst acc) /\ is_derive (fun s => snd (v s)) t (snd acc).
Definition attraction (m : R) (from to : R * R) : R * R :=
  let d := dist2 from to in (m * (fst to - fst from) / d ^ 3, m * (snd to - snd from) / d ^ 3).
Definition two_body (m1 m2 : R) (r1 r2 v1 v2 : R -> R * R) : Prop :=
  forall t, moves r1 v1 t (attraction m2 (r1 t) (r2 t)) /\ moves r2 v2 t (attraction m1 (r2 t) (r1 t)).

(** potential of point masses (mass, position) in the x-y plane *)
Definition dist3 (x : vec3) (c : R * R) : R := sqrt ((v1 x - fst c) ^ 2 + (v2 x - snd c) ^ 2 + v3 x ^ 2).
Definition points_Phi (l : list (R * (R * R))) (x : vec3) : R := fold_right (fun mc acc => - fst mc / dist3 x (snd mc) + acc) 0 l.
(** mass of the points within the sphere of radius r around the origin *)
Definition points_within (l : list (R * (R * R))) (r : R) : R :=
  fold_right (fun mc acc => (if Rle_dec (dist2 (snd mc) (0, 0)) r then fst mc else 0) + acc) 0 l.
(** x does not coincide with any of the points *)
Definition away (l : list (R * (R * R))) (x : vec3) : Prop := forall m c, In (m, c) l -> 0 < dist3 x c.
(** minus the matrix *)
Definition hneg (h : hess6) : hess6 := mkH (- h11 h) (- h22 h) (- h33 h) (- h12 h) (- h23 h) (- h13 h).
