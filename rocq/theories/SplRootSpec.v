(** Roots and extrema of a function on an interval (C55). *)
From Coquelicot Require Import Coquelicot.
From Coq Require Import Reals List Sorting.
From Verif Require Import Arr SplineSpec.
Import ListNotations.
Local Open Scope R_scope.

(** the part of the interval x1..x2 (in any order) that belongs to the grid; None stands for an end that was not specified *)
Definition lower (x : arr R) (x1 x2 : option R) : R :=
  match x1, x2 with Some p, Some q => Rmax (Rmin p q) (x_first x) | Some p, None => Rmax p (x_first x) | None, _ => x_first x end.
Definition upper (x : arr R) (x1 x2 : option R) : R :=
  match x1, x2 with Some p, Some q => Rmin (Rmax p q) (x_last x) | None, Some q => Rmin q (x_last x) | _, None => x_last x end.
(** two points that differ by at least ten rounding errors *)
Definition tiny : R := 10 * / 2 ^ 52.
Definition apart (u v : R) : Prop := u + tiny * Rmax (Rabs u) (Rabs v) <= v.
(** two points that coincide up to ten rounding errors *)
Definition close (u v : R) : Prop := Rabs (u - v) <= tiny * Rmax (Rabs u) (Rabs v).
Definition non_decreasing (F : R -> R) (a b : R) : Prop := forall u v, a <= u -> u <= v -> v <= b -> F u <= F v.
Definition non_increasing (F : R -> R) (a b : R) : Prop := forall u v, a <= u -> u <= v -> v <= b -> F v <= F u.
Definition constant (F : R -> R) (a b : R) : Prop := forall u, a <= u <= b -> F u = F a.
(** the function goes up and down (or down and up) between consecutive points of the list *)
Inductive zigzag (F : R -> R) : bool -> list R -> Prop :=
| zz_one up p : zigzag F up [p]
| zz_up p q l : p < q -> F p < F q -> non_decreasing F p q -> zigzag F false (q :: l) -> zigzag F true (p :: q :: l)
| zz_down p q l : p < q -> F q < F p -> non_increasing F p q -> zigzag F true (q :: l) -> zigzag F false (p :: q :: l).
(** what one expects of the list of extrema of F on [a,b]: the list begins with a, the function is strictly above or below its neighbours at each point and
    monotone in between, and is constant between the last point and b *)
Definition extrema_of (F : R -> R) (a b : R) (l : list R) : Prop :=
  (exists l', l = a :: l') /\ (exists up, zigzag F up l) /\ (forall p, In p l -> a <= p <= b) /\ constant F (last l a) b.
(** the roots of F = y on [a,b]: the returned points are roots in increasing order, and every root is among them (up to the accuracy of comparison), except that
    of a whole segment of the grid on which F = y only its left end is reported *)
Definition roots_of (x : arr R) (F : R -> R) (y a b : R) (l : list R) : Prop :=
  StronglySorted apart l /\ (forall r, In r l -> a <= r <= b /\ F r = y) /\
  (forall r, a <= r <= b -> F r = y -> (exists r', In r' l /\ close r' r) \/
     exists i, (0 <= i <= alen x - 2)%Z /\ afn x i <= r <= afn x (i + 1)%Z /\ (forall t, afn x i <= t <= afn x (i + 1)%Z -> F t = y) /\ (a <= afn x i -> exists r', In r' l /\ close r' (afn x i))).
(** distinct critical points of F on [a,b], and the ends of the interval, are not too close to each other *)
Definition separated (F F1 : R -> R) (a b : R) : Prop :=
  forall u v, a <= u -> u < v -> v <= b -> u = a \/ F1 u = 0 -> v = b \/ F1 v = 0 -> constant F u v \/ apart u v.
(** strict local maximum or minimum inside the interval *)
Definition strict_extremum (F : R -> R) (a b p : R) : Prop := a < p < b /\ exists e, 0 < e /\
  ((forall t, 0 < Rabs (t - p) < e -> F t < F p) \/ (forall t, 0 < Rabs (t - p) < e -> F p < F t)).
(** the function is monotone between consecutive points of the list and takes different values at them *)
Inductive monotone_pieces (F : R -> R) : list R -> Prop :=
| mp_one p : monotone_pieces F [p]
| mp_more p q l : p < q -> F p <> F q -> non_decreasing F p q \/ non_increasing F p q -> monotone_pieces F (q :: l) -> monotone_pieces F (p :: q :: l).
(** the list contains all points where the function turns *)
Definition turns_of (F : R -> R) (a b : R) (l : list R) : Prop :=
  (exists l', l = a :: l') /\ monotone_pieces F l /\ (forall p, In p l -> a <= p <= b) /\ constant F (last l a) b.
