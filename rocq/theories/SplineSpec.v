(** What a user expects of a one-dimensional interpolator (C39). *)
From Coquelicot Require Import Coquelicot.
From Verif Require Import Arr SplineModel.
Local Open Scope Z_scope.

(** strictly increasing grid nodes *)
Definition increasing (a : arr R) : Prop := forall i j, 0 <= i < j -> j < alen a -> (afn a i < afn a j)%R.
(** evalDeriv(x) succeeds everywhere, returning the value F x and the derivatives F1 x, F2 x, F3 x *)
Definition evaluates (ev : R -> res (option vals)) (F F1 F2 F3 : R -> R) : Prop :=
  forall x, ev x = Ok (Some (F x, F1 x, F2 x, F3 x)).
(** the curve passes through the points (x_i, f_i) *)
Definition through (x f : arr R) (F : R -> R) : Prop := forall i, 0 <= i < alen x -> F (afn x i) = afn f i.
Definition is_node (x : arr R) (t : R) : Prop := exists i, 0 <= i < alen x /\ t = afn x i.
(** the first and the last grid node *)
Definition x_first (x : arr R) : R := afn x 0.
Definition x_last (x : arr R) : R := afn x (alen x - 1).
(** nodes and values are symmetric under reflection of x about zero *)
Definition symmetric_data (x f : arr R) : Prop :=
  forall i, 0 <= i < alen x -> afn x i = (- afn x (alen x - 1 - i))%R /\ afn f i = afn f (alen x - 1 - i).
(** one-sided derivatives *)
Definition right_derive (F : R -> R) (t l : R) : Prop :=
  forall eps, (0 < eps)%R -> exists delta, (0 < delta)%R /\ forall h, (0 < h < delta)%R -> (Rabs ((F (t + h) - F t) / h - l) < eps)%R.
Definition left_derive (F : R -> R) (t l : R) : Prop :=
  forall eps, (0 < eps)%R -> exists delta, (0 < delta)%R /\ forall h, (0 < h < delta)%R -> (Rabs ((F (t - h) - F t) / (- h) - l) < eps)%R.
