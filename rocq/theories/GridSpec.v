(** What is expected of grids (C56). *)
From Coq Require Import Reals ZArith.
From Verif Require Import Arr SplineSpec.
Local Open Scope R_scope.

(** an array of possibly NaN numbers that contains only ordinary numbers *)
Definition holds (g : arr (option R)) (h : arr R) : Prop := alen g = alen h /\ forall i, (0 <= i < alen g)%Z -> afn g i = Some (afn h i).
(** nodes from a to b, strictly increasing *)
Definition spans (g : arr R) (n : Z) (a b : R) : Prop := alen g = n /\ afn g 0%Z = a /\ afn g (n - 1)%Z = b /\ increasing g.
(** equal steps *)
Definition equal_steps (g : arr R) : Prop := forall i, (0 < i < alen g - 1)%Z -> afn g (i + 1)%Z - afn g i = afn g i - afn g (i - 1)%Z.
(** equal ratios of consecutive nodes *)
Definition equal_ratios (g : arr R) : Prop := forall i, (0 < i < alen g - 1)%Z -> afn g (i + 1)%Z / afn g i = afn g i / afn g (i - 1)%Z.
Definition symmetric (g : arr R) : Prop := forall i, (0 <= i < alen g)%Z -> afn g (alen g - 1 - i)%Z = - afn g i.
(** the first m steps of the grid grow by the same factor q *)
Definition growing_steps (g : arr R) (m : Z) (q : R) : Prop :=
  forall i, (0 < i < m)%Z -> afn g (i + 1)%Z - afn g i = q * (afn g i - afn g (i - 1)%Z).
