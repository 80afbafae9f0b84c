(** What a search for the grid bin enclosing a point must return (C05), for any type with an order [le]. *)
From Verif Require Import Base.
Local Open Scope Z_scope.
Section S.
  Context {T : Type}.
  Variable le : T -> T -> Prop.

  Definition sorted (arr : list T) : Prop :=
    forall i j a b, nth_error arr i = Some a -> nth_error arr j = Some b -> (i <= j)%nat -> le a b.

  (** what the answer k for a query x must be *)
  Definition lt (a b : T) : Prop := ~ le b a.
  Definition bin_spec (x : T) (arr : list T) (k : Z) : Prop :=
    (arr = [] /\ k = -1) \/
    (exists a0 aN, nth_error arr 0 = Some a0 /\ nth_error arr (length arr - 1) = Some aN /\
      ((lt x a0 /\ k = -1) \/
       (lt aN x /\ k = zlen arr - 1) \/
       (le a0 x /\ le x aN /\ length arr = 1%nat /\ k = 0) \/
       (le a0 x /\ le x aN /\ 0 <= k <= zlen arr - 2 /\
          exists ak ak1, nth_error arr (Z.to_nat k) = Some ak /\ nth_error arr (Z.to_nat k + 1) = Some ak1 /\
            le ak x /\ le x ak1 /\ (lt x ak1 \/ k = zlen arr - 2)))).

End S.
