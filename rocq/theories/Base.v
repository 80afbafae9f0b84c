(** Common vocabulary: outcome of a C++ computation that may hit undefined behaviour, throw an exception,
    or (in the model only) run out of fuel. *)
From Coq Require Export ZArith List Bool Lia Arith.
Export ListNotations.

Inductive res (A : Type) := Ok (a : A) | UB | Throw | Fuel.
Arguments Ok {A} a. Arguments UB {A}. Arguments Throw {A}. Arguments Fuel {A}.

Definition bind {A B} (r : res A) (f : A -> res B) : res B :=
  match r with Ok a => f a | UB => UB | Throw => Throw | Fuel => Fuel end.
Notation "x <- r ;; e" := (bind r (fun x => e)) (at level 61, r at next level, right associativity).

(** arr[i] with i a signed index; reading outside of the array is undefined behaviour *)
Definition get {A} (l : list A) (i : Z) : res A :=
  if (i <? 0)%Z then UB else match nth_error l (Z.to_nat i) with Some a => Ok a | None => UB end.

Definition zlen {A} (l : list A) : Z := Z.of_nat (length l).

Lemma get_ok {A} (l : list A) i : (0 <= i < zlen l)%Z -> exists a, get l i = Ok a /\ nth_error l (Z.to_nat i) = Some a.
Proof.
  intros H. unfold get, zlen in *. rewrite (proj2 (Z.ltb_ge _ _)) by lia.
  destruct (nth_error l (Z.to_nat i)) as [a|] eqn:E; [eauto|].
  apply nth_error_None in E. lia.
Qed.
Lemma get_Ok_inv {A} (l : list A) i a : get l i = Ok a -> (0 <= i < zlen l)%Z /\ nth_error l (Z.to_nat i) = Some a.
Proof.
  unfold get, zlen. destruct (i <? 0)%Z eqn:E; [discriminate|]. apply Z.ltb_ge in E.
  destruct (nth_error l (Z.to_nat i)) as [b|] eqn:N; [|discriminate]. intros H. injection H as <-.
  split; [|reflexivity]. assert (nth_error l (Z.to_nat i) <> None) by congruence.
  apply nth_error_Some in H. lia.
Qed.
