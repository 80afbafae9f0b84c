(** Model of utils::toInt (/repo/src/utils.cpp:236-249). *)
From Verif Require Import Base FloatBase.
Local Open Scope Z_scope.

Definition INT_MAX : Z := 2^31 - 1.
Definition INT_MIN : Z := - 2^31.

(** strtod is not modelled: [parsed] is [None] if it consumed no character (end==val), otherwise the double it
    returned; [empty] is true for the empty string.  Comparison operators and trunc are those of double; the
    cast of a value outside of the range of int is undefined behaviour. *)
Definition cast_int (r : double) : res Z :=
  if is_finite r then if (INT_MIN <=? Btrunc r) && (Btrunc r <=? INT_MAX) then Ok (Btrunc r) else UB else UB.
Definition toInt (empty : bool) (parsed : option double) : res Z :=
  if empty then Ok 0 else
  match parsed with
  | None => Throw
  | Some result =>
      if negb (is_finite result) then Throw else
      if Bleb (fofZ INT_MAX) result then Ok INT_MAX else
      if Bleb result (fofZ INT_MIN) then Ok INT_MIN else
      cast_int result
  end.

(** specification: saturated rounding towards zero *)
Definition clamp (lo hi v : Z) : Z := Z.max lo (Z.min hi v).

Lemma Btrunc_Z (r : double) : Btrunc r = Ztrunc (B2R r).
Proof. pose proof (Btrunc_correct fprec femax _ r) as T. rewrite round_FIX_IZR in T. apply eq_IZR. exact T. Qed.

Lemma toInt_correct r : is_finite r = true ->
  toInt false (Some r) = Ok (clamp INT_MIN INT_MAX (Ztrunc (B2R r))).
Proof.
  intros F. unfold toInt. rewrite F. cbn [negb].
  destruct (fofZ_correct INT_MAX ltac:(unfold INT_MAX; lia)) as [M1 M2].
  destruct (fofZ_correct INT_MIN ltac:(unfold INT_MIN; lia)) as [m1 m2].
  rewrite Bleb_correct by assumption. rewrite M1.
  destruct (Rle_bool_spec (IZR INT_MAX) (B2R r)) as [H|H].
  { f_equal. unfold clamp.
    assert (INT_MAX <= Ztrunc (B2R r)). { rewrite <- (Ztrunc_IZR INT_MAX). apply Ztrunc_le. exact H. }
    unfold INT_MAX, INT_MIN in *; lia. }
  rewrite Bleb_correct by assumption. rewrite m1.
  destruct (Rle_bool_spec (B2R r) (IZR INT_MIN)) as [H'|H'].
  { f_equal. unfold clamp.
    assert (Ztrunc (B2R r) <= INT_MIN). { rewrite <- (Ztrunc_IZR INT_MIN). apply Ztrunc_le. exact H'. }
    unfold INT_MAX, INT_MIN in *; lia. }
  assert (A : Ztrunc (B2R r) <= INT_MAX). { rewrite <- (Ztrunc_IZR INT_MAX). apply Ztrunc_le. lra. }
  assert (B : INT_MIN <= Ztrunc (B2R r)). { rewrite <- (Ztrunc_IZR INT_MIN). apply Ztrunc_le. lra. }
  unfold cast_int. rewrite F, Btrunc_Z. rewrite (proj2 (Z.leb_le _ _)) by lia. rewrite (proj2 (Z.leb_le _ _)) by lia. cbn [andb].
  f_equal. unfold clamp. lia.
Qed.
