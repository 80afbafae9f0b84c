(** Specification vocabulary for C09. *)
From Verif Require Import Arr BinSearchSpec SparseModel.
Local Open Scope Z_scope.

(** a valid compressed-column matrix: non-decreasing offsets from 0 to the number of stored values, row indices in range *)
Definition csc_wf {T} (m : csc T) : Prop :=
  0 <= scols m /\ zlen (souter m) = scols m + 1 /\ zlen (sinner m) = zlen (svals m) /\
  nth_error (souter m) 0 = Some 0 /\ nth_error (souter m) (Z.to_nat (scols m)) = Some (zlen (svals m)) /\
  sorted Z.le (souter m) /\ zlen (svals m) <= 2^31 - 1 /\
  (forall r, In r (sinner m) -> 0 <= r < srows m).
(** the k-th stored value is v and belongs to row r and column c *)
Definition stored {T} (m : csc T) (k r c : Z) (v : T) : Prop :=
  0 <= c < scols m /\
  nth_error (sinner m) (Z.to_nat k) = Some r /\ nth_error (svals m) (Z.to_nat k) = Some v /\
  exists lo hi, nth_error (souter m) (Z.to_nat c) = Some lo /\ nth_error (souter m) (Z.to_nat (c + 1)) = Some hi /\ lo <= k < hi.
(** sum of the values of all the triplets at position (i,j) *)
Definition triplet_sum (l : list (Z * Z * R)) (i j : Z) : R :=
  fold_right (fun t s => let '(a, b, v) := t in if (a =? i) && (b =? j) then (v + s)%R else s) 0%R l.
Definition in_range {T} (nr nc : Z) (l : list (Z * Z * T)) : Prop :=
  forall i j v, In (i, j, v) l -> 0 <= i < nr /\ 0 <= j < nc.
