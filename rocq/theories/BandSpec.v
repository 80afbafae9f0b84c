(** Specification vocabulary for band matrices (C06-C08): the dense matrix represented by an object is read
    through the public accessor at(row,col). *)
From Verif Require Import Arr BandModel.
Local Open Scope Z_scope.

(** objects produced by the constructors: 0 <= B < N and storage of N*(2B+1) elements *)
Definition bm_wf {T} (m : band_matrix T) : Prop :=
  0 <= bB m < bN m /\ alen (bdata m) = bN m * (2 * bB m + 1).
(** matrix element (r,c) as seen by the user *)
Definition elt (m : band_matrix R) (r c : Z) : R := match bm_at 0%R m r c with Ok v => v | _ => 0%R end.
(** (matrix * vector)[r] and (transposed matrix * vector)[r] *)
Definition mat_vec (m : band_matrix R) (x : Z -> R) (r : Z) : R := zsum 0 (bN m) (fun c => elt m r c * x c)%R.
Definition matT_vec (m : band_matrix R) (x : Z -> R) (c : Z) : R := zsum 0 (bN m) (fun r => elt m r c * x r)%R.
(** strict diagonal dominance by rows *)
Definition dominant (m : band_matrix R) : Prop :=
  forall r, 0 <= r < bN m ->
    (zsum 0 r (fun c => Rabs (elt m r c)) + zsum (r + 1) (bN m) (fun c => Rabs (elt m r c)) < Rabs (elt m r r))%R.
