(** Specification vocabulary for rotations *)
From Coq Require Import Reals.
From Verif Require Import RandReal RandRealProofs CoordModel OrientModel.
Local Open Scope R_scope.

(** a rotation: orthonormal rows and columns, determinant +1 *)
Definition is_rotation (m : mat3) : Prop := orthonormal_rows m /\ orthonormal_rows (transp m) /\ det3 m = 1.
(** elementary passive rotations of the frame about the z and x axes *)
Definition rotZ (a : R) (v : vec3) : vec3 := (cos a * v1 v + sin a * v2 v, - sin a * v1 v + cos a * v2 v, v3 v).
Definition rotX (a : R) (v : vec3) : vec3 := (v1 v, cos a * v2 v + sin a * v3 v, - sin a * v2 v + cos a * v3 v).
(** matrix of products of the components of a velocity *)
Definition outer (v : vec3) : hess6 := mkH (v1 v * v1 v) (v2 v * v2 v) (v3 v * v3 v) (v1 v * v2 v) (v2 v * v3 v) (v1 v * v3 v).

(** linear combination of symmetric matrices *)
Definition hlin (a b : R) (h k : hess6) : hess6 := mkH (a * h11 h + b * h11 k) (a * h22 h + b * h22 k) (a * h33 h + b * h33 k) (a * h12 h + b * h12 k) (a * h23 h + b * h23 k) (a * h13 h + b * h13 k).
