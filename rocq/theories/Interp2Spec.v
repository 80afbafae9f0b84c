(** What a user expects of a two-dimensional interpolator (C61). *)
From Coquelicot Require Import Coquelicot.
From Verif Require Import Arr SplineModel Interp2Model SplineSpec.
Local Open Scope R_scope.

(** an acceptable grid in one coordinate: at least two strictly increasing nodes *)
Definition grid (xs : arr R) : Prop := increasing xs /\ (2 <= alen xs)%Z.
(** a consistent matrix (size()=rows()*cols()), and one of the size of the grid *)
Definition matrix (m : mat) : Prop := (0 <= m_rows m)%Z /\ (0 <= m_cols m)%Z /\ alen (m_data m) = (m_rows m * m_cols m)%Z.
Definition table (xs ys : arr R) (m : mat) : Prop := matrix m /\ m_rows m = alen xs /\ m_cols m = alen ys.
(** the element (i,j) *)
Definition at2 (m : mat) (i j : Z) : R := afn (m_data m) (i * m_cols m + j)%Z.
(** the values f(x,y) of a function at the nodes *)
Definition sampled (xs ys : arr R) (m : mat) (f : R -> R -> R) : Prop :=
  forall i j, (0 <= i < alen xs)%Z -> (0 <= j < alen ys)%Z -> at2 m i j = f (afn xs i) (afn ys j).
(** the definition region: the closed rectangle spanned by the grid, and its interior *)
Definition inside (xs ys : arr R) (x y : R) : Prop := x_first xs <= x <= x_last xs /\ x_first ys <= y <= x_last ys.
Definition interior (xs ys : arr R) (x y : R) : Prop := x_first xs < x < x_last xs /\ x_first ys < y < x_last ys.
(** evalDeriv returns these values and derivatives inside the definition region, and NaN outside *)
Definition evaluates2 (xs ys : arr R) (ev : R -> R -> res vals2) (F Fx Fy Fxx Fxy Fyy : R -> R -> R) : Prop :=
  (forall x y, inside xs ys x y -> ev x y = Ok (Some (F x y, Fx x y, Fy x y), Some (Fxx x y, Fxy x y, Fyy x y))) /\
  (forall x y, ~ inside xs ys x y -> ev x y = Ok (None, None)).
(** partial derivatives *)
Definition partial_x (F : R -> R -> R) (x y l : R) : Prop := is_derive (fun u => F u y) x l.
Definition partial_y (F : R -> R -> R) (x y l : R) : Prop := is_derive (fun u => F x u) y l.
(** the nodes are symmetric under reflection about zero *)
Definition symmetric_grid (x : arr R) : Prop := forall i, (0 <= i < alen x)%Z -> afn x i = - afn x (alen x - 1 - i)%Z.
(** the i-th row and the j-th column of a matrix *)
Definition row (ys : arr R) (m : mat) (i : Z) : arr R := mkArr (alen ys) (fun j => at2 m i j).
Definition column (xs : arr R) (m : mat) (j : Z) : arr R := mkArr (alen xs) (fun i => at2 m i j).
(** the output of evalDeriv with the two coordinates exchanged *)
Definition flip (v : vals2) : vals2 :=
  (match fst v with Some (z, zx, zy) => Some (z, zy, zx) | None => None end, match snd v with Some (zxx, zxy, zyy) => Some (zyy, zxy, zxx) | None => None end).
