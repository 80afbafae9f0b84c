(** What a user expects of the integral of an interpolator (C52). *)
From Coquelicot Require Import Coquelicot.
From Verif Require Import Arr SplineModel SplineSpec SplIntModel.
Local Open Scope R_scope.

Definition poly (n : nat) (a : nat -> R) (t : R) : R := sum_f_R0 (fun k => a k * t ^ k) n.
(** F is a polynomial of degree at most n between adjacent nodes of the grid x *)
Definition piecewise_poly (n : nat) (x : arr R) (F : R -> R) : Prop :=
  forall i, (0 <= i < alen x - 1)%Z -> exists a, forall t, afn x i <= t <= afn x (i + 1)%Z -> F t = poly n a t.
(** calling the interpolator S at any point of its grid returns the value of F *)
Definition computes (S : interp) (F : R -> R) : Prop :=
  forall t, x_first (i_x S) <= t <= x_last (i_x S) -> i_ev S t = Ok (F t).
(** the function F set to zero outside of the grid *)
Definition cut (x : arr R) (F : R -> R) (t : R) : R :=
  if Rle_dec (x_first x) t then if Rle_dec t (x_last x) then F t else 0 else 0.
(** the quadrature rule of the given order has nodes in [0,1] and integrates t^k over [0,1] with an error not exceeding e, for all k
    for which a Gauss-Legendre rule should be exact *)
Definition rule_within (T : gltab) (order : Z) (e : R) : Prop :=
  (forall j, (0 <= j < order)%Z -> 0 <= glp T order j <= 1) /\
  (forall k, (Z.of_nat k <= 2 * order - 1)%Z ->
     Rabs (zsum 0 order (fun j => glw T order j * glp T order j ^ k) - 1 / INR (k + 1)) <= e).
Definition rule_exact (T : gltab) (order : Z) : Prop := rule_within T order 0.
(** the argument f of integrate(x1, x2, f), convolve(x, f): for any interval and n>=0, f.integrate returns the integral of F(y) y^n *)
Definition integrates (F : R -> R) (Fi : R -> R -> Z -> R) : Prop :=
  forall a b n, (0 <= n)%Z -> is_RInt (fun y => F y * y ^ Z.to_nat n) a b (Fi a b n).
(** S is an interpolator created by one of the constructors, and N is the degree of its pieces *)
Inductive spline : nat -> interp -> Prop :=
| sp_linear x f s : linearNew x f = Ok s -> spline 1 (linI s)
| sp_cubic x f reg dL dR s : cubicNew x f reg dL dR = Ok s -> spline 3 (cubI s)
| sp_hermite x f d s : cubicHermite x f d = Ok s -> spline 3 (cubI s)
| sp_quintic x f d s : quinticNew x f d = Ok s -> spline 5 (quiI s)
| sp_quintic2 x f d d2 s : quinticHermite x f d d2 = Ok s -> spline 5 (quiI s).
