(** Specification vocabulary for densities and potentials: what it means that an object computes a given function in space,
    its derivatives, its density (Poisson equation) and its symmetries.  Independent of how objects are composed or modified. *)
From Coq Require Import Reals Bool ZArith List.
From Verif Require Import RandReal CoordModel CoordSpec OrientModel OrientSpec PotModel.
Import ListNotations.
Local Open Scope R_scope.

(** Cartesian position of the point with the given coordinates *)
Definition cart (s : cs) (p : vec3) : vec3 :=
  let '(a, b, c) := p in
  match s with
  | Car => (a, b, c)
  | Cyl => (a * cos c, a * sin c, b)
  | Sph => (a * (sin b * cos c), a * (sin b * sin c), a * cos b) end.

(** exactly the requested outputs are provided *)
Definition outputs (fl : flags) (v : R) (g : vec3) (h : hess6) : eres :=
  let '(wp, wg, wh) := fl in (if wp then Some v else None, if wg then Some g else None, if wh then Some h else None).
(** the object returns v, g, h at (time t, point p of system s), whichever of them are requested *)
Definition returns (c : pot) (s : cs) (t : R) (p : vec3) (v : R) (g : vec3) (h : hess6) : Prop :=
  forall fl, p_eval c s fl t p = outputs fl v g h.
(** the object computes the function Phi(t,x) of time and Cartesian position, and its derivatives with respect to the coordinates of system s *)
Definition represents (c : pot) (Phi : R -> vec3 -> R) (t : R) (s : cs) (p : vec3) : Prop :=
  exists g h, returns c s t p (Phi t (cart s p)) g h /\ is_hess (fun q => Phi t (cart s q)) p g h.
(** the density object computes rho(t,x) *)
Definition dens_represents (d : dens) (rho : R -> vec3 -> R) (t : R) (s : cs) (p : vec3) : Prop := d_density d s t p = rho t (cart s p).
(** batch evaluation agrees with evaluation point by point *)
Definition batch_ok (d : dens) : Prop := forall s t ps, d_many d s t ps = map (d_density d s t) ps.
(** Poisson equation at x: rho = Laplacian(Phi) / 4 pi *)
Definition trace (h : hess6) : R := h11 h + h22 h + h33 h.
Definition poisson (Phi rho : vec3 -> R) (x : vec3) : Prop := exists g h, is_hess Phi x g h /\ rho x = trace h / (4 * PI).

(** what any object of a class derived from BasePotential is assumed to do: results do not depend on which other outputs are
    requested, and a class derived from BasePotentialCar/Cyl/Sph evaluates in the other two systems by conversion
    (potential_base.h:206-293) *)
Definition value_of (c : pot) (s : cs) (t : R) (p : vec3) : R := match p_eval c s (true, true, true) t p with (Some v, _, _) => v | _ => 0 end.
Definition grad_of (c : pot) (s : cs) (t : R) (p : vec3) : vec3 := match p_eval c s (true, true, true) t p with (_, Some g, _) => g | _ => (0, 0, 0) end.
Definition hess_of (c : pot) (s : cs) (t : R) (p : vec3) : hess6 := match p_eval c s (true, true, true) t p with (_, _, Some h) => h | _ => mkH 0 0 0 0 0 0 end.
Definition proper (c : pot) : Prop :=
  (forall s t p, returns c s t p (value_of c s t p) (grad_of c s t p) (hess_of c s t p)) /\
  (forall k, p_kind c = Some k -> forall s, s <> k -> forall fl t p, p_eval c s fl t p = convert s k (fun f => p_eval c k f t) fl p).

(** sums over lists *)
Definition Rsum (l : list R) : R := fold_right Rplus 0 l.
Definition Vsum (l : list vec3) : vec3 := (Rsum (map v1 l), Rsum (map v2 l), Rsum (map v3 l)).
Definition Hsum (l : list hess6) : hess6 :=
  mkH (Rsum (map h11 l)) (Rsum (map h22 l)) (Rsum (map h33 l)) (Rsum (map h12 l)) (Rsum (map h23 l)) (Rsum (map h13 l)).

(** symmetries of a function of the Cartesian position; a value outside 0..63 is "unknown" and claims nothing *)
Definition under (T : vec3 -> vec3) (f : vec3 -> R) : Prop := forall p, f (T p) = f p.
Definition has_sym (sym : Z) (f : vec3 -> R) : Prop :=
  (0 <= sym <= 63)%Z ->
  (Z.testbit sym 0 = true -> under (fun p => (- v1 p, v2 p, v3 p)) f) /\
  (Z.testbit sym 1 = true -> under (fun p => (v1 p, - v2 p, v3 p)) f) /\
  (Z.testbit sym 2 = true -> under (fun p => (v1 p, v2 p, - v3 p)) f) /\
  (Z.testbit sym 3 = true -> under (fun p => (- v1 p, - v2 p, - v3 p)) f) /\
  (Z.testbit sym 4 = true -> forall a, under (rotZ a) f) /\
  (Z.testbit sym 5 = true -> forall m, is_rotation m -> under (toRotated m) f).

(** linear combination of vectors (of symmetric matrices: hlin in OrientSpec) *)
Definition vlin (a b : R) (u w : vec3) : vec3 := (a * v1 u + b * v1 w, a * v2 u + b * v2 w, a * v3 u + b * v3 w).
(** time stamps in strictly increasing order *)
Definition increasing (l : list R) : Prop := forall i, (S i < length l)%nat -> nth i l 0 < nth (S i) l 0.
