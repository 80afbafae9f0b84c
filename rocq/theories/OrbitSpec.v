(** What it means that the output of an orbit integrator is a physical trajectory *)
From Coq Require Import Reals.
From Coquelicot Require Import Coquelicot.
From Verif Require Import RandReal CoordModel CoordSpec OrientModel OrientSpec PotModel PotSpec.
Local Open Scope R_scope.

(** derivative of a curve in space, component by component *)
Definition is_derive3 (X : R -> vec3) (t : R) (v : vec3) : Prop :=
  is_derive (fun s => v1 (X s)) t (v1 v) /\ is_derive (fun s => v2 (X s)) t (v2 v) /\ is_derive (fun s => v3 (X s)) t (v3 v).
(** the state y(t) of an ODE system with the right-hand side rhs satisfies the equations at the moment t *)
Definition ode (rhs : R -> posvel -> posvel) (y : R -> posvel) (t : R) : Prop :=
  is_derive3 (fun s => fst (y s)) t (fst (rhs t (y t))) /\ is_derive3 (fun s => snd (y s)) t (snd (rhs t (y t))).
(** [out s] is the Cartesian position and velocity at time s along the axes of a frame rotating about the z axis with angular frequency Om
    (x axis at the angle Om*s).  In the inertial frame the body moves with the given velocity, and its acceleration is minus the gradient of
    the potential Phi, which is stationary (apart from its explicit dependence on time) in the rotating frame. *)
Definition inertial (Om : R) (out : R -> posvel) : (R -> vec3) * (R -> vec3) :=
  (fun s => rotZ (- (Om * s)) (fst (out s)), fun s => rotZ (- (Om * s)) (snd (out s))).
Definition newton (Phi : R -> vec3 -> R) (Om : R) (out : R -> posvel) (t : R) : Prop :=
  let X := fst (inertial Om out) in let V := snd (inertial Om out) in
  is_derive3 X t (V t) /\
  exists g, is_grad (fun x => Phi t (rotZ (Om * t) x)) (X t) g /\ is_derive3 V t (- v1 g, - v2 g, - v3 g).
(** Jacobi integral (energy if Om = 0) and the z-component of angular momentum of the output *)
Definition jacobi (F : vec3 -> R) (Om : R) (p : posvel) : R :=
  1 / 2 * (v1 (snd p) * v1 (snd p) + v2 (snd p) * v2 (snd p) + v3 (snd p) * v3 (snd p)) + F (fst p)
  - Om * (v1 (fst p) * v2 (snd p) - v2 (fst p) * v1 (snd p)).
