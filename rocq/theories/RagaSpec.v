(** What the documentation of Raga promises (doc/readme_raga.tex), independent of the code. *)
From Coq Require Import Reals Lra List Arith.
From Verif Require Import RandReal PolyModel CoordModel DiskModel.
Import ListNotations.
Local Open Scope R_scope.

(** a trajectory made of contiguous timesteps (end of the step, solution during the step) *)
Fixpoint increasing {A} (t : R) (steps : list (R * A)) : Prop :=
  match steps with [] => True | (te, _) :: r => t < te /\ increasing te r end.
Fixpoint lastEnd {A} (t : R) (steps : list (R * A)) : R := match steps with [] => t | (te, _) :: r => lastEnd te r end.
(** its value at time t: that of the first timestep that ends not earlier than t *)
Fixpoint trajectory {A} (steps : list (R * (R -> A))) (d : A) (t : R) : A :=
  match steps with [] => d | (te, sol) :: r => if Rle_dec t te then sol t else trajectory r d t end.

(** masses of the components of a binary of mass M and mass ratio q *)
Definition mass1 (M q : R) : R := M / (1 + q).
Definition mass2 (M q : R) : R := M * q / (1 + q).
(** energy and angular momentum of a Keplerian binary (G=1): of masses M/(1+q) and M q/(1+q), semimajor axis 1/u, squared eccentricity e2 *)
Definition binaryEnergy (M q u : R) : R := - (mass1 M q * mass2 M q) * u / 2.
Definition binaryLz (M q u e2 : R) : R := mass1 M q * mass2 M q / M * sqrt (M * (1 - e2) / u).
(** tidal disruption and direct capture radii *)
Definition cubeRootOf (x y : R) : Prop := 0 <= y /\ y ^ 3 = x.
Definition isCaptureRadius (c : option R) (M stellarRadius stellarMass rc : R) : Prop :=
  exists y, cubeRootOf (M / stellarMass) y /\
  rc = Rmax (match c with None => 0 | Some c => 8 * M / c ^ 2 end) (stellarRadius * y).
(** a pericenter passage: the distance stops decreasing and begins to increase in the interval (t1, t2] *)
Definition passage (pf : R -> R) (t1 t2 : R) : Prop := pf t1 <= 0 /\ 0 < pf t2.
Definition dot3 (a b : vec3) : R := let '(a1, a2, a3) := a in let '(b1, b2, b3) := b in a1 * b1 + a2 * b2 + a3 * b3.
