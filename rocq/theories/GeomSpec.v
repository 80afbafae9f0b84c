(** What the polygon routines should compute (C57). *)
From Coquelicot Require Import Coquelicot.
From Verif Require Import Arr BsplSpec.
Require Import List. Import ListNotations.
Local Open Scope R_scope.

Definition point := (R * R)%type.
(** the edges of a closed polygon: pairs of consecutive vertices, the last one is followed by the first *)
Definition edges (P : list point) : list (point * point) := match P with [] => [] | a :: t => combine P (t ++ [a]) end.
Definition rsum {A} (f : A -> R) (l : list A) : R := fold_right (fun a s => f a + s) 0 l.
Definition isum {A} (f : A -> Z) (l : list A) : Z := fold_right (fun a s => (f a + s)%Z) 0%Z l.

(** the directed edge v->w crosses the horizontal ray going from the point (x,y) to the right: +1 if upward, -1 if downward, 0 if not at all.
    The abscissa of the edge at the height y: *)
Definition edge_x (v w : point) (y : R) : R := fst v + (y - snd v) * (fst w - fst v) / (snd w - snd v).
Definition crossing (x y : R) (e : point * point) : Z :=
  let (v, w) := e in
  if Rle_dec (snd v) y then
    if Rlt_dec y (snd w) then if Rlt_dec x (edge_x v w y) then 1%Z else 0%Z else 0%Z
  else
    if Rle_dec (snd w) y then if Rlt_dec x (edge_x v w y) then (-1)%Z else 0%Z else 0%Z.
(** the winding number of the polygon around the point *)
Definition winding (P : list point) (x y : R) : Z := isum (crossing x y) (edges P).
(** the shoelace formula *)
Definition signed_area (P : list point) : R := / 2 * rsum (fun e => fst (fst e) * snd (snd e) - fst (snd e) * snd (fst e)) (edges P).
(** +1 for a polygon with nonnegative area, -1 otherwise *)
Definition orient (P : list point) : R := if Rle_dec 0 (signed_area P) then 1 else -1.
(** q lies strictly to the left of the directed line from v through w *)
Definition left_of (v w q : point) : Prop := 0 < (fst w - fst v) * (snd q - snd v) - (snd w - snd v) * (fst q - fst v).

(** a box [x1,x2]*[y1,y2] *)
Definition in_box (x1 x2 y1 y2 : R) (p : point) : Prop := x1 <= fst p <= x2 /\ y1 <= snd p <= y2.
(** the iterated integral over the box exists and equals v *)
Definition is_integral2 (g : R -> R -> R) (x1 x2 y1 y2 v : R) : Prop :=
  (forall y, y1 <= y <= y2 -> ex_RInt (fun x => g x y) x1 x2) /\ is_RInt (fun y => RInt (fun x => g x y) x1 x2) y1 y2 v.

(** a quadrature rule of the triangle (barycentric coordinates a, b, 1-a-b and the weight), exact for polynomials of degree up to d:
    the integral of a^i b^j over the triangle with unit area is 2 i! j! / (i+j+2)! *)
Definition rule_exact (d : nat) (rule : list (R * R * R)) : Prop :=
  forall i j, (i + j <= d)%nat -> rsum (fun p => snd p * fst (fst p) ^ i * snd (fst p) ^ j) rule = 2 * INR (fact i) * INR (fact j) / INR (fact (i + j + 2)).
Definition rule_inside (rule : list (R * R * R)) : Prop := Forall (fun p => 0 < fst (fst p) /\ 0 < snd (fst p) /\ fst (fst p) + snd (fst p) < 1) rule.
