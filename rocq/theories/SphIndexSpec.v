(** What the index bookkeeping of spherical harmonics should do: the table of math_sphharm.h:77-96, independently of the code *)
From Coq Require Import ZArith Bool List.
From Verif Require Import Base.
Local Open Scope Z_scope.

(** the harmonic with indices l, m (m>=0: cos(m phi), m<0: sin(|m| phi)) is left invariant by the operation encoded by each of the six
    bits of a symmetry type: x -> -x, y -> -y, z -> -z, (x,y,z) -> (-x,-y,-z), rotation about z, any rotation.
    cos(m(pi-phi)) = (-1)^m cos(m phi);  sin(|m|(pi-phi)) = -(-1)^m sin(|m| phi);  sin is odd, cos is even;
    P_lm(-x) = (-1)^(l+m) P_lm(x);  the product of the three is the parity (-1)^l *)
Definition invariant (bit l m : Z) : Prop :=
  match bit with
  | 0 => if m <? 0 then Z.Odd m else Z.Even m
  | 1 => 0 <= m
  | 2 => Z.Even (l + m)
  | 3 => Z.Even l
  | 4 => m = 0
  | 5 => l = 0
  | _ => True
  end.
(** the harmonic has all symmetries of the given type *)
Definition allowed (sym l m : Z) : Prop := forall bit, 0 <= bit < 6 -> Z.testbit sym bit = true -> invariant bit l m.
(** a valid pair of indices: coefficient of order l <= lmax, |m| <= min(l, mmax) *)
Definition in_triangle (lmax mmax l m : Z) : Prop := Z.abs m <= l <= lmax /\ Z.abs m <= mmax.
(** symmetry types consist of the six bits *)
Definition valid_sym (sym : Z) : Prop := 0 <= sym < 64.
