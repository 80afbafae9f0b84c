(** C67, continued: the optimized projection of a density onto the classic grid. *)
From Verif Require Import Base RandReal PolyModel PolyProofs TargetModel TargetProofs TargetModel2 TargetProofs4 PropsTarget.
From Coq Require Import Reals Lra Lia.
Local Open Scope Z_scope.
(** The "optimized routine for computing the projection" of a density adds, for each of its quadrature points, exactly the same increments to the same elements
    as addPoint does for a particle of mass [value] (weight times density) placed at the point where the density was evaluated: for every shell, pane and pair of strips. *)
Theorem C67_classic_projection : forall N s grid p q g ish oR pane i1 o1 i2 o2 value, mkClassic s grid p q = Some g -> N = 0 \/ N = 1 ->
  0 <= ish < zlen g -> 0 <= pane < 3 -> 0 <= i1 < s -> 0 <= i2 < s -> (0 < oR < 1)%R -> (0 < o1 < 1)%R -> (0 < o2 < 1)%R -> value <> 0%R ->
  let '(x, y, z) := projPoint s g (axes p q) ish oR pane i1 o1 i2 o2 in
  addClassic N s g (axes p q) x y z value = Ok (projAdd N s ish oR pane i1 o1 i2 o2 value).
Proof.
  intros N s grid p q g ish oR pane i1 o1 i2 o2 value HC. intros. apply C67_constructors in HC. destruct HC as (Hs & Hp & Hq & _ & V). apply gridOk_valid in V.
  pose proof (C67_axes p q Hp Hq) as HA. destruct (axes p q) as [[a b] c]. destruct HA as (A1 & A2 & A3 & _). apply proj_point; assumption.
Qed.
Example C67_ex_projection : projAdd 1 2 1 (1 / 2) 2 1 (1 / 4) 0 (1 / 3) 5 = [(33%Z, 5 * (1 / 2) * (1 - 1 / 4) * (1 - 1 / 3)); (34%Z, 5 * (1 / 2) * (1 / 4) * (1 - 1 / 3)); (36%Z, 5 * (1 / 2) * (1 - 1 / 4) * (1 / 3)); (37%Z, 5 * (1 / 2) * (1 / 4) * (1 / 3));
   (14%Z, 5 * (1 - 1 / 2) * (1 - 1 / 4) * (1 - 1 / 3)); (15%Z, 5 * (1 - 1 / 2) * (1 / 4) * (1 - 1 / 3)); (17%Z, 5 * (1 - 1 / 2) * (1 - 1 / 4) * (1 / 3)); (18%Z, 5 * (1 - 1 / 2) * (1 / 4) * (1 / 3))]%R /\
  let '(x, y, z) := projPoint 2 [1; 3]%R (axes 1 1) 1 (1 / 2) 2 1 (1 / 4) 0 (1 / 3) in
  addClassic 1 2 [1; 3]%R (axes 1 1) x y z 5 = Ok (projAdd 1 2 1 (1 / 2) 2 1 (1 / 4) 0 (1 / 3) 5).
Proof.
  split; [reflexivity|]. apply (C67_classic_projection 1 2 [0; 1; 3]%R 1 1); try lra; try lia; try (right; reflexivity); [exact ex_classic|unfold zlen; simpl; lia].
Qed.
Print Assumptions C67_classic_projection.
