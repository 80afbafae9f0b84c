(** C64: Ferrers n=2 bar and spherical Dehnen potentials. *)
From Coq Require Import Reals Lra Psatz Bool.
From Coquelicot Require Import Coquelicot.
From Verif Require Import RandReal RandRealProofs PolyModel PolyProofs CoordModel CoordSpec CoordCalc RootProofs PotModel PotSpec DiskModel DfProofs DfProofs2 FerrersModel FerrersSpec FerrersProofs FerrersProofs2 FerrersProofs3 FerrersProofs4 FerrersProofs5 FerrersProofs6 DehnenProofs.
Local Open Scope R_scope.

(** a Ferrers object exists iff R > 0 and 0 < q < p < 1; a Dehnen object iff scale radius > 0 and gamma within [0:2] *)
Theorem C64_construct (mass r p q a g : R) :
  ((exists P, ferConstruct mass r p q = Some P) <-> 0 < r /\ 0 < q < p /\ p < 1) /\ (dehConstruct a g = true <-> 0 < a /\ 0 <= g <= 2).
Proof. split; [apply construct_iff|apply dehConstruct_iff]. Qed.
(** the density is the documented one *)
Theorem C64_density (mass r p q : R) (P : ferrers) (pos : vec3) : ferConstruct mass r p q = Some P -> ferDensity P pos = ferrers_rho mass r p q pos.
Proof. apply density_doc. Qed.
(** the equation solved for points outside the ellipsoid has exactly one non-negative solution (a positive one) *)
Theorem C64_root (mass r p q : R) (P : ferrers) (pos : vec3) : ferConstruct mass r p q = Some P -> 1 < ell P pos 0 -> exists! l, 0 <= l /\ ell P pos l = 1.
Proof.
  intros H O. pose proof (construct_ok _ _ _ _ _ H) as (_ & _ & _ & V & _). destruct (root_exists P V pos O) as (l & L1 & L2). exists l. split; [split; [lra|exact L2]|]. intros l' (A & B). apply (root_unique P V pos); [lra|exact A|exact L2|exact B].
Qed.
(** everywhere except on the sphere r = 10 R the returned gradient and Hessian are the derivatives of the returned potential, and the Poisson equation with the documented density holds *)
Theorem C64_derivatives (mass r p q : R) (P : ferrers) (root : vec3 -> R) (pos : vec3) :
  ferConstruct mass r p q = Some P -> is_root P root -> v1 pos ^ 2 + v2 pos ^ 2 + v3 pos ^ 2 <> (10 * r) ^ 2 ->
  is_hess (fun x => fst (fst (ferEval P root x))) pos (snd (fst (ferEval P root pos))) (snd (ferEval P root pos)) /\
  poisson (fun x => fst (fst (ferEval P root x))) (ferrers_rho mass r p q) pos.
Proof.
  intros H HR N. pose proof (construct_ok _ _ _ _ _ H) as (_ & _ & _ & V & Ea & _). destruct (eval_hess P V root HR pos) as (A & B); [unfold rad2; rewrite Ea; exact N|]. split; [exact A|]. eexists _, _. split; [exact A|].
  rewrite B. rewrite (density_doc _ _ _ _ _ _ H). field. apply PI_neq0.
Qed.
(** within 10 R the returned potential is the classical integral of the heterogeneous ellipsoid, taken from 0 for points inside and from the root outside *)
Theorem C64_integral (mass r p q : R) (P : ferrers) (root : vec3 -> R) (pos : vec3) :
  ferConstruct mass r p q = Some P -> is_root P root -> v1 pos ^ 2 + v2 pos ^ 2 + v3 pos ^ 2 <= (10 * r) ^ 2 ->
  (ell P pos 0 <= 1 -> ferrers_Phi P pos 0 (fst (fst (ferEval P root pos)))) /\ (1 < ell P pos 0 -> ferrers_Phi P pos (root pos) (fst (fst (ferEval P root pos)))).
Proof.
  intros H HR N. pose proof (construct_ok _ _ _ _ _ H) as (_ & _ & _ & V & Ea & _). rewrite (eval_near P root) by (unfold rad2; rewrite Ea; exact N). cbn [fst]. unfold Nval. split; intros K.
  - rewrite (lam_in P V root) by exact K. apply (near_integral P V). lra.
  - destruct (HR pos K) as (L & _). replace (lamOf P root pos) with (root pos); [apply (near_integral P V); lra|]. destruct pos as [[x y] z]. unfold lamOf. rewrite (m2_ell P V), Rlt_b_t by exact K. reflexivity.
Qed.
(** beyond 10 R the returned potential is -M/r up to a relative correction of at most 7/36 (R/r)^2 *)
Theorem C64_far (mass r p q : R) (P : ferrers) (root : vec3 -> R) (pos : vec3) :
  let d2 := v1 pos ^ 2 + v2 pos ^ 2 + v3 pos ^ 2 in
  ferConstruct mass r p q = Some P -> (10 * r) ^ 2 < d2 ->
  Rabs (fst (fst (ferEval P root pos)) - - mass / sqrt d2) <= Rabs mass / sqrt d2 * (7 / 36 * (r ^ 2 / d2)).
Proof.
  intros d2 H N. pose proof (far_value mass r p q P root pos H N) as A. unfold rad2 in A. fold d2 in A.
  replace (fst (fst (ferEval P root pos)) - - mass / sqrt d2) with (fst (fst (ferEval P root pos)) + mass / sqrt d2) by (unfold Rdiv; ring). eapply Rle_trans; [exact A|]. right. unfold Rdiv. ring.
Qed.
(** the forces at a point do not depend on which (exact) root-finder is used *)
Theorem C64_root_indep (mass r p q : R) (P : ferrers) (root root' : vec3 -> R) (pos : vec3) :
  ferConstruct mass r p q = Some P -> is_root P root -> is_root P root' -> ferEval P root pos = ferEval P root' pos.
Proof.
  intros H HR HR'. pose proof (construct_ok _ _ _ _ _ H) as (_ & _ & _ & V & _). destruct pos as [[x y] z]. unfold ferEval. rewrite (m2_ell P V). destruct (Rlt_b (pow_2 (10 * fa P)) (pow_2 x + pow_2 y + pow_2 z)); [reflexivity|].
  destruct (Rlt_b 1 (ell P (x, y, z) 0)) eqn:E; [|reflexivity]. apply Rlt_b_iff in E. destruct (HR _ E) as (A & B). destruct (HR' _ E) as (A' & B'). rewrite (root_unique P V (x, y, z) (root (x, y, z)) (root' (x, y, z))); [reflexivity|lra|lra|exact B|exact B'].
Qed.
(** Dehnen: gradient and Hessian are the derivatives of the documented potential, which satisfies the Poisson equation with the documented density *)
Theorem C64_dehnen (M a g : R) (pos : vec3) : dehConstruct a g = true -> 0 < v1 pos ^ 2 + v2 pos ^ 2 + v3 pos ^ 2 ->
  is_hess (dehnen_Phi M a g) pos (snd (fst (dehSph M a g pos))) (snd (dehSph M a g pos)) /\ poisson (dehnen_Phi M a g) (dehnen_rho M a g) pos /\ dehDensity M a g 1 1 pos = dehnen_rho M a g pos.
Proof.
  intros K H. apply dehConstruct_iff in K. destruct K as (Ha & Hg). assert (O : off pos) by (unfold off; lra). pose proof (dehnen_main M a g pos Ha Hg O) as A. destruct (dehSph M a g pos) as [[v gr] h]. cbn [fst snd]. destruct A as (A & B & _). split; [exact A|]. split; [exists gr, h; split; [exact A|exact B]|apply rho_spec; assumption].
Qed.
(** the returned potential is the documented one except at very large radii, where a truncated series is used (its accuracy is not claimed) *)
Theorem C64_dehnen_potential_partial (M a g : R) (pos : vec3) : dehConstruct a g = true -> 0 < v1 pos ^ 2 + v2 pos ^ 2 + v3 pos ^ 2 ->
  sqrt (v1 pos ^ 2 + v2 pos ^ 2 + v3 pos ^ 2) < 500 * (4 - g) * a -> fst (fst (dehSph M a g pos)) = dehnen_Phi M a g pos.
Proof.
  intros K H L. apply dehConstruct_iff in K. destruct K as (Ha & Hg). assert (O : off pos) by (unfold off; lra). pose proof (dehnen_main M a g pos Ha Hg O) as A. destruct (dehSph M a g pos) as [[v gr] h]. cbn [fst]. destruct A as (_ & _ & A). apply A.
  rewrite rr_spec in L. assert (Rp : 0 < rr pos) by (apply sqrt_lt_R0, O). set (d := rr pos) in *. clear - Ha Hg Rp L. clearbody d. assert (K : 0 < 4 - g) by lra. set (k := 4 - g) in *. clearbody k.
  assert (E1 : a / d * (d * (500 * k)) = 500 * k * a) by (field; lra). assert (E2 : 2 / 1000 / k * (d * (500 * k)) = d) by (field; lra). replace 0.002 with (2 / 1000) by lra.
  apply (Rmult_lt_reg_r (d * (500 * k))); [apply Rmult_lt_0_compat; lra|]. rewrite E1, E2. exact L.
Qed.

(** the hypotheses are satisfiable *)
Example ferrers_example : exists P root, ferConstruct 1 1 (9 / 10) (7 / 10) = Some P /\ is_root P root /\ 1 < ell P (2, 1, 1) 0 /\ (2 : R) ^ 2 + 1 ^ 2 + 1 ^ 2 <> (10 * 1) ^ 2 /\ ell P (1 / 10, 0, 0) 0 <= 1.
Proof.
  destruct (proj2 (construct_iff 1 1 (9 / 10) (7 / 10)) ltac:(lra)) as (P & H). pose proof (construct_ok _ _ _ _ _ H) as (_ & _ & _ & V & Ea & Eb & Ec & _). destruct (root_fun P V) as (root & HR). exists P, root. split; [exact H|]. split; [exact HR|]. unfold ell, v1, v2, v3. cbn [fst snd]. rewrite Ea, Eb, Ec.
  split; [|split; [lra|]].
  - pose proof (Rle_0_sqr 1). assert (0 < 1 ^ 2 / ((1 * (9 / 10)) ^ 2 + 0)) by (apply Rdiv_lt_0_compat; lra). assert (0 < 1 ^ 2 / ((1 * (7 / 10)) ^ 2 + 0)) by (apply Rdiv_lt_0_compat; lra). lra.
  - unfold Rdiv. rewrite !pow_i by (apply PeanoNat.Nat.lt_0_succ). rewrite !Rmult_0_l. lra.
Qed.
Example dehnen_example : dehConstruct 1 (3 / 2) = true /\ dehConstruct 1 3 = false.
Proof. split; [apply dehConstruct_iff; lra|]. destruct (dehConstruct 1 3) eqn:E; [apply dehConstruct_iff in E; lra|reflexivity]. Qed.

Print Assumptions C64_construct.
Print Assumptions C64_density.
Print Assumptions C64_root.
Print Assumptions C64_derivatives.
Print Assumptions C64_integral.
Print Assumptions C64_far.
Print Assumptions C64_root_indep.
Print Assumptions C64_dehnen.
Print Assumptions C64_dehnen_potential_partial.
