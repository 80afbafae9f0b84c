From Coq Require Import Reals Lra Lia List Arith Bool.
From Coquelicot Require Import Coquelicot.
From Verif Require Import RandReal PolyModel PolyProofs OdeModel OdeProofs Ode2Model Ode2Spec Ode2Proofs Ode2Proofs2 Ode2Proofs3 Ode2Proofs4 Ode2Proofs5 Banach.
Import ListNotations.
Local Open Scope R_scope.

Definition dist4 (N : nat) (c c' : uvwz) (E : R) : Prop := let '(u, v, w, z) := c in let '(u', v', w', z') := c' in
  forall d, (d < N)%nat -> Rabs (u d - u' d) <= E /\ Rabs (v d - v' d) <= E /\ Rabs (w d - w' d) <= E /\ Rabs (z d - z' d) <= E.

Ltac num4 := unfold S4, D4, G4h3, G4h2, G4h1, G4h0; cbn [pow]; intros; apply Rabs_le; lra.
Section B.
Variables (E x y z q : R).
Hypothesis (Hx : - E <= x <= E) (Hy : - E <= y <= E) (Hz : - E <= z <= E) (Hq : - E <= q <= E).
Lemma bS4_0 : Rabs (S4 G4h0 G4h1 G4h2 x y z q G4h0) <= 0.0732 * E. Proof. num4. Qed.
Lemma bD4_0 : Rabs (D4 G4h0 G4h1 G4h2 x y z q G4h0) <= 0.0732 * E. Proof. num4. Qed.
Lemma bS4_1 : Rabs (S4 G4h0 G4h1 G4h2 x y z q G4h1) <= 0.365 * E. Proof. num4. Qed.
Lemma bD4_1 : Rabs (D4 G4h0 G4h1 G4h2 x y z q G4h1) <= 0.365 * E. Proof. num4. Qed.
Lemma bS4_2 : Rabs (S4 G4h0 G4h1 G4h2 x y z q G4h2) <= 0.876 * E. Proof. num4. Qed.
Lemma bD4_2 : Rabs (D4 G4h0 G4h1 G4h2 x y z q G4h2) <= 0.876 * E. Proof. num4. Qed.
Lemma bS4_3 : Rabs (S4 G4h0 G4h1 G4h2 x y z q G4h3) <= 1.428 * E. Proof. num4. Qed.
Lemma bD4_3 : Rabs (D4 G4h0 G4h1 G4h2 x y z q G4h3) <= 1.428 * E. Proof. num4. Qed.
End B.

Lemma S4_sub : forall h0 h1 h2 u v w z u' v' w' z' h, S4 h0 h1 h2 u v w z h - S4 h0 h1 h2 u' v' w' z' h = S4 h0 h1 h2 (u - u') (v - v') (w - w') (z - z') h.
Proof. intros. unfold S4. field. Qed.
Lemma D4_sub : forall h0 h1 h2 u v w z u' v' w' z' h, D4 h0 h1 h2 u v w z h - D4 h0 h1 h2 u' v' w' z' h = D4 h0 h1 h2 (u - u') (v - v') (w - w') (z - z') h.
Proof. intros. unfold D4. field. Qed.
Lemma W4_sub : forall h0 h1 h2 u v w z u' v' w' z' h, W4 h0 h1 h2 u v w z h - W4 h0 h1 h2 u' v' w' z' h = W4 h0 h1 h2 (u - u') (v - v') (w - w') (z - z') h.
Proof. intros. unfold W4. ring. Qed.

(** the change of the right-hand side at the node h, if S and D are bounded by k*E *)
Lemma node_diff4 : forall N a b al be dt x xdot c c' h k E d, (d < N)%nat -> rows_le N a al -> rows_le N b be -> 0 <= k -> 0 <= E ->
  (forall j, (j < N)%nat -> Rabs (pos4 G4h0 G4h1 G4h2 dt x xdot c h j - pos4 G4h0 G4h1 G4h2 dt x xdot c' h j) <= dt * dt * (k * E)) ->
  (forall j, (j < N)%nat -> Rabs (vel4 G4h0 G4h1 G4h2 dt x xdot c h j - vel4 G4h0 G4h1 G4h2 dt x xdot c' h j) <= Rabs dt * (k * E)) ->
  Rabs (rhs2 N a b (pos4 G4h0 G4h1 G4h2 dt x xdot c h) (vel4 G4h0 G4h1 G4h2 dt x xdot c h) d - rhs2 N a b (pos4 G4h0 G4h1 G4h2 dt x xdot c' h) (vel4 G4h0 G4h1 G4h2 dt x xdot c' h) d)
  <= k * ((dt * dt * al + Rabs dt * be) * E).
Proof.
  intros N a b al be dt x xdot c c' h k E d Hd Ha Hb Hk HE Hp Hv.
  assert (KE : 0 <= k * E) by now apply Rmult_le_pos.
  replace (k * ((dt * dt * al + Rabs dt * be) * E)) with (al * (dt * dt * (k * E)) + be * (Rabs dt * (k * E))) by ring.
  apply rhs2_diff; auto.
  - apply Rmult_le_pos; [nra|assumption].
  - apply Rmult_le_pos; [apply Rabs_pos|assumption].
Qed.
Lemma pos4_diff : forall h0 h1 h2 dt x xdot u v w z u' v' w' z' h j M, Rabs (S4 h0 h1 h2 (u j - u' j) (v j - v' j) (w j - w' j) (z j - z' j) h) <= M ->
  Rabs (pos4 h0 h1 h2 dt x xdot (u, v, w, z) h j - pos4 h0 h1 h2 dt x xdot (u', v', w', z') h j) <= dt * dt * M.
Proof.
  intros h0 h1 h2 dt x xdot u v w z u' v' w' z' h j M H. cbn [pos4].
  replace (_ - _) with (dt * dt * (S4 h0 h1 h2 (u j) (v j) (w j) (z j) h - S4 h0 h1 h2 (u' j) (v' j) (w' j) (z' j) h)) by ring. rewrite S4_sub.
  rewrite Rabs_mult, (Rabs_pos_eq (dt * dt)) by nra. apply Rmult_le_compat_l; [nra|exact H].
Qed.
Lemma vel4_diff : forall h0 h1 h2 dt x xdot u v w z u' v' w' z' h j M, Rabs (D4 h0 h1 h2 (u j - u' j) (v j - v' j) (w j - w' j) (z j - z' j) h) <= M ->
  Rabs (vel4 h0 h1 h2 dt x xdot (u, v, w, z) h j - vel4 h0 h1 h2 dt x xdot (u', v', w', z') h j) <= Rabs dt * M.
Proof.
  intros h0 h1 h2 dt x xdot u v w z u' v' w' z' h j M H. cbn [vel4].
  replace (_ - _) with (dt * (D4 h0 h1 h2 (u j) (v j) (w j) (z j) h - D4 h0 h1 h2 (u' j) (v' j) (w' j) (z' j) h)) by ring. rewrite D4_sub.
  rewrite Rabs_mult. apply Rmult_le_compat_l; [apply Rabs_pos|exact H].
Qed.


Lemma m01 : G4h0 <> G4h1. Proof. unfold G4h0, G4h1; lra. Qed.
Lemma m02 : G4h0 <> G4h2. Proof. unfold G4h2, G4h1, G4h0; lra. Qed.
Lemma m12 : G4h1 <> G4h2. Proof. unfold G4h2, G4h0, G4h1; lra. Qed.
Lemma m03 : G4h0 <> G4h3. Proof. unfold G4h3, G4h0, G4h1; lra. Qed.
Lemma m13 : G4h1 <> G4h3. Proof. unfold G4h3, G4h0, G4h1; lra. Qed.
Lemma m23 : G4h2 <> G4h3. Proof. unfold G4h3, G4h2, G4h0, G4h1; lra. Qed.
Definition sweep4_eqn N a0 b0 a1 b1 a2 b2 a3 b3 dt x xdot u v w z := sweep4_eq G4h0 G4h1 G4h2 G4h3 N a0 b0 a1 b1 a2 b2 a3 b3 dt x xdot u v w z m01 m02 m12 m03 m13 m23.

Lemma sweep4_contr : forall N a0 b0 a1 b1 a2 b2 a3 b3 dt x xdot al be c c' E,
  rows_le N a0 al -> rows_le N b0 be -> rows_le N a1 al -> rows_le N b1 be -> rows_le N a2 al -> rows_le N b2 be -> rows_le N a3 al -> rows_le N b3 be ->
  0 <= E -> 0 <= dt * dt * al + Rabs dt * be -> 59 * (dt * dt * al + Rabs dt * be) <= 1 -> dist4 N c c' E ->
  dist4 N (sweep4 G4h0 G4h1 G4h2 G4h3 N a0 b0 a1 b1 a2 b2 a3 b3 dt x xdot c) (sweep4 G4h0 G4h1 G4h2 G4h3 N a0 b0 a1 b1 a2 b2 a3 b3 dt x xdot c')
    (59 * (dt * dt * al + Rabs dt * be) * E).
Proof.
  intros N a0 b0 a1 b1 a2 b2 a3 b3 dt x xdot al be [[[u v] w] z] [[[u' v'] w'] z'] E Ha0 Hb0 Ha1 Hb1 Ha2 Hb2 Ha3 Hb3 HE HC0 HC1 Hc.
  set (C := dt * dt * al + Rabs dt * be) in *. cbn [dist4] in Hc.
  destruct (sweep4_eqn N a0 b0 a1 b1 a2 b2 a3 b3 dt x xdot u v w z) as (u1 & v1 & w1 & z1 & E1 & F1).
  destruct (sweep4_eqn N a0 b0 a1 b1 a2 b2 a3 b3 dt x xdot u' v' w' z') as (u2 & v2 & w2 & z2 & E2 & F2).
  rewrite E1, E2. clear E1 E2. cbn [dist4].
  assert (CE : 0 <= C * E) by now apply Rmult_le_pos. assert (CE1 : 59 * (C * E) <= E) by nra.
  assert (U : forall d, (d < N)%nat -> Rabs (u1 d - u2 d) <= 0.0732 * (C * E)).
  { intros d Hd. destruct (F1 d) as (G1 & _). destruct (F2 d) as (G2 & _). cbn [acc4] in G1, G2. unfold W4 in G1, G2.
    replace (u1 d - u2 d) with (u1 d + (G4h0 - G4h0) * (v1 d + (G4h0 - G4h1) * (w1 d + (G4h0 - G4h2) * z1 d)) - (u2 d + (G4h0 - G4h0) * (v2 d + (G4h0 - G4h1) * (w2 d + (G4h0 - G4h2) * z2 d)))) by ring.
    rewrite G1, G2. apply node_diff4; auto; [lra| |]; intros j Hj; [apply pos4_diff, bS4_0|apply vel4_diff, bD4_0]; apply abs_pair; apply (Hc j Hj). }
  assert (V : forall d, (d < N)%nat -> Rabs (v1 d - v2 d) <= 1.69 * (C * E)).
  { intros d Hd. destruct (F1 d) as (_ & G1 & _). destruct (F2 d) as (_ & G2 & _). cbn [acc4] in G1, G2. unfold W4 in G1, G2.
    assert (K : Rabs (rhs2 N a1 b1 (pos4 G4h0 G4h1 G4h2 dt x xdot (u1, v, w, z) G4h1) (vel4 G4h0 G4h1 G4h2 dt x xdot (u1, v, w, z) G4h1) d -
                      rhs2 N a1 b1 (pos4 G4h0 G4h1 G4h2 dt x xdot (u2, v', w', z') G4h1) (vel4 G4h0 G4h1 G4h2 dt x xdot (u2, v', w', z') G4h1) d) <= 0.365 * (C * E)).
    { apply node_diff4; auto; [lra| |]; intros j Hj; [apply pos4_diff, bS4_1|apply vel4_diff, bD4_1]; apply abs_pair; try apply (Hc j Hj);
        (eapply Rle_trans; [apply U; exact Hj|lra]). }
    rewrite <- G1, <- G2 in K. apply abs_pair in K. pose proof (abs_pair _ _ (U d Hd)) as K2. revert K K2. unfold G4h2, G4h0, G4h1. intros. apply Rabs_le. lra. }
  assert (W : forall d, (d < N)%nat -> Rabs (w1 d - w2 d) <= 9.64 * (C * E)).
  { intros d Hd. destruct (F1 d) as (_ & _ & G1 & _). destruct (F2 d) as (_ & _ & G2 & _). cbn [acc4] in G1, G2. unfold W4 in G1, G2.
    assert (K : Rabs (rhs2 N a2 b2 (pos4 G4h0 G4h1 G4h2 dt x xdot (u1, v1, w, z) G4h2) (vel4 G4h0 G4h1 G4h2 dt x xdot (u1, v1, w, z) G4h2) d -
                      rhs2 N a2 b2 (pos4 G4h0 G4h1 G4h2 dt x xdot (u2, v2, w', z') G4h2) (vel4 G4h0 G4h1 G4h2 dt x xdot (u2, v2, w', z') G4h2) d) <= 0.876 * (C * E)).
    { apply node_diff4; auto; [lra| |]; intros j Hj; [apply pos4_diff, bS4_2|apply vel4_diff, bD4_2]; apply abs_pair; try apply (Hc j Hj);
        (eapply Rle_trans; [apply U + apply V; exact Hj|lra]). }
    rewrite <- G1, <- G2 in K. apply abs_pair in K. pose proof (abs_pair _ _ (U d Hd)) as K2. pose proof (abs_pair _ _ (V d Hd)) as K3. revert K K2 K3. unfold G4h2, G4h0, G4h1. intros. apply Rabs_le. lra. }
  assert (ZZ : forall d, (d < N)%nat -> Rabs (z1 d - z2 d) <= 59 * (C * E)).
  { intros d Hd. destruct (F1 d) as (_ & _ & _ & G1). destruct (F2 d) as (_ & _ & _ & G2). cbn [acc4] in G1, G2. unfold W4 in G1, G2.
    assert (K : Rabs (rhs2 N a3 b3 (pos4 G4h0 G4h1 G4h2 dt x xdot (u1, v1, w1, z) G4h3) (vel4 G4h0 G4h1 G4h2 dt x xdot (u1, v1, w1, z) G4h3) d -
                      rhs2 N a3 b3 (pos4 G4h0 G4h1 G4h2 dt x xdot (u2, v2, w2, z') G4h3) (vel4 G4h0 G4h1 G4h2 dt x xdot (u2, v2, w2, z') G4h3) d) <= 1.428 * (C * E)).
    { apply node_diff4; auto; [lra| |]; intros j Hj; [apply pos4_diff, bS4_3|apply vel4_diff, bD4_3]; apply abs_pair; try apply (Hc j Hj);
        (eapply Rle_trans; [apply U + apply V + apply W; exact Hj|lra]). }
    rewrite <- G1, <- G2 in K. apply abs_pair in K. pose proof (abs_pair _ _ (U d Hd)) as K2. pose proof (abs_pair _ _ (V d Hd)) as K3. pose proof (abs_pair _ _ (W d Hd)) as K4. revert K K2 K3 K4. unfold G4h3, G4h2, G4h0, G4h1. intros. apply Rabs_le. lra. }
  intros d Hd. specialize (U d Hd). specialize (V d Hd). specialize (W d Hd). specialize (ZZ d Hd). repeat split; lra.
Qed.
