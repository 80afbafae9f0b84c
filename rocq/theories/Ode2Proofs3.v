From Coq Require Import Reals Lra Lia List Arith Bool.
From Coquelicot Require Import Coquelicot.
From Verif Require Import RandReal PolyModel PolyProofs OdeModel OdeProofs Ode2Model Ode2Spec Ode2Proofs Ode2Proofs2.
Local Open Scope R_scope.

Lemma abs_pair : forall x E, Rabs x <= E -> - E <= x <= E.
Proof. intros x E H. apply Rabs_le_between in H. lra. Qed.
Lemma abs_mul_le : forall k x E, Rabs x <= E -> Rabs (k * x) <= Rabs k * E.
Proof. intros. rewrite Rabs_mult. apply Rmult_le_compat_l; auto using Rabs_pos. Qed.

Definition dist3 (N : nat) (c c' : uvw) (E : R) : Prop := let '(u, v, w) := c in let '(u', v', w') := c' in
  forall d, (d < N)%nat -> Rabs (u d - u' d) <= E /\ Rabs (v d - v' d) <= E /\ Rabs (w d - w' d) <= E.

Ltac num3 := unfold S3, D3, G3h2, G3h1, G3h0; cbn [pow]; intros; apply Rabs_le; lra.
Section B.
Variables (E x y z : R).
Hypothesis (Hx : - E <= x <= E) (Hy : - E <= y <= E) (Hz : - E <= z <= E).
Lemma bS3_0 : Rabs (S3 G3h0 G3h1 x y z G3h0) <= 0.122 * E. Proof. num3. Qed.
Lemma bD3_0 : Rabs (D3 G3h0 G3h1 x y z G3h0) <= 0.122 * E. Proof. num3. Qed.
Lemma bS3_1 : Rabs (S3 G3h0 G3h1 x y z G3h1) <= 0.576 * E. Proof. num3. Qed.
Lemma bD3_1 : Rabs (D3 G3h0 G3h1 x y z G3h1) <= 0.576 * E. Proof. num3. Qed.
Lemma bS3_2 : Rabs (S3 G3h0 G3h1 x y z G3h2) <= 1.223 * E. Proof. num3. Qed.
Lemma bD3_2 : Rabs (D3 G3h0 G3h1 x y z G3h2) <= 1.223 * E. Proof. num3. Qed.
End B.

Lemma S3_sub : forall h0 h1 u v w u' v' w' h, S3 h0 h1 u v w h - S3 h0 h1 u' v' w' h = S3 h0 h1 (u - u') (v - v') (w - w') h.
Proof. intros. unfold S3. field. Qed.
Lemma D3_sub : forall h0 h1 u v w u' v' w' h, D3 h0 h1 u v w h - D3 h0 h1 u' v' w' h = D3 h0 h1 (u - u') (v - v') (w - w') h.
Proof. intros. unfold D3. field. Qed.
Lemma W3_sub : forall h0 h1 u v w u' v' w' h, W3 h0 h1 u v w h - W3 h0 h1 u' v' w' h = W3 h0 h1 (u - u') (v - v') (w - w') h.
Proof. intros. unfold W3. ring. Qed.

(** the change of the right-hand side at the node h, if S and D are bounded by k*E *)
Lemma node_diff : forall N a b al be dt x xdot c c' h k E d, (d < N)%nat -> rows_le N a al -> rows_le N b be -> 0 <= k -> 0 <= E ->
  (forall j, (j < N)%nat -> Rabs (pos3 G3h0 G3h1 dt x xdot c h j - pos3 G3h0 G3h1 dt x xdot c' h j) <= dt * dt * (k * E)) ->
  (forall j, (j < N)%nat -> Rabs (vel3 G3h0 G3h1 dt x xdot c h j - vel3 G3h0 G3h1 dt x xdot c' h j) <= Rabs dt * (k * E)) ->
  Rabs (rhs2 N a b (pos3 G3h0 G3h1 dt x xdot c h) (vel3 G3h0 G3h1 dt x xdot c h) d - rhs2 N a b (pos3 G3h0 G3h1 dt x xdot c' h) (vel3 G3h0 G3h1 dt x xdot c' h) d)
  <= k * ((dt * dt * al + Rabs dt * be) * E).
Proof.
  intros N a b al be dt x xdot c c' h k E d Hd Ha Hb Hk HE Hp Hv.
  assert (KE : 0 <= k * E) by now apply Rmult_le_pos.
  replace (k * ((dt * dt * al + Rabs dt * be) * E)) with (al * (dt * dt * (k * E)) + be * (Rabs dt * (k * E))) by ring.
  apply rhs2_diff; auto.
  - apply Rmult_le_pos; [nra|assumption].
  - apply Rmult_le_pos; [apply Rabs_pos|assumption].
Qed.
Lemma pos3_diff : forall h0 h1 dt x xdot u v w u' v' w' h j M, Rabs (S3 h0 h1 (u j - u' j) (v j - v' j) (w j - w' j) h) <= M ->
  Rabs (pos3 h0 h1 dt x xdot (u, v, w) h j - pos3 h0 h1 dt x xdot (u', v', w') h j) <= dt * dt * M.
Proof.
  intros h0 h1 dt x xdot u v w u' v' w' h j M H. cbn [pos3].
  replace (_ - _) with (dt * dt * (S3 h0 h1 (u j) (v j) (w j) h - S3 h0 h1 (u' j) (v' j) (w' j) h)) by ring. rewrite S3_sub.
  rewrite Rabs_mult, (Rabs_pos_eq (dt * dt)) by nra. apply Rmult_le_compat_l; [nra|exact H].
Qed.
Lemma vel3_diff : forall h0 h1 dt x xdot u v w u' v' w' h j M, Rabs (D3 h0 h1 (u j - u' j) (v j - v' j) (w j - w' j) h) <= M ->
  Rabs (vel3 h0 h1 dt x xdot (u, v, w) h j - vel3 h0 h1 dt x xdot (u', v', w') h j) <= Rabs dt * M.
Proof.
  intros h0 h1 dt x xdot u v w u' v' w' h j M H. cbn [vel3].
  replace (_ - _) with (dt * (D3 h0 h1 (u j) (v j) (w j) h - D3 h0 h1 (u' j) (v' j) (w' j) h)) by ring. rewrite D3_sub.
  rewrite Rabs_mult. apply Rmult_le_compat_l; [apply Rabs_pos|exact H].
Qed.

Lemma sweep3_contr : forall N a0 b0 a1 b1 a2 b2 dt x xdot al be c c' E,
  rows_le N a0 al -> rows_le N b0 be -> rows_le N a1 al -> rows_le N b1 be -> rows_le N a2 al -> rows_le N b2 be ->
  0 <= E -> 0 <= dt * dt * al + Rabs dt * be -> 10 * (dt * dt * al + Rabs dt * be) <= 1 -> dist3 N c c' E ->
  dist3 N (sweep3 G3h0 G3h1 G3h2 N a0 b0 a1 b1 a2 b2 dt x xdot c) (sweep3 G3h0 G3h1 G3h2 N a0 b0 a1 b1 a2 b2 dt x xdot c')
    (10 * (dt * dt * al + Rabs dt * be) * E).
Proof.
  intros N a0 b0 a1 b1 a2 b2 dt x xdot al be [[u v] w] [[u' v'] w'] E Ha0 Hb0 Ha1 Hb1 Ha2 Hb2 HE HC0 HC1 Hc.
  set (C := dt * dt * al + Rabs dt * be) in *. cbn [dist3] in Hc.
  assert (N01 : G3h0 <> G3h1) by (unfold G3h0, G3h1; lra). assert (N02 : G3h0 <> G3h2) by (unfold G3h2, G3h0; lra). assert (N12 : G3h1 <> G3h2) by (unfold G3h2, G3h0, G3h1; lra).
  destruct (sweep3_eq G3h0 G3h1 G3h2 N a0 b0 a1 b1 a2 b2 dt x xdot u v w N01 N02 N12) as (u1 & v1 & w1 & E1 & F1).
  destruct (sweep3_eq G3h0 G3h1 G3h2 N a0 b0 a1 b1 a2 b2 dt x xdot u' v' w' N01 N02 N12) as (u2 & v2 & w2 & E2 & F2).
  rewrite E1, E2. clear E1 E2. cbn [dist3].
  assert (CE : 0 <= C * E) by now apply Rmult_le_pos. assert (CE1 : 10 * (C * E) <= E) by nra.
  assert (U : forall d, (d < N)%nat -> Rabs (u1 d - u2 d) <= 0.122 * (C * E)).
  { intros d Hd. destruct (F1 d) as (G1 & _). destruct (F2 d) as (G2 & _). cbn [acc3] in G1, G2. unfold W3 in G1, G2.
    replace (u1 d - u2 d) with (u1 d + (G3h0 - G3h0) * (v1 d + (G3h0 - G3h1) * w1 d) - (u2 d + (G3h0 - G3h0) * (v2 d + (G3h0 - G3h1) * w2 d))) by ring.
    rewrite G1, G2. apply node_diff; auto; [lra| |]; intros j Hj; [apply pos3_diff, bS3_0|apply vel3_diff, bD3_0]; apply abs_pair; apply (Hc j Hj). }
  assert (V : forall d, (d < N)%nat -> Rabs (v1 d - v2 d) <= 1.81 * (C * E)).
  { intros d Hd. destruct (F1 d) as (_ & G1 & _). destruct (F2 d) as (_ & G2 & _). cbn [acc3] in G1, G2. unfold W3 in G1, G2.
    assert (K : Rabs (rhs2 N a1 b1 (pos3 G3h0 G3h1 dt x xdot (u1, v, w) G3h1) (vel3 G3h0 G3h1 dt x xdot (u1, v, w) G3h1) d -
                      rhs2 N a1 b1 (pos3 G3h0 G3h1 dt x xdot (u2, v', w') G3h1) (vel3 G3h0 G3h1 dt x xdot (u2, v', w') G3h1) d) <= 0.576 * (C * E)).
    { apply node_diff; auto; [lra| |]; intros j Hj; [apply pos3_diff, bS3_1|apply vel3_diff, bD3_1]; apply abs_pair; try apply (Hc j Hj);
        (eapply Rle_trans; [apply U; exact Hj|lra]). }
    rewrite <- G1, <- G2 in K. apply abs_pair in K. pose proof (abs_pair _ _ (U d Hd)) as K2. revert K K2. unfold G3h0, G3h1. intros. apply Rabs_le. lra. }
  assert (W : forall d, (d < N)%nat -> Rabs (w1 d - w2 d) <= 10 * (C * E)).
  { intros d Hd. destruct (F1 d) as (_ & _ & G1). destruct (F2 d) as (_ & _ & G2). cbn [acc3] in G1, G2. unfold W3 in G1, G2.
    assert (K : Rabs (rhs2 N a2 b2 (pos3 G3h0 G3h1 dt x xdot (u1, v1, w) G3h2) (vel3 G3h0 G3h1 dt x xdot (u1, v1, w) G3h2) d -
                      rhs2 N a2 b2 (pos3 G3h0 G3h1 dt x xdot (u2, v2, w') G3h2) (vel3 G3h0 G3h1 dt x xdot (u2, v2, w') G3h2) d) <= 1.223 * (C * E)).
    { apply node_diff; auto; [lra| |]; intros j Hj; [apply pos3_diff, bS3_2|apply vel3_diff, bD3_2]; apply abs_pair; try apply (Hc j Hj);
        (eapply Rle_trans; [apply U + apply V; exact Hj|lra]). }
    rewrite <- G1, <- G2 in K. apply abs_pair in K. pose proof (abs_pair _ _ (U d Hd)) as K2. pose proof (abs_pair _ _ (V d Hd)) as K3. revert K K2 K3. unfold G3h2, G3h0, G3h1. intros. apply Rabs_le. lra. }
  intros d Hd. specialize (U d Hd). specialize (V d Hd). specialize (W d Hd). repeat split; lra.
Qed.
