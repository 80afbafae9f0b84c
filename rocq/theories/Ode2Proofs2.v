From Coq Require Import Reals Lra Lia List Arith Bool.
From Coquelicot Require Import Coquelicot.
From Verif Require Import RandReal PolyModel PolyProofs OdeModel OdeProofs Ode2Model Ode2Spec Ode2Proofs.
Local Open Scope R_scope.

Lemma dec_5 : 0.5 = / 2. Proof. lra. Qed.
Lemma dec_25 : 0.25 = / 4. Proof. lra. Qed.
Lemma dec_6 : 0.6 = 3 / 5. Proof. lra. Qed.

(** the acceleration (as a function of h), its first and second integrals *)
Definition W3 (h0 h1 u v w h : R) : R := u + (h - h0) * (v + (h - h1) * w).
Definition D3 (h0 h1 u v w h : R) : R := h * u + (h ^ 2 / 2 - h0 * h) * v + (h ^ 3 / 3 - (h0 + h1) * h ^ 2 / 2 + h0 * h1 * h) * w.
Definition S3 (h0 h1 u v w h : R) : R := h ^ 2 / 2 * u + (h ^ 3 / 6 - h0 * h ^ 2 / 2) * v + (h ^ 4 / 12 - (h0 + h1) * h ^ 3 / 6 + h0 * h1 * h ^ 2 / 2) * w.
Definition pos3 (h0 h1 dt : R) (x xdot : vec) (c : uvw) (h : R) : vec := let '(u, v, w) := c in fun d => x d + xdot d * dt * h + dt * dt * S3 h0 h1 (u d) (v d) (w d) h.
Definition vel3 (h0 h1 dt : R) (x xdot : vec) (c : uvw) (h : R) : vec := let '(u, v, w) := c in fun d => xdot d + dt * D3 h0 h1 (u d) (v d) (w d) h.
Definition acc3 (h0 h1 : R) (c : uvw) (h : R) : vec := let '(u, v, w) := c in fun d => W3 h0 h1 (u d) (v d) (w d) h.

Section G.
Variables h0 h1 h2 : R.
Let S := S3 h0 h1.
Let D := D3 h0 h1.
Lemma s3_0 : forall u v w, g3su0 h0 * u + g3sv0 h0 * v + g3sw0 h0 h1 * w = S u v w h0.
Proof. intros. unfold S, S3, g3sw0, g3sv0, g3su0. rewrite dec_5, dec_25. field. Qed.
Lemma s3_1 : forall u v w, g3su1 h1 * u + g3sv1 h0 h1 * v + g3sw1 h0 h1 * w = S u v w h1.
Proof. intros. unfold S, S3, g3sw1, g3sv1, g3su1. rewrite dec_5. field. Qed.
Lemma s3_2 : forall u v w, g3su2 h2 * u + g3sv2 h0 h2 * v + g3sw2 h0 h1 h2 * w = S u v w h2.
Proof. intros. unfold S, S3, g3sw2, g3sv2, g3su2. rewrite dec_5. field. Qed.
Lemma d3_0 : forall u v w, g3du0 h0 * u + g3dv0 h0 * v + g3dw0 h0 h1 * w = D u v w h0.
Proof. intros. unfold D, D3, g3dw0, g3dv0, g3du0. field. Qed.
Lemma d3_1 : forall u v w, g3du1 h1 * u + g3dv1 h0 h1 * v + g3dw1 h0 h1 * w = D u v w h1.
Proof. intros. unfold D, D3, g3dw1, g3dv1, g3du1. field. Qed.
Lemma d3_2 : forall u v w, g3du2 h2 * u + g3dv2 h0 h2 * v + g3dw2 h0 h1 h2 * w = D u v w h2.
Proof. intros. unfold D, D3, g3dw2, g3dv2, g3du2. field. Qed.

(** one iteration: the equation is used at the three nodes in turn *)
Lemma sweep3_eq : forall N a0 b0 a1 b1 a2 b2 dt x xdot u v w, h0 <> h1 -> h0 <> h2 -> h1 <> h2 ->
  exists u' v' w', sweep3 h0 h1 h2 N a0 b0 a1 b1 a2 b2 dt x xdot (u, v, w) = (u', v', w') /\
    forall d,
    acc3 h0 h1 (u', v', w') h0 d = rhs2 N a0 b0 (pos3 h0 h1 dt x xdot (u, v, w) h0) (vel3 h0 h1 dt x xdot (u, v, w) h0) d /\
    acc3 h0 h1 (u', v', w') h1 d = rhs2 N a1 b1 (pos3 h0 h1 dt x xdot (u', v, w) h1) (vel3 h0 h1 dt x xdot (u', v, w) h1) d /\
    acc3 h0 h1 (u', v', w') h2 d = rhs2 N a2 b2 (pos3 h0 h1 dt x xdot (u', v', w) h2) (vel3 h0 h1 dt x xdot (u', v', w) h2) d.
Proof.
  intros N a0 b0 a1 b1 a2 b2 dt x xdot u v w H01 H02 H12. unfold sweep3. cbv zeta. do 3 eexists. split; [reflexivity|].
  intros d. cbn [acc3].
  assert (K : forall r r', r = r' -> W3 h0 h1 r 0 0 h0 = r') by (intros; unfold W3; subst; ring).
  repeat split.
  - unfold W3. rewrite Rminus_diag_eq by reflexivity. rewrite Rmult_0_l, Rplus_0_r.
    apply rhs2_ext; intros j Hj; cbn [pos3 vel3]; [rewrite s3_0|rewrite d3_0]; unfold S, D; ring.
  - unfold W3, g3mvu.
    match goal with |- ?A + (h1 - h0) * ((?B - ?A) * (1 / (h1 - h0)) + (h1 - h1) * ?C) = _ => replace (A + (h1 - h0) * ((B - A) * (1 / (h1 - h0)) + (h1 - h1) * C)) with B by (field; lra) end.
    apply rhs2_ext; intros j Hj; cbn [pos3 vel3]; [rewrite s3_1|rewrite d3_1]; unfold S, D; ring.
  - unfold W3, g3mwu, g3mwv.
    match goal with |- ?A + (h2 - h0) * (?V + (h2 - h1) * ((?B - ?A) * (1 / (h2 - h0) / (h2 - h1)) - ?V * (1 / (h2 - h1)))) = _ =>
      replace (A + (h2 - h0) * (V + (h2 - h1) * ((B - A) * (1 / (h2 - h0) / (h2 - h1)) - V * (1 / (h2 - h1))))) with B by (field; lra) end.
    apply rhs2_ext; intros j Hj; cbn [pos3 vel3]; [rewrite s3_2|rewrite d3_2]; unfold S, D; ring.
Qed.

(** the interpolant after a step *)
Lemma finish3_pos : forall dt x xdot c d h, dt <> 0 ->
  let b k := finish3 h0 h1 dt x xdot c k d in let T := dt * h - dt in
  b 0%nat + T * (b 1%nat + T * (b 2%nat + T * (b 3%nat + T * b 4%nat))) = pos3 h0 h1 dt x xdot c h d.
Proof.
  intros dt x xdot [[u v] w] d h Hdt. cbn [pos3 finish3]. cbv zeta.
  unfold S3, g3mpu, g3mpv, g3mpw, g3mqv, g3mqw, g3mrw. field. exact Hdt.
Qed.
Lemma finish3_vel : forall dt x xdot c d h, dt <> 0 ->
  let b k := finish3 h0 h1 dt x xdot c k d in let T := dt * h - dt in
  b 1%nat + T * (2 * b 2%nat + T * (3 * b 3%nat + T * 4 * b 4%nat)) = vel3 h0 h1 dt x xdot c h d.
Proof.
  intros dt x xdot [[u v] w] d h Hdt. cbn [vel3 finish3]. cbv zeta.
  unfold D3, g3mpu, g3mpv, g3mpw, g3mqv, g3mqw, g3mrw. field. exact Hdt.
Qed.
Lemma finish3_acc : forall dt x xdot c d h, dt <> 0 ->
  let b k := finish3 h0 h1 dt x xdot c k d in let T := dt * h - dt in
  2 * b 2%nat + T * (6 * b 3%nat + T * (12 * b 4%nat)) = acc3 h0 h1 c h d.
Proof.
  intros dt x xdot [[u v] w] d h Hdt. cbn [acc3 finish3]. cbv zeta.
  unfold W3, g3mpu, g3mpv, g3mpw, g3mqv, g3mqw, g3mrw. field. exact Hdt.
Qed.
(** the prediction: the second derivative of the previous interpolant *)
Lemma predict3_acc : forall dt p q r d h, acc3 h0 h1 (predict3 h0 h1 dt p q r) h d = 2 * p d + dt * h * (6 * q d + dt * h * (12 * r d)).
Proof. intros. cbn [predict3 acc3]. unfold W3. ring. Qed.
End G.

(** the final coefficients of the v-th vector *)
Definition coef3 (h0 h1 h2 : R) (N : nat) (ode : ode2) (n : nat) (dt : R) (s : sol2) (v : nat) : uvw :=
  let t := s_time s in let b k := blk 5 N (s_state s) v k in
  Nat.iter n (sweep3 h0 h1 h2 N (o_a ode (t + dt * h0)) (o_b ode (t + dt * h0)) (o_a ode (t + dt * h1)) (o_b ode (t + dt * h1))
                       (o_a ode (t + dt * h2)) (o_b ode (t + dt * h2)) dt (b 0%nat) (b 1%nat)) (predict3 h0 h1 dt (b 2%nat) (b 3%nat) (b 4%nat)).
Lemma step3_blk : forall h0 h1 h2 N nv ode n dt s v k d, (v < nv)%nat -> (k < 5)%nat -> (d < N)%nat ->
  blk 5 N (s_state (step3_ h0 h1 h2 N nv ode n dt s)) v k d =
  finish3 h0 h1 dt (blk 5 N (s_state s) v 0) (blk 5 N (s_state s) v 1) (coef3 h0 h1 h2 N ode n dt s v) k d.
Proof. intros. unfold step3_. cbn [s_state]. rewrite blk_store2 by assumption. reflexivity. Qed.

Lemma step3_pos : forall h0 h1 h2 N nv ode n dt s v d h, (v < nv)%nat -> (d < N)%nat -> dt <> 0 ->
  getSol3 N nv (step3_ h0 h1 h2 N nv ode n dt s) (s_time s + dt * h) (v * (2 * N) + d) =
  Some (pos3 h0 h1 dt (blk 5 N (s_state s) v 0) (blk 5 N (s_state s) v 1) (coef3 h0 h1 h2 N ode n dt s v) h d).
Proof.
  intros h0 h1 h2 N nv ode n dt s v d h Hv Hd Hdt. rewrite getSol3_pos by assumption. cbv beta zeta. rewrite !step3_blk by (assumption || lia).
  rewrite <- finish3_pos by assumption. cbv beta zeta. unfold step3_ at 1 2 3 4. cbn [s_time].
  replace (s_time s + dt * h - (s_time s + dt)) with (dt * h - dt) by ring. reflexivity.
Qed.
Lemma step3_vel : forall h0 h1 h2 N nv ode n dt s v d h, (v < nv)%nat -> (d < N)%nat -> dt <> 0 ->
  getSol3 N nv (step3_ h0 h1 h2 N nv ode n dt s) (s_time s + dt * h) (v * (2 * N) + (N + d)) =
  Some (vel3 h0 h1 dt (blk 5 N (s_state s) v 0) (blk 5 N (s_state s) v 1) (coef3 h0 h1 h2 N ode n dt s v) h d).
Proof.
  intros h0 h1 h2 N nv ode n dt s v d h Hv Hd Hdt. rewrite getSol3_vel by assumption. cbv beta zeta. rewrite !step3_blk by (assumption || lia).
  rewrite <- finish3_vel by assumption. cbv beta zeta. unfold step3_ at 1 2 3. cbn [s_time].
  replace (s_time s + dt * h - (s_time s + dt)) with (dt * h - dt) by ring. reflexivity.
Qed.
