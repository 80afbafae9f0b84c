From Coq Require Import Reals Lra Lia List Arith Bool.
From Coquelicot Require Import Coquelicot.
From Verif Require Import RandReal PolyModel PolyProofs OdeModel OdeProofs Ode2Model Ode2Spec Ode2Proofs Ode2Proofs2 Ode2Proofs3.
Import ListNotations.
Local Open Scope R_scope.

Definition W4 (h0 h1 h2 u v w z h : R) : R := u + (h - h0) * (v + (h - h1) * (w + (h - h2) * z)).
Definition D4 (h0 h1 h2 u v w z h : R) : R := h * u + (h ^ 2 / 2 - h0 * h) * v + (h ^ 3 / 3 - (h0 + h1) * h ^ 2 / 2 + h0 * h1 * h) * w
  + (h ^ 4 / 4 - (h0 + h1 + h2) * h ^ 3 / 3 + (h0 * h1 + h0 * h2 + h1 * h2) * h ^ 2 / 2 - h0 * h1 * h2 * h) * z.
Definition S4 (h0 h1 h2 u v w z h : R) : R := h ^ 2 / 2 * u + (h ^ 3 / 6 - h0 * h ^ 2 / 2) * v + (h ^ 4 / 12 - (h0 + h1) * h ^ 3 / 6 + h0 * h1 * h ^ 2 / 2) * w
  + (h ^ 5 / 20 - (h0 + h1 + h2) * h ^ 4 / 12 + (h0 * h1 + h0 * h2 + h1 * h2) * h ^ 3 / 6 - h0 * h1 * h2 * h ^ 2 / 2) * z.
Definition pos4 (h0 h1 h2 dt : R) (x xdot : vec) (c : uvwz) (h : R) : vec := let '(u, v, w, z) := c in fun d => x d + xdot d * dt * h + dt * dt * S4 h0 h1 h2 (u d) (v d) (w d) (z d) h.
Definition vel4 (h0 h1 h2 dt : R) (x xdot : vec) (c : uvwz) (h : R) : vec := let '(u, v, w, z) := c in fun d => xdot d + dt * D4 h0 h1 h2 (u d) (v d) (w d) (z d) h.
Definition acc4 (h0 h1 h2 : R) (c : uvwz) (h : R) : vec := let '(u, v, w, z) := c in fun d => W4 h0 h1 h2 (u d) (v d) (w d) (z d) h.

Section G.
Variables h0 h1 h2 h3 : R.
Let S := S4 h0 h1 h2.
Let D := D4 h0 h1 h2.
Lemma s4_0 : forall u v w z, g4su0 h0 * u + g4sv0 h0 * v + g4sw0 h0 h1 * w + g4sz0 h0 h1 h2 * z = S u v w z h0.
Proof. intros. unfold S, S4, g4sz0, g4sw0, g4sv0, g4su0. rewrite dec_5. field. Qed.
Lemma s4_1 : forall u v w z, g4su1 h1 * u + g4sv1 h0 h1 * v + g4sw1 h0 h1 * w + g4sz1 h0 h1 h2 * z = S u v w z h1.
Proof. intros. unfold S, S4, g4sz1, g4sw1, g4sv1, g4su1. rewrite dec_5. field. Qed.
Lemma s4_2 : forall u v w z, g4su2 h2 * u + g4sv2 h0 h2 * v + g4sw2 h0 h1 h2 * w + g4sz2 h0 h1 h2 * z = S u v w z h2.
Proof. intros. unfold S, S4, g4sz2, g4sw2, g4sv2, g4su2. rewrite dec_5. field. Qed.
Lemma s4_3 : forall u v w z, g4su3 h3 * u + g4sv3 h0 h3 * v + g4sw3 h0 h1 h3 * w + g4sz3 h0 h1 h2 h3 * z = S u v w z h3.
Proof. intros. unfold S, S4, g4sz3, g4sw3, g4sv3, g4su3. rewrite dec_5, dec_6. field. Qed.
Lemma d4_0 : forall u v w z, g4du0 h0 * u + g4dv0 h0 * v + g4dw0 h0 h1 * w + g4dz0 h0 h1 h2 * z = D u v w z h0.
Proof. intros. unfold D, D4, g4dz0, g4dw0, g4dv0, g4du0. field. Qed.
Lemma d4_1 : forall u v w z, g4du1 h1 * u + g4dv1 h0 h1 * v + g4dw1 h0 h1 * w + g4dz1 h0 h1 h2 * z = D u v w z h1.
Proof. intros. unfold D, D4, g4dz1, g4dw1, g4dv1, g4du1. field. Qed.
Lemma d4_2 : forall u v w z, g4du2 h2 * u + g4dv2 h0 h2 * v + g4dw2 h0 h1 h2 * w + g4dz2 h0 h1 h2 * z = D u v w z h2.
Proof. intros. unfold D, D4, g4dz2, g4dw2, g4dv2, g4du2. field. Qed.
Lemma d4_3 : forall u v w z, g4du3 h3 * u + g4dv3 h0 h3 * v + g4dw3 h0 h1 h3 * w + g4dz3 h0 h1 h2 h3 * z = D u v w z h3.
Proof. intros. unfold D, D4, g4dz3, g4dw3, g4dv3, g4du3. field. Qed.

(** one iteration: the equation is used at the four nodes in turn *)
Lemma sweep4_eq : forall N a0 b0 a1 b1 a2 b2 a3 b3 dt x xdot u v w z, h0 <> h1 -> h0 <> h2 -> h1 <> h2 -> h0 <> h3 -> h1 <> h3 -> h2 <> h3 ->
  exists u' v' w' z', sweep4 h0 h1 h2 h3 N a0 b0 a1 b1 a2 b2 a3 b3 dt x xdot (u, v, w, z) = (u', v', w', z') /\
    forall d,
    acc4 h0 h1 h2 (u', v', w', z') h0 d = rhs2 N a0 b0 (pos4 h0 h1 h2 dt x xdot (u, v, w, z) h0) (vel4 h0 h1 h2 dt x xdot (u, v, w, z) h0) d /\
    acc4 h0 h1 h2 (u', v', w', z') h1 d = rhs2 N a1 b1 (pos4 h0 h1 h2 dt x xdot (u', v, w, z) h1) (vel4 h0 h1 h2 dt x xdot (u', v, w, z) h1) d /\
    acc4 h0 h1 h2 (u', v', w', z') h2 d = rhs2 N a2 b2 (pos4 h0 h1 h2 dt x xdot (u', v', w, z) h2) (vel4 h0 h1 h2 dt x xdot (u', v', w, z) h2) d /\
    acc4 h0 h1 h2 (u', v', w', z') h3 d = rhs2 N a3 b3 (pos4 h0 h1 h2 dt x xdot (u', v', w', z) h3) (vel4 h0 h1 h2 dt x xdot (u', v', w', z) h3) d.
Proof.
  intros N a0 b0 a1 b1 a2 b2 a3 b3 dt x xdot u v w z H01 H02 H12 H03 H13 H23. unfold sweep4. cbv zeta. do 4 eexists. split; [reflexivity|].
  intros d. cbn [acc4].
  repeat split.
  - unfold W4. rewrite Rminus_diag_eq by reflexivity. rewrite Rmult_0_l, Rplus_0_r.
    apply rhs2_ext; intros j Hj; cbn [pos4 vel4]; [rewrite s4_0|rewrite d4_0]; unfold S, D; ring.
  - unfold W4, g4mvu.
    match goal with |- ?A + (h1 - h0) * ((?B - ?A) * (1 / (h1 - h0)) + (h1 - h1) * ?C) = _ => replace (A + (h1 - h0) * ((B - A) * (1 / (h1 - h0)) + (h1 - h1) * C)) with B by (field; lra) end.
    apply rhs2_ext; intros j Hj; cbn [pos4 vel4]; [rewrite s4_1|rewrite d4_1]; unfold S, D; ring.
  - unfold W4, g4mwu, g4mwv.
    match goal with |- ?A + (h2 - h0) * (?V + (h2 - h1) * ((?B - ?A) * (1 / (h2 - h0) / (h2 - h1)) - ?V * (1 / (h2 - h1)) + (h2 - h2) * ?C)) = _ =>
      replace (A + (h2 - h0) * (V + (h2 - h1) * ((B - A) * (1 / (h2 - h0) / (h2 - h1)) - V * (1 / (h2 - h1)) + (h2 - h2) * C))) with B by (field; lra) end.
    apply rhs2_ext; intros j Hj; cbn [pos4 vel4]; [rewrite s4_2|rewrite d4_2]; unfold S, D; ring.
  - unfold W4, g4mzu, g4mzv, g4mzw.
    match goal with |- ?A + (h3 - h0) * (?V + (h3 - h1) * (?W + (h3 - h2) * ((?B - ?A) * ?k1 - ?V * ?k2 - ?W * ?k3))) = _ =>
      replace (A + (h3 - h0) * (V + (h3 - h1) * (W + (h3 - h2) * ((B - A) * k1 - V * k2 - W * k3)))) with B by (field; lra) end.
    apply rhs2_ext; intros j Hj; cbn [pos4 vel4]; [rewrite s4_3|rewrite d4_3]; unfold S, D; ring.
Qed.

(** the interpolant after a step *)
Lemma finish4_pos : forall dt x xdot c d h, dt <> 0 ->
  let b k := finish4 h0 h1 h2 dt x xdot c k d in let T := dt * h - dt in
  b 0%nat + T * (b 1%nat + T * (b 2%nat + T * (b 3%nat + T * (b 4%nat + T * b 5%nat)))) = pos4 h0 h1 h2 dt x xdot c h d.
Proof.
  intros dt x xdot [[[u v] w] z] d h Hdt. cbn [pos4 finish4]. cbv zeta.
  unfold S4, g4mpu, g4mpv, g4mpw, g4mpz, g4mqv, g4mqw, g4mqz, g4mrw, g4mrz, g4msz. field. exact Hdt.
Qed.
Lemma finish4_vel : forall dt x xdot c d h, dt <> 0 ->
  let b k := finish4 h0 h1 h2 dt x xdot c k d in let T := dt * h - dt in
  b 1%nat + T * (2 * b 2%nat + T * (3 * b 3%nat + T * (4 * b 4%nat + T * (5 * b 5%nat)))) = vel4 h0 h1 h2 dt x xdot c h d.
Proof.
  intros dt x xdot [[[u v] w] z] d h Hdt. cbn [vel4 finish4]. cbv zeta.
  unfold D4, g4mpu, g4mpv, g4mpw, g4mpz, g4mqv, g4mqw, g4mqz, g4mrw, g4mrz, g4msz. field. exact Hdt.
Qed.
Lemma finish4_acc : forall dt x xdot c d h, dt <> 0 ->
  let b k := finish4 h0 h1 h2 dt x xdot c k d in let T := dt * h - dt in
  2 * b 2%nat + T * (6 * b 3%nat + T * (12 * b 4%nat + T * (20 * b 5%nat))) = acc4 h0 h1 h2 c h d.
Proof.
  intros dt x xdot [[[u v] w] z] d h Hdt. cbn [acc4 finish4]. cbv zeta.
  unfold W4, g4mpu, g4mpv, g4mpw, g4mpz, g4mqv, g4mqw, g4mqz, g4mrw, g4mrz, g4msz. field. exact Hdt.
Qed.
Lemma predict4_acc : forall dt p q r s d h, acc4 h0 h1 h2 (predict4 h0 h1 h2 dt p q r s) h d = 2 * p d + dt * h * (6 * q d + dt * h * (12 * r d + dt * h * (20 * s d))).
Proof. intros. cbn [predict4 acc4]. unfold W4. ring. Qed.
End G.

(** the final coefficients of the v-th vector *)
Definition coef4 (h0 h1 h2 h3 : R) (N : nat) (ode : ode2) (n : nat) (dt : R) (s : sol2) (v : nat) : uvwz :=
  let t := s_time s in let b k := blk 6 N (s_state s) v k in
  Nat.iter n (sweep4 h0 h1 h2 h3 N (o_a ode (t + dt * h0)) (o_b ode (t + dt * h0)) (o_a ode (t + dt * h1)) (o_b ode (t + dt * h1))
                       (o_a ode (t + dt * h2)) (o_b ode (t + dt * h2)) (o_a ode (t + dt * h3)) (o_b ode (t + dt * h3)) dt (b 0%nat) (b 1%nat)) (predict4 h0 h1 h2 dt (b 2%nat) (b 3%nat) (b 4%nat) (b 5%nat)).
Lemma step4_blk : forall h0 h1 h2 h3 N nv ode n dt s v k d, (v < nv)%nat -> (k < 6)%nat -> (d < N)%nat ->
  blk 6 N (s_state (step4_ h0 h1 h2 h3 N nv ode n dt s)) v k d =
  finish4 h0 h1 h2 dt (blk 6 N (s_state s) v 0) (blk 6 N (s_state s) v 1) (coef4 h0 h1 h2 h3 N ode n dt s v) k d.
Proof. intros. unfold step4_. cbn [s_state]. rewrite blk_store2 by assumption. reflexivity. Qed.

Lemma step4_pos : forall h0 h1 h2 h3 N nv ode n dt s v d h, (v < nv)%nat -> (d < N)%nat -> dt <> 0 ->
  getSol4 N nv (step4_ h0 h1 h2 h3 N nv ode n dt s) (s_time s + dt * h) (v * (2 * N) + d) =
  Some (pos4 h0 h1 h2 dt (blk 6 N (s_state s) v 0) (blk 6 N (s_state s) v 1) (coef4 h0 h1 h2 h3 N ode n dt s v) h d).
Proof.
  intros h0 h1 h2 h3 N nv ode n dt s v d h Hv Hd Hdt. rewrite getSol4_pos by assumption. cbv beta zeta. rewrite !step4_blk by (assumption || lia).
  rewrite <- finish4_pos by assumption. cbv beta zeta. unfold step4_ at 1 2 3 4 5. cbn [s_time].
  replace (s_time s + dt * h - (s_time s + dt)) with (dt * h - dt) by ring. reflexivity.
Qed.
(** the velocity at the beginning of the next step *)
Lemma step4_vel_end : forall h0 h1 h2 h3 N nv ode n dt s v d, (v < nv)%nat -> (d < N)%nat -> dt <> 0 ->
  getSol4 N nv (step4_ h0 h1 h2 h3 N nv ode n dt s) (s_time s + dt) (v * (2 * N) + (N + d)) =
  Some (vel4 h0 h1 h2 dt (blk 6 N (s_state s) v 0) (blk 6 N (s_state s) v 1) (coef4 h0 h1 h2 h3 N ode n dt s v) 1 d).
Proof.
  intros h0 h1 h2 h3 N nv ode n dt s v d Hv Hd Hdt. rewrite getSol4_vel by assumption. cbv beta zeta. rewrite !step4_blk by (assumption || lia).
  rewrite <- finish4_vel by assumption. cbv beta zeta. unfold step4_ at 1 2 3 4. cbn [s_time].
  replace (s_time s + dt - (s_time s + dt)) with 0 by ring. replace (dt * 1 - dt) with 0 by ring. f_equal. ring.
Qed.
(** what getSol returns for the velocity inside the step: the coefficient of the last term is 20 rather than 5 *)
Lemma step4_vel : forall h0 h1 h2 h3 N nv ode n dt s v d h, (v < nv)%nat -> (d < N)%nat -> dt <> 0 ->
  getSol4 N nv (step4_ h0 h1 h2 h3 N nv ode n dt s) (s_time s + dt * h) (v * (2 * N) + (N + d)) =
  Some (vel4 h0 h1 h2 dt (blk 6 N (s_state s) v 0) (blk 6 N (s_state s) v 1) (coef4 h0 h1 h2 h3 N ode n dt s v) h d
        + 3 / 4 * dt * (1 - h) ^ 4 * (let '(_, _, _, z) := coef4 h0 h1 h2 h3 N ode n dt s v in z d)).
Proof.
  intros h0 h1 h2 h3 N nv ode n dt s v d h Hv Hd Hdt. rewrite getSol4_vel by assumption. cbv beta zeta. rewrite !step4_blk by (assumption || lia).
  rewrite <- finish4_vel by assumption. cbv beta zeta. unfold step4_ at 1 2 3 4. cbn [s_time].
  replace (s_time s + dt * h - (s_time s + dt)) with (dt * h - dt) by ring. f_equal.
  destruct (coef4 h0 h1 h2 h3 N ode n dt s v) as [[[u' v'] w'] z']. cbn [finish4]. cbv zeta. unfold g4msz. field. exact Hdt.
Qed.
