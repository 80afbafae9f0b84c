From Coq Require Import Reals Lra Lia List Arith Bool.
From Coquelicot Require Import Coquelicot.
From Verif Require Import RandReal PolyModel PolyProofs OdeModel OdeProofs Ode2Model Ode2Spec Ode2Proofs Ode2Proofs2 Ode2Proofs3 Ode2Proofs4 Banach.
Import ListNotations.
Local Open Scope R_scope.

(** a sequence of timesteps *)
Definition run3 (N nv : nat) (ode : ode2) (dts : list R) (s : sol2) : sol2 := fold_left (fun s dt => doStep3 N nv ode dt s) dts s.

Lemma doStep3_coef : forall N ode n dt s v, coef3 G3h0 G3h1 G3h2 N ode n dt s v =
  Nat.iter n (sw3 N ode (s_time s) dt (blk 5 N (s_state s) v 0) (blk 5 N (s_state s) v 1)) (predict3 G3h0 G3h1 dt (blk 5 N (s_state s) v 2) (blk 5 N (s_state s) v 3) (blk 5 N (s_state s) v 4)).
Proof. reflexivity. Qed.

(** the previous solution at the beginning of the step *)
Lemma continuity3 : forall N nv ode dt s i, (0 < N)%nat -> dt <> 0 -> getSol3 N nv (doStep3 N nv ode dt s) (s_time s) i = getSol3 N nv s (s_time s) i.
Proof.
  intros N nv ode dt s i HN Hdt. destruct (Nat.lt_ge_cases i (nv * (2 * N))) as [Hi|Hi]; [|now rewrite (proj1 (getSol_out nv N _ _ i HN Hi)), (proj1 (getSol_out nv N s _ i HN Hi))].
  set (v := (i / (2 * N))%nat). assert (Hv : (v < nv)%nat) by (apply Nat.div_lt_upper_bound; lia).
  assert (Ei : i = (v * (2 * N) + i mod (2 * N))%nat) by (rewrite Nat.mul_comm; apply Nat.div_mod; lia).
  assert (Hm := Nat.mod_upper_bound i (2 * N) ltac:(lia)). set (j := (i mod (2 * N))%nat) in *. clearbody j v. subst i.
  replace (s_time s) with (s_time s + dt * 0) at 1 by ring. unfold doStep3.
  destruct (Nat.lt_ge_cases j N) as [Hj|Hj].
  - rewrite step3_pos by assumption. rewrite pos3_start. rewrite getSol3_pos by assumption. cbv beta zeta. f_equal. ring.
  - replace j with (N + (j - N))%nat by lia. rewrite step3_vel by (assumption || lia). rewrite vel3_start. rewrite getSol3_vel by (assumption || lia). cbv beta zeta. f_equal. ring.
Qed.

(** the velocity is the derivative of the position, in any state *)
Lemma velocity3 : forall N nv s v d, (v < nv)%nat -> (d < N)%nat -> exists X V, 
  (forall t, getSol3 N nv s t (v * (2 * N) + d) = Some (X t)) /\ (forall t, getSol3 N nv s t (v * (2 * N) + (N + d)) = Some (V t)) /\ (forall t, is_derive X t (V t)).
Proof.
  intros N nv s v d Hv Hd. eexists. eexists. split; [intros t; apply getSol3_pos; assumption|]. split; [intros t; apply getSol3_vel; assumption|].
  intros t. cbv beta zeta. auto_derive; [auto|]. ring.
Qed.

(** the second derivative of the interpolant *)
Lemma accel3 : forall N nv s v d Y V W, (v < nv)%nat -> (d < N)%nat -> motion Y V W -> (forall t, getSol3 N nv s t (v * (2 * N) + d) = Some (Y t)) ->
  forall t, W t = 2 * blk 5 N (s_state s) v 2 d + (t - s_time s) * (6 * blk 5 N (s_state s) v 3 d + (t - s_time s) * (12 * blk 5 N (s_state s) v 4 d)).
Proof.
  intros N nv s v d Y V W Hv Hd (HY & HV) Hg. set (b k := blk 5 N (s_state s) v k d).
  assert (EY : forall t, Y t = let T := t - s_time s in b 0%nat + T * (b 1%nat + T * (b 2%nat + T * (b 3%nat + T * b 4%nat)))).
  { intros t. specialize (Hg t). rewrite getSol3_pos in Hg by assumption. now inversion Hg. }
  cbv zeta in EY.
  assert (EV : forall t, V t = b 1%nat + (t - s_time s) * (2 * b 2%nat + (t - s_time s) * (3 * b 3%nat + (t - s_time s) * (4 * b 4%nat)))).
  { intros t. apply (is_derive_unique Y t) in HY as <-. rewrite (Derive_ext Y _ t EY). apply is_derive_unique. auto_derive; [auto|]. ring. }
  intros t. apply (is_derive_unique V t) in HV as <-. rewrite (Derive_ext V _ t EV). apply is_derive_unique. auto_derive; [auto|]. unfold b. ring.
Qed.

Lemma predict_near3 : forall N nv s v dt c M, (v < nv)%nat -> 0 <= M ->
  (forall d, (d < N)%nat -> exists Y V W, motion Y V W /\ (forall t, getSol3 N nv s t (v * (2 * N) + d) = Some (Y t)) /\
     forall h, In h nodes3 -> Rabs (W (s_time s + dt * h) - acc3 G3h0 G3h1 c h d) <= M) ->
  dist3 N (predict3 G3h0 G3h1 dt (blk 5 N (s_state s) v 2) (blk 5 N (s_state s) v 3) (blk 5 N (s_state s) v 4)) c (14 * M).
Proof.
  intros N nv s v dt c M Hv HM H.
  assert (K : forall d h, (d < N)%nat -> In h nodes3 -> Rabs (acc3 G3h0 G3h1 (predict3 G3h0 G3h1 dt (blk 5 N (s_state s) v 2) (blk 5 N (s_state s) v 3) (blk 5 N (s_state s) v 4)) h d - acc3 G3h0 G3h1 c h d) <= M).
  { intros d h Hd Hh. destruct (H d Hd) as (Y & V & W & Hm & Hg & Hb). rewrite predict3_acc.
    specialize (Hb h Hh). rewrite (accel3 N nv s v d Y V W Hv Hd Hm Hg) in Hb. replace (s_time s + dt * h - s_time s) with (dt * h) in Hb by ring. exact Hb. }
  destruct c as [[u v'] w]. unfold predict3 in *. cbv zeta in *. cbn [dist3 acc3] in *. intros d Hd.
  apply W3_bound; rewrite <- W3_sub; apply K; auto; unfold nodes3; simpl; auto.
Qed.

(** the solution after the step, compared with a collocation solution *)
Lemma step3_near : forall N nv ode dt s v c E, (v < nv)%nat -> dt <> 0 -> 0 <= E ->
  dist3 N (coef3 G3h0 G3h1 G3h2 N ode (numIter3 (s_new s)) dt s v) c E ->
  forall d h, (d < N)%nat -> 0 <= h <= 1 ->
  (exists y, getSol3 N nv (doStep3 N nv ode dt s) (s_time s + dt * h) (v * (2 * N) + d) = Some y /\ Rabs (y - pos3 G3h0 G3h1 dt (blk 5 N (s_state s) v 0) (blk 5 N (s_state s) v 1) c h d) <= dt * dt * E) /\
  (exists y, getSol3 N nv (doStep3 N nv ode dt s) (s_time s + dt * h) (v * (2 * N) + (N + d)) = Some y /\ Rabs (y - vel3 G3h0 G3h1 dt (blk 5 N (s_state s) v 0) (blk 5 N (s_state s) v 1) c h d) <= Rabs dt * (2 * E)).
Proof.
  intros N nv ode dt s v c E Hv Hdt HE Hc d h Hd Hh. unfold doStep3.
  rewrite step3_pos, step3_vel by assumption.
  set (cc := coef3 _ _ _ _ _ _ _ _ _) in *. destruct cc as [[u1 v1] w1]. destruct c as [[u2 v2] w2]. cbn [dist3] in Hc. destruct (Hc d Hd) as (A & B & C).
  split; eexists; (split; [reflexivity|]); [apply pos3_diff, bS3_in|apply vel3_diff, bD3_in]; try apply abs_pair; assumption.
Qed.

Theorem collocation3 : forall N nv ode dt s v al be, (v < nv)%nat -> dt <> 0 -> 0 <= al -> 0 <= be ->
  (forall h, In h nodes3 -> rows_le N (o_a ode (s_time s + dt * h)) al /\ rows_le N (o_b ode (s_time s + dt * h)) be) ->
  let k := 10 * (dt * dt * al + Rabs dt * be) in k < 1 ->
  let x0 d := blk 5 N (s_state s) v 0 d in let v0 d := blk 5 N (s_state s) v 1 d in
  (exists X V W, collocation N (o_a ode) (o_b ode) nodes3 (s_time s) dt x0 v0 X V W) /\
  forall X V W, collocation N (o_a ode) (o_b ode) nodes3 (s_time s) dt x0 v0 X V W ->
  forall M, 0 <= M ->
  (forall d, (d < N)%nat -> exists Y0 V0 W0, motion Y0 V0 W0 /\ (forall t, getSol3 N nv s t (v * (2 * N) + d) = Some (Y0 t)) /\
     forall h, In h nodes3 -> Rabs (W0 (s_time s + dt * h) - W d (s_time s + dt * h)) <= M) ->
  forall d h, (d < N)%nat -> 0 <= h <= 1 ->
  (exists y, getSol3 N nv (doStep3 N nv ode dt s) (s_time s + dt * h) (v * (2 * N) + d) = Some y /\ Rabs (y - X d (s_time s + dt * h)) <= 14 * M * dt * dt * k ^ numIter3 (s_new s)) /\
  (exists y, getSol3 N nv (doStep3 N nv ode dt s) (s_time s + dt * h) (v * (2 * N) + (N + d)) = Some y /\ Rabs (y - V d (s_time s + dt * h)) <= 28 * M * Rabs dt * k ^ numIter3 (s_new s)).
Proof.
  intros N nv ode dt s v al be Hv Hdt Hal Hbe Hm k Hk x0 v0.
  assert (C0 : 0 <= dt * dt * al + Rabs dt * be). { assert (0 <= Rabs dt * be) by (apply Rmult_le_pos; auto using Rabs_pos). assert (0 <= dt * dt * al) by (apply Rmult_le_pos; [nra|auto]). lra. }
  split.
  - destruct (fix_exists3 N ode (s_time s) dt x0 v0 al be Hm C0 Hk) as (f & Hf). do 3 eexists. apply fix_colloc3; eassumption.
  - intros X V W Hc M HM Hp d h Hd Hh. destruct (colloc_fix3 N ode (s_time s) dt x0 v0 X V W Hdt Hc) as (c & Hf & HE).
    assert (P : dist3 N (predict3 G3h0 G3h1 dt (blk 5 N (s_state s) v 2) (blk 5 N (s_state s) v 3) (blk 5 N (s_state s) v 4)) c (14 * M)).
    { apply (predict_near3 N nv); auto. intros d' Hd'. destruct (Hp d' Hd') as (Y0 & V0 & W0 & A & B & C). exists Y0, V0, W0. split; [exact A|split; [exact B|]].
      intros h' Hh'. destruct (HE d' h' Hd') as (_ & _ & <-). auto. }
    pose proof (iter_fix3 N ode (s_time s) dt x0 v0 al be Hm C0 ltac:(unfold k in Hk; lra) (numIter3 (s_new s)) _ c (14 * M) ltac:(lra) P Hf) as Q. fold k in Q.
    destruct (HE d h Hd) as (E1 & E2 & _). rewrite E1, E2.
    assert (0 <= k ^ numIter3 (s_new s)) by (apply pow_le; unfold k; lra).
    destruct (step3_near N nv ode dt s v c (k ^ numIter3 (s_new s) * (14 * M)) Hv Hdt ltac:(apply Rmult_le_pos; lra) Q d h Hd Hh) as ((y1 & G1 & B1) & (y2 & G2 & B2)).
    split; [exists y1|exists y2]; (split; [assumption|]).
    + eapply Rle_trans; [exact B1|]. right. ring.
    + eapply Rle_trans; [exact B2|]. right. ring.
Qed.

(** uniqueness *)
Theorem collocation3_unique : forall N ode t0 dt x0 v0 al be, dt <> 0 -> 0 <= al -> 0 <= be ->
  (forall h, In h nodes3 -> rows_le N (o_a ode (t0 + dt * h)) al /\ rows_le N (o_b ode (t0 + dt * h)) be) ->
  10 * (dt * dt * al + Rabs dt * be) < 1 ->
  forall X V W X' V' W', collocation N (o_a ode) (o_b ode) nodes3 t0 dt x0 v0 X V W -> collocation N (o_a ode) (o_b ode) nodes3 t0 dt x0 v0 X' V' W' ->
  forall d t, (d < N)%nat -> X d t = X' d t /\ V d t = V' d t.
Proof.
  intros N ode t0 dt x0 v0 al be Hdt Hal Hbe Hm Hk X V W X' V' W' H H' d t Hd.
  assert (C0 : 0 <= dt * dt * al + Rabs dt * be). { assert (0 <= Rabs dt * be) by (apply Rmult_le_pos; auto using Rabs_pos). assert (0 <= dt * dt * al) by (apply Rmult_le_pos; [nra|auto]). lra. }
  destruct (colloc_fix3 _ _ _ _ _ _ _ _ _ Hdt H) as (c & Hf & HE). destruct (colloc_fix3 _ _ _ _ _ _ _ _ _ Hdt H') as (c' & Hf' & HE').
  assert (Z : exists E, 0 <= E /\ dist3 N c c' E).
  { destruct c as [[u v] w], c' as [[u' v'] w']. destruct (near_ex N u u') as (E1 & P1 & Q1). destruct (near_ex N v v') as (E2 & P2 & Q2). destruct (near_ex N w w') as (E3 & P3 & Q3).
    exists (E1 + E2 + E3). split; [lra|]. cbn [dist3]. intros j Hj. specialize (Q1 j Hj). specialize (Q2 j Hj). specialize (Q3 j Hj). lra. }
  destruct Z as (E & PE & HD).
  set (k := 10 * (dt * dt * al + Rabs dt * be)) in *.
  assert (Zn : forall n, dist3 N c c' (k ^ n * E)).
  { induction n; [now rewrite pow_O, Rmult_1_l|].
    replace (k ^ S n * E) with (0 + (k ^ 1 * (k ^ n * E) + 0)) by (simpl; ring).
    eapply dist3_trans; [apply dist3_sym; exact Hf|]. eapply dist3_trans; [|exact Hf'].
    apply (iter_contr3 N ode t0 dt x0 v0 al be Hm C0 ltac:(unfold k in Hk; lra) 1); [|exact IHn]. apply Rmult_le_pos; [apply pow_le; unfold k; lra|exact PE]. }
  assert (Z0 : dist3 N c c' 0).
  { assert (A : forall x, 0 <= x -> (forall n, x <= k ^ n * E) -> x <= 0).
    { intros x Hx Hn. destruct (Rle_or_lt x 0) as [G|G]; [exact G|]. destruct (geo_small k ltac:(unfold k in *; lra) E x PE G) as (n & Gn). specialize (Hn n). lra. }
    destruct c as [[u v] w], c' as [[u' v'] w']. cbn [dist3] in *. intros j Hj. repeat split; (apply A; [apply Rabs_pos|]; intros n; apply (Zn n j Hj)). }
  set (h := (t - t0) / dt). assert (Et : t = t0 + dt * h) by (unfold h; field; exact Hdt). rewrite Et.
  destruct (HE d h Hd) as (-> & -> & _). destruct (HE' d h Hd) as (-> & -> & _).
  destruct c as [[u v] w], c' as [[u' v'] w']. cbn [dist3] in Z0. destruct (Z0 d Hd) as (A & B & C). apply abs_pair in A, B, C. cbn [pos3 vel3].
  replace (u d) with (u' d) by lra. replace (v d) with (v' d) by lra. replace (w d) with (w' d) by lra. auto.
Qed.

(** ** exactness *)
Lemma sweep3_ext : forall N a0 b0 a1 b1 a2 b2 dt x xdot c c', dist3 N c c' 0 ->
  dist3 N (sweep3 G3h0 G3h1 G3h2 N a0 b0 a1 b1 a2 b2 dt x xdot c) (sweep3 G3h0 G3h1 G3h2 N a0 b0 a1 b1 a2 b2 dt x xdot c') 0.
Proof.
  intros N a0 b0 a1 b1 a2 b2 dt x xdot [[u v] w] [[u' v'] w'] Hc. cbn [dist3] in Hc.
  assert (Z : forall a b : R, Rabs (a - b) <= 0 -> a = b). { intros a b Hab. apply abs_pair in Hab. lra. }
  assert (Zu : forall j, (j < N)%nat -> u j = u' j) by (intros j Hj; apply Z, (Hc j Hj)). assert (Zv : forall j, (j < N)%nat -> v j = v' j) by (intros j Hj; apply Z, (Hc j Hj)).
  assert (Zw : forall j, (j < N)%nat -> w j = w' j) by (intros j Hj; apply Z, (Hc j Hj)).
  destruct (sweep3_eq G3h0 G3h1 G3h2 N a0 b0 a1 b1 a2 b2 dt x xdot u v w n01 n02 n12) as (u1 & v1 & w1 & E1 & F1).
  destruct (sweep3_eq G3h0 G3h1 G3h2 N a0 b0 a1 b1 a2 b2 dt x xdot u' v' w' n01 n02 n12) as (u2 & v2 & w2 & E2 & F2).
  rewrite E1, E2. cbn [dist3].
  assert (U : forall d, (d < N)%nat -> u1 d = u2 d).
  { intros d Hd. destruct (F1 d) as (G1 & _). destruct (F2 d) as (G2 & _). rewrite (rhs2_ext N a0 b0 _ _ (pos3 G3h0 G3h1 dt x xdot (u', v', w') G3h0) (vel3 G3h0 G3h1 dt x xdot (u', v', w') G3h0)) in G1
      by (intros j Hj; cbn [pos3 vel3]; now rewrite Zu, Zv, Zw). rewrite <- G2 in G1. cbn [acc3] in G1. unfold W3 in G1. lra. }
  assert (V : forall d, (d < N)%nat -> v1 d = v2 d).
  { intros d Hd. destruct (F1 d) as (_ & G1 & _). destruct (F2 d) as (_ & G2 & _). rewrite (rhs2_ext N a1 b1 _ _ (pos3 G3h0 G3h1 dt x xdot (u2, v', w') G3h1) (vel3 G3h0 G3h1 dt x xdot (u2, v', w') G3h1)) in G1
      by (intros j Hj; cbn [pos3 vel3]; now rewrite U, Zv, Zw). rewrite <- G2 in G1. cbn [acc3] in G1. rewrite U in G1 by assumption. unfold W3, G3h1, G3h0 in G1. lra. }
  assert (W : forall d, (d < N)%nat -> w1 d = w2 d).
  { intros d Hd. destruct (F1 d) as (_ & _ & G1). destruct (F2 d) as (_ & _ & G2). rewrite (rhs2_ext N a2 b2 _ _ (pos3 G3h0 G3h1 dt x xdot (u2, v2, w') G3h2) (vel3 G3h0 G3h1 dt x xdot (u2, v2, w') G3h2)) in G1
      by (intros j Hj; cbn [pos3 vel3]; now rewrite U, V, Zw). rewrite <- G2 in G1. cbn [acc3] in G1. rewrite U, V in G1 by assumption. unfold W3, G3h2, G3h1, G3h0 in G1. lra. }
  intros d Hd. rewrite U, V, W by assumption. rewrite !Rminus_eq_0, Rabs_R0. lra.
Qed.
Lemma iter_exact3 : forall N ode t0 dt x xdot n c f, dist3 N c f 0 -> dist3 N (sw3 N ode t0 dt x xdot f) f 0 -> dist3 N (Nat.iter n (sw3 N ode t0 dt x xdot) c) f 0.
Proof.
  intros N ode t0 dt x xdot n c f H Hf. induction n; [exact H|]. simpl Nat.iter. replace 0 with (0 + 0) by ring. eapply dist3_trans; [|exact Hf]. now apply sweep3_ext.
Qed.

(** the solver follows the exact motion X: all its coefficients are those of X *)
Definition follows3 (N nv : nat) (s : sol2) (v : nat) (X V : nat -> R -> R) : Prop :=
  forall d t, (d < N)%nat -> getSol3 N nv s t (v * (2 * N) + d) = Some (X d t) /\ getSol3 N nv s t (v * (2 * N) + (N + d)) = Some (V d t).
Lemma exact_step3 : forall N nv ode dt s v X V W, (v < nv)%nat -> dt <> 0 ->
  (forall d, (d < N)%nat -> motion (X d) (V d) (W d) /\ poly_deg 2 (W d)) ->
  (forall h, In h nodes3 -> satisfies N (o_a ode) (o_b ode) X V W (s_time s + dt * h)) ->
  follows3 N nv s v X V -> follows3 N nv (doStep3 N nv ode dt s) v X V.
Proof.
  intros N nv ode dt s v X V W Hv Hdt Hm Hs Hfo.
  set (x0 := blk 5 N (s_state s) v 0). set (v0 := blk 5 N (s_state s) v 1).
  assert (I : forall d, (d < N)%nat -> X d (s_time s) = x0 d /\ V d (s_time s) = v0 d).
  { intros d Hd. destruct (Hfo d (s_time s) Hd) as (A & B). rewrite getSol3_pos in A by assumption. rewrite getSol3_vel in B by assumption. cbv beta zeta in A, B.
    injection A as A. injection B as B. rewrite <- A, <- B. unfold x0, v0. split; ring. }
  assert (HC : collocation N (o_a ode) (o_b ode) nodes3 (s_time s) dt x0 v0 X V W).
  { split; [|exact Hs]. intros d Hd. destruct (Hm d Hd) as (A & B). destruct (I d Hd). repeat split; try apply A; auto. }
  destruct (colloc_fix3 N ode (s_time s) dt x0 v0 X V W Hdt HC) as (c & Hf & HE).
  assert (P : dist3 N (predict3 G3h0 G3h1 dt (blk 5 N (s_state s) v 2) (blk 5 N (s_state s) v 3) (blk 5 N (s_state s) v 4)) c 0).
  { replace 0 with (14 * 0) by ring. apply (predict_near3 N nv); auto; [lra|]. intros d Hd. exists (X d), (V d), (W d). split; [apply (Hm d Hd)|]. split; [intros t; apply (Hfo d t Hd)|].
    intros h Hh. destruct (HE d h Hd) as (_ & _ & <-). rewrite Rminus_eq_0, Rabs_R0. lra. }
  assert (Q : dist3 N (coef3 G3h0 G3h1 G3h2 N ode (numIter3 (s_new s)) dt s v) c 0) by (rewrite doStep3_coef; now apply iter_exact3).
  intros d t Hd. set (h := (t - s_time s) / dt). assert (Et : t = s_time s + dt * h) by (unfold h; field; exact Hdt). rewrite Et. unfold doStep3. rewrite step3_pos, step3_vel by assumption.
  destruct (HE d h Hd) as (-> & -> & _).
  set (cc := coef3 _ _ _ _ _ _ _ _ _) in *. destruct cc as [[u1 v1] w1]. destruct c as [[u2 v2] w2]. cbn [dist3] in Q. destruct (Q d Hd) as (A & B & C). apply abs_pair in A, B, C.
  cbn [pos3 vel3]. fold x0 v0. replace (u1 d) with (u2 d) by lra. replace (v1 d) with (v2 d) by lra. replace (w1 d) with (w2 d) by lra. auto.
Qed.
Lemma exact_run3 : forall N nv ode v X V W, (v < nv)%nat -> 
  (forall d, (d < N)%nat -> motion (X d) (V d) (W d) /\ poly_deg 2 (W d)) ->
  (forall t, satisfies N (o_a ode) (o_b ode) X V W t) ->
  forall dts s, Forall (fun dt => dt <> 0) dts -> follows3 N nv s v X V -> follows3 N nv (run3 N nv ode dts s) v X V.
Proof.
  intros N nv ode v X V W Hv Hm Hs. induction dts as [|dt dts IH]; intros s Hd Hf; [exact Hf|]. inversion Hd; subst. cbn [run3 fold_left]. apply IH; [assumption|].
  eapply exact_step3; eauto.
Qed.
Lemma init3_sol : forall N nv st t0 s v d t, (v < nv)%nat -> (d < N)%nat ->
  let s' := init2 5 N nv st t0 s in
  getSol3 N nv s' t (v * (2 * N) + d) = Some (st (v * (2 * N) + d)%nat + (t - s_time s') * st (v * (2 * N) + (N + d))%nat) /\
  getSol3 N nv s' t (v * (2 * N) + (N + d)) = Some (st (v * (2 * N) + (N + d))%nat).
Proof.
  intros N nv st t0 s v d t Hv Hd s'. rewrite getSol3_pos, getSol3_vel by assumption. cbv beta zeta. unfold s'. rewrite !blk_init2 by (assumption || lia).
  cbn [Nat.ltb Nat.leb]. replace (v * (2 * N) + 0 * N + d)%nat with (v * (2 * N) + d)%nat by lia. replace (v * (2 * N) + 1 * N + d)%nat with (v * (2 * N) + (N + d))%nat by lia.
  split; f_equal; ring.
Qed.

(** ** linearity *)
Definition lin3 (N : nat) (l m : R) (a b c : uvw) : Prop := let '(u, v, w) := a in let '(u', v', w') := b in let '(u'', v'', w'') := c in
  forall d, (d < N)%nat -> u d = l * u' d + m * u'' d /\ v d = l * v' d + m * v'' d /\ w d = l * w' d + m * w'' d.
Lemma rhs2_lin_on : forall N a b l m x d x' d' x'' d'' i, (forall j, (j < N)%nat -> x j = l * x' j + m * x'' j) -> (forall j, (j < N)%nat -> d j = l * d' j + m * d'' j) ->
  rhs2 N a b x d i = l * rhs2 N a b x' d' i + m * rhs2 N a b x'' d'' i.
Proof. intros. rewrite <- rhs2_lin. apply rhs2_ext; assumption. Qed.
Lemma sweep3_lin : forall N a0 b0 a1 b1 a2 b2 dt l m x y x' y' x'' y'' c c' c'',
  (forall j, (j < N)%nat -> x j = l * x' j + m * x'' j) -> (forall j, (j < N)%nat -> y j = l * y' j + m * y'' j) -> lin3 N l m c c' c'' ->
  lin3 N l m (sweep3 G3h0 G3h1 G3h2 N a0 b0 a1 b1 a2 b2 dt x y c) (sweep3 G3h0 G3h1 G3h2 N a0 b0 a1 b1 a2 b2 dt x' y' c') (sweep3 G3h0 G3h1 G3h2 N a0 b0 a1 b1 a2 b2 dt x'' y'' c'').
Proof.
  intros N a0 b0 a1 b1 a2 b2 dt l m x y x' y' x'' y'' [[u v] w] [[u' v'] w'] [[u'' v''] w''] Hx Hy Hc. cbn [lin3] in Hc.
  destruct (sweep3_eq G3h0 G3h1 G3h2 N a0 b0 a1 b1 a2 b2 dt x y u v w n01 n02 n12) as (u1 & v1 & w1 & E1 & F1).
  destruct (sweep3_eq G3h0 G3h1 G3h2 N a0 b0 a1 b1 a2 b2 dt x' y' u' v' w' n01 n02 n12) as (u2 & v2 & w2 & E2 & F2).
  destruct (sweep3_eq G3h0 G3h1 G3h2 N a0 b0 a1 b1 a2 b2 dt x'' y'' u'' v'' w'' n01 n02 n12) as (u3 & v3 & w3 & E3 & F3).
  rewrite E1, E2, E3. cbn [lin3]. clear E1 E2 E3.
  assert (HU : forall j, (j < N)%nat -> u1 j = l * u2 j + m * u3 j).
  { intros j Hj. destruct (F1 j) as (G1 & _). destruct (F2 j) as (G2 & _). destruct (F3 j) as (G3 & _).
    erewrite rhs2_lin_on with (l := l) (m := m) in G1; [rewrite <- G2, <- G3 in G1| |].
    { cbn [acc3] in G1. unfold W3, G3h0, G3h1 in G1. lra. }
    all: intros i Hi; destruct (Hc i Hi) as (C1 & C2 & C3); cbn [pos3 vel3]; rewrite C1, C2, C3, ?(Hx i Hi), (Hy i Hi); unfold S3, D3; field. }
  assert (HV : forall j, (j < N)%nat -> v1 j = l * v2 j + m * v3 j).
  { intros j Hj. destruct (F1 j) as (_ & G1 & _). destruct (F2 j) as (_ & G2 & _). destruct (F3 j) as (_ & G3 & _).
    erewrite rhs2_lin_on with (l := l) (m := m) in G1; [rewrite <- G2, <- G3 in G1| |].
    { cbn [acc3] in G1. rewrite (HU j Hj) in G1. unfold W3, G3h0, G3h1 in G1. lra. }
    all: intros i Hi; destruct (Hc i Hi) as (_ & C2 & C3); cbn [pos3 vel3]; rewrite (HU i Hi), C2, C3, ?(Hx i Hi), (Hy i Hi); unfold S3, D3; field. }
  assert (HW : forall j, (j < N)%nat -> w1 j = l * w2 j + m * w3 j).
  { intros j Hj. destruct (F1 j) as (_ & _ & G1). destruct (F2 j) as (_ & _ & G2). destruct (F3 j) as (_ & _ & G3).
    erewrite rhs2_lin_on with (l := l) (m := m) in G1; [rewrite <- G2, <- G3 in G1| |].
    { cbn [acc3] in G1. rewrite (HU j Hj), (HV j Hj) in G1. unfold W3, G3h2, G3h0, G3h1 in G1. lra. }
    all: intros i Hi; destruct (Hc i Hi) as (_ & _ & C3); cbn [pos3 vel3]; rewrite (HU i Hi), (HV i Hi), C3, ?(Hx i Hi), (Hy i Hi); unfold S3, D3; field. }
  intros d Hd. auto.
Qed.
Lemma iter_lin3 : forall N ode t0 dt l m x y x' y' x'' y'' n c c' c'',
  (forall j, (j < N)%nat -> x j = l * x' j + m * x'' j) -> (forall j, (j < N)%nat -> y j = l * y' j + m * y'' j) -> lin3 N l m c c' c'' ->
  lin3 N l m (Nat.iter n (sw3 N ode t0 dt x y) c) (Nat.iter n (sw3 N ode t0 dt x' y') c') (Nat.iter n (sw3 N ode t0 dt x'' y'') c'').
Proof. intros N ode t0 dt l m x y x' y' x'' y'' n c c' c'' Hx Hy Hc. induction n; [exact Hc|]. simpl Nat.iter. now apply sweep3_lin. Qed.

(** three solvers (not necessarily with the same number of vectors) *)
Definition rel2 (nb N : nat) (l m : R) (sA sB sC : sol2) (vA vB vC : nat) : Prop :=
  s_time sB = s_time sA /\ s_time sC = s_time sA /\ s_new sB = s_new sA /\ s_new sC = s_new sA /\
  forall k d, (k < nb)%nat -> (d < N)%nat -> blk nb N (s_state sA) vA k d = l * blk nb N (s_state sB) vB k d + m * blk nb N (s_state sC) vC k d.
Lemma step_lin3 : forall N ode dt l m nA nB nC vA vB vC sA sB sC, (vA < nA)%nat -> (vB < nB)%nat -> (vC < nC)%nat -> dt <> 0 ->
  rel2 5 N l m sA sB sC vA vB vC -> rel2 5 N l m (doStep3 N nA ode dt sA) (doStep3 N nB ode dt sB) (doStep3 N nC ode dt sC) vA vB vC.
Proof.
  intros N ode dt l m nA nB nC vA vB vC sA sB sC HA HB HC Hdt (T1 & T2 & N1 & N2 & H). unfold doStep3.
  repeat split; try (unfold step3_; cbn [s_time s_new]; congruence).
  intros k d Hk Hd. rewrite !step3_blk by assumption. rewrite N1, N2, !doStep3_coef, T1, T2.
  assert (L := iter_lin3 N ode (s_time sA) dt l m (blk 5 N (s_state sA) vA 0) (blk 5 N (s_state sA) vA 1) (blk 5 N (s_state sB) vB 0) (blk 5 N (s_state sB) vB 1) (blk 5 N (s_state sC) vC 0) (blk 5 N (s_state sC) vC 1)
    (numIter3 (s_new sA)) (predict3 G3h0 G3h1 dt (blk 5 N (s_state sA) vA 2) (blk 5 N (s_state sA) vA 3) (blk 5 N (s_state sA) vA 4))
    (predict3 G3h0 G3h1 dt (blk 5 N (s_state sB) vB 2) (blk 5 N (s_state sB) vB 3) (blk 5 N (s_state sB) vB 4)) (predict3 G3h0 G3h1 dt (blk 5 N (s_state sC) vC 2) (blk 5 N (s_state sC) vC 3) (blk 5 N (s_state sC) vC 4))
    ltac:(intros; apply H; lia) ltac:(intros; apply H; lia)).
  match type of L with ?P -> _ => assert (LP : P) end.
  { unfold predict3. cbv zeta. cbn [lin3]. intros j Hj. rewrite (H 2%nat j ltac:(lia) Hj), (H 3%nat j ltac:(lia) Hj), (H 4%nat j ltac:(lia) Hj). repeat split; ring. }
  specialize (L LP). clear LP. revert L. generalize (Nat.iter (numIter3 (s_new sA)) (sw3 N ode (s_time sA) dt (blk 5 N (s_state sA) vA 0) (blk 5 N (s_state sA) vA 1)) (predict3 G3h0 G3h1 dt (blk 5 N (s_state sA) vA 2) (blk 5 N (s_state sA) vA 3) (blk 5 N (s_state sA) vA 4))).
  match goal with |- context [finish3 _ _ _ (blk 5 N (s_state sB) _ _) _ ?cB] => generalize cB end.
  match goal with |- context [finish3 _ _ _ (blk 5 N (s_state sC) _ _) _ ?cC] => generalize cC end.
  intros [[u2 v2] w2] [[u1 v1] w1] [[u v] w] L. cbn [lin3] in L. destruct (L d Hd) as (L1 & L2 & L3). unfold finish3. cbv beta zeta.
  rewrite L1, L2, L3, (H 0%nat d ltac:(lia) Hd), (H 1%nat d ltac:(lia) Hd).
  destruct k as [|[|[|[|k]]]]; field; exact Hdt.
Qed.
Lemma run_lin3 : forall N ode l m nA nB nC vA vB vC, (vA < nA)%nat -> (vB < nB)%nat -> (vC < nC)%nat -> 
  forall dts sA sB sC, Forall (fun dt => dt <> 0) dts -> rel2 5 N l m sA sB sC vA vB vC -> rel2 5 N l m (run3 N nA ode dts sA) (run3 N nB ode dts sB) (run3 N nC ode dts sC) vA vB vC.
Proof.
  intros N ode l m nA nB nC vA vB vC HA HB HC. induction dts as [|dt dts IH]; intros sA sB sC Hd H; [exact H|]. inversion Hd; subst. cbn [run3 fold_left]. apply IH; [assumption|]. now apply step_lin3.
Qed.
Lemma init_rel : forall nb N l m nA nB nC vA vB vC, (2 <= nb)%nat -> (vA < nA)%nat -> (vB < nB)%nat -> (vC < nC)%nat -> forall stA stB stC t0 sA sB sC,
  (forall j, (j < 2 * N)%nat -> stA (vA * (2 * N) + j)%nat = l * stB (vB * (2 * N) + j)%nat + m * stC (vC * (2 * N) + j)%nat) ->
  rel2 nb N l m (init2 nb N nA stA (Some t0) sA) (init2 nb N nB stB (Some t0) sB) (init2 nb N nC stC (Some t0) sC) vA vB vC.
Proof.
  intros nb N l m nA nB nC vA vB vC Hnb HA HB HC stA stB stC t0 sA sB sC H. repeat split. intros k d Hk Hd. rewrite !blk_init2 by assumption.
  destruct (Nat.ltb k 2) eqn:E; [|ring]. apply Nat.ltb_lt in E. rewrite <- !Nat.add_assoc. apply H. nia.
Qed.
Lemma rel_sol3 : forall N l m nA nB nC vA vB vC sA sB sC, (vA < nA)%nat -> (vB < nB)%nat -> (vC < nC)%nat -> rel2 5 N l m sA sB sC vA vB vC ->
  forall t j, (j < 2 * N)%nat -> exists a b c, getSol3 N nA sA t (vA * (2 * N) + j) = Some a /\ getSol3 N nB sB t (vB * (2 * N) + j) = Some b /\ getSol3 N nC sC t (vC * (2 * N) + j) = Some c /\ a = l * b + m * c.
Proof.
  intros N l m nA nB nC vA vB vC sA sB sC HA HB HC (T1 & T2 & N1 & N2 & H) t j Hj.
  destruct (Nat.lt_ge_cases j N) as [L|L].
  - rewrite !getSol3_pos by assumption. do 3 eexists. split; [reflexivity|]. split; [reflexivity|]. split; [reflexivity|]. cbv beta zeta. rewrite T1, T2, !H by lia. ring.
  - replace j with (N + (j - N))%nat by lia. rewrite !getSol3_vel by (assumption || lia). do 3 eexists. split; [reflexivity|]. split; [reflexivity|]. split; [reflexivity|]. cbv beta zeta.
    assert (L2 : (j - N < N)%nat) by lia. rewrite T1, T2, !H by lia. ring.
Qed.
Lemma run_time3 : forall N nv ode dts s, s_time (run3 N nv ode dts s) = s_time s + fold_right Rplus 0 dts.
Proof. intros N nv ode dts. induction dts as [|dt dts IH]; intros s; [simpl; ring|]. cbn [run3 fold_left fold_right]. unfold run3 in IH. rewrite IH. unfold doStep3, step3_. cbn [s_time]. ring. Qed.
