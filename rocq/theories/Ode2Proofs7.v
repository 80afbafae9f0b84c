From Coq Require Import Reals Lra Lia List Arith Bool.
From Coquelicot Require Import Coquelicot.
From Verif Require Import RandReal PolyModel PolyProofs OdeModel OdeProofs Ode2Model Ode2Spec Ode2Proofs Ode2Proofs2 Ode2Proofs3 Ode2Proofs4 Ode2Proofs5 Ode2Proofs6 Banach.
Import ListNotations.
Local Open Scope R_scope.

Section M.
Variables h0 h1 h2 t0 dt : R.
Hypothesis Hdt : dt <> 0.
Let hh t := (t - t0) / dt.
Lemma hh_node4 : forall h, hh (t0 + dt * h) = h. Proof. intros. unfold hh. field. exact Hdt. Qed.
Lemma pos4_derive : forall x xdot c d t, is_derive (fun t => pos4 h0 h1 h2 dt x xdot c (hh t) d) t (vel4 h0 h1 h2 dt x xdot c (hh t) d).
Proof.
  intros x xdot [[[u v] w] z] d t. cbn [pos4 vel4]. unfold S4, D4, hh. auto_derive; [auto|]. field. exact Hdt.
Qed.
Lemma vel4_derive : forall x xdot c d t, is_derive (fun t => vel4 h0 h1 h2 dt x xdot c (hh t) d) t (acc4 h0 h1 h2 c (hh t) d).
Proof.
  intros x xdot [[[u v] w] z] d t. cbn [acc4 vel4]. unfold W4, D4, hh. auto_derive; [auto|]. field. exact Hdt.
Qed.
Lemma pos4_start : forall x xdot c d, pos4 h0 h1 h2 dt x xdot c 0 d = x d.
Proof. intros x xdot [[[u v] w] z] d. cbn [pos4]. unfold S4. field. Qed.
Lemma vel4_start : forall x xdot c d, vel4 h0 h1 h2 dt x xdot c 0 d = xdot d.
Proof. intros x xdot [[[u v] w] z] d. cbn [vel4]. unfold D4. field. Qed.
Lemma acc4_poly : forall c d, poly_deg 3 (fun t => acc4 h0 h1 h2 c (hh t) d).
Proof.
  intros [[[u v] w] z] d. cbn [acc4].
  set (a0 := - t0 / dt - h0). set (a1 := - t0 / dt - h1). set (a2 := - t0 / dt - h2).
  exists (fun k => match k with
    | 0%nat => u d + a0 * (v d + a1 * (w d + a2 * z d))
    | 1%nat => (v d + (a0 + a1) * w d + (a0 * a1 + a0 * a2 + a1 * a2) * z d) / dt
    | 2%nat => (w d + (a0 + a1 + a2) * z d) / dt / dt
    | _ => z d / dt / dt / dt end).
  intros t. cbn [fsum pow]. unfold W4, hh, a0, a1, a2. field. exact Hdt.
Qed.

(** the motion with the quadratic acceleration, written with the divided differences *)
Lemma motion_coef4 : forall X V W, motion X V W -> poly_deg 3 W -> exists u v w z : R,
  forall h, W (t0 + dt * h) = W4 h0 h1 h2 u v w z h /\ V (t0 + dt * h) = V t0 + dt * D4 h0 h1 h2 u v w z h /\
    X (t0 + dt * h) = X t0 + V t0 * dt * h + dt * dt * S4 h0 h1 h2 u v w z h.
Proof.
  intros X V W (HX & HV) (c & Hc).
  set (z := c 3%nat * dt * dt * dt).
  set (w := dt * dt * (c 2%nat + c 3%nat * (3 * t0 + dt * (h0 + h1 + h2)))).
  set (v := dt * (c 1%nat + c 2%nat * (2 * t0 + dt * (h0 + h1)) + c 3%nat * (3 * t0 * t0 + 3 * t0 * dt * (h0 + h1) + dt * dt * (h0 * h0 + h0 * h1 + h1 * h1)))). set (u := W (t0 + dt * h0)).
  assert (EW : forall t, W t = acc4 h0 h1 h2 (fun _ => u, fun _ => v, fun _ => w, fun _ => z) (hh t) 0%nat).
  { intros t. cbn [acc4]. unfold W4, u, v, w, z, hh. rewrite !Hc. cbn [fsum pow]. field. exact Hdt. }
  assert (EV : forall t, V t = vel4 h0 h1 h2 dt (fun _ => X t0) (fun _ => V t0) (fun _ => u, fun _ => v, fun _ => w, fun _ => z) (hh t) 0%nat).
  { apply (prim_unique V _ W t0 HV).
    - intros t. rewrite (EW t). apply vel4_derive.
    - replace (hh t0) with 0 by (unfold hh; field; exact Hdt). now rewrite vel4_start. }
  assert (EX : forall t, X t = pos4 h0 h1 h2 dt (fun _ => X t0) (fun _ => V t0) (fun _ => u, fun _ => v, fun _ => w, fun _ => z) (hh t) 0%nat).
  { apply (prim_unique X _ V t0 HX).
    - intros t. rewrite (EV t). apply pos4_derive.
    - replace (hh t0) with 0 by (unfold hh; field; exact Hdt). now rewrite pos4_start. }
  exists u, v, w, z. intros h. rewrite (EW (t0 + dt * h)), (EV (t0 + dt * h)), (EX (t0 + dt * h)), hh_node4. cbn [acc4 vel4 pos4]. auto.
Qed.
End M.

(** finite choice *)
Lemma choice4 : forall N (P : nat -> R -> R -> R -> R -> Prop), (forall d, (d < N)%nat -> exists u v w z, P d u v w z) ->
  exists u v w z : vec, forall d, (d < N)%nat -> P d (u d) (v d) (w d) (z d).
Proof.
  induction N; intros P H; [exists (fun _ => 0), (fun _ => 0), (fun _ => 0), (fun _ => 0); intros; lia|].
  destruct (IHN P ltac:(intros; apply H; lia)) as (u & v & w & z & K). destruct (H N ltac:(lia)) as (a & b & c & e & G).
  exists (fun d => if Nat.eqb d N then a else u d), (fun d => if Nat.eqb d N then b else v d), (fun d => if Nat.eqb d N then c else w d), (fun d => if Nat.eqb d N then e else z d).
  intros d Hd. destruct (Nat.eqb d N) eqn:E; [apply Nat.eqb_eq in E; now subst|apply K; apply Nat.eqb_neq in E; lia].
Qed.

(** the coefficients of a collocation solution are a fixed point of the iteration *)
Definition nodes4 := [G4h0; G4h1; G4h2; G4h3].
Definition sw4 (N : nat) (ode : ode2) (t0 dt : R) (x xdot : vec) : uvwz -> uvwz :=
  sweep4 G4h0 G4h1 G4h2 G4h3 N (o_a ode (t0 + dt * G4h0)) (o_b ode (t0 + dt * G4h0)) (o_a ode (t0 + dt * G4h1)) (o_b ode (t0 + dt * G4h1))
                       (o_a ode (t0 + dt * G4h2)) (o_b ode (t0 + dt * G4h2)) (o_a ode (t0 + dt * G4h3)) (o_b ode (t0 + dt * G4h3)) dt x xdot.
Lemma colloc_fix4 : forall N ode t0 dt x xdot X V W, dt <> 0 ->
  collocation N (o_a ode) (o_b ode) nodes4 t0 dt x xdot X V W ->
  exists c, dist4 N (sw4 N ode t0 dt x xdot c) c 0 /\
    forall d h, (d < N)%nat -> X d (t0 + dt * h) = pos4 G4h0 G4h1 G4h2 dt x xdot c h d /\ V d (t0 + dt * h) = vel4 G4h0 G4h1 G4h2 dt x xdot c h d /\ W d (t0 + dt * h) = acc4 G4h0 G4h1 G4h2 c h d.
Proof.
  intros N ode t0 dt x xdot X V W Hdt (H1 & H2).
  destruct (choice4 N (fun d u v w z => forall h, W d (t0 + dt * h) = W4 G4h0 G4h1 G4h2 u v w z h /\ V d (t0 + dt * h) = V d t0 + dt * D4 G4h0 G4h1 G4h2 u v w z h /\
    X d (t0 + dt * h) = X d t0 + V d t0 * dt * h + dt * dt * S4 G4h0 G4h1 G4h2 u v w z h)) as (u & v & w & z & K).
  { intros d Hd. destruct (H1 d Hd) as (M & P & _). apply motion_coef4; assumption. }
  exists (u, v, w, z).
  assert (EQ : forall d h, (d < N)%nat -> X d (t0 + dt * h) = pos4 G4h0 G4h1 G4h2 dt x xdot (u, v, w, z) h d /\ V d (t0 + dt * h) = vel4 G4h0 G4h1 G4h2 dt x xdot (u, v, w, z) h d /\ W d (t0 + dt * h) = acc4 G4h0 G4h1 G4h2 (u, v, w, z) h d).
  { intros d h Hd. destruct (K d Hd h) as (A & B & C). destruct (H1 d Hd) as (_ & _ & X0 & V0). cbn [pos4 vel4 acc4]. rewrite <- X0, <- V0. auto. }
  split; [|exact EQ].
  assert (SAT : forall h d, In h nodes4 -> (d < N)%nat -> acc4 G4h0 G4h1 G4h2 (u, v, w, z) h d =
     rhs2 N (o_a ode (t0 + dt * h)) (o_b ode (t0 + dt * h)) (pos4 G4h0 G4h1 G4h2 dt x xdot (u, v, w, z) h) (vel4 G4h0 G4h1 G4h2 dt x xdot (u, v, w, z) h) d).
  { intros h d Hh Hd. destruct (EQ d h Hd) as (_ & _ & E3). rewrite <- E3. rewrite (H2 h Hh d Hd). rewrite fsum_vsum.
    change (rhs2 N (o_a ode (t0 + dt * h)) (o_b ode (t0 + dt * h)) (fun j => X j (t0 + dt * h)) (fun j => V j (t0 + dt * h)) d = rhs2 N (o_a ode (t0 + dt * h)) (o_b ode (t0 + dt * h)) (pos4 G4h0 G4h1 G4h2 dt x xdot (u, v, w, z) h) (vel4 G4h0 G4h1 G4h2 dt x xdot (u, v, w, z) h) d).
    apply rhs2_ext; intros j Hj; apply (EQ j h Hj). }
  destruct (sweep4_eqn N (o_a ode (t0 + dt * G4h0)) (o_b ode (t0 + dt * G4h0)) (o_a ode (t0 + dt * G4h1)) (o_b ode (t0 + dt * G4h1))
     (o_a ode (t0 + dt * G4h2)) (o_b ode (t0 + dt * G4h2)) (o_a ode (t0 + dt * G4h3)) (o_b ode (t0 + dt * G4h3)) dt x xdot u v w z) as (u' & v' & w' & z' & E & F).
  unfold sw4. rewrite E. cbn [dist4].
  assert (Eu : forall d, (d < N)%nat -> u' d = u d).
  { intros d Hd. destruct (F d) as (F0 & _). rewrite <- SAT in F0 by (auto; left; reflexivity). cbn [acc4] in F0. unfold W4 in F0. lra. }
  assert (Ev : forall d, (d < N)%nat -> v' d = v d).
  { intros d Hd. destruct (F d) as (_ & F1 & _).
    rewrite (rhs2_ext N _ _ _ _ (pos4 G4h0 G4h1 G4h2 dt x xdot (u, v, w, z) G4h1) (vel4 G4h0 G4h1 G4h2 dt x xdot (u, v, w, z) G4h1)) in F1
      by (intros j Hj; cbn [pos4 vel4]; now rewrite (Eu j Hj)).
    rewrite <- SAT in F1 by (auto; right; left; reflexivity). cbn [acc4] in F1. rewrite (Eu d Hd) in F1. unfold W4, G4h2, G4h0, G4h1 in F1. lra. }
  assert (Ew : forall d, (d < N)%nat -> w' d = w d).
  { intros d Hd. destruct (F d) as (_ & _ & F1 & _).
    rewrite (rhs2_ext N _ _ _ _ (pos4 G4h0 G4h1 G4h2 dt x xdot (u, v, w, z) G4h2) (vel4 G4h0 G4h1 G4h2 dt x xdot (u, v, w, z) G4h2)) in F1
      by (intros j Hj; cbn [pos4 vel4]; now rewrite (Eu j Hj), (Ev j Hj)).
    rewrite <- SAT in F1 by (auto; right; right; left; reflexivity). cbn [acc4] in F1. rewrite (Eu d Hd), (Ev d Hd) in F1. unfold W4, G4h2, G4h0, G4h1 in F1. lra. }
  assert (Ez : forall d, (d < N)%nat -> z' d = z d).
  { intros d Hd. destruct (F d) as (_ & _ & _ & F1).
    rewrite (rhs2_ext N _ _ _ _ (pos4 G4h0 G4h1 G4h2 dt x xdot (u, v, w, z) G4h3) (vel4 G4h0 G4h1 G4h2 dt x xdot (u, v, w, z) G4h3)) in F1
      by (intros j Hj; cbn [pos4 vel4]; now rewrite (Eu j Hj), (Ev j Hj), (Ew j Hj)).
    rewrite <- SAT in F1 by (auto; right; right; right; left; reflexivity). cbn [acc4] in F1. rewrite (Eu d Hd), (Ev d Hd), (Ew d Hd) in F1. unfold W4, G4h3, G4h2, G4h0, G4h1 in F1. lra. }
  intros d Hd. rewrite Eu, Ev, Ew, Ez by assumption. rewrite !Rminus_eq_0, Rabs_R0. lra.
Qed.

(** a fixed point is a collocation solution *)
Lemma fix_colloc4 : forall N ode t0 dt x xdot c, dt <> 0 -> dist4 N (sw4 N ode t0 dt x xdot c) c 0 ->
  collocation N (o_a ode) (o_b ode) nodes4 t0 dt x xdot (fun d t => pos4 G4h0 G4h1 G4h2 dt x xdot c ((t - t0) / dt) d)
    (fun d t => vel4 G4h0 G4h1 G4h2 dt x xdot c ((t - t0) / dt) d) (fun d t => acc4 G4h0 G4h1 G4h2 c ((t - t0) / dt) d).
Proof.
  intros N ode t0 dt x xdot c Hdt Hf. split.
  - intros d Hd. split; [split; intros t; [apply (pos4_derive G4h0 G4h1 G4h2 t0 dt Hdt x xdot c d t)|apply (vel4_derive G4h0 G4h1 G4h2 t0 dt Hdt x xdot c d t)]|].
    split; [apply (acc4_poly G4h0 G4h1 G4h2 t0 dt Hdt)|]. replace ((t0 - t0) / dt) with 0 by (field; exact Hdt). split; [apply pos4_start|apply vel4_start].
  - destruct c as [[[u v] w] z].
    destruct (sweep4_eqn N (o_a ode (t0 + dt * G4h0)) (o_b ode (t0 + dt * G4h0)) (o_a ode (t0 + dt * G4h1)) (o_b ode (t0 + dt * G4h1))
     (o_a ode (t0 + dt * G4h2)) (o_b ode (t0 + dt * G4h2)) (o_a ode (t0 + dt * G4h3)) (o_b ode (t0 + dt * G4h3)) dt x xdot u v w z) as (u' & v' & w' & z' & E & F).
    unfold sw4 in Hf. rewrite E in Hf. cbn [dist4] in Hf.
    assert (Z : forall a b : R, Rabs (a - b) <= 0 -> a = b). { intros a b Hab. apply abs_pair in Hab. lra. }
    assert (Eu : forall d, (d < N)%nat -> u' d = u d) by (intros d Hd; apply Z, (Hf d Hd)).
    assert (Ev : forall d, (d < N)%nat -> v' d = v d) by (intros d Hd; apply Z, (Hf d Hd)).
    assert (Ew : forall d, (d < N)%nat -> w' d = w d) by (intros d Hd; apply Z, (Hf d Hd)).
    assert (Ez : forall d, (d < N)%nat -> z' d = z d) by (intros d Hd; apply Z, (Hf d Hd)).
    intros h Hh d Hd. rewrite fsum_vsum. rewrite !hh_node by exact Hdt.
    match goal with |- _ = vsum N ?f => change (vsum N f) with (rhs2 N (o_a ode (t0 + dt * h)) (o_b ode (t0 + dt * h)) (pos4 G4h0 G4h1 G4h2 dt x xdot (u, v, w, z) h) (vel4 G4h0 G4h1 G4h2 dt x xdot (u, v, w, z) h) d) end.
    replace (acc4 G4h0 G4h1 G4h2 (u, v, w, z) h d) with (acc4 G4h0 G4h1 G4h2 (u', v', w', z') h d) by (cbn [acc4]; now rewrite Eu, Ev, Ew, Ez).
    destruct (F d) as (F0 & F1 & F2 & F3). destruct Hh as [<-|[<-|[<-|[<-|[]]]]].
    + exact F0.
    + rewrite F1. apply rhs2_ext; intros j Hj; cbn [pos4 vel4]; now rewrite Eu.
    + rewrite F2. apply rhs2_ext; intros j Hj; cbn [pos4 vel4]; now rewrite Eu, Ev.
    + rewrite F3. apply rhs2_ext; intros j Hj; cbn [pos4 vel4]; now rewrite Eu, Ev, Ew.
Qed.

Lemma iter_contr4 : forall N ode t0 dt x xdot al be, (forall h, In h nodes4 -> rows_le N (o_a ode (t0 + dt * h)) al /\ rows_le N (o_b ode (t0 + dt * h)) be) ->
  0 <= dt * dt * al + Rabs dt * be -> 59 * (dt * dt * al + Rabs dt * be) <= 1 ->
  forall n c c' E, 0 <= E -> dist4 N c c' E -> dist4 N (Nat.iter n (sw4 N ode t0 dt x xdot) c) (Nat.iter n (sw4 N ode t0 dt x xdot) c') ((59 * (dt * dt * al + Rabs dt * be)) ^ n * E).
Proof.
  intros N ode t0 dt x xdot al be Hm C0 C1. induction n; intros c c' E HE H.
  - cbn [Nat.iter nat_rect]. now rewrite pow_O, Rmult_1_l.
  - simpl Nat.iter. simpl pow. rewrite Rmult_assoc. apply sweep4_contr; try apply Hm; unfold nodes4; simpl; auto 6.
    apply Rmult_le_pos; [apply pow_le; lra|exact HE].
Qed.
Lemma dist4_trans : forall N a b c E F, dist4 N a b E -> dist4 N b c F -> dist4 N a c (E + F).
Proof.
  intros N [[[u v] w] z] [[[u' v'] w'] z'] [[[u'' v''] w''] z''] E F H G. cbn [dist4] in *. intros d Hd. specialize (H d Hd). specialize (G d Hd).
  assert (T : forall a b c : R, Rabs (a - b) <= E -> Rabs (b - c) <= F -> Rabs (a - c) <= E + F).
  { intros a b c Ha Hb. replace (a - c) with ((a - b) + (b - c)) by ring. eapply Rle_trans; [apply Rabs_triang|]. lra. }
  repeat split; eapply T; (apply H || apply G).
Qed.
Lemma dist4_sym : forall N a b E, dist4 N a b E -> dist4 N b a E.
Proof. intros N [[[u v] w] z] [[[u' v'] w'] z'] E H. cbn [dist4] in *. intros d Hd. rewrite (Rabs_minus_sym (u' d)), (Rabs_minus_sym (v' d)), (Rabs_minus_sym (w' d)), (Rabs_minus_sym (z' d)). apply (H d Hd). Qed.

(** after n iterations, compared with a fixed point *)
Lemma iter_fix4 : forall N ode t0 dt x xdot al be, (forall h, In h nodes4 -> rows_le N (o_a ode (t0 + dt * h)) al /\ rows_le N (o_b ode (t0 + dt * h)) be) ->
  0 <= dt * dt * al + Rabs dt * be -> 59 * (dt * dt * al + Rabs dt * be) <= 1 ->
  forall n c f E, 0 <= E -> dist4 N c f E -> dist4 N (sw4 N ode t0 dt x xdot f) f 0 ->
  dist4 N (Nat.iter n (sw4 N ode t0 dt x xdot) c) f ((59 * (dt * dt * al + Rabs dt * be)) ^ n * E).
Proof.
  intros N ode t0 dt x xdot al be Hm C0 C1 n c f E HE H Hf.
  assert (K : forall m, dist4 N (Nat.iter m (sw4 N ode t0 dt x xdot) f) f 0).
  { induction m; [destruct f as [[[u v] w] z]; cbn; intros; rewrite !Rminus_eq_0, Rabs_R0; lra|].
    replace 0 with (0 + 0) by ring. apply dist4_trans with (sw4 N ode t0 dt x xdot f); [|exact Hf].
    simpl Nat.iter. pose proof (iter_contr4 N ode t0 dt x xdot al be Hm C0 C1 1 _ _ 0 (Rle_refl _) IHm) as Q. cbn [Nat.iter nat_rect] in Q. now rewrite Rmult_0_r in Q. }
  replace (_ * E) with ((59 * (dt * dt * al + Rabs dt * be)) ^ n * E + 0) by ring.
  eapply dist4_trans; [|apply K]. now apply (iter_contr4 N ode t0 dt x xdot al be Hm C0 C1).
Qed.

Lemma fix_exists4 : forall N ode t0 dt x xdot al be, (forall h, In h nodes4 -> rows_le N (o_a ode (t0 + dt * h)) al /\ rows_le N (o_b ode (t0 + dt * h)) be) ->
  0 <= dt * dt * al + Rabs dt * be -> 59 * (dt * dt * al + Rabs dt * be) < 1 -> exists f, dist4 N (sw4 N ode t0 dt x xdot f) f 0.
Proof.
  intros N ode t0 dt x xdot al be Hm C0 C1.
  set (unf := fun c : nat -> R => ((fun d => c d), (fun d => c (N + d)%nat), (fun d => c (2 * N + d)%nat), (fun d => c (3 * N + d)%nat)) : uvwz).
  set (fl := fun c : uvwz => let '(u, v, w, z) := c in fun i => if Nat.ltb i N then u i else if Nat.ltb i (2 * N) then v (i - N)%nat else if Nat.ltb i (3 * N) then w (i - 2 * N)%nat else z (i - 3 * N)%nat).
  set (k := 59 * (dt * dt * al + Rabs dt * be)).
  assert (UF : forall c c' E, near (4 * N) c c' E -> dist4 N (unf c) (unf c') E).
  { intros c c' E H. cbn [dist4 unf]. intros d Hd. repeat split; apply H; lia. }
  assert (FL : forall c c' E, dist4 N c c' E -> near (4 * N) (fl c) (fl c') E).
  { intros [[[u v] w] z] [[[u' v'] w'] z'] E H i Hi. cbn [dist4] in H. unfold fl. destruct (Nat.ltb i N) eqn:E1; [apply Nat.ltb_lt in E1; apply (H i E1)|].
    apply Nat.ltb_ge in E1. destruct (Nat.ltb i (2 * N)) eqn:E2; [apply Nat.ltb_lt in E2; apply (H (i - N)%nat); lia|]. apply Nat.ltb_ge in E2. destruct (Nat.ltb i (3 * N)) eqn:E3; [apply Nat.ltb_lt in E3; apply (H (i - 2 * N)%nat); lia|]. apply Nat.ltb_ge in E3. apply (H (i - 3 * N)%nat); lia. }
  destruct (banach (4 * N) (fun c => fl (sw4 N ode t0 dt x xdot (unf c))) k) as (c & Hc).
  { unfold k; lra. }
  { intros c c' E HE H. apply FL. pose proof (iter_contr4 N ode t0 dt x xdot al be Hm C0 ltac:(lra) 1 (unf c) (unf c') E HE (UF _ _ _ H)) as Q. simpl in Q. fold k in Q. now rewrite Rmult_1_r in Q. }
  exists (unf c). set (r := sw4 N ode t0 dt x xdot (unf c)) in *. destruct r as [[[u v] w] z]. cbn [dist4 unf]. intros d Hd.
  assert (A0 := Hc d ltac:(lia)). assert (A1 := Hc (N + d)%nat ltac:(lia)). assert (A2 := Hc (2 * N + d)%nat ltac:(lia)). assert (A3 := Hc (3 * N + d)%nat ltac:(lia)). unfold fl in A0, A1, A2, A3.
  assert (B0 : Nat.ltb d N = true) by (apply Nat.ltb_lt; lia). assert (B1 : Nat.ltb (N + d) N = false) by (apply Nat.ltb_ge; lia).
  assert (B2 : Nat.ltb (N + d) (2 * N) = true) by (apply Nat.ltb_lt; lia). assert (B3 : Nat.ltb (2 * N + d) N = false) by (apply Nat.ltb_ge; lia).
  assert (B4 : Nat.ltb (2 * N + d) (2 * N) = false) by (apply Nat.ltb_ge; lia). assert (B5 : Nat.ltb (2 * N + d) (3 * N) = true) by (apply Nat.ltb_lt; lia).
  assert (B6 : Nat.ltb (3 * N + d) N = false) by (apply Nat.ltb_ge; lia). assert (B7 : Nat.ltb (3 * N + d) (2 * N) = false) by (apply Nat.ltb_ge; lia). assert (B8 : Nat.ltb (3 * N + d) (3 * N) = false) by (apply Nat.ltb_ge; lia).
  rewrite B0 in A0. rewrite B1, B2 in A1. rewrite B3, B4, B5 in A2. rewrite B6, B7, B8 in A3.
  replace (N + d - N)%nat with d in A1 by lia. replace (2 * N + d - 2 * N)%nat with d in A2 by lia. replace (3 * N + d - 3 * N)%nat with d in A3 by lia. auto.
Qed.

(** bounds inside the timestep, and for the coefficients in terms of the acceleration at the nodes *)
Lemma bS4_in : forall E u v w z h, 0 <= h <= 1 -> - E <= u <= E -> - E <= v <= E -> - E <= w <= E -> - E <= z <= E -> Rabs (S4 G4h0 G4h1 G4h2 u v w z h) <= E.
Proof.
  intros E u v w z h Hh Hu Hv Hw Hz. unfold S4.
  assert (P2 : 0 <= h ^ 2 <= 1) by (simpl; nra). assert (P3 : 0 <= h ^ 3 <= h ^ 2) by (simpl; nra). assert (P4 : 0 <= h ^ 4 <= h ^ 3) by (simpl in *; nra).
  assert (P5 : 0 <= h ^ 5 <= h ^ 4). { change (h ^ 5) with (h * h ^ 4). split; [apply Rmult_le_pos; lra|]. rewrite <- (Rmult_1_l (h ^ 4)) at 2. apply Rmult_le_compat_r; lra. }
  set (c1 := h ^ 2 / 2). set (c2 := h ^ 3 / 6 - G4h0 * h ^ 2 / 2). set (c3 := h ^ 4 / 12 - (G4h0 + G4h1) * h ^ 3 / 6 + G4h0 * G4h1 * h ^ 2 / 2).
  set (c4 := h ^ 5 / 20 - _ * h ^ 4 / 12 + _ * h ^ 3 / 6 - _ * h ^ 2 / 2).
  assert (B1 : - (1/2) <= c1 <= 1/2) by (unfold c1; lra). assert (B2 : - (1/6) <= c2 <= 1/6) by (unfold c2, G4h0; lra). assert (B3 : - (1/6) <= c3 <= 1/6) by (unfold c3, G4h0, G4h1; lra).
  assert (B4 : - (1/6) <= c4 <= 1/6) by (unfold c4, G4h2, G4h0, G4h1; lra).
  assert (Q : forall c b y, 0 <= b -> - b <= c <= b -> - E <= y <= E -> - (b * E) <= c * y <= b * E) by (intros; split; nra).
  pose proof (Q c1 (1/2) u ltac:(lra) B1 Hu). pose proof (Q c2 (1/6) v ltac:(lra) B2 Hv). pose proof (Q c3 (1/6) w ltac:(lra) B3 Hw). pose proof (Q c4 (1/6) z ltac:(lra) B4 Hz).
  apply Rabs_le. lra.
Qed.
Lemma bD4_in : forall E u v w z h, 0 <= h <= 1 -> - E <= u <= E -> - E <= v <= E -> - E <= w <= E -> - E <= z <= E -> Rabs (D4 G4h0 G4h1 G4h2 u v w z h) <= 2 * E.
Proof.
  intros E u v w z h Hh Hu Hv Hw Hz. unfold D4.
  assert (P2 : 0 <= h ^ 2 <= h) by (simpl; nra). assert (P3 : 0 <= h ^ 3 <= h ^ 2) by (simpl; nra). assert (P4 : 0 <= h ^ 4 <= h ^ 3) by (simpl in *; nra).
  set (c2 := h ^ 2 / 2 - G4h0 * h). set (c3 := h ^ 3 / 3 - (G4h0 + G4h1) * h ^ 2 / 2 + G4h0 * G4h1 * h).
  set (c4 := h ^ 4 / 4 - _ * h ^ 3 / 3 + _ * h ^ 2 / 2 - _ * h).
  assert (B2 : - (0.44) <= c2 <= 0.44) by (unfold c2, G4h0; lra). assert (B3 : - (0.2) <= c3 <= 0.2) by (unfold c3, G4h0, G4h1; lra).
  assert (B4 : - (0.3) <= c4 <= 0.3) by (unfold c4, G4h2, G4h0, G4h1; lra).
  assert (Q : forall c b y, 0 <= b -> - b <= c <= b -> - E <= y <= E -> - (b * E) <= c * y <= b * E) by (intros; split; nra).
  pose proof (Q h 1 u ltac:(lra) ltac:(lra) Hu). pose proof (Q c2 0.44 v ltac:(lra) B2 Hv). pose proof (Q c3 0.2 w ltac:(lra) B3 Hw). pose proof (Q c4 0.3 z ltac:(lra) B4 Hz).
  apply Rabs_le. lra.
Qed.
Lemma W4_bound : forall M u v w z, Rabs (W4 G4h0 G4h1 G4h2 u v w z G4h0) <= M -> Rabs (W4 G4h0 G4h1 G4h2 u v w z G4h1) <= M -> Rabs (W4 G4h0 G4h1 G4h2 u v w z G4h2) <= M ->
  Rabs (W4 G4h0 G4h1 G4h2 u v w z G4h3) <= M -> Rabs u <= 53 * M /\ Rabs v <= 53 * M /\ Rabs w <= 53 * M /\ Rabs z <= 53 * M.
Proof.
  intros M u v w z A0 A1 A2 A3. apply abs_pair in A0, A1, A2, A3. revert A0 A1 A2 A3. unfold W4, G4h3, G4h2, G4h1, G4h0. intros. repeat split; apply Rabs_le; lra.
Qed.
