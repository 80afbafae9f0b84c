From Coq Require Import Reals Lra Lia List Arith Bool.
From Coquelicot Require Import Coquelicot.
From Verif Require Import RandReal PolyModel PolyProofs OdeModel OdeProofs Ode2Model Ode2Spec Ode2Proofs Ode2Proofs2 Ode2Proofs3 Banach.
Import ListNotations.
Local Open Scope R_scope.

Lemma prim_unique : forall (f g k : R -> R) a, (forall t, is_derive f t (k t)) -> (forall t, is_derive g t (k t)) -> f a = g a -> forall t, f t = g t.
Proof.
  intros f g k a Hf Hg Ha t.
  assert (H : forall s, is_derive (fun y => f y - g y) s zero).
  { intros s. pose proof (is_derive_minus f g s (k s) (k s) (Hf s) (Hg s)) as Q. rewrite minus_eq_zero in Q. exact Q. }
  destruct (Rtotal_order a t) as [L|[E|L]].
  - assert (E := eq_is_derive (fun y => f y - g y) a t (fun s _ => H s) L). simpl in E. lra.
  - now subst.
  - assert (E := eq_is_derive (fun y => f y - g y) t a (fun s _ => H s) L). simpl in E. lra.
Qed.

Section M.
Variables h0 h1 t0 dt : R.
Hypothesis Hdt : dt <> 0.
Let hh t := (t - t0) / dt.
Lemma hh_node : forall h, hh (t0 + dt * h) = h. Proof. intros. unfold hh. field. exact Hdt. Qed.
Lemma pos3_derive : forall x xdot c d t, is_derive (fun t => pos3 h0 h1 dt x xdot c (hh t) d) t (vel3 h0 h1 dt x xdot c (hh t) d).
Proof.
  intros x xdot [[u v] w] d t. cbn [pos3 vel3]. unfold S3, D3, hh. auto_derive; [auto|]. field. exact Hdt.
Qed.
Lemma vel3_derive : forall x xdot c d t, is_derive (fun t => vel3 h0 h1 dt x xdot c (hh t) d) t (acc3 h0 h1 c (hh t) d).
Proof.
  intros x xdot [[u v] w] d t. cbn [acc3 vel3]. unfold W3, D3, hh. auto_derive; [auto|]. field. exact Hdt.
Qed.
Lemma pos3_start : forall x xdot c d, pos3 h0 h1 dt x xdot c 0 d = x d.
Proof. intros x xdot [[u v] w] d. cbn [pos3]. unfold S3. field. Qed.
Lemma vel3_start : forall x xdot c d, vel3 h0 h1 dt x xdot c 0 d = xdot d.
Proof. intros x xdot [[u v] w] d. cbn [vel3]. unfold D3. field. Qed.
Lemma acc3_poly : forall c d, poly_deg 2 (fun t => acc3 h0 h1 c (hh t) d).
Proof.
  intros [[u v] w] d. cbn [acc3].
  exists (fun k => match k with
    | 0%nat => u d + (- t0 / dt - h0) * (v d + (- t0 / dt - h1) * w d)
    | 1%nat => (v d + (- t0 / dt - h1) * w d) / dt + (- t0 / dt - h0) * w d / dt
    | _ => w d / dt / dt end).
  intros t. cbn [fsum pow]. unfold W3, hh. field. exact Hdt.
Qed.

(** the motion with the quadratic acceleration, written with the divided differences *)
Lemma motion_coef3 : forall X V W, motion X V W -> poly_deg 2 W -> exists u v w : R,
  forall h, W (t0 + dt * h) = W3 h0 h1 u v w h /\ V (t0 + dt * h) = V t0 + dt * D3 h0 h1 u v w h /\
    X (t0 + dt * h) = X t0 + V t0 * dt * h + dt * dt * S3 h0 h1 u v w h.
Proof.
  intros X V W (HX & HV) (c & Hc).
  set (w := c 2%nat * dt * dt). set (v := dt * (c 1%nat + c 2%nat * (2 * t0 + dt * (h0 + h1)))). set (u := W (t0 + dt * h0)).
  assert (EW : forall t, W t = acc3 h0 h1 (fun _ => u, fun _ => v, fun _ => w) (hh t) 0%nat).
  { intros t. cbn [acc3]. unfold W3, u, v, w, hh. rewrite !Hc. cbn [fsum pow]. field. exact Hdt. }
  assert (EV : forall t, V t = vel3 h0 h1 dt (fun _ => X t0) (fun _ => V t0) (fun _ => u, fun _ => v, fun _ => w) (hh t) 0%nat).
  { apply (prim_unique V _ W t0 HV).
    - intros t. rewrite (EW t). apply vel3_derive.
    - replace (hh t0) with 0 by (unfold hh; field; exact Hdt). now rewrite vel3_start. }
  assert (EX : forall t, X t = pos3 h0 h1 dt (fun _ => X t0) (fun _ => V t0) (fun _ => u, fun _ => v, fun _ => w) (hh t) 0%nat).
  { apply (prim_unique X _ V t0 HX).
    - intros t. rewrite (EV t). apply pos3_derive.
    - replace (hh t0) with 0 by (unfold hh; field; exact Hdt). now rewrite pos3_start. }
  exists u, v, w. intros h. rewrite (EW (t0 + dt * h)), (EV (t0 + dt * h)), (EX (t0 + dt * h)), hh_node. cbn [acc3 vel3 pos3]. auto.
Qed.
End M.

(** finite choice *)
Lemma choice3 : forall N (P : nat -> R -> R -> R -> Prop), (forall d, (d < N)%nat -> exists u v w, P d u v w) ->
  exists u v w : vec, forall d, (d < N)%nat -> P d (u d) (v d) (w d).
Proof.
  induction N; intros P H; [exists (fun _ => 0), (fun _ => 0), (fun _ => 0); intros; lia|].
  destruct (IHN P ltac:(intros; apply H; lia)) as (u & v & w & K). destruct (H N ltac:(lia)) as (a & b & c & G).
  exists (fun d => if Nat.eqb d N then a else u d), (fun d => if Nat.eqb d N then b else v d), (fun d => if Nat.eqb d N then c else w d).
  intros d Hd. destruct (Nat.eqb d N) eqn:E; [apply Nat.eqb_eq in E; now subst|apply K; apply Nat.eqb_neq in E; lia].
Qed.

(** the coefficients of a collocation solution are a fixed point of the iteration *)
Definition nodes3 := [G3h0; G3h1; G3h2].
Definition sw3 (N : nat) (ode : ode2) (t0 dt : R) (x xdot : vec) : uvw -> uvw :=
  sweep3 G3h0 G3h1 G3h2 N (o_a ode (t0 + dt * G3h0)) (o_b ode (t0 + dt * G3h0)) (o_a ode (t0 + dt * G3h1)) (o_b ode (t0 + dt * G3h1))
                       (o_a ode (t0 + dt * G3h2)) (o_b ode (t0 + dt * G3h2)) dt x xdot.
Lemma n01 : G3h0 <> G3h1. Proof. unfold G3h0, G3h1; lra. Qed.
Lemma n02 : G3h0 <> G3h2. Proof. unfold G3h2, G3h0; lra. Qed.
Lemma n12 : G3h1 <> G3h2. Proof. unfold G3h2, G3h0, G3h1; lra. Qed.

Lemma W3_inj : forall u v w u' v' w', W3 G3h0 G3h1 u v w G3h0 = W3 G3h0 G3h1 u' v' w' G3h0 -> W3 G3h0 G3h1 u v w G3h1 = W3 G3h0 G3h1 u' v' w' G3h1 ->
  W3 G3h0 G3h1 u v w G3h2 = W3 G3h0 G3h1 u' v' w' G3h2 -> u = u' /\ v = v' /\ w = w'.
Proof. intros u v w u' v' w'. unfold W3, G3h2, G3h1, G3h0. intros. repeat split; lra. Qed.

Lemma colloc_fix3 : forall N ode t0 dt x xdot X V W, dt <> 0 ->
  collocation N (o_a ode) (o_b ode) nodes3 t0 dt x xdot X V W ->
  exists c, dist3 N (sw3 N ode t0 dt x xdot c) c 0 /\
    forall d h, (d < N)%nat -> X d (t0 + dt * h) = pos3 G3h0 G3h1 dt x xdot c h d /\ V d (t0 + dt * h) = vel3 G3h0 G3h1 dt x xdot c h d /\ W d (t0 + dt * h) = acc3 G3h0 G3h1 c h d.
Proof.
  intros N ode t0 dt x xdot X V W Hdt (H1 & H2).
  destruct (choice3 N (fun d u v w => forall h, W d (t0 + dt * h) = W3 G3h0 G3h1 u v w h /\ V d (t0 + dt * h) = V d t0 + dt * D3 G3h0 G3h1 u v w h /\
    X d (t0 + dt * h) = X d t0 + V d t0 * dt * h + dt * dt * S3 G3h0 G3h1 u v w h)) as (u & v & w & K).
  { intros d Hd. destruct (H1 d Hd) as (M & P & _). apply motion_coef3; assumption. }
  exists (u, v, w).
  assert (EQ : forall d h, (d < N)%nat -> X d (t0 + dt * h) = pos3 G3h0 G3h1 dt x xdot (u, v, w) h d /\ V d (t0 + dt * h) = vel3 G3h0 G3h1 dt x xdot (u, v, w) h d /\ W d (t0 + dt * h) = acc3 G3h0 G3h1 (u, v, w) h d).
  { intros d h Hd. destruct (K d Hd h) as (A & B & C). destruct (H1 d Hd) as (_ & _ & X0 & V0). cbn [pos3 vel3 acc3]. rewrite <- X0, <- V0. auto. }
  split; [|exact EQ].
  assert (SAT : forall h d, In h nodes3 -> (d < N)%nat -> acc3 G3h0 G3h1 (u, v, w) h d =
     rhs2 N (o_a ode (t0 + dt * h)) (o_b ode (t0 + dt * h)) (pos3 G3h0 G3h1 dt x xdot (u, v, w) h) (vel3 G3h0 G3h1 dt x xdot (u, v, w) h) d).
  { intros h d Hh Hd. destruct (EQ d h Hd) as (_ & _ & E3). rewrite <- E3. rewrite (H2 h Hh d Hd). rewrite fsum_vsum.
    change (rhs2 N (o_a ode (t0 + dt * h)) (o_b ode (t0 + dt * h)) (fun j => X j (t0 + dt * h)) (fun j => V j (t0 + dt * h)) d = rhs2 N (o_a ode (t0 + dt * h)) (o_b ode (t0 + dt * h)) (pos3 G3h0 G3h1 dt x xdot (u, v, w) h) (vel3 G3h0 G3h1 dt x xdot (u, v, w) h) d).
    apply rhs2_ext; intros j Hj; apply (EQ j h Hj). }
  destruct (sweep3_eq G3h0 G3h1 G3h2 N (o_a ode (t0 + dt * G3h0)) (o_b ode (t0 + dt * G3h0)) (o_a ode (t0 + dt * G3h1)) (o_b ode (t0 + dt * G3h1))
     (o_a ode (t0 + dt * G3h2)) (o_b ode (t0 + dt * G3h2)) dt x xdot u v w n01 n02 n12) as (u' & v' & w' & E & F).
  unfold sw3. rewrite E. cbn [dist3].
  assert (Eu : forall d, (d < N)%nat -> u' d = u d).
  { intros d Hd. destruct (F d) as (F0 & _). rewrite <- SAT in F0 by (auto; left; reflexivity). cbn [acc3] in F0. unfold W3 in F0. lra. }
  assert (Ev : forall d, (d < N)%nat -> v' d = v d).
  { intros d Hd. destruct (F d) as (_ & F1 & _).
    rewrite (rhs2_ext N _ _ _ _ (pos3 G3h0 G3h1 dt x xdot (u, v, w) G3h1) (vel3 G3h0 G3h1 dt x xdot (u, v, w) G3h1)) in F1
      by (intros j Hj; cbn [pos3 vel3]; now rewrite (Eu j Hj)).
    rewrite <- SAT in F1 by (auto; right; left; reflexivity). cbn [acc3] in F1. rewrite (Eu d Hd) in F1. unfold W3, G3h0, G3h1 in F1. lra. }
  assert (Ew : forall d, (d < N)%nat -> w' d = w d).
  { intros d Hd. destruct (F d) as (_ & _ & F1).
    rewrite (rhs2_ext N _ _ _ _ (pos3 G3h0 G3h1 dt x xdot (u, v, w) G3h2) (vel3 G3h0 G3h1 dt x xdot (u, v, w) G3h2)) in F1
      by (intros j Hj; cbn [pos3 vel3]; now rewrite (Eu j Hj), (Ev j Hj)).
    rewrite <- SAT in F1 by (auto; right; right; left; reflexivity). cbn [acc3] in F1. rewrite (Eu d Hd), (Ev d Hd) in F1. unfold W3, G3h2, G3h0, G3h1 in F1. lra. }
  intros d Hd. rewrite Eu, Ev, Ew by assumption. rewrite !Rminus_eq_0, Rabs_R0. lra.
Qed.

(** a fixed point is a collocation solution *)
Lemma fix_colloc3 : forall N ode t0 dt x xdot c, dt <> 0 -> dist3 N (sw3 N ode t0 dt x xdot c) c 0 ->
  collocation N (o_a ode) (o_b ode) nodes3 t0 dt x xdot (fun d t => pos3 G3h0 G3h1 dt x xdot c ((t - t0) / dt) d)
    (fun d t => vel3 G3h0 G3h1 dt x xdot c ((t - t0) / dt) d) (fun d t => acc3 G3h0 G3h1 c ((t - t0) / dt) d).
Proof.
  intros N ode t0 dt x xdot c Hdt Hf. split.
  - intros d Hd. split; [split; intros t; [apply (pos3_derive G3h0 G3h1 t0 dt Hdt x xdot c d t)|apply (vel3_derive G3h0 G3h1 t0 dt Hdt x xdot c d t)]|].
    split; [apply (acc3_poly G3h0 G3h1 t0 dt Hdt)|]. replace ((t0 - t0) / dt) with 0 by (field; exact Hdt). split; [apply pos3_start|apply vel3_start].
  - destruct c as [[u v] w].
    destruct (sweep3_eq G3h0 G3h1 G3h2 N (o_a ode (t0 + dt * G3h0)) (o_b ode (t0 + dt * G3h0)) (o_a ode (t0 + dt * G3h1)) (o_b ode (t0 + dt * G3h1))
     (o_a ode (t0 + dt * G3h2)) (o_b ode (t0 + dt * G3h2)) dt x xdot u v w n01 n02 n12) as (u' & v' & w' & E & F).
    unfold sw3 in Hf. rewrite E in Hf. cbn [dist3] in Hf.
    assert (Z : forall a b : R, Rabs (a - b) <= 0 -> a = b). { intros a b Hab. apply abs_pair in Hab. lra. }
    assert (Eu : forall d, (d < N)%nat -> u' d = u d) by (intros d Hd; apply Z, (Hf d Hd)).
    assert (Ev : forall d, (d < N)%nat -> v' d = v d) by (intros d Hd; apply Z, (Hf d Hd)).
    assert (Ew : forall d, (d < N)%nat -> w' d = w d) by (intros d Hd; apply Z, (Hf d Hd)).
    intros h Hh d Hd. rewrite fsum_vsum. rewrite !hh_node by exact Hdt.
    match goal with |- _ = vsum N ?f => change (vsum N f) with (rhs2 N (o_a ode (t0 + dt * h)) (o_b ode (t0 + dt * h)) (pos3 G3h0 G3h1 dt x xdot (u, v, w) h) (vel3 G3h0 G3h1 dt x xdot (u, v, w) h) d) end.
    replace (acc3 G3h0 G3h1 (u, v, w) h d) with (acc3 G3h0 G3h1 (u', v', w') h d) by (cbn [acc3]; now rewrite Eu, Ev, Ew).
    destruct (F d) as (F0 & F1 & F2). destruct Hh as [<-|[<-|[<-|[]]]].
    + exact F0.
    + rewrite F1. apply rhs2_ext; intros j Hj; cbn [pos3 vel3]; now rewrite Eu.
    + rewrite F2. apply rhs2_ext; intros j Hj; cbn [pos3 vel3]; now rewrite Eu, Ev.
Qed.

Lemma iter_contr3 : forall N ode t0 dt x xdot al be, (forall h, In h nodes3 -> rows_le N (o_a ode (t0 + dt * h)) al /\ rows_le N (o_b ode (t0 + dt * h)) be) ->
  0 <= dt * dt * al + Rabs dt * be -> 10 * (dt * dt * al + Rabs dt * be) <= 1 ->
  forall n c c' E, 0 <= E -> dist3 N c c' E -> dist3 N (Nat.iter n (sw3 N ode t0 dt x xdot) c) (Nat.iter n (sw3 N ode t0 dt x xdot) c') ((10 * (dt * dt * al + Rabs dt * be)) ^ n * E).
Proof.
  intros N ode t0 dt x xdot al be Hm C0 C1. induction n; intros c c' E HE H.
  - cbn [Nat.iter nat_rect]. now rewrite pow_O, Rmult_1_l.
  - simpl Nat.iter. simpl pow. rewrite Rmult_assoc. apply sweep3_contr; try apply Hm; unfold nodes3; simpl; auto.
    apply Rmult_le_pos; [apply pow_le; lra|exact HE].
Qed.
Lemma dist3_trans : forall N a b c E F, dist3 N a b E -> dist3 N b c F -> dist3 N a c (E + F).
Proof.
  intros N [[u v] w] [[u' v'] w'] [[u'' v''] w''] E F H G. cbn [dist3] in *. intros d Hd. specialize (H d Hd). specialize (G d Hd).
  assert (T : forall a b c : R, Rabs (a - b) <= E -> Rabs (b - c) <= F -> Rabs (a - c) <= E + F).
  { intros a b c Ha Hb. replace (a - c) with ((a - b) + (b - c)) by ring. eapply Rle_trans; [apply Rabs_triang|]. lra. }
  repeat split; eapply T; (apply H || apply G).
Qed.
Lemma dist3_sym : forall N a b E, dist3 N a b E -> dist3 N b a E.
Proof. intros N [[u v] w] [[u' v'] w'] E H. cbn [dist3] in *. intros d Hd. rewrite (Rabs_minus_sym (u' d)), (Rabs_minus_sym (v' d)), (Rabs_minus_sym (w' d)). apply (H d Hd). Qed.

(** after n iterations, compared with a fixed point *)
Lemma iter_fix3 : forall N ode t0 dt x xdot al be, (forall h, In h nodes3 -> rows_le N (o_a ode (t0 + dt * h)) al /\ rows_le N (o_b ode (t0 + dt * h)) be) ->
  0 <= dt * dt * al + Rabs dt * be -> 10 * (dt * dt * al + Rabs dt * be) <= 1 ->
  forall n c f E, 0 <= E -> dist3 N c f E -> dist3 N (sw3 N ode t0 dt x xdot f) f 0 ->
  dist3 N (Nat.iter n (sw3 N ode t0 dt x xdot) c) f ((10 * (dt * dt * al + Rabs dt * be)) ^ n * E).
Proof.
  intros N ode t0 dt x xdot al be Hm C0 C1 n c f E HE H Hf.
  assert (K : forall m, dist3 N (Nat.iter m (sw3 N ode t0 dt x xdot) f) f 0).
  { induction m; [destruct f as [[u v] w]; cbn; intros; rewrite !Rminus_eq_0, Rabs_R0; lra|].
    replace 0 with (0 + 0) by ring. apply dist3_trans with (sw3 N ode t0 dt x xdot f); [|exact Hf].
    simpl Nat.iter. pose proof (iter_contr3 N ode t0 dt x xdot al be Hm C0 C1 1 _ _ 0 (Rle_refl _) IHm) as Q. cbn [Nat.iter nat_rect] in Q. now rewrite Rmult_0_r in Q. }
  replace (_ * E) with ((10 * (dt * dt * al + Rabs dt * be)) ^ n * E + 0) by ring.
  eapply dist3_trans; [|apply K]. now apply (iter_contr3 N ode t0 dt x xdot al be Hm C0 C1).
Qed.

Lemma fix_exists3 : forall N ode t0 dt x xdot al be, (forall h, In h nodes3 -> rows_le N (o_a ode (t0 + dt * h)) al /\ rows_le N (o_b ode (t0 + dt * h)) be) ->
  0 <= dt * dt * al + Rabs dt * be -> 10 * (dt * dt * al + Rabs dt * be) < 1 -> exists f, dist3 N (sw3 N ode t0 dt x xdot f) f 0.
Proof.
  intros N ode t0 dt x xdot al be Hm C0 C1.
  set (unf := fun c : nat -> R => ((fun d => c d), (fun d => c (N + d)%nat), (fun d => c (2 * N + d)%nat)) : uvw).
  set (fl := fun c : uvw => let '(u, v, w) := c in fun i => if Nat.ltb i N then u i else if Nat.ltb i (2 * N) then v (i - N)%nat else w (i - 2 * N)%nat).
  set (k := 10 * (dt * dt * al + Rabs dt * be)).
  assert (UF : forall c c' E, near (3 * N) c c' E -> dist3 N (unf c) (unf c') E).
  { intros c c' E H. cbn [dist3 unf]. intros d Hd. repeat split; apply H; lia. }
  assert (FL : forall c c' E, dist3 N c c' E -> near (3 * N) (fl c) (fl c') E).
  { intros [[u v] w] [[u' v'] w'] E H i Hi. cbn [dist3] in H. unfold fl. destruct (Nat.ltb i N) eqn:E1; [apply Nat.ltb_lt in E1; apply (H i E1)|].
    apply Nat.ltb_ge in E1. destruct (Nat.ltb i (2 * N)) eqn:E2; [apply Nat.ltb_lt in E2; apply (H (i - N)%nat); lia|]. apply Nat.ltb_ge in E2. apply (H (i - 2 * N)%nat); lia. }
  destruct (banach (3 * N) (fun c => fl (sw3 N ode t0 dt x xdot (unf c))) k) as (c & Hc).
  { unfold k; lra. }
  { intros c c' E HE H. apply FL. pose proof (iter_contr3 N ode t0 dt x xdot al be Hm C0 ltac:(lra) 1 (unf c) (unf c') E HE (UF _ _ _ H)) as Q. simpl in Q. fold k in Q. now rewrite Rmult_1_r in Q. }
  exists (unf c). set (r := sw3 N ode t0 dt x xdot (unf c)) in *. destruct r as [[u v] w]. cbn [dist3 unf]. intros d Hd.
  assert (A0 := Hc d ltac:(lia)). assert (A1 := Hc (N + d)%nat ltac:(lia)). assert (A2 := Hc (2 * N + d)%nat ltac:(lia)). unfold fl in A0, A1, A2.
  assert (B0 : Nat.ltb d N = true) by (apply Nat.ltb_lt; lia). assert (B1 : Nat.ltb (N + d) N = false) by (apply Nat.ltb_ge; lia).
  assert (B2 : Nat.ltb (N + d) (2 * N) = true) by (apply Nat.ltb_lt; lia). assert (B3 : Nat.ltb (2 * N + d) N = false) by (apply Nat.ltb_ge; lia).
  assert (B4 : Nat.ltb (2 * N + d) (2 * N) = false) by (apply Nat.ltb_ge; lia). rewrite B0 in A0. rewrite B1, B2 in A1. rewrite B3, B4 in A2.
  replace (N + d - N)%nat with d in A1 by lia. replace (2 * N + d - 2 * N)%nat with d in A2 by lia. auto.
Qed.

(** bounds inside the timestep, and for the coefficients in terms of the acceleration at the nodes *)
Lemma bS3_in : forall E u v w h, 0 <= h <= 1 -> - E <= u <= E -> - E <= v <= E -> - E <= w <= E -> Rabs (S3 G3h0 G3h1 u v w h) <= E.
Proof.
  intros E u v w h Hh Hu Hv Hw. unfold S3.
  assert (P2 : 0 <= h ^ 2 <= 1) by (simpl; nra). assert (P3 : 0 <= h ^ 3 <= h ^ 2) by (simpl; nra). assert (P4 : 0 <= h ^ 4 <= h ^ 3) by (simpl in *; nra).
  set (c1 := h ^ 2 / 2). set (c2 := h ^ 3 / 6 - G3h0 * h ^ 2 / 2). set (c3 := h ^ 4 / 12 - (G3h0 + G3h1) * h ^ 3 / 6 + G3h0 * G3h1 * h ^ 2 / 2).
  assert (B1 : - (1/2) <= c1 <= 1/2) by (unfold c1; lra). assert (B2 : - (1/4) <= c2 <= 1/4) by (unfold c2, G3h0; lra). assert (B3 : - (1/4) <= c3 <= 1/4) by (unfold c3, G3h0, G3h1; lra).
  apply Rabs_le. nra.
Qed.
Lemma bD3_in : forall E u v w h, 0 <= h <= 1 -> - E <= u <= E -> - E <= v <= E -> - E <= w <= E -> Rabs (D3 G3h0 G3h1 u v w h) <= 2 * E.
Proof.
  intros E u v w h Hh Hu Hv Hw. unfold D3.
  assert (P2 : 0 <= h ^ 2 <= h) by (simpl; nra). assert (P3 : 0 <= h ^ 3 <= h ^ 2) by (simpl; nra).
  set (c2 := h ^ 2 / 2 - G3h0 * h). set (c3 := h ^ 3 / 3 - (G3h0 + G3h1) * h ^ 2 / 2 + G3h0 * G3h1 * h).
  assert (B2 : - (1/2) <= c2 <= 1/2) by (unfold c2, G3h0; lra). assert (B3 : - (1/2) <= c3 <= 1/2) by (unfold c3, G3h0, G3h1; lra).
  apply Rabs_le. nra.
Qed.
Lemma W3_bound : forall M u v w, Rabs (W3 G3h0 G3h1 u v w G3h0) <= M -> Rabs (W3 G3h0 G3h1 u v w G3h1) <= M -> Rabs (W3 G3h0 G3h1 u v w G3h2) <= M ->
  Rabs u <= 14 * M /\ Rabs v <= 14 * M /\ Rabs w <= 14 * M.
Proof.
  intros M u v w A0 A1 A2. apply abs_pair in A0, A1, A2. revert A0 A1 A2. unfold W3, G3h2, G3h1, G3h0. intros. repeat split; apply Rabs_le; lra.
Qed.
