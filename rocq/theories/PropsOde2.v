(** C60: solvers of linear second-order systems x'' = A(t) x + B(t) x' (Ode2SolverGL3, Ode2SolverGL4) *)
From Coq Require Import Reals Lra Lia List Arith Bool.
From Coquelicot Require Import Coquelicot.
From Verif Require Import RandReal PolyModel PolyProofs OdeModel OdeProofs Ode2Model Ode2Proofs Ode2Proofs2 Ode2Proofs3 Ode2Proofs4 Ode2Proofs5 Ode2Proofs6 Ode2Proofs7 Ode2Proofs8 Ode2Proofs9 Ode2Spec.
Import ListNotations.
Local Open Scope R_scope.

(** the nodes of the two solvers in units of the timestep *)
Definition gauss3 : list R := [0.1127016653792583; 0.5; 1 - 0.1127016653792583].
Definition gauss4 : list R := [0.069431844202973713; 0.33000947820757187; 1 - 0.33000947820757187; 1 - 0.069431844202973713].

Lemma collocation_ext N A B nodes t0 dt x0 v0 x1 v1 X V W : (forall d, (d < N)%nat -> x0 d = x1 d /\ v0 d = v1 d) ->
  collocation N A B nodes t0 dt x0 v0 X V W -> collocation N A B nodes t0 dt x1 v1 X V W.
Proof. intros E (H1 & H2). split; [|exact H2]. intros d Hd. destruct (H1 d Hd) as (P & Q & P1 & P2). destruct (E d Hd) as (<- & <-). auto. Qed.

(** the constructors throw an exception if there are no vectors or the size of the system is wrong; otherwise the time is zero *)
Theorem C60_construct N ode nv : match new2 N ode nv with None => nv = 0%nat \/ o_size ode <> (2 * N)%nat | Some s => (0 < nv)%nat /\ o_size ode = (2 * N)%nat /\ s_time s = 0 end.
Proof.
  unfold new2. destruct (Nat.leb nv 0) eqn:E; [left; apply Nat.leb_le in E; lia|]. apply Nat.leb_gt in E.
  destruct (Nat.eqb (o_size ode) (N * 2)) eqn:F; cbn [negb]; [apply Nat.eqb_eq in F|apply Nat.eqb_neq in F]; [|right; lia]. cbn [s_time]. repeat split; lia.
Qed.

(** an index is out of range exactly when it is not below the total number of variables *)
Theorem C60_index nv N s t i : (0 < N)%nat -> (getSol3 N nv s t i = None <-> (nv * (2 * N) <= i)%nat) /\ (getSol4 N nv s t i = None <-> (nv * (2 * N) <= i)%nat).
Proof.
  intros HN. destruct (Nat.lt_ge_cases i (nv * (2 * N))) as [L|L].
  - destruct (getSol_in nv N s t i HN L) as ((a & Ea) & (b & Eb)). rewrite Ea, Eb. split; split; (discriminate || lia).
  - destruct (getSol_out nv N s t i HN L) as (-> & ->). split; split; auto.
Qed.

(** after init the solution at the current time is the given state, for all vectors and variables; the time is changed only if it was given *)
Theorem C60_init N nv st t0 s i : (i < nv * (2 * N))%nat ->
  let t := match t0 with Some t => t | None => s_time s end in
  getSol3 N nv (init2 5 N nv st t0 s) t i = Some (st i) /\ getSol4 N nv (init2 6 N nv st t0 s) t i = Some (st i).
Proof.
  intros Hi t. set (v := (i / (2 * N))%nat). assert (Hv : (v < nv)%nat) by (apply Nat.div_lt_upper_bound; lia).
  assert (Ei : i = (v * (2 * N) + i mod (2 * N))%nat) by (rewrite Nat.mul_comm; apply Nat.div_mod; lia).
  assert (Hm := Nat.mod_upper_bound i (2 * N) ltac:(lia)). set (j := (i mod (2 * N))%nat) in *. clearbody j v. subst i.
  assert (E : forall nb, s_time (init2 nb N nv st t0 s) = t) by reflexivity.
  destruct (Nat.lt_ge_cases j N) as [Hj|Hj].
  - destruct (init3_sol N nv st t0 s v j t Hv Hj) as (-> & _). destruct (init4_sol N nv st t0 s v j t Hv Hj) as (-> & _). rewrite !E. split; f_equal; ring.
  - replace j with (N + (j - N))%nat by lia. destruct (init3_sol N nv st t0 s v (j - N) t Hv ltac:(lia)) as (_ & ->). destruct (init4_sol N nv st t0 s v (j - N) t Hv ltac:(lia)) as (_ & ->). auto.
Qed.

(** each step advances the time by dt *)
Theorem C60_time N nv ode dts s : s_time (run3 N nv ode dts s) = s_time s + fold_right Rplus 0 dts /\ s_time (run4 N nv ode dts s) = s_time s + fold_right Rplus 0 dts.
Proof. split; [apply run_time3|apply run_time4]. Qed.

(** GL3: the interpolated solution after the step, taken at the beginning of the step, is the state before the step *)
Theorem C60_continuous_gl3 N nv ode dt s i : (0 < N)%nat -> dt <> 0 ->
  getSol3 N nv (doStep3 N nv ode dt s) (s_time s) i = getSol3 N nv s (s_time s) i.
Proof. apply continuity3. Qed.
(** GL3: at any time the interpolated velocity is the derivative of the interpolated position *)
Theorem C60_velocity_gl3 N nv s v d : (v < nv)%nat -> (d < N)%nat -> exists X V,
  (forall t, getSol3 N nv s t (v * (2 * N) + d) = Some (X t)) /\ (forall t, getSol3 N nv s t (v * (2 * N) + (N + d)) = Some (V t)) /\ (forall t, is_derive X t (V t)).
Proof. apply velocity3. Qed.

(** GL4: the same for positions only, and the velocity is the derivative of position only at the current time: there is an additional term otherwise *)
Theorem C60_continuous_gl4_partial N nv ode dt s v d : (v < nv)%nat -> (d < N)%nat -> dt <> 0 ->
  getSol4 N nv (doStep4 N nv ode dt s) (s_time s) (v * (2 * N) + d) = getSol4 N nv s (s_time s) (v * (2 * N) + d).
Proof. apply continuity4. Qed.
Theorem C60_velocity_gl4_partial N nv s v d : (v < nv)%nat -> (d < N)%nat -> exists X V e,
  (forall t, getSol4 N nv s t (v * (2 * N) + d) = Some (X t)) /\ (forall t, is_derive X t (V t)) /\ (forall t, getSol4 N nv s t (v * (2 * N) + (N + d)) = Some (V t + e * (t - s_time s) ^ 4)).
Proof. apply velocity4. Qed.

(** The extra term is real: for x1'' = t^3 x2, x2'' = 0 with x1=0, x2=1 at rest at t=0 and the step dt=1, the velocity of x1 at the beginning of the step is zero before the step,
    and 3/4 if asked after the step, while the interpolated position has a zero derivative there: a misplaced parenthesis in getSol *)
Definition cubic_ode : ode2 := mkOde2 4 (fun t k => if Nat.eqb k 1 then t ^ 3 else 0) (fun _ _ => 0).
Definition cubic_init : nat -> R := fun i => if Nat.eqb i 1 then 1 else 0.
Lemma cubic_sweep c : let P (c : uvwz) := let '(u, v, w, z) := c in u 1%nat = 0 /\ v 1%nat = 0 /\ w 1%nat = 0 /\ z 1%nat = 0 in
  let Q (c : uvwz) := let '(u, v, w, z) := c in forall h, acc4 G4h0 G4h1 G4h2 c h 0%nat = h ^ 3 in
  forall x y, x 1%nat = 1 -> y 1%nat = 0 -> P c -> P (sw4 2 cubic_ode 0 1 x y c) /\ Q (sw4 2 cubic_ode 0 1 x y c).
Proof.
  destruct c as [[[u v] w] z]. intros P Q x y Hx Hy HP. unfold P in HP. destruct HP as (U & V & W & Z). unfold sw4.
  match goal with |- context [sweep4 _ _ _ _ _ ?a0 ?b0 ?a1 ?b1 ?a2 ?b2 ?a3 ?b3 ?dt x y (u, v, w, z)] =>
    destruct (sweep4_eqn 2 a0 b0 a1 b1 a2 b2 a3 b3 dt x y u v w z) as (u1 & v1 & w1 & z1 & E & F) end.
  rewrite E. clear E. unfold P, Q.
  assert (R1 : forall t X Y, rhs2 2 (o_a cubic_ode t) (o_b cubic_ode t) X Y 1%nat = 0) by (intros; unfold rhs2; cbn; ring).
  assert (R0 : forall t X Y, X 1%nat = 1 -> rhs2 2 (o_a cubic_ode t) (o_b cubic_ode t) X Y 0%nat = t ^ 3) by (intros t X Y HX; unfold rhs2; cbn; rewrite HX; ring).
  assert (Z1 : u1 1%nat = 0 /\ v1 1%nat = 0 /\ w1 1%nat = 0 /\ z1 1%nat = 0).
  { destruct (F 1%nat) as (A & B & C & D). rewrite R1 in A, B, C, D. cbn [acc4] in A, B, C, D. unfold W4, G4h3, G4h2, G4h1, G4h0 in A, B, C, D.
    assert (u1 1%nat = 0) by lra. assert (v1 1%nat = 0) by lra. assert (w1 1%nat = 0) by lra. repeat split; lra. }
  split; [exact Z1|]. destruct Z1 as (U1 & V1 & W1 & Z1).
  destruct (F 0%nat) as (A & B & C & D). rewrite R0 in A, B, C, D by (cbn [pos4]; unfold S4; rewrite ?Hx, ?Hy, ?U, ?V, ?W, ?Z, ?U1, ?V1, ?W1; ring).
  cbn [acc4] in A, B, C, D |- *. unfold W4, G4h3, G4h2, G4h1, G4h0 in A, B, C, D |- *.
  assert (u1 0%nat = 0.069431844202973713 ^ 3) as -> by lra.
  assert (v1 0%nat = 0.069431844202973713 ^ 2 + 0.069431844202973713 * 0.33000947820757187 + 0.33000947820757187 ^ 2) as -> by lra.
  assert (w1 0%nat = 1 + 0.069431844202973713) as -> by lra. assert (z1 0%nat = 1) as -> by lra. intros h. lra.
Qed.
Lemma cubic_iter x y c0 n : x 1%nat = 1 -> y 1%nat = 0 -> (let '(u, v, w, z) := c0 in u 1%nat = 0 /\ v 1%nat = 0 /\ w 1%nat = 0 /\ z 1%nat = 0) ->
  forall h, acc4 G4h0 G4h1 G4h2 (Nat.iter (S n) (sw4 2 cubic_ode 0 1 x y) c0) h 0%nat = h ^ 3.
Proof.
  intros Hx Hy P0.
  assert (I : forall n, let '(u, v, w, z) := Nat.iter n (sw4 2 cubic_ode 0 1 x y) c0 in u 1%nat = 0 /\ v 1%nat = 0 /\ w 1%nat = 0 /\ z 1%nat = 0).
  { induction n0 as [|m IH]; [exact P0|]. apply (proj1 (cubic_sweep _ x y Hx Hy IH)). }
  pose proof (proj2 (cubic_sweep _ x y Hx Hy (I n))) as Q. cbv beta zeta in Q.
  change (Nat.iter (S n) (sw4 2 cubic_ode 0 1 x y) c0) with (sw4 2 cubic_ode 0 1 x y (Nat.iter n (sw4 2 cubic_ode 0 1 x y) c0)).
  destruct (sw4 2 cubic_ode 0 1 x y (Nat.iter n (sw4 2 cubic_ode 0 1 x y) c0)) as [[[u v] w] z]. exact Q.
Qed.
Lemma cubic_step s0 : s_time s0 = 0 -> s_new s0 = true -> (forall k d, (k < 6)%nat -> (d < 2)%nat -> blk 6 2 (s_state s0) 0 k d = if (Nat.eqb k 0 && Nat.eqb d 1)%bool then 1 else 0) ->
  getSol4 2 1 (doStep4 2 1 cubic_ode 1 s0) 0 2 = Some (3 / 4) /\ forall X, (forall t, getSol4 2 1 (doStep4 2 1 cubic_ode 1 s0) t 0 = Some (X t)) -> is_derive X 0 0.
Proof.
  intros T0 N0 B. unfold doStep4. rewrite N0. set (n := numIter4 true).
  set (s1 := step4_ _ _ _ _ _ _ _ _ _ _).
  assert (K : forall h, acc4 G4h0 G4h1 G4h2 (coef4 G4h0 G4h1 G4h2 G4h3 2 cubic_ode n 1 s0 0) h 0%nat = h ^ 3).
  { rewrite doStep4_coef, T0. apply (cubic_iter _ _ _ 7); [rewrite B by lia; reflexivity|rewrite B by lia; reflexivity|].
    cbn [predict4]. rewrite !B by lia. cbn [Nat.eqb andb]. repeat split; ring. }
  pose proof (step4_vel G4h0 G4h1 G4h2 G4h3 2 1 cubic_ode n 1 s0 0 0 0 ltac:(lia) ltac:(lia) ltac:(lra)) as EV.
  pose proof (fun h => step4_pos G4h0 G4h1 G4h2 G4h3 2 1 cubic_ode n 1 s0 0 0 h ltac:(lia) ltac:(lia) ltac:(lra)) as EX.
  fold s1 in EV, EX. rewrite T0 in EV. 
  destruct (coef4 G4h0 G4h1 G4h2 G4h3 2 cubic_ode n 1 s0 0) as [[[u v] w] z]. clearbody s1 n. cbn [pos4 vel4 acc4] in EV, EX, K. rewrite !B in EV by lia.
  assert (EX' : forall h, getSol4 2 1 s1 h 0 = Some (S4 G4h0 G4h1 G4h2 (u 0%nat) (v 0%nat) (w 0%nat) (z 0%nat) h)).
  { intros h. specialize (EX h). rewrite !B, T0 in EX by lia. cbn [Nat.eqb andb Nat.add Nat.mul] in EX. rewrite Rplus_0_l, Rmult_1_l in EX. rewrite EX. f_equal. ring. } clear EX.
  cbn [Nat.eqb andb Nat.add Nat.mul] in EV. rewrite Rplus_0_l, Rmult_1_l in EV.
  assert (C : u 0%nat - G4h0 * v 0%nat + G4h0 * G4h1 * w 0%nat - G4h0 * G4h1 * G4h2 * z 0%nat = 0 /\ z 0%nat = 1).
  { unfold W4 in K. pose proof (K 0). pose proof (K 1). pose proof (K 2). pose proof (K 3). unfold G4h2, G4h1, G4h0 in *. split; lra. }
  split.
  - rewrite EV. f_equal. unfold D4. rewrite (proj2 C). field.
  - intros X HX. assert (E : forall t, X t = S4 G4h0 G4h1 G4h2 (u 0%nat) (v 0%nat) (w 0%nat) (z 0%nat) t).
    { intros t. specialize (EX' t). rewrite HX in EX'. injection EX' as ->. reflexivity. }
    apply (is_derive_ext (S4 G4h0 G4h1 G4h2 (u 0%nat) (v 0%nat) (w 0%nat) (z 0%nat))); [intros; symmetry; apply E|]. unfold S4. auto_derive; [auto|]. simpl. field.
Qed.
Theorem C60_velocity_gl4_refuted s : exists ode st, o_size ode = 4%nat /\
  let s0 := init2 6 2 1 st (Some 0) s in let s1 := doStep4 2 1 ode 1 s0 in
  getSol4 2 1 s0 0 2 = Some 0 /\ getSol4 2 1 s1 0 2 = Some (3 / 4) /\
  forall X, (forall t, getSol4 2 1 s1 t 0 = Some (X t)) -> is_derive X 0 0.
Proof.
  exists cubic_ode, cubic_init. split; [reflexivity|]. cbv zeta. split.
  - exact (proj2 (C60_init 2 1 cubic_init (Some 0) s 2 ltac:(lia))).
  - apply cubic_step; [reflexivity|reflexivity|]. intros k d Hk Hd. rewrite blk_init2 by lia. destruct k as [|[|k]]; destruct d as [|[|d]]; try lia; reflexivity.
Qed.

(** GL3: if the timestep is short (10 (|A| dt^2 + |B| |dt|) < 1), the collocation problem at the three nodes - a fourth-degree polynomial in time with the current position and velocity which
    satisfies the equation at the nodes - has a unique solution, and the interpolated solution (both position and velocity, anywhere within the timestep) differs from it by at most a constant times k^n,
    where n=6 for the first step after init and n=3 otherwise, and M bounds the difference between the extrapolated acceleration from the previous step and that of the collocation solution *)
Theorem C60_collocation_gl3 N nv ode dt s v al be x0 v0 : (v < nv)%nat -> dt <> 0 -> 0 <= al -> 0 <= be ->
  (forall h, In h gauss3 -> rows_le N (o_a ode (s_time s + dt * h)) al /\ rows_le N (o_b ode (s_time s + dt * h)) be) ->
  (forall d, (d < N)%nat -> getSol3 N nv s (s_time s) (v * (2 * N) + d) = Some (x0 d) /\ getSol3 N nv s (s_time s) (v * (2 * N) + (N + d)) = Some (v0 d)) ->
  let k := 10 * (dt * dt * al + Rabs dt * be) in k < 1 ->
  let n := if s_new s then 6%nat else 3%nat in
  exists X V W, collocation N (o_a ode) (o_b ode) gauss3 (s_time s) dt x0 v0 X V W /\
  (forall X' V' W', collocation N (o_a ode) (o_b ode) gauss3 (s_time s) dt x0 v0 X' V' W' -> forall d t, (d < N)%nat -> X' d t = X d t /\ V' d t = V d t) /\
  forall M, 0 <= M ->
  (forall d, (d < N)%nat -> exists Y0 V0 W0, motion Y0 V0 W0 /\ (forall t, getSol3 N nv s t (v * (2 * N) + d) = Some (Y0 t)) /\
     forall h, In h gauss3 -> Rabs (W0 (s_time s + dt * h) - W d (s_time s + dt * h)) <= M) ->
  forall d h, (d < N)%nat -> 0 <= h <= 1 ->
  (exists y, getSol3 N nv (doStep3 N nv ode dt s) (s_time s + dt * h) (v * (2 * N) + d) = Some y /\ Rabs (y - X d (s_time s + dt * h)) <= 14 * M * dt * dt * k ^ n) /\
  (exists y, getSol3 N nv (doStep3 N nv ode dt s) (s_time s + dt * h) (v * (2 * N) + (N + d)) = Some y /\ Rabs (y - V d (s_time s + dt * h)) <= 28 * M * Rabs dt * k ^ n).
Proof.
  intros Hv Hdt Hal Hbe Hm Hx k Hk n.
  assert (Ex : forall d, (d < N)%nat -> blk 5 N (s_state s) v 0 d = x0 d /\ blk 5 N (s_state s) v 1 d = v0 d).
  { intros d Hd. destruct (Hx d Hd) as (A & B). rewrite getSol3_pos in A by assumption. rewrite getSol3_vel in B by assumption. cbv beta zeta in A, B.
    injection A as <-. injection B as <-. split; ring. }
  destruct (collocation3 N nv ode dt s v al be Hv Hdt Hal Hbe Hm Hk) as ((X & V & W & HC) & HB).
  exists X, V, W. split; [|split].
  - eapply collocation_ext; [|exact HC]. exact Ex.
  - intros X' V' W' H' d t Hd. eapply (collocation3_unique N ode (s_time s) dt x0 v0 al be Hdt Hal Hbe Hm Hk); [exact H'| |exact Hd]. eapply collocation_ext; [|exact HC]. exact Ex.
  - intros M HM Hp d h Hd Hh. exact (HB X V W HC M HM Hp d h Hd Hh).
Qed.
(** GL4: the same with four nodes and a fifth-degree polynomial; but the velocity only at the end of the timestep *)
Theorem C60_collocation_gl4_partial N nv ode dt s v al be x0 v0 : (v < nv)%nat -> dt <> 0 -> 0 <= al -> 0 <= be ->
  (forall h, In h gauss4 -> rows_le N (o_a ode (s_time s + dt * h)) al /\ rows_le N (o_b ode (s_time s + dt * h)) be) ->
  (forall d, (d < N)%nat -> getSol4 N nv s (s_time s) (v * (2 * N) + d) = Some (x0 d) /\ getSol4 N nv s (s_time s) (v * (2 * N) + (N + d)) = Some (v0 d)) ->
  let k := 59 * (dt * dt * al + Rabs dt * be) in k < 1 ->
  let n := if s_new s then 8%nat else 4%nat in
  exists X V W, collocation N (o_a ode) (o_b ode) gauss4 (s_time s) dt x0 v0 X V W /\
  (forall X' V' W', collocation N (o_a ode) (o_b ode) gauss4 (s_time s) dt x0 v0 X' V' W' -> forall d t, (d < N)%nat -> X' d t = X d t /\ V' d t = V d t) /\
  forall M, 0 <= M ->
  (forall d, (d < N)%nat -> exists Y0 V0 W0, motion Y0 V0 W0 /\ (forall t, getSol4 N nv s t (v * (2 * N) + d) = Some (Y0 t)) /\
     forall h, In h gauss4 -> Rabs (W0 (s_time s + dt * h) - W d (s_time s + dt * h)) <= M) ->
  forall d h, (d < N)%nat -> 0 <= h <= 1 ->
  (exists y, getSol4 N nv (doStep4 N nv ode dt s) (s_time s + dt * h) (v * (2 * N) + d) = Some y /\ Rabs (y - X d (s_time s + dt * h)) <= 53 * M * dt * dt * k ^ n) /\
  (exists y, getSol4 N nv (doStep4 N nv ode dt s) (s_time s + dt) (v * (2 * N) + (N + d)) = Some y /\ Rabs (y - V d (s_time s + dt)) <= 106 * M * Rabs dt * k ^ n).
Proof.
  intros Hv Hdt Hal Hbe Hm Hx k Hk n.
  assert (Ex : forall d, (d < N)%nat -> blk 6 N (s_state s) v 0 d = x0 d /\ blk 6 N (s_state s) v 1 d = v0 d).
  { intros d Hd. destruct (Hx d Hd) as (A & B). rewrite getSol4_pos in A by assumption. rewrite getSol4_vel in B by assumption. cbv beta zeta in A, B.
    injection A as <-. injection B as <-. split; ring. }
  destruct (collocation4 N nv ode dt s v al be Hv Hdt Hal Hbe Hm Hk) as ((X & V & W & HC) & HB).
  exists X, V, W. split; [|split].
  - eapply collocation_ext; [|exact HC]. exact Ex.
  - intros X' V' W' H' d t Hd. eapply (collocation4_unique N ode (s_time s) dt x0 v0 al be Hdt Hal Hbe Hm Hk); [exact H'| |exact Hd]. eapply collocation_ext; [|exact HC]. exact Ex.
  - intros M HM Hp d h Hd Hh. exact (HB X V W HC M HM Hp d h Hd Hh).
Qed.

(** the nodes are the Gauss-Legendre ones with an error below 1e-16: the roots of the shifted Legendre polynomials of degrees 3 and 4 *)
Lemma root_near (P : R -> R) a e : (forall x, continuous P x) -> 0 < e -> P (a - e) * P (a + e) < 0 -> exists r, P r = 0 /\ Rabs (r - a) <= e.
Proof.
  intros Hc He Hs. 
  assert (K : exists r, Rmin (a - e) (a + e) <= r <= Rmax (a - e) (a + e) /\ P r = 0).
  { destruct (IVT_gen P (a - e) (a + e) 0) as (r & Hr); [| |exists r; exact Hr].
    - intros x. apply continuity_pt_filterlim. apply Hc.
    - destruct (Rlt_le_dec (P (a - e)) 0) as [L|L].
      + assert (0 <= P (a + e)) by nra. rewrite Rmin_left, Rmax_right by lra. lra.
      + assert (P (a + e) <= 0) by nra. rewrite Rmin_right, Rmax_left by lra. lra. }
  destruct K as (r & Hr & E). exists r. split; [exact E|]. rewrite Rmin_left, Rmax_right in Hr by lra. apply Rabs_le. lra.
Qed.
Theorem C60_nodes : (forall h, In h gauss3 -> exists r, 20 * r ^ 3 - 30 * r ^ 2 + 12 * r - 1 = 0 /\ Rabs (r - h) <= / 10 ^ 16) /\
  (forall h, In h gauss4 -> exists r, 70 * r ^ 4 - 140 * r ^ 3 + 90 * r ^ 2 - 20 * r + 1 = 0 /\ Rabs (r - h) <= / 10 ^ 16).
Proof.
  assert (C3 : forall x, continuous (fun r => 20 * r ^ 3 - 30 * r ^ 2 + 12 * r - 1) x) by (intros; apply (@ex_derive_continuous R_AbsRing R_NormedModule); auto_derive; auto).
  assert (C4 : forall x, continuous (fun r => 70 * r ^ 4 - 140 * r ^ 3 + 90 * r ^ 2 - 20 * r + 1) x) by (intros; apply (@ex_derive_continuous R_AbsRing R_NormedModule); auto_derive; auto).
  split; intros h H; [apply (root_near _ h (/ 10 ^ 16) C3)|apply (root_near _ h (/ 10 ^ 16) C4)]; try lra;
    repeat (destruct H as [<-|H]; [lra|]); destruct H.
Qed.

(** If the exact solution is a polynomial of degree <= 4 (GL3) or <= 5 (GL4) in time, and the solver follows it at the moment, then it follows it exactly after any sequence of timesteps.
    The hypothesis holds after init if the motion is uniform, and below for the rest *)
Theorem C60_exact_gl3 N nv ode v X V W dts s : (v < nv)%nat ->
  (forall d, (d < N)%nat -> motion (X d) (V d) (W d) /\ poly_deg 2 (W d)) -> (forall t, satisfies N (o_a ode) (o_b ode) X V W t) -> Forall (fun dt => dt <> 0) dts ->
  (forall d t, (d < N)%nat -> getSol3 N nv s t (v * (2 * N) + d) = Some (X d t) /\ getSol3 N nv s t (v * (2 * N) + (N + d)) = Some (V d t)) ->
  forall d t, (d < N)%nat -> getSol3 N nv (run3 N nv ode dts s) t (v * (2 * N) + d) = Some (X d t) /\ getSol3 N nv (run3 N nv ode dts s) t (v * (2 * N) + (N + d)) = Some (V d t).
Proof. intros Hv Hm Hs Hd Hf. exact (exact_run3 N nv ode v X V W Hv Hm Hs dts s Hd Hf). Qed.
Theorem C60_exact_gl4_partial N nv ode v X V W dts s : (v < nv)%nat ->
  (forall d, (d < N)%nat -> motion (X d) (V d) (W d) /\ poly_deg 3 (W d)) -> (forall t, satisfies N (o_a ode) (o_b ode) X V W t) -> Forall (fun dt => dt <> 0) dts ->
  (forall d, (d < N)%nat -> (forall t, getSol4 N nv s t (v * (2 * N) + d) = Some (X d t)) /\ getSol4 N nv s (s_time s) (v * (2 * N) + (N + d)) = Some (V d (s_time s))) ->
  let s' := run4 N nv ode dts s in
  forall d, (d < N)%nat -> (forall t, getSol4 N nv s' t (v * (2 * N) + d) = Some (X d t)) /\ getSol4 N nv s' (s_time s') (v * (2 * N) + (N + d)) = Some (V d (s_time s')).
Proof. intros Hv Hm Hs Hd Hf. exact (exact_run4 N nv ode v X V W Hv Hm Hs dts s Hd Hf). Qed.

(** Superposition: the solution is a linear function of the initial conditions, in any sequence of timesteps; each vector is integrated independently of the others and of their number
    (l = 1, m = 0 means that the same initial conditions in a different place of a different solver produce the same result) *)
Theorem C60_linear N ode l m nA nB nC vA vB vC stA stB stC t0 sA sB sC dts : (vA < nA)%nat -> (vB < nB)%nat -> (vC < nC)%nat -> Forall (fun dt => dt <> 0) dts ->
  (forall j, (j < 2 * N)%nat -> stA (vA * (2 * N) + j)%nat = l * stB (vB * (2 * N) + j)%nat + m * stC (vC * (2 * N) + j)%nat) ->
  forall t j, (j < 2 * N)%nat ->
  (exists a b c, getSol3 N nA (run3 N nA ode dts (init2 5 N nA stA (Some t0) sA)) t (vA * (2 * N) + j) = Some a /\ getSol3 N nB (run3 N nB ode dts (init2 5 N nB stB (Some t0) sB)) t (vB * (2 * N) + j) = Some b /\
    getSol3 N nC (run3 N nC ode dts (init2 5 N nC stC (Some t0) sC)) t (vC * (2 * N) + j) = Some c /\ a = l * b + m * c) /\
  (exists a b c, getSol4 N nA (run4 N nA ode dts (init2 6 N nA stA (Some t0) sA)) t (vA * (2 * N) + j) = Some a /\ getSol4 N nB (run4 N nB ode dts (init2 6 N nB stB (Some t0) sB)) t (vB * (2 * N) + j) = Some b /\
    getSol4 N nC (run4 N nC ode dts (init2 6 N nC stC (Some t0) sC)) t (vC * (2 * N) + j) = Some c /\ a = l * b + m * c).
Proof.
  intros HA HB HC Hd H t j Hj. split.
  - apply (rel_sol3 N l m nA nB nC vA vB vC); auto. apply run_lin3; auto. apply init_rel; (assumption || lia).
  - apply (rel_sol4 N l m nA nB nC vA vB vC); auto. apply run_lin4; auto. apply init_rel; (assumption || lia).
Qed.

(** ** Concrete cases *)
(** the harmonic oscillator x'' = -x, the step 1/10: the hypotheses of the convergence theorems (k = 1/10 and 0.59) *)
Definition osc : ode2 := mkOde2 2 (fun _ _ => -1) (fun _ _ => 0).
Example C60_ex_osc s st : let s0 := init2 5 1 1 st (Some 0) s in let s4 := init2 6 1 1 st (Some 0) s in
  (forall h, In h gauss3 -> rows_le 1 (o_a osc (s_time s0 + 0.1 * h)) 1 /\ rows_le 1 (o_b osc (s_time s0 + 0.1 * h)) 0) /\
  10 * (0.1 * 0.1 * 1 + Rabs 0.1 * 0) < 1 /\ 59 * (0.1 * 0.1 * 1 + Rabs 0.1 * 0) < 1 /\
  getSol3 1 1 s0 (s_time s0) (0 * (2 * 1) + 0) = Some (st 0%nat) /\ getSol4 1 1 s4 (s_time s4) (0 * (2 * 1) + (1 + 0)) = Some (st 1%nat) /\ new2 1 osc 1 <> None /\
  exists Y0 V0 W0, motion Y0 V0 W0 /\ (forall t, getSol3 1 1 s0 t (0 * (2 * 1) + 0) = Some (Y0 t)) /\ forall t, W0 t = 0.
Proof.
  intros s0 s4. split; [|split; [lra|split; [lra|split; [|split; [|split; [discriminate|]]]]]].
  - intros h _. split; intros d Hd; cbn [fsum o_a o_b osc]; [rewrite Rabs_left by lra|rewrite Rabs_R0]; lra.
  - exact (proj1 (C60_init 1 1 st (Some 0) s 0 ltac:(lia))).
  - exact (proj2 (C60_init 1 1 st (Some 0) s 1 ltac:(lia))).
  - exists (fun t => st 0%nat + t * st 1%nat), (fun _ => st 1%nat), (fun _ => 0). split; [|split; [|reflexivity]].
    + split; intros t; auto_derive; auto; ring.
    + intros t. destruct (init3_sol 1 1 st (Some 0) s 0 0 t ltac:(lia) ltac:(lia)) as (E & _). unfold s0. rewrite E. cbn. f_equal. ring.
Qed.
(** a two-dimensional system whose exact solution is x1 = t^4/12 , x2 = 1 (x1'' = t^2 x2): hypotheses of the exactness theorem *)
Definition quad_ode : ode2 := mkOde2 4 (fun t k => if Nat.eqb k 1 then t ^ 2 else 0) (fun _ _ => 0).
Example C60_ex_exact : let X d t := if Nat.eqb d 0 then t ^ 4 / 12 else 1 in let V d t := if Nat.eqb d 0 then t ^ 3 / 3 else 0 in let W d t := if Nat.eqb d 0 then t ^ 2 else 0 in
  (forall d, (d < 2)%nat -> motion (X d) (V d) (W d) /\ poly_deg 2 (W d) /\ poly_deg 3 (W d)) /\ (forall t, satisfies 2 (o_a quad_ode) (o_b quad_ode) X V W t) /\
  exists s, forall d t, (d < 2)%nat -> getSol3 2 1 s t (0 * (2 * 2) + d) = Some (X d t) /\ getSol3 2 1 s t (0 * (2 * 2) + (2 + d)) = Some (V d t).
Proof.
  intros X V W. split; [|split].
  - intros d Hd. destruct d as [|[|d]]; [| |lia]; unfold X, V, W; cbn [Nat.eqb]; (split; [split; intros t; auto_derive; auto; field|]).
    + split; exists (fun k => if Nat.eqb k 2 then 1 else 0); intros t; cbn; ring.
    + split; exists (fun k => 0); intros t; cbn; ring.
  - intros t d Hd. destruct d as [|[|d]]; [| |lia]; unfold X, V, W; cbn; field.
  - exists (mkSol2 (fun i => nth i [0; 1; 0; 0; 0; 0; 0; 0; 1 / 12; 0] 0) 0 false). intros d t Hd.
    rewrite getSol3_pos, getSol3_vel by lia. destruct d as [|[|d]]; [| |lia]; unfold X, V, blk; cbn; split; f_equal; field.
Qed.
Example C60_ex_steps : Forall (fun dt => dt <> 0) [0.1; -0.2; 3]. Proof. repeat constructor; lra. Qed.

Print Assumptions C60_construct. Print Assumptions C60_index. Print Assumptions C60_init. Print Assumptions C60_time. Print Assumptions C60_continuous_gl3. Print Assumptions C60_velocity_gl3.
Print Assumptions C60_continuous_gl4_partial. Print Assumptions C60_velocity_gl4_partial. Print Assumptions C60_velocity_gl4_refuted. Print Assumptions C60_collocation_gl3. Print Assumptions C60_collocation_gl4_partial.
Print Assumptions C60_nodes. Print Assumptions C60_exact_gl3. Print Assumptions C60_exact_gl4_partial. Print Assumptions C60_linear.
