(** C29: the orbit integrators solve Newton's equations of motion in the (optionally rotating) potential *)
From Coq Require Import Reals Lra Psatz Bool ZArith Lia.
From Coquelicot Require Import Coquelicot.
From Verif Require Import RandReal RandRealProofs PolyModel PolyProofs MathModel MathProofs CoordModel CoordSpec CoordCalc CoordMaps CoordVel OrientModel OrientSpec PotModel PotSpec OrbitModel OrbitSpec OrbitProofs OrbitProofs2 OrbitProofs3 PropsPot RootProofs.
Local Open Scope R_scope.

(** initial conditions are reproduced by the solution at the initial time *)
Theorem C29_initial_conditions Om t ic : out_Car Om t (init_Car Om t ic) = ic /\ out_Cyl (init_Cyl ic) = ic /\ out_Sph (init_Sph ic) = ic.
Proof.
  split; [|split].
  - rewrite out_Car_eq. destruct ic as [[[x y] z] [[vx vy] vz]]. unfold init_Car. destruct (Req_EM_T Om 0) as [-> | N].
    + rewrite Req_b_t by reflexivity. rewrite Rmult_0_l. unfold rotZ. rewrite cos_0, sin_0. unv. apply pv_eq; cbn [fst snd]; apply v_eq; ring.
    + rewrite Req_b_f by exact N. unfold rotZ. unv. pose proof (cs1 (Om * t)) as CS. csgen (Om * t). apply pv_eq; cbn [fst snd]; apply v_eq; ring [CS].
  - unfold out_Cyl, init_Cyl. rewrite (proj1 (getSol_Cyl_same _)). apply CY_YC.
  - unfold out_Sph, init_Sph. rewrite (proj1 (getSol_Sph_same _)). apply CS_SC.
Qed.
(** the solution is normalised (R >= 0; r >= 0, 0 <= theta <= pi, 0 <= phi < 2 pi) without changing the position and velocity that it represents,
    for any values of the integration variables, including those beyond the coordinate singularities *)
Theorem C29_normalisation d : out_Cyl d = toPosVel_YC d /\ 0 <= v1 (fst (getSol_Cyl d)) /\
  out_Sph d = toPosVel_SC d /\ 0 <= v1 (fst (getSol_Sph d)) /\ 0 <= v2 (fst (getSol_Sph d)) <= PI /\ 0 <= v3 (fst (getSol_Sph d)) < 2 * PI.
Proof. destruct (getSol_Cyl_same d) as (A & B), (getSol_Sph_same d) as (C & D & E & F). repeat (split; [assumption|]). assumption. Qed.
(** Cartesian: Newton's equation, for any state, any rotation speed and any time-dependent potential *)
Theorem C29_newton_car c Phi Om y t gc : let x := fst (out_Car Om t (y t)) in
  represents c Phi t Car x -> is_grad (Phi t) x gc -> ode (eval_Car c Om) y t -> newton Phi Om (fun s => out_Car Om s (y s)) t.
Proof. cbv zeta. rewrite out_Car_eq. cbn [fst]. apply newton_Car. Qed.
(** cylindrical: Newton's equation if R > 0, or for motion in a meridional plane (no azimuthal velocity and force) for any R *)
Theorem C29_newton_cyl c Phi Om y t gx gy gz : let p := fst (getSol_Cyl (y t)) in let phi := v3 (fst (y t)) in
  represents c Phi t Cyl p -> is_grad (Phi t) (cart Cyl p) (gx, gy, gz) ->
  0 < v1 (fst (y t)) \/ (v3 (snd (y t)) = 0 /\ - gx * sin phi + gy * cos phi = 0) ->
  ode (eval_Cyl c Om) y t -> newton Phi Om (fun s => out_Cyl (y s)) t.
Proof. cbv zeta. apply newton_Cyl. Qed.
(** spherical: Newton's equation if r > 0 and 0 < theta < pi (up to full turns), or for motion in a meridional plane (any theta), or for radial motion (any r, theta) *)
Theorem C29_newton_sph c Phi Om y t gx gy gz : let p := fst (getSol_Sph (y t)) in
  (forall phi, represents c Phi t Sph (v1 p, v2 p, phi)) -> is_grad (Phi t) (cart Sph p) (gx, gy, gz) ->
  let '((r, th, phi), (vr, vth, vphi)) := y t in
  let noPhi := vphi = 0 /\ - gx * sin phi + gy * cos phi = 0 in
  let noTheta := vth = 0 /\ (gx * cos phi + gy * sin phi) * cos th - gz * sin th = 0 in
  (0 < r /\ 0 < sin th) \/ (0 < r /\ noPhi) \/ (noTheta /\ noPhi) ->
  ode (eval_Sph c Om) y t -> newton Phi Om (fun s => out_Sph (y s)) t.
Proof.
  intros p Rp G. generalize (newton_Sph c Phi Om y t gx gy gz). unfold p in *. clear p. destruct (y t) as [[[r th] phi] [[vr vth] vphi]]. cbv zeta. unfold getSol_Sph in *.
  unfold v1, v2, v3 in *; cbn [fst snd] in *.
  destruct (normSph r th phi) as [[[[r' th'] phi'] sr] st]. unfold v1, v2, v3 in *; cbn [fst snd] in *. intros K Cd D. apply K; try assumption.
  - apply Rp.
  - pose proof PI_RGT_0 as HPI. destruct (wrapAngle_ok (2 * PI) phi') as (W & k & E); [lra|]. destruct (cos_kZ phi' k) as (Ec & Es). rewrite <- E in Ec, Es. cbn [cart] in G |- *. rewrite Ec, Es in G. exact G.
Qed.
(** Hence for a static potential the Jacobi integral (the energy, if Omega = 0) of the output is conserved,
    and so is the z-component of angular momentum in an axisymmetric potential, however it depends on time *)
Theorem C29_jacobi_integral F Om out a b : a < b -> (forall t, a <= t <= b -> newton (fun _ => F) Om out t) -> jacobi F Om (out b) = jacobi F Om (out a).
Proof. intros L H. apply (const_of_derive (fun s => jacobi F Om (out s)) a b L). intros t Ht. apply jacobi_derive, H, Ht. Qed.
Theorem C29_angular_momentum Phi Om out a b : a < b -> (forall t, a <= t <= b -> (forall w x, Phi t (rotZ w x) = Phi t x) /\ newton Phi Om out t) -> Lz_C (out b) = Lz_C (out a).
Proof. intros L H. apply (const_of_derive (fun s => Lz_C (out s)) a b L). intros t Ht. destruct (H t Ht) as (Ax & N). apply (Lz_derive Phi Om); assumption. Qed.
Theorem C29_energy_car c F Om y a b : a < b -> (forall t x, represents c (fun _ => F) t Car x) -> (forall t, a <= t <= b -> ode (eval_Car c Om) y t) ->
  jacobi F Om (out_Car Om b (y b)) = jacobi F Om (out_Car Om a (y a)).
Proof.
  intros L Rp H. apply (C29_jacobi_integral F Om (fun s => out_Car Om s (y s)) a b L). intros t Ht.
  destruct (Rp t (fst (out_Car Om t (y t)))) as (g & h & _ & (G & EG & Lc & _)). apply (C29_newton_car c (fun _ => F) Om y t g); [apply Rp| |apply H, Ht].
  rewrite <- EG. generalize (locally_singleton _ _ Lc). apply is_grad_ext. intros [[u v] w]. reflexivity.
Qed.
(** Hermite scheme: acceleration = minus the gradient, jerk = the time derivative of the acceleration along the orbit, for a static potential;
    refused in rotating frames and non-Cartesian coordinates *)
Theorem C29_hermite c F t xv : (forall s p, represents c (fun _ => F) s Car p) ->
  exists acc jerk, evalHermite_Car c 0 t xv = Some (acc, jerk) /\ is_grad F (fst xv) (- v1 acc, - v2 acc, - v3 acc) /\
  forall (y : R -> posvel), y t = xv -> is_derive3 (fun s => fst (y s)) t (snd xv) ->
    is_derive3 (fun s => match evalHermite_Car c 0 s (y s) with Some (a, _) => a | None => (0, 0, 0) end) t jerk.
Proof. intros H. apply (jerk_ok c F t xv (fst xv) (snd xv) eq_refl eq_refl H). Qed.
Theorem C29_hermite_refused c Om t xv : (evalHermite_Car c Om t xv = None <-> Om <> 0) /\ evalHermite_other c Om t xv = None.
Proof.
  split; [|reflexivity]. destruct xv as [[[x y] z] [[vx vy] vz]]. unfold evalHermite_Car. destruct (Req_EM_T Om 0) as [E|N].
  - rewrite Req_b_t by exact E. split; [discriminate|intros N; contradiction].
  - rewrite Req_b_f by exact N. tauto.
Qed.

(* ---- examples: hypotheses are met ---- *)
Definition lin (y0 d : posvel) (s : R) : posvel :=
  ((v1 (fst y0) + s * v1 (fst d), v2 (fst y0) + s * v2 (fst d), v3 (fst y0) + s * v3 (fst d)), (v1 (snd y0) + s * v1 (snd d), v2 (snd y0) + s * v2 (snd d), v3 (snd y0) + s * v3 (snd d))).
Lemma lin_0 y0 d : lin y0 d 0 = y0.
Proof. destruct y0 as [[[a b] c] [[e f] g]], d as [[[a' b'] c'] [[e' f'] g']]. unfold lin. unv. apply pv_eq; cbn [fst snd]; apply v_eq; ring. Qed.
Lemma lin_ode rhs y0 : ode rhs (lin y0 (rhs 0 y0)) 0.
Proof. unfold ode. rewrite lin_0. destruct (rhs 0 y0) as [[[a b] c] [[e f] g]], y0 as [[[a' b'] c'] [[e' f'] g']]. unfold lin, is_derive3. unv. split; (split; [|split]); auto_derive; trivial; ring. Qed.
Lemma quad_grad t x : is_grad (quadF t) x (2 * v1 x, 4 * v2 x, 6 * v3 x).
Proof. destruct (quadF_hess t x) as (G & E & L & _). rewrite <- E. exact (locally_singleton _ _ L). Qed.
Example C29_case_car y0 Om : exists y, y 0 = y0 /\ ode (eval_Car Quad Om) y 0 /\ newton quadF Om (fun s => out_Car Om s (y s)) 0.
Proof. exists (lin y0 (eval_Car Quad Om 0 y0)). split; [apply lin_0|]. split; [apply (lin_ode (eval_Car Quad Om))|]. eapply C29_newton_car; [apply Quad_represents|apply quad_grad|apply (lin_ode (eval_Car Quad Om))]. Qed.
Example C29_case_cyl y0 Om : 0 < v1 (fst y0) -> exists y, y 0 = y0 /\ newton quadF Om (fun s => out_Cyl (y s)) 0.
Proof. intros H. exists (lin y0 (eval_Cyl Quad Om 0 y0)). split; [apply lin_0|]. eapply C29_newton_cyl; [apply Quad_represents|apply quad_grad|rewrite lin_0; auto|apply (lin_ode (eval_Cyl Quad Om))]. Qed.
Example C29_case_sph y0 Om : 0 < v1 (fst y0) -> 0 < sin (v2 (fst y0)) -> exists y, y 0 = y0 /\ newton quadF Om (fun s => out_Sph (y s)) 0.
Proof.
  intros H H'. exists (lin y0 (eval_Sph Quad Om 0 y0)). split; [apply lin_0|].
  generalize (C29_newton_sph Quad quadF Om (lin y0 (eval_Sph Quad Om 0 y0)) 0 _ _ _ (fun phi => Quad_represents 0 Sph _) (quad_grad 0 _)).
  generalize (lin_ode (eval_Sph Quad Om) y0). rewrite lin_0. destruct y0 as [[[r th] phi] [[vr vth] vphi]]. unv. intros O K. apply K; auto.
Qed.
(** motion along the x axis in the potential x^2 + 2 y^2 + 3 z^2: an exact solution for all times *)
Example C29_case_energy : let y s := ((cos (sqrt 2 * s), 0, 0), (- sqrt 2 * sin (sqrt 2 * s), 0, 0)) in
  (forall t, ode (eval_Car Quad 0) y t) /\ (forall t x, represents Quad (fun _ => quadF 0) t Car x) /\ jacobi (quadF 0) 0 (out_Car 0 0 (y 0)) = 1.
Proof.
  cbv zeta. split; [|split].
  - intros t. unfold ode. rewrite eval_Car_eq. cbv zeta. rewrite Rmult_0_l. unfold rotZ. rewrite cos_0, sin_0. unfold Quad, basePot, p_eval, base_eval. cbn [cs_eqb]. unfold quadNative, maskres, gradOnly. unfold is_derive3. unv.
    assert (S2 : sqrt 2 * sqrt 2 = 2) by (apply sqrt_sqrt; lra). cbn [gof fst snd]. split; (split; [|split]); auto_derive; trivial; set (w := sqrt 2) in *; cbn [gof outputs fst snd]; ring [S2].
  - intros t x. apply (Quad_represents t Car x).
  - rewrite out_Car_eq. unfold jacobi, quadF, rotZ. unv. rewrite !Rmult_0_r, cos_0, sin_0. ring.
Qed.
Example C29_case_jacobi : newton (fun _ => quadF 0) 1 (fun s => out_Car 1 s (lin ((1, 0, 0), (0, 1, 0)) (eval_Car Quad 1 0 ((1, 0, 0), (0, 1, 0))) s)) 0.
Proof. eapply (C29_newton_car Quad (fun _ => quadF 0)); [apply (Quad_represents 0 Car)|apply (quad_grad 0)|apply (lin_ode (eval_Car Quad 1))]. Qed.

(* ---- states where the equations in curvilinear coordinates are not those of Newton ---- *)
(** beyond the coordinate singularity (R < 0, or theta outside [0,pi]) the terms with the azimuthal velocity have the wrong sign:
    the output position does not even move with the output velocity.  (init() never produces such states; the integrator can step into them.) *)
Theorem C29_negative_R_refuted : exists y, v1 (fst (y 0)) = -1 /\ v3 (snd (y 0)) = 1 /\ ode (eval_Cyl Quad 0) y 0 /\ ~ newton quadF 0 (fun s => out_Cyl (y s)) 0.
Proof.
  set (y0 := ((-1, 0, 0), (0, 0, 1)) : posvel). exists (lin y0 (eval_Cyl Quad 0 0 y0)). rewrite lin_0. split; [reflexivity|]. split; [reflexivity|]. split; [apply (lin_ode (eval_Cyl Quad 0))|].
  intros ((_ & A & _) & _). unfold inertial in A. cbn [fst snd] in A.
  assert (E : forall s, v2 (rotZ (- (0 * s)) (fst (out_Cyl (lin y0 (eval_Cyl Quad 0 0 y0) s)))) = - sin s).
  { intros s. rewrite (proj1 (C29_normalisation _)). unfold rotZ. rewrite Rmult_0_l, Ropp_0, cos_0, sin_0. unfold y0, eval_Cyl. rewrite Rlt_b_t by lra. 
    destruct (gof _) as [[ga gb] gc]. rewrite Req_b_f by lra. unfold lin, toPosVel_YC. unv. replace (0 + s * (1 * (1 / - -1) - 0)) with s by field. ring. }
  apply (is_derive_ext _ (fun s => - sin s) _ _ E) in A.
  rewrite (proj1 (C29_normalisation _)) in A. rewrite lin_0 in A. unfold y0, toPosVel_YC, rotZ in A. unv. rewrite Rmult_0_l, Ropp_0, cos_0, sin_0 in A.
  assert (D : is_derive (fun s => - sin s) 0 (-1)). { auto_derive; [trivial|]. rewrite cos_0. ring. }
  pose proof (is_derive_unique _ _ _ A) as U1. pose proof (is_derive_unique _ _ _ D) as U2. pose proof (eq_trans (eq_sym U1) U2). lra.
Qed.
(** likewise in spherical coordinates for theta < 0 *)
Theorem C29_theta_beyond_pole_refuted : exists y, v1 (fst (y 0)) = 1 /\ v2 (fst (y 0)) = - (PI / 2) /\ v3 (snd (y 0)) = 1 /\ ode (eval_Sph Quad 0) y 0 /\ ~ newton quadF 0 (fun s => out_Sph (y s)) 0.
Proof.
  pose proof PI_RGT_0 as HPI.
  set (y0 := ((1, - (PI / 2), 0), (0, 0, 1)) : posvel). exists (lin y0 (eval_Sph Quad 0 0 y0)). rewrite lin_0. split; [reflexivity|]. split; [reflexivity|]. split; [reflexivity|]. split; [apply (lin_ode (eval_Sph Quad 0))|].
  intros ((_ & A & _) & _). unfold inertial in A. cbn [fst snd] in A.
  assert (N : exists ph, normSph 1 (- (PI / 2)) 0 = ((1, PI / 2, ph), 1, -1)).
  { unfold normSph. assert (F : fmod (- (PI / 2)) (2 * PI) = - (PI / 2)).
    { destruct (fmod_ok (- (PI / 2)) (2 * PI)) as ((B & B') & k & K); [lra|]. unfold fmod in *. set (w := trunc _) in *. assert (W : w = 0); [|rewrite W; ring].
      unfold w, trunc. replace (- (PI / 2) / (2 * PI)) with (- (1 / 4)) by (field; lra). rewrite Rle_b_f by lra. rewrite Ropp_involutive.
      assert (Int_part (1 / 4) = 0%Z) as ->. { unfold Int_part. rewrite <- (tech_up (1 / 4) 1); [reflexivity|lra|lra]. } ring. }
    rewrite F. rewrite Rlt_b_f by lra. rewrite Rlt_b_t by lra. rewrite Rlt_b_f by lra. eexists. rewrite Ropp_involutive. reflexivity. }
  destruct N as (ph & N).
  assert (E : forall s, v2 (rotZ (- (0 * s)) (fst (out_Sph (lin y0 (eval_Sph Quad 0 0 y0) s)))) = - sin s).
  { intros s. rewrite (proj1 (proj2 (proj2 (C29_normalisation _)))). unfold rotZ. rewrite Rmult_0_l, Ropp_0, cos_0, sin_0. unfold y0, eval_Sph. rewrite N.
    destruct (gof _) as [[ga gb] gc]. rewrite (Req_b_f 1) by lra. rewrite sin_PI2. rewrite (Req_b_f 1) by lra. unfold lin, toPosVel_SC. unv.
    replace (0 + s * (1 * (1 / 1) * (1 / 1) - 0)) with s by field. replace (- (PI / 2) + s * (0 * (1 / 1))) with (- (PI / 2)) by field. rewrite sin_neg, sin_PI2. ring. }
  apply (is_derive_ext _ (fun s => - sin s) _ _ E) in A.
  rewrite (proj1 (proj2 (proj2 (C29_normalisation _)))) in A. rewrite lin_0 in A. unfold y0, toPosVel_SC, rotZ in A. unv. rewrite Rmult_0_l, Ropp_0, cos_0, sin_0 in A.
  assert (D : is_derive (fun s => - sin s) 0 (-1)). { auto_derive; [trivial|]. rewrite cos_0. ring. }
  pose proof (is_derive_unique _ _ _ A) as U1. pose proof (is_derive_unique _ _ _ D) as U2. pose proof (eq_trans (eq_sym U1) U2). lra.
Qed.
(** the Hermite scheme accepts a time-dependent potential, but its jerk is then not the derivative of the acceleration *)
Theorem C29_hermite_time_dependent_refuted : let c := UniformAcceleration (fun t => t) (fun _ => 0) (fun _ => 0) 0 (fun _ => 0) in let xv := ((0, 0, 0), (0, 0, 0)) : posvel in
  (forall t p, represents c (fun t x => - t * v1 x) t Car p) /\ evalHermite_Car c 0 0 xv = Some ((0, 0, 0), (0, 0, 0)) /\
  is_derive (fun s => match evalHermite_Car c 0 s xv with Some (a, _) => v1 a | None => 0 end) 0 1.
Proof.
  cbv zeta. set (c := UniformAcceleration _ _ _ _ _).
  assert (EV : forall fl t p, p_eval c Car fl t p = maskres fl (v1 p * - t + v2 p * - 0 + v3 p * - 0, (- t, - 0, - 0), zeroH)) by (intros; reflexivity).
  split; [|split].
  - intros t p. exists (- t, - 0, - 0), zeroH. split.
    + intros [[wp wg] wh]. rewrite EV. unfold maskres, outputs. destruct p as [[p1 p2] p3]. cbn [cart]. unv. replace (p1 * - t + p2 * - 0 + p3 * - 0) with (- t * p1) by ring. reflexivity.
    + exists (fun _ => (- t, - 0, - 0)). split; [reflexivity|]. split; [|split; [|split]].
      * apply filter_forall. intros q c1 c2 c3 s u1 u2 u3 _ D1 _ _. cbn [cart]. unv. dcurve. der. ring.
      * intros c1 c2 c3 s u1 u2 u3 _ _ _ _. unfold zeroH; cbn [h11 h12 h13]. unv. auto_derive; [trivial|ring].
      * intros c1 c2 c3 s u1 u2 u3 _ _ _ _. unfold zeroH; cbn [h22 h12 h23]. unv. auto_derive; [trivial|ring].
      * intros c1 c2 c3 s u1 u2 u3 _ _ _ _. unfold zeroH; cbn [h33 h23 h13]. unv. auto_derive; [trivial|ring].
  - unfold evalHermite_Car. rewrite Req_b_t by reflexivity. rewrite EV. cbn [maskres gof hof zeroH h11 h22 h33 h12 h23 h13]. unv. f_equal. f_equal; apply v_eq; ring.
  - apply (is_derive_ext (fun s => - - s)); [|auto_derive; [trivial|ring]]. intros s. unfold evalHermite_Car. rewrite Req_b_t by reflexivity. rewrite EV. cbn [maskres gof]. reflexivity.
Qed.
Print Assumptions C29_newton_sph.
