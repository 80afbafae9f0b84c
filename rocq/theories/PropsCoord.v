(** Properties C23 (conversion of positions and velocities), C24 (conversion of derivatives), C38 (rotations). *)
From Coq Require Import Reals Lra Psatz Bool.
From Coquelicot Require Import Coquelicot.
From Verif Require Import RandReal RandRealProofs PolyModel PolyProofs RootProofs CoordModel CoordSpec CoordCalc CoordAtan CoordMaps CoordMaps2 CoordProofs CoordVel CoordSph OrientModel OrientSpec OrientProofs.
Local Open Scope R_scope.

(* ---------------- C23 ---------------- *)
(** Cartesian -> cylindrical or spherical -> Cartesian is the identity for every point and velocity, including the axis and the origin *)
Theorem C23_car_cyl_car : forall p, toPosVel_YC (toPosVel_CY p) = p.
Proof. exact CY_YC. Qed.
Theorem C23_car_sph_car : forall p, toPosVel_SC (toPosVel_CS p) = p.
Proof. exact CS_SC. Qed.
Theorem C23_positions_car : forall p, toPos_YC (toPos_CY p) = p /\ toPos_SC (toPos_CS p) = p.
Proof. intros p. split; [apply pos_CY_YC|apply pos_CS_SC]. Qed.
(** the other way round, for points with a unique representation *)
Theorem C23_cyl_car_cyl : forall p, 0 < v1 (fst p) -> - PI < v3 (fst p) <= PI ->
  toPosVel_CY (toPosVel_YC p) = p /\ toPos_CY (toPos_YC (fst p)) = fst p.
Proof. intros p H A. split; [apply YC_CY; assumption|apply pos_YC_CY; assumption]. Qed.
Theorem C23_sph_car_sph : forall p, 0 < v1 (fst p) -> 0 < v2 (fst p) < PI -> - PI < v3 (fst p) <= PI ->
  toPosVel_CS (toPosVel_SC p) = p /\ toPos_CS (toPos_SC (fst p)) = fst p.
Proof. intros p H A B. split; [apply SC_CS; assumption|apply pos_SC_CS; assumption]. Qed.
Theorem C23_cyl_sph_cyl : forall p, fst p <> (0, 0, v3 (fst p)) -> toPosVel_SY (toPosVel_YS p) = p.
Proof. exact YS_SY. Qed.
Theorem C23_positions_cyl_sph : forall p, toPos_SY (toPos_YS p) = p.
Proof. intros p. apply pos_YS_SY. tauto. Qed.
Theorem C23_sph_cyl_sph : forall p, 0 < v1 (fst p) -> 0 <= v2 (fst p) <= PI ->
  toPosVel_YS (toPosVel_SY p) = p /\ toPos_YS (toPos_SY (fst p)) = fst p.
Proof. intros p H A. split; [apply SY_YS; assumption|apply pos_SY_YS; assumption]. Qed.
(** direct conversions agree with those through cylindrical coordinates, everywhere *)
Theorem C23_direct_equals_two_step : forall p, toPosVel_CS p = toPosVel_YS (toPosVel_CY p) /\ toPosVel_SC p = toPosVel_YC (toPosVel_SY p).
Proof. intros p. split; [apply CS_eq|apply SC_eq]. Qed.
(** documented ranges: R>=0, r>=0, 0<=theta<=pi, -pi<phi<=pi *)
Theorem C23_ranges : forall p, 0 <= v1 (fst (toPosVel_CY p)) /\ - PI < v3 (fst (toPosVel_CY p)) <= PI /\
  0 <= v1 (fst (toPosVel_CS p)) /\ 0 <= v2 (fst (toPosVel_CS p)) <= PI /\ - PI < v3 (fst (toPosVel_CS p)) <= PI.
Proof. intros p. destruct (range_CY p). destruct (range_CS p) as (A & B & C). tauto. Qed.
(** speed *)
Theorem C23_speed : forall p, speed2 (toPosVel_YC p) = speed2 p /\ speed2 (toPosVel_SC p) = speed2 p /\ speed2 (toPosVel_CY p) = speed2 p /\
  speed2 (toPosVel_CS p) = speed2 p /\ speed2 (toPosVel_SY p) = speed2 p /\ (fst p <> (0, 0, v3 (fst p)) -> speed2 (toPosVel_YS p) = speed2 p).
Proof. intros p. repeat split; [apply speed_YC|apply speed_SC|apply speed_CY|apply speed_CS|apply speed_SY|apply speed_YS]. Qed.
(** angular momentum: r x v in Cartesian coordinates, and the same number in the other systems *)
Theorem C23_angular_momentum : forall p,
  Ltotal_C p = norm3 (cross (fst p) (snd p)) /\ Lz_C p = v3 (cross (fst p) (snd p)) /\
  Ltotal_C (toPosVel_YC p) = Ltotal_Y p /\ Lz_C (toPosVel_YC p) = Lz_Y p /\
  (0 <= v1 (fst p) -> Ltotal_C (toPosVel_SC p) = Ltotal_S p /\ Ltotal_Y (toPosVel_SY p) = Ltotal_S p) /\ Lz_C (toPosVel_SC p) = Lz_S p /\ Lz_Y (toPosVel_SY p) = Lz_S p /\
  Ltotal_Y (toPosVel_CY p) = Ltotal_C p /\ Lz_Y (toPosVel_CY p) = Lz_C p /\ Ltotal_S (toPosVel_CS p) = Ltotal_C p /\ Lz_S (toPosVel_CS p) = Lz_C p /\
  Ltotal_S (toPosVel_YS p) = Ltotal_Y p /\ Lz_S (toPosVel_YS p) = Lz_Y p.
Proof.
  intros p. split; [destruct p as [[[x y] z] [[vx vy] vz]]; unfold Ltotal_C, norm3, cross, pow_2, v1, v2, v3; cbn [fst snd]; reflexivity|].
  split; [destruct p as [[[x y] z] [[vx vy] vz]]; reflexivity|].
  repeat split; auto using Ltotal_YC, Lz_YC, Ltotal_SC, Ltotal_SY, Lz_SC, Lz_SY, Ltotal_CY, Lz_CY, Ltotal_CS, Lz_CS, Ltotal_YS, Lz_YS.
Qed.
(** velocity components mean: vR = dR/dt, vphi = R dphi/dt, vr = dr/dt, vtheta = r dtheta/dt, vphi = r sin(theta) dphi/dt *)
Theorem C23_velocity_from_cyl : forall (Rc z phi : R -> R) t R' z' phi', is_derive Rc t R' -> is_derive z t z' -> is_derive phi t phi' ->
  let pv := toPosVel_YC ((Rc t, z t, phi t), (R', z', Rc t * phi')) in fst pv = toPos_YC (Rc t, z t, phi t) /\
  is_derive (fun s => v1 (toPos_YC (Rc s, z s, phi s))) t (v1 (snd pv)) /\
  is_derive (fun s => v2 (toPos_YC (Rc s, z s, phi s))) t (v2 (snd pv)) /\
  is_derive (fun s => v3 (toPos_YC (Rc s, z s, phi s))) t (v3 (snd pv)).
Proof. intros. split; [apply posvel_pos_YC|]. apply vel_YC; assumption. Qed.
Theorem C23_velocity_from_sph : forall (r th phi : R -> R) t r' th' phi', is_derive r t r' -> is_derive th t th' -> is_derive phi t phi' ->
  let pv := toPosVel_SC ((r t, th t, phi t), (r', r t * th', r t * sin (th t) * phi')) in fst pv = toPos_SC (r t, th t, phi t) /\
  is_derive (fun s => v1 (toPos_SC (r s, th s, phi s))) t (v1 (snd pv)) /\
  is_derive (fun s => v2 (toPos_SC (r s, th s, phi s))) t (v2 (snd pv)) /\
  is_derive (fun s => v3 (toPos_SC (r s, th s, phi s))) t (v3 (snd pv)).
Proof. intros. split; [apply posvel_pos_SC|]. apply vel_SC; assumption. Qed.
Theorem C23_velocity_to_cyl : forall (x y z : R -> R) t x' y' z', is_derive x t x' -> is_derive y t y' -> is_derive z t z' -> ~ on_cut (x t, y t, z t) ->
  let pv := toPosVel_CY ((x t, y t, z t), (x', y', z')) in
  is_derive (fun s => v1 (toPos_CY (x s, y s, z s))) t (v1 (snd pv)) /\
  is_derive (fun s => v2 (toPos_CY (x s, y s, z s))) t (v2 (snd pv)) /\
  is_derive (fun s => v3 (toPos_CY (x s, y s, z s))) t (v3 (snd pv) / v1 (fst pv)).
Proof. exact vel_CY. Qed.
Theorem C23_velocity_to_sph : forall (x y z : R -> R) t x' y' z', is_derive x t x' -> is_derive y t y' -> is_derive z t z' -> ~ on_cut (x t, y t, z t) ->
  let pv := toPosVel_CS ((x t, y t, z t), (x', y', z')) in
  is_derive (fun s => v1 (toPos_CS (x s, y s, z s))) t (v1 (snd pv)) /\
  is_derive (fun s => v2 (toPos_CS (x s, y s, z s))) t (v2 (snd pv) / v1 (fst pv)) /\
  is_derive (fun s => v3 (toPos_CS (x s, y s, z s))) t (v3 (snd pv) / sqrt (x t * x t + y t * y t)).
Proof. exact vel_CS. Qed.
(** at the origin, the conversion from cylindrical to spherical coordinates drops the azimuthal velocity,
    and with vR<0 returns a polar angle outside the documented range [0,pi] *)
Theorem C23_cyl_sph_at_origin_refuted :
  (exists p, fst p = (0, 0, 0) /\ speed2 (toPosVel_YS p) <> speed2 p /\ toPosVel_SC (toPosVel_YS p) <> toPosVel_YC p) /\
  (exists p, fst p = (0, 0, 0) /\ v2 (fst (toPosVel_YS p)) < 0).
Proof.
  assert (S0 : sqrt (pow_2 0 + pow_2 0) = 0) by (replace (pow_2 0 + pow_2 0) with 0 by (unfold pow_2; ring); apply sqrt_0).
  split.
  - exists ((0, 0, 0), (0, 0, 1)). split; [reflexivity|]. unfold toPosVel_YS. cbv zeta. rewrite (Req_b_t (sqrt _)) by exact S0. rewrite S0. split.
    + unfold speed2, v1, v2, v3, pow_2; cbn [fst snd]. lra.
    + unfold toPosVel_SC, toPosVel_YC. cbv zeta. rewrite sin_0, cos_0. intros E. injection E as _ _ _ _ E _. lra.
  - exists ((0, 0, 0), (-1, 0, 0)). split; [reflexivity|]. unfold toPosVel_YS. cbv zeta. rewrite (Req_b_t (sqrt _)) by exact S0. unfold v2; cbn [fst snd].
    rewrite atan2_yneg by lra. replace (0 / -1) with 0 by field. rewrite atan_0. pose proof PI_RGT_0. lra.
Qed.
Example C23_hyps_met : exists p : posvel, 0 < v1 (fst p) /\ 0 < v2 (fst p) < PI /\ - PI < v3 (fst p) <= PI /\ fst p <> (0, 0, v3 (fst p)).
Proof. exists ((1, 1, 1), (1, 2, 3)). pose proof PI_RGT_0. pose proof PI2_1. unfold v1, v2, v3; cbn [fst snd]. repeat split; try lra. intros E. injection E as E _. lra. Qed.
Example C23_off_cut : ~ on_cut (-1, 1, 5).
Proof. unfold on_cut, v1, v2; cbn [fst snd]. lra. Qed.

(* ---------------- C24 ---------------- *)
(** what the caller of evalAndConvert relies on: the function value; and, where requested, the gradient and the hessian of the
    function composed with the coordinate map *)
Definition converted (f : vec3 -> R) (toPos : vec3 -> vec3) (p : vec3) (wantGrad wantHess : bool) (out : R * option vec3 * option hess6) : Prop :=
  exists g h, is_hess (fun q => f (toPos q)) p g h /\
    out = (f (toPos p), (if wantGrad then Some g else None), (if wantHess then Some h else None)).
(** F evaluates f with its true derivatives at the point q *)
Definition evaluates (F : vec3 -> R * vec3 * hess6) (f : vec3 -> R) (q : vec3) : Prop := let '(value, g, h) := F q in value = f q /\ is_hess f q g h.

Ltac conv posD H := unfold evalAndConvert; rewrite posD; match goal with |- context [if ?b then ?x else ?x] => replace (if b then x else x) with x by (destruct b; reflexivity) end;
  let E := fresh in unfold evaluates in H; match type of H with context [?F ?q] => destruct (F q) as [[? ?] ?] eqn:E end; destruct H as [-> H]; rewrite ?E.
Theorem C24_cyl_function_in_cartesian F f wg wh p : 0 < v1 p * v1 p + v2 p * v2 p -> ~ on_cut p \/ periodic3 f -> evaluates F f (toPos_CY p) ->
  converted f toPos_CY p wg wh (evalAndConvert_CY F wg wh p).
Proof. intros D C H. unfold evalAndConvert_CY. conv posD_CY_eq H. eexists _, _. split; [apply hess_CY; eassumption|reflexivity]. Qed.
Theorem C24_sph_function_in_cartesian F f wg wh p : 0 < v1 p * v1 p + v2 p * v2 p -> ~ on_cut p \/ periodic3 f -> evaluates F f (toPos_CS p) ->
  converted f toPos_CS p wg wh (evalAndConvert_CS F wg wh p).
Proof. intros D C H. unfold evalAndConvert_CS. conv posD_CS_eq H. eexists _, _. split; [apply hess_CS; eassumption|reflexivity]. Qed.
Theorem C24_car_function_in_cylindrical F f wg wh p : evaluates F f (toPos_YC p) -> converted f toPos_YC p wg wh (evalAndConvert_YC F wg wh p).
Proof. intros H. unfold evalAndConvert_YC. conv posD_YC_eq H. eexists _, _. split; [apply hess_YC; eassumption|reflexivity]. Qed.
Theorem C24_sph_function_in_cylindrical F f wg wh p : 0 < v2 p \/ v1 p <> 0 -> evaluates F f (toPos_YS p) -> converted f toPos_YS p wg wh (evalAndConvert_YS F wg wh p).
Proof. intros D H. unfold evalAndConvert_YS. conv posD_YS_eq H. eexists _, _. split; [apply hess_YS; eassumption|reflexivity]. Qed.
Theorem C24_car_function_in_spherical F f wg wh p : evaluates F f (toPos_SC p) -> converted f toPos_SC p wg wh (evalAndConvert_SC F wg wh p).
Proof. intros H. unfold evalAndConvert_SC. conv posD_SC_eq H. eexists _, _. split; [apply hess_SC; eassumption|reflexivity]. Qed.
Theorem C24_cyl_function_in_spherical F f wg wh p : evaluates F f (toPos_SY p) -> converted f toPos_SY p wg wh (evalAndConvert_SY F wg wh p).
Proof. intros H. unfold evalAndConvert_SY. conv posD_SY_eq H. eexists _, _. split; [apply hess_SY; eassumption|reflexivity]. Qed.
(** the value does not depend on whether derivatives are requested, at any point whatsoever *)
Theorem C24_value_everywhere F wg wh p : let val (o : R * option vec3 * option hess6) := fst (fst o) in let fv q := fst (fst (F q)) in
  val (evalAndConvert_CY F wg wh p) = fv (toPos_CY p) /\ val (evalAndConvert_CS F wg wh p) = fv (toPos_CS p) /\ val (evalAndConvert_YC F wg wh p) = fv (toPos_YC p) /\
  val (evalAndConvert_YS F wg wh p) = fv (toPos_YS p) /\ val (evalAndConvert_SC F wg wh p) = fv (toPos_SC p) /\ val (evalAndConvert_SY F wg wh p) = fv (toPos_SY p).
Proof.
  cbv zeta. unfold evalAndConvert_CY, evalAndConvert_CS, evalAndConvert_YC, evalAndConvert_YS, evalAndConvert_SC, evalAndConvert_SY, evalAndConvert.
  rewrite posD_CY_eq, posD_CS_eq, posD_YC_eq, posD_YS_eq, posD_SC_eq, posD_SY_eq.
  assert (K : forall (b : bool) (x : vec3), (if b then x else x) = x) by (intros [] x; reflexivity). rewrite !K.
  repeat split; match goal with |- context [F ?q] => destruct (F q) as [[? ?] ?]; reflexivity end.
Qed.
(** conversion through an intermediate system, here Car <- Cyl <- Sph *)
Theorem C24_two_step F f wg wh p : 0 < v1 p * v1 p + v2 p * v2 p -> ~ on_cut p \/ periodic3 f -> evaluates F f (toPos_YS (toPos_CY p)) ->
  converted f (fun q => toPos_YS (toPos_CY q)) p wg wh
   (evalAndConvertTwoStep toPos_YS posD_YS deriv_YS deriv2_YS toGrad_YS toHess_YS toPos_CY posD_CY deriv_CY deriv2_CY toGrad_CY toHess_CY F wg wh p).
Proof.
  intros D C H. unfold evalAndConvertTwoStep. rewrite posD_CY_eq. rewrite posD_YS_eq.
  assert (K : forall (b : bool) (x : vec3), (if b then x else x) = x) by (intros [] x; reflexivity). rewrite !K.
  unfold evaluates in H. destruct (F (toPos_YS (toPos_CY p))) as [[v g] h] eqn:E. destruct H as [-> H]. eexists _, _. split; [|reflexivity].
  apply (hess_CY (fun q => f (toPos_YS q))); [exact D| |].
  - destruct C as [C|C]; [tauto|right]. intros a b c. unfold toPos_YS. apply C.
  - apply hess_YS; [|exact H]. right. destruct p as [[x y] z]. unfold toPos_CY, v1; cbn [fst snd]. apply Rgt_not_eq, sqrt_lt_R0. exact D.
Qed.
(** spherically-symmetric functions (evalAndConvertSph): F' = F1, F'' = der2 at the radius of the point; at the origin F'(0)=0 *)
Theorem C24_radial_cartesian (F F1 : R -> R) der2 p : let r := sphR_C p in r = norm3 p /\
  (locally r (fun s => is_derive F s (F1 s)) -> is_derive F1 r der2 -> (r = 0 -> F1 0 = 0) ->
   is_hess (fun q => F (norm3 q)) p (sphGrad_C p (F1 r)) (sphHess_C p (F1 r) der2)).
Proof.
  cbv zeta. assert (E : forall q, sphR_C q = norm3 q) by (intros [[x y] z]; reflexivity). split; [apply E|]. intros L D Z.
  apply is_hess_ext_loc with (fun q => F (sphR_C q)); [apply filter_forall; intros q; rewrite E; reflexivity|]. apply sph_hess_C; assumption.
Qed.
Theorem C24_radial_cylindrical (F F1 : R -> R) der2 p : let r := sphR_Y p in r = norm3 (toPos_YC p) /\
  (locally r (fun s => is_derive F s (F1 s)) -> is_derive F1 r der2 -> (r = 0 -> F1 0 = 0) ->
   is_hess (fun q => F (norm3 (toPos_YC q))) p (sphGrad_Y p (F1 r)) (sphHess_Y p (F1 r) der2)).
Proof.
  cbv zeta. assert (E : forall q, sphR_Y q = norm3 (toPos_YC q)).
  { intros [[x y] z]. unfold sphR_Y, norm3, toPos_YC, v1, v2, v3, pow_2. rewrite mul_fun. cbn [fst snd]. f_equal. pose proof (cs1 z) as CS. set (c := cos _) in *; set (s := sin _) in *. ring [CS]. }
  split; [apply E|]. intros L D Z. apply is_hess_ext_loc with (fun q => F (sphR_Y q)); [apply filter_forall; intros q; rewrite E; reflexivity|]. apply sph_hess_Y; assumption.
Qed.
Theorem C24_radial_spherical (F F1 : R -> R) der2 p : let r := v1 p in
  locally r (fun s => is_derive F s (F1 s)) -> is_derive F1 r der2 -> is_hess (fun q => F (v1 q)) p (sphGrad_S p (F1 r)) (sphHess_S p (F1 r) der2).
Proof. apply sph_hess_S. Qed.
(** the notion of gradient used here: the partial derivatives, unique, and implied by Frechet differentiability *)
Theorem C24_gradient_meaning f p g : is_grad f p g ->
  is_derive (fun s => f (s, v2 p, v3 p)) (v1 p) (v1 g) /\ is_derive (fun s => f (v1 p, s, v3 p)) (v2 p) (v2 g) /\ is_derive (fun s => f (v1 p, v2 p, s)) (v3 p) (v3 g) /\
  (forall g', is_grad f p g' -> g' = g).
Proof. intros H. destruct (is_grad_partial f p g H) as (A & B & C). split; [exact A|split; [exact B|split; [exact C|]]]. intros g' H'. exact (is_grad_unique f p g' g H' H). Qed.
(** witnesses: a function of cylindrical coordinates with known derivatives (periodic, on and off the cut), of Cartesian ones, and a radial one *)
Example C24_cyl_witness q : evaluates (fun q => (v1 q * v1 q * cos (v3 q), (2 * v1 q * cos (v3 q), 0, - (v1 q * v1 q * sin (v3 q))),
    mkH (2 * cos (v3 q)) 0 (- (v1 q * v1 q * cos (v3 q))) 0 0 (- (2 * v1 q * sin (v3 q))))) (fun q => v1 q * v1 q * cos (v3 q)) q /\ periodic3 (fun q => v1 q * v1 q * cos (v3 q)).
Proof.
  split.
  - split; [reflexivity|]. exists (fun q => (2 * v1 q * cos (v3 q), 0, - (v1 q * v1 q * sin (v3 q)))). split; [reflexivity|].
    apply (hess_open (fun _ => True)); [apply filter_true|intros p _|..]; cbn [h11 h22 h33 h12 h23 h13].
    + destruct p as [[a b] c]. gcurve. auto_derive; [gside|]. gfin. ring.
    + destruct q as [[a b] c]. gcurve. auto_derive; [gside|]. gfin. ring.
    + exact (is_grad_const 0 _).
    + destruct q as [[a b] c]. gcurve. auto_derive; [gside|]. gfin. ring.
  - intros a b c. unfold v1, v3; cbn [fst snd]. rewrite cos_plus, cos_2PI, sin_2PI. ring.
Qed.
Example C24_car_witness q : evaluates (fun q => (v1 q * v1 q * v2 q * v3 q, (2 * v1 q * v2 q * v3 q, v1 q * v1 q * v3 q, v1 q * v1 q * v2 q),
    mkH (2 * v2 q * v3 q) 0 0 (2 * v1 q * v3 q) (v1 q * v1 q) (2 * v1 q * v2 q))) (fun q => v1 q * v1 q * v2 q * v3 q) q.
Proof.
  split; [reflexivity|]. exists (fun q => (2 * v1 q * v2 q * v3 q, v1 q * v1 q * v3 q, v1 q * v1 q * v2 q)). split; [reflexivity|].
  apply (hess_open (fun _ => True)); [apply filter_true|intros p _|..]; cbn [h11 h22 h33 h12 h23 h13];
    match goal with |- is_grad _ ?p _ => destruct p as [[a b] c] end; gcurve; auto_derive; try (gside; fail); gfin; ring.
Qed.
Example C24_radial_witness r : locally r (fun s => is_derive (fun x : R => x * x) s (2 * s)) /\ is_derive (fun s : R => 2 * s) r 2 /\ (r = 0 -> 2 * 0 = 0).
Proof. split; [apply filter_forall; intros s; auto_derive; trivial; ring|]. split; [auto_derive; trivial; ring|intros; ring]. Qed.

(* ---------------- C38 ---------------- *)
(** any Euler angles: the composition of the three elementary rotations, an orthogonal matrix with determinant one *)
Theorem C38_rotation a b c : is_rotation (Orientation a b c).
Proof. apply Orientation_rotation. Qed.
Theorem C38_elementary a b c v : toRotated (Orientation a b c) v = rotZ c (rotX b (rotZ a v)).
Proof. apply Orientation_elementary. Qed.
(** forward and backward transformations are mutually inverse, preserve scalar products (hence lengths); for pairs as well *)
Theorem C38_inverse m u v p : is_rotation m -> fromRotated m (toRotated m v) = v /\ toRotated m (fromRotated m v) = v /\
  dot (toRotated m u) (toRotated m v) = dot u v /\ dot (fromRotated m u) (fromRotated m v) = dot u v /\
  fromRotatedPV m (toRotatedPV m p) = p /\ toRotatedPV m (fromRotatedPV m p) = p.
Proof.
  intros (A & B & C). repeat split; try (apply rot_cancel_l; exact B); try (apply rot_cancel_r; exact A); try (apply rot_dot; exact B).
  - rewrite !fromRotated_transp. apply rot_dot. rewrite transp_invol. exact A.
  - destruct p as [x y]. unfold fromRotatedPV, toRotatedPV; cbn [fst snd]. rewrite !rot_cancel_l by exact B. reflexivity.
  - destruct p as [x y]. unfold fromRotatedPV, toRotatedPV; cbn [fst snd]. rewrite !rot_cancel_r by exact A. reflexivity.
Qed.
(** the inverse rotation is produced by the angles (-gamma,-beta,-alpha) *)
Theorem C38_inverse_angles a b c v : toRotated (Orientation (- c) (- b) (- a)) v = fromRotated (Orientation a b c) v.
Proof. rewrite Orientation_inverse, fromRotated_transp. reflexivity. Qed.
(** toEulerAngles: a matrix reconstructed from the angles coincides with the original, for every rotation matrix including the degenerate inclinations 0 and pi;
    the angles are in the documented ranges; unless degenerate, they are the ones used in construction *)
Theorem C38_euler_angles m : is_rotation m -> let '(a, b, c) := toEulerAngles m in
  Orientation a b c = m /\ - PI <= a <= PI /\ 0 <= b <= PI /\ - PI <= c <= PI.
Proof. intros H. pose proof (euler_roundtrip m H) as E. pose proof (euler_range m) as G. destruct (toEulerAngles m) as [[a b] c]. tauto. Qed.
Theorem C38_euler_angles_recovered a b c : - PI < a <= PI -> 0 < b < PI -> - PI < c <= PI -> toEulerAngles (Orientation a b c) = (a, b, c).
Proof. apply euler_recover. Qed.
Theorem C38_face_on a b c : isFaceOn (Orientation a b c) = true <-> sin b = 0.
Proof. apply faceOn_iff. Qed.
(** gradients and hessians of a function given in the rotated (original) frame, converted to the original (rotated) frame *)
Theorem C38_derivatives m f p g h :
  (is_hess f (toRotated m p) g h -> is_hess (fun q => f (toRotated m q)) p (fromRotated m g) (fromRotatedH m h)) /\
  (is_hess f (fromRotated m p) g h -> is_hess (fun q => f (fromRotated m q)) p (toRotated m g) (toRotatedH m h)).
Proof. split; [apply hess_toRotated|apply hess_fromRotated]. Qed.
(** second moments of velocity: those of the rotated velocities (linear, and correct for a single velocity, hence for any average) *)
Theorem C38_second_moments m v a b h k :
  toRotatedH m (outer v) = outer (toRotated m v) /\ fromRotatedH m (outer v) = outer (fromRotated m v) /\
  toRotatedH m (hlin a b h k) = hlin a b (toRotatedH m h) (toRotatedH m k) /\ fromRotatedH m (hlin a b h k) = hlin a b (fromRotatedH m h) (fromRotatedH m k).
Proof. repeat split; [apply outer_toRotated|apply outer_fromRotated|apply toRotatedH_lin|apply fromRotatedH_lin]. Qed.
Example C38_degenerate : is_rotation ((0, 1, 0), (1, 0, 0), (0, 0, -1)).
Proof. unfold is_rotation, orthonormal_rows, transp, det3, dot. repeat split; ring. Qed.

Print Assumptions C23_car_sph_car.
Print Assumptions C24_sph_function_in_cartesian.
Print Assumptions C24_radial_cartesian.
Print Assumptions C38_euler_angles.
