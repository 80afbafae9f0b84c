(** Spherical analytic potentials: values, derivatives, densities, masses *)
From Coq Require Import Reals Lra Psatz Lia Bool ZArith List.
From Coquelicot Require Import Coquelicot.
From Verif Require Import RandReal RandRealProofs PolyModel PolyProofs CoordModel CoordSpec CoordCalc CoordAtan CoordMaps CoordMaps2 CoordProofs CoordSph OrientModel OrientSpec OrientProofs PotModel PotSpec PotProofs PotProofs2 PotProofs3 LapProofs RootProofs AnalyticModel AnalyticSpec.
Import ListNotations.
Local Open Scope R_scope.

Lemma radius_nn x : 0 <= radius x. Proof. apply sqrt_pos. Qed.
Lemma radius_sq x : radius x ^ 2 = v1 x ^ 2 + v2 x ^ 2 + v3 x ^ 2.
Proof. unfold radius. replace (sqrt (v1 x ^ 2 + v2 x ^ 2 + v3 x ^ 2) ^ 2) with (Rsqr (sqrt (v1 x ^ 2 + v2 x ^ 2 + v3 x ^ 2))) by (unfold Rsqr; ring). apply Rsqr_sqrt. nra. Qed.
Lemma radius_C p : sphR_C p = radius p.
Proof. destruct p as [[x y] z]. unfold sphR_C, radius, pow_2, v1, v2, v3; cbn [fst snd]. f_equal. ring. Qed.
Lemma radius_Y p : sphR_Y p = radius (cart Cyl p).
Proof.
  destruct p as [[r z] phi]. unfold sphR_Y, radius, cart, pow_2, v1, v2, v3; cbn [fst snd]. f_equal.
  pose proof (sin2_cos2 phi) as H. unfold Rsqr in H. set (c := cos phi) in *. set (s := sin phi) in *. assert (c * c = 1 - s * s) by lra. ring [H0].
Qed.
Lemma radius_S p : radius (cart Sph p) = Rabs (v1 p).
Proof.
  destruct p as [[r th] phi]. unfold radius, cart, v1, v2, v3; cbn [fst snd].
  replace ((r * (sin th * cos phi)) ^ 2 + (r * (sin th * sin phi)) ^ 2 + (r * cos th) ^ 2) with (Rsqr r); [apply sqrt_Rsqr_abs|].
  pose proof (sin2_cos2 phi) as H. pose proof (sin2_cos2 th) as K. unfold Rsqr in *. set (c := cos phi) in *. set (s := sin phi) in *. set (C := cos th) in *. set (D := sin th) in *.
  assert (H1 : c * c = 1 - s * s) by lra. assert (K1 : C * C = 1 - D * D) by lra. ring [H1 K1].
Qed.
(** radial coordinate used by an object for a point given in system s *)
Definition radS (s : cs) (p : vec3) : R := match s with Car => sphR_C p | Cyl => sphR_Y p | Sph => v1 p end.
Lemma radS_eq s p : (s = Sph -> 0 <= v1 p) -> radS s p = radius (cart s p).
Proof.
  intros H. destruct s; cbn [radS].
  - rewrite radius_C. destruct p as [[x y] z]. reflexivity.
  - apply radius_Y.
  - rewrite radius_S. symmetry. apply Rabs_pos_eq. apply H; reflexivity.
Qed.
(** a spherically-symmetric object: if V, V1, V2 are related by differentiation around the radius of the point, the object
    computes V(|x|) and its derivatives.  In the centre V must be even. *)
Lemma sph_represents F dn m e (V V1 V2 : R -> R) t s p : (s = Sph -> 0 <= v1 p) ->
  (F (radius (cart s p)) = (V (radius (cart s p)), V1 (radius (cart s p)), V2 (radius (cart s p)))) ->
  locally (radius (cart s p)) (fun r => is_derive V r (V1 r)) -> is_derive V1 (radius (cart s p)) (V2 (radius (cart s p))) ->
  (radius (cart s p) = 0 -> V1 0 = 0 /\ forall r, V (- r) = V r) ->
  represents (sphericalPot F dn m e) (fun _ x => V (radius x)) t s p.
Proof.
  intros Hs EF L D Ev. pose proof (radS_eq s p Hs) as ER. set (r := radius (cart s p)) in *.
  assert (RET : forall g h, snd (fst (sphEval F s p)) = g -> snd (sphEval F s p) = h -> returns (sphericalPot F dn m e) s t p (V r) g h).
  { intros g h <- <- [[wp wg] wh]. cbn [sphericalPot p_eval]. unfold sphEval. destruct s; cbn [radS] in ER; rewrite ER, EF; reflexivity. }
  exists (snd (fst (sphEval F s p))), (snd (sphEval F s p)). split; [apply RET; reflexivity|].
  unfold sphEval. destruct s; cbn [radS] in ER; rewrite ER, EF; cbn [fst snd].
  - apply is_hess_ext with (fun q => V (sphR_C q)); [intros q; rewrite radius_C; destruct q as [[x y] z]; reflexivity|].
    rewrite <- ER in *. apply sph_hess_C; [exact L|exact D|intros E; apply Ev; exact E].
  - apply is_hess_ext with (fun q => V (sphR_Y q)); [intros q; rewrite radius_Y; reflexivity|].
    rewrite <- ER in *. apply sph_hess_Y; [exact L|exact D|intros E; apply Ev; exact E].
  - destruct (Req_EM_T r 0) as [Z|N].
    + apply is_hess_ext with (fun q => V (v1 q)).
      * intros q. rewrite radius_S. unfold Rabs. destruct (Rcase_abs (v1 q)); [symmetry; apply Ev; exact Z|reflexivity].
      * rewrite <- ER in *. apply sph_hess_S; [exact L|exact D].
    + apply is_hess_ext_loc with (fun q => V (v1 q)).
      * assert (P : 0 < v1 p) by (pose proof (Hs eq_refl); lra).
        generalize (locally_pos_U (fun q : vec3 => v1 q) p (continuous_v1 p) P). apply filter_imp. intros q Hq. rewrite radius_S, Rabs_pos_eq by lra. reflexivity.
      * rewrite <- ER in *. apply sph_hess_S; [exact L|exact D].
Qed.
Lemma spherical_proper' F dn m e : proper (sphericalPot F dn m e).
Proof.
  split; [|discriminate]. intros s t p. apply returns_of'. destruct (sphEval F s p) as [[v g] h] eqn:E. exists v, g, h. intros [[wp wg] wh]. cbn [sphericalPot p_eval]. rewrite E. reflexivity.
Qed.
(** the density is evaluated at the radius of the point *)
Lemma sph_density F d m e s t p : (s = Sph -> 0 <= v1 p) -> d_density (p_dens (sphericalPot F (fun q => d (v1 q)) m e)) s t p = d (radius (cart s p)).
Proof.
  intros Hs. rewrite <- (radS_eq s p Hs). cbn [sphericalPot p_dens d_density]. f_equal. destruct s; cbn [toPosG radS]; [| |reflexivity]; destruct p as [[a b] c]; reflexivity.
Qed.
(** Poisson equation for a function of radius *)
Lemma sph_poisson (V V1 V2 : R -> R) (d : R -> R) x :
  locally (radius x) (fun r => is_derive V r (V1 r)) -> is_derive V1 (radius x) (V2 (radius x)) -> (radius x = 0 -> V1 0 = 0) ->
  (radius x <> 0 -> d (radius x) = (V2 (radius x) + 2 * V1 (radius x) / radius x) / (4 * PI)) ->
  (radius x = 0 -> d 0 = 3 * V2 0 / (4 * PI)) ->
  poisson (fun y => V (radius y)) (fun y => d (radius y)) x.
Proof.
  intros L D Z P1 P0. exists (sphGrad_C x (V1 (radius x))), (sphHess_C x (V1 (radius x)) (V2 (radius x))). split.
  - apply is_hess_ext with (fun q => V (sphR_C q)); [intros q; rewrite radius_C; reflexivity|].
    rewrite <- radius_C in *. apply sph_hess_C; [exact L|exact D|exact Z].
  - pose proof PI_RGT_0 as HP. pose proof (radius_sq x) as SQ. unfold trace. destruct x as [[x1 x2] x3]. unfold sphHess_C. rewrite radius_C.
    set (r := radius (x1, x2, x3)) in *. clearbody r. unfold v1, v2, v3 in SQ; cbn [fst snd] in SQ.
    destruct (Req_EM_T r 0) as [E|N].
    + rewrite !Req_b_t by exact E. cbn [h11 h22 h33]. rewrite E. rewrite (Req_b_t (V1 0) 0) by (apply Z; exact E). cbn [h11 h22 h33]. rewrite P0 by exact E. unfold pow_2. field. lra.
    + rewrite !Req_b_f by exact N. cbn [h11 h22 h33]. rewrite P1 by exact N. unfold pow_2.
      assert (Q : x1 / r * (x1 / r) + x2 / r * (x2 / r) + x3 / r * (x3 / r) = 1) by (field_simplify_eq; [lra|exact N]).
      assert (K : forall a b c dd q, a + b + c = 1 -> (a * dd + q + (b * dd + q) + (c * dd + q)) = dd + 3 * q) by (intros a b c dd q HH; replace (a * dd + q + (b * dd + q) + (c * dd + q)) with ((a + b + c) * dd + 3 * q) by ring; rewrite HH; ring).
      rewrite (K _ _ _ _ _ Q). field. split; lra.
Qed.
(** any function of radius has all symmetries *)
Lemma radius_rot m x : is_rotation m -> radius (toRotated m x) = radius x.
Proof.
  intros (_ & O & _). unfold radius. f_equal. pose proof (rot_dot m x x O) as E. revert E. unfold dot.
  destruct (toRotated m x) as [[a b] c]. destruct x as [[u v] w]. unfold v1, v2, v3; cbn [fst snd]. lra.
Qed.
Lemma radius_rotZ a x : radius (rotZ a x) = radius x.
Proof. rewrite rotZ_rotM. apply radius_rot, rotM_rotation. Qed.
Lemma radius_sym s (f : R -> R) : has_sym s (fun x => f (radius x)).
Proof.
  intros _. split; [|split; [|split; [|split; [|split]]]]; intros _.
  1-4: intros p; f_equal; unfold radius, v1, v2, v3; cbn [fst snd]; f_equal; ring.
  - intros a p. f_equal. apply radius_rotZ.
  - intros m O p. f_equal. apply radius_rot, O.
Qed.
Ltac eqR := match goal with |- @eq _ ?a ?b => change (@eq R a b) end.
Lemma sqrt2 x : 0 <= x -> sqrt x * sqrt x = x. Proof. apply sqrt_sqrt. Qed.

(* ------------------------------------------------------------------ Plummer *)
Section Plummer.
Variables M b : R.
Let w (r : R) := sqrt (r ^ 2 + b ^ 2).
Let PV (r : R) := - M / w r.
Let PV1 (r : R) := M * r / (w r ^ 3).
Let PV2 (r : R) := M * (b ^ 2 - 2 * r ^ 2) / (w r ^ 5).
Lemma pl_w r : 0 < r ^ 2 + b ^ 2 -> 0 < w r /\ w r * w r = r ^ 2 + b ^ 2.
Proof. intros H. split; [apply sqrt_lt_R0, H|apply sqrt_sqrt; lra]. Qed.
Lemma pl_eval r : 0 < r ^ 2 + b ^ 2 -> Plummer_evalDeriv M b r = (PV r, PV1 r, PV2 r).
Proof.
  intros H. destruct (pl_w r H) as (W & W2). unfold Plummer_evalDeriv, PV, PV1, PV2.
  destruct (Req_EM_T M 0) as [->|N].
  - rewrite Req_b_t by reflexivity. cbn [negb]. f_equal; [f_equal|]; unfold pow_2; field; lra.
  - rewrite Req_b_f by exact N. cbn [negb].
    assert (E : sqrt (1 / (pow_2 r + pow_2 b)) = 1 / w r).
    { unfold pow_2. replace (r * r + b * b) with (r ^ 2 + b ^ 2) by ring. rewrite sqrt_div_alt by exact H. rewrite sqrt_1. reflexivity. }
    rewrite E. unfold pow_2. replace (r * r + b * b) with (w r * w r) by (rewrite W2; ring).
    f_equal; [f_equal|]; [unfold Rdiv; ring|field; lra|field; lra].
Qed.
Lemma pl_d0 r : 0 < r ^ 2 + b ^ 2 -> is_derive PV r (PV1 r).
Proof.
  intros H. destruct (pl_w r H) as (W & W2). unfold PV, PV1, w in *. auto_derive; [repeat split; try lra; apply Rgt_not_eq; exact W|].
  replace (r * (r * 1) + b * (b * 1)) with (r ^ 2 + b ^ 2) by ring. set (v := sqrt (r ^ 2 + b ^ 2)) in *. field. lra.
Qed.
Lemma pl_d1 r : 0 < r ^ 2 + b ^ 2 -> is_derive PV1 r (PV2 r).
Proof.
  intros H. destruct (pl_w r H) as (W & W2). unfold PV1, PV2, w in *.
  assert (W3 : 0 < sqrt (r ^ 2 + b ^ 2) ^ 3) by (apply pow_lt; exact W).
  auto_derive; [repeat split; try lra; apply Rgt_not_eq; exact W3|].
  replace (r * (r * 1) + b * (b * 1)) with (r ^ 2 + b ^ 2) by ring. set (v := sqrt (r ^ 2 + b ^ 2)) in *. clearbody v.
  assert (B2 : b ^ 2 = v * v - r ^ 2) by lra. rewrite B2. field. lra.
Qed.
Lemma pl_loc r : 0 < r ^ 2 + b ^ 2 -> locally r (fun s => is_derive PV s (PV1 s)).
Proof.
  intros H. assert (L : locally r (fun s => 0 < s ^ 2 + b ^ 2)).
  { apply (locally_pos (fun s => s ^ 2 + b ^ 2)); [|exact H]. apply (ex_derive_continuous (fun s => s ^ 2 + b ^ 2)). auto_derive. exact Logic.I. }
  revert L. apply filter_imp. apply pl_d0.
Qed.
Lemma pl_even r : PV (- r) = PV r.
Proof. unfold PV, w. replace ((- r) ^ 2) with (r ^ 2) by ring. reflexivity. Qed.
Lemma plummer_represents t s p : (s = Sph -> 0 <= v1 p) -> 0 < radius (cart s p) ^ 2 + b ^ 2 -> represents (Plummer M b) (Plummer_Phi M b) t s p.
Proof.
  intros Hs H. apply (sph_represents _ _ _ _ PV PV1 PV2); [exact Hs|apply pl_eval; exact H|apply pl_loc; exact H|apply pl_d1; exact H|].
  intros E. split; [unfold PV1, Rdiv; ring|apply pl_even].
Qed.
Let Pd (r : R) := Plummer_density M b (r, 0, 0).
Lemma pl_dens r : 0 < r ^ 2 + b ^ 2 -> Pd r = 3 * M * b ^ 2 / (4 * PI * w r ^ 5).
Proof.
  intros H. destruct (pl_w r H) as (W & W2). unfold Pd, Plummer_density, v1; cbn [fst]. 
  assert (E : sqrt (1 / (pow_2 r + pow_2 b)) = 1 / w r).
  { unfold pow_2. replace (r * r + b * b) with (r ^ 2 + b ^ 2) by ring. rewrite sqrt_div_alt by exact H. rewrite sqrt_1. reflexivity. }
  rewrite E. unfold pow_2. replace (r * r + b * b) with (w r * w r) by (rewrite W2; ring). pose proof PI_RGT_0. field. split; lra.
Qed.
Lemma plummer_density t s p : (s = Sph -> 0 <= v1 p) -> 0 < radius (cart s p) ^ 2 + b ^ 2 -> dens_represents (p_dens (Plummer M b)) (Plummer_rho M b) t s p.
Proof.
  intros Hs H. unfold dens_represents. transitivity (Pd (radius (cart s p))); [|rewrite pl_dens by exact H; reflexivity].
  exact (sph_density (Plummer_evalDeriv M b) Pd M (Plummer_enclosedMass M b) s t p Hs).
Qed.
Lemma plummer_poisson t x : 0 < radius x ^ 2 + b ^ 2 -> poisson (Plummer_Phi M b t) (Plummer_rho M b t) x.
Proof.
  intros H. destruct (pl_w _ H) as (W & W2). pose proof PI_RGT_0 as HP.
  apply (sph_poisson PV PV1 PV2 (fun r => 3 * M * b ^ 2 / (4 * PI * w r ^ 5))); [apply pl_loc; exact H|apply pl_d1; exact H|unfold PV1, Rdiv; intros; ring| |].
  - intros N. unfold PV2, PV1. set (v := w (radius x)) in *. set (r := radius x) in *. clearbody v r.
    replace (b ^ 2) with (v * v - r ^ 2) by lra. field. repeat split; lra.
  - intros E. rewrite E in *. unfold PV2. set (v := w 0) in *. clearbody v. field. repeat split; lra.
Qed.
(** enclosed mass = integral of the density *)
Lemma plummer_enclosed r : 0 < r -> mass_within (fun s => Plummer_rho M b 0 (s, 0, 0)) r (if Req_EM_T b 0 then 0 else Plummer_enclosedMass M b r).
Proof.
  intros Hr. unfold mass_within. destruct (Req_EM_T b 0) as [Eb|Nb].
  - apply is_RInt_ext with (fun _ => 0).
    + intros s _. unfold Plummer_rho. rewrite Eb. unfold Rdiv. rewrite pow_i by lia. eqR; ring.
    + pose proof (@is_RInt_const R_NormedModule 0 r 0) as K. rewrite Rminus_0_r in K. refine (eq_rect _ (fun v : R => is_RInt (fun _ => 0) 0 r v) K _ _). unfold scal; cbn; unfold mult; cbn; ring.
  - assert (P : forall s, 0 < s ^ 2 + b ^ 2) by (intros s; assert (0 < b ^ 2) by nra; nra).
    replace (Plummer_enclosedMass M b r) with (minus (r ^ 2 * PV1 r) (0 ^ 2 * PV1 0)).
    + apply is_RInt_ext with (fun s => 4 * PI * s ^ 2 * (3 * M * b ^ 2 / (4 * PI * w s ^ 5))).
      * intros s Hs. unfold Plummer_rho. do 4 f_equal. unfold w. replace (radius (s, 0, 0) ^ 2) with (s ^ 2); [reflexivity|]. rewrite radius_sq. unfold v1, v2, v3; cbn [fst snd]. ring.
      * apply (is_RInt_derive (fun s => s ^ 2 * PV1 s)).
        -- intros s _. destruct (pl_w s (P s)) as (W & W2). pose proof (pl_d1 s (P s)) as D.
           assert (E2 : is_derive (fun s => s ^ 2) s (2 * s)) by (auto_derive; [exact Logic.I|ring]).
           pose proof (is_derive_mult (fun s => s ^ 2) PV1 s _ _ E2 D (fun a b => Rmult_comm a b)) as K.
           eapply is_derive_ext_loc; [|replace (4 * PI * s ^ 2 * (3 * M * b ^ 2 / (4 * PI * w s ^ 5))) with (plus (mult (2 * s) (PV1 s)) (mult (s ^ 2) (PV2 s))); [exact K|]].
           ++ apply filter_forall. intros; reflexivity.
           ++ unfold plus, mult; cbn. unfold PV1, PV2. set (v := w s) in *. clearbody v. pose proof PI_RGT_0. replace (b * (b * 1)) with (v * v - s ^ 2) by lra. replace (b ^ 2) with (v * v - s ^ 2) by lra. field. split; lra.
        -- intros s _. apply (ex_derive_continuous (fun s => 4 * PI * s ^ 2 * (3 * M * b ^ 2 / (4 * PI * w s ^ 5)))). unfold w.
           destruct (pl_w s (P s)) as (W & W2). unfold w in W. pose proof PI_RGT_0. auto_derive. repeat split; [apply P|]. apply Rgt_not_eq. apply Rmult_lt_0_compat; [lra|]. apply (pow_lt _ 5) in W. simpl in W. simpl. exact W.
    + unfold Plummer_enclosedMass. rewrite Req_b_f by exact Nb. destruct (pl_w r (P r)) as (W & W2).
      assert (E : sqrt (pow_2 (b / r) + 1) = w r / r).
      { unfold pow_2. replace (b / r * (b / r) + 1) with ((r ^ 2 + b ^ 2) / (r * r)) by (field; lra). rewrite sqrt_div_alt by nra. rewrite sqrt_square by lra. reflexivity. }
      rewrite E. unfold minus, plus, opp; cbn. unfold PV1, pow_3. set (v := w r) in *. field. split; [lra|]. split; [lra|].
      apply Rgt_not_eq, sqrt_lt_R0. apply P.
Qed.
End Plummer.
