(** Property C51: Kepler's equation, the Kepler binary and its potential. *)
From Coq Require Import Reals Lra Psatz Lia Bool ZArith List.
From Coquelicot Require Import Coquelicot.
From Verif Require Import RandReal RandRealProofs PolyModel PolyProofs Base CoordModel CoordSpec CoordCalc CoordProofs OrientModel OrientSpec PotModel PotSpec PotProofs PotProofs2 LapProofs RootProofs AnalyticSpec AnalyticProofs KeplerModel KeplerSpec KeplerProofs KeplerProofs2 KeplerProofs3.
Import ListNotations.
Local Open Scope R_scope.

(* ------------------------------------------------------------------ the solver *)
(** Kepler's equation has exactly one root for every mean anomaly *)
Theorem C51_kepler_root e M : 0 <= e < 1 -> exists! eta, kepler_eq e M eta.
Proof.
  intros He. destruct (kF_root e He M) as (x & Hx). exists x. split; [exact Hx|]. intros y Hy. apply (kF_inj e He). unfold kepler_eq in Hy. rewrite Hx, Hy. reflexivity.
Qed.
(** whenever the solver returns, the result satisfies Kepler's equation for the phase reduced to [0, 2 pi) to 2e-15, hence is within 2e-15/(1-e) of the root *)
Theorem C51_solver_accuracy fuel e M r : 0 <= e <= 1 - 1 / 10 ^ 10 -> solveKepler fuel e M = Ok r ->
  exists k : Z, 0 <= M - 2 * PI * IZR k < 2 * PI /\ Rabs (r - e * sin r - (M - 2 * PI * IZR k)) <= 2 / 10 ^ 15 /\
    forall eta, kepler_eq e (M - 2 * PI * IZR k) eta -> Rabs (r - eta) <= 2 / 10 ^ 15 / (1 - e).
Proof.
  intros He H. destruct (solveKepler_accuracy fuel e M r He H) as (k & B & A). exists k. split; [exact B|]. split; [exact A|]. intros eta Q. unfold kepler_eq in Q.
  assert (He1 : 0 <= e < 1) by lra. pose proof (kF_expand e He1 r eta) as K. cbv beta in K. rewrite Q in K.
  apply Rmult_le_reg_l with (1 - e); [lra|]. replace ((1 - e) * (2 / 10 ^ 15 / (1 - e))) with (2 / 10 ^ 15) by (field; lra). lra.
Qed.
(** at most three iterations for eccentricities up to 0.7.  Missing: termination for larger eccentricities *)
Theorem C51_solver_terminates_partial e M : 0 <= e <= 7 / 10 -> exists r, solveKepler 3 e M = Ok r.
Proof. apply solveKepler_terminates. Qed.
Example C51_solver_ex : exists r, solveKepler 3 (1 / 2) 1 = Ok r. Proof. apply solveKepler_terminates. lra. Qed.

(* ------------------------------------------------------------------ the orbit *)
(** exact solvers exist, so that the hypothesis of the theorems below can be met *)
Example C51_exact_solver_ex : exists kep, exact_solver kep. Proof. destruct exact_exists as (k & H). exists k. exact H. Qed.
(** the two components obey Newton's equations of the two-body problem *)
Theorem C51_newton kep b : exact_solver kep -> 0 < b_mass b -> 0 <= b_q b -> 0 < b_sma b -> 0 <= b_ecc b < 1 ->
  two_body (Mbh b 0) (Mbh b 1) (bhPos kep b 0) (bhPos kep b 1) (bhVel kep b 0) (bhVel kep b 1).
Proof. intros X Hm Hq Ha He. apply orbit_two_body; assumption. Qed.
(** masses have the given sum and ratio; centre of mass at rest in the origin; separation between a(1-e) and a(1+e); period 2 pi sqrt(a^3/m) *)
Theorem C51_orbit kep b t : exact_solver kep -> 0 < b_mass b -> 0 <= b_q b -> 0 < b_sma b -> 0 <= b_ecc b < 1 ->
  Mbh b 0 + Mbh b 1 = b_mass b /\ Mbh b 1 = b_q b * Mbh b 0 /\
  (Mbh b 0 * fst (bhPos kep b 0 t) + Mbh b 1 * fst (bhPos kep b 1 t) = 0 /\ Mbh b 0 * snd (bhPos kep b 0 t) + Mbh b 1 * snd (bhPos kep b 1 t) = 0) /\
  b_sma b * (1 - b_ecc b) <= dist2 (bhPos kep b 0 t) (bhPos kep b 1 t) <= b_sma b * (1 + b_ecc b) /\
  (let T := 2 * PI / sqrt (b_mass b / (b_sma b) ^ 3) in
   bhPos kep b 0 (t + T) = bhPos kep b 0 t /\ bhPos kep b 1 (t + T) = bhPos kep b 1 t /\ bhVel kep b 0 (t + T) = bhVel kep b 0 t /\ bhVel kep b 1 (t + T) = bhVel kep b 1 t).
Proof.
  intros X Hm Hq Ha He. destruct (mass_forms b Ha) as (M0 & M1). split; [rewrite M0, M1; field; lra|]. split; [rewrite M0, M1; field; lra|].
  destruct (orbit_com kep b X Hq Ha He t) as (A & B & _). split; [split; assumption|]. split; [apply orbit_sep; assumption|].
  replace (b_sma b ^ 3) with (pow_3 (b_sma b)) by (unfold pow_3; ring). apply orbit_period; assumption.
Qed.
(** both extreme separations are attained on the x axis, at mean anomalies 0 and pi *)
Theorem C51_apsides kep b t : exact_solver kep -> 0 < b_mass b -> 0 <= b_q b -> 0 < b_sma b -> 0 <= b_ecc b < 1 ->
  let M := sqrt (b_mass b / b_sma b ^ 3) * t + b_phase b in
  (M = 0 -> bhPos kep b 1 t = (- b_sma b * (1 - b_ecc b) / (1 + b_q b), 0) /\ bhPos kep b 0 t = (b_q b * b_sma b * (1 - b_ecc b) / (1 + b_q b), 0)) /\
  (M = PI -> bhPos kep b 1 t = (b_sma b * (1 + b_ecc b) / (1 + b_q b), 0) /\ bhPos kep b 0 t = (- b_q b * b_sma b * (1 + b_ecc b) / (1 + b_q b), 0)).
Proof.
  intros X Hm Hq Ha He. replace (b_sma b ^ 3) with (pow_3 (b_sma b)) by (unfold pow_3; ring). split; intros H; [apply orbit_peri|apply orbit_apo]; assumption.
Qed.
Example C51_orbit_ex : let b := mkBinary 2 (1 / 2) 3 (6 / 10) 1 in 0 < b_mass b /\ 0 <= b_q b /\ 0 < b_sma b /\ 0 <= b_ecc b < 1. Proof. cbn. lra. Qed.
(** a single black hole (zero semimajor axis or zero mass ratio) stays in the origin with its whole mass *)
Theorem C51_single kep b t : b_sma b = 0 \/ b_q b = 0 -> bh_points kep b t = [(b_mass b, (0, 0))].
Proof. apply single_points. Qed.

(* ------------------------------------------------------------------ the potential *)
(** value and gradient in every coordinate system are those of the point masses; the stand-alone function agrees; zero density satisfies the Poisson equation *)
Theorem C51_value_and_gradient kep b t s p : away (bh_points kep b t) (cart s p) ->
  (exists g h, returns (KeplerBinary kep b) s t p (points_Phi (bh_points kep b t) (cart s p)) g h /\ is_grad (fun q => points_Phi (bh_points kep b t) (cart s q)) p g) /\
  binary_potential kep b (cart s p) t = points_Phi (bh_points kep b t) (cart s p) /\
  poisson (points_Phi (bh_points kep b t)) (fun _ => d_density (p_dens (KeplerBinary kep b)) s t p) (cart s p).
Proof. intros A. split; [apply binary_value_grad, A|]. split; [apply binary_pot_val, A|apply binary_poisson, A]. Qed.
Example C51_away_ex kep : away (bh_points kep (mkBinary 1 0 0 0 0) 5) (cart Cyl (0, 1, 0)).
Proof.
  rewrite single_points by (left; reflexivity). intros m c [E|[]]. injection E as <- <-. rewrite dist3_0. unfold radius, cart, v1, v2, v3; cbn [fst snd]. apply sqrt_lt_R0. rewrite !Rmult_0_l. simpl. lra.
Qed.
(** the matrix of second derivatives has the opposite sign to the true one, everywhere *)
Theorem C51_hessian_sign_refuted kep b t p : away (bh_points kep b t) p ->
  exists g h, is_hess (points_Phi (bh_points kep b t)) p g h /\ returns (KeplerBinary kep b) Car t p (points_Phi (bh_points kep b t) p) g (hneg h).
Proof. intros A. assert (A' : away (bh_points kep b t) (cart Car p)) by (rewrite cart_Car; exact A). destruct (binary_returns kep b t Car p A') as (g & h & H & E). rewrite cart_Car in H, E. exists g, h. split; [exact H|exact E]. Qed.
(** ... so that the object does not represent the potential and its derivatives, already for a single black hole *)
Theorem C51_hessian_refuted kep : ~ represents (KeplerBinary kep (mkBinary 1 0 0 0 0)) (fun t => points_Phi [(1, (0, 0))]) 0 Car (1, 0, 0).
Proof.
  intros (g & h & E & H). set (b := mkBinary 1 0 0 0 0) in *. pose proof (single_points kep b 0 (or_introl eq_refl)) as SP. cbn [b_mass b] in SP.
  assert (D1 : dist3 (1, 0, 0) (0, 0) = 1) by (rewrite dist3_0; unfold radius, v1, v2, v3; cbn [fst snd]; replace (1 ^ 2 + 0 ^ 2 + 0 ^ 2) with (1 * 1) by ring; apply sqrt_square; lra).
  assert (A : away (bh_points kep b 0) (1, 0, 0)) by (rewrite SP; intros m c [Q|[]]; injection Q as <- <-; rewrite D1; lra).
  destruct (C51_hessian_sign_refuted kep b 0 (1, 0, 0) A) as (g' & h' & H' & E'). rewrite SP in H', E'.
  assert (H2 : is_hess (points_Phi [(1, (0, 0))]) (1, 0, 0) g h) by (apply (is_hess_ext (fun q => points_Phi [(1, (0, 0))] (cart Car q))); [intros q; rewrite cart_Car; reflexivity|exact H]).
  destruct (is_hess_unique _ _ _ _ _ _ H2 H') as (_ & Eh). subst h'.
  pose proof (E (false, false, true)) as X1. pose proof (E' (false, false, true)) as X2. rewrite X1 in X2. cbn in X2. injection X2 as X2. apply (f_equal h11) in X2. cbn in X2.
  (* h11 = -2 *)
  pose proof (pt_hess 1 (0, 0) (1, 0, 0) ltac:(rewrite D1; lra)) as T.
  assert (T2 : is_hess (points_Phi [(1, (0, 0))]) (1, 0, 0) (combineG 1 1 (ptG 1 0 0 (1, 0, 0)) zero3) (combineH 1 1 (ptH 1 0 0 (1, 0, 0)) zeroH)).
  { apply is_hess_ext with (fun q => 1 * (- 1 / dist3 q (0, 0)) + 1 * 0); [intros q; rewrite points_cons; change (points_Phi [] q) with 0; generalize (dist3 q (0,0)); intros z; unfold Rdiv; ring|]. apply is_hess_lin; [exact T|apply is_hess_const]. }
  destruct (is_hess_unique _ _ _ _ _ _ H2 T2) as (_ & Eh). apply (f_equal h11) in Eh. unfold combineH, ptH in Eh. cbn [h11 fst snd zeroH] in Eh.
  assert (SQ : sqrt ((v1 (1, 0, 0) - 0) * (v1 (1, 0, 0) - 0) + (v2 (1, 0, 0) - 0) * (v2 (1, 0, 0) - 0) + v3 (1, 0, 0) * v3 (1, 0, 0)) = 1) by (unfold v1, v2, v3; cbn [fst snd]; replace ((1 - 0) * (1 - 0) + (0 - 0) * (0 - 0) + 0 * 0) with (1 * 1) by ring; apply sqrt_square; lra).
  rewrite SQ in Eh. unfold v1 in Eh. cbn [fst snd] in Eh. assert (h11 h = -2) by (rewrite Eh; field). lra.
Qed.
(** the declared symmetry is true *)
Theorem C51_symmetry kep b t : has_sym (d_sym (p_dens (KeplerBinary kep b))) (points_Phi (bh_points kep b t)).
Proof. apply binary_has_sym. Qed.

(* ------------------------------------------------------------------ masses *)
(** total mass, and the mass enclosed within any radius beyond the largest distance of the lighter component *)
Theorem C51_mass kep b t r : exact_solver kep -> 0 < b_mass b -> 0 < b_q b <= 1 -> 0 < b_sma b -> 0 <= b_ecc b < 1 -> b_sma b <= r -> b_sma b * (1 + b_ecc b) <= r * (1 + b_q b) ->
  d_encl (p_dens (KeplerBinary kep b)) r = points_within (bh_points kep b t) r /\ d_encl (p_dens (KeplerBinary kep b)) r = d_mass (p_dens (KeplerBinary kep b)).
Proof.
  intros X Hm Hq Ha He Hr1 Hr2. cbn. unfold binary_encl. rewrite Rle_b_t by exact Hr1. split; [|reflexivity].
  assert (Hq0 : 0 <= b_q b) by lra. destruct (mass_forms b Ha) as (M0 & M1). pose proof (orbit_sep kep b X Hq0 Ha He t) as SP. destruct (orbit_dist0 kep b X Hq0 Ha He t) as (D1 & D0). set (d := dist2 (bhPos kep b 0 t) (bhPos kep b 1 t)) in *.
  unfold bh_points, numbh. rewrite Req_b_f by lra. rewrite Req_b_f by lra. cbn [negb andb seq map points_within fold_right fst snd]. rewrite D0, D1, M0, M1.
  assert (L1 : d / (1 + b_q b) <= r) by (apply Rmult_le_reg_r with (1 + b_q b); [lra|]; replace (d / (1 + b_q b) * (1 + b_q b)) with d by (field; lra); lra).
  assert (dp : 0 <= d) by apply sqrt_pos.
  assert (L0 : b_q b * d / (1 + b_q b) <= r) by (apply Rmult_le_reg_r with (1 + b_q b); [lra|]; replace (b_q b * d / (1 + b_q b) * (1 + b_q b)) with (b_q b * d) by (field; lra); nra).
  destruct (Rle_dec (b_q b * d / (1 + b_q b)) r); [|contradiction]. destruct (Rle_dec (d / (1 + b_q b)) r); [|contradiction]. field. lra.
Qed.
Example C51_mass_ex : let b := mkBinary 2 (6 / 10) 3 (5 / 10) 1 in 0 < b_mass b /\ 0 < b_q b <= 1 /\ 0 < b_sma b /\ 0 <= b_ecc b < 1 /\ b_sma b <= 3 /\ b_sma b * (1 + b_ecc b) <= 3 * (1 + b_q b).
Proof. cbn. lra. Qed.
(** inside the semimajor axis the reported enclosed mass is zero although both components of an equal-mass circular binary are within 1/2 of it *)
Theorem C51_enclosed_mass_refuted kep : exact_solver kep -> let b := mkBinary 1 1 1 0 0 in
  d_encl (p_dens (KeplerBinary kep b)) (3 / 4) = 0 /\ points_within (bh_points kep b 0) (3 / 4) = 1.
Proof.
  intros X b. split; [cbn; unfold binary_encl; cbn; rewrite Rle_b_f by lra; reflexivity|].
  assert (P : 0 < b_mass b /\ 0 <= b_q b /\ 0 < b_sma b /\ 0 <= b_ecc b < 1) by (cbn; lra). destruct P as (P1 & P2 & P3 & P4).
  destruct (mass_forms b P3) as (M0 & M1). pose proof (orbit_sep kep b X P2 P3 P4 0) as SP. destruct (orbit_dist0 kep b X P2 P3 P4 0) as (D1 & D0). set (d := dist2 (bhPos kep b 0 0) (bhPos kep b 1 0)) in *.
  unfold bh_points, numbh. cbn [b_sma b_q b]. rewrite !Req_b_f by lra. cbn [negb andb seq map points_within fold_right fst snd]. fold b. rewrite D0, D1, M0, M1. cbn [b_sma b_q b_mass b_ecc b] in *. 
  repeat match goal with |- context [Rle_dec ?a ?c] => destruct (Rle_dec a c) as [?|K]; [|exfalso; apply K; lra] end. field.
Qed.
(** a single black hole with a nonzero semimajor axis and zero mass ratio *)
Theorem C51_enclosed_mass_single_refuted kep t : let b := mkBinary 1 0 1 0 0 in
  d_encl (p_dens (KeplerBinary kep b)) (1 / 2) = 0 /\ points_within (bh_points kep b t) (1 / 2) = 1.
Proof.
  intros b. split; [cbn; unfold binary_encl; cbn; rewrite Rle_b_f by lra; reflexivity|]. rewrite single_points by (right; reflexivity). cbn [points_within fold_right fst snd b_mass b].
  assert (E : dist2 (0, 0) (0, 0) = 0) by (unfold dist2; cbn [fst snd]; replace ((0 - 0) ^ 2 + (0 - 0) ^ 2) with 0 by ring; apply sqrt_0). rewrite E. destruct (Rle_dec 0 (1 / 2)); lra.
Qed.

Print Assumptions C51_kepler_root.
Print Assumptions C51_solver_accuracy.
Print Assumptions C51_solver_terminates_partial.
Print Assumptions C51_newton.
Print Assumptions C51_orbit.
Print Assumptions C51_apsides.
Print Assumptions C51_single.
Print Assumptions C51_value_and_gradient.
Print Assumptions C51_hessian_sign_refuted.
Print Assumptions C51_hessian_refuted.
Print Assumptions C51_symmetry.
Print Assumptions C51_mass.
Print Assumptions C51_enclosed_mass_refuted.
Print Assumptions C51_enclosed_mass_single_refuted.
