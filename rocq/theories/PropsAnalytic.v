(** Property C50: the analytic potentials compute the documented formulas, their derivatives, densities, masses and symmetries. *)
From Coq Require Import Reals Lra Psatz Bool ZArith List.
From Coquelicot Require Import Coquelicot.
From Verif Require Import RandReal RandRealProofs PolyModel PolyProofs CoordModel CoordSpec CoordCalc CoordMaps CoordProofs CoordVel CoordSph OrientModel OrientSpec OrientProofs PotModel PotSpec PotProofs PotProofs2 PotProofs3 LapProofs RootProofs AnalyticModel AnalyticSpec AnalyticProofs AnalyticProofs2 AnalyticProofs3.
Import ListNotations.
Local Open Scope R_scope.

(* ------------------------------------------------------------------ Plummer *)
(** value, gradient and Hessian in every coordinate system, everywhere except the centre of a point mass (b = 0) *)
Theorem C50_Plummer M b t s p : (s = Sph -> 0 <= v1 p) -> 0 < radius (cart s p) ^ 2 + b ^ 2 ->
  represents (Plummer M b) (Plummer_Phi M b) t s p /\
  dens_represents (p_dens (Plummer M b)) (Plummer_rho M b) t s p /\
  poisson (Plummer_Phi M b t) (Plummer_rho M b t) (cart s p).
Proof. intros H1 H2. repeat split; [apply plummer_represents|apply plummer_density|apply plummer_poisson]; assumption. Qed.
Example C50_Plummer_ex : (Sph = Sph -> 0 <= v1 (0, 1, 2)) /\ 0 < radius (cart Sph (0, 1, 2)) ^ 2 + 1 ^ 2.
Proof. split; [intros _; unfold v1; cbn; lra|]. rewrite radius_sq. unfold cart, v1, v2, v3; cbn [fst snd]. rewrite !Rmult_0_l. simpl. lra. Qed.
(** enclosedMass(r) is the integral of the density; totalMass is the mass seen from afar *)
Theorem C50_Plummer_mass M b r : b <> 0 -> 0 < r ->
  mass_within (fun s => Plummer_rho M b 0 (s, 0, 0)) r (d_encl (p_dens (Plummer M b)) r) /\
  far_mass (Plummer_Phi M b 0) (d_mass (p_dens (Plummer M b))).
Proof.
  intros Hb Hr. split; [|apply plummer_far]. pose proof (plummer_enclosed M b r Hr) as H. destruct (Req_EM_T b 0); [contradiction|exact H].
Qed.
(** a point mass: zero density outside the centre, but the mass is reported *)
Theorem C50_point_mass M r : 0 < r -> (forall x, radius x <> 0 -> Plummer_rho M 0 0 x = 0) /\ d_encl (p_dens (Plummer M 0)) r = M /\ far_mass (Plummer_Phi M 0 0) M.
Proof.
  intros Hr. split; [|split; [|apply plummer_far]].
  - intros x _. unfold Plummer_rho, Rdiv. ring.
  - cbn. unfold Plummer_enclosedMass. rewrite Req_b_t; reflexivity.
Qed.

(* ------------------------------------------------------------------ Isochrone *)
Theorem C50_Isochrone M b e t s p : 0 <= b -> (s = Sph -> 0 <= v1 p) -> 0 < radius (cart s p) ^ 2 + b ^ 2 ->
  represents (Isochrone M b e) (Isochrone_Phi M b) t s p /\
  poisson (Isochrone_Phi M b t) (fun y => d_density (p_dens (Isochrone M b e)) Car t y) (cart s p) /\
  d_density (p_dens (Isochrone M b e)) s t p = d_density (p_dens (Isochrone M b e)) Car t (cart s p) /\
  far_mass (Isochrone_Phi M b 0) (d_mass (p_dens (Isochrone M b e))).
Proof.
  intros Hb H1 H2. assert (C : forall y, d_density (p_dens (Isochrone M b e)) Car t y = Isochrone_density M b (radius y, 0, 0)) by (intros y; rewrite isochrone_density; [rewrite cart_Car; reflexivity|discriminate]).
  split; [|split; [|split]].
  - apply isochrone_represents; assumption.
  - pose proof (isochrone_poisson M b Hb t (cart s p) H2) as (g & h & K & L). exists g, h. split; [exact K|]. rewrite C. exact L.
  - rewrite C. apply isochrone_density; assumption.
  - apply isochrone_far, Hb.
Qed.
Example C50_Isochrone_ex : 0 <= 1 /\ (Cyl = Sph -> 0 <= v1 (0, 0, 0)) /\ 0 < radius (cart Cyl (0, 0, 0)) ^ 2 + 1 ^ 2.
Proof. split; [lra|split; [discriminate|]]. rewrite radius_sq. unfold cart, v1, v2, v3; cbn [fst snd]. simpl. nra. Qed.

(* ------------------------------------------------------------------ NFW *)
(** exact beyond 7e-4 scale radii *)
Theorem C50_NFW M a inf e t s p : 0 < a -> (s = Sph -> 0 <= v1 p) -> 7 / 10000 * a < radius (cart s p) ->
  represents (NFW M a inf e) (NFW_Phi M a) t s p.
Proof. intros Ha H1 H2. apply nfw_represents; assumption. Qed.
Example C50_NFW_ex : 0 < 1 /\ (Car = Sph -> 0 <= v1 (1, 0, 0)) /\ 7 / 10000 * 1 < radius (cart Car (1, 0, 0)).
Proof.
  split; [lra|split; [discriminate|]]. rewrite cart_Car. unfold radius, v1, v2, v3; cbn [fst snd]. replace (1 ^ 2 + 0 ^ 2 + 0 ^ 2) with (1 * 1) by ring. rewrite sqrt_square; lra.
Qed.
(** the density agrees with the documented profile and with the Poisson equation everywhere except the centre *)
Theorem C50_NFW_density M a inf e t s p : 0 < a -> (s = Sph -> 0 <= v1 p) -> radius (cart s p) <> 0 ->
  dens_represents (p_dens (NFW M a inf e)) (NFW_rho M a) t s p /\ poisson (NFW_Phi M a t) (NFW_rho M a t) (cart s p).
Proof. intros Ha H1 H2. split; [apply nfw_density|apply nfw_poisson]; assumption. Qed.
(** within 7e-4 scale radii a series is used; what it returns differs from the profile - M ln(1 + r/a) / r and from its derivatives by at most (in units of M/a^(n+1)) x^4/5, x^3, 12/5 x^2, x = r/a <= 7e-4 *)
Theorem C50_NFW_centre M a r : 0 < a -> 0 < r <= 7 / 10000 * a ->
  let Phi := fun r => - M * ln (1 + r / a) / r in let x := r / a in
  let '(v, d, d2) := NFW_evalDeriv M a r in
  Rabs (v - Phi r) <= Rabs M / a * (x ^ 4 / 5) /\
  exists Phi1 Phi2 : R -> R, locally r (fun s => is_derive Phi s (Phi1 s)) /\ is_derive Phi1 r (Phi2 r) /\
    Rabs (d - Phi1 r) <= Rabs M / a ^ 2 * x ^ 3 /\ Rabs (d2 - Phi2 r) <= Rabs M / a ^ 3 * (12 / 5 * x ^ 2).
Proof.
  intros Ha Hr. pose proof (nfw_small M a Ha r Hr) as K. cbv zeta in *. destruct (NFW_evalDeriv M a r) as [[v d] d2]. destruct K as (K1 & K2 & K3).
  split; [exact K1|]. exists (fun r => M * (ln (1 + r / a) / r - 1 / (r + a)) / r), (fun r => - M * (2 * (ln (1 + r / a) / r) - (2 * a + 3 * r) / (a + r) ^ 2) / r ^ 2). split; [apply nfw_loc; lra|]. split; [apply nfw_d1; lra|]. split; assumption.
Qed.
Example C50_NFW_centre_ex : 0 < 2 /\ 0 < 1 / 1000 <= 7 / 10000 * 2. Proof. lra. Qed.

(* ------------------------------------------------------------------ Miyamoto-Nagai *)
(** Cartesian evaluation excludes the z axis, where the conversion from the native cylindrical system has no well-defined angle *)
Theorem C50_MiyamotoNagai M A B e t s p : (s = Car -> 0 < v1 p ^ 2 + v2 p ^ 2) ->
  let x := cart s p in 0 < v3 x ^ 2 + B ^ 2 -> 0 < v1 x ^ 2 + v2 x ^ 2 + (A + sqrt (v3 x ^ 2 + B ^ 2)) ^ 2 ->
  represents (MiyamotoNagai M A B e) (MN_Phi M A B) t s p /\
  poisson (MN_Phi M A B t) (fun y => d_density (p_dens (MiyamotoNagai M A B e)) Car t y) x /\
  d_density (p_dens (MiyamotoNagai M A B e)) s t p = d_density (p_dens (MiyamotoNagai M A B e)) Car t x /\
  far_mass (MN_Phi M A B 0) (d_mass (p_dens (MiyamotoNagai M A B e))).
Proof.
  assert (P2 : forall u : R, u ^ 2 = u * u) by (intros u; ring). intros H1 x H2 H3. rewrite !P2 in H1. rewrite !P2 in H2. rewrite !P2 in H3.
  split; [apply mn_represents; assumption|]. rewrite (mn_density M A B e t s p (fun _ => Logic.I)).
  split; [|split; [|apply mn_far]].
  - destruct (mn_poisson M A B t x H2 H3) as (g & h & K & L). exists g, h. split; [exact K|]. rewrite (mn_density M A B e t Car x (fun _ => Logic.I)), cart_Car. exact L.
  - rewrite (mn_density M A B e t Car x (fun _ => Logic.I)), cart_Car. reflexivity.
Qed.
Example C50_MiyamotoNagai_ex : (Cyl = Car -> 0 < v1 (0, 1, 2) ^ 2 + v2 (0, 1, 2) ^ 2) /\ let x := cart Cyl (0, 1, 2) in
  0 < v3 x ^ 2 + (1 / 2) ^ 2 /\ 0 < v1 x ^ 2 + v2 x ^ 2 + (3 + sqrt (v3 x ^ 2 + (1 / 2) ^ 2)) ^ 2.
Proof.
  split; [discriminate|]. unfold cart, v1, v2, v3; cbn [fst snd]. split; [lra|]. set (u := sqrt _). assert (0 <= u) by apply sqrt_pos. clearbody u. rewrite !Rmult_0_l. simpl. nra.
Qed.

(* ------------------------------------------------------------------ logarithmic and harmonic *)
Theorem C50_Logarithmic v0 rc p q L inf e t s x : p <> 0 -> q <> 0 -> L <> 0 ->
  0 < rc ^ 2 + v1 (cart s x) ^ 2 + (v2 (cart s x) / p) ^ 2 + (v3 (cart s x) / q) ^ 2 ->
  represents (Logarithmic v0 rc p q L inf e) (Log_Phi v0 rc p q L) t s x /\
  poisson (Log_Phi v0 rc p q L t) (fun y => d_density (p_dens (Logarithmic v0 rc p q L inf e)) Car t y) (cart s x) /\
  d_density (p_dens (Logarithmic v0 rc p q L inf e)) s t x = d_density (p_dens (Logarithmic v0 rc p q L inf e)) Car t (cart s x).
Proof. intros Hp Hq HL H. split; [apply log_represents; assumption|]. apply log_density; assumption. Qed.
Example C50_Logarithmic_ex : let x := cart Sph (0, 0, 0) in 0 < (1 / 2) ^ 2 + v1 x ^ 2 + (v2 x / 2) ^ 2 + (v3 x / 3) ^ 2.
Proof. cbv zeta. unfold cart, v1, v2, v3; cbn [fst snd]. rewrite !Rmult_0_l. unfold Rdiv. rewrite !Rmult_0_l. simpl. lra. Qed.
Theorem C50_Harmonic Om p q inf e t s x : p <> 0 -> q <> 0 ->
  represents (Harmonic Om p q inf e) (Harm_Phi Om p q) t s x /\
  poisson (Harm_Phi Om p q t) (fun y => d_density (p_dens (Harmonic Om p q inf e)) Car t y) (cart s x) /\
  d_density (p_dens (Harmonic Om p q inf e)) s t x = d_density (p_dens (Harmonic Om p q inf e)) Car t (cart s x).
Proof. intros Hp Hq. split; [apply harm_represents; assumption|]. apply harm_density; assumption. Qed.

(* ------------------------------------------------------------------ symmetries, masks *)
(** the documented formulas have the symmetry that the objects report *)
Theorem C50_symmetry :
  (forall M b t, has_sym (d_sym (p_dens (Plummer M b))) (Plummer_Phi M b t)) /\
  (forall M b e t, has_sym (d_sym (p_dens (Isochrone M b e))) (Isochrone_Phi M b t)) /\
  (forall M a i e t, has_sym (d_sym (p_dens (NFW M a i e))) (NFW_Phi M a t)) /\
  (forall M A B e t, has_sym (d_sym (p_dens (MiyamotoNagai M A B e))) (MN_Phi M A B t)) /\
  (forall v0 rc p q L i e t, has_sym (d_sym (p_dens (Logarithmic v0 rc p q L i e))) (Log_Phi v0 rc p q L t)) /\
  (forall Om p q i e t, has_sym (d_sym (p_dens (Harmonic Om p q i e))) (Harm_Phi Om p q t)).
Proof.
  refine (conj _ (conj _ (conj _ (conj _ (conj _ _))))); intros.
  - apply (radius_sym _ (fun r => - M / sqrt (r ^ 2 + b ^ 2))).
  - apply (radius_sym _ (fun r => - M / (b + sqrt (r ^ 2 + b ^ 2)))).
  - apply (radius_sym _ (fun r => if Req_EM_T r 0 then - M / a else - M * ln (1 + r / a) / r)).
  - apply mn_sym.
  - apply has_sym_ext with (fun x => (fun m => v0 ^ 2 / 2 * ln ((rc ^ 2 + m) / L ^ 2)) (v1 x ^ 2 + (v2 x / p) ^ 2 + (v3 x / q) ^ 2)); [|apply (axes_sym_ok (fun m => v0 ^ 2 / 2 * ln ((rc ^ 2 + m) / L ^ 2)) p q)].
    intros x. unfold Log_Phi. cbv beta. do 3 f_equal. ring.
  - apply (axes_sym_ok (fun m => Om ^ 2 / 2 * m)).
Qed.
(** ... and it is never coarser than documented: exact spheres and axisymmetric cases are recognized *)
Theorem C50_symmetry_recognized v0 rc L i e p q : (p = 1 -> q = 1 -> d_sym (p_dens (Logarithmic v0 rc p q L i e)) = ST_SPHERICAL) /\
  (p = 1 -> q ^ 2 <> 1 -> d_sym (p_dens (Logarithmic v0 rc p q L i e)) = ST_AXISYMMETRIC) /\
  (p ^ 2 <> 1 -> d_sym (p_dens (Logarithmic v0 rc p q L i e)) = ST_TRIAXIAL).
Proof.
  cbn. unfold axes_sym, pow_2. repeat split; intros.
  - subst. rewrite !Rmult_1_l. rewrite Req_b_t by reflexivity. reflexivity.
  - subst. rewrite Rmult_1_l. rewrite Req_b_t by reflexivity. rewrite Req_b_f; [reflexivity|]. intros K. apply H0. simpl. lra.
  - rewrite Req_b_f; [reflexivity|]. intros K. apply H. simpl. lra.
Qed.
(** the outputs do not depend on which other outputs are requested; other systems by conversion *)
Theorem C50_outputs_independent :
  (forall M b, proper (Plummer M b)) /\ (forall M b e, proper (Isochrone M b e)) /\ (forall M a i e, proper (NFW M a i e)) /\
  (forall M A B e, proper (MiyamotoNagai M A B e)) /\ (forall v0 rc p q L i e, proper (Logarithmic v0 rc p q L i e)) /\
  (forall Om p q i e, proper (Harmonic Om p q i e)).
Proof.
  refine (conj _ (conj _ (conj _ (conj _ (conj _ _))))); intros.
  - apply spherical_proper'.
  - apply spherical_proper'.
  - apply spherical_proper'.
  - apply mn_proper.
  - unfold Logarithmic. apply (base_proper Car). intros t x. set (X := Log_evalCar _ _ _ _ _ x). destruct X as [[v g] h]. exists v, g, h. intros [[wp wg] wh]. reflexivity.
  - unfold Harmonic. apply (base_proper Car). intros t x. set (X := Harm_evalCar _ _ _ x). destruct X as [[v g] h]. exists v, g, h. intros [[wp wg] wh]. reflexivity.
Qed.

Print Assumptions C50_Plummer.
Print Assumptions C50_Plummer_mass.
Print Assumptions C50_point_mass.
Print Assumptions C50_Isochrone.
Print Assumptions C50_NFW.
Print Assumptions C50_NFW_density.
Print Assumptions C50_NFW_centre.
Print Assumptions C50_MiyamotoNagai.
Print Assumptions C50_Logarithmic.
Print Assumptions C50_Harmonic.
Print Assumptions C50_symmetry.
Print Assumptions C50_symmetry_recognized.
Print Assumptions C50_outputs_independent.
