(** Properties C25-C27, C44: composite, evolving and modified densities/potentials; density from the Laplacian. *)
From Coq Require Import Reals Lra Psatz Lia Bool ZArith List.
From Coquelicot Require Import Coquelicot.
From Verif Require Import RandReal RandRealProofs PolyModel PolyProofs Base BinSearchModel CoordModel CoordSpec CoordCalc CoordMaps2 CoordProofs CoordVel CoordSph OrientModel OrientSpec OrientProofs PotModel PotSpec PotProofs PotProofs2 PotProofs3 EvolProofs LapProofs RootProofs.
Import ListNotations.
Local Open Scope R_scope.

(* ------------------------------------------------------------------ objects used as witnesses *)
(** x^2 + 2 y^2 + 3 z^2, implemented in Cartesian coordinates, density from the Laplacian *)
Definition quadNative (fl : flags) (t : R) (p : vec3) : eres :=
  outputs fl (v1 p * v1 p + 2 * (v2 p * v2 p) + 3 * (v3 p * v3 p)) (2 * v1 p, 4 * v2 p, 6 * v3 p) (mkH 2 4 6 0 0 0).
Definition Quad : pot := basePot Car quadNative (fun t => lapCar (fun fl => quadNative fl t)) 0 (fun _ => 0) ST_TRIAXIAL.
Lemma Quad_proper : proper Quad.
Proof. apply base_proper. intros t p. eexists _, _, _. intros fl. reflexivity. Qed.
Lemma quad_hess a b c p : is_hess (fun q => a * (v1 q * v1 q) + b * (v2 q * v2 q) + c * (v3 q * v3 q)) p (2 * a * v1 p, 2 * b * v2 p, 2 * c * v3 p) (mkH (2 * a) (2 * b) (2 * c) 0 0 0).
Proof.
  exists (fun q => (2 * a * v1 q, 2 * b * v2 q, 2 * c * v3 q)). split; [reflexivity|].
  assert (X : forall k (a b c : R), is_grad (fun q => a * v1 q + b * v2 q + c * v3 q) k (a, b, c)) by (intros k a' b' c'; apply lin_grad).
  split; [|split; [|split]]; cbn [h11 h22 h33 h12 h23 h13].
  - apply filter_forall. intros q c1 c2 c3 t u1 u2 u3 E D1 D2 D3. subst q. unfold v1, v2, v3; cbn [fst snd].
    pose proof (is_derive_unique _ _ _ D1) as U1. pose proof (is_derive_unique _ _ _ D2) as U2. pose proof (is_derive_unique _ _ _ D3) as U3.
    auto_derive; [repeat split; eexists; eassumption|]. change (fun x : R => c1 x) with c1. change (fun x : R => c2 x) with c2. change (fun x : R => c3 x) with c3. rewrite U1, U2, U3. ring.
  - eapply is_grad_ext; [|apply (X p (2 * a) 0 0)]. intros q. unfold v1, v2, v3; cbn [fst snd]. ring.
  - eapply is_grad_ext; [|apply (X p 0 (2 * b) 0)]. intros q. unfold v1, v2, v3; cbn [fst snd]. ring.
  - eapply is_grad_ext; [|apply (X p 0 0 (2 * c))]. intros q. unfold v1, v2, v3; cbn [fst snd]. ring.
Qed.
Definition quadF (t : R) (x : vec3) : R := v1 x * v1 x + 2 * (v2 x * v2 x) + 3 * (v3 x * v3 x).
Lemma quadF_hess t x : is_hess (quadF t) x (2 * v1 x, 4 * v2 x, 6 * v3 x) (mkH 2 4 6 0 0 0).
Proof.
  eapply is_hess_eq; [eapply is_hess_ext; [|apply (quad_hess 1 2 3 x)]| |].
  - intros q. unfold quadF. ring.
  - apply v_eq; ring.
  - apply hess6_eq; cbn; ring.
Qed.
Lemma Quad_represents t s p : represents Quad quadF t s p.
Proof. apply (base_car_represents _ _ _ _ _ _ (2 * v1 (cart s p), 4 * v2 (cart s p), 6 * v3 (cart s p)) (mkH 2 4 6 0 0 0)); [intros fl; reflexivity|apply quadF_hess]. Qed.
Lemma Quad_density t s p : dens_represents (p_dens Quad) (fun _ _ => 3 / PI) t s p.
Proof. unfold dens_represents. cbn. unfold base_density, lapCar, quadNative. cbn [hof outputs h11 h22 h33]. field. apply PI_neq0. Qed.
Lemma Quad_batch : batch_ok (p_dens Quad). Proof. intros s t ps. reflexivity. Qed.
Lemma Quad_poisson t x : poisson (quadF t) (fun _ => 3 / PI) x.
Proof. exists (2 * v1 x, 4 * v2 x, 6 * v3 x), (mkH 2 4 6 0 0 0). split; [apply quadF_hess|]. unfold trace; cbn. field. apply PI_neq0. Qed.
Lemma Quad_sym t : has_sym (d_sym (p_dens Quad)) (quadF t).
Proof.
  intros _. cbn [Quad basePot p_dens d_sym]. split; [|split; [|split; [|split; [|split]]]].
  1-4: intros _ p; unfold quadF, v1, v2, v3; cbn [fst snd]; ring.
  all: vm_compute; discriminate.
Qed.
(** a spherically-symmetric potential r^2/2, and a uniform field *)
Definition Osc : pot := sphericalPot (fun r => (r * r / 2, r, 1)) (fun p => 3 / (4 * PI)) 0 (fun _ => 0).
Definition Uni : pot := UniformAcceleration (fun t => t) (fun _ => 2) (fun _ => 3) 0 (fun _ => 0).
Lemma spherical_proper F dn m e : proper (sphericalPot F dn m e).
Proof.
  split; [|discriminate]. intros s t p. apply returns_of'. destruct (sphEval F s p) as [[v g] h] eqn:E. exists v, g, h. intros [[wp wg] wh]. cbn [sphericalPot p_eval]. rewrite E. reflexivity.
Qed.

(* ------------------------------------------------------------------ C25: composite objects *)
(** evaluation in any of the three systems, with any combination of requested outputs: the sums of what the components return *)
Theorem C25_sum_of_components l encl P : Composite l encl = Some P -> (forall c, In c l -> proper c) -> forall s t p,
  returns P s t p (Rsum (map (fun c => value_of c s t p) l)) (Vsum (map (fun c => grad_of c s t p) l)) (Hsum (map (fun c => hess_of c s t p) l)).
Proof. apply composite_eval. Qed.
(** if each component computes its own function in space with true derivatives, the composite computes their sum with true derivatives *)
Theorem C25_derivatives l encl P (Phi : pot -> R -> vec3 -> R) t s p : Composite l encl = Some P -> (forall c, In c l -> proper c) ->
  (forall c, In c l -> represents c (Phi c) t s p) -> represents P (fun t x => Rsum (map (fun c => Phi c t x) l)) t s p.
Proof. apply composite_represents. Qed.
(** the composite is again an object of the same quality, so that composites may be nested *)
Theorem C25_closed l encl P : Composite l encl = Some P -> (forall c, In c l -> proper c) -> proper P.
Proof. apply composite_proper. Qed.
(** density and total mass: for both composite densities and composite potentials *)
Theorem C25_density l encl P s t p : Composite l encl = Some P ->
  d_density (p_dens P) s t p = Rsum (map (fun c => d_density (p_dens c) s t p) l) /\ d_mass (p_dens P) = Rsum (map (fun c => d_mass (p_dens c)) l).
Proof. unfold Composite. destruct l; [discriminate|]. intros E. injection E as <-. cbn [p_dens d_density d_mass]. split; apply sumloop_eq. Qed.
Theorem C25_composite_density l encl D s t p : CompositeDensity l encl = Some D ->
  d_density D s t p = Rsum (map (fun c => d_density c s t p) l) /\ d_mass D = Rsum (map d_mass l).
Proof. unfold CompositeDensity. destruct l; [discriminate|]. intros E. injection E as <-. cbn [d_density d_mass]. split; apply sumloop_eq. Qed.
(** batch evaluation gives the same numbers as evaluation point by point *)
Theorem C25_batch l encl P : Composite l encl = Some P -> (forall c, In c l -> batch_ok (p_dens c)) -> batch_ok (p_dens P).
Proof.
  unfold Composite. destruct l as [|c0 l]; [discriminate|]. intros E B. injection E as <-. intros s t ps. cbn [p_dens d_many d_density].
  transitivity (composite_many (fun c => d_many (p_dens c) s t ps) (c0 :: l)); [reflexivity|].
  rewrite (composite_many_eq (c0 :: l) (fun c p => d_density (p_dens c) s t p) ps); [|discriminate|intros c I; apply (B c I)].
  apply map_ext. intros p. symmetry. apply sumloop_eq.
Qed.
Theorem C25_batch_density l encl D : CompositeDensity l encl = Some D -> (forall c, In c l -> batch_ok c) -> batch_ok D.
Proof.
  unfold CompositeDensity. destruct l as [|c0 l]; [discriminate|]. intros E B. injection E as <-. intros s t ps. cbn [d_many d_density].
  transitivity (composite_many (fun c => d_many c s t ps) (c0 :: l)); [reflexivity|].
  rewrite (composite_many_eq (c0 :: l) (fun c p => d_density c s t p) ps); [|discriminate|intros c I; apply (B c I)].
  apply map_ext. intros p. symmetry. apply sumloop_eq.
Qed.
(** Poisson equation for the sum *)
Theorem C25_poisson l (Phi rho : pot -> vec3 -> R) x : (forall c, In c l -> poisson (Phi c) (rho c) x) ->
  poisson (fun y => Rsum (map (fun c => Phi c y) l)) (fun y => Rsum (map (fun c => rho c y) l)) x.
Proof. apply poisson_sum. Qed.
(** declared symmetries are possessed by the sum (potential or density) *)
Theorem C25_symmetry l encl P (f : pot -> vec3 -> R) : Composite l encl = Some P -> (forall c, In c l -> has_sym (d_sym (p_dens c)) (f c)) ->
  has_sym (d_sym (p_dens P)) (fun x => Rsum (map (fun c => f c x) l)).
Proof. unfold Composite. destruct l as [|c0 l]; [discriminate|]. intros E H. injection E as <-. exact (composite_sym_ok (c0 :: l) (fun c => d_sym (p_dens c)) f H). Qed.
Theorem C25_symmetry_density l encl D (f : dens -> vec3 -> R) : CompositeDensity l encl = Some D -> (forall c, In c l -> has_sym (d_sym c) (f c)) ->
  has_sym (d_sym D) (fun x => Rsum (map (fun c => f c x) l)).
Proof. unfold CompositeDensity. destruct l as [|c0 l]; [discriminate|]. intros E H. injection E as <-. exact (composite_sym_ok (c0 :: l) d_sym f H). Qed.
(** only the empty list is rejected *)
Theorem C25_rejected (l : list pot) (ld : list dens) encl : (Composite l encl = None <-> l = []) /\ (CompositeDensity ld encl = None <-> ld = []).
Proof. unfold Composite, CompositeDensity. destruct l, ld; split; split; congruence. Qed.
Example C25_case : exists P, Composite [Quad; Osc; Uni] (fun _ => 0) = Some P /\ (forall c, In c [Quad; Osc; Uni] -> proper c) /\ d_sym (p_dens P) = ST_NONE.
Proof.
  eexists. split; [reflexivity|]. split; [|reflexivity]. intros c [<-|[<-|[<-|[]]]]; [apply Quad_proper|apply spherical_proper|apply uniform_proper].
Qed.
Example C25_case_derivatives : exists P, Composite [Quad; Quad] (fun _ => 0) = Some P /\ forall t s p, represents P (fun t x => quadF t x + (quadF t x + 0)) t s p.
Proof.
  eexists. split; [reflexivity|]. intros t s p. eapply (C25_derivatives [Quad; Quad] _ _ (fun _ => quadF)); [reflexivity| |]; intros c [<-|[<-|[]]]; try apply Quad_proper; apply Quad_represents.
Qed.
Example C25_case_symmetry : exists P, Composite [Quad; Osc] (fun _ => 0) = Some P /\ d_sym (p_dens P) = ST_TRIAXIAL /\ has_sym ST_TRIAXIAL (quadF 0).
Proof. eexists. split; [reflexivity|]. split; [reflexivity|apply (Quad_sym 0)]. Qed.

(* ------------------------------------------------------------------ C26: Evolving *)
(** time stamps: accepted exactly if as many as the potentials, at least one, strictly increasing *)
Theorem C26_accepted times insts lin m e :
  (exists P, Evolving times insts lin m e = Some P) <-> length times = length insts /\ times <> [] /\ increasing times.
Proof. apply evolving_accepts. Qed.
(** before the first (after the last) time stamp: the first (last) instance, value, derivatives and density, in Cartesian coordinates *)
Theorem C26_clamped times insts lin m e P c0 t p : Evolving times insts lin m e = Some P -> (forall c, In c insts -> proper c) ->
  let n := length times in
  (t <= nth 0 times 0 -> (forall fl, p_eval P Car fl t p = p_eval (nth 0 insts c0) Car fl t p) /\ d_density (p_dens P) Car t p = d_density (p_dens (nth 0 insts c0)) Car t p) /\
  (nth (n - 1) times 0 <= t -> (forall fl, p_eval P Car fl t p = p_eval (nth (n - 1) insts c0) Car fl t p) /\ d_density (p_dens P) Car t p = d_density (p_dens (nth (n - 1) insts c0)) Car t p).
Proof.
  intros HE HP n. destruct (P_form _ _ _ _ _ _ Quad HE HP) as (sym & E). rewrite E. cbn [basePot p_eval p_dens d_density]. unfold base_eval, base_density. cbn [cs_eqb toPosG].
  split; intros Ht; split; try intros fl.
  - exact (proj1 (ev_before times insts lin m e P c0 HE HP t p fl Ht)).
  - exact (proj2 (ev_before times insts lin m e P c0 HE HP t p (true, true, true) Ht)).
  - exact (proj1 (ev_after times insts lin m e P c0 HE HP t p fl Ht)).
  - exact (proj2 (ev_after times insts lin m e P c0 HE HP t p (true, true, true) Ht)).
Qed.
(** linear interpolation between adjacent instances *)
Theorem C26_linear times insts m e P c0 i t p : Evolving times insts true m e = Some P -> (forall c, In c insts -> proper c) ->
  (S i < length times)%nat -> nth i times 0 <= t <= nth (S i) times 0 ->
  let w := (nth (S i) times 0 - t) / (nth (S i) times 0 - nth i times 0) in let a := nth i insts c0 in let b := nth (S i) insts c0 in
  0 <= w <= 1 /\
  returns P Car t p (w * value_of a Car t p + (1 - w) * value_of b Car t p) (vlin w (1 - w) (grad_of a Car t p) (grad_of b Car t p)) (hlin w (1 - w) (hess_of a Car t p) (hess_of b Car t p)) /\
  d_density (p_dens P) Car t p = w * d_density (p_dens a) Car t p + (1 - w) * d_density (p_dens b) Car t p.
Proof.
  intros HE HP Hi Ht w a b. destruct (HE' _ _ _ _ _ _ HE) as (_ & _ & Hinc). pose proof (Hinc i Hi) as L. split; [|split].
  - unfold w. split; [apply Rdiv_le_0_compat; lra|]. apply (Rmult_le_reg_r (nth (S i) times 0 - nth i times 0)); [lra|]. unfold Rdiv. rewrite Rmult_assoc, Rinv_l by lra. lra.
  - intros fl. destruct (P_form _ _ _ _ _ _ Quad HE HP) as (sym & E). rewrite E. cbn [basePot p_eval]. unfold base_eval. cbn [cs_eqb]. exact (proj1 (ev_linear times insts true m e P c0 HE HP i t p fl eq_refl Hi Ht)).
  - destruct (P_form _ _ _ _ _ _ Quad HE HP) as (sym & E). rewrite E. cbn [basePot p_dens d_density]. unfold base_density. cbn [toPosG]. exact (proj2 (ev_linear times insts true m e P c0 HE HP i t p (true, true, true) eq_refl Hi Ht)).
Qed.
(** hence each instance is reproduced exactly at its own time stamp *)
Theorem C26_at_nodes times insts m e P c0 i p : Evolving times insts true m e = Some P -> (forall c, In c insts -> proper c) ->
  (i < length times)%nat -> let t := nth i times 0 in
  (forall fl, p_eval P Car fl t p = p_eval (nth i insts c0) Car fl t p) /\ d_density (p_dens P) Car t p = d_density (p_dens (nth i insts c0)) Car t p.
Proof.
  intros HE HP Hi t. destruct (HE' _ _ _ _ _ _ HE) as (El & Hn & Hinc).
  destruct (Nat.eq_dec (S i) (length times)) as [El'|Nl].
  - replace i with (length times - 1)%nat by lia. subst t. replace i with (length times - 1)%nat by lia.
    destruct (C26_clamped times insts true m e P c0 (nth (length times - 1) times 0) p HE HP) as (_ & A). apply A. lra.
  - assert (Hi' : (S i < length times)%nat) by lia. pose proof (Hinc i Hi') as L.
    destruct (C26_linear times insts m e P c0 i t p HE HP Hi' ltac:(unfold t; lra)) as (_ & B & C). revert B C. set (w := _ / _). assert (Ew : w = 1) by (unfold w, t; field; lra). rewrite Ew. intros B C. split.
    + intros fl. rewrite (B fl), (proj1 (HP (nth i insts c0) ltac:(apply nth_In; lia)) Car t p fl). set (g := grad_of (nth i insts c0) _ _ _). set (h := hess_of (nth i insts c0) _ _ _).
      replace (vlin _ _ _ _) with g; [replace (hlin _ _ _ _) with h; [f_equal; ring|]|].
      * destruct h. apply hess6_eq; cbn; ring.
      * destruct g as [[g1 g2] g3]. unfold vlin, v1, v2, v3; cbn [fst snd]. apply v_eq; ring.
    + rewrite C. ring.
Qed.
(** without interpolation: an instance whose time stamp is nearest *)
Theorem C26_nearest times insts m e P c0 t p : Evolving times insts false m e = Some P -> (forall c, In c insts -> proper c) ->
  exists j, (j < length times)%nat /\ (forall i, (i < length times)%nat -> Rabs (t - nth j times 0) <= Rabs (t - nth i times 0)) /\
    (forall fl, p_eval P Car fl t p = p_eval (nth j insts c0) Car fl t p) /\ d_density (p_dens P) Car t p = d_density (p_dens (nth j insts c0)) Car t p.
Proof.
  intros HE HP. destruct (ev_nearest times insts false m e P c0 HE HP t p eq_refl) as (j & A & B & C & D). exists j. split; [exact A|]. split; [exact B|].
  destruct (P_form _ _ _ _ _ _ Quad HE HP) as (sym & E). rewrite E. cbn [basePot p_eval p_dens d_density]. unfold base_eval, base_density. cbn [cs_eqb toPosG]. split; assumption.
Qed.
(** true derivatives of the interpolated function, in all three coordinate systems; the object is usable as a component *)
Theorem C26_derivatives times insts m e P c0 i Phi1 Phi2 t s p : Evolving times insts true m e = Some P -> (forall c, In c insts -> proper c) ->
  (S i < length times)%nat -> nth i times 0 <= t <= nth (S i) times 0 ->
  represents (nth i insts c0) Phi1 t Car (cart s p) -> represents (nth (S i) insts c0) Phi2 t Car (cart s p) ->
  let w := (nth (S i) times 0 - t) / (nth (S i) times 0 - nth i times 0) in
  represents P (fun t' x => w * Phi1 t' x + (1 - w) * Phi2 t' x) t s p.
Proof. intros HE HP Hi Ht. exact (ev_represents times insts true m e P c0 HE HP i Phi1 Phi2 t s p eq_refl Hi Ht). Qed.
Theorem C26_closed times insts lin m e P : Evolving times insts lin m e = Some P -> (forall c, In c insts -> proper c) -> proper P.
Proof. intros HE HP. exact (ev_proper times insts lin m e P Quad HE HP). Qed.
(** symmetries declared are shared by all instances, hence by any combination of two of them *)
Theorem C26_symmetry times insts lin m e P : Evolving times insts lin m e = Some P -> forall a b f f' w, In a insts -> In b insts ->
  has_sym (d_sym (p_dens a)) f -> has_sym (d_sym (p_dens b)) f' -> has_sym (d_sym (p_dens P)) (fun x => w * f x + (1 - w) * f' x).
Proof.
  intros HE a b f f' w Ia Ib Ha Hb K. destruct (evolving_sym_all _ _ _ _ _ _ _ HE Ia K) as (Ka & Sa). destruct (evolving_sym_all _ _ _ _ _ _ _ HE Ib K) as (Kb & Sb).
  revert K. apply has_sym_lin; [exact (has_sym_weaken _ _ _ Ka Sa Ha)|exact (has_sym_weaken _ _ _ Kb Sb Hb)].
Qed.
Example C26_case : exists P, Evolving [0; 1; 3] [Quad; Osc; Uni] true 0 (fun _ => 0) = Some P /\ (forall c, In c [Quad; Osc; Uni] -> proper c) /\ Evolving [0; 1; 1] [Quad; Osc; Uni] true 0 (fun _ => 0) = None.
Proof.
  assert (In' : increasing [0; 1; 3]) by (intros [|[|i]] H; cbn in *; try lra; lia).
  assert (Hl : length [0; 1; 3] = length [Quad; Osc; Uni]) by reflexivity.
  assert (Hn : [0; 1; 3] <> []) by (intros X; inversion X).
  pose proof (C26_accepted [0; 1; 3] [Quad; Osc; Uni] true 0 (fun _ => 0)) as (_ & A). destruct (A (conj Hl (conj Hn In'))) as (P & E). exists P. split; [exact E|]. split.
  - intros c [<-|[<-|[<-|[]]]]; [apply Quad_proper|apply spherical_proper|apply uniform_proper].
  - pose proof (C26_accepted [0; 1; 1] [Quad; Osc; Uni] true 0 (fun _ => 0)) as (B & _). revert B. generalize (Evolving [0; 1; 1] [Quad; Osc; Uni] true 0 (fun _ => 0)). intros [P'|] B; [|reflexivity]. exfalso.
    destruct (B (ex_intro _ P' eq_refl)) as (_ & _ & X). specialize (X 1%nat). cbn in X. assert (1 < 1) by (apply X; lia). lra.
Qed.

(* ------------------------------------------------------------------ C27: modifiers *)
(** the modified object computes the transformed function of position, with true derivatives, in each coordinate system *)
Theorem C27_shifted c cx cy cz e Phi t s p : represents c Phi t Car (v1 (cart s p) - cx t, v2 (cart s p) - cy t, v3 (cart s p) - cz t) ->
  represents (Shifted c cx cy cz e) (fun t x => Phi t (v1 x - cx t, v2 x - cy t, v3 x - cz t)) t s p.
Proof. apply shifted_represents. Qed.
Theorem C27_tilted c a b gm Phi t s p : let m := Orientation a b gm in
  represents c Phi t Car (toRotated m (cart s p)) -> represents (Tilted c a b gm) (fun t x => Phi t (toRotated m x)) t s p.
Proof. apply tilted_represents. Qed.
Theorem C27_rotating c angle Phi t s p : represents c Phi t s (rotPos s (angle t) p) ->
  represents (Rotating c angle) (fun t x => Phi t (rotZ (angle t) x)) t s p.
Proof. apply rotating_represents. Qed.
Theorem C27_scaled c ampl scale Phi t s p : represents c Phi t s (scalePos s (1 / scale t) p) ->
  represents (Scaled c ampl scale) (fun t x => ampl t / scale t * Phi t (v1 x / scale t, v2 x / scale t, v3 x / scale t)) t s p.
Proof. apply scaled_represents. Qed.
Theorem C27_uniform_acceleration ax ay az m e t s p : represents (UniformAcceleration ax ay az m e) (fun t x => - (ax t * v1 x + ay t * v2 x + az t * v3 x)) t s p.
Proof. apply uniform_represents. Qed.
(** where the argument of the modified object lies, for the two that do not pass through Cartesian coordinates *)
Theorem C27_points s a k p : cart s (rotPos s a p) = rotZ a (cart s p) /\ cart s (scalePos s k p) = (v1 (cart s p) * k, v2 (cart s p) * k, v3 (cart s p) * k).
Proof. split; [apply cart_rotPos|apply cart_scalePos]. Qed.
(** modified objects may be modified again or used as components *)
Theorem C27_closed c cx cy cz e a b gm angle ampl scale : proper c ->
  proper (Shifted c cx cy cz e) /\ proper (Tilted c a b gm) /\ proper (Rotating c angle) /\ proper (Scaled c ampl scale).
Proof. intros H. split; [apply shifted_proper; exact H|split; [apply tilted_proper; exact H|split; [apply rotating_proper; exact H|apply scaled_proper; exact H]]]. Qed.
(** densities *)
Theorem C27_density_shifted d cx cy cz e rho t s p : dens_represents d rho t Car (v1 (cart s p) - cx t, v2 (cart s p) - cy t, v3 (cart s p) - cz t) ->
  dens_represents (Shifted_dens d cx cy cz e) (fun t x => rho t (v1 x - cx t, v2 x - cy t, v3 x - cz t)) t s p.
Proof. unfold dens_represents. cbn [Shifted_dens d_density]. rewrite cart_toPosCar, cart_Car. intros H. exact H. Qed.
Theorem C27_density_tilted d a b gm rho t s p : let m := Orientation a b gm in dens_represents d rho t Car (toRotated m (cart s p)) ->
  dens_represents (Tilted_dens d a b gm) (fun t x => rho t (toRotated m x)) t s p.
Proof. unfold dens_represents. cbn [Tilted_dens d_density]. rewrite cart_toPosCar, cart_Car. intros H. exact H. Qed.
Theorem C27_density_rotating d angle rho t s p : dens_represents d rho t s (rotPos s (angle t) p) ->
  dens_represents (Rotating_dens d angle) (fun t x => rho t (rotZ (angle t) x)) t s p.
Proof. unfold dens_represents. cbn [Rotating_dens d_density]. rewrite cart_rotPos. intros H. exact H. Qed.
Theorem C27_density_scaled d ampl scale rho t s p : dens_represents d rho t s (scalePos s (1 / scale t) p) ->
  dens_represents (Scaled_dens d ampl scale) (fun t x => ampl t / (scale t * scale t * scale t) * rho t (v1 x / scale t, v2 x / scale t, v3 x / scale t)) t s p.
Proof.
  unfold dens_represents. cbn [Scaled_dens d_density]. intros ->. rewrite cart_scalePos. unfold Rdiv. rewrite !Rmult_1_l, !Rinv_mult. ring.
Qed.
(** and they satisfy the Poisson equation with the modified potential whenever the original did *)
Theorem C27_poisson Phi rho x : 
  (forall a b c, poisson Phi rho (v1 x - a, v2 x - b, v3 x - c) -> poisson (fun y => Phi (v1 y - a, v2 y - b, v3 y - c)) (fun y => rho (v1 y - a, v2 y - b, v3 y - c)) x) /\
  (forall a b c, let m := Orientation a b c in poisson Phi rho (toRotated m x) -> poisson (fun y => Phi (toRotated m y)) (fun y => rho (toRotated m y)) x) /\
  (forall a, poisson Phi rho (rotZ a x) -> poisson (fun y => Phi (rotZ a y)) (fun y => rho (rotZ a y)) x) /\
  (forall A k, poisson Phi rho (v1 x / k, v2 x / k, v3 x / k) ->
     poisson (fun y => A / k * Phi (v1 y / k, v2 y / k, v3 y / k)) (fun y => A / (k * k * k) * rho (v1 y / k, v2 y / k, v3 y / k)) x).
Proof.
  split; [|split; [|split]].
  - intros a b c. apply poisson_shift.
  - intros a b c m. apply poisson_rot. destruct (Orientation_rotation a b c) as (O & _). exact O.
  - intros a H. rewrite rotZ_rotM in H. destruct (rotM_rotation a) as (O & _). destruct (poisson_rot _ _ _ _ O H) as (g & h & X & E). exists g, h. split.
    + revert X. apply is_hess_ext. intros y. rewrite rotZ_rotM. reflexivity.
    + cbv beta in *. rewrite rotZ_rotM. exact E.
  - intros A k H. destruct (poisson_scale A (/ k) Phi rho x H) as (g & h & X & E). exists g, h. split; [exact X|]. rewrite <- E. unfold Rdiv. rewrite !Rinv_mult. ring.
Qed.
(** batch evaluation of modified densities *)
Theorem C27_batch d cx cy cz e a b gm angle ampl scale : batch_ok d ->
  batch_ok (Shifted_dens d cx cy cz e) /\ batch_ok (Tilted_dens d a b gm) /\ batch_ok (Rotating_dens d angle) /\ batch_ok (Scaled_dens d ampl scale).
Proof.
  intros B. split; [|split; [|split]]; intros s t ps; cbn [Shifted_dens Tilted_dens Rotating_dens Scaled_dens d_many d_density]; rewrite B, ?map_map; try reflexivity.
  apply map_ext. intros p. cbv zeta. unfold pow_3. ring.
Qed.
(** symmetries *)
Theorem C27_symmetry c t f cx cy cz e a b gm angle (ampl scale : R -> R) A k : has_sym (d_sym (p_dens c)) f ->
  has_sym (d_sym (p_dens (Shifted c cx cy cz e))) (fun x => f (v1 x - cx t, v2 x - cy t, v3 x - cz t)) /\
  has_sym (d_sym (p_dens (Tilted c a b gm))) (fun x => f (toRotated (Orientation a b gm) x)) /\
  has_sym (d_sym (p_dens (Rotating c angle))) (fun x => f (rotZ (angle t) x)) /\
  has_sym (d_sym (p_dens (Scaled c ampl scale))) (fun x => A * f (v1 x * k, v2 x * k, v3 x * k)).
Proof.
  intros H. split; [|split; [apply tilted_sym_ok; exact H|split; [apply rotating_sym_ok; exact H|apply scaled_sym_ok; exact H]]].
  cbn [Shifted Shifted_dens p_dens d_sym]. intros K. destruct (isUnknown _); [exfalso; revert K; vm_compute; intuition congruence|].
  split; [|split; [|split; [|split; [|split]]]]; vm_compute; discriminate.
Qed.
(** masses *)
Theorem C27_mass d cx cy cz e a b gm angle ampl scale r : d_mass (Shifted_dens d cx cy cz e) = d_mass d /\ d_mass (Tilted_dens d a b gm) = d_mass d /\ d_mass (Rotating_dens d angle) = d_mass d /\
  d_mass (Scaled_dens d ampl scale) = ampl 0 * d_mass d /\ d_encl (Scaled_dens d ampl scale) r = ampl 0 * d_encl d (r / scale 0).
Proof. repeat split; cbn; ring. Qed.
Example C27_case t s p : proper (Scaled (Rotating (Tilted (Shifted Quad (fun t => t) (fun _ => 1) (fun _ => 2) (fun _ => 0)) 1 2 3) (fun t => t)) (fun _ => 2) (fun _ => 3)) /\
  represents Quad quadF t s p /\ dens_represents (p_dens Quad) (fun _ _ => 3 / PI) t s p /\ batch_ok (p_dens Quad) /\ has_sym (d_sym (p_dens Quad)) (quadF t) /\ poisson (quadF t) (fun _ => 3 / PI) (cart s p).
Proof.
  split; [|split; [apply Quad_represents|split; [apply Quad_density|split; [apply Quad_batch|split; [apply Quad_sym|apply Quad_poisson]]]]].
  apply scaled_proper, rotating_proper, tilted_proper, shifted_proper, Quad_proper.
Qed.

(* ------------------------------------------------------------------ C44: density from the Laplacian *)
Notation at_point c s t := (fun fl => p_eval c s fl t).
(** Cartesian: exactly the Laplacian *)
Theorem C44_cartesian c Phi t p g h : represents c Phi t Car p -> is_hess (Phi t) p g h -> lapCar (at_point c Car t) p = trace h / (4 * PI).
Proof.
  intros (g' & h' & Rt & H) H'. destruct (is_hess_unique (Phi t) p g' h' g h) as (_ & <-).
  - revert H. apply is_hess_ext. intros q. rewrite cart_Car. reflexivity.
  - exact H'.
  - apply (lapCar_ok _ _ (fun q => Phi t (cart Car q)) g' h'). apply Rt.
Qed.
(** cylindrical, away from the axis: the Laplacian, unless its terms cancel to within a relative error of 4e-11, in which case 0 *)
Theorem C44_cylindrical c Phi t Rc z phi g h gc hc : let p := (Rc, z, phi) in
  returns c Cyl t p (Phi t (cart Cyl p)) g h -> is_hess (fun q => Phi t (cart Cyl q)) p g h -> is_hess (Phi t) (cart Cyl p) gc hc -> Rabs z / 2 ^ 26 < Rc ->
  let rho := lapCyl (at_point c Cyl t) p in
  rho = trace hc / (4 * PI) \/
  (rho = 0 /\ Rabs (trace hc) <= 1 / 27271154000 * (Rabs (h11 h) + Rabs (v1 g / Rc) + Rabs (h22 h) + Rabs (h33 h / pow_2 Rc))).
Proof.
  intros p Rt H Hc Far rho. assert (E : EPSREL_DENSITY_DER <= 1 / 27271154000) by (unfold EPSREL_DENSITY_DER, DBL_EPSILON, ROOT3_DBL_EPSILON; cbn [pow]; lra).
  destruct (lapCyl_ok (at_point c Cyl t) (Phi t) Rc z phi g h gc hc (Rt (false, true, true)) H Hc) as [A|(A & B)].
  - unfold SQRT_DBL_EPSILON. unfold Rdiv in Far. exact Far.
  - left. exact A.
  - right. split; [exact A|]. eapply Rle_trans; [exact B|]. apply Rmult_le_compat_r; [|exact E]. repeat apply Rplus_le_le_0_compat; apply Rabs_pos.
Qed.
(** spherical, away from the axis *)
Theorem C44_spherical c Phi t r th phi g h gc hc : let p := (r, th, phi) in
  returns c Sph t p (Phi t (cart Sph p)) g h -> is_hess (fun q => Phi t (cart Sph q)) p g h -> is_hess (Phi t) (cart Sph p) gc hc -> r <> 0 -> sin th <> 0 ->
  let rho := lapSph (at_point c Sph t) p in
  rho = trace hc / (4 * PI) \/
  (rho = 0 /\ Rabs (trace hc) <= 1 / 27271154000 * (Rabs (h11 h) + Rabs (2 * (v1 g / r)) + Rabs ((h22 h + v2 g * cos th / sin th + h33 h / pow_2 (sin th)) / pow_2 r))).
Proof.
  intros p Rt H Hc Hr Hs rho. assert (E : EPSREL_DENSITY_DER <= 1 / 27271154000) by (unfold EPSREL_DENSITY_DER, DBL_EPSILON, ROOT3_DBL_EPSILON; cbn [pow]; lra).
  destruct (lapSph_ok (at_point c Sph t) (Phi t) r th phi g h gc hc (Rt (false, true, true)) H Hc Hr Hs) as [A|(A & B)]; [left; exact A|].
  right. split; [exact A|]. eapply Rle_trans; [exact B|]. apply Rmult_le_compat_r; [|exact E]. repeat apply Rplus_le_le_0_compat; apply Rabs_pos.
Qed.
(** on the axis for axisymmetric functions, at the centre for spherical ones *)
Theorem C44_on_axis c Phi t : (forall a, under (rotZ a) (Phi t)) ->
  (forall z phi g h gc hc, let p := (0, z, phi) in returns c Cyl t p (Phi t (cart Cyl p)) g h -> is_hess (fun q => Phi t (cart Cyl q)) p g h -> is_hess (Phi t) (cart Cyl p) gc hc ->
    cutoff_ok (lapCyl (at_point c Cyl t) p) (trace hc) (Rabs (h11 h) + Rabs (h11 h) + Rabs (h22 h) + Rabs 0)) /\
  (forall r th phi g h gc hc, let p := (r, th, phi) in r <> 0 -> sin th = 0 ->
    returns c Sph t p (Phi t (cart Sph p)) g h -> is_hess (fun q => Phi t (cart Sph q)) p g h -> is_hess (Phi t) (cart Sph p) gc hc ->
    cutoff_ok (lapSph (at_point c Sph t) p) (trace hc) (Rabs (h11 h) + Rabs (2 * (v1 g / r)) + Rabs ((h22 h + h22 h) / pow_2 r))).
Proof.
  intros U. split.
  - intros z phi g h gc hc p Rt H Hc. exact (lapCyl_axis (at_point c Cyl t) (Phi t) z phi g h gc hc U (Rt (false, true, true)) H Hc).
  - intros r th phi g h gc hc p Hr Hs Rt H Hc. exact (lapSph_axis (at_point c Sph t) (Phi t) r th phi g h gc hc U Hr Hs (Rt (false, true, true)) H Hc).
Qed.
Theorem C44_at_centre c Phi t : (forall m, is_rotation m -> under (toRotated m) (Phi t)) ->
  forall th phi g h gc hc, let p := (0, th, phi) in
    returns c Sph t p (Phi t (cart Sph p)) g h -> is_hess (fun q => Phi t (cart Sph q)) p g h -> is_hess (Phi t) (cart Sph p) gc hc ->
    cutoff_ok (lapSph (at_point c Sph t) p) (trace hc) (Rabs (h11 h) + Rabs (2 * h11 h) + Rabs 0).
Proof. intros U th phi g h gc hc p Rt H Hc. exact (lapSph_center (at_point c Sph t) (Phi t) th phi g h gc hc U (Rt (false, true, true)) H Hc). Qed.
(** but on the axis the result is wrong for functions without axial symmetry: x^2+2y^2+3z^2 has Laplacian 12, the value obtained is 10/(4 pi) *)
Theorem C44_nonaxisymmetric_on_axis_refuted : exists c Phi t p g h, represents c Phi t Cyl p /\ is_hess (Phi t) (cart Cyl p) g h /\ v1 p = 0 /\
  lapCyl (at_point c Cyl t) p <> trace h / (4 * PI) /\ lapCyl (at_point c Cyl t) p = 10 / (4 * PI) /\ trace h = 12.
Proof.
  exists Quad, quadF, 0, (0, 1, 0), (2 * 0, 4 * 0, 6 * 1), (mkH 2 4 6 0 0 0). split; [apply Quad_represents|]. split.
  { eapply is_hess_eq; [apply quadF_hess| |reflexivity]. unfold cart, v1, v2, v3; cbn [fst snd]. rewrite cos_0. apply v_eq; ring. }
  split; [reflexivity|].
  assert (E : lapCyl (at_point Quad Cyl 0) (0, 1, 0) = 10 / (4 * PI)).
  { unfold lapCyl. cbn [Quad basePot p_eval]. unfold base_eval. cbn [cs_eqb]. rewrite convert_pos. cbn [orb]. unfold quadNative. cbn [outputs omap omap2 gof hof gradG hessG].
    unfold toHess_YC, deriv_YC, deriv2_YC. cbn [h11 h22 h33 dxdR_YC dydR_YC]. rewrite cos_0, sin_0. unfold Rle_b. destruct (Rle_dec 0 _) as [L|L].
    - assert (E4 : Rabs 2 = 2) by (apply Rabs_pos_eq; lra).
      match goal with |- context [Rlt_b (_ * ?b) (Rabs ?r)] => replace r with 10 by ring; assert (Eb : b = 10) end.
      { replace ((2 * 1 + 0 * 0) * 1 + (0 * 1 + 4 * 0) * 0) with 2 by ring. rewrite !Rabs_pos_eq by lra. ring. }
      rewrite Eb. rewrite (Rabs_pos_eq 10) by lra. rewrite Rlt_b_t; [reflexivity|]. unfold EPSREL_DENSITY_DER, DBL_EPSILON, ROOT3_DBL_EPSILON. cbn [pow]. lra.
    - exfalso. apply L. apply Rmult_le_pos; [apply Rabs_pos|unfold SQRT_DBL_EPSILON; apply Rlt_le, Rinv_0_lt_compat, pow_lt; lra]. }
  rewrite E. pose proof PI_RGT_0 as HP. unfold trace; cbn [h11 h22 h33]. split; [|split; [reflexivity|ring]].
  intros X. assert (10 = 12); [|lra]. apply (Rmult_eq_reg_r (/ (4 * PI))); [|apply Rinv_neq_0_compat; lra]. unfold Rdiv in X. rewrite X. ring.
Qed.
Example C44_case : represents Quad quadF 0 Cyl (1, 1, 1) /\ is_hess (quadF 0) (cart Cyl (1, 1, 1)) (2 * v1 (cart Cyl (1, 1, 1)), 4 * v2 (cart Cyl (1, 1, 1)), 6 * v3 (cart Cyl (1, 1, 1))) (mkH 2 4 6 0 0 0) /\
  Rabs 1 / 2 ^ 26 < 1 /\ (forall a, under (rotZ a) (fun x => v1 x * v1 x + v2 x * v2 x)) /\ (forall m, is_rotation m -> under (toRotated m) (fun x => dot x x)).
Proof.
  split; [apply Quad_represents|]. split; [apply quadF_hess|]. split; [rewrite Rabs_R1; cbn [pow]; lra|]. split.
  - intros a p. unfold rotZ, v1, v2, v3; cbn [fst snd]. pose proof (sin2_cos2 a) as S2. unfold Rsqr in S2. set (c := cos a) in *. set (s := sin a) in *. assert (C2 : c * c = 1 - s * s) by lra. ring [C2].
  - intros m (_ & B & _) p. apply rot_dot. exact B.
Qed.

Print Assumptions C25_sum_of_components. Print Assumptions C25_derivatives. Print Assumptions C25_closed. Print Assumptions C25_density. Print Assumptions C25_composite_density. Print Assumptions C25_batch. Print Assumptions C25_batch_density. Print Assumptions C25_poisson. Print Assumptions C25_symmetry. Print Assumptions C25_symmetry_density. Print Assumptions C25_rejected.
Print Assumptions C26_accepted. Print Assumptions C26_clamped. Print Assumptions C26_linear. Print Assumptions C26_at_nodes. Print Assumptions C26_nearest. Print Assumptions C26_derivatives. Print Assumptions C26_closed. Print Assumptions C26_symmetry.
Print Assumptions C27_shifted. Print Assumptions C27_tilted. Print Assumptions C27_rotating. Print Assumptions C27_scaled. Print Assumptions C27_uniform_acceleration. Print Assumptions C27_points. Print Assumptions C27_closed. Print Assumptions C27_density_shifted. Print Assumptions C27_density_tilted. Print Assumptions C27_density_rotating. Print Assumptions C27_density_scaled. Print Assumptions C27_poisson. Print Assumptions C27_batch. Print Assumptions C27_symmetry. Print Assumptions C27_mass.
Print Assumptions C44_cartesian. Print Assumptions C44_cylindrical. Print Assumptions C44_spherical. Print Assumptions C44_on_axis. Print Assumptions C44_at_centre. Print Assumptions C44_nonaxisymmetric_on_axis_refuted.
