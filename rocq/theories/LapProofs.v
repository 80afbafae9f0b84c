(** Density computed from second derivatives of the potential equals the Laplacian / 4 pi *)
From Coq Require Import Reals Lra Psatz Lia Bool ZArith List.
From Coquelicot Require Import Coquelicot.
From Verif Require Import RandReal RandRealProofs PolyModel PolyProofs CoordModel CoordSpec CoordCalc CoordMaps2 CoordProofs CoordVel OrientModel OrientSpec OrientProofs PotModel PotSpec PotProofs PotProofs2 PotProofs3 RootProofs.
Import ListNotations.
Local Open Scope R_scope.

Lemma is_hess_unique f p g h g' h' : is_hess f p g h -> is_hess f p g' h' -> g = g' /\ h = h'.
Proof.
  intros (G & <- & L & A1 & A2 & A3) (G' & <- & L' & B1 & B2 & B3).
  assert (E : locally p (fun q => G q = G' q)) by (generalize (filter_and _ _ L L'); apply filter_imp; intros q (X & Y); exact (is_grad_unique f q _ _ X Y)).
  split; [exact (locally_singleton _ _ E)|].
  assert (E1 : forall (v : vec3 -> R), locally p (fun q => v (G q) = v (G' q))) by (intros v; revert E; apply filter_imp; intros q ->; reflexivity).
  pose proof (is_grad_unique _ _ _ _ (is_grad_ext_loc _ _ _ _ (E1 v1) A1) B1) as X1.
  pose proof (is_grad_unique _ _ _ _ (is_grad_ext_loc _ _ _ _ (E1 v2) A2) B2) as X2.
  pose proof (is_grad_unique _ _ _ _ (is_grad_ext_loc _ _ _ _ (E1 v3) A3) B3) as X3.
  injection X1 as Y1 Y2 Y3. injection X2 as Y4 Y5 Y6. injection X3 as Y7 Y8 Y9. apply hess6_eq; congruence.
Qed.
Lemma poisson_unique Phi rho x g h : poisson Phi rho x -> is_hess Phi x g h -> rho x = trace h / (4 * PI).
Proof. intros (g' & h' & H & E) H'. destruct (is_hess_unique _ _ _ _ _ _ H' H) as (-> & ->). exact E. Qed.

(** the value returned by the final test *)
Definition cutoff_ok (rho tr bound : R) : Prop := rho = tr / (4 * PI) \/ (rho = 0 /\ Rabs tr <= EPSREL_DENSITY_DER * bound).
Lemma cutoff tr b : cutoff_ok (if negb (Rlt_b (EPSREL_DENSITY_DER * b) (Rabs tr)) then 0 else tr / (4 * PI)) tr b.
Proof. unfold cutoff_ok. destruct (Rlt_dec (EPSREL_DENSITY_DER * b) (Rabs tr)) as [H|H]; [rewrite Rlt_b_t by exact H; left; reflexivity|rewrite Rlt_b_f by lra; right; split; [reflexivity|lra]]. Qed.

Ltac fin := cbn [h11 h22 h33 h12 h23 h13 v1 v2 v3 fst snd]; unfold v1, v2, v3; cbn [fst snd].
Lemma lapCar_ok ev p f g h : ev (false, false, true) p = outputs (false, false, true) (f p) g h -> lapCar ev p = trace h / (4 * PI).
Proof. intros E. unfold lapCar. rewrite E. cbn [hof outputs]. unfold trace, Rdiv. ring. Qed.

Lemma lap_cyl_expr Rc z phi g h : Rc <> 0 -> let g' := gradG Cyl Car (Rc, z, phi) g in let h' := hessG Cyl Car (Rc, z, phi) g h in
  h11 h' + v1 g' / Rc + h22 h' + h33 h' / pow_2 Rc = trace h.
Proof.
  intros HR. cbv zeta. unfold gradG, hessG, toGrad_YC, toHess_YC, deriv_YC, deriv2_YC, trace, pow_2. rewrite !mul_fun.
  cbn [dxdR_YC dydR_YC dxdphi_YC dydphi_YC d2xdRdphi_YC d2ydRdphi_YC d2xdphi2_YC d2ydphi2_YC h11 h22 h33]. unfold v1; cbn [fst snd].
  pose proof (sin2_cos2 phi) as S2. unfold Rsqr in S2. set (c := cos phi) in *. set (s := sin phi) in *.
  assert (C2 : c * c = 1 - s * s) by lra. field_simplify_eq; [|exact HR]. 
  ring [C2].
Qed.
Lemma lapCyl_ok ev f Rc z phi g h gc hc : let p := (Rc, z, phi) in
  ev (false, true, true) p = outputs (false, true, true) (f (cart Cyl p)) g h -> is_hess (fun q => f (cart Cyl q)) p g h -> is_hess f (cart Cyl p) gc hc ->
  Rabs z * SQRT_DBL_EPSILON < Rc ->
  cutoff_ok (lapCyl ev p) (trace hc) (Rabs (h11 h) + Rabs (v1 g / Rc) + Rabs (h22 h) + Rabs (h33 h / pow_2 Rc)).
Proof.
  intros p E H Hc Far. assert (HR : 0 < Rc) by (assert (0 <= Rabs z * SQRT_DBL_EPSILON); [apply Rmult_le_pos; [apply Rabs_pos|unfold SQRT_DBL_EPSILON; apply Rlt_le, Rinv_0_lt_compat, pow_lt; lra]|lra]).
  destruct (is_hess_unique _ _ _ _ _ _ H (hess_toCar f Cyl p gc hc Hc)) as (Eg & Eh).
  assert (T : h11 h + v1 g / Rc + h22 h + h33 h / pow_2 Rc = trace hc) by (rewrite Eg, Eh; apply lap_cyl_expr; lra).
  unfold lapCyl, p. fold p. rewrite E. cbn [gof hof outputs]. unfold Rle_b. destruct (Rle_dec Rc (Rabs z * SQRT_DBL_EPSILON)); [lra|].
  rewrite T. apply cutoff.
Qed.
Lemma lapSph_expr r th phi g h : r <> 0 -> sin th <> 0 -> let g' := gradG Sph Car (r, th, phi) g in let h' := hessG Sph Car (r, th, phi) g h in
  h11 h' + 2 * (v1 g' / r) + (h22 h' + v2 g' * cos th / sin th + h33 h' / pow_2 (sin th)) / pow_2 r = trace h.
Proof.
  intros Hr Hs. cbv zeta. unfold gradG, hessG, toGrad_SC, toHess_SC, deriv_SC, deriv2_SC, trace, pow_2. rewrite !mul_fun.
  cbn [dxdr_SC dydr_SC dzdr_SC dxdtheta_SC dydtheta_SC dzdtheta_SC dxdphi_SC dydphi_SC d2xdrdtheta_SC d2ydrdtheta_SC d2zdrdtheta_SC d2xdrdphi_SC d2ydrdphi_SC d2xdtheta2_SC d2ydtheta2_SC d2zdtheta2_SC d2xdthetadphi_SC d2ydthetadphi_SC d2xdphi2_SC d2ydphi2_SC h11 h22 h33]. unfold v1, v2; cbn [fst snd].
  pose proof (sin2_cos2 phi) as S2. pose proof (sin2_cos2 th) as T2. unfold Rsqr in S2, T2. set (c := cos phi) in *. set (s := sin phi) in *. set (C := cos th) in *. set (D := sin th) in *.
  assert (C2 : c * c = 1 - s * s) by lra. assert (D2 : C * C = 1 - D * D) by lra. field_simplify_eq; [|split; assumption].
  ring [C2 D2].
Qed.
Lemma lapSph_ok ev f r th phi g h gc hc : let p := (r, th, phi) in
  ev (false, true, true) p = outputs (false, true, true) (f (cart Sph p)) g h -> is_hess (fun q => f (cart Sph q)) p g h -> is_hess f (cart Sph p) gc hc ->
  r <> 0 -> sin th <> 0 ->
  cutoff_ok (lapSph ev p) (trace hc) (Rabs (h11 h) + Rabs (2 * (v1 g / r)) + Rabs ((h22 h + v2 g * cos th / sin th + h33 h / pow_2 (sin th)) / pow_2 r)).
Proof.
  intros p E H Hc Hr Hs.
  destruct (is_hess_unique _ _ _ _ _ _ H (hess_toCar f Sph p gc hc Hc)) as (Eg & Eh).
  assert (T : h11 h + 2 * (v1 g / r) + (h22 h + v2 g * cos th / sin th + h33 h / pow_2 (sin th)) / pow_2 r = trace hc) by (rewrite Eg, Eh; apply lapSph_expr; assumption).
  unfold lapSph, p. fold p. rewrite E. cbn [gof hof outputs]. rewrite !Req_b_f by assumption. cbn [negb]. rewrite T. apply cutoff.
Qed.
(** ---- on the axis ---- *)
Lemma rotM_axis a z : toRotated (rotM a) (0, 0, z) = (0, 0, z).
Proof. unfold rotM, toRotated, v1, v2, v3; cbn [fst snd]. apply v_eq; ring. Qed.
Lemma axisym_hess f z g h : (forall a, under (rotZ a) f) -> is_hess f (0, 0, z) g h -> h11 h = h22 h /\ h12 h = 0 /\ v1 g = 0 /\ v2 g = 0 /\ h13 h = 0 /\ h23 h = 0.
Proof.
  intros U H. pose proof (rotM_axis (PI / 2) z) as Ea. pose proof (rotM_axis PI z) as Eb.
  assert (K : forall a, is_hess f (0, 0, z) (fromRotated (rotM a) g) (fromRotatedH (rotM a) h)).
  { intros a. pose proof (rotM_axis a z) as E. rewrite <- E in H. apply hess_toRotated in H. revert H. apply is_hess_ext. intros q. rewrite <- rotZ_rotM. apply U. }
  destruct (is_hess_unique _ _ _ _ _ _ H (K (PI / 2))) as (Eg & Eh). destruct (is_hess_unique _ _ _ _ _ _ H (K PI)) as (Fg & Fh).
  unfold fromRotatedH, rotM, fromRotated in Eg, Eh, Fg, Fh. rewrite cos_PI2, sin_PI2 in Eg, Eh. rewrite cos_PI, sin_PI in Fg, Fh.
  destruct g as [[g1 g2] g3]. destruct h as [a b c d e k]. revert Eg Eh Fg Fh. unfold v1, v2, v3; cbn [fst snd h11 h22 h33 h12 h23 h13]. intros Eg Eh Fg Fh.
  injection Eg as X1 X2 X3. injection Eh as Y1 Y2 Y3 Y4 Y5 Y6. injection Fg as V1 V2 V3. injection Fh as W1 W2 W3 W4 W5 W6. repeat split; lra.
Qed.
Lemma lapCyl_axis ev f z phi g h gc hc : let p := (0, z, phi) in (forall a, under (rotZ a) f) ->
  ev (false, true, true) p = outputs (false, true, true) (f (cart Cyl p)) g h -> is_hess (fun q => f (cart Cyl q)) p g h -> is_hess f (cart Cyl p) gc hc ->
  cutoff_ok (lapCyl ev p) (trace hc) (Rabs (h11 h) + Rabs (h11 h) + Rabs (h22 h) + Rabs 0).
Proof.
  intros p U E H Hc. destruct (is_hess_unique _ _ _ _ _ _ H (hess_toCar f Cyl p gc hc Hc)) as (Eg & Eh).
  assert (Hc' : is_hess f (0, 0, z) gc hc) by (eapply is_hess_pt; [exact Hc|unfold p, cart; apply v_eq; ring]).
  destruct (axisym_hess f z gc hc U Hc') as (A & B & _).
  assert (T : h11 h + h11 h + h22 h + 0 = trace hc).
  { rewrite Eh. unfold p, hessG, toHess_YC, deriv_YC, trace. cbn [dxdR_YC dydR_YC h11 h22]. rewrite B, A.
    pose proof (sin2_cos2 phi) as S2. unfold Rsqr in S2. set (c := cos phi) in *. set (s := sin phi) in *. assert (C2 : c * c = 1 - s * s) by lra. ring [C2]. }
  unfold lapCyl, p. fold p. rewrite E. cbn [gof hof outputs]. unfold Rle_b. destruct (Rle_dec 0 (Rabs z * SQRT_DBL_EPSILON)) as [L|L].
  - rewrite T. apply cutoff.
  - exfalso. apply L. apply Rmult_le_pos; [apply Rabs_pos|unfold SQRT_DBL_EPSILON; apply Rlt_le, Rinv_0_lt_compat, pow_lt; lra].
Qed.
Lemma lapSph_axis ev f r th phi g h gc hc : let p := (r, th, phi) in (forall a, under (rotZ a) f) -> r <> 0 -> sin th = 0 ->
  ev (false, true, true) p = outputs (false, true, true) (f (cart Sph p)) g h -> is_hess (fun q => f (cart Sph q)) p g h -> is_hess f (cart Sph p) gc hc ->
  cutoff_ok (lapSph ev p) (trace hc) (Rabs (h11 h) + Rabs (2 * (v1 g / r)) + Rabs ((h22 h + h22 h) / pow_2 r)).
Proof.
  intros p U Hr Hs E H Hc. destruct (is_hess_unique _ _ _ _ _ _ H (hess_toCar f Sph p gc hc Hc)) as (Eg & Eh).
  assert (Hc' : is_hess f (0, 0, r * cos th) gc hc) by (eapply is_hess_pt; [exact Hc|unfold p, cart; rewrite Hs; apply v_eq; ring]).
  destruct (axisym_hess f _ gc hc U Hc') as (A & B & G1 & G2 & X13 & X23).
  pose proof (sin2_cos2 th) as T2. unfold Rsqr in T2. rewrite Hs in T2.
  assert (T : h11 h + 2 * (v1 g / r) + (h22 h + h22 h) / pow_2 r = trace hc).
  { rewrite Eg, Eh. unfold p, gradG, hessG, toGrad_SC, toHess_SC, deriv_SC, deriv2_SC, trace, pow_2. rewrite !mul_fun.
    cbn [dxdr_SC dydr_SC dzdr_SC dxdtheta_SC dydtheta_SC dzdtheta_SC dxdphi_SC dydphi_SC d2xdrdtheta_SC d2ydrdtheta_SC d2zdrdtheta_SC d2xdrdphi_SC d2ydrdphi_SC d2xdtheta2_SC d2ydtheta2_SC d2zdtheta2_SC d2xdthetadphi_SC d2ydthetadphi_SC d2xdphi2_SC d2ydphi2_SC h11 h22 h33].
    rewrite Hs, G1, G2, B, X13, X23, A. cbv [v1 v2 v3]; cbn [fst snd]. fold (v3 gc).
    pose proof (sin2_cos2 phi) as S2. unfold Rsqr in S2. set (c := cos phi) in *. set (s := sin phi) in *. set (C := cos th) in *.
    assert (C2 : c * c = 1 - s * s) by lra. assert (D2 : C * C = 1) by lra. field_simplify_eq; [|assumption]. ring [C2 D2]. }
  unfold lapSph, p. fold p. rewrite E. cbn [gof hof outputs]. rewrite (Req_b_t (sin th)) by exact Hs. rewrite (Req_b_f r) by exact Hr. cbn [negb]. rewrite Rplus_0_r, T. apply cutoff.
Qed.
Lemma spherical_hess f g h : (forall m, is_rotation m -> under (toRotated m) f) -> is_hess f (0, 0, 0) g h -> h11 h = h22 h /\ h22 h = h33 h /\ h12 h = 0 /\ h13 h = 0 /\ h23 h = 0.
Proof.
  intros U H.
  assert (Uz : forall a, under (rotZ a) f) by (intros a p; rewrite rotZ_rotM; apply U, rotM_rotation).
  destruct (axisym_hess f 0 g h Uz H) as (A & B & _ & _ & C & D).
  set (m := ((0, 0, 1), (1, 0, 0), (0, 1, 0)) : mat3).
  assert (Hm : is_rotation m) by (unfold m, is_rotation, orthonormal_rows, transp, det3, dot, v1, v2, v3; cbn [fst snd]; repeat split; lra).
  assert (K : is_hess f (0, 0, 0) (fromRotated m g) (fromRotatedH m h)).
  { assert (E : toRotated m (0, 0, 0) = (0, 0, 0)) by (unfold m, toRotated, v1, v2, v3; cbn [fst snd]; apply v_eq; ring). rewrite <- E in H. apply hess_toRotated in H. revert H. apply is_hess_ext. intros q. apply (U m Hm). }
  destruct (is_hess_unique _ _ _ _ _ _ H K) as (_ & Eh). unfold fromRotatedH, m, fromRotated in Eh. destruct h as [a b c d e k]. revert A B C D Eh. unfold v1, v2, v3; cbn [fst snd h11 h22 h33 h12 h23 h13]. intros.
  injection Eh as Y1 Y2 Y3 Y4 Y5 Y6. repeat split; lra.
Qed.
Lemma lapSph_center ev f th phi g h gc hc : let p := (0, th, phi) in (forall m, is_rotation m -> under (toRotated m) f) ->
  ev (false, true, true) p = outputs (false, true, true) (f (cart Sph p)) g h -> is_hess (fun q => f (cart Sph q)) p g h -> is_hess f (cart Sph p) gc hc ->
  cutoff_ok (lapSph ev p) (trace hc) (Rabs (h11 h) + Rabs (2 * h11 h) + Rabs 0).
Proof.
  intros p U E H Hc. destruct (is_hess_unique _ _ _ _ _ _ H (hess_toCar f Sph p gc hc Hc)) as (Eg & Eh).
  assert (Hc' : is_hess f (0, 0, 0) gc hc) by (eapply is_hess_pt; [exact Hc|unfold p, cart; apply v_eq; ring]).
  destruct (spherical_hess f gc hc U Hc') as (A & B & C & D & F).
  assert (T : h11 h + 2 * h11 h + 0 = trace hc).
  { rewrite Eh. unfold p, hessG, toHess_SC, deriv_SC, trace.
    cbn [dxdr_SC dydr_SC dzdr_SC h11 h22 h33]. rewrite A, B, C, D, F.
    pose proof (sin2_cos2 phi) as S2. pose proof (sin2_cos2 th) as T2. unfold Rsqr in S2, T2. set (c := cos phi) in *. set (s := sin phi) in *. set (K := cos th) in *. set (J := sin th) in *.
    assert (C2 : c * c = 1 - s * s) by lra. assert (D2 : K * K = 1 - J * J) by lra. ring [C2 D2]. }
  unfold lapSph, p. fold p. rewrite E. cbn [gof hof outputs]. rewrite (Req_b_t 0) by reflexivity. rewrite T. apply cutoff.
Qed.
