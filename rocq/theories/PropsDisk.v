(** C62: separable disk density profiles and the analytic part of their potential *)
From Coq Require Import Reals Lra Psatz Bool ZArith List.
From Coquelicot Require Import Coquelicot.
From Verif Require Import RandReal RandRealProofs PolyModel PolyProofs CoordModel CoordSpec OrientModel OrientSpec PotModel PotSpec RootProofs AnalyticSpec DiskModel DiskSpec DiskProofs DiskProofs2 DiskProofs3 DiskProofs4 DiskProofs5 DiskProofs6 DiskProofs7.
Import ListNotations.
Local Open Scope R_scope.

(** construction throws exactly for parameters that make no sense *)
Theorem C62_construct : forall P, createRadial P = None <-> ~ valid P.
Proof.
  intros P. pose proof (createRadial_valid P) as (A & B). destruct (createRadial P) as [g|]; split; intros K; try discriminate; try reflexivity.
  - exfalso. apply K, A. exists g. reflexivity.
  - intros V. destruct (B V) as (g & E). discriminate.
Qed.
(** the surface density is the documented function of radius and comes with its two derivatives, at every radius R>0 *)
Theorem C62_radial : forall P g, createRadial P = Some g -> exists F1 F2, twice_derivable (fun r => 0 < r) (Sigma P) F1 F2 /\ computes (fun r => 0 < r) g (Sigma P) F1 F2.
Proof.
  intros P g E. assert (V : valid P) by (apply createRadial_valid; exists g; exact E). exists (Sig1 P), (Sig2 P). split.
  - intros r K. split; [apply sigma_derive; assumption|apply sig1_derive; assumption].
  - intros r K. apply createRadial_eval; assumption.
Qed.
(** a plain exponential disk is regular in the centre too *)
Theorem C62_radial_centre : forall P g, createRadial P = Some g -> innerCutoffRadius P = 0 -> modulationAmplitude P = 0 -> sersicIndex P = 1 ->
  exists F1 F2, twice_derivable (fun _ => True) (fun r => surfaceDensity P * exp (- r / scaleRadius P)) F1 F2 /\ computes (fun _ => True) g (fun r => surfaceDensity P * exp (- r / scaleRadius P)) F1 F2.
Proof.
  intros P g E E1 E2 E3. assert (V : valid P) by (apply createRadial_valid; exists g; exact E). destruct V as (K1 & K2 & K3). unfold createRadial in E. rewrite (Rle_b_f _ _ K1), (Rlt_b_f _ _ K2), (Rle_b_f _ _ K3), (Req_b_t _ _ E1), (Req_b_t _ _ E2), (Req_b_t _ _ E3) in E. cbn [andb] in E. injection E as <-.
  exists (fun r => - (surfaceDensity P * exp (- r / scaleRadius P)) / scaleRadius P), (fun r => surfaceDensity P * exp (- r / scaleRadius P) / scaleRadius P ^ 2). split.
  - intros r _. split; auto_derive; try exact Logic.I; unfold Rdiv; set (e := exp _); clearbody e; field; lra.
  - intros r _. unfold radialExp, pow_2. replace (- r * (1 / scaleRadius P)) with (- r / scaleRadius P) by (field; lra). set (e := exp _). clearbody e. apply (f_equal2 pair); [apply (f_equal2 pair)|]; f_equal; field; lra.
Qed.
(** a central hole empties the centre *)
Theorem C62_radial_hole : forall P g, createRadial P = Some g -> innerCutoffRadius P <> 0 -> g 0 = (Fin 0, Fin 0, Fin 0) /\ filterlim (Sigma P) (at_right 0) (locally 0).
Proof.
  intros P g E N. assert (V : valid P) by (apply createRadial_valid; exists g; exact E). destruct V as (K1 & K2 & K3). split; [apply (createRadial_hole P g E N)|].
  assert (R0 : 0 < innerCutoffRadius P) by lra. set (M := Rabs (surfaceDensity P) * exp (Rabs (modulationAmplitude P))).
  assert (B : forall r, 0 < r -> Rabs (Sigma P r) <= M * exp (- innerCutoffRadius P * / r)).
  { intros r K. unfold Sigma, M. rewrite Rabs_mult, Rmult_assoc. apply Rmult_le_compat_l; [apply Rabs_pos|]. rewrite Rabs_right by (left; apply exp_pos). rewrite <- exp_plus.
    assert (A : modulationAmplitude P * cos (r / scaleRadius P) <= Rabs (modulationAmplitude P)).
    { eapply Rle_trans; [apply Rle_abs|]. rewrite Rabs_mult. rewrite <- (Rmult_1_r (Rabs (modulationAmplitude P))) at 2. apply Rmult_le_compat_l; [apply Rabs_pos|]. apply Rabs_le. apply COS_bound. }
    assert (C : 0 < Rpower (r / scaleRadius P) (1 / sersicIndex P)) by apply exp_pos.
    match goal with |- exp ?a <= exp ?b => assert (D : a <= b) by (unfold Rdiv in *; lra); destruct D as [D|D]; [left; apply exp_increasing, D|rewrite D; lra] end. }
  assert (L : filterlim (fun r => M * exp (- innerCutoffRadius P * / r)) (at_right 0) (locally 0)).
  { apply (filterlim_comp _ _ _ (fun r => / r) (fun u => M * exp (- innerCutoffRadius P * u)) _ (Rbar_locally p_infty)); [apply filterlim_Rinv_0_right|].
    change (is_lim (fun u => M * exp (- innerCutoffRadius P * u)) p_infty 0). replace (Finite 0) with (Rbar_mult M 0) by (cbn; rewrite Rmult_0_r; reflexivity). apply (is_lim_scal_l (fun u => exp (- innerCutoffRadius P * u))).
    apply (is_lim_comp exp _ p_infty 0 m_infty); [apply is_lim_exp_m| |exists 0; intros; discriminate].
    replace m_infty with (Rbar_mult (- innerCutoffRadius P) p_infty). { apply (is_lim_scal_l (fun u => u)). apply is_lim_id. }
    cbn. destruct (Rle_dec 0 (- innerCutoffRadius P)) as [U|U]; [exfalso; lra|reflexivity]. }
  assert (Lm : filterlim (fun r => - (M * exp (- innerCutoffRadius P * / r))) (at_right 0) (locally 0)).
  { replace 0 with (- 0) at 2 by ring. eapply filterlim_comp; [exact L|]. apply (filterlim_opp (V := R_NormedModule) 0). }
  apply (filterlim_le_le (fun r => - (M * exp (- innerCutoffRadius P * / r))) (Sigma P) (fun r => M * exp (- innerCutoffRadius P * / r)) (Finite 0)); [|exact Lm|exact L].
  exists (mkposreal 1 Rlt_0_1). intros r _ K. specialize (B r K). apply Rabs_le_between in B. exact B.
Qed.

(** the vertical profile is the documented one, has unit total mass, and comes with its first antiderivative; the second
    antiderivative is exact outside a thin layer around z=0, and accurate to 1e-20 h inside *)
Theorem C62_vertical : forall P, scaleHeight P <> 0 -> let h := scaleHeight P in
  exists H H1, twice_derivable (fun _ => True) H H1 (vprofile h) /\ H 0 = 0 /\ H1 0 = 0 /\ is_lim H1 p_infty (/ 2) /\ is_lim H1 m_infty (- / 2) /\
    forall z, exists Hc, createVertical P z = (Fin Hc, Fin (H1 z), Fin (vprofile h z)) /\ Rabs (Hc - H z) <= vtol h z.
Proof.
  intros P N h. exists (Hs h), (Hp h). split; [intros z _; split; [apply Hs_d, N|apply Hp_d, N]|]. split; [apply Hs_0, N|]. split; [apply Hp_0|]. destruct (Hp_lim h N) as (L1 & L2). split; [exact L1|]. split; [exact L2|].
  intros z. apply vert_eval, N.
Qed.
(** the tolerance is negligible: zero outside the layer, at most 1e-20 |h| inside *)
Theorem C62_vtol : forall h z, h <> 0 -> 0 <= vtol h z <= Rabs h / 10 ^ 20 /\ (0.001 < Rabs (z / h) -> vtol h z = 0).
Proof.
  intros h z N. unfold vtol. pose proof (Rabs_pos (z / h)) as X. set (x := Rabs (z / h)) in *. clearbody x. pose proof (Rabs_pos_lt h N) as HA.
  destruct (Rlt_dec 0 h) as [A|A].
  - rewrite (Rabs_right h) in * by lra. destruct (Rle_dec x 0.00001) as [B|B].
    + assert (x ^ 4 <= 0.00001 ^ 4) by (apply pow_incr; lra). assert (0 <= x ^ 4) by (apply pow_le; exact X). assert (E : (0.00001 : R) ^ 4 = 1 / 10 ^ 20) by (simpl; lra). split; [split; [unfold Rdiv; apply Rmult_le_pos; [apply Rmult_le_pos; lra|lra]|]|intros; exfalso; lra].
      replace (h * x ^ 4 / 48) with (h * (x ^ 4 / 48)) by (unfold Rdiv; ring). unfold Rdiv. apply Rmult_le_compat_l; [lra|]. lra.
    + split; [split; [lra|]|reflexivity]. unfold Rdiv. apply Rmult_le_pos; [lra|]. left. apply Rinv_0_lt_compat. apply pow_lt. lra.
  - destruct (Rle_dec x 0.001) as [B|B].
    + assert (x ^ 6 <= 0.001 ^ 6) by (apply pow_incr; lra). assert (0 <= x ^ 6) by (apply pow_le; exact X). assert (E : (0.001 : R) ^ 6 = 1 / 10 ^ 18) by (simpl; lra). assert (E' : 1 / 10 ^ 18 = 100 * / 10 ^ 20) by (simpl; lra). split; [split; [unfold Rdiv; apply Rmult_le_pos; [apply Rmult_le_pos; lra|lra]|]|intros; exfalso; lra].
      replace (Rabs h * x ^ 6 / 2880) with (Rabs h * (x ^ 6 / 2880)) by (unfold Rdiv; ring). unfold Rdiv. apply Rmult_le_compat_l; [lra|]. assert (0 < / 10 ^ 20) by (apply Rinv_0_lt_compat, pow_lt; lra). lra.
    + split; [split; [lra|]|reflexivity]. unfold Rdiv. apply Rmult_le_pos; [lra|]. left. apply Rinv_0_lt_compat. apply pow_lt. lra.
Qed.
(** the density of the disk is the product of the two profiles *)
Theorem C62_density : forall P g, createRadial P = Some g -> scaleHeight P <> 0 -> forall r z phi, 0 < r -> diskDensity g (createVertical P) (r, z, phi) = Fin (Sigma P r * vprofile (scaleHeight P) z).
Proof. intros P g E N r z phi K. apply (disk_density P g E N r z phi K). Qed.
(** the ansatz potential 4 pi Sigma(r) H(z), its gradient and its second derivatives, everywhere except the origin: exact outside the layer,
    with a bounded error inside *)
Theorem C62_ansatz : forall P g, createRadial P = Some g -> scaleHeight P <> 0 -> let h := scaleHeight P in
  exists F1 F2 H H1, twice_derivable (fun r => 0 < r) (Sigma P) F1 F2 /\ twice_derivable (fun _ => True) H H1 (vprofile h) /\ H 0 = 0 /\ H1 0 = 0 /\
  forall r z phi, 0 < r * r + z * z -> let d := sqrt (r * r + z * z) in
  (exists A B1 B2 C1 C2 C3 gR gz hRR hzz hRz,
    ansatzEval g (createVertical P) (r, z, phi) = (Fin A, (Fin B1, Fin B2), (Fin C1, Fin C2, Fin C3)) /\
    is_hess (fun q => Ansatz (Sigma P) H (cart Cyl q)) (r, z, phi) (gR, gz, 0) (mkH hRR hzz 0 hRz 0 0) /\
    Rabs (A - Ansatz (Sigma P) H (cart Cyl (r, z, phi))) <= 4 * PI * Rabs (Sigma P d) * vtol h z /\
    Rabs (B1 - gR) <= 4 * PI * Rabs (F1 d) * vtol h z /\ Rabs (B2 - gz) <= 4 * PI * Rabs (F1 d) * vtol h z /\
    Rabs (C1 - hRR) <= 4 * PI * (Rabs (F2 d) + Rabs (F1 d) / d) * vtol h z /\ Rabs (C2 - hzz) <= 4 * PI * (Rabs (F2 d) + Rabs (F1 d) / d) * vtol h z /\
    Rabs (C3 - hRz) <= 4 * PI * (Rabs (F2 d) + Rabs (F1 d) / d) * vtol h z) /\
  (exists A (rho : vec3 -> R), ansatzDensity g (createVertical P) (r, z, phi) = Fin A /\ poisson (Ansatz (Sigma P) H) rho (cart Cyl (r, z, phi)) /\
    Rabs (A - rho (cart Cyl (r, z, phi))) <= (Rabs (F2 d) + 2 * Rabs (F1 d) / d) * vtol h z).
Proof.
  intros P g E N h. assert (V : valid P) by (apply createRadial_valid; exists g; exact E). exists (Sig1 P), (Sig2 P), (Hs h), (Hp h).
  split; [intros r K; split; [apply sigma_derive; assumption|apply sig1_derive; assumption]|]. split; [intros z _; split; [apply Hs_d, N|apply Hp_d, N]|]. split; [apply Hs_0, N|]. split; [apply Hp_0|].
  intros r z phi K d. split; [apply (disk_eval P g E N r z phi K)|apply (disk_dens P g E N r z phi K)].
Qed.
(** the same for any pair of radial and vertical functions supplied by the user; density and potential agree *)
Theorem C62_generic : forall (f f1 f2 H H1 h : R -> R) (dz : R -> Prop) (rad vert : fnc),
  (forall z, dz z -> locally z dz) -> twice_derivable (fun r => 0 < r) f f1 f2 -> twice_derivable dz H H1 h -> computes (fun r => 0 < r) rad f f1 f2 -> computes dz vert H H1 h ->
  forall r z phi, 0 < r * r + z * z -> dz z -> (z = 0 -> H z = 0) ->
  (exists gR gz hRR hzz hRz,
    ansatzEval rad vert (r, z, phi) = (Fin (Ansatz f H (cart Cyl (r, z, phi))), (Fin gR, Fin gz), (Fin hRR, Fin hzz, Fin hRz)) /\
    is_hess (fun q => Ansatz f H (cart Cyl q)) (r, z, phi) (gR, gz, 0) (mkH hRR hzz 0 hRz 0 0)) /\
  (exists rho : vec3 -> R, poisson (Ansatz f H) rho (cart Cyl (r, z, phi)) /\ ansatzDensity rad vert (r, z, phi) = Fin (rho (cart Cyl (r, z, phi)))).
Proof.
  intros f f1 f2 H H1 h dz rad vert O D1 D2 C1 C2 r z phi K Z Z0. split; [apply (an_eval f f1 f2 H H1 h dz O D1 D2 rad vert C1 C2 r z phi K Z)|apply (an_poisson f f1 f2 H H1 h dz O D1 D2 rad vert C1 C2 r z phi K Z Z0)].
Qed.
(** the density that is left for the multipole expansion is the documented residual *)
Theorem C62_residual : forall (f f1 f2 H H1 h : R -> R) (dz : R -> Prop) (rad vert : fnc), computes (fun r => 0 < r) rad f f1 f2 -> computes dz vert H H1 h ->
  forall r z phi, 0 < r -> dz z -> (z = 0 -> H z = 0) ->
  exists a b, diskDensity rad vert (r, z, phi) = Fin a /\ ansatzDensity rad vert (r, z, phi) = Fin b /\ a - b = residual f f1 f2 H H1 h r z.
Proof.
  intros f f1 f2 H H1 h dz rad vert C1 C2 r z phi K Z Z0. 
  exact (an_residual f f1 f2 H H1 h dz rad vert C1 C2 r z phi K Z Z0).
Qed.
(** infinitely thin disks: everything away from the disk plane; the force jumps by 4 pi G Sigma across it *)
Theorem C62_thin : forall P g, createRadial P = Some g -> scaleHeight P = 0 -> forall r z phi, z <> 0 ->
  (exists gR gz hRR hzz hRz,
    ansatzEval g (createVertical P) (r, z, phi) = (Fin (Ansatz (Sigma P) (fun z => Rabs z / 2) (cart Cyl (r, z, phi))), (Fin gR, Fin gz), (Fin hRR, Fin hzz, Fin hRz)) /\
    is_hess (fun q => Ansatz (Sigma P) (fun z => Rabs z / 2) (cart Cyl q)) (r, z, phi) (gR, gz, 0) (mkH hRR hzz 0 hRz 0 0)) /\
  (exists rho : vec3 -> R, poisson (Ansatz (Sigma P) (fun z => Rabs z / 2)) rho (cart Cyl (r, z, phi)) /\ ansatzDensity g (createVertical P) (r, z, phi) = Fin (rho (cart Cyl (r, z, phi)))) /\
  (0 < r -> diskDensity g (createVertical P) (r, z, phi) = Fin 0).
Proof.
  intros P g E N r z phi K. split; [apply (thin_eval P g E N r z phi K)|]. split; [apply (thin_dens P g E N r z phi K)|]. intros Hr. unfold diskDensity. rewrite (thin_vert P N z), (createRadial_eval P g E r Hr). cbn [nmul]. rewrite Rmult_0_r. reflexivity.
Qed.
(** total mass of a disk without hole and modulation, for any Sersic index: the integral of 2 pi R Sigma(R) over all radii,
    given that math::gamma(2n+1) is the gamma integral *)
Theorem C62_mass : forall P (gamma : R -> R), valid P -> innerCutoffRadius P = 0 -> modulationAmplitude P = 0 ->
  is_RInt_gen (fun s => Rpower s (2 * sersicIndex P) * exp (- s)) (at_right 0) (Rbar_locally p_infty) (gamma (2 * sersicIndex P + 1)) ->
  exists m, diskMass gamma P = Some m /\ is_RInt_gen (fun r => 2 * PI * r * Sigma P r) (at_right 0) (Rbar_locally p_infty) m.
Proof.
  intros P gamma V E0 E1 HG. unfold diskMass. rewrite (Req_b_t _ _ E1), (Req_b_t _ _ E0). eexists. split; [reflexivity|].
  replace (PI * pow_2 (scaleRadius P) * surfaceDensity P * gamma (2 * sersicIndex P + 1)) with (PI * scaleRadius P ^ 2 * surfaceDensity P * gamma (2 * sersicIndex P + 1)) by (unfold pow_2; ring).
  apply (ms_total P V E0 E1 _ HG).
Qed.
(** in the centre of a disk without a hole, which is not a plain exponential, the gradient of the potential is zero, but the code
    returns NaN for the force, its derivatives and the density of the ansatz *)
Theorem C62_centre_refuted : forall P g phi, createRadial P = Some g -> innerCutoffRadius P = 0 -> (modulationAmplitude P <> 0 \/ sersicIndex P <> 1) -> surfaceDensity P <> 0 -> scaleHeight P <> 0 ->
  (exists H H1, twice_derivable (fun _ => True) H H1 (vprofile (scaleHeight P)) /\ H 0 = 0 /\ H1 0 = 0 /\ is_grad (Ansatz (Sigma P) H) (0, 0, 0) (0, 0, 0)) /\
  ansatzEval g (createVertical P) (0, 0, phi) = (Fin 0, (NaN, NaN), (NaN, NaN, NaN)) /\ ansatzDensity g (createVertical P) (0, 0, phi) = NaN /\
  diskDensity g (createVertical P) (0, 0, phi) = Fin (surfaceDensity P * exp (modulationAmplitude P) * vprofile (scaleHeight P) 0).
Proof.
  intros P g phi E E0 M S0 N. split; [|apply (origin_nan P g phi E E0 M S0 N)]. set (h := scaleHeight P). exists (Hs h), (Hp h).
  split; [intros z _; split; [apply Hs_d, N|apply Hp_d, N]|]. split; [apply Hs_0, N|]. split; [apply Hp_0|]. apply (origin_grad P E0 N).
Qed.

(** ** the hypotheses are met *)
(** a disk of each kind: exponential, Sersic n=2 with hole and ripples, exponential with ripples *)
Example C62_ex_params : exists g1 g2 g3, createRadial (mkDisk 1 2 0.3 0 0 1) = Some g1 /\ createRadial (mkDisk 1 2 (-0.3) 0.5 0.1 2) = Some g2 /\ createRadial (mkDisk 3 2 0.3 0 0.1 1) = Some g3.
Proof.
  destruct (proj2 (createRadial_valid (mkDisk 1 2 0.3 0 0 1))) as (g1 & E1); [unfold valid; cbn; lra|]. destruct (proj2 (createRadial_valid (mkDisk 1 2 (-0.3) 0.5 0.1 2))) as (g2 & E2); [unfold valid; cbn; lra|].
  destruct (proj2 (createRadial_valid (mkDisk 3 2 0.3 0 0.1 1))) as (g3 & E3); [unfold valid; cbn; lra|]. exists g1, g2, g3. tauto.
Qed.
Example C62_ex_reject : createRadial (mkDisk 1 0 0.3 0 0 1) = None /\ createRadial (mkDisk 1 2 0.3 (-1) 0 1) = None /\ createRadial (mkDisk 1 2 0.3 0 0 0) = None.
Proof. repeat split; apply C62_construct; unfold valid; cbn; lra. Qed.
(** mass of the exponential disk is 2 pi Sigma_0 R_d^2 *)
Example C62_ex_mass : diskMass (fun _ => 2) (mkDisk 3 2 0.3 0 0 1) = Some (24 * PI) /\ is_RInt_gen (fun r => 2 * PI * r * Sigma (mkDisk 3 2 0.3 0 0 1) r) (at_right 0) (Rbar_locally p_infty) (24 * PI).
Proof.
  destruct (C62_mass (mkDisk 3 2 0.3 0 0 1) (fun _ => 2)) as (m & E & I); [unfold valid; cbn; lra|reflexivity|reflexivity|exact gamma_3|].
  assert (M : diskMass (fun _ => 2) (mkDisk 3 2 0.3 0 0 1) = Some (24 * PI)). { unfold diskMass; cbn. rewrite (Req_b_t 0 0) by reflexivity. f_equal. unfold pow_2. ring. }
  split; [exact M|]. rewrite M in E. injection E as <-. exact I.
Qed.
(** the origin of a rippled disk *)
Example C62_ex_centre : exists g, createRadial (mkDisk 3 2 0.3 0 0.1 1) = Some g /\ fst (ansatzEval g (createVertical (mkDisk 3 2 0.3 0 0.1 1)) (0, 0, 0)) = (Fin 0, (NaN, NaN)).
Proof.
  destruct C62_ex_params as (_ & _ & g & _ & _ & E). exists g. split; [exact E|]. destruct (C62_centre_refuted _ g 0 E) as (_ & Q & _); [reflexivity|left; cbn; lra|cbn; lra|cbn; lra|]. rewrite Q. reflexivity.
Qed.

Print Assumptions C62_construct.
Print Assumptions C62_radial.
Print Assumptions C62_radial_centre.
Print Assumptions C62_radial_hole.
Print Assumptions C62_vertical.
Print Assumptions C62_vtol.
Print Assumptions C62_density.
Print Assumptions C62_ansatz.
Print Assumptions C62_generic.
Print Assumptions C62_residual.
Print Assumptions C62_thin.
Print Assumptions C62_mass.
Print Assumptions C62_centre_refuted.
