(** Disk models: infinitely thin disks, and the centre *)
From Coq Require Import Reals Lra Psatz Lia Bool ZArith List.
From Coquelicot Require Import Coquelicot.
From Verif Require Import RandReal RandRealProofs PolyModel PolyProofs CoordModel CoordSpec OrientModel OrientSpec PotModel PotSpec RootProofs AnalyticSpec DiskModel DiskSpec DiskProofs DiskProofs2 DiskProofs3 DiskProofs4 DiskProofs5.
Import ListNotations.
Local Open Scope R_scope.

Definition nz (z : R) : Prop := z <> 0.
Lemma nz_open z : nz z -> locally z nz.
Proof.
  intros N. assert (PP : 0 < Rabs z) by (apply Rabs_pos_lt, N). exists (mkposreal _ PP). intros y Hy E. unfold ball in Hy; cbn in Hy. unfold AbsRing_ball, abs, minus, plus, opp in Hy; cbn in Hy. rewrite E in Hy.
  replace (0 + - z) with (- z) in Hy by ring. rewrite Rabs_Ropp in Hy. lra.
Qed.
Lemma thin_d z : nz z -> is_derive (fun z => Rabs z / 2) z (msign z / 2) /\ is_derive (fun z => msign z / 2) z 0.
Proof.
  intros N. destruct (Rtotal_order z 0) as [K|[K|K]]; [|contradiction|].
  - rewrite (msign_neg z K). assert (PP : 0 < - z) by lra.
    assert (L : locally z (fun y => y < 0)) by (exists (mkposreal _ PP); intros y Hy; unfold ball in Hy; cbn in Hy; unfold AbsRing_ball, abs, minus, plus, opp in Hy; cbn in Hy; apply Rabs_def2 in Hy; lra).
    split; [apply (is_derive_ext_loc (fun z => - z / 2)); [revert L; apply filter_imp; intros y Hy; rewrite Rabs_left by exact Hy; reflexivity|]|apply (is_derive_ext_loc (fun z => -1 / 2)); [revert L; apply filter_imp; intros y Hy; rewrite msign_neg by exact Hy; reflexivity|]]; auto_derive; try exact Logic.I; field.
  - rewrite (msign_pos z K).
    assert (L : locally z (fun y => 0 < y)) by (exists (mkposreal _ K); intros y Hy; unfold ball in Hy; cbn in Hy; unfold AbsRing_ball, abs, minus, plus, opp in Hy; cbn in Hy; apply Rabs_def2 in Hy; lra).
    split; [apply (is_derive_ext_loc (fun z => z / 2)); [revert L; apply filter_imp; intros y Hy; rewrite Rabs_right by lra; reflexivity|]|apply (is_derive_ext_loc (fun z => 1 / 2)); [revert L; apply filter_imp; intros y Hy; rewrite msign_pos by exact Hy; reflexivity|]]; auto_derive; try exact Logic.I; field.
Qed.
Section Thin.
Variables (P : diskParam) (g : fnc).
Hypothesis E : createRadial P = Some g.
Hypothesis N : scaleHeight P = 0.
Let V : valid P. Proof. apply createRadial_valid. exists g. exact E. Qed.
Let DR : forall r, 0 < r -> is_derive (Sigma P) r (Sig1 P r) /\ is_derive (Sig1 P) r (Sig2 P r).
Proof. intros r K. split; [apply sigma_derive; [exact V|exact K]|apply sig1_derive; [exact V|exact K]]. Qed.
Lemma thin_vert z : createVertical P z = (Fin (Rabs z / 2), Fin (msign z / 2), Fin 0).
Proof. unfold createVertical. rewrite N, !(Rlt_b_f 0 0) by lra. unfold verticalThin. apply (f_equal2 pair); [apply (f_equal2 pair)|reflexivity]; f_equal; lra. Qed.
Lemma thin_eval r z phi : z <> 0 -> exists gR gz hRR hzz hRz,
    ansatzEval g (createVertical P) (r, z, phi) = (Fin (Ansatz (Sigma P) (fun z => Rabs z / 2) (cart Cyl (r, z, phi))), (Fin gR, Fin gz), (Fin hRR, Fin hzz, Fin hRz)) /\
    is_hess (fun q => Ansatz (Sigma P) (fun z => Rabs z / 2) (cart Cyl q)) (r, z, phi) (gR, gz, 0) (mkH hRR hzz 0 hRz 0 0).
Proof.
  intros K. assert (D0 : 0 < r * r + z * z) by nra.
  exact (an_eval (Sigma P) (Sig1 P) (Sig2 P) (fun z => Rabs z / 2) (fun z => msign z / 2) (fun z => 0) nz nz_open DR thin_d g (createVertical P) (createRadial_eval P g E) (fun z _ => thin_vert z) r z phi D0 K).
Qed.
Lemma thin_dens r z phi : z <> 0 -> exists rho : vec3 -> R, poisson (Ansatz (Sigma P) (fun z => Rabs z / 2)) rho (cart Cyl (r, z, phi)) /\ ansatzDensity g (createVertical P) (r, z, phi) = Fin (rho (cart Cyl (r, z, phi))).
Proof.
  intros K. assert (D0 : 0 < r * r + z * z) by nra. assert (Z0 : z = 0 -> Rabs z / 2 = 0) by (intros; contradiction).
  exact (an_poisson (Sigma P) (Sig1 P) (Sig2 P) (fun z => Rabs z / 2) (fun z => msign z / 2) (fun z => 0) nz nz_open DR thin_d g (createVertical P) (createRadial_eval P g E) (fun z _ => thin_vert z) r z phi D0 K Z0).
Qed.
End Thin.

(** a bounded function times one with a double zero *)
Lemma bounded_mult (b G : R -> R) t M : (forall s, Rabs (b s) <= M) -> is_derive G t 0 -> G t = 0 -> is_derive (fun s => b s * G s) t 0.
Proof.
  intros HB (_ & D) Z. split; [apply is_linear_scal_l|]. intros x Hx. rewrite <- (is_filter_lim_locally_unique _ _ Hx). clear x Hx. intros e. assert (M0 : 0 <= M) by (pose proof (HB t); pose proof (Rabs_pos (b t)); lra).
  assert (PP : 0 < e / (M + 1)) by (apply Rdiv_lt_0_compat; [apply cond_pos|lra]). specialize (D t (fun P H => H) (mkposreal _ PP)). revert D. apply filter_imp. intros y K.
  unfold norm, minus, plus, opp, scal in *; cbn in *. unfold mult, abs in *; cbn in *. unfold mult, abs in *; cbn in *. rewrite Z in *. rewrite !Rmult_0_r, !Ropp_0, !Rplus_0_r in *. rewrite Rabs_mult.
  set (q := Rabs (y + - t)) in *. assert (Q : 0 <= q) by apply Rabs_pos. pose proof (HB y). pose proof (Rabs_pos (b y)). pose proof (Rabs_pos (G y)).
  assert (S1 : Rabs (b y) * Rabs (G y) <= M * (e / (M + 1) * q)) by (apply Rmult_le_compat; assumption).
  assert (S2 : M * (e / (M + 1)) <= e). { assert (EM : (M + 1) * (e / (M + 1)) = e) by (field; lra). lra. }
  nra.
Qed.
Lemma sigma_bound P r : innerCutoffRadius P = 0 -> Rabs (Sigma P r) <= Rabs (surfaceDensity P) * exp (Rabs (modulationAmplitude P)).
Proof.
  intros E. unfold Sigma. rewrite E. rewrite Rabs_mult. apply Rmult_le_compat_l; [apply Rabs_pos|]. rewrite Rabs_right by (left; apply exp_pos).
  assert (A : modulationAmplitude P * cos (r / scaleRadius P) <= Rabs (modulationAmplitude P)).
  { eapply Rle_trans; [apply Rle_abs|]. rewrite Rabs_mult. rewrite <- (Rmult_1_r (Rabs (modulationAmplitude P))) at 2. apply Rmult_le_compat_l; [apply Rabs_pos|]. apply Rabs_le. apply COS_bound. }
  assert (B : 0 < Rpower (r / scaleRadius P) (1 / sersicIndex P)) by apply exp_pos.
  match goal with |- exp ?a <= exp ?b => assert (C : a <= b) by (unfold Rdiv in *; rewrite Rmult_0_l; lra); destruct C as [C|C]; [left; apply exp_increasing, C|rewrite C; lra] end.
Qed.
Lemma origin_grad P : innerCutoffRadius P = 0 -> scaleHeight P <> 0 -> is_grad (Ansatz (Sigma P) (Hs (scaleHeight P))) (0, 0, 0) (0, 0, 0).
Proof.
  intros E N c1 c2 c3 t u1 u2 u3 Ep D1 D2 D3. injection Ep as Q1 Q2 Q3. set (h := scaleHeight P) in *. unfold v1, v2, v3; cbn [fst snd]. replace (0 * u1 + 0 * u2 + 0 * u3) with 0 by ring.
  unfold Ansatz. apply (bounded_mult (fun s => 4 * PI * Sigma P (radius (c1 s, c2 s, c3 s))) (fun s => Hs h (v3 (c1 s, c2 s, c3 s))) t (4 * PI * (Rabs (surfaceDensity P) * exp (Rabs (modulationAmplitude P))))).
  - intros s. pose proof PI_RGT_0. rewrite Rabs_mult, (Rabs_right (4 * PI)) by lra. apply Rmult_le_compat_l; [lra|]. apply sigma_bound, E.
  - unfold v3; cbn [snd]. replace 0 with (scal u3 (Hp h (c3 t))) by (rewrite Q3, Hp_0; unfold scal; cbn; unfold mult; cbn; ring). apply (is_derive_comp (Hs h) c3); [apply Hs_d, N|exact D3].
  - unfold v3; cbn [snd]. rewrite Q3. apply Hs_0, N.
Qed.
Lemma nan_r x : nmul x NaN = NaN. Proof. destruct x; reflexivity. Qed.
Lemma nan_l x : nmul NaN x = NaN. Proof. reflexivity. Qed.
Lemma nan_ar x : nadd x NaN = NaN. Proof. destruct x; reflexivity. Qed.
Lemma origin_nan P g phi : createRadial P = Some g -> innerCutoffRadius P = 0 -> (modulationAmplitude P <> 0 \/ sersicIndex P <> 1) -> surfaceDensity P <> 0 -> scaleHeight P <> 0 ->
  ansatzEval g (createVertical P) (0, 0, phi) = (Fin 0, (NaN, NaN), (NaN, NaN, NaN)) /\ ansatzDensity g (createVertical P) (0, 0, phi) = NaN /\
  diskDensity g (createVertical P) (0, 0, phi) = Fin (surfaceDensity P * exp (modulationAmplitude P) * vprofile (scaleHeight P) 0).
Proof.
  intros E E0 M S0 N. assert (V : valid P) by (apply createRadial_valid; exists g; exact E). pose proof V as (K1 & K2 & K3).
  assert (G : g = radialRich P).
  { unfold createRadial in E. rewrite (Rle_b_f _ _ K1), (Rlt_b_f _ _ K2), (Rle_b_f _ _ K3) in E. destruct M as [M|M]; rewrite (Req_b_f _ _ M) in E; rewrite ?andb_false_r in E; cbn [andb] in E; injection E as <-; reflexivity. }
  destruct (vert_eval P 0 N) as (Hc & EV & TOL). assert (H0 : Hc = 0).
  { assert (TZ : vtol (scaleHeight P) 0 = 0).
    { unfold vtol. replace (0 / scaleHeight P) with 0 by (unfold Rdiv; ring). rewrite Rabs_R0. destruct (Rlt_dec 0 (scaleHeight P)); [destruct (Rle_dec 0 0.00001)|destruct (Rle_dec 0 0.001)]; try reflexivity; unfold Rdiv; simpl; ring. }
    rewrite TZ, (Hs_0 _ N), Rminus_0_r in TOL. pose proof (Rabs_pos Hc). apply Rabs_eq_0. lra. }
  rewrite H0, Hp_0 in EV. subst g. unfold ansatzEval, ansatzDensity, diskDensity, pow_2. replace (0 * 0 + 0 * 0) with 0 by ring. rewrite sqrt_0, EV, (rich_zero P V E0 S0).
  rewrite (Rlt_b_f 0 0), (Req_b_t 0 0) by lra. cbv zeta. rewrite !nan_l, ?nan_r. unfold nsub. rewrite ?nan_l, ?nan_r, ?nan_ar. cbn [nadd negb].
  split; [|split; reflexivity]. rewrite ?nan_r. cbn [nadd nmul nopp is_zero].
  destruct (Req_b (surfaceDensity P * exp (modulationAmplitude P) * (4 * PI)) 0); [reflexivity|rewrite Rmult_0_r; reflexivity].
Qed.
