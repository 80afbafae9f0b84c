(** Properties of atan2 *)
From Coq Require Import Reals Lra Psatz Bool.
From Coquelicot Require Import Coquelicot.
From Verif Require Import RandReal PolyModel PolyProofs RootProofs CoordModel.
Local Open Scope R_scope.

Lemma mul_eq x y : mul x y = x * y.
Proof. unfold mul. destruct (Req_EM_T y 0) as [->|N]; [rewrite Req_b_t by reflexivity; ring|rewrite Req_b_f by exact N; reflexivity]. Qed.
Lemma atan2_xpos y x : 0 < x -> atan2 y x = atan (y / x).
Proof. intros H. unfold atan2. rewrite Rlt_b_t by exact H. reflexivity. Qed.
Lemma atan2_ypos y x : 0 < y -> atan2 y x = PI / 2 - atan (x / y).
Proof.
  intros H. unfold atan2. destruct (Rtotal_order x 0) as [L|[->|G]].
  - rewrite Rlt_b_f by lra. rewrite Rlt_b_t by exact L. rewrite Rle_b_t by lra.
    assert (P : 0 < - x / y) by (apply Rdiv_lt_0_compat; lra).
    replace (y / x) with (- (/ (- x / y))) by (field; lra). rewrite atan_opp, atan_inv by exact P.
    replace (- x / y) with (- (x / y)) by (field; lra). rewrite atan_opp. lra.
  - rewrite !(Rlt_b_f 0 0) by lra. rewrite Rlt_b_t by exact H. replace (0 / y) with 0 by (field; lra). rewrite atan_0. lra.
  - rewrite Rlt_b_t by exact G. assert (P : 0 < x / y) by (apply Rdiv_lt_0_compat; lra).
    replace (y / x) with (/ (x / y)) by (field; lra). apply atan_inv, P.
Qed.
Lemma atan2_yneg y x : y < 0 -> atan2 y x = - (PI / 2) - atan (x / y).
Proof.
  intros H. unfold atan2. destruct (Rtotal_order x 0) as [L|[->|G]].
  - rewrite Rlt_b_f by lra. rewrite Rlt_b_t by exact L. rewrite Rle_b_f by lra.
    assert (P : 0 < x / y). { replace (x / y) with (- x / - y) by (field; lra). apply Rdiv_lt_0_compat; lra. }
    replace (y / x) with (/ (x / y)) by (field; lra). rewrite atan_inv by exact P. lra.
  - rewrite !(Rlt_b_f 0 0) by lra. rewrite Rlt_b_f by lra. rewrite Rlt_b_t by exact H. replace (0 / y) with 0 by (field; lra). rewrite atan_0. lra.
  - rewrite Rlt_b_t by exact G. assert (P : 0 < x / - y) by (apply Rdiv_lt_0_compat; lra).
    replace (y / x) with (- (/ (x / - y))) by (field; lra). rewrite atan_opp, atan_inv by exact P. replace (x / - y) with (- (x / y)) by (field; lra). rewrite atan_opp. lra.
Qed.
Lemma atan2_xneg x : x < 0 -> atan2 0 x = PI.
Proof. intros H. unfold atan2. rewrite Rlt_b_f by lra. rewrite Rlt_b_t by exact H. rewrite Rle_b_t by lra. replace (0 / x) with 0 by (field; lra). rewrite atan_0. lra. Qed.
Lemma atan2_00 : atan2 0 0 = 0.
Proof. unfold atan2. rewrite !(Rlt_b_f 0 0) by lra. reflexivity. Qed.

Lemma atan2_range y x : - PI < atan2 y x <= PI.
Proof.
  pose proof PI_RGT_0. destruct (Rtotal_order y 0) as [L|[->|G]].
  - rewrite atan2_yneg by exact L. pose proof (atan_bound (x / y)). lra.
  - destruct (Rtotal_order x 0) as [L|[->|G]]; [rewrite atan2_xneg by exact L; lra|rewrite atan2_00; lra|rewrite atan2_xpos by exact G; replace (0 / x) with 0 by (field; lra); rewrite atan_0; lra].
  - rewrite atan2_ypos by exact G. pose proof (atan_bound (x / y)). lra.
Qed.
Lemma atan2_range_y y x : 0 <= y -> 0 <= atan2 y x <= PI.
Proof.
  intros H. pose proof PI_RGT_0. destruct H as [G| <-].
  - rewrite atan2_ypos by exact G. pose proof (atan_bound (x / y)). lra.
  - destruct (Rtotal_order x 0) as [L|[->|G]]; [rewrite atan2_xneg by exact L; lra|rewrite atan2_00; lra|rewrite atan2_xpos by exact G; replace (0 / x) with 0 by (field; lra); rewrite atan_0; lra].
Qed.
Lemma cos_atan_sq a : cos (atan a) = / sqrt (1 + a * a).
Proof. rewrite cos_atan. unfold Rsqr. unfold Rdiv. ring. Qed.
Lemma sqrt_scale y a : 0 < y -> sqrt (a * a + y * y) = y * sqrt (1 + (a / y) * (a / y)).
Proof.
  intros H. transitivity (sqrt (y * y) * sqrt (1 + (a / y) * (a / y))); [|rewrite sqrt_square by lra; reflexivity].
  rewrite <- sqrt_mult by nra. f_equal. field. lra.
Qed.
Lemma atan2_polar y x : sqrt (pow_2 x + pow_2 y) * cos (atan2 y x) = x /\ sqrt (pow_2 x + pow_2 y) * sin (atan2 y x) = y.
Proof.
  unfold pow_2. assert (Q : forall a, 0 < 1 + a * a) by (intros; nra).
  assert (SQ : forall a, sqrt (1 + a * a) <> 0). { intros a. pose proof (sqrt_lt_R0 _ (Q a)). lra. }
  destruct (Rtotal_order y 0) as [L|[->|G]].
  - rewrite atan2_yneg by exact L. replace (y * y) with (- y * - y) by ring. rewrite sqrt_scale by lra.
    replace (- (PI / 2) - atan (x / y)) with (atan (x / - y) - PI / 2) by (replace (x / - y) with (- (x / y)) by (field; lra); rewrite atan_opp; ring).
    rewrite cos_minus, sin_minus, cos_PI2, sin_PI2, sin_atan, cos_atan. unfold Rsqr. set (a := x / - y). assert (E : x = a * - y) by (unfold a; field; lra). specialize (SQ a). split; [rewrite <- E at 1 || (etransitivity; [|symmetry; exact E])|]; field; exact SQ.
  - destruct (Rtotal_order x 0) as [L|[->|G]].
    + rewrite atan2_xneg by exact L. rewrite cos_PI, sin_PI. replace (x * x + 0 * 0) with (- x * - x) by ring. rewrite sqrt_square by lra. lra.
    + rewrite atan2_00. replace (0 * 0 + 0 * 0) with 0 by ring. rewrite sqrt_0. lra.
    + rewrite atan2_xpos by exact G. replace (0 / x) with 0 by (field; lra). rewrite atan_0, cos_0, sin_0. replace (x * x + 0 * 0) with (x * x) by ring. rewrite sqrt_square by lra. lra.
  - rewrite atan2_ypos by exact G. rewrite sqrt_scale by lra.
    rewrite cos_minus, sin_minus, cos_PI2, sin_PI2, sin_atan, cos_atan. unfold Rsqr. set (a := x / y). assert (E : x = a * y) by (unfold a; field; lra). specialize (SQ a). split; [rewrite <- E at 1 || (etransitivity; [|symmetry; exact E])|]; field; exact SQ.
Qed.
Lemma angle_unique a b : - PI < a <= PI -> - PI < b <= PI -> cos a = cos b -> sin a = sin b -> a = b.
Proof.
  intros Ha Hb C S. pose proof PI_RGT_0.
  assert (D : cos (a - b) = 1). { rewrite cos_minus, C, S. pose proof (sin2_cos2 b) as E. unfold Rsqr in E. lra. }
  assert (D2 : sin ((a - b) / 2) = 0). { replace (a - b) with (2 * ((a - b) / 2)) in D by field. rewrite cos_2a_sin in D. assert (E : sin ((a - b) / 2) * sin ((a - b) / 2) = 0) by lra. apply Rmult_integral in E. tauto. }
  destruct (Rtotal_order (a - b) 0) as [L|[E|G]]; [|lra|].
  - exfalso. assert (0 < sin (- ((a - b) / 2))) by (apply sin_gt_0; lra). rewrite sin_neg in H0. lra.
  - exfalso. assert (0 < sin ((a - b) / 2)) by (apply sin_gt_0; lra). lra.
Qed.
Lemma sqrt_polar h phi : 0 <= h -> sqrt (pow_2 (h * cos phi) + pow_2 (h * sin phi)) = h.
Proof. intros H. replace (pow_2 (h * cos phi) + pow_2 (h * sin phi)) with (h * h * ((sin phi)² + (cos phi)²)) by (unfold pow_2, Rsqr; ring). rewrite sin2_cos2, Rmult_1_r. apply sqrt_square, H. Qed.
Lemma atan2_unique h phi : 0 < h -> - PI < phi <= PI -> atan2 (h * sin phi) (h * cos phi) = phi.
Proof.
  intros H R. destruct (atan2_polar (h * sin phi) (h * cos phi)) as [C S]. rewrite sqrt_polar in C, S by lra.
  apply angle_unique; [apply atan2_range|exact R| |]; apply Rmult_eq_reg_l with h; lra.
Qed.
Lemma atan2_scale k y x : 0 < k -> atan2 (k * y) (k * x) = atan2 y x.
Proof.
  intros H. destruct (Rtotal_order y 0) as [L|[->|G]].
  - rewrite !atan2_yneg by nra. f_equal. f_equal. field. lra.
  - rewrite Rmult_0_r. destruct (Rtotal_order x 0) as [L|[->|G]]; [rewrite !atan2_xneg by nra; reflexivity|rewrite Rmult_0_r; reflexivity|rewrite !atan2_xpos by nra; f_equal; field; nra].
  - rewrite !atan2_ypos by nra. f_equal. f_equal. field. lra.
Qed.

(** derivative along a curve, off the cut *)
Lemma locally_pos (f : R -> R) t : continuous f t -> 0 < f t -> locally t (fun s => 0 < f s).
Proof. intros C H. apply (C (fun y => 0 < y)). exists (mkposreal _ H). intros y B. unfold ball in B; cbn in B. unfold AbsRing_ball, abs, minus, plus, opp in B; cbn in B. apply Rabs_def2 in B. lra. Qed.
Lemma locally_pos_U {U : UniformSpace} (f : U -> R) t : continuous f t -> 0 < f t -> locally t (fun s => 0 < f s).
Proof. intros C H. apply (C (fun y => 0 < y)). exists (mkposreal _ H). intros y B. unfold ball in B; cbn in B. unfold AbsRing_ball, abs, minus, plus, opp in B; cbn in B. apply Rabs_def2 in B. lra. Qed.
Lemma locally_neg_U {U : UniformSpace} (f : U -> R) t : continuous f t -> f t < 0 -> locally t (fun s => f s < 0).
Proof. intros C H. assert (P : 0 < - f t) by lra. apply (C (fun y => y < 0)). exists (mkposreal _ P). intros y B. unfold ball in B; cbn in B. unfold AbsRing_ball, abs, minus, plus, opp in B; cbn in B. apply Rabs_def2 in B. lra. Qed.
Lemma atan2_derive (Y X : R -> R) (t y' x' : R) : 0 < X t \/ Y t <> 0 -> is_derive Y t y' -> is_derive X t x' ->
  is_derive (fun s => atan2 (Y s) (X s)) t ((X t * y' - Y t * x') / (X t * X t + Y t * Y t)).
Proof.
  intros H DY DX. assert (CY : continuous Y t) by (apply (ex_derive_continuous (V := R_NormedModule)); eexists; exact DY).
  assert (CX : continuous X t) by (apply (ex_derive_continuous (V := R_NormedModule)); eexists; exact DX).
  assert (EY : Derive (fun s : R => Y s) t = y') by (apply is_derive_unique; exact DY). assert (EX : Derive (fun s : R => X s) t = x') by (apply is_derive_unique; exact DX).
  assert (K : 0 < X t \/ 0 < Y t \/ Y t < 0). { destruct H as [H|H]; [tauto|]. destruct (Rtotal_order (Y t) 0) as [?|[?|?]]; [tauto|contradiction|tauto]. }
  destruct K as [K|[K|K]].
  - apply is_derive_ext_loc with (fun s => atan (Y s / X s)).
    + generalize (locally_pos_U X t CX K). apply filter_imp. intros s Hs. symmetry. apply atan2_xpos, Hs.
    + auto_derive; [repeat split; [eexists; exact DY|eexists; exact DX|lra]|]. rewrite EY, EX. field. nra.
  - apply is_derive_ext_loc with (fun s => PI / 2 - atan (X s / Y s)).
    + generalize (locally_pos_U Y t CY K). apply filter_imp. intros s Hs. symmetry. apply atan2_ypos, Hs.
    + auto_derive; [repeat split; [eexists; exact DX|eexists; exact DY|lra]|]. rewrite EY, EX. field. nra.
  - apply is_derive_ext_loc with (fun s => - (PI / 2) - atan (X s / Y s)).
    + generalize (locally_neg_U Y t CY K). apply filter_imp. intros s Hs. symmetry. apply atan2_yneg, Hs.
    + auto_derive; [repeat split; [eexists; exact DX|eexists; exact DY|lra]|]. rewrite EY, EX. field. nra.
Qed.
Lemma continuous_atan x : continuous atan x.
Proof. apply (ex_derive_continuous (V := R_NormedModule)). eexists. apply is_derive_atan. Qed.
Lemma continuous_div {U : UniformSpace} (f g : U -> R) t : continuous f t -> continuous g t -> g t <> 0 -> continuous (fun s => f s / g s) t.
Proof. intros F G N. apply (continuous_mult (K := R_AbsRing)); [exact F|]. apply continuous_comp; [exact G|]. apply continuous_Rinv, N. Qed.
Lemma atan2_continuous {U : UniformSpace} (Y X : U -> R) (t : U) : 0 < X t \/ Y t <> 0 -> continuous Y t -> continuous X t -> continuous (fun s => atan2 (Y s) (X s)) t.
Proof.
  intros H CY CX.
  assert (K : 0 < X t \/ 0 < Y t \/ Y t < 0). { destruct H as [H|H]; [tauto|]. destruct (Rtotal_order (Y t) 0) as [?|[?|?]]; [tauto|contradiction|tauto]. }
  destruct K as [K|[K|K]].
  - apply continuous_ext_loc with (fun s => atan (Y s / X s)).
    + generalize (locally_pos_U X t CX K). apply filter_imp. intros s Hs. symmetry. apply atan2_xpos, Hs.
    + apply continuous_comp; [apply continuous_div; [exact CY|exact CX|lra]|apply continuous_atan].
  - apply continuous_ext_loc with (fun s => PI / 2 - atan (X s / Y s)).
    + generalize (locally_pos_U Y t CY K). apply filter_imp. intros s Hs. symmetry. apply atan2_ypos, Hs.
    + apply (continuous_minus (V := R_NormedModule)); [apply continuous_const|]. apply continuous_comp; [apply continuous_div; [exact CX|exact CY|lra]|apply continuous_atan].
  - apply continuous_ext_loc with (fun s => - (PI / 2) - atan (X s / Y s)).
    + generalize (locally_neg_U Y t CY K). apply filter_imp. intros s Hs. symmetry. apply atan2_yneg, Hs.
    + apply (continuous_minus (V := R_NormedModule)); [apply continuous_const|]. apply continuous_comp; [apply continuous_div; [exact CX|exact CY|lra]|apply continuous_atan].
Qed.
