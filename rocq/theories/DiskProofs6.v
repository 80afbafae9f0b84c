(** Disk models: the total mass of a Sersic disk *)
From Coq Require Import Reals Lra Psatz Lia Bool ZArith List.
From Coquelicot Require Import Coquelicot.
From Verif Require Import RandReal RandRealProofs PolyModel PolyProofs CoordModel RootProofs AnalyticSpec DiskModel DiskSpec DiskProofs2.
Import ListNotations.
Local Open Scope R_scope.

Lemma prod_minus (x y : R) : filterlim (fun z : R * R => fst z - snd z) (filter_prod (locally x) (locally y)) (locally (x - y)).
Proof.
  assert (C : continuous (fun p : R * R => fst p - snd p) (x, y)) by (apply (continuous_minus (V := R_NormedModule) (fun p : R * R => fst p) (fun p => snd p)); [apply continuous_fst|apply continuous_snd]).
  intros Q HQ. specialize (C Q HQ). destruct C as (d & Hd). exists (ball x d) (ball y d); [apply locally_ball..|]. intros u v Hx Hy. apply Hd. split; assumption.
Qed.
Section Mass.
Variable P : diskParam.
Let S0 := surfaceDensity P. Let Rd := scaleRadius P. Let n := sersicIndex P.
Hypothesis V : valid P.
Hypothesis E0 : innerCutoffRadius P = 0.
Hypothesis E1 : modulationAmplitude P = 0.
Let VR : 0 < Rd. Proof. apply V. Qed.
Let Vn : 0 < n. Proof. apply V. Qed.
Let t (r : R) := Rpower (r / Rd) (1 / n).
Let k := PI * Rd ^ 2 * S0.
Lemma ms_sigma r : 0 < r -> Sigma P r = S0 * exp (- t r).
Proof. intros K. unfold Sigma. fold S0 Rd n. rewrite E0, E1. fold (t r). do 2 f_equal. field. lra. Qed.
Lemma ms_t r : is_derive t r (1 / n * (t r / r)) \/ r <= 0.
Proof. destruct (Rlt_le_dec 0 r) as [K|K]; [left|right; exact K]. apply (rpow_derive P V (1 / n) r K). Qed.
Lemma ms_td r : 0 < r -> is_derive t r (1 / n * (t r / r)).
Proof. intros K. apply (rpow_derive P V (1 / n) r K). Qed.
Lemma ms_tpos r : 0 < t r. Proof. apply exp_pos. Qed.
Lemma ms_t2n r : 0 < r -> Rpower (t r) (2 * n) = (r / Rd) ^ 2.
Proof.
  intros K. pose proof VR. pose proof Vn. unfold t. rewrite Rpower_mult. replace (1 / n * (2 * n)) with (INR 2) by (simpl; field; lra). apply Rpower_pow. apply Rdiv_lt_0_compat; lra.
Qed.
(** boundary term *)
Let B (r : R) := k * ((r / Rd) ^ 2 * exp (- t r)).
Let B1 (r : R) := k * (2 * r / Rd ^ 2 * exp (- t r) - (r / Rd) ^ 2 * exp (- t r) * (1 / n * (t r / r))).
Lemma ms_B r : 0 < r -> is_derive B r (B1 r).
Proof.
  intros K. pose proof VR. pose proof Vn. pose proof (ms_td r K) as D. assert (X : ex_derive (fun s => t s) r) by (eexists; exact D). assert (U : Derive (fun s => t s) r = 1 / n * (t r / r)) by (apply is_derive_unique; exact D).
  unfold B, B1. clearbody t k. auto_derive; [exact X|]. rewrite U. set (e := exp _). clearbody e. field. lra.
Qed.
Let gam (s : R) := Rpower s (2 * n) * exp (- s).
Lemma ms_sum r : 0 < r -> 2 * PI * r * Sigma P r = B1 r + k * ((1 / n * (t r / r)) * gam (t r)).
Proof.
  intros K. pose proof VR. pose proof Vn. rewrite (ms_sigma r K). unfold B1, gam. rewrite (ms_t2n r K). set (e := exp _). set (q := t r). unfold k. clearbody e q. field. lra.
Qed.
Lemma ms_cont_gam s : 0 < s -> continuous gam s.
Proof. intros K. apply (ex_derive_continuous (K := R_AbsRing) (V := R_NormedModule)). unfold gam, Rpower. auto_derive. exact K. Qed.
Lemma ms_cont_t r : 0 < r -> continuous t r.
Proof. intros K. apply (ex_derive_continuous (K := R_AbsRing) (V := R_NormedModule)). eexists. apply (ms_td r K). Qed.
Lemma ms_cont_t1 r : 0 < r -> continuous (fun r => 1 / n * (t r / r)) r.
Proof.
  intros K. pose proof VR. apply (ex_derive_continuous (K := R_AbsRing) (V := R_NormedModule)). unfold t, Rpower. auto_derive. split; [|split; [lra|exact Logic.I]]. apply Rmult_lt_0_compat; [exact K|apply Rinv_0_lt_compat; lra].
Qed.
Lemma ms_between a b x : 0 < a -> 0 < b -> Rmin a b <= x <= Rmax a b -> 0 < x.
Proof. intros A1 A2 (C & _). pose proof (Rmin_glb_lt a b 0 A1 A2). lra. Qed.
Lemma ms_int a b y : 0 < a -> 0 < b -> is_RInt gam (t a) (t b) y -> is_RInt (fun r => 2 * PI * r * Sigma P r) a b (B b - B a + k * y).
Proof.
  intros A1 A2 HY.
  assert (C1 : is_RInt B1 a b (B b - B a)).
  { apply (is_RInt_derive (V := R_CompleteNormedModule) B B1); intros x Hx; pose proof (ms_between a b x A1 A2 Hx) as X0.
    - apply ms_B, X0.
    - apply (ex_derive_continuous (K := R_AbsRing) (V := R_NormedModule)). pose proof VR. unfold B1, t, Rpower. clearbody k. auto_derive. repeat split; try lra; apply Rmult_lt_0_compat; try exact X0; apply Rinv_0_lt_compat; lra. }
  assert (C2 : is_RInt (fun r => 1 / n * (t r / r) * gam (t r)) a b y).
  { rewrite <- (is_RInt_unique _ _ _ _ HY). apply (is_RInt_comp gam t (fun r => 1 / n * (t r / r))).
    - intros x Hx. apply ms_cont_gam. apply ms_tpos.
    - intros x Hx. pose proof (ms_between a b x A1 A2 Hx) as X0. split; [apply ms_td, X0|apply ms_cont_t1, X0]. }
  apply (is_RInt_ext (fun r => B1 r + k * (1 / n * (t r / r) * gam (t r)))).
  - intros x Hx. symmetry. apply ms_sum. apply (ms_between a b x A1 A2). lra.
  - apply (is_RInt_plus B1 (fun r => k * (1 / n * (t r / r) * gam (t r)))); [exact C1|]. apply (is_RInt_scal (fun r => 1 / n * (t r / r) * gam (t r)) a b k y C2).
Qed.
(** limits *)
Lemma ms_t_inf : filterlim t (Rbar_locally p_infty) (Rbar_locally p_infty).
Proof.
  pose proof VR. pose proof Vn. intros Q (M & HM). set (M' := Rmax M 1). exists (Rd * Rpower M' n). intros x Hx. apply HM. assert (M1 : 1 <= M') by apply Rmax_r. assert (M2 : M <= M') by apply Rmax_l.
  cut (M' < t x); [lra|]. unfold t. replace M' with (Rpower (Rpower M' n) (1 / n)).
  2:{ rewrite Rpower_mult. replace (n * (1 / n)) with 1 by (field; lra). apply Rpower_1. lra. }
  apply Rlt_Rpower_l; [apply Rdiv_lt_0_compat; lra|]. split; [apply exp_pos|]. apply (Rmult_lt_reg_l Rd); [lra|]. replace (Rd * (x / Rd)) with x by (field; lra). exact Hx.
Qed.
Lemma ms_t_0 : filterlim t (at_right 0) (at_right 0).
Proof.
  pose proof VR. pose proof Vn. intros Q (e & HQ). set (e' := Rmin e 1). assert (P1 : 0 < e') by (apply Rmin_glb_lt; [apply cond_pos|lra]). assert (P2 : e' <= e) by apply Rmin_l.
  assert (PP : 0 < Rd * Rpower e' n) by (apply Rmult_lt_0_compat; [lra|apply exp_pos]).
  exists (mkposreal _ PP). intros x Hx X0. cbn in X0. assert (X1 : x < Rd * Rpower e' n). { unfold ball in Hx; cbn in Hx. unfold AbsRing_ball, abs, minus, plus, opp in Hx; cbn in Hx. apply Rabs_def2 in Hx. lra. }
  assert (T0 : 0 < t x) by apply ms_tpos. apply HQ; [|exact T0]. unfold ball; cbn. unfold AbsRing_ball, abs, minus, plus, opp; cbn. rewrite Ropp_0, Rplus_0_r, Rabs_right by lra.
  cut (t x < e'); [lra|]. unfold t. replace e' with (Rpower (Rpower e' n) (1 / n)).
  2:{ rewrite Rpower_mult. replace (n * (1 / n)) with 1 by (field; lra). apply Rpower_1. lra. }
  apply Rlt_Rpower_l; [apply Rdiv_lt_0_compat; lra|]. split; [apply Rdiv_lt_0_compat; lra|]. apply (Rmult_lt_reg_l Rd); [lra|]. assert (QQ : Rd * (x / Rd) = x) by (field; lra). rewrite QQ. exact X1.
Qed.
Lemma gam_inf : filterlim gam (Rbar_locally p_infty) (locally 0).
Proof.
  pose proof Vn. change (is_lim gam p_infty 0). apply (is_lim_ext_loc (fun s => exp (s * (2 * n * (ln s / s) - 1)))).
  { exists 0. intros s Hs. unfold gam, Rpower. rewrite <- exp_plus. f_equal. field. lra. }
  apply (is_lim_comp exp _ p_infty 0 m_infty); [apply is_lim_exp_m| |exists 0; intros; discriminate].
  replace m_infty with (Rbar_mult p_infty (Finite (2 * n * 0 - 1))).
  2:{ rewrite Rmult_0_r. cbn. destruct (Rle_dec 0 (0 - 1)) as [U|U]; [exfalso; clear - U; lra|reflexivity]. }
  apply is_lim_mult; [apply is_lim_id| |rewrite Rmult_0_r; cbn; clear; lra]. apply is_lim_minus'; [|apply is_lim_const]. apply (is_lim_scal_l (fun s => ln s / s) (2 * n) p_infty 0). apply is_lim_div_ln_p.
Qed.
Lemma ms_B_inf : filterlim B (Rbar_locally p_infty) (locally 0).
Proof.
  apply (filterlim_ext_loc (fun r => k * gam (t r))).
  { exists 0. intros r K. unfold B, gam. rewrite (ms_t2n r K). reflexivity. }
  assert (L : filterlim (fun r => gam (t r)) (Rbar_locally p_infty) (locally 0)) by (eapply filterlim_comp; [apply ms_t_inf|apply gam_inf]).
  replace (locally 0) with (Rbar_locally (Rbar_mult k 0)) by (cbn; rewrite Rmult_0_r; reflexivity). apply (is_lim_scal_l (fun r => gam (t r)) k p_infty 0). exact L.
Qed.
Lemma ms_B_0 : filterlim B (at_right 0) (locally 0).
Proof.
  pose proof VR. intros Q (e & HQ). pose proof (Rabs_pos k) as K0. set (m := Rabs k + 1).
  assert (PP : 0 < Rmin Rd (Rd * (Rmin 1 (e / m)))).
  { assert (0 < e / m) by (apply Rdiv_lt_0_compat; [apply cond_pos|unfold m; lra]). apply Rmin_glb_lt; [lra|]. apply Rmult_lt_0_compat; [lra|]. apply Rmin_glb_lt; lra. }
  exists (mkposreal _ PP). intros x Hx X0. cbn in X0. assert (X1 : x < Rmin Rd (Rd * (Rmin 1 (e / m)))). { unfold ball in Hx; cbn in Hx. unfold AbsRing_ball, abs, minus, plus, opp in Hx; cbn in Hx. apply Rabs_def2 in Hx. lra. }
  apply HQ. unfold ball; cbn. unfold AbsRing_ball, abs, minus, plus, opp; cbn. rewrite Ropp_0, Rplus_0_r. unfold B. rewrite Rabs_mult.
  pose proof (Rmin_l Rd (Rd * (Rmin 1 (e / m)))). pose proof (Rmin_r Rd (Rd * (Rmin 1 (e / m)))). pose proof (Rmin_r 1 (e / m)). set (y := x / Rd).
  assert (YR : Rd * y = x) by (unfold y; field; lra).
  assert (Y : 0 < y < Rmin 1 (e / m)).
  { split; [unfold y; apply Rdiv_lt_0_compat; lra|]. apply (Rmult_lt_reg_l Rd); [lra|]. rewrite YR. lra. }
  assert (Y1 : y < 1) by (pose proof (Rmin_l 1 (e / m)); lra). pose proof (exp_pos (- t x)) as EP. assert (EL : exp (- t x) <= 1) by (rewrite <- exp_0; left; apply exp_increasing; pose proof (ms_tpos x); lra).
  set (ex := exp (- t x)) in *. assert (Q0 : 0 <= y ^ 2 * ex) by (apply Rmult_le_pos; [apply pow2_ge_0|lra]). rewrite (Rabs_right (y ^ 2 * ex)) by lra.
  assert (Q1 : y ^ 2 * ex <= y) by (clear - Y Y1 EP EL; destruct Y as (Y & _); assert (y ^ 2 <= y) by nra; assert (0 <= y ^ 2) by nra; nra).
  assert (m * y < e). { replace (pos e) with (m * (e / m)) by (field; unfold m; lra). apply Rmult_lt_compat_l; [unfold m; lra|lra]. }
  assert (Q2 : Rabs k * (y ^ 2 * ex) <= Rabs k * y) by (apply Rmult_le_compat_l; assumption). assert (Q3 : m * y = Rabs k * y + y) by (unfold m; ring). destruct Y as (Y & _). lra.
Qed.
Lemma ms_total G : is_RInt_gen gam (at_right 0) (Rbar_locally p_infty) G -> is_RInt_gen (fun r => 2 * PI * r * Sigma P r) (at_right 0) (Rbar_locally p_infty) (k * G).
Proof.
  intros HG Q HQ.
  assert (LC : filterlim (fun p : R * R => fst p + k * snd p) (filter_prod (locally 0) (locally G)) (locally (0 + k * G))).
  { assert (C : continuous (fun p : R * R => fst p + k * snd p) (0, G)).
    { apply (continuous_plus (V := R_NormedModule) (fun p : R * R => fst p) (fun p => k * snd p)); [apply continuous_fst|]. apply (continuous_scal_r (V := R_NormedModule) k (fun p : R * R => snd p)). apply continuous_snd. }
    intros S HS. specialize (C S HS). destruct C as (d & Hd). exists (ball 0 d) (ball G d); [apply locally_ball..|]. intros x y Hx Hy. apply Hd. split; assumption. }
  rewrite Rplus_0_l in LC. specialize (LC Q HQ). destruct LC as [U1 U2 HU1 HU2 HU].
  specialize (HG U2 HU2). destruct HG as [A1 A2 HA1 HA2 HA].
  assert (LB : filterlim (fun p : R * R => B (snd p) - B (fst p)) (filter_prod (at_right 0) (Rbar_locally p_infty)) (locally 0)).
  { replace 0 with (0 - 0) at 2 by ring. eapply (filterlim_comp_2 (F := filter_prod (at_right 0) (Rbar_locally p_infty)) (G := locally 0) (H := locally 0)); [eapply filterlim_comp; [apply filterlim_snd|apply ms_B_inf]|eapply filterlim_comp; [apply filterlim_fst|apply ms_B_0]|].
    apply (prod_minus 0 0). }
  specialize (LB U1 HU1). destruct LB as [D1 D2 HD1 HD2 HD].
  exists (fun a => 0 < a /\ A1 (t a) /\ D1 a) (fun b => 0 < b /\ A2 (t b) /\ D2 b).
  - repeat apply filter_and; [exists (mkposreal 1 Rlt_0_1); intros y _ Hy; exact Hy|apply ms_t_0, HA1|exact HD1].
  - repeat apply filter_and; [exists 0; intros y Hy; exact Hy|apply ms_t_inf, HA2|exact HD2].
  - intros a b (P1 & P2 & P3) (P4 & P5 & P6). destruct (HA _ _ P2 P5) as (y & Y1 & Y2). cbn [fst snd] in *. exists (B b - B a + k * y). split; [apply ms_int; assumption|]. apply (HU (B b - B a) y); [apply (HD a b); assumption|exact Y2].
Qed.
End Mass.
(** gamma(3) = 2 *)
Lemma gamma_3 : is_RInt_gen (fun s => Rpower s (2 * 1) * exp (- s)) (at_right 0) (Rbar_locally p_infty) 2.
Proof.
  set (A := fun s => - (s ^ 2 + 2 * s + 2) * exp (- s)).
  assert (L0 : filterlim A (at_right 0) (locally (-2))).
  { assert (C : continuous A 0) by (apply (ex_derive_continuous (K := R_AbsRing) (V := R_NormedModule)); unfold A; auto_derive; exact Logic.I). replace (-2) with (A 0) by (unfold A; rewrite Ropp_0, exp_0; ring). eapply filterlim_filter_le_1; [|exact C]. intros S (d & HS). exists d. intros y Hy _. apply HS, Hy. }
  assert (L1 : filterlim A (Rbar_locally p_infty) (locally 0)).
  { change (is_lim A p_infty 0). unfold A.
    assert (E : forall j, is_lim (fun s => s ^ j * exp (- s)) p_infty 0).
    { intros j. apply (is_lim_ext_loc (fun s => exp (s * (INR j * (ln s / s) - 1)))).
      { exists 0. intros s Hs. rewrite <- (Rpower_pow j s Hs). unfold Rpower. rewrite <- exp_plus. f_equal. field. lra. }
      apply (is_lim_comp exp _ p_infty 0 m_infty); [apply is_lim_exp_m| |exists 0; intros; discriminate].
      replace m_infty with (Rbar_mult p_infty (Finite (INR j * 0 - 1))).
      2:{ rewrite Rmult_0_r. cbn. destruct (Rle_dec 0 (0 - 1)) as [U|U]; [exfalso; clear - U; lra|reflexivity]. }
      apply is_lim_mult; [apply is_lim_id| |rewrite Rmult_0_r; cbn; clear; lra]. apply is_lim_minus'; [|apply is_lim_const]. apply (is_lim_scal_l (fun s => ln s / s) (INR j) p_infty 0). apply is_lim_div_ln_p. }
    apply (is_lim_ext (fun s => - (s ^ 2 * exp (- s)) - 2 * (s ^ 1 * exp (- s)) - 2 * (s ^ 0 * exp (- s)))); [intros s; ring|].
    replace (Finite 0) with (Finite (- 0 - 2 * 0 - 2 * 0)) by (f_equal; ring).
    apply is_lim_minus'; [apply is_lim_minus'|].
    - apply (is_lim_opp (fun s => s ^ 2 * exp (- s)) p_infty 0). apply E.
    - apply (is_lim_scal_l (fun s => s ^ 1 * exp (- s)) 2 p_infty 0). apply E.
    - apply (is_lim_scal_l (fun s => s ^ 0 * exp (- s)) 2 p_infty 0). apply E. }
  assert (INT : forall a b, 0 < a -> 0 < b -> is_RInt (fun s => Rpower s (2 * 1) * exp (- s)) a b (A b - A a)).
  { intros a b A1 A2. apply (is_RInt_ext (fun s => s ^ 2 * exp (- s))).
    - intros x Hx. assert (0 < x) by (apply (ms_between a b x A1 A2); lra). replace (2 * 1) with (INR 2) by (simpl; ring). rewrite Rpower_pow by assumption. reflexivity.
    - apply (is_RInt_derive (V := R_CompleteNormedModule) A (fun s => s ^ 2 * exp (- s))); intros x _; [unfold A; auto_derive; [exact Logic.I|ring]|].
      apply (ex_derive_continuous (K := R_AbsRing) (V := R_NormedModule)). auto_derive. exact Logic.I. }
  intros Q HQ.
  assert (LB : filterlim (fun p : R * R => A (snd p) - A (fst p)) (filter_prod (at_right 0) (Rbar_locally p_infty)) (locally 2)).
  { replace 2 with (0 - -2) by ring. eapply (filterlim_comp_2 (F := filter_prod (at_right 0) (Rbar_locally p_infty)) (G := locally 0) (H := locally (-2))); [eapply filterlim_comp; [apply filterlim_snd|exact L1]|eapply filterlim_comp; [apply filterlim_fst|exact L0]|].
    apply (prod_minus 0 (-2)). }
  specialize (LB Q HQ). destruct LB as [D1 D2 HD1 HD2 HD].
  exists (fun a => 0 < a /\ D1 a) (fun b => 0 < b /\ D2 b).
  - apply filter_and; [exists (mkposreal 1 Rlt_0_1); intros y _ Hy; exact Hy|exact HD1].
  - apply filter_and; [exists 0; intros y Hy; exact Hy|exact HD2].
  - intros a b (P1 & P3) (P4 & P6). cbn [fst snd]. exists (A b - A a). split; [apply INT; assumption|apply (HD a b); assumption].
Qed.
