(** The Kepler orbit of a binary *)
From Coq Require Import Reals Lra Psatz Lia Bool ZArith List.
From Coquelicot Require Import Coquelicot.
From Verif Require Import RandReal RandRealProofs PolyModel PolyProofs Base RootProofs CoordModel CoordSpec CoordSph PotModel AnalyticProofs2 KeplerModel KeplerSpec KeplerProofs.
Import ListNotations.
Local Open Scope R_scope.

Lemma cos_turns x (k : Z) : cos (x - 2 * PI * IZR k) = cos x /\ sin (x - 2 * PI * IZR k) = sin x.
Proof.
  assert (N : forall n x, cos (x + 2 * INR n * PI) = cos x /\ sin (x + 2 * INR n * PI) = sin x) by (intros n y; split; [apply cos_period|apply sin_period]).
  destruct (Z_le_gt_dec 0 k) as [H|H].
  - destruct (N (Z.to_nat k) (x - 2 * PI * IZR k)) as (A & B). rewrite INR_IZR_INZ, Z2Nat.id in A, B by lia. replace (x - 2 * PI * IZR k + 2 * IZR k * PI) with x in A, B by ring. split; symmetry; assumption.
  - destruct (N (Z.to_nat (- k)) x) as (A & B). rewrite INR_IZR_INZ, Z2Nat.id, opp_IZR in A, B by lia. replace (x + 2 * - IZR k * PI) with (x - 2 * PI * IZR k) in A, B by ring. split; assumption.
Qed.
Lemma is_derive_eq0 (f : R -> R) (x a b : R) : is_derive f x a -> a = b -> is_derive f x b. Proof. intros H <-. exact H. Qed.
Section Inv.
Variables (e : R) (h : R -> R).
Hypothesis He : 0 <= e < 1.
Hypothesis Hh : forall M, kepler_eq e M (h M).
Lemma h_lip a b : Rabs (h a - h b) <= Rabs (a - b) / (1 - e).
Proof.
  pose proof (kF_expand e He (h a) (h b)) as K. cbv beta in K. unfold kepler_eq in Hh. rewrite !Hh in K.
  apply Rmult_le_reg_l with (1 - e); [lra|]. replace ((1 - e) * (Rabs (a - b) / (1 - e))) with (Rabs (a - b)) by (field; lra). exact K.
Qed.
Lemma h_cont a : continuous h a.
Proof.
  intros P [eps HP]. assert (D0 : 0 < eps * (1 - e)) by (apply Rmult_lt_0_compat; [apply cond_pos|lra]). exists (mkposreal _ D0). intros y By. apply HP.
  unfold ball in *; cbn in *. unfold AbsRing_ball, abs, minus, plus, opp in *; cbn in *. pose proof (h_lip y a) as L. unfold Rminus in L.
  eapply Rle_lt_trans; [exact L|]. apply Rmult_lt_reg_r with (1 - e); [lra|]. replace (Rabs (y + - a) / (1 + - e) * (1 - e)) with (Rabs (y + - a)) by (field; lra). exact By.
Qed.
Lemma h_derive a : is_derive h a (/ (1 - e * cos (h a))).
Proof.
  set (x0 := h a). set (F := fun x => x - e * sin x). set (F1 := fun u => F (x0 + u) - F x0). set (d := 1 - e * cos x0).
  assert (dP : 0 < d) by (pose proof (kF_slope e He x0); unfold d; lra).
  assert (D1 : is_derive F1 0 d) by (unfold F1, F; auto_derive; [trivial|]; rewrite Rplus_0_r; unfold d; ring).
  assert (Z1 : F1 0 = 0) by (unfold F1; rewrite Rplus_0_r; ring).
  set (Q := fun r => if Req_b r 0 then d else F1 r / r). pose proof (quot_cont F1 d Z1 D1) as CQ. fold Q in CQ.
  assert (Q0 : Q 0 = d) by (unfold Q; rewrite Req_b_t; reflexivity).
  assert (QF : forall u, Q u * u = F1 u). { intros u. unfold Q. destruct (Req_EM_T u 0) as [->|N]; [rewrite Req_b_t by reflexivity; rewrite Z1; ring|rewrite Req_b_f by exact N; field; exact N]. }
  assert (QP : forall u, Q u <> 0).
  { intros u K. destruct (Req_EM_T u 0) as [->|N]; [rewrite Q0 in K; lra|]. pose proof (QF u) as E. rewrite K, Rmult_0_l in E. apply N. unfold F1 in E.
    assert (x0 + u = x0); [|lra]. apply (kF_inj e He). unfold F in E. lra. }
  assert (HF : forall s, s - a = F1 (h s - x0)). { intros s. unfold F1, F. replace (x0 + (h s - x0)) with (h s) by ring. pose proof (Hh s) as A. pose proof (Hh a) as B. unfold kepler_eq in A, B. unfold x0. lra. }
  assert (CC : continuous (fun s => / Q (h s - x0)) a).
  { apply cont_inv'; [|apply QP]. apply (continuous_comp (fun s => h s - x0) Q).
    - apply (continuous_minus h (fun _ => x0)); [apply h_cont|apply continuous_const].
    - replace (h a - x0) with 0 by (unfold x0; ring). exact CQ. }
  assert (DD : is_derive (fun s : R => s - a) a 1) by (auto_derive; [trivial|ring]).
  pose proof (derive_times_cont (fun s => / Q (h s - x0)) (fun s => s - a) a 1 CC DD (Rminus_diag_eq a a eq_refl)) as K. cbv beta in K.
  apply is_derive_ext with (fun s => / Q (h s - x0) * (s - a) + x0).
  - intros s. rewrite HF, <- QF. transitivity (h s); [|reflexivity]. assert (N := QP (h s - x0)). change (@eq R (/ Q (h s - x0) * (Q (h s - x0) * (h s - x0)) + x0) (h s)). field. exact N.
  - replace (/ d) with (/ Q (h a - x0) * 1 + 0) by (replace (h a - x0) with 0 by (unfold x0; ring); rewrite Q0; ring).
    apply (is_derive_plus (fun s => / Q (h s - x0) * (s - a)) (fun _ => x0) a (/ Q (h a - x0) * 1) 0); [exact K|apply is_derive_Reals, derivable_pt_lim_const].
Qed.
End Inv.
Lemma exact_exists : { kep | exact_solver kep }.
Proof.
  exists (fun e M => match Rle_dec 0 e with left A => match Rlt_dec e 1 with left B => proj1_sig (kF_root e (conj A B) M) | right _ => 0 end | right _ => 0 end).
  intros e M (A & B). destruct (Rle_dec 0 e) as [A'|]; [|lra]. destruct (Rlt_dec e 1) as [B'|]; [|lra]. exists 0%Z. destruct (kF_root e (conj A' B') M) as (x & Hx). cbn. unfold kepler_eq. rewrite Hx. ring.
Qed.
Lemma exact_trig kep e : exact_solver kep -> 0 <= e < 1 -> exists h, (forall M, kepler_eq e M (h M)) /\ forall M, cos (kep e M) = cos (h M) /\ sin (kep e M) = sin (h M).
Proof.
  intros X He. exists (fun M => proj1_sig (kF_root e He M)). split.
  - intros M. destruct (kF_root e He M) as (x & Hx). exact Hx.
  - intros M. destruct (kF_root e He M) as (x & Hx). cbn. destruct (X e M He) as (k & Hk). unfold kepler_eq in Hk. destruct (cos_turns x k) as (A & B).
    replace (kep e M) with (x - 2 * PI * IZR k); [split; assumption|]. apply (kF_inj e He). rewrite B. rewrite Hk. lra.
Qed.

Section Orb.
Variables (kep : R -> R -> R) (b : binary).
Hypothesis (X : exact_solver kep) (Hm : 0 < b_mass b) (Hq : 0 <= b_q b) (Ha : 0 < b_sma b) (He : 0 <= b_ecc b < 1).
Let om := sqrt (b_mass b / pow_3 (b_sma b)).
Lemma om_pos : 0 < om. Proof. apply sqrt_lt_R0. apply Rdiv_lt_0_compat; [exact Hm|]. unfold pow_3. repeat apply Rmult_lt_0_compat; exact Ha. Qed.
Lemma om_sq : om * om * (b_sma b * b_sma b * b_sma b) = b_mass b.
Proof. unfold om. rewrite sqrt_sqrt; [unfold pow_3; field; lra|]. apply Rlt_le, Rdiv_lt_0_compat; [exact Hm|]. unfold pow_3. repeat apply Rmult_lt_0_compat; exact Ha. Qed.
Lemma ell_sq : sqrt (1 - b_ecc b * b_ecc b) * sqrt (1 - b_ecc b * b_ecc b) = 1 - b_ecc b * b_ecc b. Proof. apply sqrt_sqrt. nra. Qed.
Lemma orbit_form : exists eta : R -> R, (forall t, is_derive eta t (om / (1 - b_ecc b * cos (eta t)))) /\
  (forall t, kepler_eq (b_ecc b) (om * t + b_phase b) (eta t)) /\
  let A := - b_sma b / (1 + b_q b) in let l := sqrt (1 - b_ecc b * b_ecc b) in
  forall t, keplerOrbit kep b t =
    let w := om / (1 - b_ecc b * cos (eta t)) in
    ((- b_q b * ((cos (eta t) - b_ecc b) * A), - b_q b * (sin (eta t) * A * l)), (- b_q b * (- w * A * sin (eta t)), - b_q b * (w * A * cos (eta t) * l)),
     (((cos (eta t) - b_ecc b) * A, sin (eta t) * A * l), (- w * A * sin (eta t), w * A * cos (eta t) * l))).
Proof.
  destruct (exact_trig kep _ X He) as (h & Hh & T). exists (fun t => h (om * t + b_phase b)). split; [|split].
  - intros t. pose proof (h_derive _ h He Hh (om * t + b_phase b)) as D. set (d := / (1 - b_ecc b * cos (h (om * t + b_phase b)))) in *.
    assert (L : is_derive (fun t : R => om * t + b_phase b) t om) by (auto_derive; [trivial|ring]).
    pose proof (is_derive_comp h (fun t => om * t + b_phase b) t d om D L) as K. unfold scal in K; cbn in K. unfold mult in K; cbn in K. exact K.
  - intros t. apply Hh.
  - intros A l t. unfold keplerOrbit. rewrite Req_b_f by lra. cbn [negb]. cbv zeta. fold om. destruct (T (om * t + b_phase b)) as (TC & TS). rewrite TC, TS. reflexivity.
Qed.
Lemma mass_forms : Mbh b 0 = b_mass b / (1 + b_q b) /\ Mbh b 1 = b_mass b * b_q b / (1 + b_q b).
Proof.
  split; [|reflexivity]. unfold Mbh, numbh. rewrite Req_b_f by lra. cbn [negb andb]. destruct (Req_EM_T (b_q b) 0) as [E|E].
  - rewrite Req_b_t by exact E. cbn. rewrite E. field.
  - rewrite Req_b_f by exact E. cbn. reflexivity.
Qed.
Lemma sep_form c s l : l * l = 1 - b_ecc b * b_ecc b -> s * s + c * c = 1 -> 0 < 1 - b_ecc b * c ->
  forall A, sqrt ((- b_q b * ((c - b_ecc b) * A) - (c - b_ecc b) * A) ^ 2 + (- b_q b * (s * A * l) - s * A * l) ^ 2) = (1 + b_q b) * Rabs A * (1 - b_ecc b * c).
Proof.
  intros L S2 P A. replace ((- b_q b * ((c - b_ecc b) * A) - (c - b_ecc b) * A) ^ 2 + (- b_q b * (s * A * l) - s * A * l) ^ 2) with (Rsqr ((1 + b_q b) * Rabs A * (1 - b_ecc b * c))).
  - apply sqrt_Rsqr. apply Rmult_le_pos; [|lra]. apply Rmult_le_pos; [lra|apply Rabs_pos].
  - rewrite !Rsqr_mult, <- Rsqr_abs. unfold Rsqr. replace ((- b_q b * ((c - b_ecc b) * A) - (c - b_ecc b) * A) ^ 2 + (- b_q b * (s * A * l) - s * A * l) ^ 2) with ((1 + b_q b) * (1 + b_q b) * (A * A) * ((c - b_ecc b) ^ 2 + (s * s) * (l * l))) by ring.
    rewrite L. replace (s * s) with (1 - c * c) by lra. ring.
Qed.
Lemma sep_val t eta : keplerOrbit kep b t = (let A := - b_sma b / (1 + b_q b) in let l := sqrt (1 - b_ecc b * b_ecc b) in let w := om / (1 - b_ecc b * cos eta) in
    ((- b_q b * ((cos eta - b_ecc b) * A), - b_q b * (sin eta * A * l)), (- b_q b * (- w * A * sin eta), - b_q b * (w * A * cos eta * l)),
     (((cos eta - b_ecc b) * A, sin eta * A * l), (- w * A * sin eta, w * A * cos eta * l)))) ->
  dist2 (bhPos kep b 0 t) (bhPos kep b 1 t) = b_sma b * (1 - b_ecc b * cos eta).
Proof.
  intros E. unfold bhPos. rewrite E. cbn [fst snd]. unfold dist2. cbn [fst snd]. pose proof (sin2_cos2 eta) as S2. unfold Rsqr in S2. pose proof (kF_slope _ He eta).
  rewrite (sep_form (cos eta) (sin eta) _ ell_sq S2) by lra. replace (- b_sma b / (1 + b_q b)) with (- (b_sma b / (1 + b_q b))) by (field; lra). rewrite Rabs_Ropp, Rabs_pos_eq by (apply Rlt_le, Rdiv_lt_0_compat; lra). field. lra.
Qed.
Lemma orbit_two_body : two_body (Mbh b 0) (Mbh b 1) (bhPos kep b 0) (bhPos kep b 1) (bhVel kep b 0) (bhVel kep b 1).
Proof.
  destruct orbit_form as (eta & D & KE & E). cbv zeta in E. intros t. destruct mass_forms as (M0 & M1). rewrite M0, M1.
  pose proof (sep_val t (eta t) (E t)) as SV.
  assert (SV' : dist2 (bhPos kep b 1 t) (bhPos kep b 0 t) = b_sma b * (1 - b_ecc b * cos (eta t))) by (rewrite <- SV; unfold dist2; f_equal; ring).
  unfold moves, attraction. rewrite SV, SV'. pose proof (kF_slope _ He (eta t)) as SL. set (g := 1 - b_ecc b * cos (eta t)) in *. pose proof om_sq as OS. pose proof ell_sq as L2.
  set (l := sqrt (1 - b_ecc b * b_ecc b)) in *. pose proof om_pos as OP. clearbody om.
  assert (W : forall (f : R -> R) u d', (forall s, f s = u (eta s)) -> is_derive u (eta t) d' -> is_derive f t (om / g * d')).
  { intros f u d' Ef Du. apply is_derive_ext with (fun s => u (eta s)); [intros s; symmetry; apply Ef|]. pose proof (is_derive_comp u eta t d' _ Du (D t)) as K. unfold scal in K; cbn in K. unfold mult in K; cbn in K. exact K. }
  assert (gn : g <> 0) by lra. assert (mm : b_mass b = om * om * (b_sma b * b_sma b * b_sma b)) by lra. unfold bhPos, bhVel.
  pose proof (sin2_cos2 (eta t)) as S2. unfold Rsqr in S2. assert (S2' : sin (eta t) * sin (eta t) = 1 - cos (eta t) * cos (eta t)) by lra. assert (ec : b_ecc b * cos (eta t) = 1 - g) by (unfold g; ring).
  refine (conj (conj _ (conj _ (conj _ _))) (conj _ (conj _ (conj _ _)))).
  all: eapply is_derive_ext; [intros s; rewrite E; cbn [fst snd]; reflexivity|]; rewrite !E; cbn [fst snd]; fold g.
  all: set (A := - b_sma b / (1 + b_q b)).
  - eapply is_derive_eq0; [apply (W _ (fun x => - b_q b * ((cos x - b_ecc b) * A))); [reflexivity|auto_derive; [trivial|reflexivity]]|]. field. exact gn.
  - eapply is_derive_eq0; [apply (W _ (fun x => - b_q b * (sin x * A * l))); [reflexivity|auto_derive; [trivial|reflexivity]]|]. field. exact gn.
  - eapply is_derive_eq0; [apply (W _ (fun x => - b_q b * (- (om / (1 - b_ecc b * cos x)) * A * sin x))); [reflexivity|auto_derive; [|reflexivity]; fold g; change (1 + - (b_ecc b * cos (eta t))) with g; auto]|]. change (1 + - (b_ecc b * cos (eta t))) with g. unfold A. rewrite mm. clearbody l g. set (c := cos (eta t)) in *. set (sn := sin (eta t)) in *. clearbody c sn. field_simplify_eq; [|repeat split; lra]. replace g with (1 - b_ecc b * c) by lra. assert (S3 : sn ^ 2 = 1 - c * c) by lra. ring [S2' S3].
  - eapply is_derive_eq0; [apply (W _ (fun x => - b_q b * (om / (1 - b_ecc b * cos x) * A * cos x * l))); [reflexivity|auto_derive; [|reflexivity]; fold g; change (1 + - (b_ecc b * cos (eta t))) with g; auto]|]. change (1 + - (b_ecc b * cos (eta t))) with g. unfold A. rewrite mm. clearbody l g. set (c := cos (eta t)) in *. set (sn := sin (eta t)) in *. clearbody c sn. field_simplify_eq; [|repeat split; lra]. replace g with (1 - b_ecc b * c) by lra. assert (S3 : sn ^ 2 = 1 - c * c) by lra. ring [S2' S3].
  - eapply is_derive_eq0; [apply (W _ (fun x => (cos x - b_ecc b) * A)); [reflexivity|auto_derive; [trivial|reflexivity]]|]. field. exact gn.
  - eapply is_derive_eq0; [apply (W _ (fun x => sin x * A * l)); [reflexivity|auto_derive; [trivial|reflexivity]]|]. field. exact gn.
  - eapply is_derive_eq0; [apply (W _ (fun x => - (om / (1 - b_ecc b * cos x)) * A * sin x)); [reflexivity|auto_derive; [|reflexivity]; fold g; change (1 + - (b_ecc b * cos (eta t))) with g; auto]|]. change (1 + - (b_ecc b * cos (eta t))) with g. unfold A. rewrite mm. clearbody l g. set (c := cos (eta t)) in *. set (sn := sin (eta t)) in *. clearbody c sn. field_simplify_eq; [|repeat split; lra]. replace g with (1 - b_ecc b * c) by lra. assert (S3 : sn ^ 2 = 1 - c * c) by lra. ring [S2' S3].
  - eapply is_derive_eq0; [apply (W _ (fun x => om / (1 - b_ecc b * cos x) * A * cos x * l)); [reflexivity|auto_derive; [|reflexivity]; fold g; change (1 + - (b_ecc b * cos (eta t))) with g; auto]|]. change (1 + - (b_ecc b * cos (eta t))) with g. unfold A. rewrite mm. clearbody l g. set (c := cos (eta t)) in *. set (sn := sin (eta t)) in *. clearbody c sn. field_simplify_eq; [|repeat split; lra]. replace g with (1 - b_ecc b * c) by lra. assert (S3 : sn ^ 2 = 1 - c * c) by lra. ring [S2' S3].
Qed.
(** centre of mass, separation, period, pericentre *)
Lemma orbit_com t : Mbh b 0 * fst (bhPos kep b 0 t) + Mbh b 1 * fst (bhPos kep b 1 t) = 0 /\ Mbh b 0 * snd (bhPos kep b 0 t) + Mbh b 1 * snd (bhPos kep b 1 t) = 0 /\
  Mbh b 0 * fst (bhVel kep b 0 t) + Mbh b 1 * fst (bhVel kep b 1 t) = 0 /\ Mbh b 0 * snd (bhVel kep b 0 t) + Mbh b 1 * snd (bhVel kep b 1 t) = 0.
Proof.
  destruct orbit_form as (eta & D & KE & E). cbv zeta in E. destruct mass_forms as (M0 & M1). rewrite M0, M1. unfold bhPos, bhVel. rewrite E. cbn [fst snd]. pose proof (kF_slope _ He (eta t)). repeat split; field; lra.
Qed.
Lemma orbit_sep t : b_sma b * (1 - b_ecc b) <= dist2 (bhPos kep b 0 t) (bhPos kep b 1 t) <= b_sma b * (1 + b_ecc b).
Proof.
  destruct orbit_form as (eta & D & KE & E). rewrite (sep_val t (eta t) (E t)). pose proof (kF_slope _ He (eta t)). split; apply Rmult_le_compat_l; lra.
Qed.
(** at the time when the mean anomaly is zero, the second body is on the negative x axis at the pericentre *)
Lemma orbit_peri t : om * t + b_phase b = 0 -> bhPos kep b 1 t = (- b_sma b * (1 - b_ecc b) / (1 + b_q b), 0) /\ bhPos kep b 0 t = (b_q b * b_sma b * (1 - b_ecc b) / (1 + b_q b), 0).
Proof.
  intros P. destruct orbit_form as (eta & D & KE & E). cbv zeta in E. pose proof (KE t) as K. rewrite P in K. assert (Z0 : eta t = 0). { apply (kF_inj _ He). unfold kepler_eq in K. rewrite K, sin_0. ring. }
  unfold bhPos. rewrite E, Z0, cos_0, sin_0. cbn [fst snd]. split; apply f_equal2; field; lra.
Qed.
Lemma orbit_apo t : om * t + b_phase b = PI -> bhPos kep b 1 t = (b_sma b * (1 + b_ecc b) / (1 + b_q b), 0) /\ bhPos kep b 0 t = (- b_q b * b_sma b * (1 + b_ecc b) / (1 + b_q b), 0).
Proof.
  intros P. destruct orbit_form as (eta & D & KE & E). cbv zeta in E. pose proof (KE t) as K. rewrite P in K. assert (Z0 : eta t = PI). { apply (kF_inj _ He). unfold kepler_eq in K. rewrite K, sin_PI. ring. }
  unfold bhPos. rewrite E, Z0, cos_PI, sin_PI. cbn [fst snd]. split; apply f_equal2; field; lra.
Qed.
Lemma orbit_dist0 t : dist2 (bhPos kep b 1 t) (0, 0) = dist2 (bhPos kep b 0 t) (bhPos kep b 1 t) / (1 + b_q b) /\ dist2 (bhPos kep b 0 t) (0, 0) = b_q b * dist2 (bhPos kep b 0 t) (bhPos kep b 1 t) / (1 + b_q b).
Proof.
  destruct orbit_form as (eta & D & KE & E). rewrite (sep_val t (eta t) (E t)). cbv zeta in E. unfold bhPos, dist2. rewrite E. cbn [fst snd]. pose proof (kF_slope _ He (eta t)) as SL. pose proof ell_sq as L. pose proof (sin2_cos2 (eta t)) as S2. unfold Rsqr in S2.
  set (l := sqrt (1 - b_ecc b * b_ecc b)) in *. set (c := cos (eta t)) in *. set (s := sin (eta t)) in *. set (A := - b_sma b / (1 + b_q b)).
  assert (Q : ((c - b_ecc b) * A) * ((c - b_ecc b) * A) + (s * A * l) * (s * A * l) = (b_sma b * (1 - b_ecc b * c) / (1 + b_q b)) * (b_sma b * (1 - b_ecc b * c) / (1 + b_q b))).
  { replace (((c - b_ecc b) * A) * ((c - b_ecc b) * A) + (s * A * l) * (s * A * l)) with (A * A * ((c - b_ecc b) * (c - b_ecc b) + (s * s) * (l * l))) by ring. rewrite L. replace (s * s) with (1 - c * c) by lra. unfold A. field. lra. }
  assert (P : 0 <= b_sma b * (1 - b_ecc b * c) / (1 + b_q b)) by (apply Rle_div_r; [lra|]; rewrite Rmult_0_l; apply Rmult_le_pos; lra).
  split.
  - replace (((c - b_ecc b) * A - 0) ^ 2 + (s * A * l - 0) ^ 2) with (((c - b_ecc b) * A) * ((c - b_ecc b) * A) + (s * A * l) * (s * A * l)) by ring. rewrite Q. apply sqrt_square. exact P.
  - replace ((- b_q b * ((c - b_ecc b) * A) - 0) ^ 2 + (- b_q b * (s * A * l) - 0) ^ 2) with (b_q b * b_q b * (((c - b_ecc b) * A) * ((c - b_ecc b) * A) + (s * A * l) * (s * A * l))) by ring. rewrite Q.
    replace (b_q b * b_q b * (b_sma b * (1 - b_ecc b * c) / (1 + b_q b) * (b_sma b * (1 - b_ecc b * c) / (1 + b_q b)))) with ((b_q b * (b_sma b * (1 - b_ecc b * c) / (1 + b_q b))) * (b_q b * (b_sma b * (1 - b_ecc b * c) / (1 + b_q b)))) by ring.
    rewrite sqrt_square by (apply Rmult_le_pos; assumption). field. lra.
Qed.
Lemma orbit_period t : bhPos kep b 0 (t + 2 * PI / om) = bhPos kep b 0 t /\ bhPos kep b 1 (t + 2 * PI / om) = bhPos kep b 1 t /\ bhVel kep b 0 (t + 2 * PI / om) = bhVel kep b 0 t /\ bhVel kep b 1 (t + 2 * PI / om) = bhVel kep b 1 t.
Proof.
  destruct orbit_form as (eta & D & KE & E). cbv zeta in E. pose proof om_pos as OP. pose proof (KE t) as K1. pose proof (KE (t + 2 * PI / om)) as K2. unfold kepler_eq in K1, K2.
  assert (Q : eta (t + 2 * PI / om) - 2 * PI * IZR 1 = eta t). { apply (kF_inj _ He). destruct (cos_turns (eta (t + 2 * PI / om)) 1) as (_ & B). rewrite B, K1. replace (om * (t + 2 * PI / om) + b_phase b) with (om * t + b_phase b + 2 * PI) in K2 by (field; lra). lra. }
  destruct (cos_turns (eta (t + 2 * PI / om)) 1) as (A & B). rewrite Q in A, B. unfold bhPos, bhVel. rewrite !E, <- A, <- B. repeat split; reflexivity.
Qed.
End Orb.
