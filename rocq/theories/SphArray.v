(** sphHarmArray computes the spherical harmonics and their derivatives *)
From Coq Require Import Reals Lra Lia Psatz Arith List Bool.
From Coquelicot Require Import Coquelicot.
From Verif Require Import RandReal RootModel Base SphModel SphSpec SphLegendre PolyModel RandRealProofs PolyProofs.
Import ListNotations.
Local Open Scope R_scope.

Lemma AssocP_Q l m t : AssocP l m t = (-1) ^ m * sin t ^ m * Q l m (cos t).
Proof. unfold AssocP. rewrite Derive_n_P. reflexivity. Qed.
(** first and second derivative in theta *)
Definition D1 (l m : nat) (t : R) : R := (-1) ^ m * (INR m * cos t * sin t ^ pred m * Q l m (cos t) - sin t ^ S m * Q l (S m) (cos t)).
Definition D2 (l m : nat) (t : R) : R := (-1) ^ m * (INR m * (INR (pred m) * cos t ^ 2 * sin t ^ pred (pred m) - sin t * sin t ^ pred m) * Q l m (cos t)
  - (2 * INR m + 1) * cos t * sin t ^ m * Q l (S m) (cos t) + sin t ^ S (S m) * Q l (S (S m)) (cos t)).
Lemma d_ext (f g : R -> R) (x a : R) : (forall y : R, f y = g y) -> is_derive f x a -> is_derive g x a.
Proof. intros E. exact (is_derive_ext f g x a E). Qed.
Lemma d_sin t : is_derive sin t (cos t). Proof. exact (is_derive_sin t). Qed.
Lemma d_cos t : is_derive cos t (- sin t). Proof. exact (is_derive_cos t). Qed.
Lemma d_Qc l m t : is_derive (fun t => Q l m (cos t)) t (- sin t * Q l (S m) (cos t)).
Proof. apply d_comp; [apply Q_der|apply d_cos]. Qed.
Lemma pow_pred (x : R) m : INR m * (x * x ^ pred m) = INR m * x ^ m.
Proof. destruct m; [cbn; ring|]. cbn [pred pow]. ring. Qed.
Lemma AssocP_der l m t : is_derive (AssocP l m) t (D1 l m t).
Proof.
  apply (d_ext (fun t => (-1) ^ m * (sin t ^ m * Q l m (cos t)))); [intros; rewrite AssocP_Q; ring|].
  eapply d_eq; [apply d_scal, d_mult; [apply d_pow, d_sin|apply d_Qc]|]. unfold D1. cbn [pow]. ring.
Qed.
Lemma D1_der l m t : is_derive (D1 l m) t (D2 l m t).
Proof.
  apply (d_ext (fun t => (-1) ^ m * (INR m * (cos t * (sin t ^ pred m * Q l m (cos t))) + (-1) * (sin t ^ S m * Q l (S m) (cos t))))); [intros; unfold D1; ring|].
  eapply d_eq; [apply d_scal, d_plus; [apply d_scal, d_mult; [apply d_cos|apply d_mult; [apply d_pow, d_sin|apply d_Qc]]|apply d_scal, d_mult; [apply d_pow, d_sin|apply d_Qc]]|].
  unfold D2. rewrite S_INR. cbn [pred]. destruct m as [|m]; [cbn [pred INR pow]; ring|]. cbn [pred]. set (p := sin t ^ pred m). cbn [pow]. ring.
Qed.
Lemma Ylm_d1 l m t : is_derive_n (Ylm l m) 1 t (Norm l m * D1 l m t).
Proof. cbn [is_derive_n Derive_n]. apply d_scal, AssocP_der. Qed.
Lemma Ylm_d2 l m t : is_derive_n (Ylm l m) 2 t (Norm l m * D2 l m t).
Proof.
  cbn [is_derive_n]. apply (d_ext (fun t => Norm l m * D1 l m t)); [|apply d_scal, D1_der]. intros u. symmetry. apply is_derive_unique. apply d_scal, AssocP_der.
Qed.

(* ---------- the formulas used by the code ---------- *)
Lemma P_rec l m t : (m <= l)%nat -> AssocP (S (S l)) m t = (cos t * (2 * INR (S (S l)) - 1) * AssocP (S l) m t - (INR (S (S l)) + INR m - 1) * AssocP l m t) / (INR (S (S l)) - INR m).
Proof.
  intros H. rewrite !AssocP_Q, !S_INR. apply le_INR in H. assert (N : INR l + 1 + 1 - INR m <> 0) by lra.
  apply (Rmult_eq_reg_r (INR l + 1 + 1 - INR m)); [|exact N]. match goal with |- _ = ?b / ?k * ?k => replace (b / k * k) with b by (field; exact N) end. pose proof (Q_rec l m (cos t)) as E. lc1 ((-1) ^ m * sin t ^ m) E.
Qed.
Lemma P_first m t : AssocP (m + 1) m t = cos t * (2 * INR m + 1) * AssocP m m t.
Proof. rewrite Nat.add_1_r, !AssocP_Q, Q_next. ring. Qed.
Lemma sc1 t : sin t * sin t = 1 - cos t * cos t. Proof. pose proof (sin2_cos2 t). unfold Rsqr in *. lra. Qed.
Lemma D1_code l m t : sin t <> 0 -> D1 (S l) m t = (INR (S l) * cos t * AssocP (S l) m t - (INR (S l) + INR m) * AssocP l m t) / sin t.
Proof.
  intros H. apply (Rmult_eq_reg_r (sin t)); [|exact H]. match goal with |- _ = ?b / ?k * ?k => replace (b / k * k) with b by (field; exact H) end. rewrite !AssocP_Q. unfold D1.
  pose proof (Q_D l m (cos t)) as E. rewrite <- sc1 in E. rewrite S_INR. cbn [pow].
  transitivity ((-1) ^ m * (cos t * Q (S l) m (cos t) * (INR m * (sin t * sin t ^ pred m)) - sin t ^ m * (sin t * sin t * Q (S l) (S m) (cos t)))); [ring|]. rewrite pow_pred, E. ring.
Qed.
Lemma D2_code l m t : sin t <> 0 -> D2 l m t = cos t * D1 l m t / (- sin t) - (INR l * (INR l + 1) - (INR m / sin t) * (INR m / sin t)) * AssocP l m t.
Proof.
  intros H. apply (Rmult_eq_reg_r (sin t * sin t)); [|apply Rmult_integral_contrapositive; tauto].
  transitivity (- (cos t * sin t * D1 l m t) - (INR l * (INR l + 1) * (sin t * sin t) - INR m * INR m) * AssocP l m t); [|field; exact H].
  rewrite AssocP_Q. unfold D1, D2. pose proof (Q_ode l m (cos t)) as E. rewrite <- sc1 in E. cbn [pow].
  assert (PP : INR m * (INR (pred m) * (sin t * sin t * sin t ^ pred (pred m))) = INR m * (INR m - 1) * sin t ^ m).
  { destruct m as [|[|m]]; [cbn; ring|cbn; ring|]. cbn [pred]. rewrite !S_INR. cbn [pow]. ring. }
  transitivity ((-1) ^ m * ((cos t * cos t) * (INR m * (INR (pred m) * (sin t * sin t * sin t ^ pred (pred m)))) * Q l m (cos t) - (sin t * sin t) * (INR m * (sin t * sin t ^ pred m)) * Q l m (cos t)
     - (2 * INR m + 1) * cos t * (sin t * sin t) * sin t ^ m * Q l (S m) (cos t) + (sin t * sin t) * sin t ^ m * (sin t * sin t * Q l (S (S m)) (cos t)))); [ring|].
  rewrite PP, E. transitivity (- ((-1) ^ m * (cos t * cos t * Q l m (cos t) * (INR m * (sin t * sin t ^ pred m)) - (sin t * sin t) * cos t * sin t ^ m * Q l (S m) (cos t))) - (INR l * (INR l + 1) * (sin t * sin t) - INR m * INR m) * ((-1) ^ m * sin t ^ m * Q l m (cos t))); [|ring].
  rewrite pow_pred. replace (cos t * cos t) with (1 - sin t * sin t) by (pose proof (sc1 t); lra). ring.
Qed.
(* at the poles *)
Lemma pole_cos t : sin t = 0 -> cos t = 1 \/ cos t = -1.
Proof. intros H. pose proof (sc1 t). rewrite H in *. assert ((cos t - 1) * (cos t + 1) = 0) as E by lra. apply Rmult_integral in E. lra. Qed.
Lemma m1_even n : (-1) ^ n = if Nat.even n then 1 else -1.
Proof. induction n as [|n IH]; [reflexivity|]. cbn [pow]. rewrite IH, Nat.even_succ, <- Nat.negb_even. destruct (Nat.even n); cbn; ring. Qed.
Lemma Q_pole l m t : sin t = 0 -> Q l m (cos t) = (if Rlt_b 0 (cos t) then 1 else (-1) ^ (l + m)) * Q l m 1.
Proof.
  intros H. destruct (pole_cos t H) as [-> | ->]; [rewrite Rlt_b_t by lra; ring|]. rewrite Rlt_b_f by lra. replace (-1) with (- (1)) at 1 by ring. apply Q_parity.
Qed.
Lemma psign_mul a b : psign a * psign b = psign (Bool.eqb a b). Proof. destruct a, b; cbn; ring. Qed.
Lemma pole_sign l m t b : (Nat.even (l + m) = b) -> (if Rlt_b 0 (cos t) then 1 else (-1) ^ (l + m)) = psign (orb (Rlt_b 0 (cos t)) b).
Proof. intros <-. rewrite m1_even. destruct (Rlt_b 0 (cos t)), (Nat.even (l + m)); reflexivity. Qed.
Lemma cos_psign t : sin t = 0 -> cos t = psign (Rlt_b 0 (cos t)).
Proof. intros H. destruct (pole_cos t H) as [-> | ->]; [rewrite Rlt_b_t by lra|rewrite Rlt_b_f by lra]; reflexivity. Qed.
Lemma c2_pole t : sin t = 0 -> cos t * cos t = 1. Proof. intros H. pose proof (sc1 t). rewrite H in *. lra. Qed.
Definition pole1 (l m : nat) (t : R) : R := match m with 1%nat => - INR l * (INR l + 1) / 2 * psign (orb (Rlt_b 0 (cos t)) (Nat.even l)) | _ => 0 end.
Definition pole2 (l m : nat) (t : R) : R := match m with
  | 0%nat => - INR l * (INR l + 1) / 2 * psign (orb (Rlt_b 0 (cos t)) (Nat.even l))
  | 2%nat => INR l * (INR l + 1) * (INR l + 2) * (INR l - 1) / 4 * psign (orb (Rlt_b 0 (cos t)) (Nat.even l)) | _ => 0 end.
Lemma cos_sign_swap l t : sin t = 0 -> cos t * psign (orb (Rlt_b 0 (cos t)) (negb (Nat.even l))) = psign (orb (Rlt_b 0 (cos t)) (Nat.even l)).
Proof. intros H. rewrite (cos_psign t H) at 1. rewrite psign_mul. destruct (Rlt_b 0 (cos t)), (Nat.even l); reflexivity. Qed.
Lemma even_S l : Nat.even (l + 1) = negb (Nat.even l). Proof. rewrite Nat.add_1_r, Nat.even_succ, <- Nat.negb_even. reflexivity. Qed.
Lemma D1_pole l m t : sin t = 0 -> D1 l m t = pole1 l m t.
Proof.
  intros H. unfold D1, pole1. rewrite H. destruct m as [|[|m]]; cbn [pow pred INR]; try ring.
  rewrite (Q_pole l 1 t H), (pole_sign l 1 t _ (even_S l)), Q1_1. transitivity (- (cos t * psign (orb (Rlt_b 0 (cos t)) (negb (Nat.even l)))) * (INR l * (INR l + 1) / 2)); [field|]. rewrite (cos_sign_swap l t H). field.
Qed.
Lemma D2_pole l m t : sin t = 0 -> D2 l m t = pole2 l m t.
Proof.
  intros H. unfold D2, pole2. rewrite H. destruct m as [|[|[|m]]]; cbn [pow pred INR]; try ring.
  - rewrite (Q_pole l 1 t H), (pole_sign l 1 t _ (even_S l)), Q1_1. transitivity (- (cos t * psign (orb (Rlt_b 0 (cos t)) (negb (Nat.even l)))) * (INR l * (INR l + 1) / 2)); [field|]. rewrite (cos_sign_swap l t H). field.
  - assert (E2 : Nat.even (l + 2) = Nat.even l) by (rewrite Nat.even_add; destruct (Nat.even l); reflexivity).
    rewrite (Q_pole l 2 t H), (pole_sign l 2 t _ E2), Q2_1. transitivity (2 * (cos t * cos t) * psign (Rlt_b 0 (cos t) || Nat.even l) * ((INR l - 1) * INR l * (INR l + 1) * (INR l + 2) / 8)); [field|]. rewrite (c2_pole t H). field.
Qed.

(* ---------- normalisation ---------- *)
Lemma Norm_mm m : pmm_prefact m = Norm m m.
Proof.
  unfold pmm_prefact, Norm. rewrite Nat.sub_diag. replace (m + m)%nat with (2 * m)%nat by lia. change (INR (fact 0)) with 1. pose proof PI_RGT_0. pose proof (fact_pos (2 * m)). pose proof (pos_INR m).
  replace (/ 2 / sqrt PI) with (sqrt (/ (4 * PI))).
  2: { rewrite sqrt_inv. replace (4 * PI) with (Rsqr 2 * PI) by (unfold Rsqr; ring). rewrite sqrt_mult by (unfold Rsqr; lra). rewrite sqrt_Rsqr by lra. rewrite Rinv_mult. reflexivity. }
  rewrite <- sqrt_mult_alt; [|apply Rlt_le, Rinv_0_lt_compat; lra]. f_equal. field. split; lra.
Qed.
Lemma Norm_step l m : (m <= l)%nat -> Norm (S l) m = Norm l m * sqrt ((2 * INR (S l) + 1) / (2 * INR (S l) - 1) * (INR (S l) - INR m) / (INR (S l) + INR m)).
Proof.
  intros H. unfold Norm. pose proof (le_INR _ _ H). pose proof (pos_INR m). pose proof PI_RGT_0. rewrite <- sqrt_mult_alt.
  - f_equal. replace (S l - m)%nat with (S (l - m)) by lia. replace (S l + m)%nat with (S (l + m)) by lia. rewrite !fact_simpl, !mult_INR, !S_INR, minus_INR, plus_INR by exact H. pose proof (fact_pos (l - m)). pose proof (fact_pos (l + m)). field. repeat split; lra.
  - apply Rmult_le_pos; [apply Rdiv_le_0_compat; lra|]. apply Rdiv_le_0_compat; [apply Rlt_le, fact_pos|apply fact_pos].
Qed.
Lemma Norm_pos l m : 0 < Norm l m.
Proof.
  unfold Norm. apply sqrt_lt_R0. pose proof PI_RGT_0. pose proof (pos_INR l). apply Rmult_lt_0_compat; [apply Rdiv_lt_0_compat; lra|apply Rdiv_lt_0_compat; apply fact_pos].
Qed.
Lemma dfact_Q m x : dfact_odd m = Q m m x.
Proof. induction m as [|m IH]; [reflexivity|]. rewrite Q_mm, <- IH. cbn [dfact_odd]. rewrite S_INR. ring. Qed.
Lemma odd_sign m : (if Nat.odd m then -1 else 1) = (-1) ^ m. Proof. rewrite m1_even, <- Nat.negb_even. destruct (Nat.even m); reflexivity. Qed.
Lemma legendrePmm_spec m t : legendrePmm m (cos t) (sin t) = (Norm m m * AssocP m m t, Norm m m * D1 m m t, Norm m m * D2 m m t).
Proof.
  unfold D1, D2. rewrite AssocP_Q. rewrite <- Norm_mm. rewrite (Q_zero m (S m)), (Q_zero m (S (S m))) by lia. destruct m as [|[|m]].
  - cbn [legendrePmm pow pred INR]. rewrite Q_00. repeat (f_equal; try ring).
  - cbn [legendrePmm pow pred INR]. assert (E : Q 1 1 (cos t) = 1) by (rewrite <- dfact_Q; cbn; ring). rewrite E. repeat (f_equal; try ring).
  - unfold legendrePmm, pmm_coef. set (mm := S (S m)). rewrite odd_sign, (dfact_Q mm (cos t)). subst mm. cbn [pred]. cbn [pow]. set (sg := (-1) ^ m). set (sm := sin t ^ m). set (q := Q (S (S m)) (S (S m)) (cos t)).
    apply f_equal2; [apply f_equal2|]; [ring|ring|]. replace (sin t * (sin t * sm)) with (sin t * sin t * sm) by ring. rewrite sc1. rewrite !S_INR. ring.
Qed.

(* ---------- the loop ---------- *)
Definition inv (m : nat) (t : R) (l : nat) (s : lgs) : Prop :=
  s_pref s = Norm (pred l) m /\ s_P1 s = AssocP (pred l) m t /\ (l = S m -> s_P s = AssocP (S m) m t) /\ ((S m < l)%nat -> s_P2 s = AssocP (pred (pred l)) m t) /\
  (m = 1%nat -> sin t = 0 -> s_d1 s = 0 /\ s_d2 s = 0 /\ s_d s = 0).
(** where the derivatives are computed by the exact formulas *)
Definition regular (m : nat) (st : R) : Prop := SEPS <= st \/ ((2 < m)%nat /\ 0 < st) \/ st = 0.
Lemma SEPS_pos : 0 < SEPS. Proof. unfold SEPS. apply Rinv_0_lt_compat. apply pow_lt. lra. Qed.
Lemma lstep_spec m t l s : (m < l)%nat -> 0 <= sin t -> inv m t l s ->
  let '(s', (v, d, d2)) := lstep m (cos t) (sin t) l s in inv m t (S l) s' /\ v = Norm l m * AssocP l m t /\ (regular m (sin t) -> d = Norm l m * D1 l m t /\ d2 = Norm l m * D2 l m t).
Proof.
  intros Hl Hs (I1 & I2 & I3 & I4 & I5). unfold lstep. destruct l as [|l]; [lia|]. cbn [pred] in *.
  set (Plm := if Nat.ltb (m + 1) (S l) then _ else _).
  assert (EP : Plm = AssocP (S l) m t).
  { unfold Plm. destruct (Nat.ltb_spec (m + 1) (S l)) as [G|G].
    - rewrite I2, I4 by lia. destruct l as [|l]; [lia|]. cbn [pred]. symmetry. apply P_rec. lia.
    - assert (l = m) by lia. subst l. apply I3. reflexivity. }
  set (pf := s_pref s * _). assert (EF : pf = Norm (S l) m) by (unfold pf; rewrite I1; symmetry; apply Norm_step; lia).
  clearbody Plm pf. subst Plm pf.
  set (gen := orb _ _).
  assert (EG : gen = true -> sin t <> 0). { unfold gen. intros G. apply orb_true_iff in G. destruct G as [G|G]; [apply Rle_b_spec in G; pose proof SEPS_pos; lra|]. apply andb_true_iff in G. destruct G as (_ & G). unfold Rlt_b in G. destruct (Rlt_dec 0 (sin t)); [lra|discriminate]. }
  assert (EN : gen = false -> regular m (sin t) -> sin t = 0). { unfold gen. intros G R. apply orb_false_iff in G. destruct G as (G1 & G2). assert (G1' : ~ SEPS <= sin t) by (intros W; apply Rle_b_spec in W; congruence). destruct R as [R|[(R1 & R2)|R]]; [lra| |exact R]. rewrite (proj2 (Nat.ltb_lt 2 m)) in G2 by exact R1. rewrite Rlt_b_t in G2 by exact R2. discriminate. }
  assert (Z0 : gen = true -> sin t = 0 -> False) by (intros; apply EG; assumption).
  clearbody gen. split; [|split].
  - unfold inv. cbn [s_pref s_P1 s_P s_P2 s_d1 s_d2 s_d pred]. split; [reflexivity|]. split; [reflexivity|]. split; [lia|]. split; [intros _; exact I2|].
    intros -> Hz. destruct gen; [exfalso; auto|]. cbn [negb andb Nat.eqb]. destruct (I5 eq_refl Hz) as (A & B & C). assert (P10 : s_P1 s = 0) by (rewrite I2, AssocP_Q, Hz; cbn [pow]; ring).
    assert (E : (if Nat.ltb (1 + 1) (S l) then ((2 * INR (S l) - 1) * (cos t * (s_d1 s - s_P1 s) - sin t * (- INR (S l) * (INR (S l) - 1) * psign (Rlt_b 0 (cos t) || Nat.odd (S l)))) - INR (S l) * s_d2 s) / (INR (S l) - 1) else s_d s) = 0).
    { destruct (Nat.ltb (1 + 1) (S l)); [|exact C]. rewrite A, B, P10, Hz. unfold Rdiv. ring. }
    rewrite E, A. auto.
  - apply Rmult_comm.
  - intros Hr. destruct gen.
    + assert (D : forall X, sin t <> 0 -> X = (INR (S l) * cos t * AssocP (S l) m t - (INR (S l) + INR m) * s_P1 s) / sin t -> Norm (S l) m * X = Norm (S l) m * D1 (S l) m t). { intros X Hx ->. rewrite I2, <- D1_code by exact Hx. reflexivity. }
      specialize (EG eq_refl). rewrite (D _ EG eq_refl). split; [reflexivity|]. rewrite D2_code by exact EG. field. exact EG.
    + specialize (EN eq_refl Hr). rewrite D1_pole, D2_pole by exact EN. unfold pole1, pole2. split.
      * destruct m as [|[|[|m]]]; rewrite ?EN; ring.
      * destruct m as [|[|[|m]]]; try ring. destruct (I5 eq_refl EN) as (A & B & C). assert (P10 : s_P1 s = 0) by (rewrite I2, AssocP_Q, EN; cbn [pow]; ring).
        destruct (Nat.ltb (1 + 1) (S l)); [rewrite A, B, P10, EN; unfold Rdiv; ring|rewrite C; ring].
Qed.
Lemma lloop_spec m t : 0 <= sin t -> forall n l s k, (m < l)%nat -> inv m t l s -> (k < n)%nat ->
  exists v d d2, nth_error (lloop n m (cos t) (sin t) l s) k = Some (v, d, d2) /\ v = Norm (l + k) m * AssocP (l + k) m t /\ (regular m (sin t) -> d = Norm (l + k) m * D1 (l + k) m t /\ d2 = Norm (l + k) m * D2 (l + k) m t).
Proof.
  intros Hs. induction n as [|n IH]; intros l s k Hl HI Hk; [lia|]. cbn [lloop]. pose proof (lstep_spec m t l s Hl Hs HI) as ST. destruct (lstep m (cos t) (sin t) l s) as (s' & ((v & d) & d2)). destruct ST as (I' & V & D).
  destruct k as [|k]; [rewrite Nat.add_0_r; exists v, d, d2; auto|]. cbn [nth_error]. replace (l + S k)%nat with (S l + k)%nat by lia. apply IH; [lia|exact I'|lia].
Qed.
Lemma lloop_len m ct st : forall n l s, length (lloop n m ct st l s) = n.
Proof. induction n as [|n IH]; intros; cbn [lloop]; [reflexivity|]. destruct (lstep m ct st l s). cbn. rewrite IH. reflexivity. Qed.
Lemma tau_trig t : 0 <= sin t -> tau_ct (tau_of t) = cos t /\ tau_st (tau_of t) = sin t.
Proof.
  intros H. unfold tau_ct, tau_st, tau_of. pose proof (sc1 t).
  assert (E : 1 + cos t / (1 + sin t) * (cos t / (1 + sin t)) = 2 / (1 + sin t)). { apply (Rmult_eq_reg_r ((1 + sin t) * (1 + sin t))); [|apply Rmult_integral_contrapositive; lra]. transitivity ((1 + sin t) * (1 + sin t) + cos t * cos t); [field; lra|]. transitivity (2 * (1 + sin t)); [nra|field; lra]. }
  rewrite E. split; [field; lra|]. apply (Rmult_eq_reg_r (2 * (1 + sin t))); [|lra]. transitivity ((1 + sin t) * (1 + sin t) - cos t * cos t); [field; lra|nra].
Qed.
Lemma sphHarmArray_ok lmax m t : (m <= lmax)%nat -> 0 <= t <= PI -> exists a, sphHarmArray lmax m (tau_of t) = Ok a /\ length a = S (lmax - m) /\
  forall l, (m <= l <= lmax)%nat -> exists v d d2, nth_error a (l - m) = Some (v, d, d2) /\ v = Ylm l m t /\ (regular m (sin t) -> is_derive_n (Ylm l m) 1 t d /\ is_derive_n (Ylm l m) 2 t d2).
Proof.
  intros H Ht. assert (Hs : 0 <= sin t) by (apply sin_ge_0; lra). destruct (tau_trig t Hs) as (ET & ES). unfold sphHarmArray. rewrite (proj2 (Nat.ltb_ge _ _)) by exact H. rewrite ET, ES.
  assert (FIN : forall l v d d2, v = Norm l m * AssocP l m t -> (regular m (sin t) -> d = Norm l m * D1 l m t /\ d2 = Norm l m * D2 l m t) -> v = Ylm l m t /\ (regular m (sin t) -> is_derive_n (Ylm l m) 1 t d /\ is_derive_n (Ylm l m) 2 t d2)).
  { intros l v d d2 -> D. split; [reflexivity|]. intros R. destruct (D R) as (-> & ->). split; [apply Ylm_d1|apply Ylm_d2]. }
  destruct (Nat.eqb_spec lmax 0) as [Z|Z].
  - subst lmax. assert (m = 0%nat) by lia. subst m. eexists. split; [reflexivity|]. split; [reflexivity|]. intros l Hl. assert (l = 0%nat) by lia. subst l. cbn [Nat.sub nth_error]. do 3 eexists. split; [reflexivity|]. apply FIN.
    + pose proof (legendrePmm_spec 0 t) as E. cbn [legendrePmm] in E. injection E as E _ _. rewrite <- E. unfold pmm_prefact. change (INR (fact (2 * 0))) with 1. change (INR 0) with 0. replace ((2 * 0 + 1) / 1) with 1 by field. rewrite sqrt_1. ring.
    + intros _. pose proof (legendrePmm_spec 0 t) as E. cbn [legendrePmm] in E. injection E as _ E1 E2. auto.
  - rewrite legendrePmm_spec. destruct (Nat.eqb_spec lmax m) as [E|E].
    + eexists. split; [reflexivity|]. split; [cbn; lia|]. intros l Hl. assert (l = m) by lia. subst l. rewrite Nat.sub_diag. cbn [nth_error]. do 3 eexists. split; [reflexivity|]. apply FIN; [reflexivity|auto].
    + eexists. split; [reflexivity|]. split; [cbn [length]; rewrite lloop_len; reflexivity|]. intros l Hl. destruct (Nat.eq_dec l m) as [->|N].
      * rewrite Nat.sub_diag. cbn [nth_error]. do 3 eexists. split; [reflexivity|]. apply FIN; [reflexivity|auto].
      * replace (l - m)%nat with (S (l - S m)) by lia. cbn [nth_error].
        assert (P1 : Norm m m * AssocP m m t / pmm_prefact m = AssocP m m t) by (rewrite Norm_mm; pose proof (Norm_pos m m); field; lra). rewrite P1.
        match goal with |- context [lloop (lmax - m) m (cos t) (sin t) (m + 1) ?s] => destruct (lloop_spec m t Hs (lmax - m) (m + 1) s (l - S m)) as (v & d & d2 & G & V & D) end; [lia| |lia|].
        -- unfold inv. cbn [s_pref s_P1 s_P s_P2 s_d1 s_d2 s_d]. rewrite Nat.add_1_r. cbn [pred]. split; [apply Norm_mm|]. split; [reflexivity|]. split; [intros _; rewrite <- P_first, Nat.add_1_r; reflexivity|]. split; [lia|]. intros _ Hz. rewrite Hz. repeat split; ring.
        -- exists v, d, d2. split; [exact G|]. replace (m + 1 + (l - S m))%nat with l in * by lia. apply FIN; assumption.
Qed.
