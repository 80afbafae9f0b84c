(** Ferrers potential: the coefficients vanish at infinity; the potential is the classical integral *)
From Coq Require Import Reals Lra Psatz Bool.
From Coquelicot Require Import Coquelicot.
From Verif Require Import RandReal RandRealProofs PolyModel PolyProofs CoordModel CoordSpec CoordCalc CoordAtan CoordMaps RootProofs PotModel PotSpec DiskModel DfProofs DfProofs2 FerrersModel FerrersSpec FerrersProofs FerrersProofs2 FerrersProofs3 FerrersProofs4 FerrersProofs5.
Local Open Scope R_scope.

Definition lim0 (f : R -> R) : Prop := filterlim f (Rbar_locally p_infty) (locally 0).
Lemma lim0_plus f g : lim0 f -> lim0 g -> lim0 (fun x => f x + g x).
Proof. intros A B. unfold lim0. change (is_lim (fun x => f x + g x) p_infty 0). replace (Finite 0) with (Finite (0 + 0)) by (rewrite Rplus_0_r; reflexivity). apply (is_lim_plus' f g p_infty 0 0 A B). Qed.
Lemma lim0_scal f k : lim0 f -> lim0 (fun x => k * f x).
Proof. intros A. change (is_lim (fun x => k * f x) p_infty 0). replace (Finite 0) with (Rbar_mult k 0) by (cbn; f_equal; ring). apply (is_lim_scal_l f k p_infty 0 A). Qed.
Lemma lim0_ext f g : (forall x, 0 < x -> f x = g x) -> lim0 f -> lim0 g.
Proof. intros H A. apply (filterlim_ext_loc f g); [|exact A]. exists 0. intros x Hx. apply H, Hx. Qed.
Lemma lim0_le f g : (forall x, 0 < x -> Rabs (f x) <= Rabs (g x)) -> lim0 g -> lim0 f.
Proof.
  intros H A Q [e HQ]. specialize (A (ball 0 e) (locally_ball 0 e)). destruct A as [M HM]. exists (Rmax 0 M). intros x Hx. apply HQ. pose proof (Rmax_l 0 M). pose proof (Rmax_r 0 M). specialize (HM x ltac:(lra)). specialize (H x ltac:(lra)).
  unfold ball in *; cbn in *; unfold AbsRing_ball, abs, minus, plus, opp in *; cbn in *. rewrite Ropp_0, Rplus_0_r in *. lra.
Qed.
Lemma lim0_isqrt : lim0 (fun x => sqrt (/ x)).
Proof.
  unfold lim0. eapply filterlim_comp; [|]. 2: { assert (C := continuous_sqrt 0). unfold continuous in C. rewrite sqrt_0 in C. exact C. }
  change (is_lim (fun x => / x) p_infty 0). replace (Finite 0) with (Rbar_inv p_infty) by reflexivity. apply (is_lim_inv (fun x => x) p_infty p_infty); [apply is_lim_id|discriminate].
Qed.

Section I.
Variable P : ferrers.
Hypothesis V : fvalid P.
Let a := fa P. Let b := fb P. Let c := fc P.
Local Notation dn := (dn P).
Lemma pos3 : 0 < a * a /\ 0 < b * b /\ 0 < c * c /\ b * b < a * a /\ c * c < b * b.
Proof. destruct V as (A & B & C). unfold a, b, c. repeat split; nra. Qed.
Lemma lim_bd : lim0 (fun x => (b * b + x) / dn x).
Proof.
  apply (lim0_le _ (fun x => sqrt (/ x))); [|apply lim0_isqrt]. intros x Hx. destruct pos3 as (A & B & C & D & E). destruct (dn_pos P V x) as (N & N2); [fold c; lra|]. fold a b c in N2.
  rewrite (Rabs_pos_eq (sqrt _)) by apply sqrt_pos. rewrite Rabs_pos_eq by (apply Rmult_le_pos; [lra|left; apply Rinv_0_lt_compat; exact N]).
  rewrite <- (sqrt_square ((b * b + x) / dn x)) by (apply Rmult_le_pos; [lra|left; apply Rinv_0_lt_compat; exact N]). apply sqrt_le_1_alt.
  replace ((b * b + x) / dn x * ((b * b + x) / dn x)) with ((b * b + x) * (b * b + x) / (dn x * dn x)) by (field; lra). rewrite N2.
  set (p1 := a * a) in *. set (p2 := b * b) in *. set (p3 := c * c) in *. clearbody p1 p2 p3.
  replace ((p2 + x) * (p2 + x) / ((x + p1) * (x + p2) * (x + p3))) with (/ ((x + p1) / (x + p2) * (x + p3))) by (field; repeat split; lra).
  apply Rinv_le_contravar; [exact Hx|]. assert (1 <= (x + p1) / (x + p2)) by (apply (Rmult_le_reg_r (x + p2)); [lra|unfold Rdiv; rewrite Rmult_assoc, Rinv_l; lra]). nra.
Qed.
Lemma lim_d : lim0 (fun x => 2 / dn x).
Proof.
  apply (lim0_le _ (fun x => 2 / (b * b) * ((b * b + x) / dn x))); [|apply (lim0_scal (fun x => (b * b + x) / dn x)), lim_bd]. intros x Hx. destruct pos3 as (A & B & C & D & E). destruct (dn_pos P V x) as (N & N2); [fold c; lra|]. pose proof (Rinv_0_lt_compat _ N) as Ni. pose proof (Rinv_0_lt_compat _ B) as Bi.
  assert (Bb : b * b * / (b * b) = 1) by (apply Rinv_r; lra).
  rewrite !Rabs_pos_eq. 2:{ unfold Rdiv. repeat apply Rmult_le_pos; lra. } 2:{ unfold Rdiv. apply Rmult_le_pos; lra. }
  replace (2 / (b * b) * ((b * b + x) / dn x)) with (2 / dn x + 2 * (/ (b * b) * x * / dn x)) by (set (p2 := b * b) in *; set (d := dn x) in *; clearbody p2 d; field; split; lra).
  assert (0 <= / (b * b) * x * / dn x) by (repeat apply Rmult_le_pos; lra). lra.
Qed.
Lemma lim_dm m : 0 < m -> lim0 (fun x => 2 / dn x / (m + x)).
Proof.
  intros M. apply (lim0_le _ (fun x => / m * (2 / dn x))); [|apply (lim0_scal (fun x => 2 / dn x)), lim_d]. intros x Hx. destruct pos3 as (A & B & C & D & E). destruct (dn_pos P V x) as (N & _); [fold c; lra|]. pose proof (Rinv_0_lt_compat _ N) as Ni.
  unfold Rdiv. rewrite (Rmult_comm (/ m)). rewrite !Rabs_mult. apply Rmult_le_compat_l; [apply Rmult_le_pos; apply Rabs_pos|]. rewrite !Rabs_pos_eq by (left; apply Rinv_0_lt_compat; lra). apply Rinv_le_contravar; lra.
Qed.
Lemma lim_dm2 m : 0 < m -> lim0 (fun x => 2 / dn x / pow_2 (m + x)).
Proof.
  intros M. apply (lim0_le _ (fun x => / m * (2 / dn x / (m + x)))); [|apply (lim0_scal (fun x => 2 / dn x / (m + x))), lim_dm, M]. intros x Hx. destruct pos3 as (A & B & C & D & E). destruct (dn_pos P V x) as (N & _); [fold c; lra|].
  unfold pow_2, Rdiv. rewrite Rinv_mult. rewrite (Rmult_comm (/ m)). rewrite <- (Rmult_assoc _ (/ (m + x)) (/ (m + x))). rewrite (Rabs_mult _ (/ (m + x))), (Rabs_mult _ (/ m)). apply Rmult_le_compat_l; [apply Rabs_pos|]. rewrite !Rabs_pos_eq by (left; apply Rinv_0_lt_compat; lra). apply Rinv_le_contravar; lra.
Qed.
Let ac2 := a * a - c * c. Let ab := sqrt (a * a - b * b). Let ac := sqrt ac2.
Lemma lim_phi : lim0 (fun x => asin (sqrt (ac2 / (a * a + x)))).
Proof.
  destruct pos3 as (A & B & C & D & E).
  unfold lim0. eapply filterlim_comp. 2:{ assert (Q : continuous asin 0) by (apply (ex_derive_continuous asin); eexists; apply asin_derive; lra). unfold continuous in Q. rewrite asin_0 in Q. exact Q. }
  eapply filterlim_comp. 2:{ assert (Q := continuous_sqrt 0). unfold continuous in Q. rewrite sqrt_0 in Q. exact Q. }
  apply (lim0_le _ (fun x => ac2 * / x)).
  - intros x Hx. unfold Rdiv. rewrite !Rabs_mult. apply Rmult_le_compat_l; [apply Rabs_pos|]. rewrite !Rabs_pos_eq by (left; apply Rinv_0_lt_compat; lra). apply Rinv_le_contravar; lra.
  - apply (lim0_scal (fun x => / x)). change (is_lim (fun x => / x) p_infty 0). replace (Finite 0) with (Rbar_inv p_infty) by reflexivity. apply (is_lim_inv (fun x => x) p_infty p_infty); [apply is_lim_id|discriminate].
Qed.
Lemma lim_F : lim0 (Ff P).
Proof.
  unfold Ff. unfold lim0. eapply (filterlim_comp _ _ _ (fun x => asin (sqrt ((fa P * fa P - fc P * fc P) / (fa P * fa P + x)))) (fun p => ellintF p _)); [apply lim_phi|].
  assert (Q : continuous (fun p => ellintF p (sqrt (fa P * fa P - fb P * fb P) / sqrt (fa P * fa P - fc P * fc P))) 0) by (apply (ex_derive_continuous (fun p => ellintF p (sqrt (fa P * fa P - fb P * fb P) / sqrt (fa P * fa P - fc P * fc P)))); eexists; apply ellF_derive; apply (k_ok P V)).
  unfold continuous in Q. unfold ellintF at 2 in Q. rewrite RInt_point in Q. exact Q.
Qed.
Lemma lim_E : lim0 (Ef P).
Proof.
  unfold Ef. unfold lim0. eapply (filterlim_comp _ _ _ (fun x => asin (sqrt ((fa P * fa P - fc P * fc P) / (fa P * fa P + x)))) (fun p => ellintE p _)); [apply lim_phi|].
  assert (Q : continuous (fun p => ellintE p (sqrt (fa P * fa P - fb P * fb P) / sqrt (fa P * fa P - fc P * fc P))) 0) by (apply (ex_derive_continuous (fun p => ellintE p (sqrt (fa P * fa P - fb P * fb P) / sqrt (fa P * fa P - fc P * fc P)))); eexists; apply ellE_derive; apply (k_ok P V)).
  unfold continuous in Q. unfold ellintE at 2 in Q. rewrite RInt_point in Q. exact Q.
Qed.
Lemma l2 f g k : lim0 f -> lim0 g -> lim0 (fun x => (f x - g x) / k).
Proof. intros A B. apply (lim0_ext (fun x => / k * (f x + -1 * g x))); [intros x _; unfold Rdiv; ring|]. apply (lim0_scal (fun x => f x + -1 * g x)). apply lim0_plus; [exact A|apply lim0_scal, B]. Qed.
Lemma l2n f g k : lim0 f -> lim0 g -> lim0 (fun x => - (f x - g x) / k).
Proof. intros A B. apply (lim0_ext (fun x => (g x - f x) / k)); [intros x _; unfold Rdiv; ring|]. apply l2; assumption. Qed.
Lemma l3 f g h k : lim0 f -> lim0 g -> lim0 h -> lim0 (fun x => (f x - g x - h x) / k).
Proof. intros A B C. apply (l2 (fun x => f x - g x) h k); [|exact C]. apply (lim0_ext (fun x => (f x - g x) / 1)); [intros x _; field|]. apply l2; assumption. Qed.
Lemma lim_W : let W := computeW P in lim0 (fun x => w0 (W x)) /\ lim0 (fun x => w1 (W x)) /\ lim0 (fun x => w2 (W x)) /\ lim0 (fun x => w3 (W x)) /\ lim0 (fun x => w4 (W x)) /\ lim0 (fun x => w5 (W x)) /\ lim0 (fun x => w6 (W x)) /\ lim0 (fun x => w7 (W x)) /\ lim0 (fun x => w8 (W x)) /\ lim0 (fun x => w9 (W x)) /\ lim0 (fun x => w10 (W x)) /\ lim0 (fun x => w11 (W x)) /\ lim0 (fun x => w12 (W x)) /\ lim0 (fun x => w13 (W x)) /\ lim0 (fun x => w14 (W x)) /\ lim0 (fun x => w15 (W x)) /\ lim0 (fun x => w16 (W x)) /\ lim0 (fun x => w17 (W x)) /\ lim0 (fun x => w18 (W x)) /\ lim0 (fun x => w19 (W x)).
Proof.
  intros W. destruct pos3 as (A & B & C & _).
  pose proof lim_d as I0. pose proof (lim_dm _ A) as IA. pose proof (lim_dm _ B) as IB. pose proof (lim_dm _ C) as IC. pose proof (lim_dm2 _ A) as JA. pose proof (lim_dm2 _ B) as JB. pose proof (lim_dm2 _ C) as JC.
  assert (L0 : lim0 (fun x => w0 (W x))) by (apply (lim0_ext (fun x => 2 / ac * Ff P x)); [intros x _; change (2 / ac * Ff P x = 2 * Ff P x / ac); unfold Rdiv; ring|apply lim0_scal, lim_F]).
  assert (L1 : lim0 (fun x => w1 (W x))) by (apply (lim0_ext (fun x => 2 / ((a * a - b * b) * ac) * (Ff P x + -1 * Ef P x))); [intros x _; change (2 / ((a * a - b * b) * ac) * (Ff P x + -1 * Ef P x) = 2 * (Ff P x - Ef P x) / ((a * a - b * b) * ac)); unfold Rdiv; ring|apply (lim0_scal (fun x => Ff P x + -1 * Ef P x)), lim0_plus; [apply lim_F|apply lim0_scal, lim_E]]).
  assert (L3 : lim0 (fun x => w3 (W x))) by (apply (lim0_ext (fun x => 2 / (b * b - c * c) * ((b * b + x) / dn x) + - 2 / (b * b - c * c) / ac * Ef P x)); [intros x _; change (2 / (b * b - c * c) * ((b * b + x) / dn x) + - 2 / (b * b - c * c) / ac * Ef P x = 2 / (b * b - c * c) * (b * b + x) / dn x - 2 * Ef P x / (b * b - c * c) / ac); unfold Rdiv; ring|apply lim0_plus; [apply (lim0_scal (fun x => (b * b + x) / dn x)), lim_bd|apply lim0_scal, lim_E]]).
  assert (L2 : lim0 (fun x => w2 (W x))) by (apply (lim0_ext (fun x => (2 / dn x - w1 (W x) - w3 (W x)) / 1)); [intros x _; change ((2 / dn x - w1 (W x) - w3 (W x)) / 1 = 2 / dn x - w1 (W x) - w3 (W x)); unfold Rdiv at 1; rewrite Rinv_1; apply Rmult_1_r|apply (l3 (fun x => 2 / dn x) (fun x => w1 (W x)) (fun x => w3 (W x)) 1); assumption]).
  assert (L4 : lim0 (fun x => w4 (W x))) by exact (l2 (fun x => w2 (W x)) (fun x => w1 (W x)) _ L2 L1).
  assert (L5 : lim0 (fun x => w5 (W x))) by exact (l2 (fun x => w3 (W x)) (fun x => w2 (W x)) _ L3 L2).
  assert (L6 : lim0 (fun x => w6 (W x))) by exact (l2n (fun x => w1 (W x)) (fun x => w3 (W x)) _ L1 L3).
  assert (L7 : lim0 (fun x => w7 (W x))) by exact (l3 _ (fun x => w4 (W x)) (fun x => w6 (W x)) _ IA L4 L6).
  assert (L8 : lim0 (fun x => w8 (W x))) by exact (l3 _ (fun x => w5 (W x)) (fun x => w4 (W x)) _ IB L5 L4).
  assert (L9 : lim0 (fun x => w9 (W x))) by exact (l3 _ (fun x => w6 (W x)) (fun x => w5 (W x)) _ IC L6 L5).
  assert (L10 : lim0 (fun x => w10 (W x))) by exact (l2n (fun x => w4 (W x)) (fun x => w5 (W x)) _ L4 L5).
  assert (L11 : lim0 (fun x => w11 (W x))) by exact (l2 (fun x => w8 (W x)) (fun x => w4 (W x)) _ L8 L4).
  assert (L12 : lim0 (fun x => w12 (W x))) by exact (l2 (fun x => w9 (W x)) (fun x => w5 (W x)) _ L9 L5).
  assert (L13 : lim0 (fun x => w13 (W x))) by exact (l2n (fun x => w7 (W x)) (fun x => w6 (W x)) _ L7 L6).
  assert (L14 : lim0 (fun x => w14 (W x))) by exact (l2 (fun x => w4 (W x)) (fun x => w7 (W x)) _ L4 L7).
  assert (L15 : lim0 (fun x => w15 (W x))) by exact (l2 (fun x => w5 (W x)) (fun x => w8 (W x)) _ L5 L8).
  assert (L16 : lim0 (fun x => w16 (W x))) by exact (l2n (fun x => w6 (W x)) (fun x => w9 (W x)) _ L6 L9).
  assert (L17 : lim0 (fun x => w17 (W x))) by exact (l3 _ (fun x => w14 (W x)) (fun x => w13 (W x)) _ JA L14 L13).
  assert (L18 : lim0 (fun x => w18 (W x))) by exact (l3 _ (fun x => w15 (W x)) (fun x => w11 (W x)) _ JB L15 L11).
  assert (L19 : lim0 (fun x => w19 (W x))) by exact (l3 _ (fun x => w16 (W x)) (fun x => w12 (W x)) _ JC L16 L12).
  repeat (split; [assumption|]). assumption.
Qed.
Lemma lim_nval x y z : lim0 (fun s => nval P (computeW P s) (x, y, z)).
Proof.
  destruct lim_W as (D0 & D1 & D2 & D3 & D4 & D5 & D6 & D7 & D8 & D9 & D10 & D11 & D12 & D13 & D14 & D15 & D16 & D17 & D18 & D19).
  set (k := - (PI * frho0 P * fa P * fb P * fc P) / 3).
  apply (lim0_ext (fun s => k * 1 * w0 (computeW P s) + (k * (- 3 * x ^ 2) * w1 (computeW P s) + (k * (- 3 * y ^ 2) * w2 (computeW P s) + (k * (- 3 * z ^ 2) * w3 (computeW P s) + (k * (6 * x ^ 2 * y ^ 2) * w4 (computeW P s) + (k * (6 * y ^ 2 * z ^ 2) * w5 (computeW P s) + (k * (6 * z ^ 2 * x ^ 2) * w6 (computeW P s) + (k * (3 * x ^ 4) * w7 (computeW P s) + (k * (3 * y ^ 4) * w8 (computeW P s) + (k * (3 * z ^ 4) * w9 (computeW P s) + (k * (- 6 * x ^ 2 * y ^ 2 * z ^ 2) * w10 (computeW P s) + (k * (- 3 * x ^ 2 * y ^ 4) * w11 (computeW P s) + (k * (- 3 * y ^ 2 * z ^ 4) * w12 (computeW P s) + (k * (- 3 * z ^ 2 * x ^ 4) * w13 (computeW P s) + (k * (- 3 * x ^ 4 * y ^ 2) * w14 (computeW P s) + (k * (- 3 * y ^ 4 * z ^ 2) * w15 (computeW P s) + (k * (- 3 * z ^ 4 * x ^ 2) * w16 (computeW P s) + (k * (- x ^ 6) * w17 (computeW P s) + (k * (- y ^ 6) * w18 (computeW P s) + (k * (- z ^ 6) * w19 (computeW P s)))))))))))))))))))))); [intros s _; nopen; unfold k; field|].
  exact (lim0_plus _ _ (lim0_scal _ _ D0) (lim0_plus _ _ (lim0_scal _ _ D1) (lim0_plus _ _ (lim0_scal _ _ D2) (lim0_plus _ _ (lim0_scal _ _ D3) (lim0_plus _ _ (lim0_scal _ _ D4) (lim0_plus _ _ (lim0_scal _ _ D5) (lim0_plus _ _ (lim0_scal _ _ D6) (lim0_plus _ _ (lim0_scal _ _ D7) (lim0_plus _ _ (lim0_scal _ _ D8) (lim0_plus _ _ (lim0_scal _ _ D9) (lim0_plus _ _ (lim0_scal _ _ D10) (lim0_plus _ _ (lim0_scal _ _ D11) (lim0_plus _ _ (lim0_scal _ _ D12) (lim0_plus _ _ (lim0_scal _ _ D13) (lim0_plus _ _ (lim0_scal _ _ D14) (lim0_plus _ _ (lim0_scal _ _ D15) (lim0_plus _ _ (lim0_scal _ _ D16) (lim0_plus _ _ (lim0_scal _ _ D17) (lim0_plus _ _ (lim0_scal _ _ D18) (lim0_scal _ _ D19)))))))))))))))))))).
Qed.
End I.

Definition unit_rho (P : ferrers) : ferrers := mkFer (fa P) (fb P) (fc P) (fmass P) 1.
Lemma nval_unit P W p : nval P W p = frho0 P * nval (unit_rho P) W p.
Proof. destruct p as [[x y] z]. unfold nval, ferNear, unit_rho. cbn. field. Qed.
Lemma near_integral P (V : fvalid P) p l : 0 <= l -> ferrers_Phi P p l (nval P (computeW P l) p).
Proof.
  intros L. destruct p as [[x y] z]. set (Q := unit_rho P). assert (VQ : fvalid Q) by exact V. assert (EW : forall s, computeW P s = computeW Q s) by reflexivity.
  set (K := PI * fa P * fb P * fc P). assert (KP : 0 < K) by (destruct V as (V1 & V2 & V3); unfold K; apply Rmult_lt_0_compat; [apply Rmult_lt_0_compat; [apply Rmult_lt_0_compat; [exact PI_RGT_0|]|]|]; lra).
  set (f := fun s => 3 / K * nval Q (computeW Q s) (x, y, z)).
  set (g := fun s => (1 - ell P (x, y, z) s) ^ 3 / sqrt ((fa P ^ 2 + s) * (fb P ^ 2 + s) * (fc P ^ 2 + s))).
  assert (Dg : forall s, 0 <= s -> is_derive f s (g s)).
  { intros s Hs. pose proof (nval_l Q VQ x y z s (ge_c Q VQ s Hs)) as D. eapply eqd; [apply (is_derive_scal _ s (3 / K) _ D)|]. unfold g. change (ell Q (x, y, z) s) with (ell P (x, y, z) s).
    replace (sqrt ((fa P ^ 2 + s) * (fb P ^ 2 + s) * (fc P ^ 2 + s))) with (dn Q s) by (unfold dn, Q, unit_rho; cbn [fa fb fc]; f_equal; ring).
    destruct (dn_pos Q VQ s (ge_c Q VQ s Hs)) as (N & _). change (frho0 Q) with 1. change (fa Q) with (fa P). change (fb Q) with (fb P). change (fc Q) with (fc P). rewrite Rmult_1_r. fold K. set (d := dn Q s) in *. clear - N KP. clearbody K d. field. split; lra. }
  assert (Cg : forall s, 0 <= s -> continuous g s).
  { intros s Hs. apply (ex_derive_continuous g). destruct (sq_pos P V) as (S1 & S2 & S3). unfold g, ell. assert (0 < (fa P ^ 2 + s) * (fb P ^ 2 + s) * (fc P ^ 2 + s)) by (repeat apply Rmult_lt_0_compat; lra). pose proof (sqrt_lt_R0 _ H). auto_derive. repeat split; try lra; try assumption. all: cbn [pow] in *; lra. }
  exists (- f l). split.
  - assert (LF : filterlim f (Rbar_locally p_infty) (locally 0)) by (apply (lim0_scal (fun s => nval Q (computeW Q s) (x, y, z))), (lim_nval Q VQ)).
    intros U HU. assert (HU' : Rbar_locally p_infty (fun M => U (f M - f l))).
    { assert (LG : filterlim (fun M => f M - f l) (Rbar_locally p_infty) (locally (- f l))).
      { change (is_lim (fun M => f M - f l) p_infty (- f l)). replace (Finite (- f l)) with (Finite (0 - f l)) by (f_equal; ring). apply is_lim_minus'; [exact LF|apply is_lim_const]. }
      exact (LG U HU). }
    exists (fun u => u = l) (fun M => l < M /\ U (f M - f l)).
    + reflexivity.
    + apply filter_and; [exists l; intros M HM; exact HM|exact HU'].
    + intros u M -> (HM & HUM). exists (f M - f l). split; [|exact HUM]. cbn [fst snd]. apply (is_RInt_derive f g l M); intros s Hs; rewrite Rmin_left, Rmax_right in Hs by lra; [apply Dg|apply Cg]; lra.
  - rewrite nval_unit. fold Q. rewrite EW. unfold f. fold K. replace (- PI / 3 * frho0 P * fa P * fb P * fc P) with (- K / 3 * frho0 P) by (unfold K; field). field. lra.
Qed.
