(** Disk models: vertical functions and the combined model *)
From Coq Require Import Reals Lra Psatz Lia Bool ZArith List.
From Coquelicot Require Import Coquelicot.
From Verif Require Import RandReal RandRealProofs PolyModel PolyProofs CoordModel CoordSpec OrientModel OrientSpec PotModel PotSpec RootProofs AnalyticSpec DiskModel DiskSpec DiskProofs DiskProofs2 DiskProofs3.
Import ListNotations.
Local Open Scope R_scope.

Definition KE (h x : R) : R := h / 2 * (exp (- (x / h)) - 1 + x / h).
Definition KE1 (h x : R) : R := / 2 * (1 - exp (- (x / h))).
Definition KE2 (h x : R) : R := / 2 * exp (- (x / h)) / h.
Lemma KE_d h x : h <> 0 -> is_derive (KE h) x (KE1 h x).
Proof. intros N. unfold KE, KE1. auto_derive; [exact Logic.I|]. unfold Rdiv. set (e := exp _). clearbody e. field. exact N. Qed.
Lemma KE1_d h x : h <> 0 -> is_derive (KE1 h) x (KE2 h x).
Proof. intros N. unfold KE1, KE2. auto_derive; [exact Logic.I|]. unfold Rdiv. set (e := exp _). clearbody e. field. exact N. Qed.
Definition KI (h x : R) : R := h * LC (x / h).
Definition KI1 (h x : R) : R := T (x / h).
Definition KI2 (h x : R) : R := T1 (x / h) / h.
Lemma KI_d h x : h <> 0 -> is_derive (KI h) x (KI1 h x).
Proof.
  intros N. unfold KI, KI1. assert (D : is_derive (fun s => LC (s / h)) x (scal (/ h) (T (x / h)))) by (apply (is_derive_comp LC (fun s => s / h)); [apply LC_derive|auto_derive; [exact Logic.I|field; exact N]]).
  assert (X : ex_derive (fun s => LC (s / h)) x) by (eexists; exact D). assert (U : Derive (fun s => LC (s / h)) x = / h * T (x / h)) by (apply is_derive_unique; exact D).
  apply (is_derive_ext (fun s => h * (fun s => LC (s / h)) s)); [reflexivity|]. replace (T (x / h)) with (h * (/ h * T (x / h))) by (field; exact N). apply (is_derive_scal (fun s => LC (s / h))). exact D.
Qed.
Lemma KI1_d h x : h <> 0 -> is_derive (KI1 h) x (KI2 h x).
Proof.
  intros N. unfold KI1, KI2. replace (T1 (x / h) / h) with (scal (/ h) (T1 (x / h))) by (unfold scal; cbn; unfold mult; cbn; field; exact N). apply (is_derive_comp T (fun s => s / h)); [apply T_derive|auto_derive; [exact Logic.I|field; exact N]].
Qed.
Lemma T_far : is_lim (fun x => T x) p_infty (1 / 2).
Proof.
  unfold T. replace (Finite (1 / 2)) with (Rbar_div (Finite (1 - 0)) (Finite (2 * (1 + 0)))) by (cbn; f_equal; field).
  assert (E : is_lim (fun x => exp (- x)) p_infty 0).
  { apply (is_lim_comp exp (fun x => - x) p_infty 0 m_infty); [apply is_lim_exp_m|apply (is_lim_opp (fun x => x) p_infty p_infty); apply is_lim_id|]. exists 0. intros; discriminate. }
  apply is_lim_div.
  - apply is_lim_minus'; [apply is_lim_const|exact E].
  - apply (is_lim_scal_l (fun y => 1 + exp (- y)) 2 p_infty (1 + 0)). apply is_lim_plus'; [apply is_lim_const|exact E].
  - cbn. intros [= K]. lra.
  - cbn. unfold Rbar_mult; cbn. exact Logic.I.
Qed.

Lemma odd_lim (K : R -> R) l : is_lim K p_infty l -> is_lim (fun z => msign z * K (Rabs z)) p_infty l /\ is_lim (fun z => msign z * K (Rabs z)) m_infty (Rbar_opp l).
Proof.
  intros L. split.
  - apply (is_lim_ext_loc K); [|exact L]. exists 0. intros x Hx. rewrite msign_pos, Rabs_right by lra. ring.
  - apply (is_lim_ext_loc (fun z => - K (- z))); [exists 0; intros x Hx; rewrite msign_neg, Rabs_left by lra; ring|]. apply (is_lim_opp (fun z => K (- z))).
    apply (is_lim_comp K (fun x => - x) m_infty l p_infty L); [apply (is_lim_opp (fun x => x) m_infty m_infty); apply is_lim_id|]. exists 0. intros; discriminate.
Qed.
Lemma lim_div (K : R -> R) h l : 0 < h -> is_lim K p_infty l -> is_lim (fun x => K (x / h)) p_infty l.
Proof.
  intros Hh L. apply (is_lim_comp K (fun x => x / h) p_infty l p_infty L); [|exists 0; intros; discriminate].
  replace p_infty with (Rbar_mult p_infty (/ h)) at 2. { apply (is_lim_scal_r (fun x => x) (/ h) p_infty p_infty). apply is_lim_id. }
  cbn. destruct (Rle_dec 0 (/ h)) as [A|A]; [destruct (Rle_lt_or_eq_dec 0 (/ h) A) as [B|B]; [reflexivity|]|]; pose proof (Rinv_0_lt_compat h Hh); exfalso; lra.
Qed.
Lemma KE1_lim h : 0 < h -> is_lim (KE1 h) p_infty (/ 2).
Proof.
  intros Hh. unfold KE1. apply (lim_div (fun x => / 2 * (1 - exp (- x))) h _ Hh).
  assert (E : is_lim (fun x => exp (- x)) p_infty 0).
  { apply (is_lim_comp exp (fun x => - x) p_infty 0 m_infty); [apply is_lim_exp_m|apply (is_lim_opp (fun x => x) p_infty p_infty); apply is_lim_id|]. exists 0. intros; discriminate. }
  replace (Finite (/ 2)) with (Rbar_mult (/ 2) (Finite (1 - 0))) by (cbn; f_equal; field). apply (is_lim_scal_l (fun x => 1 - exp (- x))). apply is_lim_minus'; [apply is_lim_const|exact E].
Qed.
Lemma KI1_lim h : 0 < h -> is_lim (KI1 h) p_infty (/ 2).
Proof. intros Hh. unfold KI1. apply (lim_div T h _ Hh). replace (Finite (/ 2)) with (Finite (1 / 2)) by (f_equal; field). apply T_far. Qed.

(** exact antiderivatives of the vertical profile *)
Definition Hs (h z : R) : R := if Rlt_dec 0 h then KE h (Rabs z) else KI (- h) (Rabs z).
Definition Hp (h z : R) : R := msign z * (if Rlt_dec 0 h then KE1 h (Rabs z) else KI1 (- h) (Rabs z)).
Lemma abs_div z h : 0 < h -> Rabs (z / h) = Rabs z / h.
Proof. intros K. unfold Rdiv. rewrite Rabs_mult, (Rabs_right (/ h)); [reflexivity|]. left. apply Rinv_0_lt_compat, K. Qed.
Lemma vprof_exp h z : 0 < h -> vprofile h z = KE2 h (Rabs z).
Proof. intros K. unfold vprofile, KE2. destruct (Rlt_dec 0 h) as [A|A]; [|lra]. rewrite abs_div by exact K. field. lra. Qed.
Lemma vprof_iso h z : h < 0 -> vprofile h z = KI2 (- h) (Rabs z).
Proof.
  intros K. unfold vprofile, KI2, T1, sech. destruct (Rlt_dec 0 h) as [A|A]; [lra|]. rewrite (Rabs_left h K). 
  replace (Rabs (z / (2 * h))) with (Rabs z / - h / 2).
  2:{ replace (z / (2 * h)) with (- (z / (2 * - h))) by (field; lra). rewrite Rabs_Ropp, abs_div by lra. field. lra. }
  set (u := Rabs z / - h). replace (exp (- u)) with (exp (- (u / 2)) * exp (- (u / 2))) by (rewrite <- exp_plus; f_equal; field).
  assert (E : exp (u / 2) = / exp (- (u / 2))) by (rewrite exp_Ropp, Rinv_inv; reflexivity). rewrite E. pose proof (exp_pos (- (u / 2))). set (e := exp _) in *. clearbody e u. field. repeat split; nra.
Qed.
Lemma Hs_d h z : h <> 0 -> is_derive (Hs h) z (Hp h z).
Proof.
  intros N. unfold Hs, Hp. destruct (Rlt_dec 0 h) as [A|A].
  - apply (even_derive (KE h) (KE1 h)); [intros; apply KE_d, N|]. unfold KE1. replace (- (0 / h)) with 0 by (field; exact N). rewrite exp_0. ring.
  - apply (even_derive (KI (- h)) (KI1 (- h))); [intros; apply KI_d; lra|]. unfold KI1. replace (0 / - h) with 0 by (field; lra). apply T_0.
Qed.
Lemma Hp_d h z : h <> 0 -> is_derive (Hp h) z (vprofile h z).
Proof.
  intros N. unfold Hp. destruct (Rlt_dec 0 h) as [A|A].
  - rewrite vprof_exp by exact A. apply (odd_derive (KE1 h) (KE2 h)); [intros; apply KE1_d, N|]. unfold KE1. replace (- (0 / h)) with 0 by (field; exact N). rewrite exp_0. ring.
  - rewrite vprof_iso by lra. apply (odd_derive (KI1 (- h)) (KI2 (- h))); [intros; apply KI1_d; lra|]. unfold KI1. replace (0 / - h) with 0 by (field; lra). apply T_0.
Qed.
Lemma Hs_0 h : h <> 0 -> Hs h 0 = 0.
Proof.
  intros N. unfold Hs, KE, KI. rewrite Rabs_R0. destruct (Rlt_dec 0 h) as [A|A].
  - replace (0 / h) with 0 by (field; exact N). rewrite Ropp_0, exp_0. ring.
  - replace (0 / - h) with 0 by (field; lra). rewrite LC_0. ring.
Qed.
Lemma Hp_0 h : Hp h 0 = 0. Proof. unfold Hp. rewrite msign_0. ring. Qed.
Lemma Hp_lim h : h <> 0 -> is_lim (Hp h) p_infty (/ 2) /\ is_lim (Hp h) m_infty (- / 2).
Proof.
  intros N. unfold Hp. destruct (Rlt_dec 0 h) as [A|A].
  - apply (odd_lim (KE1 h) (Finite (/ 2))). apply KE1_lim, A.
  - apply (odd_lim (KI1 (- h)) (Finite (/ 2))). apply KI1_lim; lra.
Qed.
Lemma vert_eval P z : scaleHeight P <> 0 -> exists Hc, createVertical P z = (Fin Hc, Fin (Hp (scaleHeight P) z), Fin (vprofile (scaleHeight P) z)) /\ Rabs (Hc - Hs (scaleHeight P) z) <= vtol (scaleHeight P) z.
Proof.
  set (h := scaleHeight P). intros N. assert (H05 : 0.5 = / 2) by lra. unfold createVertical, Hp, Hs, vtol. fold h. destruct (Rlt_dec 0 h) as [A|A].
  - rewrite (Rlt_b_t _ _ A). unfold verticalExp. replace (z * (1 / h)) with (z / h) by (field; exact N). rewrite (vprof_exp h z A). rewrite (abs_div z h A), !H05. set (x := Rabs z / h).
    assert (X : 0 <= x) by (unfold x; apply Rmult_le_pos; [apply Rabs_pos|left; apply Rinv_0_lt_compat, A]).
    eexists. split.
    + apply (f_equal2 pair); [apply (f_equal2 pair)|]; [reflexivity| |]; f_equal; unfold KE1, KE2; fold x; [|unfold Rdiv; lra]. lra.
    + unfold KE. fold x. destruct (Rle_dec x 0.00001) as [B|B].
      * rewrite (Rlt_b_f 0.00001 x) by lra. pose proof (exp_lo3 x X) as C1. pose proof (exp_hi4 x X) as C2. set (e := exp (- x)) in *. clearbody e x.
        replace (/ 2 / (1 / h) * (x * x * (/ 2 - 1 / 6 * x)) - h / 2 * (e - 1 + x)) with (- (h / 2 * (e - (1 - x + x ^ 2 / 2 - x ^ 3 / 6)))) by (field; exact N).
        rewrite Rabs_Ropp, Rabs_right by (apply Rle_ge; apply Rmult_le_pos; lra).
        replace (h * x ^ 4 / 48) with (h / 2 * (x ^ 4 / 24)) by field. apply Rmult_le_compat_l; lra.
      * rewrite (Rlt_b_t 0.00001 x) by lra. right. replace (/ 2 / (1 / h) * (exp (- x) - 1 + x) - h / 2 * (exp (- x) - 1 + x)) with 0 by (field; exact N). apply Rabs_R0.
  - assert (A' : h < 0) by (destruct (Rtotal_order h 0) as [U|[U|U]]; [exact U|contradiction|lra]). rewrite (Rlt_b_f 0 h), (Rlt_b_t _ _ A') by lra. unfold verticalIso.
    replace (z * (1 / - h)) with (z / - h) by (field; exact N). rewrite (vprof_iso h z A'). rewrite (abs_div z (- h)) by lra. rewrite !H05.
    replace (Rabs (z / h)) with (Rabs z / - h) by (replace (z / h) with (- (z / - h)) by (field; lra); rewrite Rabs_Ropp, abs_div by lra; reflexivity). set (x := Rabs z / - h).
    assert (X : 0 <= x) by (unfold x; apply Rmult_le_pos; [apply Rabs_pos|left; apply Rinv_0_lt_compat; lra]).
    rewrite (Rabs_left h A'). pose proof (exp_pos (- x)) as EP. eexists. split.
    + apply (f_equal2 pair); [apply (f_equal2 pair)|]; [reflexivity| |]; f_equal; unfold KI1, KI2, T, T1, pow_2; fold x; set (e := exp (- x)) in *; clearbody e x; field; lra.
    + unfold KI. fold x. destruct (Rle_dec x 0.001) as [B|B].
      * rewrite (Rlt_b_f 0.001 x) by lra. assert (X1 : 0 <= x <= 1) by lra. pose proof (LC_bound x X1) as C. set (e := LC x) in *. clearbody e x.
        replace (1 / (1 / - h) * (x * x * (1 / 8 - 1 / 192 * x * x)) - - h * e) with (- (- h * (e - (x ^ 2 / 8 - x ^ 4 / 192)))) by (field; lra).
        rewrite Rabs_Ropp, Rabs_right by (apply Rle_ge; apply Rmult_le_pos; lra).
        replace (- h * x ^ 6 / 2880) with (- h * (x ^ 6 / 2880)) by field. apply Rmult_le_compat_l; lra.
      * rewrite (Rlt_b_t 0.001 x) by lra. right. unfold LC. replace (/ 2 * (1 + exp (- x))) with ((1 + exp (- x)) / 2) by field. set (q := ln _). clearbody q. 
        replace (1 / (1 / - h) * (/ 2 * x + q) - - h * (x / 2 + q)) with 0 by (field; lra). apply Rabs_R0.
Qed.
