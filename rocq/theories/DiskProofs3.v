(** Disk models: vertical functions *)
From Coq Require Import Reals Lra Psatz Lia Bool ZArith List.
From Coquelicot Require Import Coquelicot.
From Verif Require Import RandReal RandRealProofs PolyModel PolyProofs CoordModel RootProofs AnalyticSpec DiskModel DiskSpec.
Import ListNotations.
Local Open Scope R_scope.

(** even and odd extensions of a function of |z| *)
Lemma msign_pos z : 0 < z -> msign z = 1. Proof. intros K. unfold msign. rewrite (Rlt_b_t _ _ K). reflexivity. Qed.
Lemma msign_neg z : z < 0 -> msign z = -1. Proof. intros K. unfold msign. rewrite (Rlt_b_f 0 z) by lra. rewrite (Rlt_b_t _ _ K). reflexivity. Qed.
Lemma msign_0 : msign 0 = 0. Proof. unfold msign. rewrite !(Rlt_b_f 0 0) by lra. reflexivity. Qed.
Lemma deriv_small (g : R -> R) l : is_derive g 0 l -> forall e : posreal, locally 0 (fun y => Rabs (g y - g 0 - l * y) <= e * Rabs y).
Proof.
  intros (_ & D) e. specialize (D 0 (fun P H => H) e). revert D. apply filter_imp. intros y K.
  unfold norm, minus, plus, opp, scal in K; cbn in K. unfold mult in K; cbn in K. unfold abs in K; cbn in K.
  replace (g y - g 0 - l * y) with (g y + - g 0 + - ((y + - 0) * l)) by ring. replace (Rabs y) with (Rabs (y + - 0)) by (f_equal; ring). exact K.
Qed.
Lemma small_deriv (g : R -> R) l : (forall e : posreal, locally 0 (fun y => Rabs (g y - g 0 - l * y) <= e * Rabs y)) -> is_derive g 0 l.
Proof.
  intros H. split; [apply is_linear_scal_l|]. intros x Hx. rewrite <- (is_filter_lim_locally_unique _ _ Hx). clear x Hx. intros e.
  generalize (H e). apply filter_imp. intros y K. unfold norm, minus, plus, opp, scal; cbn. unfold mult; cbn. unfold abs; cbn.
  assert (E : y + - 0 = y) by ring. rewrite E. replace (g y + - g 0 + - (y * l)) with (g y - g 0 - l * y) by ring. exact K.
Qed.
Lemma loc_abs (Q : R -> Prop) : locally 0 Q -> locally 0 (fun y => Q (Rabs y)).
Proof.
  intros (d & H). exists d. intros y K. apply H. unfold ball in *; cbn in *. unfold AbsRing_ball, abs, minus, plus, opp in *; cbn in *.
  replace (Rabs y + - 0) with (Rabs y) by ring. rewrite Rabs_Rabsolu. replace y with (y + - 0) by ring. exact K.
Qed.
Lemma even_derive (K K1 : R -> R) z : (forall x, is_derive K x (K1 x)) -> K1 0 = 0 -> is_derive (fun z => K (Rabs z)) z (msign z * K1 (Rabs z)).
Proof.
  intros D Z. destruct (Rtotal_order z 0) as [N|[E|N]].
  - rewrite (msign_neg z N), (Rabs_left z N). apply (is_derive_ext_loc (fun z => K (- z))).
    + assert (P : 0 < - z) by lra. exists (mkposreal _ P). intros y Hy. unfold ball in Hy; cbn in Hy. unfold AbsRing_ball, abs, minus, plus, opp in Hy; cbn in Hy. apply Rabs_def2 in Hy. rewrite Rabs_left; [reflexivity|lra].
    + assert (X : is_derive K (- z) (K1 (- z))) by apply D. apply (is_derive_comp K (fun z => - z) z (K1 (- z)) (-1) X). auto_derive; [exact Logic.I|ring].
  - subst z. rewrite msign_0, Rmult_0_l. apply small_deriv. intros e. generalize (loc_abs _ (deriv_small K (K1 0) (D 0) e)). apply filter_imp. intros y Hy. rewrite Rabs_R0. rewrite Rabs_Rabsolu in Hy. rewrite Z in Hy. rewrite Rmult_0_l in Hy |- *. exact Hy.
  - rewrite (msign_pos z N), (Rabs_right z) by lra. rewrite Rmult_1_l. apply (is_derive_ext_loc K).
    + exists (mkposreal _ N). intros y Hy. unfold ball in Hy; cbn in Hy. unfold AbsRing_ball, abs, minus, plus, opp in Hy; cbn in Hy. apply Rabs_def2 in Hy. rewrite Rabs_right; [reflexivity|lra].
    + apply D.
Qed.
Lemma odd_derive (K K1 : R -> R) z : (forall x, is_derive K x (K1 x)) -> K 0 = 0 -> is_derive (fun z => msign z * K (Rabs z)) z (K1 (Rabs z)).
Proof.
  intros D Z. destruct (Rtotal_order z 0) as [N|[E|N]].
  - rewrite (Rabs_left z N). apply (is_derive_ext_loc (fun z => - K (- z))).
    + assert (P : 0 < - z) by lra. exists (mkposreal _ P). intros y Hy. unfold ball in Hy; cbn in Hy. unfold AbsRing_ball, abs, minus, plus, opp in Hy; cbn in Hy. apply Rabs_def2 in Hy. rewrite msign_neg, Rabs_left by lra. change (- K (- y) = -1 * K (- y)). ring.
    + assert (X : is_derive K (- z) (K1 (- z))) by apply D. assert (Y : is_derive (fun z => K (- z)) z (- K1 (- z))).
      { replace (- K1 (- z)) with (scal (-1) (K1 (- z))) by (unfold scal; cbn; unfold mult; cbn; ring). apply (is_derive_comp K (fun z => - z) z (K1 (- z)) (-1) X). auto_derive; [exact Logic.I|ring]. }
      replace (K1 (- z)) with (- - K1 (- z)) by ring. apply (is_derive_opp (fun z => K (- z))). exact Y.
  - subst z. rewrite Rabs_R0. apply small_deriv. intros e. generalize (loc_abs _ (deriv_small K (K1 0) (D 0) e)). apply filter_imp. intros y Hy. rewrite Rabs_R0, msign_0. rewrite Rabs_Rabsolu, Z in Hy. rewrite Rmult_0_l.
    destruct (Rtotal_order y 0) as [N|[E|N]].
    + rewrite (msign_neg y N), (Rabs_left y N) in *. rewrite <- Rabs_Ropp. match goal with |- Rabs ?a <= _ => match type of Hy with Rabs ?b <= _ => replace a with b by ring end end. exact Hy.
    + subst y. rewrite Rabs_R0, Z, msign_0. rewrite Rabs_R0, Z in Hy. replace (0 * 0 - 0 - K1 0 * 0) with (0 - 0 - K1 0 * 0) by ring. exact Hy.
    + rewrite (msign_pos y N). rewrite (Rabs_right y) in * by lra. rewrite Rmult_1_l. exact Hy.
  - rewrite (Rabs_right z) by lra. apply (is_derive_ext_loc K).
    + exists (mkposreal _ N). intros y Hy. unfold ball in Hy; cbn in Hy. unfold AbsRing_ball, abs, minus, plus, opp in Hy; cbn in Hy. apply Rabs_def2 in Hy. rewrite msign_pos, Rabs_right by lra. change (K y = 1 * K y). ring.
    + apply D.
Qed.
(** comparison of two functions through their derivatives *)
Lemma nn_deriv (g g1 : R -> R) x : (forall y, 0 <= y <= x -> is_derive g y (g1 y)) -> (forall y, 0 <= y <= x -> 0 <= g1 y) -> g 0 = 0 -> 0 <= x -> 0 <= g x.
Proof.
  intros D P Z K. destruct (MVT_gen g 0 x g1) as (c & (C1 & C2) & E).
  - intros y Hy. rewrite Rmin_left, Rmax_right in Hy by lra. apply D. lra.
  - intros y Hy. rewrite Rmin_left, Rmax_right in Hy by lra. apply derivable_continuous_pt. exists (g1 y). apply is_derive_Reals. apply D. exact Hy.
  - rewrite Rmin_left in C1 by lra. rewrite Rmax_right in C2 by lra. rewrite Z in E. assert (0 <= g1 c) by (apply P; lra). nra.
Qed.
Lemma exp_lo1 x : 0 <= x -> 0 <= exp (- x) - (1 - x).
Proof. intros K. apply (nn_deriv (fun x => exp (- x) - (1 - x)) (fun x => 1 - exp (- x)) x); [|intros y (Y & _)|rewrite Ropp_0, exp_0; ring|exact K].
  - intros y _. auto_derive; [exact Logic.I|ring].
  - assert (exp (- y) <= exp 0) by (destruct (Req_EM_T y 0) as [->|N]; [rewrite Ropp_0; lra|left; apply exp_increasing; lra]). rewrite exp_0 in H. lra.
Qed.
Lemma exp_hi2 x : 0 <= x -> 0 <= 1 - x + x ^ 2 / 2 - exp (- x).
Proof. intros K. apply (nn_deriv (fun x => 1 - x + x ^ 2 / 2 - exp (- x)) (fun x => exp (- x) - (1 - x)) x); [|intros y (Y & _); apply exp_lo1, Y|rewrite Ropp_0, exp_0; field|exact K].
  intros y _. auto_derive; [exact Logic.I|field].
Qed.
Lemma exp_lo3 x : 0 <= x -> 0 <= exp (- x) - (1 - x + x ^ 2 / 2 - x ^ 3 / 6).
Proof. intros K. apply (nn_deriv (fun x => exp (- x) - (1 - x + x ^ 2 / 2 - x ^ 3 / 6)) (fun x => 1 - x + x ^ 2 / 2 - exp (- x)) x); [|intros y (Y & _); apply exp_hi2, Y|rewrite Ropp_0, exp_0; field|exact K].
  intros y _. auto_derive; [exact Logic.I|field].
Qed.
Lemma exp_hi4 x : 0 <= x -> 0 <= 1 - x + x ^ 2 / 2 - x ^ 3 / 6 + x ^ 4 / 24 - exp (- x).
Proof. intros K. apply (nn_deriv (fun x => 1 - x + x ^ 2 / 2 - x ^ 3 / 6 + x ^ 4 / 24 - exp (- x)) (fun x => exp (- x) - (1 - x + x ^ 2 / 2 - x ^ 3 / 6)) x); [|intros y (Y & _); apply exp_lo3, Y|rewrite Ropp_0, exp_0; field|exact K].
  intros y _. auto_derive; [exact Logic.I|field].
Qed.
(** tanh(x/2)/2 *)
Definition T (x : R) : R := (1 - exp (- x)) / (2 * (1 + exp (- x))).
Definition T1 (x : R) : R := exp (- x) / (1 + exp (- x)) ^ 2.
Lemma T_derive x : is_derive T x (T1 x).
Proof. unfold T, T1. pose proof (exp_pos (- x)). auto_derive; [lra|]. field. lra. Qed.
Lemma T1_T x : T1 x = 1 / 4 - T x ^ 2.
Proof. unfold T, T1. pose proof (exp_pos (- x)). field. lra. Qed.
Lemma T_0 : T 0 = 0. Proof. unfold T. rewrite Ropp_0, exp_0. field. Qed.
Lemma T_nn x : 0 <= x -> 0 <= T x.
Proof. intros K. apply (nn_deriv T T1); [intros; apply T_derive|intros y _; unfold T1; pose proof (exp_pos (- y)); left; apply Rdiv_lt_0_compat; [lra|nra]|apply T_0|exact K]. Qed.
Lemma T_hi1 x : 0 <= x -> 0 <= x / 4 - T x.
Proof.
  intros K. apply (nn_deriv (fun x => x / 4 - T x) (fun x => 1 / 4 - T1 x)); [|intros y _; rewrite T1_T; nra|rewrite T_0; field|exact K].
  intros y _. apply (is_derive_minus (fun x => x / 4) T); [auto_derive; [exact Logic.I|field]|apply T_derive].
Qed.
Lemma T_lo3 x : 0 <= x -> 0 <= T x - (x / 4 - x ^ 3 / 48).
Proof.
  intros K. apply (nn_deriv (fun x => T x - (x / 4 - x ^ 3 / 48)) (fun x => T1 x - (1 / 4 - x ^ 2 / 16))); [| |rewrite T_0; field|exact K].
  - intros y _. apply (is_derive_minus T (fun x => x / 4 - x ^ 3 / 48)); [apply T_derive|auto_derive; [exact Logic.I|field]].
  - intros y (Y & _). rewrite T1_T. pose proof (T_nn y Y). pose proof (T_hi1 y Y). nra.
Qed.
Lemma T_hi5 x : 0 <= x <= 1 -> 0 <= x / 4 - x ^ 3 / 48 + x ^ 5 / 480 - T x.
Proof.
  intros (K & K1). apply (nn_deriv (fun x => x / 4 - x ^ 3 / 48 + x ^ 5 / 480 - T x) (fun x => 1 / 4 - x ^ 2 / 16 + x ^ 4 / 96 - T1 x)); [| |rewrite T_0; field|exact K].
  - intros y _. apply (is_derive_minus (fun x => x / 4 - x ^ 3 / 48 + x ^ 5 / 480) T); [auto_derive; [exact Logic.I|field]|apply T_derive].
  - intros y (Y & Y1). rewrite T1_T. pose proof (T_lo3 y Y) as A. assert (B : 0 <= y / 4 - y ^ 3 / 48) by nra. assert (C : (y / 4 - y ^ 3 / 48) ^ 2 <= T y ^ 2) by (apply pow_incr; lra).
    assert (0 <= (y ^ 3) ^ 2) by apply pow2_ge_0. nra.
Qed.
(** ln cosh(x/2) *)
Definition LC (x : R) : R := x / 2 + ln ((1 + exp (- x)) / 2).
Lemma LC_derive x : is_derive LC x (T x).
Proof. unfold LC, T. pose proof (exp_pos (- x)). auto_derive; [lra|]. field. lra. Qed.
Lemma LC_0 : LC 0 = 0. Proof. unfold LC. rewrite Ropp_0, exp_0. replace ((1 + 1) / 2) with 1 by field. rewrite ln_1. field. Qed.
Lemma LC_bound x : 0 <= x <= 1 -> 0 <= LC x - (x ^ 2 / 8 - x ^ 4 / 192) <= x ^ 6 / 2880.
Proof.
  intros (K & K1). split.
  - apply (nn_deriv (fun x => LC x - (x ^ 2 / 8 - x ^ 4 / 192)) (fun x => T x - (x / 4 - x ^ 3 / 48))); [| |rewrite LC_0; field|exact K].
    + intros y _. apply (is_derive_minus LC (fun x => x ^ 2 / 8 - x ^ 4 / 192)); [apply LC_derive|auto_derive; [exact Logic.I|field]].
    + intros y (Y & _). apply T_lo3, Y.
  - cut (0 <= x ^ 2 / 8 - x ^ 4 / 192 + x ^ 6 / 2880 - LC x); [lra|]. apply (nn_deriv (fun x => x ^ 2 / 8 - x ^ 4 / 192 + x ^ 6 / 2880 - LC x) (fun x => x / 4 - x ^ 3 / 48 + x ^ 5 / 480 - T x)); [| |rewrite LC_0; field|exact K].
    + intros y _. apply (is_derive_minus (fun x => x ^ 2 / 8 - x ^ 4 / 192 + x ^ 6 / 2880) LC); [auto_derive; [exact Logic.I|field]|apply LC_derive].
    + intros y (Y & Y1). apply T_hi5. lra.
Qed.
