(** DoublePowerLaw in the limit of small actions *)
From Coq Require Import Reals Lra Psatz Bool ZArith.
From Coquelicot Require Import Coquelicot.
From Verif Require Import RandReal RandRealProofs PolyModel PolyProofs CoordModel CoordSpec CoordCalc RootProofs DiskModel DiskProofs2 DfModel DfSpec DfProofs DfProofs2 DfProofs3.
Local Open Scope R_scope.

Lemma power_lim k n : 0 < k -> 0 < n -> filterlim (fun x => Rpower (x / k) n) (at_right 0) (locally 0).
Proof.
  intros K N. unfold Rpower. apply (filterlim_comp _ _ _ (fun x => n * ln (x / k)) exp _ (Rbar_locally m_infty) (locally 0)); [|apply is_lim_exp_m].
  apply (filterlim_comp _ _ _ (fun x => ln (x / k)) (fun y => n * y) _ (Rbar_locally m_infty) (Rbar_locally m_infty)).
  - apply (filterlim_comp _ _ _ (fun x => x / k) ln _ (at_right 0) (Rbar_locally m_infty)); [|apply is_lim_ln_0].
    intros Q (e & H). assert (Ke : 0 < e * k) by (apply Rmult_lt_0_compat; [apply cond_pos|exact K]). exists (mkposreal _ Ke). intros y B Y. apply H; [|apply Rdiv_lt_0_compat; lra].
    unfold ball in *. cbn in *. unfold AbsRing_ball, abs, minus, plus, opp in *. cbn in *. rewrite Ropp_0, Rplus_0_r in *. rewrite Rabs_right in B by lra. assert (0 < y / k) by (apply Rdiv_lt_0_compat; lra). rewrite Rabs_right by lra.
    apply (Rmult_lt_reg_r k); [exact K|]. unfold Rdiv. rewrite Rmult_assoc, Rinv_l by lra. lra.
  - intros Q (M & H). exists (M / n). intros y B. apply H. apply (Rmult_lt_compat_l n) in B; [|exact N]. replace (n * (M / n)) with M in B by (field; lra). exact B.
Qed.
Lemma scale_lim c : 0 < c -> filterlim (fun t => t * c) (at_right 0) (at_right 0).
Proof.
  intros K Q (e & H). assert (Ke : 0 < e / c) by (apply Rdiv_lt_0_compat; [apply cond_pos|exact K]). exists (mkposreal _ Ke). intros y B Y. apply H; [|apply Rmult_lt_0_compat; lra].
  unfold ball in *. cbn in *. unfold AbsRing_ball, abs, minus, plus, opp in *. cbn in *. rewrite Ropp_0, Rplus_0_r in *. rewrite Rabs_right in B by lra. assert (0 < y * c) by (apply Rmult_lt_0_compat; lra). rewrite Rabs_right by lra.
  apply (Rmult_lt_compat_r c) in B; [|exact K]. unfold Rdiv in B. rewrite Rmult_assoc, Rinv_l in B by lra. lra.
Qed.
Lemma id_lim : filterlim (fun t : R => t) (at_right 0) (locally 0).
Proof. intros Q (e & H). exists e. intros y B _. apply H, B. Qed.
Lemma cont_lim (f u : R -> R) : continuous f 0 -> filterlim u (at_right 0) (locally 0) -> filterlim (fun x => f (u x)) (at_right 0) (locally (f 0)).
Proof. intros C L. apply (filterlim_comp _ _ _ u f _ (locally 0) (locally (f 0))); [exact L|exact C]. Qed.
Lemma ln_1p_cont k : continuous (fun u => k * ln (1 + u)) 0.
Proof. apply (ex_derive_continuous (fun u => k * ln (1 + u)) 0). auto_derive. lra. Qed.

Lemma limp (f g : R -> R) (a b : R) : filterlim f (at_right 0) (locally a) -> filterlim g (at_right 0) (locally b) -> filterlim (fun x => f x + g x) (at_right 0) (locally (a + b)).
Proof. intros A B. apply (filterlim_comp_2 (G := locally a) (H := locally b) f g Rplus A B). apply (filterlim_plus (V := R_NormedModule) a b). Qed.
Lemma limm (f g : R -> R) (a b : R) : filterlim f (at_right 0) (locally a) -> filterlim g (at_right 0) (locally b) -> filterlim (fun x => f x * g x) (at_right 0) (locally (a * b)).
Proof. intros A B. apply (filterlim_comp_2 (G := locally a) (H := locally b) f g Rmult A B). apply (filterlim_mult (K := R_AbsRing) a b). Qed.
Section Lim.
Variables (P : dplPar) (beta : R).
Hypothesis V : dplValid P.
Hypothesis B2 : 0 <= beta < 2.
Hypothesis KC : 0 < dJcore P.
Lemma J0_pos : 0 < dJ0 P. Proof. destruct V as (_ & A & _). exact A. Qed.
Lemma Hf_alt h : 0 < h -> Hf P beta h = exp (dSlopeIn P * ln (dJ0 P / dJcore P) + (dSlopeIn P / dSteep P * ln (1 + Rpower (h / dJ0 P) (dSteep P)) + - dSlopeIn P / 2 * ln (1 + (h / dJcore P) * (h / dJcore P - beta)))).
Proof.
  intros K. pose proof J0_pos as J0. pose proof V as (_ & _ & _ & _ & _ & _ & V7 & _). unfold Hf. destruct (Rlt_dec 0 (dJcore P)); [|contradiction].
  pose proof (core_pos beta (dJcore P / h) B2) as C1. pose proof (core_pos beta (h / dJcore P) B2) as C2.
  assert (X : 0 < h / dJ0 P) by (apply Rdiv_lt_0_compat; lra). assert (Y : 0 < h / dJcore P) by (apply Rdiv_lt_0_compat; lra).
  unfold J0heS. unfold Rpower at 1 3. rewrite <- exp_plus. f_equal.
  assert (L1 : ln (1 + Rpower (dJ0 P / h) (dSteep P)) = dSteep P * (ln (dJ0 P) - ln h) + ln (1 + Rpower (h / dJ0 P) (dSteep P))).
  { assert (E : 1 + Rpower (dJ0 P / h) (dSteep P) = Rpower (dJ0 P / h) (dSteep P) * (1 + Rpower (h / dJ0 P) (dSteep P))).
    { rewrite Rmult_plus_distr_l, Rmult_1_r. rewrite Rpower_mult_distr by (try apply Rdiv_lt_0_compat; lra). replace (dJ0 P / h * (h / dJ0 P)) with 1 by (field; lra). replace (Rpower 1 (dSteep P)) with 1; [ring|]. unfold Rpower. rewrite ln_1, Rmult_0_r, exp_0. reflexivity. }
    rewrite E, ln_mult by (try apply exp_pos; pose proof (exp_pos (dSteep P * ln (h / dJ0 P))); unfold Rpower; lra). f_equal. unfold Rpower. rewrite ln_exp, ln_div by lra. reflexivity. }
  assert (L2 : ln (1 + dJcore P / h * (dJcore P / h - beta)) = 2 * (ln (dJcore P) - ln h) + ln (1 + h / dJcore P * (h / dJcore P - beta))).
  { assert (E : 1 + dJcore P / h * (dJcore P / h - beta) = (dJcore P / h) * (dJcore P / h) * (1 + h / dJcore P * (h / dJcore P - beta))) by (field; lra).
    assert (0 < dJcore P / h) by (apply Rdiv_lt_0_compat; lra). rewrite E, ln_mult, ln_mult, !ln_div by (try lra; try (apply Rmult_lt_0_compat; lra)). ring. }
  rewrite L1, L2, ln_div by lra. field. lra.
Qed.
Lemma Hf_lim : filterlim (Hf P beta) (at_right 0) (locally (Rpower (dJ0 P / dJcore P) (dSlopeIn P))).
Proof.
  pose proof J0_pos as J0. pose proof V as (_ & _ & _ & _ & _ & _ & V7 & _).
  apply (filterlim_ext_loc (fun h => exp (dSlopeIn P * ln (dJ0 P / dJcore P) + (dSlopeIn P / dSteep P * ln (1 + Rpower (h / dJ0 P) (dSteep P)) + - dSlopeIn P / 2 * ln (1 + (h / dJcore P) * (h / dJcore P - beta)))))).
  - exists (mkposreal 1 Rlt_0_1). intros y _ K. symmetry. apply Hf_alt, K.
  - pose proof (cont_lim (fun u => dSlopeIn P / dSteep P * ln (1 + u)) _ (ln_1p_cont _) (power_lim (dJ0 P) (dSteep P) J0 V7)) as L1. cbv beta in L1.
    assert (C2 : continuous (fun h => - dSlopeIn P / 2 * ln (1 + (h / dJcore P) * (h / dJcore P - beta))) 0).
    { apply (ex_derive_continuous (fun h => - dSlopeIn P / 2 * ln (1 + (h / dJcore P) * (h / dJcore P - beta))) 0). auto_derive. pose proof (core_pos beta (0 / dJcore P) B2). unfold Rdiv, Rminus in H. exact (conj H Logic.I) || exact H. }
    pose proof (cont_lim _ _ C2 id_lim) as L2. cbv beta in L2.
    replace (- dSlopeIn P / 2 * ln (1 + 0 / dJcore P * (0 / dJcore P - beta))) with 0 in L2 by (replace (1 + 0 / dJcore P * (0 / dJcore P - beta)) with 1 by (unfold Rdiv; ring); rewrite ln_1; ring).
    replace (dSlopeIn P / dSteep P * ln (1 + 0)) with 0 in L1 by (rewrite Rplus_0_r, ln_1; ring).
    unfold Rpower at 1. apply (filterlim_comp _ _ _ (fun h => dSlopeIn P * ln (dJ0 P / dJcore P) + (dSlopeIn P / dSteep P * ln (1 + Rpower (h / dJ0 P) (dSteep P)) + - dSlopeIn P / 2 * ln (1 + (h / dJcore P) * (h / dJcore P - beta)))) exp _ (locally (dSlopeIn P * ln (dJ0 P / dJcore P))) _).
    + pose proof (limp _ _ _ _ (filterlim_const (dSlopeIn P * ln (dJ0 P / dJcore P))) (limp _ _ _ _ L1 L2)) as L. cbv beta in L. rewrite Rplus_0_r, Rplus_0_r in L. exact L.
    + apply continuous_exp.
Qed.
Lemma Gf_lim : filterlim (Gf P) (at_right 0) (locally 1).
Proof.
  pose proof J0_pos as J0. pose proof V as (_ & _ & _ & _ & _ & _ & V7 & V8 & _).
  assert (C1 : continuous (fun u => Rpower (1 + u) (- dSlopeOut P / dSteep P)) 0) by (unfold Rpower; apply (ex_derive_continuous (fun u => exp (- dSlopeOut P / dSteep P * ln (1 + u))) 0); auto_derive; lra).
  pose proof (cont_lim _ _ C1 (power_lim (dJ0 P) (dSteep P) J0 V7)) as L1. cbv beta in L1.
  assert (E1 : Rpower (1 + 0) (- dSlopeOut P / dSteep P) = 1) by (unfold Rpower; rewrite Rplus_0_r, ln_1, Rmult_0_r, exp_0; reflexivity). rewrite E1 in L1.
  assert (L2 : filterlim (fun g => if Rlt_dec 0 (dJcutoff P) then exp (- gJczS P g) else 1) (at_right 0) (locally 1)).
  { destruct (Rlt_dec 0 (dJcutoff P)) as [L|L]; [|apply filterlim_const].
    assert (C : continuous (fun u => exp (- u)) 0) by (apply (ex_derive_continuous (fun u => exp (- u)) 0); auto_derive; exact Logic.I).
    pose proof (cont_lim _ _ C (power_lim (dJcutoff P) (dCutStr P) L V8)) as L2. cbv beta in L2. rewrite Ropp_0, exp_0 in L2. exact L2. }
  pose proof (limm _ _ _ _ L1 L2) as L. cbv beta in L. rewrite Rmult_1_r in L. exact L.
Qed.
Lemma dplDF_factors J : dplDF P beta J = dNorm P / (2 * PI * dJ0 P) ^ 3 * Hf P beta (hOf P J) * Gf P (gOf P J) * (1 + dRotFrac P * rotS (dJphi0 P) (v3 J)).
Proof.
  unfold dplDF, dplEven, Hf, Gf. cbv zeta. fold (J0heS P (hOf P J)) (gJ0eS P (gOf P J)) (gJczS P (gOf P J)).
  replace ((dJcore P / hOf P J) ^ 2 - beta * (dJcore P / hOf P J) + 1) with (1 + dJcore P / hOf P J * (dJcore P / hOf P J - beta)) by ring. ring.
Qed.
Lemma dpl_lim (Jr Jz Jp : R) : physical (Jr, Jz, Jp) -> (Jr, Jz, Jp) <> (0, 0, 0) -> dRotFrac P = 0 ->
  filterlim (fun t => dplDF P beta (t * Jr, t * Jz, t * Jp)) (at_right 0) (locally (dNorm P / (2 * PI * dJ0 P) ^ 3 * Rpower (dJ0 P / dJcore P) (dSlopeIn P))).
Proof.
  intros F N R0. destruct (hg_pos P V _ F N) as (Kh & Kg). set (h := hOf P (Jr, Jz, Jp)) in *. set (g := gOf P (Jr, Jz, Jp)) in *. set (k := dNorm P / (2 * PI * dJ0 P) ^ 3).
  apply (filterlim_ext_loc (fun t => k * Hf P beta (t * h) * Gf P (t * g))).
  - exists (mkposreal 1 Rlt_0_1). intros t _ K. rewrite dplDF_factors, R0, Rmult_0_l, Rplus_0_r, Rmult_1_r. fold k.
    replace (hOf P (t * Jr, t * Jz, t * Jp)) with (t * h) by (unfold h, hOf; rewrite Rabs_mult, (Rabs_right t) by lra; ring). replace (gOf P (t * Jr, t * Jz, t * Jp)) with (t * g) by (unfold g, gOf; rewrite Rabs_mult, (Rabs_right t) by lra; ring). reflexivity.
  - replace (k * Rpower (dJ0 P / dJcore P) (dSlopeIn P)) with (k * Rpower (dJ0 P / dJcore P) (dSlopeIn P) * 1) by ring.
    apply limm; [apply limm; [apply filterlim_const|]|].
    + apply (filterlim_comp _ _ _ (fun t => t * h) (Hf P beta) _ (at_right 0) _); [apply scale_lim, Kh|apply Hf_lim].
    + apply (filterlim_comp _ _ _ (fun t => t * g) (Gf P) _ (at_right 0) _); [apply scale_lim, Kg|apply Gf_lim].
Qed.
(** at the origin itself the code returns zero *)
Lemma dpl_origin : 0 < dSlopeIn P -> dRotFrac P = 0 -> fst (dplEval P beta (0, 0, 0)) = Fin 0.
Proof.
  intros K R0. unfold dplEval. cbv zeta. cbn [fst]. rewrite !Rmult_0_r, !Rplus_0_r, (Req_b_t (dRotFrac P) 0 R0), (Rlt_b_t _ _ KC), (Req_b_t 0 0 eq_refl). cbn [negb andb].
  unfold ndiv at 1 2. unfold ninvn, ninv. rewrite (Req_b_t 0 0 eq_refl). cbn [nmul]. rewrite (Req_b_f (dJcore P) 0) by lra. unfold Rpos_b. rewrite (Rlt_b_t _ _ KC). cbn [Bool.eqb]. unfold nsub. cbn [nopp nadd nmul Bool.eqb].
  unfold npow at 1. assert (-0.5 = - / 2) by lra. rewrite (Req_b_f (-0.5 * dSlopeIn P) 0), (Rlt_b_f 0 (-0.5 * dSlopeIn P)) by lra. cbn [nmul nadd]. f_equal. ring.
Qed.
End Lim.
