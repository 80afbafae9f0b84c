(** The DoublePowerLaw distribution function *)
From Coq Require Import Reals Lra Psatz Bool ZArith.
From Coquelicot Require Import Coquelicot.
From Verif Require Import RandReal RandRealProofs PolyModel PolyProofs CoordModel CoordSpec CoordCalc RootProofs DiskModel DiskProofs2 DfModel DfSpec DfProofs DfProofs2.
Local Open Scope R_scope.

Lemma dplConstruct_valid P beta : dplConstruct P beta = true <-> dplValid P /\ exists b, beta = Some b /\ 0 <= b.
Proof.
  unfold dplConstruct, dplValid. rewrite !andb_true_iff, !Rle_b_iff, !Rlt_b_iff, negb_true_iff, andb_false_iff, negb_false_iff, Rlt_b_iff.
  assert (EB : forall x y, Req_b x y = false <-> x <> y). { intros x y. destruct (Req_EM_T x y) as [E|E]; [rewrite (Req_b_t _ _ E)|rewrite (Req_b_f _ _ E)]; split; intros; try congruence; try reflexivity. }
  rewrite EB.
  assert (BB : match beta with Some b => Rle_b 0 b | None => false end = true <-> exists b, beta = Some b /\ 0 <= b).
  { destruct beta as [b|]; [rewrite Rle_b_iff; split; [intros; exists b; split; [reflexivity|assumption]|intros (b' & [= <-] & K); exact K]|split; [discriminate|intros (b' & [=] & _)]]. }
  rewrite BB. split.
  - intros H. decompose [and] H. repeat split; try assumption. lra.
  - intros (H & B). decompose [and] H. repeat split; try assumption. lra.
Qed.

Lemma ndiv_fin a h : h <> 0 -> ndiv (Fin a) (Fin h) = Fin (a / h).
Proof. intros K. unfold ndiv, ninvn, ninv. rewrite (Req_b_f _ _ K). cbn. f_equal. field. exact K. Qed.
Lemma npow_fin a n : 0 < a -> npow (Fin a) n = Fin (Rpower a n).
Proof.
  intros K. unfold npow. destruct (Req_EM_T n 0) as [E|E]; [rewrite (Req_b_t _ _ E); subst; rewrite Rpower_O by exact K; reflexivity|rewrite (Req_b_f _ _ E)].
  rewrite (Req_b_f a 0) by lra. rewrite mpow_pos by exact K. reflexivity.
Qed.
Lemma core_pos b c : 0 <= b < 2 -> 0 < 1 + c * (c - b).
Proof. intros K. assert (0 <= (c - b / 2) * (c - b / 2)) by apply Rle_0_sqr. nra. Qed.
Lemma tanh_bound x : -1 < tanh x < 1.
Proof.
  unfold tanh, sinh, cosh. pose proof (exp_pos x). pose proof (exp_pos (- x)). set (a := exp x) in *. set (b := exp (- x)) in *. clearbody a b.
  replace ((a - b) / 2 / ((a + b) / 2)) with ((a - b) / (a + b)) by (field; lra). split.
  - apply (Rmult_lt_reg_r (a + b)); [lra|]. unfold Rdiv. rewrite Rmult_assoc, Rinv_l by lra. lra.
  - apply (Rmult_lt_reg_r (a + b)); [lra|]. unfold Rdiv. rewrite Rmult_assoc, Rinv_l by lra. lra.
Qed.
Lemma ntanh_fin x : ntanh (Fin x) = Fin (tanh x).
Proof. unfold ntanh, tanh, sinh, cosh. pose proof (exp_pos x). pose proof (exp_pos (- x)). f_equal. field. lra. Qed.
Lemma sign_odd x : sign (- x) = - sign x.
Proof. destruct (Rlt_le_dec x 0) as [K|K]; [rewrite (sign_eq_1 (- x)), (sign_eq_m1 x) by lra; ring|]. destruct (Req_EM_T x 0) as [->|N]; [rewrite Ropp_0, sign_0; ring|]. rewrite (sign_eq_m1 (- x)), (sign_eq_1 x) by lra. reflexivity. Qed.
Lemma rotS_bound j x : -1 <= rotS j x <= 1.
Proof.
  unfold rotS. destruct j as [a|b|]; [|lra|lra]. destruct (Req_EM_T a 0).
  - destruct (Rlt_le_dec x 0) as [K|K]; [rewrite (sign_eq_m1 x) by lra; lra|]. destruct (Req_EM_T x 0) as [->|N]; [rewrite sign_0; lra|rewrite (sign_eq_1 x) by lra; lra].
  - pose proof (tanh_bound (x / a)). lra.
Qed.
Lemma tanh_odd x : tanh (- x) = - tanh x.
Proof. unfold tanh, sinh, cosh. rewrite Ropp_involutive. pose proof (exp_pos x). pose proof (exp_pos (- x)). field. lra. Qed.
Lemma rotS_odd j x : rotS j (- x) = - rotS j x.
Proof. unfold rotS. destruct j as [a|b|]; [|ring|ring]. destruct (Req_EM_T a 0); [apply sign_odd|]. replace (- x / a) with (- (x / a)) by (unfold Rdiv; ring). apply tanh_odd. Qed.

Lemma nm a b : nmul (Fin a) (Fin b) = Fin (a * b). Proof. reflexivity. Qed.
Lemma na a b : nadd (Fin a) (Fin b) = Fin (a + b). Proof. reflexivity. Qed.
Lemma ns a b : nsub (Fin a) (Fin b) = Fin (a - b). Proof. reflexivity. Qed.
Lemma no a : nopp (Fin a) = Fin (- a). Proof. reflexivity. Qed.
Ltac nn := rewrite ?nm, ?na, ?ns, ?no; repeat (rewrite ?nm; rewrite ?na; rewrite ?ns; rewrite ?no).
Section DPL.
Variables (P : dplPar) (beta : R).
Hypothesis V : dplValid P.
Hypothesis B2 : 0 <= beta < 2.

Lemma hg_pos J : physical J -> J <> (0, 0, 0) -> 0 < hOf P J /\ 0 < gOf P J.
Proof.
  destruct J as [[Jr Jz] Jp]. intros (F1 & F2) N. destruct V as (_ & _ & _ & _ & _ & _ & _ & _ & V1 & V2 & V3 & V4 & V5 & V6 & _). unfold hOf, gOf. pose proof (Rabs_pos Jp) as A.
  destruct (Req_EM_T Jp 0) as [E|E].
  - subst Jp. rewrite Rabs_R0. destruct (Req_EM_T Jr 0) as [E1|E1]; [|assert (0 < Jr) by lra; split; nra]. destruct (Req_EM_T Jz 0) as [E2|E2]; [subst; contradiction N; reflexivity|]. assert (0 < Jz) by lra. split; nra.
  - pose proof (Rabs_pos_lt _ E) as A'. assert (0 < (3 - dCoefJrIn P - dCoefJzIn P) * Rabs Jp) by (apply Rmult_lt_0_compat; lra). assert (0 < (3 - dCoefJrOut P - dCoefJzOut P) * Rabs Jp) by (apply Rmult_lt_0_compat; lra).
    assert (0 <= dCoefJrIn P * Jr) by (apply Rmult_le_pos; lra). assert (0 <= dCoefJzIn P * Jz) by (apply Rmult_le_pos; lra). assert (0 <= dCoefJrOut P * Jr) by (apply Rmult_le_pos; lra). assert (0 <= dCoefJzOut P * Jz) by (apply Rmult_le_pos; lra). split; lra.
Qed.
Lemma even_pos J : 0 < dplEven P beta J.
Proof.
  destruct V as (V1 & V2 & _). pose proof PI_RGT_0 as HP. unfold dplEven. cbv zeta. assert (0 < dNorm P / (2 * PI * dJ0 P) ^ 3) by (apply Rdiv_lt_0_compat; [exact V1|apply pow_lt; apply Rmult_lt_0_compat; lra]).
  set (nn := dNorm P / _) in *. clearbody nn. apply Rmult_lt_0_compat; [apply Rmult_lt_0_compat; [apply Rmult_lt_0_compat; [apply Rmult_lt_0_compat; [exact H|apply exp_pos]|apply exp_pos]|]|].
  - destruct (Rlt_dec 0 (dJcutoff P)); [apply exp_pos|lra].
  - destruct (Rlt_dec 0 (dJcore P)); [apply exp_pos|lra].
Qed.
Definition rotN (Jphi : R) : num := if negb (Req_b (dRotFrac P) 0) && nfin (dJphi0 P) then nmul (Fin (dRotFrac P)) (ntanh (ndiv (Fin Jphi) (dJphi0 P))) else Fin 0.
Lemma rotN_eq Jp : rotOk P Jp -> rotN Jp = Fin (dRotFrac P * rotS (dJphi0 P) Jp).
Proof.
  unfold rotOk, rotN, rotS. intros K. destruct (Req_EM_T (dRotFrac P) 0) as [E|E]; [rewrite (Req_b_t _ _ E), E; cbn [negb andb]; f_equal; ring|rewrite (Req_b_f _ _ E); cbn [negb andb]].
  destruct (dJphi0 P) as [a|s|]; [|cbn; f_equal; ring|contradiction]. cbn [nfin]. destruct (Req_EM_T a 0) as [Ea|Ea].
  - assert (N : Jp <> 0) by (destruct K as [K|[K|K]]; [contradiction|exact K|contradiction]). subst a. unfold ndiv, ninvn, ninv. rewrite (Req_b_t 0 0 eq_refl). cbn [nmul]. rewrite (Req_b_f _ _ N). cbn [Bool.eqb]. unfold Rpos_b. destruct (Rlt_le_dec 0 Jp) as [L|L].
    + rewrite (Rlt_b_t _ _ L), (sign_eq_1 Jp) by lra. cbn. reflexivity.
    + rewrite (Rlt_b_f 0 Jp), (sign_eq_m1 Jp) by lra. cbn. reflexivity.
  - rewrite ndiv_fin by exact Ea. rewrite ntanh_fin. reflexivity.
Qed.
Lemma half : -0.5 * dSlopeIn P = - dSlopeIn P / 2. Proof. assert (-0.5 = - / 2) by lra. rewrite H. unfold Rdiv. ring. Qed.
(** the quantities computed by the code *)
Definition J0heS (h : R) := Rpower (dJ0 P / h) (dSteep P).
Definition gJ0eS (g : R) := Rpower (g / dJ0 P) (dSteep P).
Definition gJczS (g : R) := Rpower (g / dJcutoff P) (dCutStr P).
Definition dlogHS (h : R) := - dSlopeIn P * (J0heS h + dJcore P / h * (0.5 * beta * (1 - J0heS h) - dJcore P / h)) / (h * (1 + J0heS h) * (1 + dJcore P / h * (dJcore P / h - beta))).
Definition dlogGS (g : R) := - (dSlopeOut P * gJ0eS g + (if Rlt_dec 0 (dJcutoff P) then dCutStr P * gJczS g * (1 + gJ0eS g) else 0)) / (g * (1 + gJ0eS g)).
Definition drotS (Jp : R) := match dJphi0 P with Fin a => if Req_EM_T a 0 then 0 else dRotFrac P * (1 - tanh (Jp / a) ^ 2) / (1 + dRotFrac P * tanh (Jp / a)) / a | _ => 0 end.
Lemma dpl_eval J : physical J -> J <> (0, 0, 0) -> rotOk P (v3 J) ->
  let sg := if Rle_b 0 (v3 J) then 1 else -1 in let v := dplDF P beta J in let h := hOf P J in let g := gOf P J in
  dplEval P beta J = (Fin v, (Fin (v * (dCoefJrIn P * dlogHS h + dCoefJrOut P * dlogGS g)), Fin (v * (dCoefJzIn P * dlogHS h + dCoefJzOut P * dlogGS g)),
    Fin (v * ((3 - dCoefJrIn P - dCoefJzIn P) * sg * dlogHS h + (3 - dCoefJrOut P - dCoefJzOut P) * sg * dlogGS g) + v * drotS (v3 J)))).
Proof.
  intros F N RO. destruct (hg_pos J F N) as (Kh & Kg). pose proof (rotN_eq _ RO) as ER. pose proof (rotS_bound (dJphi0 P) (v3 J)) as RB.
  destruct J as [[Jr Jz] Jp]. destruct F as (F1 & F2). cbn [v3 snd] in *. pose proof V as (V1 & V2 & V3 & V4 & V5 & V6 & V7 & V8 & V9 & V10 & V11 & V12 & V13 & V14 & V15).
  unfold dplEval. cbv zeta.
  replace (dCoefJrIn P * Jr + dCoefJzIn P * Jz + (3 - dCoefJrIn P - dCoefJzIn P) * (if Rle_b 0 Jp then 1 else -1) * Jp) with (hOf P (Jr, Jz, Jp)) by (unfold hOf; rewrite <- Rabs_sgn; ring).
  replace (dCoefJrOut P * Jr + dCoefJzOut P * Jz + (3 - dCoefJrOut P - dCoefJzOut P) * (if Rle_b 0 Jp then 1 else -1) * Jp) with (gOf P (Jr, Jz, Jp)) by (unfold gOf; rewrite <- Rabs_sgn; ring).
  fold (rotN Jp). rewrite ER. unfold dplDF. cbn [v3 snd]. set (ro := rotS (dJphi0 P) Jp) in *. unfold dplEven. cbv zeta. set (h := hOf P (Jr, Jz, Jp)) in *. set (g := gOf P (Jr, Jz, Jp)) in *.
  assert (Hh : h <> 0) by lra.
  rewrite !(ndiv_fin _ h) by lra. rewrite !(ndiv_fin _ (dJ0 P)) by lra. rewrite !(npow_fin (dJ0 P / h)), !(npow_fin (g / dJ0 P)) by (apply Rdiv_lt_0_compat; lra). fold (J0heS h) (gJ0eS g).
  assert (KH : 0 < J0heS h) by apply exp_pos. assert (KG : 0 < gJ0eS g) by apply exp_pos.
  repeat progress nn.
  rewrite (npow_fin (1 + J0heS h)), (npow_fin (1 + gJ0eS g)) by lra.
  pose proof (core_pos beta (dJcore P / h) B2) as KC. rewrite (npow_fin _ _ KC), half. set (core := 1 + dJcore P / h * (dJcore P / h - beta)) in *.
  replace ((dJcore P / h) ^ 2 - beta * (dJcore P / h) + 1) with core by (unfold core; ring).
  rewrite (Req_b_f h 0 Hh). repeat progress nn.
  replace (dNorm P / (2 * PI * dJ0 P * (2 * PI * dJ0 P) * (2 * PI * dJ0 P))) with (dNorm P / (2 * PI * dJ0 P) ^ 3) by (unfold Rdiv; f_equal; f_equal; ring).
  set (pH := Rpower (1 + J0heS h) (dSlopeIn P / dSteep P)). set (pG := Rpower (1 + gJ0eS g) (- dSlopeOut P / dSteep P)). set (nrm := dNorm P / (2 * PI * dJ0 P) ^ 3). set (pC := Rpower core (- dSlopeIn P / 2)).
  (* cutoff *)
  assert (VC : forall w, (if Rlt_b 0 (dJcutoff P) then nmul (Fin w) (nexp (nopp (if Rlt_b 0 (dJcutoff P) then npow (ndiv (Fin g) (Fin (dJcutoff P))) (dCutStr P) else Fin 0))) else Fin w) = Fin (w * (if Rlt_dec 0 (dJcutoff P) then exp (- gJczS g) else 1))).
  { intros w. destruct (Rlt_dec 0 (dJcutoff P)) as [L|L]; [rewrite (Rlt_b_t _ _ L)|rewrite (Rlt_b_f _ _ (Rnot_lt_le _ _ L)); f_equal; ring]. rewrite ndiv_fin by lra. rewrite npow_fin by (apply Rdiv_lt_0_compat; lra). reflexivity. }
  rewrite VC.
  assert (VCo : forall w, (if Rlt_b 0 (dJcore P) then nmul (Fin w) (Fin pC) else Fin w) = Fin (w * (if Rlt_dec 0 (dJcore P) then pC else 1))).
  { intros w. destruct (Rlt_dec 0 (dJcore P)) as [L|L]; [rewrite (Rlt_b_t _ _ L); reflexivity|rewrite (Rlt_b_f _ _ (Rnot_lt_le _ _ L)); f_equal; ring]. }
  rewrite VCo. repeat progress nn.
  assert (DG : (if Rlt_b 0 (dJcutoff P) then nmul (nmul (Fin (dCutStr P)) (if Rlt_b 0 (dJcutoff P) then npow (ndiv (Fin g) (Fin (dJcutoff P))) (dCutStr P) else Fin 0)) (Fin (1 + gJ0eS g)) else Fin 0) = Fin (if Rlt_dec 0 (dJcutoff P) then dCutStr P * gJczS g * (1 + gJ0eS g) else 0)).
  { destruct (Rlt_dec 0 (dJcutoff P)) as [L|L]; [rewrite (Rlt_b_t _ _ L)|rewrite (Rlt_b_f _ _ (Rnot_lt_le _ _ L)); reflexivity]. rewrite ndiv_fin by lra. rewrite npow_fin by (apply Rdiv_lt_0_compat; lra). reflexivity. }
  rewrite DG. repeat progress nn.
  assert (NZ1 : h * (1 + J0heS h) * core <> 0) by (repeat apply Rmult_integral_contrapositive_currified; lra). assert (NZ2 : g * (1 + gJ0eS g) <> 0) by (repeat apply Rmult_integral_contrapositive_currified; lra).
  rewrite (ndiv_fin _ _ NZ1), (ndiv_fin _ _ NZ2). repeat progress nn.
  fold (dlogGS g).
  replace (- dSlopeIn P * (J0heS h + dJcore P / h * (0.5 * beta * (1 - J0heS h) - dJcore P / h)) / (h * (1 + J0heS h) * core)) with (dlogHS h) by (unfold dlogHS; fold core; unfold Rdiv; ring).
  fold (gJczS g). set (v := nrm * pH * pG * _ * _ * _).
  match goal with |- (Fin v, (_, _, ?x)) = (Fin v, (_, _, ?y)) => assert (L : x = y); [|rewrite L; reflexivity] end.
  unfold drotS. unfold ro in *. unfold rotOk in RO. unfold rotS in *. clearbody v.
  destruct (Req_EM_T (dRotFrac P) 0) as [E|E].
  - rewrite (Req_b_t _ _ E). cbn [negb]. rewrite andb_false_r. f_equal. destruct (dJphi0 P) as [a|s|]; [|ring|ring]. destruct (Req_EM_T a 0); [ring|]. rewrite E. unfold Rdiv. ring.
  - rewrite (Req_b_f _ _ E). cbn [negb]. destruct (dJphi0 P) as [a|s|]; [|cbn [negb andb]|contradiction].
    + destruct (Req_EM_T a 0) as [Ea|Ea]; [rewrite (Req_b_t _ _ Ea)|rewrite (Req_b_f _ _ Ea)]; cbn [negb andb]; [f_equal; ring|].
      pose proof (tanh_bound (Jp / a)) as TB. assert (NR : 1 + dRotFrac P * tanh (Jp / a) <> 0).
      { clear - TB V15. set (x := tanh (Jp / a)) in *. clearbody x. unfold Rabs in V15. destruct (Rcase_abs (dRotFrac P)); nra. }
      rewrite !(ndiv_fin _ _ E). repeat progress nn. rewrite (ndiv_fin _ _ NR), (ndiv_fin _ _ Ea). cbn [nadd]. f_equal. unfold Rdiv. field. auto.
    + rewrite !(ndiv_fin _ _ E). repeat progress nn. rewrite ndiv_fin by lra. unfold ndiv, ninvn. cbn [nmul nadd]. f_equal. ring.
Qed.

Lemma J0he_derive (h : R) : 0 < h -> is_derive J0heS h (- dSteep P * J0heS h / h).
Proof.
  intros K. destruct V as (_ & V2 & _). unfold J0heS, Rpower. auto_derive.
  - split; [|split; [|exact Logic.I]]; [lra|apply Rdiv_lt_0_compat; lra].
  - set (e := exp _). clearbody e. field. lra.
Qed.
Lemma gJ0e_derive (g k n : R) : 0 < g -> 0 < k -> is_derive (fun x => Rpower (x / k) n) g (n * Rpower (g / k) n / g).
Proof.
  intros K Kk. unfold Rpower. auto_derive.
  - assert (0 < g * / k) by (apply Rdiv_lt_0_compat; lra). tauto.
  - unfold Rdiv. set (e := exp _). clearbody e. field. lra.
Qed.
(** logarithmic derivatives of the two factors *)
Definition Hf (h : R) := Rpower (1 + J0heS h) (dSlopeIn P / dSteep P) * (if Rlt_dec 0 (dJcore P) then Rpower (1 + dJcore P / h * (dJcore P / h - beta)) (- dSlopeIn P / 2) else 1).
Definition Gf (g : R) := Rpower (1 + gJ0eS g) (- dSlopeOut P / dSteep P) * (if Rlt_dec 0 (dJcutoff P) then exp (- gJczS g) else 1).
Lemma Hf_ld h : 0 < h -> ld Hf h (dlogHS h).
Proof.
  intros K. pose proof V as (V1 & V2 & V3 & V4 & V5 & V6 & V7 & _). assert (KJ : 0 < J0heS h) by apply exp_pos. pose proof (core_pos beta (dJcore P / h) B2) as KC.
  assert (A1 : is_derive (fun x => 1 + J0heS x) h (- dSteep P * J0heS h / h)).
  { replace (- dSteep P * J0heS h / h) with (0 + - dSteep P * J0heS h / h) by ring. apply (is_derive_plus (fun _ => 1) J0heS h 0); [apply (is_derive_const 1)|apply J0he_derive, K]. }
  pose proof (ld_Rpower _ h _ (dSlopeIn P / dSteep P) A1 ltac:(lra)) as L1. cbv beta in L1.
  assert (A2 : ld (fun x => if Rlt_dec 0 (dJcore P) then Rpower (1 + dJcore P / x * (dJcore P / x - beta)) (- dSlopeIn P / 2) else 1) h
    (dSlopeIn P * (dJcore P / h * (dJcore P / h - beta / 2)) / (h * (1 + dJcore P / h * (dJcore P / h - beta))))).
  { destruct (Rlt_dec 0 (dJcore P)) as [L|L].
    - assert (A3 : is_derive (fun x => 1 + dJcore P / x * (dJcore P / x - beta)) h (- (dJcore P / h) / h * (2 * (dJcore P / h) - beta))) by (auto_derive; [lra|field; lra]).
      eapply ld_eq; [apply (ld_Rpower _ h _ (- dSlopeIn P / 2) A3 KC)|]. set (c := dJcore P / h) in *. clearbody c. cbv beta. field. split; lra.
    - assert (E : dJcore P = 0) by lra. rewrite E. eapply ld_eq; [apply ld_const|]. unfold Rdiv. ring. }
  unfold Hf. eapply ld_eq; [apply (ld_mult _ _ h _ _ L1 A2)|].
  unfold dlogHS. set (c := dJcore P / h) in *. set (j := J0heS h) in *. clearbody c j. assert (E5 : 0.5 = / 2) by lra. rewrite E5. field. repeat split; lra.
Qed.
Lemma Gf_ld g : 0 < g -> ld Gf g (dlogGS g).
Proof.
  intros K. pose proof V as (V1 & V2 & V3 & V4 & V5 & V6 & V7 & _). assert (KJ : 0 < gJ0eS g) by apply exp_pos.
  assert (A1 : is_derive (fun x => 1 + gJ0eS x) g (dSteep P * gJ0eS g / g)).
  { replace (dSteep P * gJ0eS g / g) with (0 + dSteep P * gJ0eS g / g) by ring. apply (is_derive_plus (fun _ => 1) gJ0eS g 0); [apply (is_derive_const 1)|apply gJ0e_derive; assumption]. }
  pose proof (ld_Rpower _ g _ (- dSlopeOut P / dSteep P) A1 ltac:(lra)) as L1. cbv beta in L1.
  assert (A2 : ld (fun x => if Rlt_dec 0 (dJcutoff P) then exp (- gJczS x) else 1) g (- (if Rlt_dec 0 (dJcutoff P) then dCutStr P * gJczS g / g else 0))).
  { destruct (Rlt_dec 0 (dJcutoff P)) as [L|L].
    - apply (ld_exp (fun x => - gJczS x)). apply (is_derive_opp gJczS). apply gJ0e_derive; assumption.
    - eapply ld_eq; [apply ld_const|]. ring. }
  unfold Gf. eapply ld_eq; [apply (ld_mult _ _ g _ _ L1 A2)|].
  unfold dlogGS. destruct (Rlt_dec 0 (dJcutoff P)); set (j := gJ0eS g) in *; clearbody j; field; repeat split; lra.
Qed.
Lemma rot_ld x : rotOk P x -> x <> 0 -> ld (fun y => 1 + dRotFrac P * rotS (dJphi0 P) y) x (drotS x).
Proof.
  intros RO N. pose proof V as (_ & _ & _ & _ & _ & _ & _ & _ & _ & _ & _ & _ & _ & _ & V15). unfold rotOk in RO. unfold rotS, drotS. destruct (dJphi0 P) as [a|s|]; [|apply ld_const|contradiction]. destruct (Req_EM_T a 0) as [Ea|Ea].
  - unfold ld. rewrite Rmult_0_r. apply (is_derive_ext_loc (fun _ => 1 + dRotFrac P * sign x)); [|apply (is_derive_const (1 + dRotFrac P * sign x) x)].
    apply (filter_imp (fun y => 0 < y * x)); [|apply (loc_sign (fun y => y) x 1 (is_derive_id x) N)]. intros y Q. do 2 f_equal. destruct (Rlt_le_dec 0 x) as [L|L]; [rewrite (sign_eq_1 x), (sign_eq_1 y) by nra|rewrite (sign_eq_m1 x), (sign_eq_m1 y) by nra]; reflexivity.
  - pose proof (tanh_bound (x / a)) as TB. assert (NR : 1 + dRotFrac P * tanh (x / a) <> 0).
    { clear - TB V15. set (z := tanh (x / a)) in *. clearbody z. unfold Rabs in V15. destruct (Rcase_abs (dRotFrac P)); nra. }
    assert (D : is_derive (fun y => 1 + dRotFrac P * tanh (y / a)) x (dRotFrac P * (1 - tanh (x / a) ^ 2) / a)).
    { unfold tanh, sinh, cosh. pose proof (exp_pos (x / a)) as Q1. pose proof (exp_pos (- (x / a))) as Q2. auto_derive; [unfold Rdiv in Q1, Q2; assert (W : 0 < (exp (x * / a) + exp (- (x * / a))) * / 2) by lra; intros Z0; rewrite Z0 in W; lra|].
      unfold Rdiv in *. set (e1 := exp (x * / a)) in *. set (e2 := exp (- (x * / a))) in *. clearbody e1 e2. field. repeat split; lra. }
    eapply ld_eq; [apply (ld_of _ x _ D NR)|]. cbv beta. field. split; assumption.
Qed.
Lemma ld_comp f g t d e : ld f (g t) d -> is_derive g t e -> ld (fun s => f (g s)) t (d * e).
Proof. intros A B. unfold ld in *. pose proof (comp_derive f g t _ _ A B) as C. replace (f (g t) * (d * e)) with (f (g t) * d * e) by (clear; change (@eq R (f (g t) * d * e) (f (g t) * (d * e))); ring). exact C. Qed.

Lemma dpl_grad J : physical J -> v3 J <> 0 -> rotOk P (v3 J) ->
  is_grad (dplDF P beta) J (let '(a, b, c) := snd (dplEval P beta J) in (nval a, nval b, nval c)).
Proof.
  intros F N RO. assert (NJ : J <> (0, 0, 0)) by (intros ->; apply N; reflexivity). destruct (hg_pos J F NJ) as (Kh & Kg). rewrite (dpl_eval J F NJ RO). cbv zeta. cbn [snd nval].
  destruct J as [[Jr Jz] Jp]. cbn [v3 snd] in *. set (sg := if Rle_b 0 Jp then 1 else -1). set (vv := dplDF P beta (Jr, Jz, Jp)). set (h := hOf P (Jr, Jz, Jp)) in *. set (g := gOf P (Jr, Jz, Jp)) in *.
  intros c1 c2 c3 t u1 u2 u3 E D1 D2 D3. injection E as E1 E2 E3.
  assert (DA : is_derive (fun s => Rabs (c3 s)) t (sg * u3)) by (unfold sg; rewrite <- E3 in *; apply sgn_derive; assumption).
  set (hs := fun s => hOf P (c1 s, c2 s, c3 s)). set (gs := fun s => gOf P (c1 s, c2 s, c3 s)).
  assert (LIN : forall a b c, is_derive (fun s => a * c1 s + b * c2 s + c * Rabs (c3 s)) t (a * u1 + b * u2 + c * (sg * u3))).
  { intros a b c. apply (is_derive_plus (fun s => a * c1 s + b * c2 s) (fun s => c * Rabs (c3 s))); [apply (is_derive_plus (fun s => a * c1 s) (fun s => b * c2 s))|]; [apply (is_derive_scal c1 t _ _ D1)|apply (is_derive_scal c2 t _ _ D2)|apply (is_derive_scal (fun s => Rabs (c3 s)) t _ _ DA)]. }
  pose proof (LIN (dCoefJrIn P) (dCoefJzIn P) (3 - dCoefJrIn P - dCoefJzIn P)) as DH. pose proof (LIN (dCoefJrOut P) (dCoefJzOut P) (3 - dCoefJrOut P - dCoefJzOut P)) as DG.
  assert (Eh : hs t = h) by (unfold hs, h; rewrite E1, E2, E3; reflexivity). assert (Eg : gs t = g) by (unfold gs, g; rewrite E1, E2, E3; reflexivity).
  change (is_derive hs t (dCoefJrIn P * u1 + dCoefJzIn P * u2 + (3 - dCoefJrIn P - dCoefJzIn P) * (sg * u3))) in DH. change (is_derive gs t (dCoefJrOut P * u1 + dCoefJzOut P * u2 + (3 - dCoefJrOut P - dCoefJzOut P) * (sg * u3))) in DG.
  pose proof (Hf_ld (hs t) ltac:(rewrite Eh; exact Kh)) as LH. pose proof (Gf_ld (gs t) ltac:(rewrite Eg; exact Kg)) as LG. pose proof (rot_ld (c3 t) ltac:(rewrite E3; exact RO) ltac:(rewrite E3; exact N)) as LR.
  pose proof (ld_mult _ _ t _ _ (ld_mult _ _ t _ _ (ld_mult _ _ t _ _ (ld_const (dNorm P / (2 * PI * dJ0 P) ^ 3) t) (ld_comp _ _ t _ _ LH DH)) (ld_comp _ _ t _ _ LG DG)) (ld_comp _ _ t _ _ LR D3)) as B. unfold ld in B. cbv beta in B.
  assert (EX : forall s, dNorm P / (2 * PI * dJ0 P) ^ 3 * Hf (hs s) * Gf (gs s) * (1 + dRotFrac P * rotS (dJphi0 P) (c3 s)) = dplDF P beta (c1 s, c2 s, c3 s)).
  { intros s. unfold dplDF, dplEven, Hf, Gf. cbn [v3 snd]. cbv zeta. fold (hs s) (gs s). fold (J0heS (hs s)) (gJ0eS (gs s)) (gJczS (gs s)).
    replace ((dJcore P / hs s) ^ 2 - beta * (dJcore P / hs s) + 1) with (1 + dJcore P / hs s * (dJcore P / hs s - beta)) by ring. ring. }
  apply (is_derive_ext _ _ _ _ EX). rewrite EX in B. rewrite Eh, Eg, E1, E2, E3 in B. fold vv in B. cbn [v1 v2 v3 fst snd].
  match type of B with is_derive _ _ ?x => match goal with |- is_derive _ _ ?y => replace y with x; [exact B|] end end.
  change (vv * (0 + dlogHS h * (dCoefJrIn P * u1 + dCoefJzIn P * u2 + (3 - dCoefJrIn P - dCoefJzIn P) * (sg * u3)) + dlogGS g * (dCoefJrOut P * u1 + dCoefJzOut P * u2 + (3 - dCoefJrOut P - dCoefJzOut P) * (sg * u3)) + drotS Jp * u3) = vv * (dCoefJrIn P * dlogHS h + dCoefJrOut P * dlogGS g) * u1 + vv * (dCoefJzIn P * dlogHS h + dCoefJzOut P * dlogGS g) * u2 + (vv * ((3 - dCoefJrIn P - dCoefJzIn P) * sg * dlogHS h + (3 - dCoefJrOut P - dCoefJzOut P) * sg * dlogGS g) + vv * drotS Jp) * u3).
  ring.
Qed.
End DPL.
