(** C63: action-based distribution functions of disks and halos *)
From Coq Require Import Reals Lra Psatz Bool ZArith.
From Coquelicot Require Import Coquelicot.
From Verif Require Import RandReal RandRealProofs PolyModel PolyProofs CoordModel CoordSpec CoordCalc RootProofs DiskModel DiskProofs2 DfModel DfSpec DfProofs DfProofs2 DfProofs3 DfProofs4.
Local Open Scope R_scope.

(** construction succeeds exactly for the documented ranges of parameters *)
Theorem C63_construct : (forall P, expConstruct P = true <-> expValid P) /\ (forall P, qiConstruct P = true <-> qiValid P) /\
  (forall P beta, dplConstruct P beta = true <-> dplValid P /\ exists b, beta = Some b /\ 0 <= b).
Proof. split; [apply expConstruct_valid|split; [apply qiConstruct_valid|apply dplConstruct_valid]]. Qed.

(** the q-exponential is (1+qx)^(1/q), or exp for q=0 *)
Theorem C63_qexp : (forall x q, 0.0000001 < Rabs q -> 0 < 1 + q * x -> qexp x q = Rpower (1 + q * x) (1 / q)) /\ (forall x, qexp x 0 = exp x).
Proof.
  split.
  - intros x q K H. unfold qexp. rewrite (Rlt_b_t _ _ K), mpow_pos by exact H. reflexivity.
  - intros x. unfold qexp. rewrite Rabs_R0, (Rlt_b_f 0.0000001 0) by lra. rewrite (Req_b_t 0 0 eq_refl). cbn [negb]. ring.
Qed.
(** ... so its limit for small q is the ordinary exponential *)
Theorem C63_qexp_limit : forall x, is_lim (fun q => Rpower (1 + q * x) (1 / q)) 0 (exp x).
Proof.
  intros x. unfold Rpower. apply (is_lim_comp_continuous (fun q => 1 / q * ln (1 + q * x)) exp 0 x); [|apply continuous_exp].
  assert (D : is_derive (fun q => ln (1 + q * x)) 0 x) by (auto_derive; [lra|rewrite Rmult_0_l, Rplus_0_r; field]).
  pose proof (proj1 (is_derive_Reals _ _ _) D) as D'. intros Q (e & H). destruct (D' e (cond_pos e)) as (d & B). exists d. intros q K N. apply H. specialize (B q N). 
  unfold ball in K |- *. cbn in K |- *. unfold AbsRing_ball, abs, minus, plus, opp in *. cbn in K |- *.
  rewrite Ropp_0, Rplus_0_r in K. specialize (B K). rewrite Rplus_0_l, Rmult_0_l, Rplus_0_r, ln_1 in B. assert (E : (ln (1 + q * x) - 0) / q - x = 1 / q * ln (1 + q * x) + - x) by (field; exact N). rewrite E in B. exact B.
Qed.

(** Exponential: the value is the documented function, never negative, and the derivatives are its gradient *)
Theorem C63_exponential : forall P J, expConstruct P = true -> qok (eQJr P) -> qok (eQJz P) -> qok (eQJphi P) -> physical J ->
  fst (expEval P J) = expDF P J /\ 0 <= fst (expEval P J) /\ (v3 J <> 0 -> 0 < fst (expEval P J) /\ is_grad (expDF P) J (snd (expEval P J))).
Proof.
  intros P J C Q1 Q2 Q3 F. apply expConstruct_valid in C. pose proof (exp_value P C J Q1 Q2 Q3 F) as E. destruct (exp_pos_value P C J) as (A & B). rewrite E. split; [reflexivity|]. split; [exact A|]. intros N. split; [|apply exp_grad; assumption].
  apply B; [exact F|]. left. destruct J as [[Jr Jz] Jp]. destruct F as (F1 & F2). cbn in N. destruct C as (_ & _ & _ & _ & _ & _ & C1 & C2 & _). pose proof (Rabs_pos_lt _ N). pose proof (Rmult_le_pos _ _ C1 F1). pose proof (Rmult_le_pos _ _ C2 F2). lra.
Qed.

(** QuasiIsothermal: the same, for any interpolator of positive frequencies with consistent derivatives *)
Theorem C63_quasiisothermal : forall P fr J, qiConstruct P = true -> freqsOk fr -> qok (qQJr P) -> qok (qQJz P) -> qok (qQJphi P) -> physical J -> (v3 J <> 0 \/ qJmin P <> 0) ->
  fst (qiEval P fr J) = qiDF P fr J /\ 0 < fst (qiEval P fr J) /\ (v3 J <> 0 -> is_grad (qiDF P fr) J (snd (qiEval P fr J))).
Proof.
  intros P fr J C FO Q1 Q2 Q3 F N. apply qiConstruct_valid in C. destruct (qi_value P fr C FO J Q1 Q2 Q3 F N) as (A & B). rewrite A. split; [reflexivity|]. split; [exact B|]. intros N'. apply qi_grad; assumption.
Qed.

(** DoublePowerLaw: outside the origin the value is the documented function, finite and nonnegative *)
Theorem C63_dpl_value : forall P beta J, dplConstruct P (Some beta) = true -> beta < 2 -> physical J -> J <> (0, 0, 0) -> rotOk P (v3 J) ->
  fst (dplEval P beta J) = Fin (dplDF P beta J) /\ 0 <= dplDF P beta J.
Proof.
  intros P beta J C B F N RO. apply dplConstruct_valid in C. destruct C as (C & b & [= <-] & B0). rewrite (dpl_eval P beta C (conj B0 B) J F N RO). split; [reflexivity|].
  unfold dplDF. apply Rmult_le_pos; [left; apply even_pos, C|]. pose proof (rotS_bound (dJphi0 P) (v3 J)) as R1. destruct C as (_ & _ & _ & _ & _ & _ & _ & _ & _ & _ & _ & _ & _ & _ & R2).
  set (x := rotS _ _) in *. clearbody x. unfold Rabs in R2. destruct (Rcase_abs (dRotFrac P)); nra.
Qed.
(** ... with finite derivatives that are its gradient *)
Theorem C63_dpl_gradient : forall P beta J, dplConstruct P (Some beta) = true -> beta < 2 -> physical J -> v3 J <> 0 -> rotOk P (v3 J) ->
  exists a b c, snd (dplEval P beta J) = (Fin a, Fin b, Fin c) /\ is_grad (dplDF P beta) J (a, b, c).
Proof.
  intros P beta J C B F N RO. apply dplConstruct_valid in C. destruct C as (C & b & [= <-] & B0). assert (NJ : J <> (0, 0, 0)) by (intros ->; apply N; reflexivity).
  pose proof (dpl_grad P beta C (conj B0 B) J F N RO) as G. rewrite (dpl_eval P beta C (conj B0 B) J F NJ RO) in *. cbv zeta in *. cbn [snd nval] in *. do 3 eexists. split; [reflexivity|exact G].
Qed.
(** ... whose part even in Jphi does not depend on rotation *)
Theorem C63_dpl_even : forall P beta Jr Jz Jphi, dplConstruct P (Some beta) = true -> beta < 2 -> 0 <= Jr -> 0 <= Jz -> Jphi <> 0 -> rotOk P Jphi ->
  exists a b, fst (dplEval P beta (Jr, Jz, Jphi)) = Fin a /\ fst (dplEval P beta (Jr, Jz, - Jphi)) = Fin b /\ (a + b) / 2 = dplEven P beta (Jr, Jz, Jphi) /\ 0 < (a + b) / 2.
Proof.
  intros P beta Jr Jz Jp C B F1 F2 N RO.
  assert (N' : (Jr, Jz, Jp) <> (0, 0, 0)) by (intros [= _ _ E]; contradiction). assert (N2 : (Jr, Jz, - Jp) <> (0, 0, 0)) by (intros [= _ _ E]; lra).
  assert (RO' : rotOk P (- Jp)) by (unfold rotOk in *; destruct (dJphi0 P); [|exact RO|exact RO]; destruct RO as [A|[A|A]]; [left; exact A|right; left; lra|right; right; exact A]).
  destruct (C63_dpl_value P beta (Jr, Jz, Jp) C B (conj F1 F2) N' RO) as (E1 & _). destruct (C63_dpl_value P beta (Jr, Jz, - Jp) C B (conj F1 F2) N2 RO') as (E2 & _).
  do 2 eexists. split; [exact E1|]. split; [exact E2|]. apply dplConstruct_valid in C. destruct C as (C & _). pose proof (even_pos P beta C (Jr, Jz, Jp)) as K.
  assert (E : (dplDF P beta (Jr, Jz, Jp) + dplDF P beta (Jr, Jz, - Jp)) / 2 = dplEven P beta (Jr, Jz, Jp)).
  { unfold dplDF. cbn [v3 snd]. rewrite rotS_odd. replace (dplEven P beta (Jr, Jz, - Jp)) with (dplEven P beta (Jr, Jz, Jp)) by (unfold dplEven, hOf, gOf; rewrite Rabs_Ropp; reflexivity). field. }
  rewrite E. split; [reflexivity|exact K].
Qed.
(** a central core makes the distribution function finite and nonzero in the limit of small actions, whatever their direction *)
Theorem C63_dpl_core : forall P beta J, dplConstruct P (Some beta) = true -> beta < 2 -> 0 < dJcore P -> dRotFrac P = 0 -> dJphi0 P = Fin 0 -> physical J -> J <> (0, 0, 0) ->
  filterlim (fun t => nval (fst (dplEval P beta (t * v1 J, t * v2 J, t * v3 J)))) (at_right 0) (locally (dNorm P / (2 * PI * dJ0 P) ^ 3 * Rpower (dJ0 P / dJcore P) (dSlopeIn P))) /\
  0 < dNorm P / (2 * PI * dJ0 P) ^ 3 * Rpower (dJ0 P / dJcore P) (dSlopeIn P).
Proof.
  intros P beta J C B K R0 J0 F N. pose proof C as C'. apply dplConstruct_valid in C'. destruct C' as (C' & b & [= <-] & B0). destruct J as [[Jr Jz] Jp]. cbn [v1 v2 v3 fst snd]. split.
  - apply (filterlim_ext_loc (fun t => dplDF P beta (t * Jr, t * Jz, t * Jp))); [|apply dpl_lim; try assumption; split; assumption].
    exists (mkposreal 1 Rlt_0_1). intros t _ T. destruct F as (F1 & F2).
    assert (F' : physical (t * Jr, t * Jz, t * Jp)) by (split; apply Rmult_le_pos; lra).
    assert (N' : (t * Jr, t * Jz, t * Jp) <> (0, 0, 0)). { intros [= E1 E2 E3]. apply N. apply Rmult_integral in E1, E2, E3. assert (t <> 0) by lra. repeat f_equal; tauto. }
    destruct (C63_dpl_value P beta _ C B F' N') as (E & _); [unfold rotOk; rewrite J0; right; right; exact R0|]. rewrite E. reflexivity.
  - pose proof PI_RGT_0 as HP. destruct C' as (V1 & V2 & _). apply Rmult_lt_0_compat; [apply Rdiv_lt_0_compat; [exact V1|apply pow_lt; apply Rmult_lt_0_compat; lra]|apply exp_pos].
Qed.
(** ... but at zero actions the code returns zero instead of this limit *)
Theorem C63_dpl_core_refuted : forall P beta, dplConstruct P (Some beta) = true -> 0 < dJcore P -> 0 < dSlopeIn P -> dRotFrac P = 0 -> fst (dplEval P beta (0, 0, 0)) = Fin 0.
Proof. intros P beta C K S0 R0. apply dpl_origin; assumption. Qed.
(** a rotating model with the default Jphi0=0 is undefined (NaN) for every nonrotating orbit *)
Theorem C63_dpl_rotation_refuted : forall P beta Jr Jz, dplConstruct P (Some beta) = true -> dRotFrac P <> 0 -> dJphi0 P = Fin 0 -> fst (dplEval P beta (Jr, Jz, 0)) = NaN.
Proof.
  intros P beta Jr Jz C R0 J0. unfold dplEval. cbv zeta. cbn [fst]. rewrite J0, (Req_b_f _ _ R0). cbn [negb andb nfin].
  assert (E : ntanh (ndiv (Fin 0) (Fin 0)) = NaN) by (unfold ndiv, ninvn, ninv; rewrite (Req_b_t 0 0 eq_refl); cbn [nmul]; rewrite (Req_b_t 0 0 eq_refl); reflexivity).
  rewrite E. cbn [nmul nadd]. match goal with |- nmul ?x NaN = NaN => destruct x; reflexivity end.
Qed.

(** ** the hypotheses are met by concrete models *)
Definition exExp := mkExp 1 1 1 2 0 0 1 (1/4) 0 (1/2) 0.
Example exExp_ok : expConstruct exExp = true /\ qok (eQJr exExp) /\ qok (eQJz exExp) /\ qok (eQJphi exExp) /\ physical (1, 2, -3).
Proof. split; [apply expConstruct_valid; unfold expValid; cbn; lra|]. unfold qok, exExp, physical; cbn; lra. Qed.
Definition exQI := mkQI 1 1 0 1 1 0 2 2 1 (1/4) 0 0 0 0.
Definition exFreq := mkFreq (fun L => (L, 1)) (fun r => (sqrt 2 / r, - sqrt 2 / (r * r))) (fun r => (2 / r, - 2 / (r * r))) (fun r => (1 / r, - 1 / (r * r))).
Example exQI_ok : qiConstruct exQI = true /\ freqsOk exFreq /\ qok (qQJr exQI) /\ qok (qQJz exQI) /\ qok (qQJphi exQI) /\ physical (1, 2, -3).
Proof.
  split; [apply qiConstruct_valid; unfold qiValid; cbn; lra|]. split; [|unfold qok, exQI, physical; cbn; lra].
  split; cbn.
  - intros L K. split; [exact K|apply (is_derive_id L)].
  - intros r K. assert (0 < sqrt 2) by (apply sqrt_lt_R0; lra). split; [|split; [|split; [|split; [|split]]]]; try (apply Rdiv_lt_0_compat; lra); (auto_derive; [lra|field; lra]).
Qed.
Definition exDPL (rot : R) := mkDPL 1 1 0 1 4 1 2 1 1 1 1 rot (Fin 0) (1/10).
Example exDPL_ok rot : -1 <= rot <= 1 -> dplConstruct (exDPL rot) (Some 1) = true /\ rotOk (exDPL rot) (-3) /\ 0 < dJcore (exDPL rot) /\ 0 < dSlopeIn (exDPL rot) /\ physical (1, 2, -3).
Proof.
  intros K. split; [apply dplConstruct_valid; split; [unfold dplValid; cbn; repeat split; try lra; unfold Rabs; destruct (Rcase_abs rot); lra|exists 1; split; [reflexivity|lra]]|].
  unfold rotOk, physical; cbn. repeat split; try lra.
Qed.

Print Assumptions C63_construct.
Print Assumptions C63_qexp.
Print Assumptions C63_qexp_limit.
Print Assumptions C63_exponential.
Print Assumptions C63_quasiisothermal.
Print Assumptions C63_dpl_value.
Print Assumptions C63_dpl_gradient.
Print Assumptions C63_dpl_even.
Print Assumptions C63_dpl_core.
Print Assumptions C63_dpl_core_refuted.
Print Assumptions C63_dpl_rotation_refuted.
