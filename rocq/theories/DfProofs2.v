(** The QuasiIsothermal distribution function *)
From Coq Require Import Reals Lra Psatz Bool ZArith.
From Coquelicot Require Import Coquelicot.
From Verif Require Import RandReal RandRealProofs PolyModel PolyProofs CoordModel CoordSpec CoordCalc RootProofs DiskModel DiskProofs2 DfModel DfSpec DfProofs.
Local Open Scope R_scope.

Lemma Rlt_b_iff a b : Rlt_b a b = true <-> a < b.
Proof. destruct (Rlt_le_dec a b) as [K|K]; [rewrite Rlt_b_t by exact K|rewrite Rlt_b_f by lra]; split; intros; try lra; try reflexivity; try discriminate. Qed.
Lemma Rle_b_iff a b : Rle_b a b = true <-> a <= b.
Proof. destruct (Rle_lt_dec a b) as [K|K]; [rewrite Rle_b_t by exact K|rewrite Rle_b_f by lra]; split; intros; try lra; try reflexivity; try discriminate. Qed.
Lemma qiConstruct_valid P : qiConstruct P = true <-> qiValid P.
Proof.
  unfold qiConstruct, qiValid. rewrite !andb_true_iff, !Rle_b_iff, negb_true_iff, !orb_false_iff.
  assert (NL : forall a b, Rlt_b a b = false <-> b <= a). { intros a b. destruct (Rlt_le_dec a b) as [K|K]; [rewrite Rlt_b_t by exact K|rewrite Rlt_b_f by lra]; split; intros; try lra; try reflexivity; try discriminate. }
  rewrite !NL, !Rlt_b_iff.
  assert (X : xorb (Rlt_b 0 (qHdisk P)) (Rlt_b 0 (qSigmaz0 P) && Rlt_b 0 (qRsigmaz P)) = true <-> (0 < qHdisk P /\ (qSigmaz0 P <= 0 \/ qRsigmaz P <= 0)) \/ (qHdisk P <= 0 /\ 0 < qSigmaz0 P /\ 0 < qRsigmaz P)).
  { destruct (Rlt_le_dec 0 (qHdisk P)) as [A|A]; [rewrite (Rlt_b_t _ _ A)|rewrite (Rlt_b_f 0 (qHdisk P)) by lra];
    (destruct (Rlt_le_dec 0 (qSigmaz0 P)) as [B|B]; [rewrite (Rlt_b_t _ _ B)|rewrite (Rlt_b_f 0 (qSigmaz0 P)) by lra]);
    (destruct (Rlt_le_dec 0 (qRsigmaz P)) as [C|C]; [rewrite (Rlt_b_t _ _ C)|rewrite (Rlt_b_f 0 (qRsigmaz P)) by lra]); cbn; split; intros D; try reflexivity; try discriminate; lra. }
  rewrite X. split.
  - intros H. decompose [and] H. repeat split; try assumption. lra.
  - intros H. decompose [and] H. repeat split; try assumption; lra.
Qed.

Section QI.
Variables (P : qiPar) (fr : freqs).
Hypothesis V : qiValid P.
Hypothesis FO : freqsOk fr.

Lemma exp_sq a b : (a * exp b) * (a * exp b) = a ^ 2 * exp (2 * b).
Proof. replace (2 * b) with (b + b) by ring. rewrite exp_plus. ring. Qed.
Lemma negJ2 w x : (if Rlt_b 0 x then 0 else 2 * w * x) = - (2 * w * Rmax 0 (- x)).
Proof. destruct (Rlt_le_dec 0 x) as [L|L]; [rewrite (Rlt_b_t _ _ L), Rmax_left by lra|rewrite (Rlt_b_f 0 x), Rmax_right by lra]; ring. Qed.

(** a sum of a positive and a nonnegative number *)
Lemma sr2_pos Rc : 0 < qSigmar0 P ^ 2 * exp (- 2 * Rc / qRsigmar P) + qSigmamin P ^ 2.
Proof. destruct V as (_ & _ & V3 & _). pose proof (exp_pos (- 2 * Rc / qRsigmar P)). pose proof (pow2_ge_0 (qSigmamin P)). assert (0 < qSigmar0 P ^ 2) by (apply pow_lt; exact V3). nra. Qed.
Definition sz2 (Rc nu : R) := (if Rlt_dec 0 (qHdisk P) then 2 * qHdisk P ^ 2 * nu ^ 2 else qSigmaz0 P ^ 2 * exp (- 2 * Rc / qRsigmaz P)) + qSigmamin P ^ 2.
Lemma sz2_pos Rc nu : 0 < nu -> 0 < sz2 Rc nu.
Proof.
  intros K. destruct V as (_ & _ & _ & _ & V5 & _). pose proof (exp_pos (- 2 * Rc / qRsigmaz P)). pose proof (pow2_ge_0 (qSigmamin P)). unfold sz2. destruct (Rlt_dec 0 (qHdisk P)) as [L|L].
  - assert (0 < qHdisk P ^ 2 * nu ^ 2) by (apply Rmult_lt_0_compat; apply pow_lt; assumption). lra.
  - assert (0 < qSigmaz0 P ^ 2) by (apply pow_lt; lra). nra.
Qed.
(** inverse squared dispersions of the code *)
Lemma invsr_eq Rc : 1 / (pow_2 (qSigmar0 P * exp (- Rc / qRsigmar P)) + pow_2 (qSigmamin P)) = / (qSigmar0 P ^ 2 * exp (- 2 * Rc / qRsigmar P) + qSigmamin P ^ 2).
Proof. unfold pow_2, Rdiv at 1. rewrite exp_sq, Rmult_1_l. destruct V as (_ & _ & _ & V4 & _). replace (2 * (- Rc / qRsigmar P)) with (- 2 * Rc / qRsigmar P) by (field; lra). f_equal. ring. Qed.
Lemma invsz_eq Rc nu : 1 / (pow_2 (qSigmamin P) + (if Rlt_b 0 (qHdisk P) then 2 * pow_2 (nu * qHdisk P) else pow_2 (qSigmaz0 P * exp (- Rc / qRsigmaz P)))) = / sz2 Rc nu.
Proof.
  unfold sz2, pow_2, Rdiv at 1. rewrite Rmult_1_l. f_equal. destruct V as (_ & _ & _ & _ & V5 & _). destruct (Rlt_dec 0 (qHdisk P)) as [L|L].
  - rewrite (Rlt_b_t _ _ L). ring.
  - rewrite (Rlt_b_f 0 (qHdisk P) (Rnot_lt_le _ _ L)), exp_sq. replace (2 * (- Rc / qRsigmaz P)) with (- 2 * Rc / qRsigmaz P) by (field; lra). ring.
Qed.
Lemma qi_value J : qok (qQJr P) -> qok (qQJz P) -> qok (qQJphi P) -> physical J -> (v3 J <> 0 \/ qJmin P <> 0) -> fst (qiEval P fr J) = qiDF P fr J /\ 0 < qiDF P fr J.
Proof.
  intros Q1 Q2 Q3 F NZ. destruct J as [[Jr Jz] Jp]. destruct F as (F1 & F2). pose proof V as (V1 & V2 & V3 & V4 & V5 & V6 & V7 & V8 & V9 & V10). cbn in NZ.
  unfold qiEval, qiDF. cbv zeta. rewrite Rabs_sgn. unfold pow_2 at 1 2.
  set (Jsum := Rabs Jp + qCoefJr P * Jr + qCoefJz P * Jz).
  replace (Jsum * Jsum + qJmin P * qJmin P) with (Jsum ^ 2 + qJmin P ^ 2) by ring.
  assert (KJ : 0 < sqrt (Jsum ^ 2 + qJmin P ^ 2)).
  { apply sqrt_lt_R0. pose proof (Rmult_le_pos _ _ V6 F1). pose proof (Rmult_le_pos _ _ V7 F2). destruct NZ as [NZ|NZ].
    - pose proof (Rabs_pos_lt _ NZ). assert (0 < Jsum) by (unfold Jsum; lra). pose proof (pow2_ge_0 (qJmin P)). nra.
    - pose proof (pow2_gt_0 _ NZ). pose proof (pow2_ge_0 Jsum). lra. }
  destruct FO as (FO1 & FO2). destruct (FO1 _ KJ) as (KR & _). destruct (Rcirc fr (sqrt (Jsum ^ 2 + qJmin P ^ 2))) as [Rc dRc]. cbn [fst] in *.
  destruct (FO2 _ KR) as (Kk & Kn & Ko & _). destruct (fKappa fr Rc) as [ka dk]. destruct (fNu fr Rc) as [nu dn]. destruct (fOmega fr Rc) as [om dom]. cbn [fst] in *.
  rewrite invsr_eq, invsz_eq, negJ2. fold (sz2 Rc nu). pose proof (sr2_pos Rc) as Kr. pose proof (sz2_pos Rc nu Kn) as Kz.
  set (sr := qSigmar0 P ^ 2 * exp (- 2 * Rc / qRsigmar P) + qSigmamin P ^ 2) in *. set (sz := sz2 Rc nu) in *. clearbody sr sz.
  pose proof (Rmax_l 0 (- Jp)) as KN. set (m := Rmax 0 (- Jp)) in *. clearbody m.
  assert (I1 : 0 <= Rc / qRdisk P) by (apply Rmult_le_pos; [lra|left; apply Rinv_0_lt_compat; lra]).
  assert (I2 : 0 <= (ka * Jr + 2 * om * m) / sr).
  { apply Rmult_le_pos; [|left; apply Rinv_0_lt_compat, Kr]. assert (0 <= ka * Jr) by (apply Rmult_le_pos; lra). assert (0 <= 2 * om * m) by (apply Rmult_le_pos; lra). lra. }
  assert (I3 : 0 <= nu * Jz / sz) by (apply Rmult_le_pos; [apply Rmult_le_pos; lra|left; apply Rinv_0_lt_compat, Kz]).
  replace ((ka * Jr - - (2 * om * m)) * / sr) with ((ka * Jr + 2 * om * m) / sr) by (unfold Rdiv; ring). change (nu * Jz * / sz) with (nu * Jz / sz).
  rewrite !qexp_qE by (try assumption; apply one_plus; lra).
  pose proof (qE_pos (qQJphi P) (Rc / qRdisk P)) as P1. pose proof (qE_pos (qQJr P) ((ka * Jr + 2 * om * m) / sr)) as P2. pose proof (qE_pos (qQJz P) (nu * Jz / sz)) as P3.
  set (q1 := qE (qQJphi P) _) in *. set (q2 := qE (qQJr P) _) in *. set (q3 := qE (qQJz P) _) in *. clearbody q1 q2 q3. pose proof PI_RGT_0 as HP.
  split; [field; lra|]. assert (HP2 : 0 < PI ^ 2) by (apply pow_lt; exact HP). set (pp := PI ^ 2) in *. clearbody pp. clear HP.
  assert (0 < 2 * pp * ka * sr * sz) by (repeat apply Rmult_lt_0_compat; lra).
  unfold Rdiv. repeat apply Rmult_lt_0_compat; try lra. apply Rinv_0_lt_compat; assumption.
Qed.

Lemma lin_derive (a : R -> R) (k t da : R) : is_derive a t da -> is_derive (fun s => a s / k) t (da / k).
Proof. intros A. unfold Rdiv. auto_derive; [exists da; exact A|]. der a A. ring. Qed.
Lemma comp_derive (f g : R -> R) (t df dg : R) : is_derive f (g t) df -> is_derive g t dg -> is_derive (fun s => f (g s)) t (df * dg).
Proof. intros A B. rewrite Rmult_comm. apply (is_derive_comp f g t df dg A B). Qed.
Lemma sr_derive (Rc : R -> R) (t dR s0 m rs : R) : is_derive Rc t dR -> rs <> 0 -> is_derive (fun s => s0 ^ 2 * exp (- 2 * Rc s / rs) + m ^ 2) t (-2 / rs * (s0 ^ 2 * exp (- 2 * Rc t / rs)) * dR).
Proof.
  intros A K. auto_derive; [exists dR; exact A|]. der Rc A. replace (- (2) * Rc t * / rs) with (- 2 * Rc t / rs) by (unfold Rdiv; ring). unfold Rdiv. field. exact K.
Qed.
(** logarithmic derivative of the vertical dispersion, as in the code *)
Definition dlnsz (nu dlnnu invsz : R) := - (if Rlt_b 0 (qHdisk P) then - pow_2 (2 * nu * qHdisk P) * invsz * dlnnu else 2 / qRsigmaz P * (1 - pow_2 (qSigmamin P) * invsz)).
Lemma sz_derive (Rc nu : R -> R) (t dR dn : R) : is_derive Rc t dR -> is_derive nu t (dn * dR) -> 0 < nu t -> is_derive (fun s => sz2 (Rc s) (nu s)) t (sz2 (Rc t) (nu t) * (dlnsz (nu t) (dn / nu t) (/ sz2 (Rc t) (nu t)) * dR)).
Proof.
  intros A B K. pose proof (sz2_pos (Rc t) (nu t) K) as KS. unfold dlnsz, pow_2. revert KS. unfold sz2. destruct V as (_ & _ & _ & _ & V5 & _). destruct (Rlt_dec 0 (qHdisk P)) as [L|L]; intros KS.
  - rewrite (Rlt_b_t _ _ L). auto_derive; [exists (dn * dR); exact B|]. der nu B. field. split; [|lra]. cbn in KS |- *. lra.
  - rewrite (Rlt_b_f 0 (qHdisk P) (Rnot_lt_le _ _ L)). assert (W : qRsigmaz P <> 0) by lra. pose proof (sr_derive Rc t dR (qSigmaz0 P) (qSigmamin P) (qRsigmaz P) A W) as C. set (e := exp (- 2 * Rc t / qRsigmaz P)) in *.
    replace ((qSigmaz0 P ^ 2 * e + qSigmamin P ^ 2) * (- (2 / qRsigmaz P * (1 - qSigmamin P * qSigmamin P * / (qSigmaz0 P ^ 2 * e + qSigmamin P ^ 2))) * dR)) with (-2 / qRsigmaz P * (qSigmaz0 P ^ 2 * e) * dR); [exact C|]. clearbody e. field. split; [cbn in KS |- *; lra|exact W].
Qed.

Lemma qi_grad J : qok (qQJr P) -> qok (qQJz P) -> qok (qQJphi P) -> physical J -> v3 J <> 0 -> is_grad (qiDF P fr) J (snd (qiEval P fr J)).
Proof.
  intros Q1 Q2 Q3 F NZ. destruct (qi_value J Q1 Q2 Q3 F (or_introl NZ)) as (EV & _). destruct J as [[Jr Jz] Jp]. destruct F as (F1 & F2). cbn in NZ. pose proof V as (V1 & V2 & V3 & V4 & V5 & V6 & V7 & V8 & V9 & V10).
  intros c1 c2 c3 t u1 u2 u3 E D1 D2 D3. injection E as E1 E2 E3.
  set (dS := (if Rle_b 0 Jp then 1 else -1) * u3 + qCoefJr P * u1 + qCoefJz P * u2).
  set (S0 := fun s => Rabs (c3 s) + qCoefJr P * c1 s + qCoefJz P * c2 s).
  assert (DS : is_derive S0 t dS).
  { unfold dS, S0. rewrite <- E3 in *. apply (is_derive_plus (fun s => Rabs (c3 s) + qCoefJr P * c1 s) (fun s => qCoefJz P * c2 s)); [apply (is_derive_plus (fun s => Rabs (c3 s)) (fun s => qCoefJr P * c1 s))|]; [apply sgn_derive; assumption|apply (is_derive_scal c1 t _ _ D1)|apply (is_derive_scal c2 t _ _ D2)]. }
  assert (ES : S0 t = Rabs Jp + qCoefJr P * Jr + qCoefJz P * Jz) by (unfold S0; rewrite E1, E2, E3; reflexivity).
  assert (KS : 0 < S0 t).
  { rewrite ES. pose proof (Rabs_pos_lt _ NZ). pose proof (Rmult_le_pos _ _ V6 F1). pose proof (Rmult_le_pos _ _ V7 F2). lra. }
  assert (KJ2 : 0 < S0 t ^ 2 + qJmin P ^ 2) by (pose proof (pow2_ge_0 (qJmin P)); nra).
  pose proof (hyp_derive S0 (qJmin P) t dS DS KJ2) as DJ. set (Jh := fun s => sqrt (S0 s ^ 2 + qJmin P ^ 2)) in *. change (sqrt (S0 t ^ 2 + qJmin P ^ 2)) with (Jh t) in DJ.
  assert (KJ : 0 < Jh t) by (apply sqrt_lt_R0, KJ2).
  pose proof FO as (FO1 & FO2). destruct (FO1 _ KJ) as (KR & DR0). pose proof (comp_derive (fun x => fst (Rcirc fr x)) Jh t _ _ DR0 DJ) as DR.
  set (Rc := fun s => fst (Rcirc fr (Jh s))) in *. change (fst (Rcirc fr (Jh t))) with (Rc t) in *.
  set (dR := snd (Rcirc fr (Jh t)) * (S0 t * dS / Jh t)) in *.
  destruct (FO2 _ KR) as (Kk & Kn & Ko & Dk0 & Dn0 & Do0).
  pose proof (comp_derive (fun x => fst (fKappa fr x)) Rc t _ _ Dk0 DR) as Dk. pose proof (comp_derive (fun x => fst (fNu fr x)) Rc t _ _ Dn0 DR) as Dn. pose proof (comp_derive (fun x => fst (fOmega fr x)) Rc t _ _ Do0 DR) as Do.
  set (ka := fun s => fst (fKappa fr (Rc s))) in *. set (nu := fun s => fst (fNu fr (Rc s))) in *. set (om := fun s => fst (fOmega fr (Rc s))) in *.
  change (fst (fKappa fr (Rc t))) with (ka t) in *. change (fst (fNu fr (Rc t))) with (nu t) in *. change (fst (fOmega fr (Rc t))) with (om t) in *.
  change (is_derive Rc t dR) in DR.
  set (dk := snd (fKappa fr (Rc t))) in *. set (dn := snd (fNu fr (Rc t))) in *. set (do' := snd (fOmega fr (Rc t))) in *.
  change (is_derive ka t (dk * dR)) in Dk. change (is_derive nu t (dn * dR)) in Dn. change (is_derive om t (do' * dR)) in Do.
  pose proof (sr_derive Rc t dR (qSigmar0 P) (qSigmamin P) (qRsigmar P) DR (Rgt_not_eq _ _ V4)) as Dsr. set (sr := fun s => qSigmar0 P ^ 2 * exp (- 2 * Rc s / qRsigmar P) + qSigmamin P ^ 2) in *.
  pose proof (sz_derive Rc nu t dR dn DR Dn Kn) as Dsz. set (sz := fun s => sz2 (Rc s) (nu s)) in *. change (sz2 (Rc t) (nu t)) with (sz t) in Dsz. change (is_derive sz t (sz t * (dlnsz (nu t) (dn / nu t) (/ sz t) * dR))) in Dsz.
  assert (Kr : 0 < sr t) by apply sr2_pos. assert (Kz : 0 < sz t) by (apply sz2_pos, Kn).
  assert (Esr : qSigmar0 P ^ 2 * exp (- 2 * Rc t / qRsigmar P) = sr t - qSigmamin P ^ 2) by (unfold sr; ring). rewrite Esr in Dsr. change (is_derive sr t (-2 / qRsigmar P * (sr t - qSigmamin P ^ 2) * dR)) in Dsr.
  set (N0 := fun s => Rmax 0 (- c3 s)).
  assert (DN : is_derive N0 t (if Rle_b 0 Jp then 0 else - u3)) by (rewrite <- E3 in *; apply neg_derive; assumption).
  assert (KN : 0 <= N0 t) by apply Rmax_l.
  set (dN := if Rle_b 0 Jp then 0 else - u3) in *. change (is_derive N0 t dN) in DN.
  pose proof (lin_derive Rc (qRdisk P) t dR DR) as A1.
  set (zd := dlnsz (nu t) (dn / nu t) (/ sz t)) in *.
  set (a2 := fun s => (ka s * c1 s + 2 * om s * N0 s) / sr s).
  assert (A2 : is_derive a2 t ((dk * dR * Jr + ka t * u1 + 2 * (do' * dR) * N0 t + 2 * om t * dN) / sr t - (ka t * Jr + 2 * om t * N0 t) * (-2 / qRsigmar P * (sr t - qSigmamin P ^ 2) * dR) / sr t ^ 2)).
  { unfold a2. rewrite <- E1. clear - Dk D1 Do DN Dsr Kr. set (dsr := -2 / qRsigmar P * (sr t - qSigmamin P ^ 2) * dR) in *. set (dka := dk * dR) in *. set (dom := do' * dR) in *. clearbody ka om sr N0 dsr dka dom.
    auto_derive; [repeat split; [exists dka; exact Dk|exists u1; exact D1|exists dom; exact Do|exists dN; exact DN|exists dsr; exact Dsr|lra]|]. der ka Dk. der c1 D1. der om Do. der N0 DN. der sr Dsr. field. lra. }
  set (a3 := fun s => nu s * c2 s / sz s).
  assert (A3 : is_derive a3 t ((dn * dR * Jz + nu t * u2) / sz t - nu t * Jz * (zd * dR) / sz t)).
  { unfold a3. rewrite <- E2. clear - Dn D2 Dsz Kz. set (dsz := sz t * (zd * dR)) in *. assert (Ez : zd * dR = dsz / sz t) by (unfold dsz; field; lra). set (zz := zd * dR) in *. set (dnu := dn * dR) in *. clearbody nu sz zz dsz dnu. subst zz.
    auto_derive; [repeat split; [exists dnu; exact Dn|exists u2; exact D2|exists dsz; exact Dsz|lra]|]. der nu Dn. der c2 D2. der sz Dsz. field. lra. }
  assert (I1 : 0 < 1 + qQJphi P * (Rc t / qRdisk P)) by (apply one_plus; [lra|left; apply Rdiv_lt_0_compat; lra]).
  assert (I2 : 0 < 1 + qQJr P * a2 t).
  { apply one_plus; [lra|]. unfold a2. rewrite E1. apply Rmult_le_pos; [|left; apply Rinv_0_lt_compat, Kr]. assert (0 <= ka t * Jr) by (apply Rmult_le_pos; [left; exact Kk|exact F1]). assert (0 <= 2 * om t * N0 t) by (apply Rmult_le_pos; [clear - Ko; lra|exact KN]). clear - H H0. lra. }
  assert (I3 : 0 < 1 + qQJz P * a3 t).
  { apply one_plus; [lra|]. unfold a3. rewrite E2. apply Rmult_le_pos; [apply Rmult_le_pos; [left; exact Kn|exact F2]|left; apply Rinv_0_lt_compat, Kz]. }
  pose proof (ld_qE (qQJphi P) _ t _ A1 I1) as B1. pose proof (ld_qE (qQJr P) _ t _ A2 I2) as B2. pose proof (ld_qE (qQJz P) _ t _ A3 I3) as B3.
  pose proof (ld_of nu t _ Dn (Rgt_not_eq _ _ Kn)) as B4. pose proof (ld_of om t _ Do (Rgt_not_eq _ _ Ko)) as B5.
  pose proof (ld_inv _ _ _ (ld_of ka t _ Dk (Rgt_not_eq _ _ Kk)) (Rgt_not_eq _ _ Kk)) as B6.
  pose proof (ld_inv _ _ _ (ld_of sr t _ Dsr (Rgt_not_eq _ _ Kr)) (Rgt_not_eq _ _ Kr)) as B7.
  pose proof (ld_inv _ _ _ (Dsz : ld sz t (zd * dR)) (Rgt_not_eq _ _ Kz)) as B8.
  set (K0 := qSigma0 P / (2 * PI ^ 2) * (1 - qQJphi P) * (1 - qQJr P) * (1 - qQJz P)).
  pose proof (ld_mult _ _ t _ _ (ld_mult _ _ t _ _ (ld_mult _ _ t _ _ (ld_mult _ _ t _ _ (ld_mult _ _ t _ _ (ld_mult _ _ t _ _ (ld_mult _ _ t _ _ (ld_mult _ _ t _ _ (ld_const K0 t) B4) B5) B6) B7) B8) B1) B2) B3) as B.
  unfold ld in B. cbv beta in B.
  assert (EX : locally t (fun s => K0 * nu s * om s * / ka s * / sr s * / sz s * qE (qQJphi P) (Rc s / qRdisk P) * qE (qQJr P) (a2 s) * qE (qQJz P) (a3 s) = qiDF P fr (c1 s, c2 s, c3 s))).
  { assert (CK : locally t (fun s => 0 < ka s)).
    { assert (C : continuous ka t) by (apply (ex_derive_continuous ka t); eexists; exact Dk). apply (C (fun y => 0 < y)). apply (open_gt 0). exact Kk. }
    assert (CN : locally t (fun s => 0 < nu s)).
    { assert (C : continuous nu t) by (apply (ex_derive_continuous nu t); eexists; exact Dn). apply (C (fun y => 0 < y)). apply (open_gt 0). exact Kn. }
    generalize (filter_and _ _ CK CN). apply filter_imp. intros s (Ks & Ns).
    unfold qiDF. cbv zeta. fold (S0 s). fold (Jh s). fold (Rc s). fold (ka s) (nu s) (om s) (sr s). fold (sz2 (Rc s) (nu s)). fold (sz s). fold (N0 s). fold (a2 s) (a3 s).
    assert (0 < sr s) by apply sr2_pos. assert (0 < sz s) by (apply sz2_pos, Ns). set (q1 := qE (qQJphi P) _). set (q2 := qE (qQJr P) _). set (q3 := qE (qQJz P) _). unfold K0. pose proof PI_RGT_0.
    clear - Ks H H0 H1. clearbody q1 q2 q3 ka sr sz nu om. field. repeat split; lra. }
  apply (is_derive_ext_loc _ _ _ _ EX). apply locally_singleton in EX.
  rewrite EX in B. rewrite E1, E2, E3 in B. clear EX.
  match type of B with is_derive _ _ ?x => match goal with |- is_derive _ _ ?y => replace y with x; [exact B|] end end.
  revert EV. unfold qiEval. cbv zeta. rewrite Rabs_sgn. rewrite <- ES.
  replace (pow_2 (S0 t) + pow_2 (qJmin P)) with (S0 t ^ 2 + qJmin P ^ 2) by (unfold pow_2; ring). fold (Jh t).
  rewrite (surjective_pairing (Rcirc fr (Jh t))). change (fst (Rcirc fr (Jh t))) with (Rc t).
  rewrite (surjective_pairing (fKappa fr (Rc t))), (surjective_pairing (fNu fr (Rc t))), (surjective_pairing (fOmega fr (Rc t))).
  change (fst (fKappa fr (Rc t))) with (ka t) in *. change (fst (fNu fr (Rc t))) with (nu t) in *. change (fst (fOmega fr (Rc t))) with (om t) in *. fold dk dn do'.
  rewrite invsr_eq, invsz_eq. fold (sr t) (sz t). cbn [fst snd v1 v2 v3].
  intros EV. rewrite !EV. clear EV B B1 B2 B3 B4 B5 B6 B7 B8 Dk Dn Do Dk0 Dn0 Do0 Dsr Dsz A1 A2 A3 DR0 DR DJ FO1 FO2.
  fold (dlnsz (nu t) (dn / nu t) (/ sz t)). fold zd. rewrite negJ2.
  assert (EN0 : N0 t = Rmax 0 (- Jp)) by (unfold N0; rewrite E3; reflexivity). rewrite <- EN0.
  set (x1 := Rc t / qRdisk P) in *.
  replace ((ka t * Jr - - (2 * om t * N0 t)) * / sr t) with (a2 t) by (unfold a2; rewrite E1; unfold Rdiv; ring).
  replace (nu t * Jz * / sz t) with (a3 t) by (unfold a3; rewrite E2; unfold Rdiv; ring).
  set (v := qiDF P fr (Jr, Jz, Jp)). unfold pow_2.
  set (dRJ := snd (Rcirc fr (Jh t)) * S0 t / Jh t).
  assert (EdR : dR = dRJ * dS) by (unfold dR, dRJ; unfold Rdiv; ring).
  assert (Ex1 : qRdisk P + qQJphi P * Rc t = qRdisk P * (1 + qQJphi P * x1)) by (unfold x1; field; lra).
  rewrite Ex1. rewrite EdR. unfold dS, dN.
  assert (Kom : om t <> 0) by (clear - Ko; lra).
  clear - I1 I2 I3 Kk Kn Ko Kr Kz V2 V4 EN0 NZ Kom.
  set (k := ka t) in *. set (n := nu t) in *. set (o := om t) in *. set (r := sr t) in *. set (z := sz t) in *. set (y2 := a2 t) in *. set (y3 := a3 t) in *. set (m := N0 t) in *.
  clearbody k n o r z y2 y3 m x1 dRJ v zd dk dn do'.
  destruct (Rle_lt_dec 0 Jp) as [L|L].
  - rewrite (Rle_b_t _ _ L). rewrite Rmax_left in EN0 by lra. subst m. rewrite (Req_b_t (- (2 * o * 0)) 0) by ring. cbn [negb]. field. repeat split; lra.
  - rewrite (Rle_b_f 0 Jp) by lra. rewrite Rmax_right in EN0 by lra. subst m. rewrite (Req_b_f (- (2 * o * - Jp)) 0) by nra. cbn [negb]. field. repeat split; lra.
Qed.
End QI.
