(** Isochrone potential: what the evaluation returns for a bound point. *)
From Coq Require Import Reals Lra Psatz Bool ZArith.
From Coquelicot Require Import Coquelicot.
From Verif Require Import RandReal PolyModel PolyProofs CoordModel CoordAtan MathModel MathProofs KeplerSpec KeplerProofs KeplerProofs2 IsoModel IsoProofs IsoProofs2 IsoProofs3 IsoProofs4 CoordSpec IsoSpec.
Local Open Scope R_scope.

Lemma half_angle_c f eta : 0 < f -> - PI < eta <= PI -> atanMul f (tanhalf eta) = eta / 2 + branch f eta.
Proof.
  intros Hf B. pose proof PI_RGT_0 as PP. unfold tanhalf. destruct (Req_EM_T eta PI) as [E|E].
  - subst eta. rewrite cos_PI, Req_b_t by reflexivity. cbn [atanMul]. unfold branch. rewrite sin_PI. replace ((f - 1) * 0 / (1 + f + (1 - f) * cos PI)) with 0 by (rewrite cos_PI; field; lra). rewrite atan_0. lra.
  - assert (C : 0 < cos (eta / 2)) by (apply cos_gt_0; lra). assert (CE : cos eta = 2 * (cos (eta / 2) * cos (eta / 2)) - 1) by (replace eta with (2 * (eta / 2)) at 1 by field; rewrite cos_2a_cos; ring).
    rewrite Req_b_f by nra. cbn [atanMul]. pose proof (half_tan (eta / 2) ltac:(lra)) as T. replace (2 * (eta / 2)) with eta in T by field. rewrite T. rewrite (atan_branch f (eta / 2) Hf ltac:(lra)). replace (2 * (eta / 2)) with eta by field. reflexivity.
Qed.
Lemma wrap_same x : same_angle (wrapAngle (2 * PI) x) x.
Proof. pose proof PI_RGT_0. destruct (wrapAngle_ok (2 * PI) x ltac:(lra)) as (_ & k & E). exists k. exact E. Qed.
Lemma wrap_range x : 0 <= wrapAngle (2 * PI) x < 2 * PI. Proof. pose proof PI_RGT_0. apply wrapAngle_ok. lra. Qed.
Lemma same_unique x y : 0 <= x < 2 * PI -> 0 <= y < 2 * PI -> same_angle x y -> x = y.
Proof. intros A B (k & E). rewrite (turn_int y k B) in E by (rewrite <- E; exact A). rewrite E. ring. Qed.
Lemma wrap_of x y : 0 <= y < 2 * PI -> same_angle x y -> wrapAngle (2 * PI) x = y.
Proof. intros B E. apply same_unique; [apply wrap_range|exact B|]. eapply same_trans; [apply wrap_same|exact E]. Qed.
Lemma trig_same x y : cos x = cos y -> sin x = sin y -> same_angle x y.
Proof.
  intros C S. set (a := wrapAngle (2 * PI) x). set (c := wrapAngle (2 * PI) y). pose proof (wrap_same x) as X. pose proof (wrap_same y) as Y. fold a in X. fold c in Y. pose proof (wrap_range x) as XR. pose proof (wrap_range y) as YR. fold a in XR. fold c in YR.
  assert (E : a - PI = c - PI).
  { destruct (same_trig _ _ X) as [X1 X2]. destruct (same_trig _ _ Y) as [Y1 Y2]. 
    assert (A : forall u, 0 <= u < 2 * PI -> exists v, (- PI < v <= PI /\ cos v = cos u /\ sin v = sin u) /\ u = (if Rlt_b v 0 then v + 2 * PI else v)).
    { intros u U. pose proof PI_RGT_0. destruct (Rle_lt_dec u PI); [exists u; rewrite Rlt_b_f by lra; repeat split; lra|].
      exists (u - 2 * PI). rewrite Rlt_b_t by lra. destruct (cos_turns u 1) as [T1 T2]. rewrite Rmult_1_r in T1, T2. repeat split; try lra; assumption. }
    destruct (A a XR) as (va & (A1 & A2 & A3) & EA). destruct (A c YR) as (vc & (C1 & C2 & C3) & EC).
    assert (V : va = vc) by (apply angle_unique; [exact A1|exact C1|congruence|congruence]). rewrite EA, EC, V. reflexivity. }
  eapply same_trans; [apply same_sym; exact X|]. replace a with c by lra. exact Y.
Qed.

Section Eval.
  Variables M b : R. Hypothesis HM : 0 < M. Hypothesis Hb : 0 <= b.
  Variables Rc z phi vR vz vphi : R.
  Let r := sqrt (pow_2 Rc + pow_2 z).
  Hypothesis Hr : r <> 0.
  Let vr := vR * (Rc * (1 / r)) + vz * (z * (1 / r)).
  Let vth := vR * (z * (1 / r)) - vz * (Rc * (1 / r)).
  Let rb := sqrt (b * b + pow_2 r).
  Let L := sqrt (pow_2 vth + pow_2 vphi) * r. Let L1 := sqrt (L * L + 4 * M * b). Let Lz := Rc * vphi.
  Let E := - M / (b + rb) + 0.5 * (pow_2 vr + pow_2 vth + pow_2 vphi).
  Hypothesis HE : E < 0.
  Let J0 := M / sqrt (-2 * E).
  Let Jr := J0 - 0.5 * (L + L1).
  Let planar := Req_b z 0 && Req_b vz 0.
  Let k1 := r * vr. Let k2 := J0 - M * rb / J0.
  Lemma rp : 0 < r. Proof. pose proof (sqrt_pos (pow_2 Rc + pow_2 z)) as H. fold r in H. lra. Qed.
  Lemma r2 : r * r = Rc * Rc + z * z. Proof. apply sqrt_sqrt. unfold pow_2. nra. Qed.
  Lemma rb2 : rb * rb = b * b + r * r. Proof. apply sqrt_sqrt. unfold pow_2. nra. Qed.
  Lemma rbp : b < rb. Proof. pose proof rp. pose proof rb2. pose proof (sqrt_pos (b * b + pow_2 r)) as H1. fold rb in H1. nra. Qed.
  Lemma Lnn : 0 <= L. Proof. pose proof rp. unfold L. apply Rmult_le_pos; [apply sqrt_pos|lra]. Qed.
  Lemma L2 : L * L = r * r * (vth * vth + vphi * vphi).
  Proof. unfold L. replace (sqrt (pow_2 vth + pow_2 vphi) * r * (sqrt (pow_2 vth + pow_2 vphi) * r)) with (r * r * (sqrt (pow_2 vth + pow_2 vphi) * sqrt (pow_2 vth + pow_2 vphi))) by ring. rewrite sqrt_sqrt by (unfold pow_2; nra). unfold pow_2. ring. Qed.
  Lemma LLz : L * L - Lz * Lz = z * z * (vphi * vphi) + r * r * (vth * vth). Proof. rewrite L2. unfold Lz. pose proof r2. nra. Qed.
  Lemma Lz_le : Rabs Lz <= L.
  Proof. pose proof Lnn. pose proof LLz as H0. apply Rsqr_incr_0_var; [|exact H]. rewrite <- Rsqr_abs. unfold Rsqr. assert (0 <= z * z * (vphi * vphi)) by (apply Rmult_le_pos; nra). assert (0 <= r * r * (vth * vth)) by (apply Rmult_le_pos; nra). lra. Qed.
  Lemma J0pos : 0 < J0. Proof. apply Rdiv_lt_0_compat; [exact HM|apply sqrt_lt_R0; lra]. Qed.
  Lemma J0E : E = - (M * M) / (2 * (J0 * J0)).
  Proof.
    assert (S : sqrt (-2 * E) * sqrt (-2 * E) = -2 * E) by (apply sqrt_sqrt; lra). assert (P : 0 < sqrt (-2 * E)) by (apply sqrt_lt_R0; lra).
    unfold J0. replace (M / sqrt (-2 * E) * (M / sqrt (-2 * E))) with (M * M / (sqrt (-2 * E) * sqrt (-2 * E))) by (field; lra). rewrite S. field. lra.
  Qed.
  Lemma J0_gt : M * b < J0 * J0.
  Proof.
    pose proof J0pos as PJ. pose proof rbp as RB. pose proof J0E as EE.
    assert (LB : - M / (b + rb) <= E). { unfold E. assert (0 <= pow_2 vr + pow_2 vth + pow_2 vphi) by (unfold pow_2; nra). lra. }
    rewrite EE in LB. assert (Q : 0 < J0 * J0) by (apply Rmult_lt_0_compat; exact PJ).
    assert (A : M * (b + rb) <= 2 * (J0 * J0)).
    { apply Rmult_le_compat_r with (r := (b + rb) * (2 * (J0 * J0)) / M) in LB.
      - replace (- M / (b + rb) * ((b + rb) * (2 * (J0 * J0)) / M)) with (- (2 * (J0 * J0))) in LB by (field; lra). replace (- (M * M) / (2 * (J0 * J0)) * ((b + rb) * (2 * (J0 * J0)) / M)) with (- (M * (b + rb))) in LB by (field; lra). lra.
      - left. apply Rdiv_lt_0_compat; [|exact HM]. apply Rmult_lt_0_compat; lra. }
    assert (M * b < M * rb) by (apply Rmult_lt_compat_l; assumption). lra.
  Qed.
  Lemma k_sq : k1 * k1 + k2 * k2 = J0 * J0 - 2 * M * b + M * M * (b * b) / (J0 * J0) - L * L.
  Proof.
    pose proof J0pos as PJ. pose proof rbp as RB. pose proof J0E as EE. pose proof rp as RP.
    assert (V : r * r * (vr * vr) = 2 * (r * r) * (E + M / (b + rb)) - L * L). { rewrite L2. unfold E. rewrite half5. unfold pow_2. field. lra. }
    unfold k1, k2. replace (r * vr * (r * vr)) with (r * r * (vr * vr)) by ring. rewrite V. rewrite EE. replace (r * r) with ((rb - b) * (b + rb)) by (pose proof rb2; lra). field. lra.
  Qed.
  Lemma L1s : L1 * L1 = L * L + 4 * M * b. Proof. apply sqrt_sqrt. assert (0 <= M * b) by (apply Rmult_le_pos; lra). nra. Qed.
  Lemma Jr_nn : 0 <= Jr.
  Proof.
    pose proof J0pos as PJ. pose proof J0_gt as G. pose proof k_sq as K. pose proof Lnn as LN. pose proof L1s as S1. pose proof (sqrt_pos (L * L + 4 * M * b)) as P1. fold L1 in P1.
    assert (A : L * L * (J0 * J0) <= (J0 * J0 - M * b) * (J0 * J0 - M * b)).
    { replace ((J0 * J0 - M * b) * (J0 * J0 - M * b)) with ((J0 * J0 - 2 * M * b + M * M * (b * b) / (J0 * J0) - L * L) * (J0 * J0) + L * L * (J0 * J0)) by (field; lra). rewrite <- K. assert (0 <= (k1 * k1 + k2 * k2) * (J0 * J0)) by (apply Rmult_le_pos; nra). lra. }
    assert (B : L * J0 <= J0 * J0 - M * b). { apply Rsqr_incr_0_var; [unfold Rsqr; lra|lra]. }
    assert (C : (2 * J0 - L) * (2 * J0 - L) >= L1 * L1) by (rewrite S1; nra).
    assert (D : 0 <= 2 * J0 - L). { apply Rnot_lt_le. intros D. assert (0 <= M * b) by (apply Rmult_le_pos; lra). nra. }
    assert (L1 <= 2 * J0 - L) by (apply Rsqr_incr_0_var; [unfold Rsqr; lra|exact D]). unfold Jr. lra.
  Qed.
  Lemma J0_is : cJ0 M b Jr L = J0. Proof. unfold cJ0, cL1. fold L1. unfold Jr. ring. Qed.
  Lemma planar_iff : (planar = true -> z = 0 /\ vth = 0) /\ (planar = false -> 0 < Rc -> 0 < vphi * vphi -> Rabs Lz < L).
  Proof.
    pose proof rp as RP. unfold planar. destruct (Req_EM_T z 0) as [Z0|Z0]; [rewrite (Req_b_t _ _ Z0)|rewrite (Req_b_f _ _ Z0)]; (destruct (Req_EM_T vz 0) as [V0|V0]; [rewrite (Req_b_t _ _ V0)|rewrite (Req_b_f _ _ V0)]); cbn [andb].
    all: split; intros H; try discriminate H.
    1: split; [exact Z0|]; unfold vth; rewrite Z0, V0; ring.
    all: intros RC VP; pose proof LLz as K; pose proof Lnn; apply Rsqr_incrst_0; [|apply Rabs_pos|assumption]; rewrite <- Rsqr_abs; unfold Rsqr.
    - assert (T : vth = - vz * (Rc / r)) by (unfold vth; rewrite Z0; field; lra). rewrite T, Z0 in K. replace (r * r * (- vz * (Rc / r) * (- vz * (Rc / r)))) with (vz * vz * (Rc * Rc)) in K by (field; lra). assert (0 < vz * vz * (Rc * Rc)) by (apply Rmult_lt_0_compat; nra). lra.
    - assert (0 < z * z * (vphi * vphi)) by (apply Rmult_lt_0_compat; nra). assert (0 <= r * r * (vth * vth)) by (apply Rmult_le_pos; nra). lra.
    - assert (0 < z * z * (vphi * vphi)) by (apply Rmult_lt_0_compat; nra). assert (0 <= r * r * (vth * vth)) by (apply Rmult_le_pos; nra). lra.
  Qed.
  Lemma planar_L : planar = true -> L = Rabs Lz.
  Proof. intros P. destruct (proj1 planar_iff P) as [A B]. pose proof LLz as K. rewrite A, B in K. pose proof Lnn. pose proof (Rabs_pos Lz). apply Rsqr_inj; [assumption|assumption|]. rewrite <- Rsqr_abs. unfold Rsqr. lra. Qed.
  Definition ptc : posvel := ((Rc, z, phi), (vR, vz, vphi)).
  Lemma sph_val : toPosVel_YS ptc = ((r, atan2 Rc z, phi), (vr, vth, vphi)). Proof. unfold ptc, toPosVel_YS. fold r. rewrite Req_b_f by exact Hr. reflexivity. Qed.
  Lemma eval_val : evalIsochrone M b ptc = mkEval (Some Jr) (L - Rabs Lz) Lz (evalAngles M b ptc L L1 Lz E J0)
     (let Om := pow_2 M / pow_3 J0 in Some (Om, Om * 0.5 * (1 + L / L1), sign Lz * (Om * 0.5 * (1 + L / L1)))).
  Proof.
    unfold evalIsochrone. rewrite sph_val. unfold ptc at 1. cbv iota beta zeta. unfold Ltotal_S. fold rb. fold L. fold L1. fold Lz. fold E. fold J0.
    f_equal.
    - rewrite (Rle_b_f 0 E HE). f_equal. fold Jr. apply Rmax_right, Jr_nn.
    - fold planar. destruct planar eqn:P; [rewrite (planar_L P); ring|]. apply Rmax_right. pose proof Lz_le. lra.
    - rewrite Rlt_b_f, Req_b_f by lra. reflexivity.
  Qed.
  (** angles *)
  Hypothesis HLp : 0 < L. Hypothesis HK : k1 * k1 + k2 * k2 <> 0.
  Let e := ce M b Jr L.
  Lemma e_is : sqrt (pow_2 (1 - M * b / pow_2 J0) - pow_2 (L / J0)) = e.
  Proof. apply sqrt_eq; [apply e_nn; [exact HM|exact Hb|apply Jr_nn|exact HLp]|]. unfold e. rewrite (e_sq M b Jr L HM Hb Jr_nn HLp). unfold cj. rewrite J0_is. reflexivity. Qed.
  Lemma e_k : e * J0 * (e * J0) = k1 * k1 + k2 * k2.
  Proof. pose proof J0pos. replace (e * J0 * (e * J0)) with (e * e * (J0 * J0)) by ring. unfold e. rewrite (e_sq M b Jr L HM Hb Jr_nn HLp). unfold cj. rewrite J0_is, k_sq. unfold pow_2. field. lra. Qed.
  Lemma ep : 0 < e. Proof. pose proof (e_nn M b Jr L HM Hb Jr_nn HLp) as H. fold e in H. pose proof e_k. destruct H as [H|H]; [exact H|]. rewrite <- H in H0. exfalso. apply HK. lra. Qed.
  Lemma e1 : e < 1. Proof. exact (e_lt1 M b Jr L HM Hb Jr_nn HLp). Qed.
  Definition psi_e : R := atan2 (z * L) (- Rc * vth * r).
  Definition chi_e : R := atan2 (z * vphi) (- vth * r).
  Lemma angles_val : exists eta tz, - PI < eta <= PI /\ e * J0 * cos eta = k2 /\ e * J0 * sin eta = k1 /\ 0 <= tz < 2 * PI /\ same_angle tz (psi_e - phase M b Jr (L - Rabs Lz) Lz eta) /\
    evalAngles M b ptc L L1 Lz E J0 = (Some (wrapAngle (2 * PI) (eta - e * sin eta)), Some (if planar then 0 else tz), Some (wrapAngle (2 * PI) (phi - chi_e + sign Lz * tz))).
  Proof.
    pose proof J0pos as PJ. pose proof ep as EP. pose proof e1 as EL. pose proof PI_RGT_0 as PP. pose proof Jr_nn as JN.
    assert (SK : sqrt (k1 * k1 + k2 * k2) = e * J0). { rewrite <- e_k. apply sqrt_square. apply Rmult_le_pos; lra. }
    assert (EJ : 0 < e * J0) by (apply Rmult_lt_0_compat; assumption).
    set (eta := atan2 k1 k2). pose proof (atan2_range k1 k2) as ER. fold eta in ER. destruct (atan2_polar k1 k2) as [PC PS]. fold eta in PC, PS. unfold pow_2 in PC, PS. replace (k2 * k2 + k1 * k1) with (k1 * k1 + k2 * k2) in PC, PS by ring. rewrite SK in PC, PS.
    assert (SE : k1 / (e * J0) = sin eta) by (rewrite <- PS; field; lra).
    assert (TH : (if Req_b eta 0 then Some 0 else if Req_b k1 0 then None else Some (- k2 / k1 + 1 / sin eta)) = tanhalf eta).
    { unfold tanhalf. destruct (Req_EM_T eta 0) as [E0|E0]; [rewrite (Req_b_t _ _ E0)|rewrite (Req_b_f _ _ E0)].
      - rewrite E0, cos_0, sin_0. rewrite Req_b_f by lra. f_equal. field.
      - destruct (Req_EM_T k1 0) as [K0|K0]; [rewrite (Req_b_t _ _ K0)|rewrite (Req_b_f _ _ K0)].
        + assert (S0 : sin eta = 0) by (rewrite <- SE, K0; field; lra). assert (C0 : cos eta = -1).
          { destruct (Req_EM_T eta PI) as [->|NP]; [apply cos_PI|]. exfalso. destruct (Rtotal_order eta 0) as [H|[H|H]]; [|contradiction|].
            - pose proof (sin_gt_0 (- eta) ltac:(lra) ltac:(lra)) as G. rewrite sin_neg in G. lra.
            - pose proof (sin_gt_0 eta ltac:(lra) ltac:(lra)). lra. }
          rewrite Req_b_t by exact C0. reflexivity.
        + assert (SN : sin eta <> 0) by (rewrite <- SE; intros H; apply K0; apply Rmult_eq_reg_r with (/ (e * J0)); [unfold Rdiv in H; rewrite H; ring|apply Rinv_neq_0_compat; lra]).
          assert (CN : cos eta <> -1). { intros C. pose proof (sc1 eta) as S1. rewrite C in S1. apply SN. nra. }
          rewrite Req_b_f by exact CN. f_equal. rewrite <- PC, <- PS. pose proof (sc1 eta) as S1. replace (- (e * J0 * cos eta) / (e * J0 * sin eta) + 1 / sin eta) with ((1 - cos eta) / sin eta) by (field; repeat split; lra).
          apply Rmult_eq_reg_r with (sin eta * (1 + cos eta)); [|apply Rmult_integral_contrapositive_currified; [exact SN|intros H; apply CN; lra]]. replace ((1 - cos eta) / sin eta * (sin eta * (1 + cos eta))) with (1 - cos eta * cos eta) by (field; exact SN). replace (sin eta / (1 + cos eta) * (sin eta * (1 + cos eta))) with (sin eta * sin eta) by (field; lra). lra. }
    assert (KR : wrapAngle (2 * PI) (eta - sin eta * e) - (if Rlt_b eta 0 then 2 * PI else 0) = eta - e * sin eta).
    { destruct (Rlt_le_dec eta 0) as [H|H]; [rewrite Rlt_b_t by exact H|rewrite Rlt_b_f by lra].
      - rewrite (wrap_of _ (eta + 2 * PI - e * sin eta)); [lra| |].
        + pose proof (kep_range e (eta + 2 * PI) ltac:(lra) ltac:(lra)) as G. rewrite sin_plus, sin_2PI, cos_2PI in G. replace (sin eta * 1 + cos eta * 0) with (sin eta) in G by ring. exact G.
        + exists 1%Z. ring.
      - rewrite (wrap_of _ (eta - e * sin eta)); [lra| |].
        + apply kep_range; lra.
        + exists 0%Z. ring. }
    exists eta. set (tzr := psi_e + 0.5 * (1 + L / L1) * (eta - e * sin eta) - atanMul (f1 M b Jr L) (tanhalf eta) - atanMul (f2 M b Jr L) (tanhalf eta) * L / L1).
    exists (wrapAngle (2 * PI) tzr). split; [exact ER|]. split; [exact PC|]. split; [exact PS|]. split; [apply wrap_range|]. split.
    - assert (TE : tzr = psi_e - phase M b Jr (L - Rabs Lz) Lz eta).
      { unfold tzr. rewrite (half_angle_c (f1 M b Jr L)) by (assumption || exact (f1_pos M b Jr L HM Hb JN HLp)). rewrite (half_angle_c (f2 M b Jr L)) by (assumption || exact (f2_pos M b Jr L HM Hb JN HLp)).
        unfold phase. replace (L - Rabs Lz + Rabs Lz) with L by ring. fold e. pose proof (L1_ge M b L HM Hb HLp) as LG. change (cL1 M b L) with L1 in *. rewrite half5. field. lra. }
      rewrite <- TE. apply wrap_same.
    - unfold evalAngles. rewrite sph_val. unfold ptc. cbv iota beta zeta. rewrite (Rle_b_f 0 E HE).
      rewrite e_is. rewrite (Req_b_f L 0) by lra. fold rb k1 k2. rewrite (Req_b_f _ 0 HK). fold eta planar psi_e chi_e. rewrite SK, SE, TH, KR.
      change ((1 + e - M * b / pow_2 J0) * J0 / L) with ((1 + e - M * b / pow_2 J0) * J0 / L).
      assert (F1 : (1 + e - M * b / pow_2 J0) * J0 / L = f1 M b Jr L) by (unfold f1, cj; rewrite J0_is; reflexivity).
      assert (F2 : (1 + e + M * b / pow_2 J0) * J0 / L1 = f2 M b Jr L) by (unfold f2, cj; rewrite J0_is; reflexivity).
      rewrite F1, F2. fold tzr. f_equal. f_equal.
      + f_equal. f_equal. ring.
      + destruct planar; reflexivity.
  Qed.
End Eval.
