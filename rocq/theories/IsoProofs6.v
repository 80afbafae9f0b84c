(** Isochrone potential: conversion there and back. *)
From Coq Require Import Reals Lra Psatz Bool ZArith.
From Coquelicot Require Import Coquelicot.
From Verif Require Import RandReal PolyModel PolyProofs CoordModel CoordAtan MathModel MathProofs KeplerSpec KeplerProofs KeplerProofs2 IsoModel IsoProofs IsoProofs2 IsoProofs3 IsoProofs4 IsoProofs5 CoordSpec IsoSpec.
Local Open Scope R_scope.

Lemma sph_inv Rc z phi vR vz vphi r th p vr vth vp : toPosVel_YS ((Rc, z, phi), (vR, vz, vphi)) = ((r, th, p), (vr, vth, vp)) -> 0 < r ->
  r = sqrt (pow_2 Rc + pow_2 z) /\ vr = vR * (Rc * (1 / r)) + vz * (z * (1 / r)) /\ vth = vR * (z * (1 / r)) - vz * (Rc * (1 / r)) /\ p = phi /\ vp = vphi.
Proof.
  unfold toPosVel_YS. destruct (Req_EM_T (sqrt (pow_2 Rc + pow_2 z)) 0) as [E|E]; [rewrite (Req_b_t _ _ E)|rewrite (Req_b_f _ _ E)]; intros H P; injection H; intros; subst; [lra|]. repeat split.
Qed.

(** the results of the evaluation in terms of the spherical components *)
Section Sph.
  Variables M b : R. Hypothesis HM : 0 < M. Hypothesis Hb : 0 <= b.
  Variables Rc z phi vR vz vphi r vr vth : R.
  Hypothesis Hr : 0 < r.
  Hypothesis Er : r = sqrt (pow_2 Rc + pow_2 z).
  Hypothesis Evr : vr = vR * (Rc * (1 / r)) + vz * (z * (1 / r)).
  Hypothesis Evth : vth = vR * (z * (1 / r)) - vz * (Rc * (1 / r)).
  Let rb := sqrt (b * b + pow_2 r).
  Let L := sqrt (pow_2 vth + pow_2 vphi) * r. Let L1 := sqrt (L * L + 4 * M * b). Let Lz := Rc * vphi.
  Let E := - M / (b + rb) + 0.5 * (pow_2 vr + pow_2 vth + pow_2 vphi).
  Let J0 := M / sqrt (-2 * E). Let Jr := J0 - 0.5 * (L + L1).
  Let planar := Req_b z 0 && Req_b vz 0.
  Let k1 := r * vr. Let k2 := J0 - M * rb / J0.
  Let pt : posvel := ((Rc, z, phi), (vR, vz, vphi)).
  Lemma s_r2 : r * r = Rc * Rc + z * z. Proof. rewrite Er. apply r2. Qed.
  Lemma s_rb2 : rb * rb = b * b + r * r. Proof. apply sqrt_sqrt. unfold pow_2. nra. Qed.
  Lemma s_rb : b < rb. Proof. pose proof s_rb2. pose proof (sqrt_pos (b * b + pow_2 r)) as H1. fold rb in H1. nra. Qed.
  Lemma s_vsq : vR * vR + vz * vz = vr * vr + vth * vth.
  Proof. pose proof s_r2 as R2. rewrite Evr, Evth. replace ((vR * (Rc * (1 / r)) + vz * (z * (1 / r))) * (vR * (Rc * (1 / r)) + vz * (z * (1 / r))) + (vR * (z * (1 / r)) - vz * (Rc * (1 / r))) * (vR * (z * (1 / r)) - vz * (Rc * (1 / r)))) with ((vR * vR + vz * vz) * (Rc * Rc + z * z) / (r * r)) by (field; lra). rewrite <- R2. field. lra. Qed.
  Lemma s_vR : vR = vr * (Rc / r) + vth * (z / r).
  Proof. pose proof s_r2 as R2. rewrite Evr, Evth. replace ((vR * (Rc * (1 / r)) + vz * (z * (1 / r))) * (Rc / r) + (vR * (z * (1 / r)) - vz * (Rc * (1 / r))) * (z / r)) with (vR * (Rc * Rc + z * z) / (r * r)) by (field; lra). rewrite <- R2. field. lra. Qed.
  Lemma s_vz : vz = vr * (z / r) - vth * (Rc / r).
  Proof. pose proof s_r2 as R2. rewrite Evr, Evth. replace ((vR * (Rc * (1 / r)) + vz * (z * (1 / r))) * (z / r) - (vR * (z * (1 / r)) - vz * (Rc * (1 / r))) * (Rc / r)) with (vz * (Rc * Rc + z * z) / (r * r)) by (field; lra). rewrite <- R2. field. lra. Qed.
  Lemma s_Hr : sqrt (pow_2 Rc + pow_2 z) <> 0. Proof. rewrite <- Er. lra. Qed.
  Lemma s_LLz : L * L - Lz * Lz = z * z * (vphi * vphi) + r * r * (vth * vth).
  Proof. pose proof (LLz Rc z vR vz vphi) as H. cbv zeta in H. rewrite <- Er in H. rewrite <- Evth in H. exact H. Qed.
  Lemma s_L2 : L * L = r * r * (vth * vth + vphi * vphi).
  Proof. pose proof (L2 Rc z vR vz vphi) as H. cbv zeta in H. rewrite <- Er in H. rewrite <- Evth in H. exact H. Qed.
  Lemma s_Lnn : 0 <= L. Proof. unfold L. apply Rmult_le_pos; [apply sqrt_pos|lra]. Qed.
  Lemma s_Lz : Rabs Lz <= L. Proof. pose proof (Lz_le Rc z vR vz vphi s_Hr) as H. cbv zeta in H. rewrite <- Er in H. rewrite <- Evth in H. exact H. Qed.
  Lemma s_planarL : planar = true -> L = Rabs Lz. Proof. pose proof (planar_L Rc z vR vz vphi s_Hr) as H. cbv zeta in H. rewrite <- Er in H. rewrite <- Evth in H. exact H. Qed.
  Lemma s_planar : planar = true -> z = 0 /\ vth = 0. Proof. pose proof (planar_iff Rc z vR vz vphi s_Hr) as H. cbv zeta in H. rewrite <- Er in H. rewrite <- Evth in H. apply H. Qed.
  Lemma s_nonplanar : planar = false -> 0 < Rc -> 0 < vphi * vphi -> Rabs Lz < L. Proof. pose proof (planar_iff Rc z vR vz vphi s_Hr) as H. cbv zeta in H. rewrite <- Er in H. rewrite <- Evth in H. apply H. Qed.
  Hypothesis HE : E < 0.
  Lemma HE' : let r0 := sqrt (pow_2 Rc + pow_2 z) in
     - M / (b + sqrt (b * b + pow_2 r0)) + 0.5 * (pow_2 (vR * (Rc * (1 / r0)) + vz * (z * (1 / r0))) + pow_2 (vR * (z * (1 / r0)) - vz * (Rc * (1 / r0))) + pow_2 vphi) < 0.
  Proof. cbv zeta. rewrite <- Er, <- Evr, <- Evth. exact HE. Qed.
  Lemma s_J0 : 0 < J0. Proof. apply Rdiv_lt_0_compat; [exact HM|apply sqrt_lt_R0; lra]. Qed.
  Lemma s_J0E : E = - (M * M) / (2 * (J0 * J0)).
  Proof. pose proof (J0E M b HM Rc z vR vz vphi HE') as H. cbv zeta in H. rewrite <- Er in H. rewrite <- Evr, <- Evth in H. exact H. Qed.
  Lemma s_Jr : 0 <= Jr.
  Proof. pose proof (Jr_nn M b HM Hb Rc z vR vz vphi s_Hr HE') as H. cbv zeta in H. rewrite <- Er in H. rewrite <- Evr, <- Evth in H. exact H. Qed.
  Lemma s_cJ0 : cJ0 M b Jr L = J0. Proof. unfold cJ0, cL1. fold L1. unfold Jr. ring. Qed.
  Lemma s_eval : evalIsochrone M b pt = mkEval (Some Jr) (L - Rabs Lz) Lz (evalAngles M b pt L L1 Lz E J0)
     (let Om := pow_2 M / pow_3 J0 in Some (Om, Om * 0.5 * (1 + L / L1), sign Lz * (Om * 0.5 * (1 + L / L1)))).
  Proof. pose proof (eval_val M b HM Hb Rc z phi vR vz vphi s_Hr HE') as H. cbv zeta in H. unfold ptc in H. rewrite <- Er in H. rewrite <- Evr, <- Evth in H. exact H. Qed.
  Hypothesis HLp : 0 < L. Hypothesis HK : k1 * k1 + k2 * k2 <> 0.
  Let e := ce M b Jr L.
  Lemma s_angles : exists eta tz, - PI < eta <= PI /\ e * J0 * cos eta = k2 /\ e * J0 * sin eta = k1 /\ 0 <= tz < 2 * PI /\
    same_angle tz (atan2 (z * L) (- Rc * vth * r) - phase M b Jr (L - Rabs Lz) Lz eta) /\
    evalAngles M b pt L L1 Lz E J0 = (Some (wrapAngle (2 * PI) (eta - e * sin eta)), Some (if planar then 0 else tz), Some (wrapAngle (2 * PI) (phi - atan2 (z * vphi) (- vth * r) + sign Lz * tz))).
  Proof.
    pose proof (angles_val M b HM Hb Rc z phi vR vz vphi s_Hr HE') as H. cbv zeta in H. unfold ptc, psi_e, chi_e in H. rewrite <- Er in H. rewrite <- Evr, <- Evth in H.
    exact (H HLp HK).
  Qed.
  Lemma s_ek : e * J0 * (e * J0) = k1 * k1 + k2 * k2.
  Proof. pose proof (e_k M b HM Hb Rc z vR vz vphi s_Hr HE') as H. cbv zeta in H. rewrite <- Er in H. rewrite <- Evr, <- Evth in H. exact (H HLp). Qed.
  Lemma s_ep : 0 < e. Proof. pose proof (e_nn M b Jr L HM Hb s_Jr HLp) as H. fold e in H. pose proof s_ek. destruct H as [H|H]; [exact H|]. rewrite <- H in H0. exfalso. apply HK. lra. Qed.
End Sph.

Section Back.
  (** evaluation of the mapped point *)
  Variables M b Jr Jz Jphi : R.
  Hypothesis HM : 0 < M. Hypothesis Hb : 0 <= b. Hypothesis HJr : 0 <= Jr. Hypothesis HJz : 0 <= Jz.
  Let L := Jz + Rabs Jphi.
  Hypothesis HL : 0 < L.
  Let c := Jphi / L. Let si := sqrt (1 - c * c). Let J0 := cJ0 M b Jr L. Let L1 := cL1 M b L. Let e := ce M b Jr L.
  Variables eta psi : R. Hypothesis HS : st Jz Jphi psi <> 0.
  Let r := o_r M b Jr Jz Jphi eta. Let vr := o_vr M b Jr Jz Jphi eta. Let q := st Jz Jphi psi.
  Let vth := - L * si * cos psi / (r * q). Let vph := Jphi / (r * q).
  Variable phi : R.
  Definition b_pt : posvel := ((r * q, r * (si * sin psi), phi), (vr * q + vth * (si * sin psi), vr * (si * sin psi) - vth * q, vph)).
  Lemma b_sph : exists th, toPosVel_YS b_pt = ((r, th, phi), (vr, vth, vph)).
  Proof. destruct (map_sph M b Jr Jz Jphi HM Hb HJr HJz HL eta psi phi HS) as (th & v1 & v2 & H & E1 & E2 & _). exists th. subst v1 v2. exact H. Qed.
  Lemma b_r : 0 < r. Proof. exact (r_pos M b Jr Jz Jphi HM Hb HJr HL eta). Qed.
  Lemma b_q : 0 < q. Proof. pose proof (sqrt_pos (1 - si * sin psi * (si * sin psi))) as H. change (0 <= q) in H. assert (q <> 0) by exact HS. lra. Qed.
  Lemma b_L : sqrt (pow_2 vth + pow_2 vph) * r = L.
  Proof.
    destruct (map_sph M b Jr Jz Jphi HM Hb HJr HJz HL eta psi phi HS) as (th & v1 & v2 & H & E1 & E2 & E3). subst v1 v2. pose proof b_r as RP.
    change (vth * vth + vph * vph = L / r * (L / r)) in E3. unfold pow_2. rewrite E3. rewrite sqrt_square by (apply Rmult_le_pos; [lra|left; apply Rinv_0_lt_compat; exact RP]). field. lra.
  Qed.
  Lemma b_rb : sqrt (b * b + pow_2 r) = o_rb M b Jr Jz Jphi eta.
  Proof. pose proof (r_sq M b Jr Jz Jphi HM Hb HJr HL eta) as R2. pose proof (rb_b M b Jr Jz Jphi HM Hb HJr HL eta). apply sqrt_eq; [lra|]. unfold pow_2. fold r in R2. lra. Qed.
  Lemma b_E : - M / (b + sqrt (b * b + pow_2 r)) + 0.5 * (pow_2 vr + pow_2 vth + pow_2 vph) = - (M * M) / (2 * (J0 * J0)).
  Proof.
    rewrite b_rb. pose proof (energy_form M b Jr Jz Jphi HM Hb HJr HL eta) as H. fold L in H. fold r vr J0 in H. rewrite <- H. f_equal. f_equal. rewrite Rplus_assoc. f_equal.
    pose proof b_L as BL. pose proof b_r as RP. rewrite <- BL. unfold pow_2. set (w := vth * vth + vph * vph). assert (0 <= w) by (unfold w; nra). replace (sqrt w * r / r * (sqrt w * r / r)) with (sqrt w * sqrt w) by (field; lra). rewrite sqrt_sqrt by assumption. reflexivity.
  Qed.
  Lemma b_J0 : M / sqrt (-2 * (- (M * M) / (2 * (J0 * J0)))) = J0.
  Proof.
    pose proof (J0_pos M b Jr L HM Hb HJr HL) as PJ. fold J0 in PJ. replace (-2 * (- (M * M) / (2 * (J0 * J0)))) with ((M / J0) * (M / J0)) by (field; lra). rewrite sqrt_square by (left; apply Rdiv_lt_0_compat; assumption). field. lra.
  Qed.
  Lemma b_Lz : r * q * vph = Jphi. Proof. pose proof b_r. pose proof b_q. unfold vph. field. lra. Qed.
  Lemma b_neg : - (M * M) / (2 * (J0 * J0)) < 0.
  Proof. pose proof (J0_pos M b Jr L HM Hb HJr HL) as PJ. fold J0 in PJ. assert (0 < M * M / (2 * (J0 * J0))) by (apply Rdiv_lt_0_compat; nra). replace (- (M * M) / (2 * (J0 * J0))) with (- (M * M / (2 * (J0 * J0)))) by (field; lra). lra. Qed.
  Lemma b_eval : evalIsochrone M b b_pt = mkEval (Some Jr) Jz Jphi (evalAngles M b b_pt L L1 Jphi (- (M * M) / (2 * (J0 * J0))) J0) (mapFreq M b Jr Jz Jphi).
  Proof.
    destruct b_sph as (th & SP). destruct (sph_inv _ _ _ _ _ _ _ _ _ _ _ _ SP b_r) as (Er & Evr & Evth & _ & _).
    pose proof (s_eval M b HM Hb (r * q) (r * (si * sin psi)) phi (vr * q + vth * (si * sin psi)) (vr * (si * sin psi) - vth * q) vph r vr vth b_r Er Evr Evth) as H.
    rewrite b_L, b_E, b_J0, b_Lz in H. specialize (H b_neg). cbv zeta in H. change (evalIsochrone M b b_pt) with (evalIsochrone M b (r * q, r * (si * sin psi), phi, (vr * q + vth * (si * sin psi), vr * (si * sin psi) - vth * q, vph))). rewrite H.
    change (sqrt (L * L + 4 * M * b)) with L1. assert (EJ : J0 - 0.5 * (L + L1) = Jr) by (unfold J0, cJ0; fold L1; ring). rewrite EJ. replace (L - Rabs Jphi) with Jz by (unfold L; ring). f_equal.
    unfold mapFreq. rewrite !Rlt_b_f by lra. cbn [orb]. cbv zeta. rewrite sign_abs. fold L. change (sqrt (L * L + 4 * M * b)) with L1. change (Jr + 0.5 * (L + L1)) with J0.
    pose proof (L1_ge M b L HM Hb HL) as LG. fold L1 in LG. rewrite half5.
    assert (EQ : pow_2 M / pow_3 J0 * / 2 * (1 + L / L1) = pow_2 M / pow_3 J0 * (/ 2 + / 2 * L / L1)) by (set (w := pow_2 M / pow_3 J0); field; lra). rewrite EQ. f_equal. f_equal. ring.
  Qed.
  (** angles *)
  Hypothesis HJp : 0 < Jr.
  Lemma b_k : r * vr = J0 * e * sin eta /\ J0 - M * sqrt (b * b + pow_2 r) / J0 = J0 * e * cos eta.
  Proof.
    pose proof b_r as RP. pose proof (J0_pos M b Jr L HM Hb HJr HL) as PJ. fold J0 in PJ. split.
    - unfold vr, o_vr. fold L J0 e r. field. lra.
    - rewrite b_rb. unfold o_rb, o_ra. fold L J0 e. field. lra.
  Qed.
  Lemma b_angles : exists et tz, cos et = cos eta /\ sin et = sin eta /\ 0 <= tz < 2 * PI /\
    same_angle tz (atan2 (r * (si * sin psi) * L) (- (r * q) * vth * r) - phase M b Jr Jz Jphi eta) /\
    evalAngles M b b_pt L L1 Jphi (- (M * M) / (2 * (J0 * J0))) J0 = (Some (wrapAngle (2 * PI) (et - e * sin eta)), Some (if Req_b (r * (si * sin psi)) 0 && Req_b (vr * (si * sin psi) - vth * q) 0 then 0 else tz), Some (wrapAngle (2 * PI) (phi - atan2 (r * (si * sin psi) * vph) (- vth * r) + sign Jphi * tz))).
  Proof.
    destruct b_sph as (th & SP). destruct (sph_inv _ _ _ _ _ _ _ _ _ _ _ _ SP b_r) as (Er & Evr & Evth & _ & _).
    pose proof (s_angles M b HM Hb (r * q) (r * (si * sin psi)) phi (vr * q + vth * (si * sin psi)) (vr * (si * sin psi) - vth * q) vph r vr vth b_r Er Evr Evth) as H.
    rewrite b_L, b_E, b_J0, b_Lz in H. specialize (H b_neg HL). destruct b_k as [K1 K2]. rewrite K1, K2 in H.
    pose proof (J0_pos M b Jr L HM Hb HJr HL) as PJ. fold J0 in PJ. pose proof (e_pos M b Jr L HM Hb HJr HL HJp) as EP. fold e in EP. pose proof (sc1 eta) as SC.
    assert (JE : 0 < J0 * e) by (apply Rmult_lt_0_compat; assumption).
    assert (NK : J0 * e * sin eta * (J0 * e * sin eta) + J0 * e * cos eta * (J0 * e * cos eta) <> 0). { replace (J0 * e * sin eta * (J0 * e * sin eta) + J0 * e * cos eta * (J0 * e * cos eta)) with (J0 * e * (J0 * e) * (sin eta * sin eta + cos eta * cos eta)) by ring. rewrite SC. nra. }
    specialize (H NK). change (sqrt (L * L + 4 * M * b)) with L1 in H. assert (EJ : J0 - 0.5 * (L + L1) = Jr) by (unfold J0, cJ0; fold L1; ring). rewrite EJ in H. replace (L - Rabs Jphi) with Jz in H by (unfold L; ring). fold e in H.
    destruct H as (et & tz & _ & C & S & TZ & SA & H). assert (C' : cos et = cos eta) by (apply Rmult_eq_reg_l with (J0 * e); lra). assert (S' : sin et = sin eta) by (apply Rmult_eq_reg_l with (J0 * e); lra).
    exists et, tz. split; [exact C'|]. split; [exact S'|]. split; [exact TZ|]. split; [rewrite <- (phase_periodic M b Jr Jz Jphi et eta C' S'); exact SA|]. rewrite S' in H. exact H.
  Qed.
  Lemma chi_same : 0 < Jz -> Jphi <> 0 -> same_angle (atan2 (r * (si * sin psi) * vph) (- vth * r)) (sign Jphi * o_chi Jz Jphi psi) /\ same_angle (atan2 (r * (si * sin psi) * L) (- (r * q) * vth * r)) psi.
  Proof.
    intros Zp N. pose proof b_r as RP. pose proof b_q as QP.
    assert (SI : 0 < si). { apply sqrt_lt_R0. pose proof (c_abs Jz Jphi HL) as CA. fold L c in CA. assert (Rabs c < 1). { apply Rmult_lt_reg_l with L; [exact HL|]. rewrite <- CA. unfold L. lra. } assert (CC : c * c = Rabs c * Rabs c) by (unfold Rabs; destruct (Rcase_abs c); ring). rewrite CC. pose proof (Rabs_pos c). nra. }
    split.
    - replace (r * (si * sin psi) * vph) with (si / q * (Jphi * sin psi)) by (unfold vph; field; lra). replace (- vth * r) with (si / q * (L * cos psi)) by (unfold vth; field; lra). rewrite atan2_scale by (apply Rdiv_lt_0_compat; assumption).
      unfold o_chi. rewrite Req_b_f by lra. cbn [negb]. fold L. destruct (sign_cases Jphi) as [[A B]|[[A B]|[A B]]]; [| |contradiction]; rewrite B.
      + rewrite Rabs_right by lra. rewrite Rmult_1_l. apply same_refl.
      + rewrite Rabs_left by lra. set (Y := Jphi * sin psi). replace (- Jphi * sin psi) with (- Y) by (unfold Y; ring). set (X := L * cos psi). destruct (atan2_polar Y X) as [P1 P2]. destruct (atan2_polar (- Y) X) as [P3 P4].
        assert (W : 0 < sqrt (pow_2 X + pow_2 Y)). { apply sqrt_lt_R0. unfold pow_2, X, Y. pose proof (sc1 psi) as SC. assert (0 < L * L) by nra. assert (0 < Jphi * Jphi) by nra. assert (0 <= cos psi * cos psi) by nra. assert (0 <= sin psi * sin psi) by nra.
          replace (L * cos psi * (L * cos psi) + Jphi * sin psi * (Jphi * sin psi)) with (L * L * (cos psi * cos psi) + Jphi * Jphi * (sin psi * sin psi)) by ring. destruct (Req_dec (cos psi * cos psi) 0) as [Z0|Z0]; [rewrite Z0 in *; nra|]. assert (0 < L * L * (cos psi * cos psi)) by (apply Rmult_lt_0_compat; lra). nra. }
        replace (pow_2 X + pow_2 (- Y)) with (pow_2 X + pow_2 Y) in P3, P4 by (unfold pow_2; ring). apply trig_same.
        * replace (-1 * atan2 (- Y) X) with (- atan2 (- Y) X) by ring. rewrite cos_neg. apply Rmult_eq_reg_l with (sqrt (pow_2 X + pow_2 Y)); lra.
        * replace (-1 * atan2 (- Y) X) with (- atan2 (- Y) X) by ring. rewrite sin_neg. apply Rmult_eq_reg_l with (sqrt (pow_2 X + pow_2 Y)); lra.
    - replace (r * (si * sin psi) * L) with (r * si * L * sin psi) by ring. replace (- (r * q) * vth * r) with (r * si * L * cos psi) by (unfold vth; field; lra).
      assert (K : 0 < r * si * L) by (repeat apply Rmult_lt_0_compat; assumption). destruct (atan2_polar (r * si * L * sin psi) (r * si * L * cos psi)) as [P1 P2]. rewrite sqrt_polar in P1, P2 by lra. apply trig_same; apply Rmult_eq_reg_l with (r * si * L); lra.
  Qed.
End Back.
