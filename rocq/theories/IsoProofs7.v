(** Isochrone potential: the statements for points and for action-angle sets. *)
From Coq Require Import Reals Lra Psatz Bool ZArith.
From Coquelicot Require Import Coquelicot.
From Verif Require Import RandReal PolyModel PolyProofs CoordModel CoordAtan MathModel MathProofs KeplerSpec KeplerProofs KeplerProofs2 IsoModel IsoProofs IsoProofs2 IsoProofs3 IsoProofs4 IsoProofs5 IsoProofs6 CoordSpec IsoSpec.
Local Open Scope R_scope.

(** a Cylindrical point and its energy in Cartesian coordinates *)
Lemma pt_cart M b Rc z phi vR vz vphi : let X := toPosVel_YC ((Rc, z, phi), (vR, vz, vphi)) in
  iso_energy M b (fst X) (snd X) = - M / (b + sqrt (b * b + (Rc * Rc + z * z))) + / 2 * (vR * vR + vz * vz + vphi * vphi) /\
  v1 (fst X) * v1 (fst X) + v2 (fst X) * v2 (fst X) + v3 (fst X) * v3 (fst X) = Rc * Rc + z * z /\
  Lz_C X = Rc * vphi /\
  (let '((x, y, z), (vx, vy, vz)) := X in (y * vz - z * vy) * (y * vz - z * vy) + (z * vx - x * vz) * (z * vx - x * vz) + (x * vy - y * vx) * (x * vy - y * vx)) = (Rc * Rc + z * z) * (vphi * vphi) + (z * vR - Rc * vz) * (z * vR - Rc * vz).
Proof.
  unfold toPosVel_YC, iso_energy, iso_Phi, Lz_C. cbn [v1 v2 v3 fst snd]. cbv zeta. pose proof (sc1 phi) as S. set (s := sin phi) in *. set (c := cos phi) in *. clearbody s c.
  assert (K : Rc * c * (Rc * c) + Rc * s * (Rc * s) + z * z = Rc * Rc + z * z) by (transitivity (Rc * Rc * (s * s + c * c) + z * z); [ring|rewrite S; ring]).
  split; [|split; [exact K|split]].
  - rewrite K. f_equal. f_equal. transitivity ((vR * vR + vphi * vphi) * (s * s + c * c) + vz * vz); [ring|rewrite S; ring].
  - transitivity (Rc * vphi * (s * s + c * c)); [ring|rewrite S; ring].
  - transitivity (z * z * (vphi * vphi) * (s * s + c * c) + (z * vR - Rc * vz) * (z * vR - Rc * vz) * (s * s + c * c) + Rc * Rc * (vphi * vphi) * ((s * s + c * c) * (s * s + c * c))); [ring|rewrite S; ring].
Qed.

Section Pt.
  Variables M b Rc z phi vR vz vphi : R.
  Hypothesis HM : 0 < M. Hypothesis Hb : 0 <= b. Hypothesis HP : 0 < Rc * Rc + z * z.
  Let pt : posvel := ((Rc, z, phi), (vR, vz, vphi)).
  Let r := sqrt (pow_2 Rc + pow_2 z). Let vr := vR * (Rc * (1 / r)) + vz * (z * (1 / r)). Let vth := vR * (z * (1 / r)) - vz * (Rc * (1 / r)).
  Lemma p_r : 0 < r. Proof. apply sqrt_lt_R0. unfold pow_2. exact HP. Qed.
  Lemma p_E : - M / (b + sqrt (b * b + pow_2 r)) + 0.5 * (pow_2 vr + pow_2 vth + pow_2 vphi) = iso_energy M b (fst (toPosVel_YC pt)) (snd (toPosVel_YC pt)).
  Proof.
    destruct (pt_cart M b Rc z phi vR vz vphi) as (E & _). fold pt in E. rewrite E. pose proof (s_r2 Rc z r eq_refl) as R2. pose proof (s_vsq Rc z vR vz r vr vth p_r eq_refl eq_refl eq_refl) as V2.
    unfold pow_2 at 1. rewrite R2, half5. f_equal. f_equal. unfold pow_2. lra.
  Qed.
  Hypothesis HE : iso_energy M b (fst (toPosVel_YC pt)) (snd (toPosVel_YC pt)) < 0.
  Lemma point_actions : exists Jr Jz Jphi, e_Jr (evalIsochrone M b pt) = Some Jr /\ e_Jz (evalIsochrone M b pt) = Jz /\ e_Jphi (evalIsochrone M b pt) = Jphi /\
    0 <= Jr /\ 0 <= Jz /\ Jphi = Lz_C (toPosVel_YC pt) /\
    (Jz + Rabs Jphi) * (Jz + Rabs Jphi) = (let '((x, y, z), (vx, vy, vz)) := toPosVel_YC pt in (y * vz - z * vy) * (y * vz - z * vy) + (z * vx - x * vz) * (z * vx - x * vz) + (x * vy - y * vx) * (x * vy - y * vx)) /\
    iso_H M b Jr Jz Jphi = iso_energy M b (fst (toPosVel_YC pt)) (snd (toPosVel_YC pt)) /\
    (0 < Jz + Rabs Jphi -> e_freq (evalIsochrone M b pt) = mapFreq M b Jr Jz Jphi).
  Proof.
    pose proof p_E as PE. rewrite <- PE in HE. destruct (pt_cart M b Rc z phi vR vz vphi) as (_ & _ & LZ & LT). fold pt in LZ, LT.
    pose proof (s_eval M b HM Hb Rc z phi vR vz vphi r vr vth p_r eq_refl eq_refl eq_refl HE) as EV. fold pt in EV. cbv zeta in EV.
    set (L := sqrt (pow_2 vth + pow_2 vphi) * r) in *. set (EE := - M / (b + sqrt (b * b + pow_2 r)) + 0.5 * (pow_2 vr + pow_2 vth + pow_2 vphi)) in *. set (J0 := M / sqrt (-2 * EE)) in *. set (L1 := sqrt (L * L + 4 * M * b)) in *.
    rewrite EV. cbn [e_Jr e_Jz e_Jphi e_freq]. exists (J0 - 0.5 * (L + L1)), (L - Rabs (Rc * vphi)), (Rc * vphi).
    pose proof (s_Jr M b HM Hb Rc z vR vz vphi r vr vth p_r eq_refl eq_refl eq_refl HE) as JN. pose proof (s_Lz Rc z vR vz vphi r vth p_r eq_refl eq_refl) as LZL. pose proof (s_J0 M b HM vphi r vr vth HE) as PJ. pose proof (s_J0E M b HM Rc z vR vz vphi r vr vth eq_refl eq_refl eq_refl HE) as JE.
    fold L EE in JN, LZL, JE, PJ. fold J0 in JN, JE, PJ. fold L1 in JN.
    split; [reflexivity|]. split; [reflexivity|]. split; [reflexivity|]. split; [exact JN|]. split; [lra|]. split; [symmetry; exact LZ|]. split; [|split].
    - rewrite LT. replace (L - Rabs (Rc * vphi) + Rabs (Rc * vphi)) with L by ring. pose proof (s_L2 Rc z vR vz vphi r vth eq_refl eq_refl) as L2. fold L in L2. rewrite L2. pose proof (s_r2 Rc z r eq_refl) as R2. pose proof p_r as RP.
      unfold vth. replace (r * r * ((vR * (z * (1 / r)) - vz * (Rc * (1 / r))) * (vR * (z * (1 / r)) - vz * (Rc * (1 / r))) + vphi * vphi)) with ((z * vR - Rc * vz) * (z * vR - Rc * vz) + r * r * (vphi * vphi)) by (field; lra). rewrite R2. ring.
    - rewrite <- PE. fold EE. rewrite JE. unfold iso_H. cbv zeta. replace (L - Rabs (Rc * vphi) + Rabs (Rc * vphi)) with L by ring. fold L1. replace (J0 - 0.5 * (L + L1) + / 2 * (L + L1)) with J0 by lra. f_equal. ring.
    - intros LP. replace (L - Rabs (Rc * vphi) + Rabs (Rc * vphi)) with L in LP by ring. unfold mapFreq. rewrite !Rlt_b_f by lra. cbn [orb]. cbv zeta. rewrite sign_abs. replace (L - Rabs (Rc * vphi) + Rabs (Rc * vphi)) with L by ring. fold L1. replace (J0 - 0.5 * (L + L1) + 0.5 * (L + L1)) with J0 by ring.
      assert (LG : L <= L1) by (exact (L1_ge M b L HM Hb LP)). rewrite half5. assert (EQ : pow_2 M / pow_3 J0 * / 2 * (1 + L / L1) = pow_2 M / pow_3 J0 * (/ 2 + / 2 * L / L1)) by (set (w := pow_2 M / pow_3 J0); field; lra). rewrite EQ. f_equal. f_equal. ring.
  Qed.
  (** map(eval(point)) = point *)
  Hypothesis HR : 0 < Rc. Hypothesis HV : vphi <> 0.
  Lemma point_back kep : kepler_solver kep ->
    (let '(tr, tz, tp) := e_angles (evalIsochrone M b pt) in tr <> None) ->
    exists Jr tr tz tp phi', e_Jr (evalIsochrone M b pt) = Some Jr /\ e_angles (evalIsochrone M b pt) = (Some tr, Some tz, Some tp) /\ 0 <= tr < 2 * PI /\ 0 <= tz < 2 * PI /\ 0 <= tp < 2 * PI /\
      mapIsochrone kep M b Jr (e_Jz (evalIsochrone M b pt)) (e_Jphi (evalIsochrone M b pt)) tr tz tp = Some ((Rc, z, phi'), (vR, vz, vphi)) /\ same_angle phi' phi.
  Proof.
    intros KS. pose proof p_E as PE. rewrite <- PE in HE. pose proof PI_RGT_0 as PP.
    pose proof (s_eval M b HM Hb Rc z phi vR vz vphi r vr vth p_r eq_refl eq_refl eq_refl HE) as EV. fold pt in EV. cbv zeta in EV.
    pose proof (s_angles M b HM Hb Rc z phi vR vz vphi r vr vth p_r eq_refl eq_refl eq_refl HE) as AV. fold pt in AV.
    pose proof (s_Jr M b HM Hb Rc z vR vz vphi r vr vth p_r eq_refl eq_refl eq_refl HE) as JN. pose proof (s_Lz Rc z vR vz vphi r vth p_r eq_refl eq_refl) as LZL. pose proof (s_J0 M b HM vphi r vr vth HE) as PJ.
    pose proof (s_LLz Rc z vR vz vphi r vth eq_refl eq_refl) as LLZ. pose proof (s_planar Rc z vR vz vphi r vth p_r eq_refl eq_refl) as PLT. pose proof (s_nonplanar Rc z vR vz vphi r vth p_r eq_refl eq_refl) as PLF. pose proof (s_planarL Rc z vR vz vphi r vth p_r eq_refl eq_refl) as PLL. pose proof (s_ek M b HM Hb Rc z vR vz vphi r vr vth p_r eq_refl eq_refl eq_refl HE) as EK. pose proof (s_ep M b HM Hb Rc z vR vz vphi r vr vth p_r eq_refl eq_refl eq_refl HE) as EP.
    pose proof (s_cJ0 M b vphi r vr vth) as CJ. pose proof (s_vR Rc z vR vz r vr vth p_r eq_refl eq_refl eq_refl) as SVR. pose proof (s_vz Rc z vR vz r vr vth p_r eq_refl eq_refl eq_refl) as SVZ. pose proof (s_r2 Rc z r eq_refl) as R2. pose proof (s_rb2 b r) as RB2. pose proof (s_rb b Hb r p_r) as RBG. pose proof p_r as RP.
    set (L := sqrt (pow_2 vth + pow_2 vphi) * r) in *. set (rb := sqrt (b * b + pow_2 r)) in *. set (EE := - M / (b + rb) + 0.5 * (pow_2 vr + pow_2 vth + pow_2 vphi)) in *. set (J0 := M / sqrt (-2 * EE)) in *. set (L1 := sqrt (L * L + 4 * M * b)) in *. set (Jr := J0 - 0.5 * (L + L1)) in *.
    set (Lz := Rc * vphi) in *. set (planar := Req_b z 0 && Req_b vz 0) in *. set (k2 := J0 - M * rb / J0) in *.
    assert (NZ : Lz <> 0) by (unfold Lz; apply Rmult_integral_contrapositive_currified; lra).
    assert (HLp : 0 < L) by (pose proof (Rabs_pos_lt _ NZ); lra). specialize (AV HLp). specialize (EP HLp). specialize (EK HLp).
    rewrite EV. cbn [e_Jr e_Jz e_Jphi e_angles]. intros NN.
    assert (HK : r * vr * (r * vr) + k2 * k2 <> 0).
    { intros H0. unfold evalAngles in NN. assert (SP : toPosVel_YS pt = ((r, atan2 Rc z, phi), (vr, vth, vphi))) by (unfold pt, toPosVel_YS; fold r; rewrite (Req_b_f r 0) by lra; reflexivity). rewrite SP in NN. unfold pt in NN. cbv iota beta zeta in NN. rewrite (Rle_b_f 0 EE HE) in NN. rewrite (Req_b_f L 0) in NN by lra. fold rb k2 in NN. rewrite (Req_b_t _ _ H0) in NN. apply NN. reflexivity. }
    specialize (AV HK). specialize (EP HK). destruct AV as (eta & tz & ER & EC & ES & TZ & TS & AV). rewrite AV.
    set (e := ce M b Jr L) in *. set (Jz := L - Rabs Lz) in *.
    assert (LJ : Jz + Rabs Lz = L) by (unfold Jz; ring).
    assert (HJz : 0 <= Jz) by (unfold Jz; lra). assert (HLp' : 0 < Jz + Rabs Lz) by (rewrite LJ; exact HLp).
    set (tr := wrapAngle (2 * PI) (eta - e * sin eta)) in *. set (tz' := if planar then 0 else tz) in *. set (tp := wrapAngle (2 * PI) (phi - atan2 (z * vphi) (- vth * r) + sign Lz * tz)) in *.
    assert (TR : 0 <= tr < 2 * PI) by apply wrap_range.
    pose proof (He M b Jr Jz Lz HM Hb JN HLp') as EB. rewrite LJ in EB. fold e in EB.
    destruct (kep_main kep e tr KS EB TR) as (KB & KE). set (et := kep e tr) in *.
    assert (SAE : cos et = cos eta /\ sin et = sin eta).
    { destruct (wrap_same (eta - e * sin eta)) as (k & WE). fold tr in WE. rewrite <- KE in WE. replace et with (eta - 2 * PI * IZR k); [apply cos_turns|]. apply (kF_inj e EB). rewrite (proj2 (cos_turns eta k)). lra. }
    destruct SAE as [C1 S1].
    pose proof (map_form M b Jr Jz Lz HM Hb JN HJz HLp' kep tr tz' tp) as MF. cbv zeta in MF. rewrite LJ in MF. fold e et in MF. set (psi := o_psi M b Jr Jz Lz tz' et tr) in *.
    assert (PSI : psi = tz' + phase M b Jr Jz Lz eta). { rewrite <- (phase_periodic M b Jr Jz Lz et eta C1 S1). apply (psi_phase M b Jr Jz Lz HM Hb JN HLp'); [exact KB|]. rewrite LJ. symmetry. exact KE. }
    set (c := Lz / L) in *. set (si := sqrt (1 - c * c)) in *.
    assert (SI2 : si * si = 1 - c * c). { pose proof (si_sq Jz Lz HJz HLp') as H. rewrite LJ in H. exact H. }
    assert (SIN : 0 <= si) by apply sqrt_pos.
    assert (W : r * L * si * (r * L * si) = z * L * (z * L) + Rc * vth * r * (Rc * vth * r)).
    { replace (r * L * si * (r * L * si)) with (r * r * (L * L * (si * si))) by ring. rewrite SI2. replace (L * L * (1 - c * c)) with (L * L - Lz * Lz) by (unfold c; field; lra). rewrite LLZ.
      pose proof (s_L2 Rc z vR vz vphi r vth eq_refl eq_refl) as L2. fold L in L2. replace (z * L * (z * L)) with (z * z * (L * L)) by ring. rewrite L2. 
      replace (Rc * vth * r * (Rc * vth * r)) with (Rc * Rc * (vth * vth) * (r * r)) by ring. replace (Rc * Rc) with (r * r - z * z) by lra. ring. }
    assert (PS : si * sin psi = z / r /\ L * (si * cos psi) = - Rc * vth /\ (planar = false -> 0 < si)).
    { destruct planar eqn:PL.
      - destruct (PLT eq_refl) as [Z0 V0]. assert (S0 : si = 0). { rewrite Z0, V0 in W. assert (K : r * L * si = 0) by nra. assert (0 < r * L) by (apply Rmult_lt_0_compat; assumption). nra. }
        rewrite S0, Z0, V0. repeat split; [field; lra|ring|discriminate].
      - assert (SIP : 0 < si). { specialize (PLF eq_refl HR ltac:(nra)). apply sqrt_lt_R0. assert (K : L * L * (1 - c * c) = L * L - Lz * Lz) by (unfold c; field; lra). assert (Lz * Lz < L * L). { rewrite <- (Rabs_pos_eq L) by lra. replace (Lz * Lz) with (Rabs Lz * Rabs Lz) by (unfold Rabs; destruct (Rcase_abs Lz); ring). rewrite (Rabs_pos_eq L) by lra. pose proof (Rabs_pos Lz). nra. } assert (0 < L * L * (1 - c * c)) by lra. assert (0 < L * L) by nra. nra. }
        assert (SA : same_angle psi (atan2 (z * L) (- Rc * vth * r))). { rewrite PSI. unfold tz'. destruct TS as (k & ->). exists k. ring. }
        destruct (same_trig _ _ SA) as [CP SP]. destruct (atan2_polar (z * L) (- Rc * vth * r)) as [P1 P2]. rewrite <- CP in P1. rewrite <- SP in P2.
        assert (NQ : sqrt (pow_2 (- Rc * vth * r) + pow_2 (z * L)) = r * L * si) by (apply sqrt_eq; [exact (Rmult_le_pos _ _ (Rmult_le_pos _ _ (Rlt_le _ _ RP) (Rlt_le _ _ HLp)) SIN)|unfold pow_2; rewrite W; ring]). rewrite NQ in P1, P2.
        split; [|split; [|intros _; exact SIP]].
        + apply Rmult_eq_reg_l with (r * L); [|nra]. replace (r * L * (z / r)) with (z * L) by (field; lra). lra.
        + apply Rmult_eq_reg_l with r; [|lra]. lra. }
    destruct PS as (PS1 & PS2 & PS3).
    assert (OR : o_r M b Jr Jz Lz et = r). { unfold o_r, o_rb, o_ra. rewrite LJ, CJ. fold e. rewrite C1. replace ((1 - e * cos eta) * J0 * J0 / M) with rb by (assert (X : e * cos eta = 1 - M * rb / (J0 * J0)) by (apply Rmult_eq_reg_l with J0; [|lra]; replace (J0 * (e * cos eta)) with k2 by lra; unfold k2; field; lra); rewrite X; field; lra). apply sqrt_eq; [lra|]. lra. }
    assert (OV : o_vr M b Jr Jz Lz et = vr). { unfold o_vr. rewrite OR. rewrite LJ, CJ. fold e. rewrite S1. replace (J0 * e * sin eta) with (r * vr) by lra. field. lra. }
    assert (ST : st Jz Lz psi = Rc / r). { unfold st. rewrite LJ. fold c si. rewrite PS1. apply sqrt_eq; [left; apply Rdiv_lt_0_compat; assumption|]. replace (1 - z / r * (z / r)) with ((r * r - z * z) / (r * r)) by (field; lra). replace (r * r - z * z) with (Rc * Rc) by lra. field. lra. }
    rewrite OR, OV, ST in MF. rewrite Req_b_f in MF by (apply Rgt_not_eq, Rdiv_lt_0_compat; assumption).
    exists Jr, tr, tz', tp. eexists. split; [reflexivity|]. split; [reflexivity|]. split; [exact TR|]. split; [unfold tz'; destruct planar; [lra|exact TZ]|]. split; [apply wrap_range|]. split.
    - rewrite MF. f_equal. f_equal; f_equal.
      + f_equal; [field; lra|rewrite PS1; field; lra].
      + f_equal; [|rewrite PS1].
        * rewrite PS1. replace (- L * si * cos psi / (r * (Rc / r))) with vth by (replace (- L * si * cos psi) with (Rc * vth) by lra; field; lra). rewrite SVR at 1. ring.
        * replace (- L * si * cos psi / (r * (Rc / r))) with vth by (replace (- L * si * cos psi) with (Rc * vth) by lra; field; lra). rewrite SVZ at 1. ring.
      + unfold Lz. field. lra.
    - eapply same_trans; [apply wrap_same|]. assert (TPS : same_angle tp (phi - atan2 (z * vphi) (- vth * r) + sign Lz * tz)) by apply wrap_same.
      assert (SG : sign Lz = 1 \/ sign Lz = -1) by (destruct (sign_cases Lz) as [[_ A]|[[_ A]|[A _]]]; auto; contradiction).
      assert (SG2 : sign Lz * sign Lz = 1) by (destruct SG as [SGe|SGe]; rewrite SGe; ring).
      assert (EPH : phi = (phi - atan2 (z * vphi) (- vth * r) + sign Lz * tz) + (sign Lz * (sign Lz * atan2 (z * vphi) (- vth * r) - tz))).
      { transitivity (phi + (sign Lz * sign Lz - 1) * atan2 (z * vphi) (- vth * r)); [rewrite SG2; ring|ring]. }
      match goal with |- same_angle ?x phi => cut (same_angle x ((phi - atan2 (z * vphi) (- vth * r) + sign Lz * tz) + (sign Lz * (sign Lz * atan2 (z * vphi) (- vth * r) - tz)))); [rewrite <- EPH; exact (fun H => H)|] end.
      apply same_plus; [exact TPS|]. rewrite (Rmult_comm (o_chi Jz Lz psi - tz')). apply same_sign; [exact SG|].
      destruct planar eqn:PL.
      + destruct (PLT eq_refl) as [Z0 V0]. unfold tz'. unfold o_chi. assert (JZ0 : Jz = 0) by (unfold Jz; rewrite (PLL eq_refl); ring). rewrite (Req_b_t _ _ JZ0). cbn [negb]. rewrite PSI. unfold tz'. rewrite Z0, V0 in TS |- *. replace (0 * L) with 0 in TS by ring. replace (- Rc * 0 * r) with 0 in TS by ring. rewrite atan2_00 in TS. replace (0 * vphi) with 0 by ring. replace (- 0 * r) with 0 by ring. rewrite atan2_00.
        replace (0 + phase M b Jr Jz Lz eta - 0) with (phase M b Jr Jz Lz eta) by ring. replace (sign Lz * 0 - tz) with (- tz) by ring. destruct TS as (k & ->). exists k. ring.
      + unfold tz'. unfold Rminus. apply same_plus; [|apply same_refl]. 
        assert (JZp : 0 < Jz) by (unfold Jz; specialize (PLF eq_refl HR ltac:(nra)); lra). specialize (PS3 eq_refl).
        assert (ST0 : st Jz Lz psi <> 0) by (rewrite ST; apply Rgt_not_eq, Rdiv_lt_0_compat; assumption).
        destruct (chi_same M b Jr Jz Lz HM Hb JN HLp' et psi ST0 JZp NZ) as [CS _]. rewrite LJ in CS. fold c in CS. fold si in CS. rewrite OR, ST in CS.
        replace (r * (si * sin psi) * (Lz / (r * (Rc / r)))) with (z * vphi) in CS by (rewrite PS1; unfold Lz; field; lra).
        replace (- (- L * si * cos psi / (r * (Rc / r))) * r) with (- vth * r) in CS by (replace (- L * si * cos psi) with (Rc * vth) by lra; field; lra).
        apply same_sym. replace (o_chi Jz Lz psi) with (sign Lz * (sign Lz * o_chi Jz Lz psi)) by (rewrite <- Rmult_assoc, SG2; ring). apply same_sign; [exact SG|exact CS].
  Qed.
End Pt.
