(** Isochrone potential: angles of the mapped point, frequencies as derivatives, exceptional cases. *)
From Coq Require Import Reals Lra Psatz Bool ZArith.
From Coquelicot Require Import Coquelicot.
From Verif Require Import RandReal PolyModel PolyProofs CoordModel CoordAtan MathModel MathProofs KeplerSpec KeplerProofs KeplerProofs2 IsoModel IsoProofs IsoProofs2 IsoProofs3 IsoProofs4 IsoProofs5 IsoProofs6 IsoProofs7 CoordSpec IsoSpec.
Local Open Scope R_scope.

Lemma solver_exists : exists kep, kepler_solver kep.
Proof.
  destruct exact_exists as (kep & X). exists (fun e M => wrapAngle (2 * PI) (kep e M)). intros e M H. split; [apply wrap_range|]. destruct (X e M H) as (k & E). destruct (wrap_same (kep e M)) as (l & W). exists (k + l)%Z.
  rewrite W. rewrite (proj2 (cos_turns _ l)). unfold kepler_eq in E. rewrite plus_IZR. lra.
Qed.
Section Ang.
  Variables M b Jr Jz Jphi : R.
  Hypothesis HM : 0 < M. Hypothesis Hb : 0 <= b. Hypothesis HJr : 0 <= Jr. Hypothesis HJz : 0 <= Jz.
  Let L := Jz + Rabs Jphi.
  Hypothesis HL : 0 < L.
  Lemma map_some kep tr tz tp p : mapIsochrone kep M b Jr Jz Jphi tr tz tp = Some p -> let eta := kep (ce M b Jr L) tr in let psi := o_psi M b Jr Jz Jphi tz eta tr in
    st Jz Jphi psi <> 0 /\ p = b_pt M b Jr Jz Jphi eta psi (wrapAngle (2 * PI) (tp + (o_chi Jz Jphi psi - tz) * sign Jphi)).
  Proof.
    intros H eta psi. rewrite (map_form M b Jr Jz Jphi HM Hb HJr HJz HL) in H. fold L eta in H. fold psi in H. destruct (Req_EM_T (st Jz Jphi psi) 0) as [Z0|Z0]; [rewrite (Req_b_t _ _ Z0) in H; discriminate|rewrite (Req_b_f _ _ Z0) in H].
    split; [exact Z0|]. injection H as <-. reflexivity.
  Qed.
  Lemma map_actions kep tr tz tp p : mapIsochrone kep M b Jr Jz Jphi tr tz tp = Some p ->
    e_Jr (evalIsochrone M b p) = Some Jr /\ e_Jz (evalIsochrone M b p) = Jz /\ e_Jphi (evalIsochrone M b p) = Jphi /\ e_freq (evalIsochrone M b p) = mapFreq M b Jr Jz Jphi /\
    iso_energy M b (fst (toPosVel_YC p)) (snd (toPosVel_YC p)) = iso_H M b Jr Jz Jphi.
  Proof.
    intros H. destruct (map_some _ _ _ _ _ H) as (S & E). set (eta := kep (ce M b Jr L) tr) in *. set (psi := o_psi M b Jr Jz Jphi tz eta tr) in *. set (phi := wrapAngle (2 * PI) (tp + (o_chi Jz Jphi psi - tz) * sign Jphi)) in *. rewrite E.
    rewrite (b_eval M b Jr Jz Jphi HM Hb HJr HJz HL eta psi S phi). repeat split.
    pose proof (b_E M b Jr Jz Jphi HM Hb HJr HJz HL eta psi S phi) as BE. destruct (b_sph M b Jr Jz Jphi HM Hb HJr HJz HL eta psi S phi) as (th & SP). unfold b_pt in *. pose proof (b_r M b Jr Jz Jphi HM Hb HJr HL eta) as RP. destruct (sph_inv _ _ _ _ _ _ _ _ _ _ _ _ SP RP) as (Er & Evr & Evth & _ & _).
    match goal with |- context[toPosVel_YC ((?a, ?bb, ?c), (?d, ?e, ?f))] => pose proof (pt_cart M b a bb c d e f) as PC; pose proof (s_r2 a bb _ Er) as R2; pose proof (s_vsq a bb d e _ _ _ RP Er Evr Evth) as V2 end. destruct PC as (PC & _). rewrite PC. unfold pow_2 in BE. rewrite half5 in BE.
    rewrite <- R2. unfold iso_H. cbv zeta. fold L. fold L in BE. unfold cJ0 in BE. rewrite half5 in BE. change (cL1 M b L) with (sqrt (L * L + 4 * M * b)) in BE.
    match goal with |- _ = - (M * M) / (2 * ?x ^ 2) => replace (x ^ 2) with (x * x) by ring end. rewrite <- BE. f_equal. f_equal. exact (f_equal (fun x => x + _) V2).
  Qed.
  Hypothesis HJp : 0 < Jr.
  Lemma map_angles kep tr tz tp p : Jphi <> 0 -> kepler_solver kep -> 0 <= tr < 2 * PI -> 0 <= tz < 2 * PI -> 0 <= tp < 2 * PI -> (Jz = 0 -> tz = 0) ->
    mapIsochrone kep M b Jr Jz Jphi tr tz tp = Some p -> e_angles (evalIsochrone M b p) = (Some tr, Some tz, Some tp).
  Proof.
    intros N K TR TZ TP Z0 H. pose proof PI_RGT_0 as PP. destruct (map_some _ _ _ _ _ H) as (S & E). set (eta := kep (ce M b Jr L) tr) in *. set (psi := o_psi M b Jr Jz Jphi tz eta tr) in *. set (phi := wrapAngle (2 * PI) (tp + (o_chi Jz Jphi psi - tz) * sign Jphi)) in *. rewrite E.
    destruct (kep_main kep (ce M b Jr L) tr K (He M b Jr Jz Jphi HM Hb HJr HL) TR) as (KB & KE). fold eta in KB, KE.
    assert (P0 : psi = tz + phase M b Jr Jz Jphi eta) by (apply (psi_phase M b Jr Jz Jphi HM Hb HJr HL); [exact KB|symmetry; exact KE]).
    rewrite (b_eval M b Jr Jz Jphi HM Hb HJr HJz HL eta psi S phi). cbn [e_angles].
    destruct (b_angles M b Jr Jz Jphi HM Hb HJr HJz HL eta psi S phi HJp) as (et & tz' & C & SI & TZ' & SA & EA). rewrite EA. fold L in EA, SA |- *. clear EA.
    assert (SG : sign Jphi = 1 \/ sign Jphi = -1) by (apply sgn2; exact N).
    pose proof (b_r M b Jr Jz Jphi HM Hb HJr HL eta) as RP. pose proof (b_q Jz Jphi psi S) as QP.
    assert (TR' : wrapAngle (2 * PI) (et - ce M b Jr L * sin eta) = tr). { apply wrap_of; [exact TR|]. rewrite <- KE. destruct (trig_same et eta C SI) as (k & ->). exists k. ring. }
    assert (SPH : same_angle phi (tp + (o_chi Jz Jphi psi - tz) * sign Jphi)) by apply wrap_same.
    set (c := Jphi / L) in *. set (si := sqrt (1 - c * c)) in *. set (r := o_r M b Jr Jz Jphi eta) in *. set (vr := o_vr M b Jr Jz Jphi eta) in *. set (q := st Jz Jphi psi) in *. rewrite TR'.
    pose proof (si_sq Jz Jphi HJz HL) as S2. fold L c in S2. fold si in S2.
    destruct (Req_EM_T Jz 0) as [J0|J0].
    - assert (CC : c * c = 1). { assert (LE : L = Rabs Jphi) by (unfold L; rewrite J0; ring). unfold c. rewrite LE. pose proof (Rabs_pos_lt _ N). replace (Jphi / Rabs Jphi * (Jphi / Rabs Jphi)) with ((Jphi * Jphi) / (Rabs Jphi * Rabs Jphi)) by (field; lra). replace (Jphi * Jphi) with (Rabs Jphi * Rabs Jphi) by (unfold Rabs; destruct (Rcase_abs Jphi); ring). field. lra. }
      assert (S0 : si = 0) by nra. rewrite S0 in *. replace (r * (0 * sin psi)) with 0 in * by ring. replace (- L * 0 * cos psi / (r * q)) with 0 in * by (field; lra). replace (vr * (0 * sin psi) - 0 * q) with 0 by ring. rewrite Req_b_t by reflexivity. cbn [andb].
      replace (0 * L) with 0 in SA by ring. replace (- (r * q) * 0 * r) with 0 in SA by ring. replace (- 0 * r) with 0 by ring. rewrite Rmult_0_l. rewrite atan2_00 in *. rewrite (Z0 J0). f_equal. f_equal.
      apply wrap_of; [exact TP|]. unfold o_chi in SPH. rewrite (Req_b_t _ _ J0) in SPH. cbn [negb] in SPH. rewrite P0 in SPH. replace tp with ((tp + (tz + phase M b Jr Jz Jphi eta - tz) * sign Jphi) + - (0) + sign Jphi * (0 - phase M b Jr Jz Jphi eta)) by ring. unfold Rminus at 1. apply same_plus; [apply same_plus; [exact SPH|apply same_refl]|apply same_sign; assumption].
    - destruct (chi_same M b Jr Jz Jphi HM Hb HJr HL eta psi S ltac:(lra) N) as [X1 X2]. fold L c in X1, X2. fold si in X1, X2. fold r q in X1, X2.
      assert (SIP : 0 < si). { apply sqrt_lt_R0. assert (CL : Rabs c < 1). { apply Rmult_lt_reg_l with L; [exact HL|]. pose proof (c_abs Jz Jphi HL) as CA. fold L c in CA. rewrite <- CA. unfold L. lra. } assert (CC : c * c = Rabs c * Rabs c) by (unfold Rabs; destruct (Rcase_abs c); ring). rewrite CC. pose proof (Rabs_pos c). nra. }
      assert (TE : tz' = tz). { apply same_unique; [exact TZ'|exact TZ|]. eapply same_trans; [exact SA|]. replace tz with (psi - phase M b Jr Jz Jphi eta) by (rewrite P0; ring). unfold Rminus. apply same_plus; [exact X2|apply same_refl]. }
      rewrite TE.
      assert (FL : Req_b (r * (si * sin psi)) 0 && Req_b (vr * (si * sin psi) - - L * si * cos psi / (r * q) * q) 0 = false).
      { destruct (Req_EM_T (r * (si * sin psi)) 0) as [A|A]; [rewrite (Req_b_t _ _ A)|rewrite (Req_b_f _ _ A); reflexivity]. cbn [andb]. apply Req_b_f. intros B.
        assert (S0 : si * sin psi = 0) by nra. rewrite S0 in B. assert (B' : L * si * cos psi / r = 0) by (rewrite <- B; field; lra). assert (B2 : L * si * cos psi = 0) by (apply Rmult_eq_reg_r with (/ r); [unfold Rdiv in B'; rewrite B'; ring|apply Rinv_neq_0_compat; lra]).
        assert (0 < L * si) by (apply Rmult_lt_0_compat; assumption). assert (cos psi = 0) by nra. assert (sin psi = 0) by nra. pose proof (sc1 psi). nra. }
      rewrite FL. f_equal. f_equal. apply wrap_of; [exact TP|].
      replace tp with ((tp + (o_chi Jz Jphi psi - tz) * sign Jphi) + - (sign Jphi * o_chi Jz Jphi psi) + sign Jphi * tz) by ring. unfold Rminus at 1. apply same_plus; [|apply same_refl]. apply same_plus; [exact SPH|apply same_opp; exact X1].
  Qed.
  (** Jphi = 0: the azimuth of a particle beyond the pole *)
  Lemma polar_angles tp eta psi : Jphi = 0 -> 0 < Jz -> cos psi < 0 -> 0 <= tp < 2 * PI -> st Jz Jphi psi <> 0 ->
    snd (e_angles (evalIsochrone M b (b_pt M b Jr Jz Jphi eta psi tp))) = Some (wrapAngle (2 * PI) (tp - PI)).
  Proof.
    intros Z0 JP CN TP S. rewrite (b_eval M b Jr Jz Jphi HM Hb HJr HJz HL eta psi S tp). cbn [e_angles].
    destruct (b_angles M b Jr Jz Jphi HM Hb HJr HJz HL eta psi S tp HJp) as (et & tz' & C & SI & TZ' & SA & EA). rewrite EA. cbn [snd]. f_equal. f_equal.
    pose proof (b_r M b Jr Jz Jphi HM Hb HJr HL eta) as RP. pose proof (b_q Jz Jphi psi S) as QP. set (r := o_r M b Jr Jz Jphi eta) in *. set (q := st Jz Jphi psi) in *. fold L.
    unfold sign. rewrite !Rlt_b_f by lra. assert (EC : Jphi / L = 0) by (rewrite Z0; field; lra). rewrite EC.
    replace (sqrt (1 - 0 * 0)) with 1 by (symmetry; apply sqrt_eq; lra). replace (r * (1 * sin psi) * (Jphi / (r * q))) with 0 by (rewrite Z0; field; lra).
    rewrite atan2_xneg; [ring|]. replace (- (- L * 1 * cos psi / (r * q)) * r) with (- (L * - cos psi / q)) by (field; lra). assert (0 < L * - cos psi / q) by (apply Rdiv_lt_0_compat; [apply Rmult_lt_0_compat; lra|exact QP]). lra.
  Qed.
End Ang.
Section Circ.
  Variables M b Jz Jphi : R.
  Hypothesis HM : 0 < M. Hypothesis Hb : 0 <= b. Hypothesis HJz : 0 <= Jz. Hypothesis N : Jphi <> 0.
  Let L := Jz + Rabs Jphi.
  Lemma circ_angles kep tr tz tp p : mapIsochrone kep M b 0 Jz Jphi tr tz tp = Some p -> exists tz', e_angles (evalIsochrone M b p) = (None, tz', None).
  Proof.
    intros H. assert (HL : 0 < L) by (pose proof (Rabs_pos_lt _ N); unfold L; lra).
    destruct (map_some M b 0 Jz Jphi HM Hb (Rle_refl 0) HJz HL kep tr tz tp p H) as (S & E). fold L in S, E. set (eta := kep (ce M b 0 L) tr) in *. set (psi := o_psi M b 0 Jz Jphi tz eta tr) in *. set (phi := wrapAngle (2 * PI) (tp + (o_chi Jz Jphi psi - tz) * sign Jphi)) in *. rewrite E.
    rewrite (b_eval M b 0 Jz Jphi HM Hb (Rle_refl 0) HJz HL eta psi S phi). cbn [e_angles]. fold L.
    destruct (b_k M b 0 Jz Jphi HM Hb (Rle_refl 0) HL eta) as [K1 K2]. fold L in K1, K2.
    assert (E0 : ce M b 0 L = 0). { unfold ce. rewrite !Rmult_0_l, sqrt_0. unfold Rdiv. ring. }
    destruct (b_sph M b 0 Jz Jphi HM Hb (Rle_refl 0) HJz HL eta psi S phi) as (th & SP). unfold evalAngles. rewrite SP. unfold b_pt. cbv iota beta zeta. fold L.
    pose proof (b_neg M b 0 Jz Jphi HM Hb (Rle_refl 0) HL) as NG. fold L in NG. rewrite (Rle_b_f 0 _ NG). rewrite (Req_b_f L 0) by lra. rewrite K1, K2, E0.
    rewrite (Req_b_t (_ + _) 0) by ring. eexists. reflexivity.
  Qed.
End Circ.
(** frequencies *)
Section Freq.
  Variables M b Jr Jz Jphi : R.
  Hypothesis HM : 0 < M. Hypothesis Hb : 0 <= b. Hypothesis HJr : 0 <= Jr. Hypothesis HJz : 0 <= Jz.
  Let L := Jz + Rabs Jphi.
  Hypothesis HL : 0 < L.
  Let J0 := cJ0 M b Jr L. Let LL1 := 0.5 + 0.5 * L / cL1 M b L.
  Lemma freq_r : is_derive (fun J => iso_H M b J Jz Jphi) Jr (pow_2 M / pow_3 J0).
  Proof.
    pose proof (J0_pos M b Jr L HM Hb HJr HL) as PJ. fold J0 in PJ. unfold iso_H. cbv zeta. fold L. change (sqrt (L * L + 4 * M * b)) with (cL1 M b L). set (l1 := cL1 M b L) in *.
    assert (EJ : Jr + / 2 * (L + l1) = J0) by (unfold J0, cJ0; fold l1; lra). auto_derive; [rewrite EJ; nra|]. rewrite EJ. unfold pow_2, pow_3. field. lra.
  Qed.
  Lemma freq_L : is_derive (fun l => - (M * M) / (2 * (Jr + / 2 * (l + sqrt (l * l + 4 * M * b))) ^ 2)) L (pow_2 M / pow_3 J0 * LL1).
  Proof.
    pose proof (J0_pos M b Jr L HM Hb HJr HL) as PJ. fold J0 in PJ. pose proof (L1_ge M b L HM Hb HL) as LG. pose proof (L1_sq M b L HM Hb) as LS.
    assert (Q : 0 < L * L + 4 * M * b) by (rewrite <- LS; nra). assert (EJ : Jr + / 2 * (L + sqrt (L * L + 4 * M * b)) = J0) by (unfold J0, cJ0, cL1; lra).
    auto_derive; [split; [exact Q|]; rewrite EJ; nra|]. rewrite EJ. change (sqrt (L * L + 4 * M * b)) with (cL1 M b L). unfold LL1. set (l1 := cL1 M b L) in *. rewrite half5. unfold pow_2, pow_3. field. lra.
  Qed.
  Lemma freq_z : is_derive (fun J => iso_H M b Jr J Jphi) Jz (pow_2 M / pow_3 J0 * LL1).
  Proof.
    unfold iso_H. cbv zeta. assert (D : is_derive (fun J => J + Rabs Jphi) Jz 1) by (auto_derive; [trivial|ring]).
    eapply is_derive_eq0; [apply (is_derive_comp (fun l => - (M * M) / (2 * (Jr + / 2 * (l + sqrt (l * l + 4 * M * b))) ^ 2)) (fun J => J + Rabs Jphi) Jz); [exact freq_L|exact D]|]. unfold scal; cbn. unfold mult; cbn. ring.
  Qed.
  Lemma freq_phi : Jphi <> 0 -> is_derive (fun J => iso_H M b Jr Jz J) Jphi (pow_2 M / pow_3 J0 * LL1 * sign Jphi).
  Proof.
    intros N. unfold iso_H. cbv zeta. assert (D : is_derive (fun J => Jz + Rabs J) Jphi (sign Jphi)).
    { eapply is_derive_eq0; [apply (is_derive_plus (fun _ => Jz) Rabs Jphi 0 (Rcomplements.sign Jphi)); [apply @is_derive_const|]|]. 
      - pose proof (is_derive_Rabs (fun x => x) Jphi 1) as A. cbv beta in A. eapply is_derive_eq0; [apply A; [apply @is_derive_id|exact N]|]. ring.
      - unfold plus; cbn. rewrite Rplus_0_l. destruct (sign_cases Jphi) as [[A B]|[[A B]|[A B]]]; [rewrite B; apply Rcomplements.sign_eq_1; exact A|rewrite B; apply Rcomplements.sign_eq_m1; exact A|contradiction]. }
    eapply is_derive_eq0; [apply (is_derive_comp (fun l => - (M * M) / (2 * (Jr + / 2 * (l + sqrt (l * l + 4 * M * b))) ^ 2)) (fun J => Jz + Rabs J) Jphi); [exact freq_L|exact D]|]. unfold scal; cbn. unfold mult; cbn. ring.
  Qed.
End Freq.
