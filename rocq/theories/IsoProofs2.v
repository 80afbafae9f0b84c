(** Isochrone potential: the mapped point in the orbital plane. *)
From Coq Require Import Reals Lra Psatz Bool.
From Coquelicot Require Import Coquelicot.
From Verif Require Import RandReal PolyModel PolyProofs CoordModel CoordAtan MathModel MathProofs IsoModel IsoProofs KeplerProofs2 IsoSpec.
Local Open Scope R_scope.

Lemma sign_abs x : sign x * x = Rabs x.
Proof. unfold sign. destruct (Rtotal_order x 0) as [H|[->|H]]; [rewrite Rlt_b_f, Rlt_b_t, Rabs_left by lra; ring|rewrite Rabs_R0; ring|rewrite Rlt_b_t, Rabs_right by lra; ring]. Qed.
Lemma sign_cases x : (0 < x /\ sign x = 1) \/ (x < 0 /\ sign x = -1) \/ (x = 0 /\ sign x = 0).
Proof. unfold sign. destruct (Rtotal_order x 0) as [H|[->|H]]; [right; left; rewrite Rlt_b_f, Rlt_b_t by lra; auto|right; right; rewrite !Rlt_b_f by lra; auto|left; rewrite Rlt_b_t by lra; auto]. Qed.

Section Map.
  Variables M b Jr Jz Jphi : R.
  Hypothesis HM : 0 < M. Hypothesis Hb : 0 <= b. Hypothesis HJr : 0 <= Jr. Hypothesis HJz : 0 <= Jz.
  Let L := Jz + Rabs Jphi.
  Hypothesis HL : 0 < L.
  Let L1 := cL1 M b L. Let J0 := cJ0 M b Jr L. Let j := cj M b Jr L. Let e := ce M b Jr L. Let LL1 := 0.5 + 0.5 * L / L1.
  Let c := Jphi / L. Let si := sqrt (1 - c * c).
  Lemma c_bnd : -1 <= c <= 1.
  Proof.
    unfold c. pose proof (Rle_abs Jphi). pose proof (Rle_abs (- Jphi)) as A. rewrite Rabs_Ropp in A. unfold L in *. split.
    - apply Rmult_le_reg_r with (Jz + Rabs Jphi); [lra|]. unfold Rdiv. rewrite Rmult_assoc, Rinv_l by lra. lra.
    - apply Rmult_le_reg_r with (Jz + Rabs Jphi); [lra|]. unfold Rdiv. rewrite Rmult_assoc, Rinv_l by lra. lra.
  Qed.
  Lemma si_sq : si * si = 1 - c * c. Proof. pose proof c_bnd. apply sqrt_sqrt. nra. Qed.
  Lemma si_nn : 0 <= si. Proof. apply sqrt_pos. Qed.
  Lemma c_abs : Rabs Jphi = L * Rabs c. Proof. unfold c, Rdiv. rewrite Rabs_mult, (Rabs_right (/ L)) by (left; apply Rinv_0_lt_compat; exact HL). field. lra. Qed.
  Lemma Jphi_c : Jphi = c * L. Proof. unfold c. field. lra. Qed.
  (** the quantities on the orbit *)
  Definition o_ra (eta : R) : R := 1 - e * cos eta.
  Definition o_rb (eta : R) : R := o_ra eta * J0 * J0 / M.
  Definition o_r (eta : R) : R := sqrt (o_rb eta * o_rb eta - b * b).
  Definition o_vr (eta : R) : R := J0 * e * sin eta / o_r eta.
  Definition st (psi : R) : R := sqrt (1 - (si * sin psi) * (si * sin psi)).
  Lemma ra_j eta : cj M b Jr L < o_ra eta.
  Proof. unfold o_ra. pose proof (e_lt M b Jr L HM Hb HJr HL). pose proof (e_nn M b Jr L HM Hb HJr HL). pose proof (COS_bound eta). unfold e. nra. Qed.
  Lemma b_j : b = cj M b Jr L * J0 * J0 / M. Proof. pose proof (J0_pos M b Jr L HM Hb HJr HL). unfold J0, cj, pow_2. field. lra. Qed.
  Lemma rb_b eta : b < o_rb eta.
  Proof.
    pose proof (ra_j eta). pose proof (J0_pos M b Jr L HM Hb HJr HL). rewrite b_j at 1. unfold o_rb. unfold Rdiv. apply Rmult_lt_compat_r; [apply Rinv_0_lt_compat; exact HM|].
    apply Rmult_lt_compat_r; [assumption|]. apply Rmult_lt_compat_r; assumption.
  Qed.
  Lemma r_sq eta : o_r eta * o_r eta = o_rb eta * o_rb eta - b * b. Proof. pose proof (rb_b eta). apply sqrt_sqrt. nra. Qed.
  Lemma r_pos eta : 0 < o_r eta. Proof. pose proof (rb_b eta). apply sqrt_lt_R0. nra. Qed.
  Lemma st_sq psi : st psi * st psi = cos psi * cos psi + c * c * (sin psi * sin psi).
  Proof. pose proof (sc1 psi). pose proof si_sq as S. pose proof c_bnd. unfold st. rewrite sqrt_sqrt; replace (si * sin psi * (si * sin psi)) with ((si * si) * (sin psi * sin psi)) by ring; rewrite S; [lra|]. nra. Qed.
  Lemma st_pos psi : Jphi <> 0 -> 0 < st psi.
  Proof.
    intros N. assert (C : c <> 0) by (intros K; apply N; rewrite Jphi_c, K; ring). assert (P : 0 < c * c) by nra. pose proof (sc1 psi) as K. pose proof (st_sq psi) as S. pose proof (sqrt_pos (1 - si * sin psi * (si * sin psi))) as Q. fold (st psi) in Q.
    destruct Q as [Q|Q]; [exact Q|]. exfalso. rewrite <- Q in S. assert (0 <= cos psi * cos psi) by nra. assert (0 <= sin psi * sin psi) by nra. nra.
  Qed.
  Definition o_psi (thetaz eta thetar : R) : R :=
    thetaz - LL1 * (thetar - (if Rlt_b PI eta then 2 * PI else 0)) + atanMul (f1 M b Jr L) (tanhalf eta) + atanMul (f2 M b Jr L) (tanhalf eta) * L / L1.
  Definition o_chi (psi : R) : R := if negb (Req_b Jz 0) then atan2 (Rabs Jphi * sin psi) (L * cos psi) else psi.
  (** the value returned by the code *)
  Lemma map_form kep tr tz tp : let eta := kep e tr in let psi := o_psi tz eta tr in
    mapIsochrone kep M b Jr Jz Jphi tr tz tp = if Req_b (st psi) 0 then None else
      Some ((o_r eta * st psi, o_r eta * (si * sin psi), wrapAngle (2 * PI) (tp + (o_chi psi - tz) * sign Jphi)),
        (o_vr eta * st psi + (- L * si * cos psi / (o_r eta * st psi)) * (si * sin psi), o_vr eta * (si * sin psi) - (- L * si * cos psi / (o_r eta * st psi)) * st psi, Jphi / (o_r eta * st psi))).
  Proof.
    unfold mapIsochrone. rewrite !Rlt_b_f by lra. cbn [orb]. cbv zeta. rewrite !sign_abs. fold L. rewrite Req_b_f by lra.
    change (sqrt (L * L + 4 * M * b)) with (cL1 M b L). change (Jr + 0.5 * (L + cL1 M b L)) with (cJ0 M b Jr L). change (M * b / pow_2 (cJ0 M b Jr L)) with (cj M b Jr L).
    change (sqrt (Jr * (Jr + L) * (Jr + cL1 M b L) * (Jr + L + cL1 M b L)) / pow_2 (cJ0 M b Jr L)) with (ce M b Jr L). rewrite (e_min M b Jr L HM Hb HJr HL).
    fold (f1 M b Jr L). fold (f2 M b Jr L). fold e. set (eta := kep e tr). fold (tanhalf eta). fold L1. fold LL1. fold (o_psi tz eta tr). set (psi := o_psi tz eta tr). fold (o_chi psi).
    replace (sqrt (1 - pow_2 (Jphi / L))) with si by reflexivity. change (sqrt (1 - pow_2 (si * sin psi))) with (st psi).
    assert (ER : sqrt (Rmax 0 (pow_2 ((1 - e * cos eta) * cJ0 M b Jr L * cJ0 M b Jr L / M) - b * b)) = o_r eta).
    { unfold o_r. rewrite Rmax_right; [reflexivity|]. pose proof (rb_b eta) as K. unfold o_rb, o_ra, J0 in K. unfold pow_2. nra. }
    rewrite ER. reflexivity.
  Qed.
  (** spherical coordinates of the mapped point *)
  Lemma map_sph eta psi phi : st psi <> 0 ->
    exists th vth vph, toPosVel_YS ((o_r eta * st psi, o_r eta * (si * sin psi), phi),
        (o_vr eta * st psi + (- L * si * cos psi / (o_r eta * st psi)) * (si * sin psi), o_vr eta * (si * sin psi) - (- L * si * cos psi / (o_r eta * st psi)) * st psi, Jphi / (o_r eta * st psi)))
      = ((o_r eta, th, phi), (o_vr eta, vth, vph)) /\ vth = - L * si * cos psi / (o_r eta * st psi) /\ vph = Jphi / (o_r eta * st psi) /\ vth * vth + vph * vph = (L / o_r eta) * (L / o_r eta).
  Proof.
    intros N. pose proof (r_pos eta) as Hr. pose proof (st_sq psi) as S. pose proof si_sq as I2. pose proof (sc1 psi) as SC. set (r := o_r eta) in *. set (q := st psi) in *. set (vth := - L * si * cos psi / (r * q)). set (vr := o_vr eta).
    assert (U : q * q + (si * sin psi) * (si * sin psi) = 1) by (replace (si * sin psi * (si * sin psi)) with (si * si * (sin psi * sin psi)) by ring; rewrite I2, S; nra).
    unfold toPosVel_YS. assert (R0 : sqrt (pow_2 (r * q) + pow_2 (r * (si * sin psi))) = r).
    { apply sqrt_eq; [lra|]. unfold pow_2. replace (r * q * (r * q) + r * (si * sin psi) * (r * (si * sin psi))) with (r * r * (q * q + (si * sin psi) * (si * sin psi))) by ring. rewrite U. ring. }
    rewrite R0. rewrite Req_b_f by lra. exists (atan2 (r * q) (r * (si * sin psi))), vth, (Jphi / (r * q)). split; [|split; [reflexivity|split; [reflexivity|]]].
    - f_equal. f_equal; f_equal.
      + replace ((vr * q + vth * (si * sin psi)) * (r * q * (1 / r)) + (vr * (si * sin psi) - vth * q) * (r * (si * sin psi) * (1 / r))) with (vr * (q * q + (si * sin psi) * (si * sin psi))) by (field; lra). rewrite U. ring.
      + replace ((vr * q + vth * (si * sin psi)) * (r * (si * sin psi) * (1 / r)) - (vr * (si * sin psi) - vth * q) * (r * q * (1 / r))) with (vth * (q * q + (si * sin psi) * (si * sin psi))) by (field; lra). rewrite U. ring.
    - unfold vth. replace (- L * si * cos psi / (r * q) * (- L * si * cos psi / (r * q)) + Jphi / (r * q) * (Jphi / (r * q))) with ((L * L * ((si * si) * (cos psi * cos psi)) + Jphi * Jphi) / (r * r * (q * q))) by (field; lra).
      rewrite I2. rewrite Jphi_c. replace (L * L * ((1 - c * c) * (cos psi * cos psi)) + c * L * (c * L)) with (L * L * (cos psi * cos psi + c * c * (1 - cos psi * cos psi))) by ring. replace (1 - cos psi * cos psi) with (sin psi * sin psi) by lra. rewrite <- S. field. lra.
  Qed.
  Lemma energy_form eta : - M / (b + o_rb eta) + 0.5 * (o_vr eta * o_vr eta + (L / o_r eta) * (L / o_r eta)) = - (M * M) / (2 * (J0 * J0)).
  Proof.
    pose proof (r_pos eta) as Hr. pose proof (r_sq eta) as R2. pose proof (rb_b eta) as RB. pose proof (J0_pos M b Jr L HM Hb HJr HL) as PJ. fold J0 in PJ.
    pose proof (e_sq M b Jr L HM Hb HJr HL) as E2. fold e J0 j in E2. pose proof (sc1 eta) as SC. rewrite half5.
    unfold o_vr. replace (J0 * e * sin eta / o_r eta * (J0 * e * sin eta / o_r eta) + L / o_r eta * (L / o_r eta)) with ((J0 * J0 * (e * e) * (sin eta * sin eta) + L * L) / (o_r eta * o_r eta)) by (field; lra).
    rewrite R2. replace (sin eta * sin eta) with (1 - cos eta * cos eta) by lra.
    assert (E3 : L * L = J0 * J0 * ((1 - j) * (1 - j) - e * e)) by (rewrite E2; field; lra). rewrite E3.
    assert (Eb : b = j * J0 * J0 / M) by (unfold j; apply b_j). 
    assert (P1 : 0 < o_rb eta - b) by lra. assert (P2 : 0 < b + o_rb eta) by lra.
    replace (o_rb eta * o_rb eta - b * b) with ((o_rb eta - b) * (b + o_rb eta)) by ring.
    assert (G : J0 * J0 * (e * e) * (1 - cos eta * cos eta) + J0 * J0 * ((1 - j) * (1 - j) - e * e) = 2 * M * (o_rb eta - b) - (o_rb eta - b) * (b + o_rb eta) * (M * M) / (J0 * J0)).
    { unfold o_rb, o_ra. rewrite Eb. field. split; lra. }
    rewrite G. field. repeat split; lra.
  Qed.
  (** Cartesian coordinates of the mapped point *)
  Lemma map_car eta psi tz tp : Jphi <> 0 -> let nu := tp - sign Jphi * tz in
    let P := toPosVel_YC ((o_r eta * st psi, o_r eta * (si * sin psi), wrapAngle (2 * PI) (tp + (o_chi psi - tz) * sign Jphi)),
        (o_vr eta * st psi + (- L * si * cos psi / (o_r eta * st psi)) * (si * sin psi), o_vr eta * (si * sin psi) - (- L * si * cos psi / (o_r eta * st psi)) * st psi, Jphi / (o_r eta * st psi))) in
    P = ((o_r eta * (cos nu * cos psi - c * sin nu * sin psi), o_r eta * (sin nu * cos psi + c * cos nu * sin psi), o_r eta * (si * sin psi)),
         (o_vr eta * (cos nu * cos psi - c * sin nu * sin psi) + L / o_r eta * (- cos nu * sin psi - c * sin nu * cos psi),
          o_vr eta * (sin nu * cos psi + c * cos nu * sin psi) + L / o_r eta * (- sin nu * sin psi + c * cos nu * cos psi),
          o_vr eta * (si * sin psi) + L / o_r eta * (si * cos psi))).
  Proof.
    intros N nu P. pose proof (st_pos psi N) as HS. pose proof (r_pos eta) as Hr. pose proof (st_sq psi) as S2. pose proof si_sq as I2. pose proof (sc1 psi) as SC. pose proof c_abs as CA.
    assert (SG : sign Jphi * sign Jphi = 1 /\ sign Jphi * Rabs c = c /\ (sign Jphi = 1 \/ sign Jphi = -1)).
    { pose proof Jphi_c as JC. destruct (sign_cases Jphi) as [[A B]|[[A B]|[A B]]]; [| |contradiction]; rewrite B.
      - assert (0 < c) by (unfold c; apply Rdiv_lt_0_compat; assumption). rewrite Rabs_right by lra. repeat split; [ring|ring|auto].
      - assert (c < 0) by (apply Ropp_lt_cancel; rewrite Ropp_0; unfold c; replace (- (Jphi / L)) with (- Jphi / L) by (field; lra); apply Rdiv_lt_0_compat; lra). rewrite Rabs_left by lra. repeat split; [ring|ring|auto]. }
    destruct SG as (SG2 & SGc & SGs).
    assert (CH : cos (o_chi psi) = cos psi / st psi /\ sin (o_chi psi) = Rabs c * sin psi / st psi).
    { unfold o_chi. destruct (Req_EM_T Jz 0) as [Z0|Z0]; [rewrite (Req_b_t _ _ Z0)|rewrite (Req_b_f _ _ Z0)]; cbn [negb].
      - assert (C1 : Rabs c = 1). { apply Rmult_eq_reg_l with L; [|lra]. rewrite <- CA. unfold L. lra. }
        assert (ST : st psi = 1). { apply sqrt_eq; [lra|]. assert (si * si = 0). { rewrite I2. assert (CC : c * c = Rabs c * Rabs c) by (unfold Rabs; destruct (Rcase_abs c); ring). rewrite CC, C1. ring. } assert (si = 0) by nra. rewrite H0. ring. }
        rewrite ST, C1. split; field.
      - rewrite CA. replace (L * Rabs c * sin psi) with (L * (Rabs c * sin psi)) by ring. rewrite (atan2_scale L _ _ HL). destruct (atan2_polar (Rabs c * sin psi) (cos psi)) as [A B].
        assert (ES : sqrt (pow_2 (cos psi) + pow_2 (Rabs c * sin psi)) = st psi). { apply sqrt_eq; [lra|]. rewrite S2. unfold pow_2. assert (CC : c * c = Rabs c * Rabs c) by (unfold Rabs; destruct (Rcase_abs c); ring). rewrite CC. ring. }
        rewrite ES in A, B. set (x := atan2 (Rabs c * sin psi) (cos psi)) in *. split; apply Rmult_eq_reg_l with (st psi); try lra; [rewrite A|rewrite B]; field; lra. }
    destruct CH as [CC1 CC2].
    assert (W : cos (wrapAngle (2 * PI) (tp + (o_chi psi - tz) * sign Jphi)) = (cos nu * cos psi - c * sin nu * sin psi) / st psi /\ sin (wrapAngle (2 * PI) (tp + (o_chi psi - tz) * sign Jphi)) = (sin nu * cos psi + c * cos nu * sin psi) / st psi).
    { pose proof PI_RGT_0 as PP. destruct (wrapAngle_ok (2 * PI) (tp + (o_chi psi - tz) * sign Jphi) ltac:(lra)) as (_ & k & ->). destruct (cos_turns (tp + (o_chi psi - tz) * sign Jphi) k) as [-> ->].
      replace (tp + (o_chi psi - tz) * sign Jphi) with (nu + sign Jphi * o_chi psi) by (unfold nu; ring). rewrite cos_plus, sin_plus.
      assert (T : cos (sign Jphi * o_chi psi) = cos (o_chi psi) /\ sin (sign Jphi * o_chi psi) = sign Jphi * sin (o_chi psi)).
      { destruct SGs as [-> | ->]; [rewrite !Rmult_1_l; auto|]. replace (-1 * o_chi psi) with (- o_chi psi) by ring. rewrite cos_neg, sin_neg. split; ring. }
      destruct T as [-> ->]. rewrite CC1, CC2. rewrite <- SGc at 2 4. split; field; lra. }
    destruct W as [W1 W2]. unfold P, toPosVel_YC. rewrite W1, W2. set (q := st psi) in *. set (r := o_r eta) in *. set (vr := o_vr eta) in *. rewrite Jphi_c.
    set (s := sin psi) in *. set (k := cos psi) in *. set (cn := cos nu) in *. set (sn := sin nu) in *. clearbody q r vr s k cn sn.
    assert (Q2 : k * k = q * q - c * c * (s * s)) by lra.
    assert (CQ : si * si * (k * k) + c * c = q * q) by (rewrite I2, S2; nra).
    assert (V : forall A B, (vr * q + - L * si * k / (r * q) * (si * s)) * (A / q) + c * L / (r * q) * (B / q) = vr * A + L / r * ((- si * si * k * s * A + c * B) / (q * q))) by (intros; field; lra).
    f_equal; f_equal; [f_equal; field; lra| |field; lra]. f_equal.
    - replace ((vr * q + - L * si * k / (r * q) * (si * s)) * ((cn * k - c * sn * s) / q) - c * L / (r * q) * ((sn * k + c * cn * s) / q)) with ((vr * q + - L * si * k / (r * q) * (si * s)) * ((cn * k - c * sn * s) / q) + c * L / (r * q) * ((- (sn * k + c * cn * s)) / q)) by (field; lra).
      rewrite V. f_equal. f_equal. apply Rmult_eq_reg_r with (q * q); [|nra]. unfold Rdiv at 1. rewrite Rmult_assoc, Rinv_l, Rmult_1_r by nra.
      rewrite <- CQ. rewrite I2. assert (K : s * s = 1 - k * k) by lra. replace ((- cn * s - c * sn * k) * ((1 - c * c) * (k * k) + c * c)) with (- cn * s * ((1 - c * c) * (k * k) + c * c) - c * sn * k * ((1 - c * c) * (k * k) + c * c)) by ring.
      replace (- si * si * k * s * (cn * k - c * sn * s) + c * - (sn * k + c * cn * s)) with (- (si * si) * (k * k) * s * cn + (si * si) * k * c * sn * (s * s) - c * sn * k - c * c * cn * s) by ring. rewrite I2, K. ring.
    - rewrite V. f_equal. f_equal. apply Rmult_eq_reg_r with (q * q); [|nra]. unfold Rdiv at 1. rewrite Rmult_assoc, Rinv_l, Rmult_1_r by nra.
      rewrite <- CQ. rewrite I2. assert (K : s * s = 1 - k * k) by lra.
      replace (- si * si * k * s * (sn * k + c * cn * s) + c * (cn * k - c * sn * s)) with (- (si * si) * (k * k) * s * sn - (si * si) * k * c * cn * (s * s) + c * cn * k - c * c * sn * s) by ring. rewrite I2, K. ring.
  Qed.
End Map.
