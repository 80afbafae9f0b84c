(** Isochrone potential: angles that grow at the given frequencies produce an orbit. *)
From Coq Require Import Reals Lra Psatz Bool.
From Coquelicot Require Import Coquelicot.
From Verif Require Import RandReal PolyModel PolyProofs CoordModel CoordAtan MathModel MathProofs KeplerSpec KeplerProofs KeplerProofs2 IsoModel IsoProofs IsoProofs2 CoordSpec IsoSpec.
Local Open Scope R_scope.

Lemma turn_int (x : R) (k : Z) : 0 <= x < 2 * PI -> 0 <= x - 2 * PI * IZR k < 2 * PI -> k = 0%Z.
Proof.
  intros A B. pose proof PI_RGT_0. assert (-1 < IZR k < 1). { split; apply Rmult_lt_reg_l with (2 * PI); lra. } destruct H0 as [U V]. apply lt_IZR in V. assert (U' : IZR (-1) < IZR k) by exact U. apply lt_IZR in U'. lia.
Qed.
Lemma kep_range e x : 0 <= e < 1 -> 0 <= x < 2 * PI -> 0 <= x - e * sin x < 2 * PI.
Proof.
  intros He Hx. pose proof PI_RGT_0. destruct (Rle_lt_dec x PI) as [A|A].
  - assert (S : 0 <= sin x) by (apply sin_ge_0; lra). pose proof (SIN_bound x). assert (S2 : sin x <= x). { destruct Hx as [[Hx|<-] _]; [left; apply sin_lt_x; exact Hx|rewrite sin_0; lra]. } nra.
  - assert (S : sin x <= 0) by (left; apply sin_lt_0; lra). assert (S2 : - sin x <= 2 * PI - x). { replace (- sin x) with (sin (2 * PI - x)). - left. apply sin_lt_x. lra. - rewrite sin_minus, sin_2PI, cos_2PI. ring. }
    split; [nra|]. assert (e * - sin x <= e * (2 * PI - x)) by (apply Rmult_le_compat_l; lra). assert (e * (2 * PI - x) < 1 * (2 * PI - x)) by (apply Rmult_lt_compat_r; lra). lra.
Qed.
Lemma kep_main kep e tr : kepler_solver kep -> 0 <= e < 1 -> 0 <= tr < 2 * PI -> 0 <= kep e tr < 2 * PI /\ kep e tr - e * sin (kep e tr) = tr.
Proof.
  intros X He Ht. destruct (X e tr He) as (B & k & E). split; [exact B|]. pose proof (kep_range e _ He B) as K. rewrite E in K. rewrite (turn_int tr k Ht K) in E. rewrite E. ring.
Qed.

Section Orbit.
  Variables M b Jr Jz Jphi : R.
  Hypothesis HM : 0 < M. Hypothesis Hb : 0 <= b. Hypothesis HJr : 0 <= Jr. Hypothesis HJz : 0 <= Jz.
  Let L := Jz + Rabs Jphi.
  Hypothesis HL : 0 < L.
  Let L1 := cL1 M b L. Let J0 := cJ0 M b Jr L. Let j := cj M b Jr L. Let e := ce M b Jr L. Let LL1 := 0.5 + 0.5 * L / L1.
  Definition phase (eta : R) : R := LL1 * (e * sin eta) + branch (f1 M b Jr L) eta + branch (f2 M b Jr L) eta * (L / L1).
  Lemma He : 0 <= e < 1. Proof. split; [exact (e_nn M b Jr L HM Hb HJr HL)|exact (e_lt1 M b Jr L HM Hb HJr HL)]. Qed.
  Lemma L1_pos : 0 < L1. Proof. pose proof (L1_ge M b L HM Hb HL). unfold L1. lra. Qed.
  Lemma psi_phase tz eta tr : 0 <= eta < 2 * PI -> tr = eta - e * sin eta -> o_psi M b Jr Jz Jphi tz eta tr = tz + phase eta.
  Proof.
    intros B ->. unfold o_psi. fold L. fold L1. fold LL1. rewrite (half_angle (f1 M b Jr L)) by (assumption || exact (f1_pos M b Jr L HM Hb HJr HL)). rewrite (half_angle (f2 M b Jr L)) by (assumption || exact (f2_pos M b Jr L HM Hb HJr HL)).
    unfold phase, centred. pose proof L1_pos. set (J := if Rlt_b PI eta then 2 * PI else 0). change LL1 with (0.5 + 0.5 * L / L1). rewrite half5. clearbody J. clear -H. field. lra.
  Qed.
  Lemma phase_periodic eta eta' : cos eta = cos eta' -> sin eta = sin eta' -> phase eta = phase eta'.
  Proof. intros A B. unfold phase, branch. rewrite A, B. reflexivity. Qed.
  Lemma phase_derive eta : is_derive phase eta (L / J0 * o_ra M b Jr Jz Jphi eta / (o_ra M b Jr Jz Jphi eta * o_ra M b Jr Jz Jphi eta - j * j) - LL1 * o_ra M b Jr Jz Jphi eta).
  Proof.
    pose proof (ra_j M b Jr Jz Jphi HM Hb HJr HL eta) as RJ. fold L in RJ. pose proof (j_bnd M b Jr L HM Hb HJr HL) as JB. pose proof (J0_pos M b Jr L HM Hb HJr HL) as PJ.
    pose proof (e_sq M b Jr L HM Hb HJr HL) as E1. pose proof (e_sq1 M b Jr L HM Hb HJr HL) as E2. pose proof (e_lt M b Jr L HM Hb HJr HL) as EL. pose proof He as EB. pose proof L1_pos as PL1.
    pose proof (branch_derive (f1 M b Jr L) eta (f1_pos M b Jr L HM Hb HJr HL)) as D1. pose proof (branch_derive (f2 M b Jr L) eta (f2_pos M b Jr L HM Hb HJr HL)) as D2.
    fold j in RJ, JB, E1, E2, EL. fold e in E1, E2, EL. fold J0 in PJ, E1, E2. fold L1 in E2.
    assert (X1 : f1 M b Jr L / ((1 + f1 M b Jr L * f1 M b Jr L) + (1 - f1 M b Jr L * f1 M b Jr L) * cos eta) = L / J0 / (2 * (o_ra M b Jr Jz Jphi eta - j))).
    { unfold o_ra in RJ |- *. fold L e in RJ |- *. unfold f1. fold e j J0. replace (cos eta) with (cos eta) by reflexivity. set (k := cos eta) in *. clearbody k.
      assert (F : ((1 + e - j) * J0 / L) * ((1 + e - j) * J0 / L) = (1 - j + e) / (1 - j - e)).
      { replace ((1 + e - j) * J0 / L * ((1 + e - j) * J0 / L)) with ((1 - j + e) * (1 - j + e) / (L / J0 * (L / J0))) by (field; lra). replace (L / J0 * (L / J0)) with ((1 - j + e) * (1 - j - e)) by lra. field. split; lra. }
      rewrite F. replace (1 + (1 - j + e) / (1 - j - e) + (1 - (1 - j + e) / (1 - j - e)) * k) with (2 * (1 - e * k - j) / (1 - j - e)) by (field; lra).
      replace ((1 + e - j) * J0 / L / (2 * (1 - e * k - j) / (1 - j - e))) with ((1 - j + e) * (1 - j - e) * J0 / L / (2 * (1 - e * k - j))) by (field; repeat split; lra). replace ((1 - j + e) * (1 - j - e)) with (L / J0 * (L / J0)) by lra. field. repeat split; lra. }
    assert (X2 : f2 M b Jr L / ((1 + f2 M b Jr L * f2 M b Jr L) + (1 - f2 M b Jr L * f2 M b Jr L) * cos eta) = L1 / J0 / (2 * (o_ra M b Jr Jz Jphi eta + j))).
    { unfold o_ra in RJ |- *. fold L e in RJ |- *. unfold f2. fold e j J0 L1. set (k := cos eta) in *. clearbody k.
      assert (F : ((1 + e + j) * J0 / L1) * ((1 + e + j) * J0 / L1) = (1 + j + e) / (1 + j - e)).
      { replace ((1 + e + j) * J0 / L1 * ((1 + e + j) * J0 / L1)) with ((1 + j + e) * (1 + j + e) / (L1 / J0 * (L1 / J0))) by (field; lra). replace (L1 / J0 * (L1 / J0)) with ((1 + j + e) * (1 + j - e)) by lra. field. split; lra. }
      rewrite F. replace (1 + (1 + j + e) / (1 + j - e) + (1 - (1 + j + e) / (1 + j - e)) * k) with (2 * (1 - e * k + j) / (1 + j - e)) by (field; lra).
      replace ((1 + e + j) * J0 / L1 / (2 * (1 - e * k + j) / (1 + j - e))) with ((1 + j + e) * (1 + j - e) * J0 / L1 / (2 * (1 - e * k + j))) by (field; repeat split; lra). replace ((1 + j + e) * (1 + j - e)) with (L1 / J0 * (L1 / J0)) by lra. field. repeat split; lra. }
    rewrite X1 in D1. rewrite X2 in D2. unfold phase.
    assert (D0 : is_derive (fun eta => LL1 * (e * sin eta)) eta (LL1 * (e * cos eta))) by (auto_derive; [trivial|ring]).
    assert (D2' : is_derive (fun eta => branch (f2 M b Jr L) eta * (L / L1)) eta ((L1 / J0 / (2 * (o_ra M b Jr Jz Jphi eta + j)) - / 2) * (L / L1))).
    { apply (is_derive_ext (fun x => scal (L / L1) (branch (f2 M b Jr L) x))); [intros; apply Rmult_comm|]. eapply is_derive_eq0; [apply is_derive_scal; exact D2|]. cbv [scal]; cbn. unfold mult; cbn. ring. }
    eapply is_derive_eq0; [apply (is_derive_plus (fun eta => LL1 * (e * sin eta) + branch (f1 M b Jr L) eta) (fun eta => branch (f2 M b Jr L) eta * (L / L1))); [apply (is_derive_plus (fun eta => LL1 * (e * sin eta)) (branch (f1 M b Jr L))); [exact D0|exact D1]|exact D2']|].
    unfold plus; cbn. unfold o_ra in RJ |- *. fold L e in RJ |- *. unfold LL1. rewrite half5. set (k := cos eta) in *. field. repeat split; try lra. apply Rgt_not_eq. apply Rlt_gt. replace ((1 - e * k) * (1 - e * k) - j * j) with ((1 - e * k - j) * (1 - e * k + j)) by ring. apply Rmult_lt_0_compat; lra.
  Qed.

  (** motion along the orbit *)
  Variable h : R -> R. Variables tr0 tz0 : R.
  Hypothesis Hh : forall x, kepler_eq e x (h x).
  Let Om := pow_2 M / pow_3 J0.
  Definition m_eta (t : R) : R := h (tr0 + Om * t).
  Definition m_psi (t : R) : R := tz0 + Om * LL1 * t + phase (m_eta t).
  Let ra t := o_ra M b Jr Jz Jphi (m_eta t). Let rb t := o_rb M b Jr Jz Jphi (m_eta t). Let r t := o_r M b Jr Jz Jphi (m_eta t). Let vr t := o_vr M b Jr Jz Jphi (m_eta t).
  Lemma ra_pos t : 0 < ra t. Proof. pose proof (ra_j M b Jr Jz Jphi HM Hb HJr HL (m_eta t)) as A. pose proof (j_bnd M b Jr L HM Hb HJr HL). fold L in A. unfold ra. lra. Qed.
  Lemma eta_derive t : is_derive m_eta t (Om / ra t).
  Proof.
    unfold m_eta. pose proof (h_derive e h He Hh (tr0 + Om * t)) as D. assert (D1 : is_derive (fun t => tr0 + Om * t) t Om) by (auto_derive; [trivial|ring]).
    eapply is_derive_eq0; [apply (is_derive_comp h (fun t => tr0 + Om * t) t); [exact D|exact D1]|]. unfold scal; cbn. unfold mult; cbn. unfold ra, o_ra, m_eta. fold L e. reflexivity.
  Qed.
  Lemma rpos t : 0 < r t. Proof. exact (r_pos M b Jr Jz Jphi HM Hb HJr HL (m_eta t)). Qed.
  Lemma rsq t : r t * r t = rb t * rb t - b * b. Proof. exact (r_sq M b Jr Jz Jphi HM Hb HJr HL (m_eta t)). Qed.
  Lemma J0p : 0 < J0. Proof. exact (J0_pos M b Jr L HM Hb HJr HL). Qed.
  Lemma rb_eq t : rb t = ra t * J0 * J0 / M. Proof. reflexivity. Qed.
  Lemma rb_gt t : b < rb t. Proof. exact (rb_b M b Jr Jz Jphi HM Hb HJr HL (m_eta t)). Qed.
  Lemma bj : b = j * J0 * J0 / M. Proof. exact (b_j M b Jr Jz Jphi HM Hb HJr HL). Qed.
  Lemma psi_derive t : is_derive m_psi t (L / (r t * r t)).
  Proof.
    pose proof (phase_derive (m_eta t)) as D. pose proof (eta_derive t) as E. pose proof (ra_pos t) as RP. pose proof J0p as PJ. pose proof (rb_gt t) as RG. pose proof (rsq t) as R2.
    assert (D1 : is_derive (fun t => tz0 + Om * LL1 * t) t (Om * LL1)) by (auto_derive; [trivial|ring]).
    unfold m_psi. eapply is_derive_eq0; [apply (is_derive_plus (fun t => tz0 + Om * LL1 * t) (fun t => phase (m_eta t))); [exact D1|apply (is_derive_comp phase m_eta t); [exact D|exact E]]|].
    unfold plus, scal; cbn. unfold mult; cbn. fold (ra t). rewrite R2. rewrite rb_eq in *. rewrite bj in RG |- *. unfold Om, pow_2, pow_3.
    assert (RJ : j < ra t) by (pose proof (ra_j M b Jr Jz Jphi HM Hb HJr HL (m_eta t)) as A; exact A). pose proof (j_bnd M b Jr L HM Hb HJr HL) as JB. fold j in JB.
    assert (N : 0 < ra t * ra t - j * j). { replace (ra t * ra t - j * j) with ((ra t - j) * (ra t + j)) by ring. apply Rmult_lt_0_compat; lra. }
    replace (ra t * J0 * J0 / M * (ra t * J0 * J0 / M) - j * J0 * J0 / M * (j * J0 * J0 / M)) with ((J0 * J0 / M) * (J0 * J0 / M) * (ra t * ra t - j * j)) by (field; lra). field. repeat split; lra.
  Qed.
  Lemma rb_derive t : is_derive rb t (J0 * J0 / M * (e * sin (m_eta t)) * (Om / ra t)).
  Proof.
    unfold rb, o_rb, o_ra. fold L J0 e. pose proof (eta_derive t) as E. 
    assert (G : is_derive (fun eta => (1 - e * cos eta) * J0 * J0 / M) (m_eta t) (J0 * J0 / M * (e * sin (m_eta t)))) by (auto_derive; [trivial|field; lra]).
    eapply is_derive_eq0; [apply (is_derive_comp (fun eta => (1 - e * cos eta) * J0 * J0 / M) m_eta t); [exact G|exact E]|]. unfold scal; cbn. unfold mult; cbn. ring.
  Qed.
  Lemma r_derive t : is_derive r t (vr t).
  Proof.
    pose proof (rb_derive t) as D. pose proof (rb_gt t) as RG. pose proof (rpos t) as RP. pose proof (ra_pos t) as RAP. pose proof J0p as PJ.
    assert (G : is_derive (fun x => sqrt (x * x - b * b)) (rb t) (rb t / r t)).
    { unfold r, o_r. fold (rb t). auto_derive; [nra|]. change (o_r M b Jr Jz Jphi (m_eta t)) with (r t) in *. assert (Q : sqrt (rb t * rb t - b * b) = r t) by reflexivity. change (o_rb M b Jr Jz Jphi (m_eta t)) with (rb t). unfold Rminus in Q. try unfold Rminus. rewrite ?Q. field. lra. }
    unfold r at 1, o_r. eapply is_derive_eq0; [apply (is_derive_comp (fun x => sqrt (x * x - b * b)) rb t); [exact G|exact D]|]. unfold scal; cbn. unfold mult; cbn.
    unfold vr, o_vr. fold L J0 e. change (o_r M b Jr Jz Jphi (m_eta t)) with (r t). rewrite rb_eq. unfold Om, pow_2, pow_3. field. repeat split; lra.
  Qed.
  Lemma vr_derive t : is_derive vr t (L * L / (r t * r t * r t) - M * r t / (rb t * ((b + rb t) * (b + rb t)))).
  Proof.
    pose proof (r_derive t) as DR. pose proof (eta_derive t) as DE. pose proof (rpos t) as RP. pose proof (ra_pos t) as RAP. pose proof J0p as PJ. pose proof (rb_gt t) as RG. pose proof (rsq t) as R2. pose proof (sc1 (m_eta t)) as SC.
    pose proof (e_sq M b Jr L HM Hb HJr HL) as E1. fold e j J0 in E1.
    assert (DS : is_derive (fun t => J0 * e * sin (m_eta t)) t (J0 * e * cos (m_eta t) * (Om / ra t))).
    { eapply is_derive_eq0; [apply (is_derive_comp (fun x => J0 * e * sin x) m_eta t); [|exact DE]|].
      - instantiate (1 := J0 * e * cos (m_eta t)). auto_derive; [trivial|ring].
      - unfold scal; cbn. unfold mult; cbn. ring. }
    pose proof (is_derive_div (fun t => J0 * e * sin (m_eta t)) r t _ _ DS DR ltac:(lra)) as D. change (fun t => o_vr M b Jr Jz Jphi (m_eta t)) with (fun t => J0 * e * sin (m_eta t) / r t).
    unfold vr. change (is_derive (fun t => J0 * e * sin (m_eta t) / r t) t (L * L / (r t * r t * r t) - M * r t / (rb t * ((b + rb t) * (b + rb t))))).
    eapply is_derive_eq0; [exact D|]. unfold vr, o_vr. fold L J0 e. change (o_r M b Jr Jz Jphi (m_eta t)) with (r t).
    set (s := sin (m_eta t)) in *. set (k := cos (m_eta t)) in *.
    assert (EK : e * k = 1 - ra t) by (unfold ra, o_ra; fold L e k; ring).
    assert (ES : e * e * (s * s) = e * e - (1 - ra t) * (1 - ra t)) by (rewrite <- EK; replace (s * s) with (1 - k * k) by lra; ring).
    assert (E3 : L * L = J0 * J0 * ((1 - j) * (1 - j) - e * e)) by (rewrite E1; field; lra).
    assert (RJ : j < ra t) by (exact (ra_j M b Jr Jz Jphi HM Hb HJr HL (m_eta t))). pose proof (j_bnd M b Jr L HM Hb HJr HL) as JB. fold j in JB.
    replace ((J0 * e * k * (Om / ra t) * r t - J0 * e * s * (J0 * e * s / r t)) / (r t) ^ 2) with ((J0 * (e * k) * (Om / ra t) * (r t * r t) - J0 * J0 * (e * e * (s * s))) / (r t * r t * r t)) by (field; lra).
    replace (L * L / (r t * r t * r t) - M * r t / (rb t * ((b + rb t) * (b + rb t)))) with ((L * L - M * (r t * r t * (r t * r t)) / (rb t * ((b + rb t) * (b + rb t)))) / (r t * r t * r t)) by (field; lra).
    f_equal. rewrite EK, ES, E3, R2. 
    replace (M * ((rb t * rb t - b * b) * (rb t * rb t - b * b)) / (rb t * ((b + rb t) * (b + rb t)))) with (M * ((rb t - b) * (rb t - b)) / rb t) by (field; lra).
    rewrite rb_eq. rewrite bj. unfold Om, pow_2, pow_3. field. repeat split; lra.
  Qed.
  (** one Cartesian component *)
  Lemma comp_derive A B t :
    is_derive (fun t => r t * (A * cos (m_psi t) + B * sin (m_psi t))) t (vr t * (A * cos (m_psi t) + B * sin (m_psi t)) + L / r t * (- A * sin (m_psi t) + B * cos (m_psi t))) /\
    is_derive (fun t => vr t * (A * cos (m_psi t) + B * sin (m_psi t)) + L / r t * (- A * sin (m_psi t) + B * cos (m_psi t))) t (- (M / (rb t * ((b + rb t) * (b + rb t)))) * (r t * (A * cos (m_psi t) + B * sin (m_psi t)))).
  Proof.
    pose proof (r_derive t) as DR. pose proof (vr_derive t) as DV. pose proof (psi_derive t) as DP. pose proof (rpos t) as RP. pose proof (rb_gt t) as RG.
    assert (DU : is_derive (fun t => A * cos (m_psi t) + B * sin (m_psi t)) t (L / (r t * r t) * (- A * sin (m_psi t) + B * cos (m_psi t)))).
    { eapply is_derive_eq0; [apply (is_derive_comp (fun x => A * cos x + B * sin x) m_psi t); [|exact DP]; instantiate (1 := - A * sin (m_psi t) + B * cos (m_psi t)); auto_derive; [trivial|ring]|]. unfold scal; cbn. unfold mult; cbn. ring. }
    assert (DW : is_derive (fun t => - A * sin (m_psi t) + B * cos (m_psi t)) t (- (L / (r t * r t)) * (A * cos (m_psi t) + B * sin (m_psi t)))).
    { eapply is_derive_eq0; [apply (is_derive_comp (fun x => - A * sin x + B * cos x) m_psi t); [|exact DP]; instantiate (1 := - A * cos (m_psi t) - B * sin (m_psi t)); auto_derive; [trivial|ring]|]. unfold scal; cbn. unfold mult; cbn. ring. }
    assert (DL : is_derive (fun t => L / r t) t (- (L * vr t / (r t * r t)))).
    { eapply is_derive_eq0; [apply (is_derive_comp (fun x => L / x) r t); [|exact DR]; instantiate (1 := - (L / (r t * r t))); auto_derive; [lra|field; lra]|]. unfold scal; cbn. unfold mult; cbn. field. lra. }
    split.
    - eapply is_derive_eq0; [apply (is_derive_mult r (fun t => A * cos (m_psi t) + B * sin (m_psi t)) t _ _ DR DU); intros; apply Rmult_comm|]. unfold plus, mult; cbn. field. lra.
    - eapply is_derive_eq0; [apply (is_derive_plus (fun t => vr t * (A * cos (m_psi t) + B * sin (m_psi t))) (fun t => L / r t * (- A * sin (m_psi t) + B * cos (m_psi t))) t);
        [apply (is_derive_mult vr (fun t => A * cos (m_psi t) + B * sin (m_psi t)) t _ _ DV DU); intros; apply Rmult_comm|apply (is_derive_mult (fun t => L / r t) (fun t => - A * sin (m_psi t) + B * cos (m_psi t)) t _ _ DL DW); intros; apply Rmult_comm]|].
      unfold plus, mult; cbn. field. repeat split; lra.
  Qed.
End Orbit.
