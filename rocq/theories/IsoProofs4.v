(** Isochrone potential: the orbit in Cartesian coordinates, actions and frequencies of the mapped point. *)
From Coq Require Import Reals Lra Psatz Bool ZArith.
From Coquelicot Require Import Coquelicot.
From Verif Require Import RandReal PolyModel PolyProofs CoordModel CoordAtan MathModel MathProofs KeplerSpec KeplerProofs KeplerProofs2 IsoModel IsoProofs IsoProofs2 IsoProofs3 CoordSpec IsoSpec.
Local Open Scope R_scope.

Lemma same_trig x y : same_angle x y -> cos x = cos y /\ sin x = sin y.
Proof. intros (k & ->). apply cos_turns. Qed.
Lemma same_sign s x y : s = 1 \/ s = -1 -> same_angle x y -> same_angle (s * x) (s * y).
Proof. intros [-> | ->] (k & ->); [exists k; ring|exists (- k)%Z; rewrite opp_IZR; ring]. Qed.
Lemma same_plus x y u v : same_angle x y -> same_angle u v -> same_angle (x + u) (y + v).
Proof. intros (k & ->) (l & ->). exists (k + l)%Z. rewrite plus_IZR. ring. Qed.
Lemma same_opp x y : same_angle x y -> same_angle (- x) (- y). Proof. intros (k & ->). exists (- k)%Z. rewrite opp_IZR. ring. Qed.
Lemma same_refl x : same_angle x x. Proof. exists 0%Z. ring. Qed.
Lemma same_sym x y : same_angle x y -> same_angle y x. Proof. intros (k & ->). exists (- k)%Z. rewrite opp_IZR. ring. Qed.
Lemma same_trans x y z : same_angle x y -> same_angle y z -> same_angle x z. Proof. intros (k & ->) (l & ->). exists (k + l)%Z. rewrite plus_IZR. ring. Qed.

(** gradient of the potential *)
Lemma iso_grad M b x y z : 0 <= b -> 0 < x * x + y * y + z * z -> let rb := sqrt (b * b + (x * x + y * y + z * z)) in
  let k := M / (rb * ((b + rb) * (b + rb))) in is_grad (iso_Phi M b) (x, y, z) (k * x, k * y, k * z).
Proof.
  intros Hb P rb k c1 c2 c3 t u1 u2 u3 E D1 D2 D3. injection E as E1 E2 E3.
  assert (Q : 0 < b * b + (x * x + y * y + z * z)) by nra. assert (RP : 0 < rb) by (apply sqrt_lt_R0; exact Q).
  unfold iso_Phi. cbn [v1 v2 v3 fst snd].
  assert (DQ : is_derive (fun s => b * b + (c1 s * c1 s + c2 s * c2 s + c3 s * c3 s)) t (2 * (x * u1 + y * u2 + z * u3))).
  { apply is_derive_Reals in D1, D2, D3. apply is_derive_Reals.
    pose proof (derivable_pt_lim_plus _ _ _ _ _ (derivable_pt_lim_plus _ _ _ _ _ (derivable_pt_lim_mult _ _ _ _ _ D1 D1) (derivable_pt_lim_mult _ _ _ _ _ D2 D2)) (derivable_pt_lim_mult _ _ _ _ _ D3 D3)) as H.
    pose proof (derivable_pt_lim_plus _ _ _ _ _ (derivable_pt_lim_const (b * b) t) H) as G. rewrite E1, E2, E3 in G. match type of G with derivable_pt_lim _ _ ?l => replace (2 * (x * u1 + y * u2 + z * u3)) with l by ring end. exact G. }
  set (q := fun s => b * b + (c1 s * c1 s + c2 s * c2 s + c3 s * c3 s)) in *.
  assert (Eq : q t = b * b + (x * x + y * y + z * z)) by (unfold q; rewrite E1, E2, E3; reflexivity).
  assert (DG : is_derive (fun w => - M / (b + sqrt w)) (q t) (M / (2 * rb * ((b + rb) * (b + rb))))).
  { rewrite Eq. auto_derive; [split; [exact Q|]; fold rb; lra|]. fold rb. field. lra. }
  eapply is_derive_eq0; [apply (is_derive_comp (fun w => - M / (b + sqrt w)) q t); [exact DG|exact DQ]|]. unfold scal; cbn. unfold mult; cbn. unfold k. field. lra.
Qed.

Section O.
  Variables M b Jr Jz Jphi : R.
  Hypothesis HM : 0 < M. Hypothesis Hb : 0 <= b. Hypothesis HJr : 0 <= Jr. Hypothesis HJz : 0 <= Jz. Hypothesis N : Jphi <> 0.
  Let L := Jz + Rabs Jphi.
  Lemma Lp : 0 < L. Proof. pose proof (Rabs_pos_lt _ N). unfold L. lra. Qed.
  Let c := Jphi / L. Let si := sqrt (1 - c * c).
  Let Om := pow_2 M / pow_3 (cJ0 M b Jr L). Let LL1 := 0.5 + 0.5 * L / cL1 M b L.
  Lemma freq_val : mapFreq M b Jr Jz Jphi = Some (Om, Om * LL1, Om * LL1 * sign Jphi).
  Proof. unfold mapFreq. rewrite !Rlt_b_f by lra. cbn [orb]. cbv zeta. rewrite sign_abs. reflexivity. Qed.
  Lemma sgn2 : sign Jphi = 1 \/ sign Jphi = -1. Proof. destruct (sign_cases Jphi) as [[_ A]|[[_ A]|[A _]]]; auto. contradiction. Qed.
  Definition cart (A B C D E F eta psi : R) : posvel :=
    let r := o_r M b Jr Jz Jphi eta in let vr := o_vr M b Jr Jz Jphi eta in
    let f A B := r * (A * cos psi + B * sin psi) in let g A B := vr * (A * cos psi + B * sin psi) + L / r * (- A * sin psi + B * cos psi) in
    ((f A B, f C D, f E F), (g A B, g C D, g E F)).
  (** the mapped point depends on the angles up to whole turns *)
  Lemma map_cart kep tr tz tp : kepler_solver kep -> 0 <= tr < 2 * PI -> exists pv,
    mapIsochrone kep M b Jr Jz Jphi tr tz tp = Some pv /\
    forall eta nu psi, cos eta = cos (kep (ce M b Jr L) tr) -> sin eta = sin (kep (ce M b Jr L) tr) -> same_angle nu (tp - sign Jphi * tz) -> same_angle psi (tz + phase M b Jr Jz Jphi eta) ->
      toPosVel_YC pv = cart (cos nu) (- c * sin nu) (sin nu) (c * cos nu) 0 si eta psi.
  Proof.
    intros K Ht. pose proof Lp as HL. destruct (kep_main kep (ce M b Jr L) tr K (He M b Jr Jz Jphi HM Hb HJr HL) Ht) as (B & E).
    pose proof (map_form M b Jr Jz Jphi HM Hb HJr HJz HL kep tr tz tp) as MF. cbv zeta in MF. fold L in MF. set (eta0 := kep (ce M b Jr L) tr) in *. set (psi0 := o_psi M b Jr Jz Jphi tz eta0 tr) in *.
    pose proof (st_pos Jz Jphi HJz HL psi0 N) as SP. rewrite Req_b_f in MF by lra. eexists. split; [exact MF|].
    intros eta nu psi C1 S1 NU PS. etransitivity; [exact (map_car M b Jr Jz Jphi HM Hb HJr HJz HL eta0 psi0 tz tp N)|]. cbv zeta. fold L. fold c. fold si.
    assert (P0 : psi0 = tz + phase M b Jr Jz Jphi eta0) by (apply (psi_phase M b Jr Jz Jphi HM Hb HJr HL); [exact B|symmetry; exact E]).
    rewrite <- (phase_periodic M b Jr Jz Jphi eta eta0 C1 S1) in P0. rewrite <- P0 in PS. unfold cart. cbv zeta. destruct (same_trig _ _ NU) as [-> ->]. destruct (same_trig _ _ PS) as [-> ->].
    unfold o_vr, o_r, o_rb, o_ra. fold L. rewrite C1, S1. set (nu0 := tp - sign Jphi * tz).
    f_equal; f_equal; try f_equal; ring.
  Qed.
  Lemma orbit_newton kep tr0 tz0 tp0 (tr tz tp : R -> R) : kepler_solver kep ->
    (forall t, 0 <= tr t < 2 * PI) -> (forall t, same_angle (tr t) (tr0 + Om * t)) -> (forall t, same_angle (tz t) (tz0 + Om * LL1 * t)) -> (forall t, same_angle (tp t) (tp0 + Om * LL1 * sign Jphi * t)) ->
    exists pv : R -> posvel, (forall t, mapIsochrone kep M b Jr Jz Jphi (tr t) (tz t) (tp t) = Some (pv t)) /\
      newton (iso_Phi M b) (fun t => fst (toPosVel_YC (pv t))) (fun t => snd (toPosVel_YC (pv t))).
  Proof.
    intros K Ht TR TZ TP. pose proof Lp as HL. pose proof (He M b Jr Jz Jphi HM Hb HJr HL) as HE. fold L in HE.
    assert (X : exact_solver kep). { intros e x H. destruct (K e x H) as (_ & k & E). exists k. exact E. }
    destruct (exact_trig kep (ce M b Jr L) X HE) as (h & Hh & HT).
    set (nu := tp0 - sign Jphi * tz0).
    set (C := fun t => cart (cos nu) (- c * sin nu) (sin nu) (c * cos nu) 0 si (m_eta M b Jr Jz Jphi h tr0 t) (m_psi M b Jr Jz Jphi h tr0 tz0 t)).
    assert (V : forall t, exists p, mapIsochrone kep M b Jr Jz Jphi (tr t) (tz t) (tp t) = Some p /\ toPosVel_YC p = C t).
    { intros t. destruct (map_cart kep (tr t) (tz t) (tp t) K (Ht t)) as (p & Hp & HC). exists p. split; [exact Hp|]. unfold C.
      assert (KT : cos (m_eta M b Jr Jz Jphi h tr0 t) = cos (kep (ce M b Jr L) (tr t)) /\ sin (m_eta M b Jr Jz Jphi h tr0 t) = sin (kep (ce M b Jr L) (tr t))).
      { unfold m_eta. fold L. fold Om. destruct (TR t) as (k & ->). destruct (HT (tr0 + Om * t - 2 * PI * IZR k)) as [-> ->].
        replace (h (tr0 + Om * t - 2 * PI * IZR k)) with (h (tr0 + Om * t) - 2 * PI * IZR k); [split; symmetry; apply cos_turns|].
        apply (kF_inj (ce M b Jr L) HE). rewrite (proj2 (cos_turns _ k)). pose proof (Hh (tr0 + Om * t)) as A. pose proof (Hh (tr0 + Om * t - 2 * PI * IZR k)) as B. unfold kepler_eq in A, B. lra. }
      apply HC; [apply KT|apply KT| |].
      - unfold nu. apply same_sym. replace (tp0 - sign Jphi * tz0) with ((tp0 + Om * LL1 * sign Jphi * t) + - (sign Jphi * (tz0 + Om * LL1 * t))) by ring. unfold Rminus. apply same_plus; [apply TP|]. apply same_opp, same_sign; [apply sgn2|apply TZ].
      - unfold m_psi. fold L. fold Om. fold LL1. apply same_plus; [apply same_sym, TZ|apply same_refl]. }
    exists (fun t => match mapIsochrone kep M b Jr Jz Jphi (tr t) (tz t) (tp t) with Some p => p | None => ((0, 0, 0), (0, 0, 0)) end).
    assert (W : forall t, toPosVel_YC (match mapIsochrone kep M b Jr Jz Jphi (tr t) (tz t) (tp t) with Some p => p | None => ((0, 0, 0), (0, 0, 0)) end) = C t).
    { intros t. destruct (V t) as (p & -> & E). exact E. }
    split; [intros t; destruct (V t) as (p & -> & _); reflexivity|].
    pose proof (comp_derive M b Jr Jz Jphi HM Hb HJr HL h tr0 tz0 Hh) as CD. fold L in CD.
    assert (EXT : forall (g : posvel -> R) t l, is_derive (fun s => g (C s)) t l -> is_derive (fun s => g (toPosVel_YC (match mapIsochrone kep M b Jr Jz Jphi (tr s) (tz s) (tp s) with Some p => p | None => ((0, 0, 0), (0, 0, 0)) end))) t l).
    { intros g t l. apply is_derive_ext. intros s. rewrite W. reflexivity. }
    intros t. rewrite !W.
    destruct (CD (cos nu) (- c * sin nu) t) as [X1 A1]. destruct (CD (sin nu) (c * cos nu) t) as [X2 A2]. destruct (CD 0 si t) as [X3 A3].
    split; [apply (EXT (fun p => v1 (fst p))); exact X1|]. split; [apply (EXT (fun p => v2 (fst p))); exact X2|]. split; [apply (EXT (fun p => v3 (fst p))); exact X3|].
    set (eta := m_eta M b Jr Jz Jphi h tr0 t) in *. set (psi := m_psi M b Jr Jz Jphi h tr0 tz0 t) in *.
    pose proof (r_pos M b Jr Jz Jphi HM Hb HJr HL eta) as RP. pose proof (r_sq M b Jr Jz Jphi HM Hb HJr HL eta) as R2. pose proof (rb_b M b Jr Jz Jphi HM Hb HJr HL eta) as RB.
    set (x := v1 (fst (C t))). set (y := v2 (fst (C t))). set (z := v3 (fst (C t))).
    assert (EX : x * x + y * y + z * z = o_r M b Jr Jz Jphi eta * o_r M b Jr Jz Jphi eta).
    { unfold x, y, z, C, cart. fold eta psi. cbn [v1 v2 v3 fst snd]. pose proof (sc1 nu) as SN. pose proof (sc1 psi) as SP. pose proof (si_sq Jz Jphi HJz HL) as SI. fold L c in SI. fold si in SI.
      set (sn := sin nu) in *. set (cn := cos nu) in *. set (sp := sin psi) in *. set (cp := cos psi) in *. set (rr := o_r M b Jr Jz Jphi eta). clearbody sn cn sp cp rr.
      transitivity (rr * rr * ((cp * cp) * (sn * sn + cn * cn) + c * c * (sn * sn + cn * cn) * (sp * sp) + si * si * (sp * sp))); [ring|]. rewrite SN, SI. replace (cp * cp) with (1 - sp * sp) by lra. ring. }
    exists (let rb := sqrt (b * b + (x * x + y * y + z * z)) in let k := M / (rb * ((b + rb) * (b + rb))) in (k * x, k * y, k * z)).
    assert (ERB : sqrt (b * b + (x * x + y * y + z * z)) = o_rb M b Jr Jz Jphi eta). { apply sqrt_eq; [lra|]. rewrite EX, R2. ring. }
    split; [|rewrite ERB; cbn [v1 v2 v3 fst snd]; cbv zeta].
    - replace (fst (C t)) with (x, y, z) by (unfold x, y, z; destruct (fst (C t)) as [[? ?] ?]; reflexivity). apply iso_grad; [exact Hb|]. rewrite EX. nra.
    - split; [|split].
      + apply (EXT (fun p => v1 (snd p))). eapply is_derive_eq0; [exact A1|]. unfold x, C, cart. cbn [v1 fst]. fold eta psi. ring.
      + apply (EXT (fun p => v2 (snd p))). eapply is_derive_eq0; [exact A2|]. unfold y, C, cart. cbn [v2 fst snd]. fold eta psi. ring.
      + apply (EXT (fun p => v3 (snd p))). eapply is_derive_eq0; [exact A3|]. unfold z, C, cart. cbn [v3 fst snd]. fold eta psi. ring.
  Qed.
End O.
