From Coq Require Import Reals Lra Psatz Bool.
From Coquelicot Require Import Coquelicot.
From Verif Require Import RandReal PolyModel PolyProofs CoordModel EllipModel EllipProofs EllipProofs2 EllipProofs3 EllipProofs4 EllipProofs5 EllipProofs6 EllipProofs8.
Local Open Scope R_scope.

(** ** OblatePerfectEllipsoid *)
Lemma obl_construct_iff major minor : (exists d, oblConstruct major minor = Some d) <-> 0 < minor < major.
Proof.
  unfold oblConstruct. cbv zeta. set (D := sqrt (pow_2 major - pow_2 minor)). split.
  - intros [d H]. destruct (Rle_b D 0) eqn:E1; [discriminate|]. destruct (Rle_dec minor 0) as [L|L]; [rewrite (Rle_b_t minor 0) in H by exact L; discriminate|].
    rewrite (Rle_b_f minor 0) in H by lra. destruct (Rle_dec major minor) as [L2|L2]; [rewrite (Rle_b_t major minor) in H by exact L2; discriminate|]. lra.
  - intros [H1 H2]. assert (P : 0 < D) by (apply sqrt_lt_R0; unfold pow_2; nra). exists (D * D). rewrite !Rle_b_f by lra. reflexivity.
Qed.
Lemma obl_construct_val major minor d : oblConstruct major minor = Some d -> d = major ^ 2 - minor ^ 2.
Proof.
  intros H. assert (Q : exists d, oblConstruct major minor = Some d) by (exists d; exact H). apply obl_construct_iff in Q. revert H. unfold oblConstruct. cbv zeta.
  assert (P : 0 < pow_2 major - pow_2 minor) by (unfold pow_2; nra). pose proof (sqrt_lt_R0 _ P). rewrite !Rle_b_f by lra. simpl orb. cbv iota. intros E. injection E as <-. rewrite sqrt_sqrt by lra. unfold pow_2. ring.
Qed.

(** the coordinates lambda, nu *)
Lemma prol_closed D2 Rc z : 0 < D2 -> 0 < Rc -> prolSph D2 Rc z = (psiOf D2 Rc z ^ 2, D2 * cosOf D2 Rc z ^ 2 * (if Rle_b 0 z then 1 else -1)).
Proof.
  intros HD HR. assert (Hreg : regular D2 Rc z) by (split; [exact HR|right; pose proof (pow_lt Rc 2 HR); lra]).
  destruct (frame D2 Rc z Hreg) as (P & C & Sp & F & E & ER & EZ & XP & XE). destruct (psi2 D2 Rc z Hreg) as [_ P2]. destruct (chi2 D2 Rc z Hreg) as [_ C2]. pose proof (det_nonneg D2 Rc z) as Dn. pose proof (det2 D2 Rc z) as DD.
  unfold sumOf, difOf in *. set (d := detOf D2 Rc z) in *.
  unfold prolSph. cbv zeta. unfold pow_2 in *.
  assert (SQ : (if Req_b (Rc * Rc) 0 then Rabs (Rc * Rc + z * z - D2) else if Req_b (z * z) 0 then Rc * Rc + z * z + D2 else sqrt ((Rc * Rc + z * z - D2) * (Rc * Rc + z * z - D2) + 4 * (Rc * Rc) * D2)) = 2 * d).
  { rewrite Req_b_f by nra. assert (SQ0 : sqrt ((Rc * Rc + z * z - D2) * (Rc * Rc + z * z - D2) + 4 * (Rc * Rc) * D2) = 2 * d).
    { replace ((Rc * Rc + z * z - D2) * (Rc * Rc + z * z - D2) + 4 * (Rc * Rc) * D2) with ((2 * d) ^ 2) by (replace ((2 * d) ^ 2) with (4 * (d * d)) by ring; rewrite DD; field). apply sqrt_pow2. lra. }
    destruct (Req_EM_T (z * z) 0) as [Q|Q]; [|rewrite Req_b_f by exact Q; exact SQ0]. rewrite Req_b_t by exact Q. rewrite <- SQ0. rewrite Q.
    replace ((Rc * Rc + 0 - D2) * (Rc * Rc + 0 - D2) + 4 * (Rc * Rc) * D2) with ((Rc * Rc + 0 + D2) ^ 2) by ring. symmetry. apply sqrt_pow2. nra. }
  rewrite SQ. clear SQ. rewrite (Rlt_b_t 0 (Rc * Rc)) by nra.
  set (psi := psiOf D2 Rc z) in *. set (c := cosOf D2 Rc z) in *. set (chi := chiOf D2 Rc z) in *. set (s := sinOf D2 Rc z) in *.
  assert (LMD : (if Rle_b 0 (Rc * Rc + z * z - D2) then (0.5 * (2 * d + (Rc * Rc + z * z - D2)), D2 * (Rc * Rc) / (0.5 * (2 * d + (Rc * Rc + z * z - D2))))
     else (D2 * (Rc * Rc) / (0.5 * (2 * d - (Rc * Rc + z * z - D2))), 0.5 * (2 * d - (Rc * Rc + z * z - D2)))) = (chi ^ 2, D2 * s ^ 2)).
  { assert (A1 : 0.5 * (2 * d + (Rc * Rc + z * z - D2)) = chi ^ 2) by (simpl; lra).
    assert (A2 : D2 * (Rc * Rc) = D2 * s ^ 2 * chi ^ 2) by (rewrite ER; ring).
    assert (A3 : (0.5 * (2 * d - (Rc * Rc + z * z - D2))) * chi ^ 2 = D2 * s ^ 2 * chi ^ 2).
    { rewrite <- A2, <- A1. replace (0.5 * (2 * d - (Rc * Rc + z * z - D2)) * (0.5 * (2 * d + (Rc * Rc + z * z - D2)))) with (d * d - ((Rc * Rc + z * z - D2) / 2) ^ 2) by lra. rewrite DD. field. }
    assert (CP : 0 < chi ^ 2) by (apply pow_lt; exact C). assert (SP : 0 < D2 * s ^ 2) by (apply Rmult_lt_0_compat; [exact HD|apply pow_lt; exact Sp]).
    assert (A4 : 0.5 * (2 * d - (Rc * Rc + z * z - D2)) = D2 * s ^ 2) by (apply (Rmult_eq_reg_r (chi ^ 2)); [exact A3|lra]).
    rewrite A1, A4, A2. destruct (Rle_b 0 _); f_equal; field; lra. }
  rewrite LMD. clear LMD. f_equal; [lra|].
  assert (NU : 2 * D2 / (Rc * Rc + z * z + D2 + 2 * d) * (z * z) = D2 * c ^ 2).
  { replace (Rc * Rc + z * z + D2 + 2 * d) with (2 * psi ^ 2) by (simpl; lra). rewrite EZ. field. lra. }
  rewrite NU. replace (D2 - D2 * s ^ 2) with (D2 * c ^ 2) by (rewrite F; ring). destruct (Rlt_b D2 _); reflexivity.
Qed.

(** the function G *)
Definition Gn (mass : R) : R := 2 / PI * mass.
Lemma oblG_val mass c tau : 0 < c -> c ^ 2 / 10 ^ 16 < tau -> exists d1 d2, oblG mass c tau = Some (Gn mass * (kuzmin c tau / tau), d1, d2).
Proof.
  intros HC H. assert (C2 : 0 < c ^ 2) by (apply pow_lt; exact HC). assert (TP : 0 < tau) by (eapply Rlt_trans; [|exact H]; apply Rdiv_lt_0_compat; [exact C2|apply pow_lt; lra]).
  unfold oblG. rewrite Rlt_b_f by lra. cbv zeta. assert (T1 : 1 / 10 ^ 16 < tau / pow_2 c).
  { apply (Rmult_lt_reg_r (c ^ 2)); [exact C2|]. replace (tau / pow_2 c * c ^ 2) with tau by (unfold pow_2; field; lra). lra. }
  rewrite (Rlt_b_t (1 / 10 ^ 16)) by exact T1. eexists _, _. f_equal. f_equal. f_equal. unfold Gn, kuzmin, pow_2.
  assert (SQ : sqrt (tau / (c * c)) = sqrt tau / c) by (rewrite sqrt_div_alt by nra; rewrite sqrt_square by lra; reflexivity).
  rewrite SQ. pose proof (sqrt_lt_R0 tau TP) as SP. pose proof (sqrt_sqrt tau ltac:(lra)) as SS. pose proof PI_neq0. set (a0 := atan (sqrt tau / c)). clearbody a0.
  set (q := sqrt tau) in *. clearbody q. subst tau. field. repeat split; lra.
Qed.
Definition g1 (c t : R) : R := (c / (c ^ 2 + t) - kuzmin c t / t) / (2 * t).
Definition g2 (c t : R) : R := 3 / 4 * (kuzmin c t / t - (c ^ 2 + 5 / 3 * t) * c / (c ^ 2 + t) ^ 2) / t ^ 2.
Lemma g_d1 c t : 0 < c -> 0 < t -> is_derive (fun t => kuzmin c t / t) t (g1 c t).
Proof.
  intros HC Ht. pose proof (Bt c t HC Ht) as N. pose proof (kz_d1 c t HC Ht) as H. auto_derive; [split; [eexists; exact H|split; [lra|exact Logic.I]]|].
  rewrite (is_derive_unique (fun y : R => kuzmin c y) t _ H). unfold kz1, g1. field. split; lra.
Qed.
Lemma g_d2 c t : 0 < c -> 0 < t -> is_derive (g1 c) t (g2 c t).
Proof.
  intros HC Ht. pose proof (Bt c t HC Ht) as N. pose proof (kz_d1 c t HC Ht) as H. unfold g1. auto_derive; [repeat split; try (eexists; exact H); try lra; simpl; simpl in N; exact N|].
  rewrite (is_derive_unique (fun y : R => kuzmin c y) t _ H). unfold kz1, g2. field. split; lra.
Qed.
Lemma oblG_smooth mass c tau : 0 < c -> c ^ 2 / 10 ^ 5 < tau -> oblG mass c tau = Some (Gn mass * (kuzmin c tau / tau), Gn mass * g1 c tau, Gn mass * g2 c tau).
Proof.
  intros HC H. assert (C2 : 0 < c ^ 2) by (apply pow_lt; exact HC). assert (TP : 0 < tau) by (eapply Rlt_trans; [|exact H]; apply Rdiv_lt_0_compat; [exact C2|apply pow_lt; lra]).
  unfold oblG. rewrite Rlt_b_f by lra. cbv zeta. assert (T1 : 1 / 10 ^ 5 < tau / pow_2 c).
  { apply (Rmult_lt_reg_r (c ^ 2)); [exact C2|]. replace (tau / pow_2 c * c ^ 2) with tau by (unfold pow_2; field; lra). lra. }
  rewrite !Rlt_b_t by lra. unfold Gn, kuzmin, pow_2, g1, g2, kuzmin.
  assert (SQ : sqrt (tau / (c * c)) = sqrt tau / c) by (rewrite sqrt_div_alt by nra; rewrite sqrt_square by lra; reflexivity).
  assert (H5 : 0.5 = 1 / 2) by lra. assert (H75 : 0.75 = 3 / 4) by lra. rewrite SQ, H5, H75.
  pose proof (sqrt_lt_R0 tau TP) as SP. pose proof (sqrt_sqrt tau ltac:(lra)) as SS. pose proof PI_neq0. set (a0 := atan (sqrt tau / c)). clearbody a0.
  set (q := sqrt tau) in *. clearbody q. subst tau. assert (N : c ^ 2 + q * q <> 0) by lra.
  f_equal. f_equal; [f_equal|]; field; repeat split; try lra.
Qed.

Definition sel (f : prolRes -> R) (o : option prolRes) : R := match o with Some r => f r | None => 0 end.
Theorem obl_value mass c D2 Rc z : 0 < c -> 0 < D2 -> c ^ 2 / 10 ^ 16 < D2 -> 0 < Rc ->
  let '(lambda, nu) := prolSph D2 Rc z in (nu = 0 \/ c ^ 2 / 10 ^ 16 < Rabs nu) ->
  exists r, oblScalar mass c D2 lambda nu = Some r /\ oval r = cval (codeResult mass c D2 Rc z).
Proof.
  intros HC HD HT HR. rewrite prol_closed by assumption. assert (Hreg : regular D2 Rc z) by (split; [exact HR|right; pose proof (pow_lt Rc 2 HR); lra]).
  destruct (code_value mass c D2 Rc z HC HD Hreg) as (E & _ & _ & V1 & V2 & V3). rewrite E. clear E.
  set (u := psiOf D2 Rc z ^ 2) in *. set (v := D2 * cosOf D2 Rc z ^ 2) in *. clearbody u v. intros HN.
  assert (AV : Rabs (v * (if Rle_b 0 z then 1 else -1)) = v) by (destruct (Rle_b 0 z); [rewrite Rmult_1_r; apply Rabs_right; lra|replace (v * -1) with (- v) by ring; rewrite Rabs_Ropp; apply Rabs_right; lra]).
  assert (HN' : v = 0 \/ c ^ 2 / 10 ^ 16 < v) by (destruct HN as [HN|HN]; [left; destruct (Rle_b 0 z); lra|right; rewrite AV in HN; exact HN]). clear HN.
  unfold oblScalar. cbv zeta. rewrite AV. rewrite !Rlt_b_f by lra. simpl orb. cbv iota.
  destruct (oblG_val mass c u HC ltac:(lra)) as (a1 & a2 & ->). 
  assert (PN := PI_neq0). destruct HN' as [->|HV].
  - assert (G0 : exists g0 b1 b2, oblG mass c 0 = Some (g0, b1, b2)) by (unfold oblG; rewrite Rlt_b_f by lra; cbv zeta; eexists _, _, _; reflexivity).
    destruct G0 as (g0 & b1 & b2 & ->). eexists. split; [reflexivity|]. cbn [oval]. unfold Gn. replace (kuzmin c 0) with 0 by (unfold kuzmin; rewrite sqrt_0; ring). field. repeat split; lra.
  - destruct (oblG_val mass c v HC HV) as (b1 & b2 & ->). eexists. split; [reflexivity|]. cbn [oval]. unfold Gn.
    assert (v <> 0) by (pose proof (pow_lt c 2 HC); assert (0 < c ^ 2 / 10 ^ 16) by (apply Rdiv_lt_0_compat; [assumption|apply pow_lt; lra]); lra). field. repeat split; lra.
Qed.

Section OblDer.
  Variables mass c D2 la a : R.
  Hypothesis HC : 0 < c.
  Hypothesis HT : c ^ 2 / 10 ^ 5 < a.
  Hypothesis Ha : a < D2.
  Hypothesis Hl : D2 < la.
  Let N := Gn mass.
  Definition closedR (l b sg : R) : prolRes :=
    let Gl := N * (kuzmin c l / l) in let dGl := N * g1 c l in let d2Gl := N * g2 c l in
    let Gb := N * (kuzmin c b / b) in let dGb := N * g1 c b in let d2Gb := N * g2 c b in
    let lmn := l - b in let coef := (Gl - Gb) / lmn ^ 2 in
    mkProl ((b * Gb - l * Gl) / lmn) (coef * b - dGl * l / lmn) ((- coef * l + dGb * b / lmn) * sg)
      ((2 * b * (- coef + dGl / lmn) - d2Gl * l) / lmn) ((2 * l * (- coef + dGb / lmn) + d2Gb * b) / lmn) (((l + b) * coef - (l * dGl + b * dGb) / lmn) / lmn * sg).
  Lemma obl_closed l nu : D2 < l -> c ^ 2 / 10 ^ 5 < Rabs nu < D2 -> oblScalar mass c D2 l nu = Some (closedR l (Rabs nu) (if Rle_b 0 nu then 1 else -1)).
  Proof using HC.
    clear HT Ha Hl.
    intros H1 [H2 H3]. unfold oblScalar. cbv zeta. rewrite !Rlt_b_f by lra. simpl orb. cbv iota. rewrite !oblG_smooth by (try assumption; lra).
    unfold closedR. cbv zeta. fold N. unfold pow_2. replace ((l - Rabs nu) ^ 2) with ((l - Rabs nu) * (l - Rabs nu)) by ring. reflexivity.
  Qed.
  Lemma apos : 0 < a. Proof. eapply Rlt_trans; [|exact HT]. apply Rdiv_lt_0_compat; [apply pow_lt; exact HC|apply pow_lt; lra]. Qed.
  Ltac dv := 
    pose proof apos as AP; assert (LP : 0 < la) by lra;
    pose proof (g_d1 c a HC AP) as D1a; pose proof (g_d2 c a HC AP) as D2a; pose proof (g_d1 c la HC LP) as D1l; pose proof (g_d2 c la HC LP) as D2l;
    unfold closedR; cbv zeta; cbn [oval olam onu olam2 onu2 olamnu]; set (g0 := fun t => kuzmin c t / t) in *;
    change (kuzmin c a / a) with (g0 a); change (kuzmin c la / la) with (g0 la).
  Ltac fin := 
    repeat match goal with H : is_derive ?f ?x ?l |- context [Derive ?g ?x] => rewrite (is_derive_unique (fun y : R => g y) x l) by exact H end; field; lra.
  Lemma der_l sg : is_derive (fun l => oval (closedR l a sg)) la (olam (closedR la a sg)) /\ is_derive (fun l => olam (closedR l a sg)) la (olam2 (closedR la a sg)) /\
    is_derive (fun l => onu (closedR l a sg)) la (olamnu (closedR la a sg)).
  Proof.
    dv. split; [|split].
    - apply (is_derive_ext (fun l => (a * (N * g0 a) - l * (N * g0 l)) / (l - a))); [reflexivity|].
      auto_derive; [repeat split; try (eexists; eassumption); lra|]. rewrite (is_derive_unique (fun y : R => g0 y) la _ D1l). field. lra.
    - apply (is_derive_ext (fun l => (N * g0 l - N * g0 a) / (l - a) ^ 2 * a - N * g1 c l * l / (l - a))); [reflexivity|].
      auto_derive; [repeat split; try (eexists; eassumption); try lra; rewrite Rmult_1_r; apply Rmult_integral_contrapositive_currified; lra|].
      rewrite (is_derive_unique (fun y : R => g0 y) la _ D1l), (is_derive_unique (fun y : R => g1 c y) la _ D2l). field. lra.
    - apply (is_derive_ext (fun l => (- ((N * g0 l - N * g0 a) / (l - a) ^ 2) * l + N * g1 c a * a / (l - a)) * sg)); [reflexivity|].
      auto_derive; [repeat split; try (eexists; eassumption); try lra; rewrite Rmult_1_r; apply Rmult_integral_contrapositive_currified; lra|].
      rewrite (is_derive_unique (fun y : R => g0 y) la _ D1l). field. lra.
  Qed.
  Lemma der_n sg : sg * sg = 1 -> is_derive (fun b => oval (closedR la b sg)) a (onu (closedR la a sg) * sg) /\ is_derive (fun b => olam (closedR la b sg)) a (olamnu (closedR la a sg) * sg) /\
    is_derive (fun b => onu (closedR la b sg)) a (onu2 (closedR la a sg) * sg).
  Proof.
    intros SG. dv. split; [|split].
    - apply (is_derive_ext (fun b => (b * (N * g0 b) - la * (N * g0 la)) / (la - b))); [reflexivity|].
      auto_derive; [repeat split; try (eexists; eassumption); lra|]. rewrite (is_derive_unique (fun y : R => g0 y) a _ D1a). match goal with |- _ = ?y * sg * sg => rewrite (Rmult_assoc y sg sg), SG end. field. lra.
    - apply (is_derive_ext (fun b => (N * g0 la - N * g0 b) / (la - b) ^ 2 * b - N * g1 c la * la / (la - b))); [reflexivity|].
      auto_derive; [repeat split; try (eexists; eassumption); try lra; rewrite Rmult_1_r; apply Rmult_integral_contrapositive_currified; lra|].
      rewrite (is_derive_unique (fun y : R => g0 y) a _ D1a). match goal with |- _ = ?y * sg * sg => rewrite (Rmult_assoc y sg sg), SG end. field. lra.
    - apply (is_derive_ext (fun b => (- ((N * g0 la - N * g0 b) / (la - b) ^ 2) * la + N * g1 c b * b / (la - b)) * sg)); [reflexivity|].
      auto_derive; [repeat split; try (eexists; eassumption); try lra; rewrite Rmult_1_r; apply Rmult_integral_contrapositive_currified; lra|].
      rewrite (is_derive_unique (fun y : R => g0 y) a _ D1a), (is_derive_unique (fun y : R => g1 c y) a _ D2a). field. lra.
  Qed.
End OblDer.
Theorem obl_derivs mass c D2 la nu : 0 < c -> c ^ 2 / 10 ^ 5 < Rabs nu < D2 -> D2 < la -> exists r, oblScalar mass c D2 la nu = Some r /\
  is_derive (fun l => sel oval (oblScalar mass c D2 l nu)) la (olam r) /\ is_derive (fun n => sel oval (oblScalar mass c D2 la n)) nu (onu r) /\
  is_derive (fun l => sel olam (oblScalar mass c D2 l nu)) la (olam2 r) /\ is_derive (fun n => sel olam (oblScalar mass c D2 la n)) nu (olamnu r) /\
  is_derive (fun n => sel onu (oblScalar mass c D2 la n)) nu (onu2 r).
Proof.
  intros HC [H1 H2] HL. assert (TP : 0 < Rabs nu) by (eapply Rlt_trans; [|exact H1]; apply Rdiv_lt_0_compat; [apply pow_lt; exact HC|apply pow_lt; lra]).
  assert (NN : nu <> 0) by (intros ->; rewrite Rabs_R0 in TP; lra).
  set (sg := if Rle_b 0 nu then 1 else -1). assert (SG : sg * sg = 1) by (unfold sg; destruct (Rle_b 0 nu); ring).
  exists (closedR mass c la (Rabs nu) sg). split; [apply obl_closed; [exact HC|exact HL|split; assumption]|].
  destruct (der_l mass c D2 la (Rabs nu) HC H1 H2 HL sg) as (L1 & L2 & L3). destruct (der_n mass c D2 la (Rabs nu) HC H1 H2 HL sg SG) as (N1 & N2 & N3).
  assert (LL : locally la (fun l => D2 < l)) by (apply (open_gt D2); exact HL).
  assert (LN : locally nu (fun n => c ^ 2 / 10 ^ 5 < Rabs n < D2 /\ (if Rle_b 0 n then 1 else -1) = sg)).
  { apply filter_and; [apply filter_and|].
    - apply (near_gt Rabs); [apply continuous_Rabs|exact H1].
    - apply (near_lt Rabs); [apply continuous_Rabs|exact H2].
    - unfold sg. destruct (Rlt_dec 0 nu) as [G|G].
      + rewrite (Rle_b_t 0 nu) by lra. apply (filter_imp (fun x => 0 < x)); [intros x Hx; rewrite Rle_b_t by lra; reflexivity|apply (open_gt 0); exact G].
      + rewrite (Rle_b_f 0 nu) by lra. apply (filter_imp (fun x => x < 0)); [intros x Hx; rewrite Rle_b_f by lra; reflexivity|apply (open_lt 0); lra]. }
  assert (AD : is_derive Rabs nu sg).
  { replace sg with (if Rle_dec 0 nu then 1 else -1); [apply Rabs_derive; exact NN|]. unfold sg. destruct (Rle_dec 0 nu); [rewrite Rle_b_t by assumption|rewrite Rle_b_f by lra]; reflexivity. }
  assert (KL : forall f d, is_derive (fun l => f (closedR mass c l (Rabs nu) sg)) la d -> is_derive (fun l => sel f (oblScalar mass c D2 l nu)) la d).
  { intros f d Hd. eapply is_derive_ext_loc; [|exact Hd]. apply (filter_imp (fun l => D2 < l)); [|exact LL]. intros l Hx. rewrite (obl_closed mass c D2 HC l nu Hx (conj H1 H2)). reflexivity. }
  assert (KN : forall f d, is_derive (fun b => f (closedR mass c la b sg)) (Rabs nu) (d * sg) -> is_derive (fun n => sel f (oblScalar mass c D2 la n)) nu d).
  { intros f d Hd. pose proof (comp_derive (fun b => f (closedR mass c la b sg)) Rabs nu sg (d * sg) AD Hd) as Q. rewrite Rmult_assoc, SG, Rmult_1_r in Q.
    eapply is_derive_ext_loc; [|exact Q]. eapply filter_imp; [|exact LN]. intros n Hn. cbv beta in Hn. destruct Hn as [Hx Hy]. rewrite (obl_closed mass c D2 HC la n HL Hx), Hy. reflexivity. }
  split; [exact (KL oval _ L1)|]. split; [exact (KN oval _ N1)|]. split; [exact (KL olam _ L2)|]. split; [exact (KN olam _ N2)|exact (KN onu _ N3)].
Qed.
