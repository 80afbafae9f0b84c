From Coq Require Import Reals Lra Psatz Bool.
From Coquelicot Require Import Coquelicot.
From Verif Require Import RandReal PolyModel PolyProofs CoordModel EllipModel EllipProofs EllipProofs2 EllipProofs3 EllipProofs4.
Local Open Scope R_scope.

(** ** the Hessian *)
(** the result of the code in spheroidal coordinates *)
Definition axiCl (n D2 c s X rho e1 e2 P Q W k1 k2 : R) : axiRes :=
  let Phi := n / X * W in let lr := -2 / X * rho in let ln := - 2 / X * c * D2 * s in
  mkRes Phi (Phi * lr + n / X * (P * e1)) (Phi * ln - n / X * (Q * s))
    (Phi * (2 * lr ^ 2 - 2 / X) + n / X * (2 * lr * (P * e1) + (P * e2 + k1 * e1 ^ 2)))
    (Phi * (2 * ln ^ 2 + 2 / X * D2 * (s ^ 2 - c ^ 2)) + n / X * (- 2 * ln * (Q * s) + (- Q * c - k2 * s ^ 2)))
    (Phi * (2 * lr * ln) + n / X * (- lr * (Q * s) + ln * (P * e1))).
Definition hRR (n D2 Rc psi c P Q W k1 k2 : R) : R :=
  let X := psi ^ 2 - D2 * c ^ 2 in let S0 := psi ^ 2 + D2 * c ^ 2 in let psi' := Rc * psi / X in let c' := - c * Rc / X in
  let X' := 2 * psi * psi' - 2 * D2 * c * c' in let S' := 2 * psi * psi' + 2 * D2 * c * c' in let G := psi * P - c * Q in
  let G' := psi' * P + psi * (k1 * psi') - c' * Q + c * (k2 * c') in let W' := P * psi' + Q * c' in
  n * ((G / X ^ 2 - 2 * W * S0 / X ^ 3) + Rc * (G' / X ^ 2 - 2 * G * X' / X ^ 3 - 2 * (W' * S0 + W * S') / X ^ 3 + 6 * W * S0 * X' / X ^ 4)).
Definition hRZ (n D2 Rc psi c P Q W k1 k2 : R) : R :=
  let X := psi ^ 2 - D2 * c ^ 2 in let S0 := psi ^ 2 + D2 * c ^ 2 in let psi' := c * (psi ^ 2 - D2) / X in let c' := psi * (1 - c ^ 2) / X in
  let X' := 2 * psi * psi' - 2 * D2 * c * c' in let S' := 2 * psi * psi' + 2 * D2 * c * c' in let G := psi * P - c * Q in
  let G' := psi' * P + psi * (k1 * psi') - c' * Q + c * (k2 * c') in let W' := P * psi' + Q * c' in
  n * (Rc * (G' / X ^ 2 - 2 * G * X' / X ^ 3 - 2 * (W' * S0 + W * S') / X ^ 3 + 6 * W * S0 * X' / X ^ 4)).
Definition hZZ (n D2 psi c P Q W k1 k2 : R) : R :=
  let X := psi ^ 2 - D2 * c ^ 2 in let psi' := c * (psi ^ 2 - D2) / X in let c' := psi * (1 - c ^ 2) / X in
  let X' := 2 * psi * psi' - 2 * D2 * c * c' in
  let H := c * (psi ^ 2 - D2) * P + psi * (1 - c ^ 2) * Q in
  let H' := c' * (psi ^ 2 - D2) * P + 2 * c * psi * psi' * P + c * (psi ^ 2 - D2) * (k1 * psi') + psi' * (1 - c ^ 2) * Q - 2 * psi * c * c' * Q - psi * (1 - c ^ 2) * (k2 * c') in
  let K := 2 * c * psi * (2 * D2 - D2 * c ^ 2 - psi ^ 2) in
  let K' := 2 * (c' * psi + c * psi') * (2 * D2 - D2 * c ^ 2 - psi ^ 2) - 4 * c * psi * (D2 * c * c' + psi * psi') in
  let W' := P * psi' + Q * c' in
  n * (H' / X ^ 2 - 2 * H * X' / X ^ 3 + (K' * W + K * W') / X ^ 3 - 3 * K * W * X' / X ^ 4).

Definition ax1 (psi chi c s X eta : R) := mkA1 (1 / X * psi * s * eta) (1 / X * chi * c * eta) (1 / X * chi * c) (- (1 / X) * psi * s).
(** oblate *)
Definition ax2o (psi chi c s D2 X : R) :=
  let common := pow_2 (chi * chi * c) + pow_2 (psi * psi * s) - 3 * pow_2 (chi * psi) in
  mkA2 (pow_2 (1 / X) * psi * (chi * psi * pow_2 c * (1 - 4 * (1 / X) * D2 * pow_2 s) + 0))
    (pow_2 (1 / X) * chi * (psi * psi * pow_2 s * (1 + 4 * (1 / X) * D2 * pow_2 c) - D2 * pow_2 c))
    (pow_2 (1 / X) * c * s * psi * (pow_2 chi + 1 / X * common)) ((1 / X) ^ 3 * c * s * common) (- ((1 / X) ^ 3 * c * s * common))
    ((1 / X) ^ 3 * psi * chi * (pow_2 (psi * s) * (3 - 2 * pow_2 s) - pow_2 (chi * c) * (3 - 2 * pow_2 c))).
Definition ax2p (psi chi c s D2 X : R) :=
  let common := pow_2 (chi * chi * c) + pow_2 (psi * psi * s) - 3 * pow_2 (chi * psi) in
  mkA2 (pow_2 (1 / X) * psi * (chi * chi * pow_2 c * (1 - 4 * (1 / X) * D2 * pow_2 s) + D2 * pow_2 s))
    (pow_2 (1 / X) * chi * (psi * chi * pow_2 s * (1 + 4 * (1 / X) * D2 * pow_2 c) - 0))
    (pow_2 (1 / X) * c * s * chi * (pow_2 psi + 1 / X * common)) ((1 / X) ^ 3 * c * s * common) (- ((1 / X) ^ 3 * c * s * common))
    ((1 / X) ^ 3 * psi * chi * (pow_2 (psi * s) * (3 - 2 * pow_2 s) - pow_2 (chi * c) * (3 - 2 * pow_2 c))).

Ltac hs F := unfold convert, axiCl, ax1, ax2o, ax2p, hRR, hRZ, hZZ, pow_2; cbn [cval cdR cdz cdR2 cdz2 cdRdz pval gRho gNu hRho hNu hRhoNu drhodR drhodz dnudR dnudz d2rhodR2 d2rhodz2 d2rhodRdz d2nudR2 d2nudz2 d2nudRdz]; cbv zeta.
Lemma hess_prolate n psi chi c s P Q W k1 k2 : 0 < psi -> 0 < chi -> s ^ 2 = 1 - c ^ 2 -> let D2 := psi ^ 2 - chi ^ 2 in let X := psi ^ 2 - D2 * c ^ 2 in X <> 0 ->
  let r := convert (axiCl n D2 c s X psi 1 0 P Q W k1 k2) (ax1 psi chi c s X chi) (ax2p psi chi c s D2 X) in
  cdR2 r = hRR n D2 (chi * s) psi c P Q W k1 k2 /\ cdRdz r = hRZ n D2 (chi * s) psi c P Q W k1 k2 /\ cdz2 r = hZZ n D2 psi c P Q W k1 k2.
Proof.
  intros Hp Hc F D2 X HX r. unfold r. hs F. fold X. assert (EX : X = psi ^ 2 - D2 * c ^ 2) by reflexivity. unfold D2 in *. clearbody X. clear D2.
  split; [|split]; (field_simplify_eq; [|exact HX]); ring [F EX].
Qed.
Lemma hess_oblate n psi chi c s P Q W k1 k2 : 0 < psi -> 0 < chi -> s ^ 2 = 1 - c ^ 2 -> let D2 := psi ^ 2 - chi ^ 2 in let X := psi ^ 2 - D2 * c ^ 2 in X <> 0 ->
  let r := convert (axiCl n D2 c s X chi (chi / psi) (D2 / psi ^ 3) P Q W k1 k2) (ax1 psi chi c s X psi) (ax2o psi chi c s D2 X) in
  cdR2 r = hRR n D2 (chi * s) psi c P Q W k1 k2 /\ cdRdz r = hRZ n D2 (chi * s) psi c P Q W k1 k2 /\ cdz2 r = hZZ n D2 psi c P Q W k1 k2.
Proof.
  intros Hp Hc F D2 X HX r. unfold r. hs F. fold X. assert (EX : X = psi ^ 2 - D2 * c ^ 2) by reflexivity. unfold D2 in *. clearbody X. clear D2.
  split; [|split]; (field_simplify_eq; [|lra]); ring [F EX].
Qed.
(** spherical: both branches agree *)
Lemma ax2_eq psi c s D2 X : D2 = 0 -> ax2p psi psi c s D2 X = ax2o psi psi c s D2 X.
Proof. intros ->. unfold ax2p, ax2o. cbv zeta. f_equal; ring. Qed.

Lemma code_hess mass B D2 Rc z : 0 < B -> 0 < B ^ 2 + D2 -> regular D2 Rc z ->
  let psi := psiOf D2 Rc z in let c := cosOf D2 Rc z in let U := atan (psi / B) in let V := FvOf B D2 c in
  let P := clP B psi U in let Q := clQ B D2 c V in let W := clW psi c U V in
  let k1 := 2 * B ^ 3 / (B ^ 2 + psi ^ 2) ^ 2 in let k2 := 2 * B ^ 3 * D2 / (B ^ 2 + D2 * c ^ 2) ^ 2 in
  let r := codeResult mass B D2 Rc z in let n := normOf mass in
  cdR2 r = hRR n D2 Rc psi c P Q W k1 k2 /\ cdRdz r = hRZ n D2 Rc psi c P Q W k1 k2 /\ cdz2 r = hZZ n D2 psi c P Q W k1 k2.
Proof.
  intros HB HA Hreg psi c U V P Q W k1 k2 r n. destruct (den_pos B D2 Rc z HB HA Hreg) as (Y & T & X0). fold psi c in Y, T, X0.
  destruct (frame D2 Rc z Hreg) as (Pp & C & Sp & F & E & HR & HZ & XP & XE).
  unfold r. clear r. open_code Hreg. fold psi c in Pp, C, Sp, F, E, HR, HZ, XP |- *. set (chi := chiOf D2 Rc z) in *. set (s := sinOf D2 Rc z) in *.
  rewrite (Req_b_f s 0) by lra. cbv beta iota. unfold evalAxi. rewrite (sincos_fin c s Sp F). cbv beta iota zeta.
  fold (normOf mass). fold n. clearbody n. clear HZ XP XE Hreg. unfold P, Q, W, k1, k2. clear P Q W k1 k2. unfold V. clear V. unfold U. clear U. clearbody psi c chi s. clear z.
  set (X := psi ^ 2 - D2 * c ^ 2). assert (HX : X <> 0) by (unfold X; lra).
  assert (EM : pow_2 (chi * c) + pow_2 (psi * s) = X) by (unfold X, pow_2; replace (psi * s * (psi * s)) with (psi ^ 2 * s ^ 2) by ring; rewrite F, E; ring).
  assert (YN : B ^ 2 + psi ^ 2 <> 0) by lra. assert (TN : B ^ 2 + D2 * c ^ 2 <> 0) by lra.
  assert (HBo : pow_2 B + pow_2 psi = B ^ 2 + psi ^ 2) by (unfold pow_2; ring). assert (HTo : pow_2 B + pow_2 c * D2 = B ^ 2 + D2 * c ^ 2) by (unfold pow_2; ring).
  destruct (Rle_dec 0 D2) as [L|L].
  - assert (EV : FvOf B D2 c = - sqrt (Rabs D2) * atan (sqrt (Rabs D2) / B * c)) by (unfold FvOf; cbv zeta; rewrite Rle_b_t by exact L; reflexivity).
    rewrite !(Rle_b_t 0 D2) by exact L. rewrite <- EV. clear EV.
    replace (sqrt (pow_2 chi + D2)) with psi by (rewrite E; unfold pow_2; replace (chi * chi + (psi ^ 2 - chi ^ 2)) with (psi ^ 2) by ring; symmetry; apply sqrt_pow2; lra).
    assert (ED : (if Rle_b D2 0 then 1 else chi / psi) = chi / psi).
    { destruct (Rle_dec D2 0) as [L2|L2]; [rewrite Rle_b_t by exact L2|rewrite Rle_b_f by lra; reflexivity]. assert (Q : chi = psi) by nra. rewrite Q. field. lra. }
    assert (ED2 : (if Rle_b D2 0 then 0 else D2 / psi ^ 3) = D2 / psi ^ 3).
    { destruct (Rle_dec D2 0) as [L2|L2]; [rewrite Rle_b_t by exact L2|rewrite Rle_b_f by lra; reflexivity]. replace D2 with 0 by lra. field. lra. }
    assert (ED3 : (if Rle_b D2 0 then 0 else D2 * pow_2 c) = D2 * pow_2 c).
    { destruct (Rle_dec D2 0) as [L2|L2]; [rewrite Rle_b_t by exact L2|rewrite Rle_b_f by lra; reflexivity]. replace D2 with 0 by lra. ring. }
    rewrite !ED, !ED2, !ED3, EM, HBo, HTo. replace (pow_2 chi + D2 * pow_2 s) with X by (rewrite <- EM; unfold pow_2; replace (chi * c * (chi * c)) with (chi ^ 2 * c ^ 2) by ring; replace (c ^ 2) with (1 - s ^ 2) by lra; rewrite E; ring).
    pose proof (hess_oblate n psi chi c s (clP B psi (atan (psi / B))) (clQ B D2 c (FvOf B D2 c)) (clW psi c (atan (psi / B)) (FvOf B D2 c)) (2 * B ^ 3 / (B ^ 2 + psi ^ 2) ^ 2) (2 * B ^ 3 * D2 / (B ^ 2 + D2 * c ^ 2) ^ 2) Pp C F) as H.
    cbv zeta in H. rewrite <- E, <- HR in H. fold X in H. specialize (H HX).
    match goal with |- cdR2 (convert ?a1 ?a2 ?a3) = _ /\ _ => match type of H with cdR2 (convert ?b1 ?b2 ?b3) = _ /\ _ =>
      assert (Q1 : a1 = b1); [|assert (Q2 : a2 = b2); [reflexivity|assert (Q3 : a3 = b3); [reflexivity|rewrite Q1, Q2, Q3; exact H]]] end end.
    unfold axiCl, clP, clQ, clW, pow_2. cbv zeta. set (Vv := FvOf B D2 c). set (Uu := atan (psi / B)). clearbody Vv Uu X. set (Yy := B ^ 2 + psi ^ 2) in *. set (Tt := B ^ 2 + D2 * c ^ 2) in *. clearbody Yy Tt. clear - Pp YN TN HX HB.
    f_equal; field; repeat split; lra.
  - assert (EV : FvOf B D2 c = sqrt (Rabs D2) * atanh (sqrt (Rabs D2) / B * c)) by (unfold FvOf; cbv zeta; rewrite Rle_b_f by lra; reflexivity).
    rewrite !(Rle_b_f 0 D2) by lra. rewrite <- EV. clear EV. rewrite !(Rle_b_t D2 0) by lra. rewrite EM, HBo, HTo.
    replace (pow_2 psi - D2 * pow_2 c) with X by (unfold X, pow_2; ring).
    pose proof (hess_prolate n psi chi c s (clP B psi (atan (psi / B))) (clQ B D2 c (FvOf B D2 c)) (clW psi c (atan (psi / B)) (FvOf B D2 c)) (2 * B ^ 3 / (B ^ 2 + psi ^ 2) ^ 2) (2 * B ^ 3 * D2 / (B ^ 2 + D2 * c ^ 2) ^ 2) Pp C F) as H.
    cbv zeta in H. rewrite <- E, <- HR in H. fold X in H. specialize (H HX).
    match goal with |- cdR2 (convert ?a1 ?a2 ?a3) = _ /\ _ => match type of H with cdR2 (convert ?b1 ?b2 ?b3) = _ /\ _ =>
      assert (Q1 : a1 = b1); [|assert (Q2 : a2 = b2); [reflexivity|assert (Q3 : a3 = b3); [reflexivity|rewrite Q1, Q2, Q3; exact H]]] end end.
    unfold axiCl, clP, clQ, clW, pow_2. cbv zeta. set (Vv := FvOf B D2 c). set (Uu := atan (psi / B)). clearbody Vv Uu X. set (Yy := B ^ 2 + psi ^ 2) in *. set (Tt := B ^ 2 + D2 * c ^ 2) in *. clearbody Yy Tt. clear - Pp YN TN HX HB.
    f_equal; field; repeat split; lra.
Qed.

(** the Hessian is the derivative of the gradient *)
Section Hess.
  Variables mass B D2 Rc z : R.
  Hypothesis HB : 0 < B.
  Hypothesis HA : 0 < B ^ 2 + D2.
  Hypothesis Hreg : regular D2 Rc z.
  Lemma hess_RR : is_derive (fun x => cdR (codeResult mass B D2 x z)) Rc (cdR2 (codeResult mass B D2 Rc z)).
  Proof.
    destruct (curve_R B D2 Rc z HB HA Hreg) as (A1 & A2 & A3 & A4). destruct (den_pos B D2 Rc z HB HA Hreg) as (Y & T & X0).
    apply (is_derive_ext_loc (fun x => clR (normOf mass) B D2 x (psiOf D2 x z) (cosOf D2 x z) (atan (psiOf D2 x z / B)) (FvOf B D2 (cosOf D2 x z)))).
    { apply (filter_imp (fun x => regular D2 x z)); [|apply regular_open_R; exact Hreg]. intros x Hx. symmetry. apply (proj1 (proj2 (code_grad mass B D2 x z HB HA Hx))). }
    destruct (code_hess mass B D2 Rc z HB HA Hreg) as (E & _). rewrite E.
    eapply der_eq; [apply (R_derive (normOf mass) B D2 (fun x => x) (fun x => psiOf D2 x z) (fun x => cosOf D2 x z) (fun x => atan (psiOf D2 x z / B)) (fun x => FvOf B D2 (cosOf D2 x z)) Rc 1 _ _ (is_derive_id (K := R_AbsRing) Rc) A1 A2 A3 A4); lra|].
    match goal with |- ?a = ?b => change (@eq R a b) end. cbv beta zeta. unfold hRR. cbv zeta. set (n := normOf mass). set (psi := psiOf D2 Rc z) in *. set (c := cosOf D2 Rc z) in *.
    set (U := atan (psi / B)). set (V := FvOf B D2 c). set (P := clP B psi U). set (Q := clQ B D2 c V). set (W := clW psi c U V). clearbody P Q W. set (X := psi ^ 2 - D2 * c ^ 2) in *. clearbody X. field. repeat split; lra.
  Qed.
  Lemma hess_Rz : is_derive (fun x => cdR (codeResult mass B D2 Rc x)) z (cdRdz (codeResult mass B D2 Rc z)).
  Proof.
    destruct (curve_z B D2 Rc z HB HA Hreg) as (A1 & A2 & A3 & A4). destruct (den_pos B D2 Rc z HB HA Hreg) as (Y & T & X0).
    apply (is_derive_ext_loc (fun x => clR (normOf mass) B D2 Rc (psiOf D2 Rc x) (cosOf D2 Rc x) (atan (psiOf D2 Rc x / B)) (FvOf B D2 (cosOf D2 Rc x)))).
    { apply (filter_imp (fun x => regular D2 Rc x)); [|apply regular_open_z; exact Hreg]. intros x Hx. symmetry. apply (proj1 (proj2 (code_grad mass B D2 Rc x HB HA Hx))). }
    destruct (code_hess mass B D2 Rc z HB HA Hreg) as (_ & E & _). rewrite E.
    eapply der_eq; [apply (R_derive (normOf mass) B D2 (fun x => Rc) (fun x => psiOf D2 Rc x) (fun x => cosOf D2 Rc x) (fun x => atan (psiOf D2 Rc x / B)) (fun x => FvOf B D2 (cosOf D2 Rc x)) z 0 _ _ (is_derive_const (K := R_AbsRing) (V := R_NormedModule) Rc z) A1 A2 A3 A4); lra|].
    match goal with |- ?a = ?b => change (@eq R a b) end. cbv beta zeta. unfold hRZ. cbv zeta. set (n := normOf mass). set (psi := psiOf D2 Rc z) in *. set (c := cosOf D2 Rc z) in *.
    set (U := atan (psi / B)). set (V := FvOf B D2 c). set (P := clP B psi U). set (Q := clQ B D2 c V). set (W := clW psi c U V). clearbody P Q W. set (X := psi ^ 2 - D2 * c ^ 2) in *. clearbody X. field. repeat split; lra.
  Qed.
  Lemma hess_zz : is_derive (fun x => cdz (codeResult mass B D2 Rc x)) z (cdz2 (codeResult mass B D2 Rc z)).
  Proof.
    destruct (curve_z B D2 Rc z HB HA Hreg) as (A1 & A2 & A3 & A4). destruct (den_pos B D2 Rc z HB HA Hreg) as (Y & T & X0).
    apply (is_derive_ext_loc (fun x => clZ (normOf mass) B D2 (psiOf D2 Rc x) (cosOf D2 Rc x) (atan (psiOf D2 Rc x / B)) (FvOf B D2 (cosOf D2 Rc x)))).
    { apply (filter_imp (fun x => regular D2 Rc x)); [|apply regular_open_z; exact Hreg]. intros x Hx. symmetry. apply (proj2 (proj2 (code_grad mass B D2 Rc x HB HA Hx))). }
    destruct (code_hess mass B D2 Rc z HB HA Hreg) as (_ & _ & E). rewrite E.
    eapply der_eq; [apply (Z_derive (normOf mass) B D2 (fun x => psiOf D2 Rc x) (fun x => cosOf D2 Rc x) (fun x => atan (psiOf D2 Rc x / B)) (fun x => FvOf B D2 (cosOf D2 Rc x)) z _ _ A1 A2 A3 A4); lra|].
    match goal with |- ?a = ?b => change (@eq R a b) end. cbv beta zeta. unfold hZZ. cbv zeta. set (n := normOf mass). set (psi := psiOf D2 Rc z) in *. set (c := cosOf D2 Rc z) in *.
    set (U := atan (psi / B)). set (V := FvOf B D2 c). set (P := clP B psi U). set (Q := clQ B D2 c V). set (W := clW psi c U V). clearbody P Q W. set (X := psi ^ 2 - D2 * c ^ 2) in *. clearbody X. field. repeat split; lra.
  Qed.
  (** Poisson's equation *)
  Lemma poisson : cdR2 (codeResult mass B D2 Rc z) + cdR (codeResult mass B D2 Rc z) / Rc + cdz2 (codeResult mass B D2 Rc z) = 4 * PI * densityCyl mass (sqrt (B ^ 2 + D2)) B Rc z.
  Proof.
    destruct (code_hess mass B D2 Rc z HB HA Hreg) as (E1 & _ & E2). destruct (code_grad mass B D2 Rc z HB HA Hreg) as (_ & E3 & _). rewrite E1, E2, E3. clear E1 E2 E3.
    destruct (den_pos B D2 Rc z HB HA Hreg) as (Y & T & X0). destruct (frame D2 Rc z Hreg) as (Pp & C & Sp & F & E & HR & HZ & _).
    assert (RN : Rc <> 0) by (destruct Hreg; lra). clear Hreg.
    pose proof (sqrt_lt_R0 _ HA) as Ap. pose proof (sqrt_sqrt (B ^ 2 + D2) ltac:(lra)) as AA. set (A := sqrt (B ^ 2 + D2)) in *. clearbody A.
    unfold hRR, hZZ, clR, densityCyl, normOf, pow_2. cbv zeta. pose proof PI_RGT_0 as HPI. pose proof PI_neq0 as HPN.
    set (psi := psiOf D2 Rc z) in *. set (c := cosOf D2 Rc z) in *. set (s := sinOf D2 Rc z) in *. set (chi := chiOf D2 Rc z) in *. set (U := atan (psi / B)). set (V := FvOf B D2 c). clearbody psi c s chi U V.
    assert (EQ1 : A * A * (Rc / A * (Rc / A) + z / B * (z / B) + 1) * B ^ 2 = (B ^ 2 + psi ^ 2) * (B ^ 2 + D2 * c ^ 2)).
    { replace (A * A * (Rc / A * (Rc / A) + z / B * (z / B) + 1) * B ^ 2) with (B ^ 2 * Rc ^ 2 + A * A * z ^ 2 + A * A * B ^ 2) by (field; lra). rewrite AA, HR, HZ, E. 
      replace ((chi * s) ^ 2) with (chi ^ 2 * s ^ 2) by ring. rewrite F. ring. }
    assert (EQ2 : A * A = B ^ 2 + psi ^ 2 - chi ^ 2) by lra.
    assert (MN : Rc / A * (Rc / A) + z / B * (z / B) + 1 = (B ^ 2 + psi ^ 2) * (B ^ 2 + D2 * c ^ 2) / (A * A * B ^ 2)) by (rewrite <- EQ1; field; lra).
    rewrite MN. clear MN EQ1.
    set (X := psi ^ 2 - D2 * c ^ 2) in *. assert (EX : X = psi ^ 2 - D2 * c ^ 2) by reflexivity.
    set (Yy := B ^ 2 + psi ^ 2) in *. set (Tt := B ^ 2 + D2 * c ^ 2) in *. assert (EY : Yy = B ^ 2 + psi ^ 2) by reflexivity. assert (ET : Tt = B ^ 2 + D2 * c ^ 2) by reflexivity. clearbody X Yy Tt.
    replace (1 / PI / PI * mass / (B * (A * A) * (Yy * Tt / (A * A * B ^ 2) * (Yy * Tt / (A * A * B ^ 2))))) with (1 / PI / PI * mass * (A * A) * B ^ 3 / (Yy ^ 2 * Tt ^ 2)) by (field; repeat split; lra).
    rewrite AA. clear AA EQ2 Ap A. unfold clP, clQ, clW. rewrite <- EY, <- ET.
    Time field_simplify_eq; [|repeat split; lra].
    Time ring [F EX EY ET E HR].
  Qed.
End Hess.
