From Coq Require Import Reals Lra Psatz Bool.
From Coquelicot Require Import Coquelicot.
From Verif Require Import RandReal PolyModel PolyProofs CoordModel EllipModel EllipProofs EllipProofs2.
Local Open Scope R_scope.

(** ** closed forms of the potential and its gradient *)
Definition clW (psi c U V : R) := psi * U + c * V.
Definition clV (n D2 psi c U V : R) := n * clW psi c U V / (psi ^ 2 - D2 * c ^ 2).
Definition clP (B psi U : R) := U + psi * B / (B ^ 2 + psi ^ 2).
Definition clQ (B D2 c V : R) := V - D2 * c * B / (B ^ 2 + D2 * c ^ 2).
Definition clR (n B D2 x psi c U V : R) :=
  let X := psi ^ 2 - D2 * c ^ 2 in x / X * (n * (psi * clP B psi U - c * clQ B D2 c V) / X - 2 * (n * clW psi c U V) * (psi ^ 2 + D2 * c ^ 2) / X ^ 2).
Definition clZ (n B D2 psi c U V : R) :=
  let X := psi ^ 2 - D2 * c ^ 2 in
  (c * (psi ^ 2 - D2) * (n * clP B psi U / X - 2 * psi * (n * clW psi c U V) / X ^ 2) +
   psi * (1 - c ^ 2) * (n * clQ B D2 c V / X + 2 * D2 * c * (n * clW psi c U V) / X ^ 2)) / X.

(** the code in terms of the four quantities *)
Definition posOf D2 Rc z := posAxi D2 Rc z.
Lemma sincos_fin c s : 0 < s -> s ^ 2 = 1 - c ^ 2 -> sincos (Fin (c / s)) = (s, c).
Proof.
  intros Hs F. unfold sincos. cbv zeta. unfold pow_2.
  assert (E : sqrt (1 + c / s * (c / s)) = 1 / s).
  { assert (Q : 1 + c / s * (c / s) = (s ^ 2 + c ^ 2) * (1 / s) ^ 2) by (field; lra).
    rewrite Q. replace (s ^ 2 + c ^ 2) with 1 by lra. rewrite Rmult_1_l.
    apply sqrt_pow2. left. apply Rdiv_lt_0_compat; lra. }
  rewrite E. replace (1 / (1 / s)) with s by (field; lra). rewrite Req_b_f by lra. f_equal. field. lra.
Qed.
(** the angular function of the code *)
Definition FvOf (B D2 c : R) : R := let D := sqrt (Rabs D2) in if Rle_b 0 D2 then - D * atan (D / B * c) else D * atanh (D / B * c).
Definition normOf (mass : R) : R := -2 / PI * mass.

Definition codeResult (mass B D2 Rc z : R) : cylRes :=
  let '(rho, cot) := posAxi D2 Rc z in convert (evalAxi mass B D2 rho cot) (axiDeriv D2 Rc z) (axiDeriv2 D2 Rc z).

Ltac open_code H :=
  unfold codeResult, posAxi, axiDeriv, axiDeriv2; rewrite (pos_closed _ _ _ H).

Lemma code_grad mass B D2 Rc z : 0 < B -> 0 < B ^ 2 + D2 -> regular D2 Rc z ->
  let psi := psiOf D2 Rc z in let c := cosOf D2 Rc z in let U := atan (psi / B) in let V := FvOf B D2 c in
  let r := codeResult mass B D2 Rc z in
  cval r = clV (normOf mass) D2 psi c U V /\ cdR r = clR (normOf mass) B D2 Rc psi c U V /\ cdz r = clZ (normOf mass) B D2 psi c U V.
Proof.
  intros HB HA Hreg psi c U V r. destruct (frame D2 Rc z Hreg) as (P & C & Sp & F & E & HR & HZ & XP & XE).
  pose proof (XE1 D2 Rc z Hreg) as X1. rewrite X1 in XP. clear XE X1.
  unfold r. clear r. open_code Hreg. fold psi c in P, C, Sp, F, E, HR, HZ, XP |- *. set (chi := chiOf D2 Rc z) in *. set (s := sinOf D2 Rc z) in *.
  rewrite (Req_b_f s 0) by lra. cbv beta iota. unfold evalAxi. rewrite (sincos_fin c s Sp F). cbv beta iota zeta.
  fold (normOf mass). set (n := normOf mass). clearbody n. clearbody psi chi c s.
  assert (Bp : 0 < B ^ 2 + psi ^ 2) by (pose proof (pow_lt B 2 HB); pose proof (pow2_ge_0 psi); lra).
  assert (c2 : 0 <= c ^ 2 <= 1) by (pose proof (pow2_ge_0 s); pose proof (pow2_ge_0 c); lra).
  assert (Bc : 0 < B ^ 2 + (psi ^ 2 - chi ^ 2) * c ^ 2) by (rewrite <- E; destruct (Rle_dec 0 D2); nra).
  destruct (Rle_dec 0 D2) as [L|L].
  - assert (EV : FvOf B D2 c = - sqrt (Rabs D2) * atan (sqrt (Rabs D2) / B * c)) by (unfold FvOf; cbv zeta; rewrite Rle_b_t by exact L; reflexivity).
    rewrite !(Rle_b_t 0 D2) by exact L. rewrite <- EV. fold V. clearbody V. clear EV.
    replace (sqrt (pow_2 chi + D2)) with psi by (rewrite E; unfold pow_2; replace (chi * chi + (psi ^ 2 - chi ^ 2)) with (psi ^ 2) by ring; symmetry; apply sqrt_pow2; lra).
    fold U. clearbody U.
    assert (ED : forall a b : R, (if Rle_b D2 0 then 1 else chi / psi) = chi / psi).
    { intros _ _. destruct (Rle_dec D2 0) as [L2|L2]; [rewrite Rle_b_t by exact L2|rewrite Rle_b_f by lra; reflexivity].
      assert (D0 : psi ^ 2 = chi ^ 2) by lra. assert (psi = chi) by (apply Rsqr_inj; unfold Rsqr; lra). subst. field. lra. }
    rewrite !(ED 0 0). clear ED. unfold convert, clV, clR, clZ, clP, clQ, clW, pow_2. cbn [cval cdR cdz pval gRho gNu drhodR drhodz dnudR dnudz].
    subst D2 Rc. clear HZ. assert (XN : chi * c * (chi * c) + psi * s * (psi * s) <> 0) by nra.
    assert (F' : s * s = 1 - c ^ 2) by (rewrite <- F; ring).
    assert (EX : chi * c * (chi * c) + psi * s * (psi * s) = psi ^ 2 - (psi ^ 2 - chi ^ 2) * c ^ 2) by (replace (psi * s * (psi * s)) with (psi ^ 2 * (s * s)) by ring; rewrite F'; ring).
    assert (EM : chi * chi + (psi ^ 2 - chi ^ 2) * (s * s) = psi ^ 2 - (psi ^ 2 - chi ^ 2) * c ^ 2) by (rewrite F'; ring).
    rewrite EX, EM. set (X := psi ^ 2 - (psi ^ 2 - chi ^ 2) * c ^ 2) in *.
    replace (B * B + psi * psi) with (B ^ 2 + psi ^ 2) by ring. replace (B * B + c * c * (psi ^ 2 - chi ^ 2)) with (B ^ 2 + (psi ^ 2 - chi ^ 2) * c ^ 2) by ring.
    set (Y := B ^ 2 + psi ^ 2) in *. set (T := B ^ 2 + (psi ^ 2 - chi ^ 2) * c ^ 2) in *. clearbody X Y T.
    split; [field; lra|]. split.
    + field_simplify; [|lra|lra]. field_simplify_eq; [ring|lra].
    + field_simplify_eq; [|lra]. ring [F].
  - assert (EV : FvOf B D2 c = sqrt (Rabs D2) * atanh (sqrt (Rabs D2) / B * c)) by (unfold FvOf; cbv zeta; rewrite Rle_b_f by lra; reflexivity).
    rewrite !(Rle_b_f 0 D2) by lra. rewrite <- EV. fold V. clearbody V. clear EV. rewrite !(Rle_b_t D2 0) by lra.
    fold U. clearbody U. unfold convert, clV, clR, clZ, clP, clQ, clW, pow_2. cbn [cval cdR cdz pval gRho gNu drhodR drhodz dnudR dnudz].
    subst D2 Rc. clear HZ.
    assert (F' : s * s = 1 - c ^ 2) by (rewrite <- F; ring).
    assert (EX : chi * c * (chi * c) + psi * s * (psi * s) = psi ^ 2 - (psi ^ 2 - chi ^ 2) * c ^ 2) by (replace (psi * s * (psi * s)) with (psi ^ 2 * (s * s)) by ring; rewrite F'; ring).
    assert (EM : psi * psi - (psi ^ 2 - chi ^ 2) * (c * c) = psi ^ 2 - (psi ^ 2 - chi ^ 2) * c ^ 2) by ring.
    rewrite EX, EM. set (X := psi ^ 2 - (psi ^ 2 - chi ^ 2) * c ^ 2) in *.
    replace (B * B + psi * psi) with (B ^ 2 + psi ^ 2) by ring. replace (B * B + c * c * (psi ^ 2 - chi ^ 2)) with (B ^ 2 + (psi ^ 2 - chi ^ 2) * c ^ 2) by ring.
    set (Y := B ^ 2 + psi ^ 2) in *. set (T := B ^ 2 + (psi ^ 2 - chi ^ 2) * c ^ 2) in *. clearbody X Y T.
    split; [field; lra|]. split.
    + field_simplify_eq; [ring|lra].
    + field_simplify_eq; [|lra]. ring [F].
Qed.

(** derivatives of the closed forms along a curve *)
Lemma der_eq (f : R -> R) t a b : is_derive f t a -> a = b -> is_derive f t b.
Proof. intros H <-. exact H. Qed.
Section Curve.
  Variables n B D2 : R.
  Variables x psi c U V : R -> R.
  Variables t x' psi' c' : R.
  Hypothesis Hx : is_derive x t x'.
  Hypothesis Hpsi : is_derive psi t psi'.
  Hypothesis Hc : is_derive c t c'.
  Hypothesis HU : is_derive U t (B / (B ^ 2 + psi t ^ 2) * psi').
  Hypothesis HV : is_derive V t (- D2 * B / (B ^ 2 + D2 * c t ^ 2) * c').
  Hypothesis XP : psi t ^ 2 - D2 * c t ^ 2 <> 0.
  Hypothesis YP : B ^ 2 + psi t ^ 2 <> 0.
  Hypothesis TP : B ^ 2 + D2 * c t ^ 2 <> 0.
  Let P := clP B (psi t) (U t).
  Let Q := clQ B D2 (c t) (V t).
  Let W := clW (psi t) (c t) (U t) (V t).
  Let X := psi t ^ 2 - D2 * c t ^ 2.
  Let X' := 2 * psi t * psi' - 2 * D2 * c t * c'.
  Let P' := 2 * B ^ 3 / (B ^ 2 + psi t ^ 2) ^ 2 * psi'.
  Let Q' := - 2 * B ^ 3 * D2 / (B ^ 2 + D2 * c t ^ 2) ^ 2 * c'.
  Let W' := P * psi' + Q * c'.
  Lemma W_derive : is_derive (fun t => clW (psi t) (c t) (U t) (V t)) t W'.
  Proof.
    pose proof (is_derive_plus _ _ _ _ _ (is_derive_mult _ _ _ _ _ Hpsi HU Rmult_comm) (is_derive_mult _ _ _ _ _ Hc HV Rmult_comm)) as H.
    unfold plus, mult in H. cbn in H. unfold clW. eapply der_eq; [exact H|]. match goal with |- ?a = ?b => change (@eq R a b) end. unfold W', P, Q, clP, clQ. field. split; assumption.
  Qed.
  Lemma P_derive : is_derive (fun t => clP B (psi t) (U t)) t P'.
  Proof.
    unfold clP. auto_derive; [repeat split; try (eexists; eassumption); try (simpl; simpl in YP; exact YP)|].
    rewrite (is_derive_unique (fun y : R => psi y) t psi' Hpsi), (is_derive_unique (fun y : R => U y) t _ HU). unfold P'. field. exact YP.
  Qed.
  Lemma Q_derive : is_derive (fun t => clQ B D2 (c t) (V t)) t Q'.
  Proof.
    unfold clQ. auto_derive; [repeat split; try (eexists; eassumption); try (simpl; simpl in TP; exact TP)|].
    rewrite (is_derive_unique (fun y : R => c y) t c' Hc), (is_derive_unique (fun y : R => V y) t _ HV). unfold Q'. field. exact TP.
  Qed.
  Lemma X_derive : is_derive (fun t => psi t ^ 2 - D2 * c t ^ 2) t X'.
  Proof.
    auto_derive; [repeat split; try (eexists; eassumption)|].
    rewrite (is_derive_unique (fun y : R => psi y) t psi' Hpsi), (is_derive_unique (fun y : R => c y) t c' Hc). unfold X'. ring.
  Qed.
  Let S := psi t ^ 2 + D2 * c t ^ 2.
  Let S' := 2 * psi t * psi' + 2 * D2 * c t * c'.
  Let G := psi t * P - c t * Q.
  Let G' := psi' * P + psi t * P' - c' * Q - c t * Q'.
  Lemma V_derive : is_derive (fun t => clV n D2 (psi t) (c t) (U t) (V t)) t (n * (W' / X - W * X' / X ^ 2)).
  Proof.
    unfold clV. pose proof W_derive as HW. pose proof X_derive as HX. set (W0 := fun t => clW (psi t) (c t) (U t) (V t)) in *. set (X0 := fun t => psi t ^ 2 - D2 * c t ^ 2) in *.
    change (is_derive (fun t => n * W0 t / X0 t) t (n * (W' / X - W * X' / X ^ 2))). change (X0 t <> 0) in XP.
    auto_derive; [repeat split; try (eexists; eassumption); exact XP|].
    rewrite (is_derive_unique (fun y : R => W0 y) t _ HW), (is_derive_unique (fun y : R => X0 y) t _ HX). change X with (X0 t). change W with (W0 t). field. exact XP.
  Qed.
  Lemma R_derive : is_derive (fun t => clR n B D2 (x t) (psi t) (c t) (U t) (V t)) t
    (n * (x' * (G / X ^ 2 - 2 * W * S / X ^ 3) + x t * (G' / X ^ 2 - 2 * G * X' / X ^ 3 - 2 * (W' * S + W * S') / X ^ 3 + 6 * W * S * X' / X ^ 4))).
  Proof.
    unfold clR. pose proof W_derive as HW. pose proof X_derive as HX. pose proof P_derive as HP. pose proof Q_derive as HQ.
    set (W0 := fun t => clW (psi t) (c t) (U t) (V t)) in *. set (X0 := fun t => psi t ^ 2 - D2 * c t ^ 2) in *.
    set (P0 := fun t => clP B (psi t) (U t)) in *. set (Q0 := fun t => clQ B D2 (c t) (V t)) in *. change (X0 t <> 0) in XP.
    change (is_derive (fun t => x t / X0 t * (n * (psi t * P0 t - c t * Q0 t) / X0 t - 2 * (n * W0 t) * (psi t ^ 2 + D2 * c t ^ 2) / X0 t ^ 2)) t
      (n * (x' * (G / X ^ 2 - 2 * W * S / X ^ 3) + x t * (G' / X ^ 2 - 2 * G * X' / X ^ 3 - 2 * (W' * S + W * S') / X ^ 3 + 6 * W * S * X' / X ^ 4)))).
    auto_derive; [repeat split; try (eexists; eassumption); first [exact XP | rewrite Rmult_1_r; apply Rmult_integral_contrapositive_currified; exact XP]|].
    rewrite (is_derive_unique (fun y : R => W0 y) t _ HW), (is_derive_unique (fun y : R => X0 y) t _ HX), (is_derive_unique (fun y : R => P0 y) t _ HP), (is_derive_unique (fun y : R => Q0 y) t _ HQ),
      (is_derive_unique (fun y : R => psi y) t psi' Hpsi), (is_derive_unique (fun y : R => c y) t c' Hc), (is_derive_unique (fun y : R => x y) t x' Hx).
    unfold G', G, S', S. change X with (X0 t). change W with (W0 t). change P with (P0 t). change Q with (Q0 t). field. exact XP.
  Qed.
  Let H := c t * (psi t ^ 2 - D2) * P + psi t * (1 - c t ^ 2) * Q.
  Let H' := c' * (psi t ^ 2 - D2) * P + 2 * c t * psi t * psi' * P + c t * (psi t ^ 2 - D2) * P' + psi' * (1 - c t ^ 2) * Q - 2 * psi t * c t * c' * Q + psi t * (1 - c t ^ 2) * Q'.
  Let K := 2 * c t * psi t * (2 * D2 - D2 * c t ^ 2 - psi t ^ 2).
  Let K' := 2 * (c' * psi t + c t * psi') * (2 * D2 - D2 * c t ^ 2 - psi t ^ 2) - 4 * c t * psi t * (D2 * c t * c' + psi t * psi').
  Lemma Z_derive : is_derive (fun t => clZ n B D2 (psi t) (c t) (U t) (V t)) t
    (n * (H' / X ^ 2 - 2 * H * X' / X ^ 3 + (K' * W + K * W') / X ^ 3 - 3 * K * W * X' / X ^ 4)).
  Proof.
    unfold clZ. pose proof W_derive as HW. pose proof X_derive as HX. pose proof P_derive as HP. pose proof Q_derive as HQ.
    set (W0 := fun t => clW (psi t) (c t) (U t) (V t)) in *. set (X0 := fun t => psi t ^ 2 - D2 * c t ^ 2) in *.
    set (P0 := fun t => clP B (psi t) (U t)) in *. set (Q0 := fun t => clQ B D2 (c t) (V t)) in *. change (X0 t <> 0) in XP.
    change (is_derive (fun t => (c t * (psi t ^ 2 - D2) * (n * P0 t / X0 t - 2 * psi t * (n * W0 t) / X0 t ^ 2) +
      psi t * (1 - c t ^ 2) * (n * Q0 t / X0 t + 2 * D2 * c t * (n * W0 t) / X0 t ^ 2)) / X0 t) t
      (n * (H' / X ^ 2 - 2 * H * X' / X ^ 3 + (K' * W + K * W') / X ^ 3 - 3 * K * W * X' / X ^ 4))).
    auto_derive; [repeat split; try (eexists; eassumption); first [exact XP | rewrite Rmult_1_r; apply Rmult_integral_contrapositive_currified; exact XP]|].
    rewrite (is_derive_unique (fun y : R => W0 y) t _ HW), (is_derive_unique (fun y : R => X0 y) t _ HX), (is_derive_unique (fun y : R => P0 y) t _ HP), (is_derive_unique (fun y : R => Q0 y) t _ HQ),
      (is_derive_unique (fun y : R => psi y) t psi' Hpsi), (is_derive_unique (fun y : R => c y) t c' Hc).
    unfold H', H, K', K. change X with (X0 t). change W with (W0 t). change P with (P0 t). change Q with (Q0 t). field. exact XP.
  Qed.
End Curve.
