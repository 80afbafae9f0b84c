From Coq Require Import Reals Lra Psatz Bool.
From Coquelicot Require Import Coquelicot.
From Verif Require Import RandReal PolyModel PolyProofs CoordModel EllipModel EllipProofs EllipProofs2 EllipProofs3.
Local Open Scope R_scope.

(** ** the angular function and its derivative *)
Lemma Fv_derive B D2 c : 0 < B -> 0 < B ^ 2 + D2 -> c ^ 2 <= 1 -> is_derive (fun y => FvOf B D2 y) c (- D2 * B / (B ^ 2 + D2 * c ^ 2)).
Proof.
  intros HB HA Hc. pose proof (pow2_ge_0 c) as C0. assert (B2 : 0 < B ^ 2) by (apply pow_lt; exact HB).
  pose proof (sqrt_pos (Rabs D2)) as Dp. pose proof (sqrt_sqrt (Rabs D2) (Rabs_pos D2)) as DD.
  destruct (Rle_dec 0 D2) as [L|L].
  - rewrite Rabs_right in DD, Dp by lra. apply (is_derive_ext (fun y => - sqrt D2 * atan (sqrt D2 / B * y))).
    { intros t. unfold FvOf. cbv zeta. rewrite Rle_b_t by exact L. rewrite (Rabs_right D2) by lra. reflexivity. }
    auto_derive; [exact Logic.I|]. set (D := sqrt D2) in *. clearbody D. rewrite <- DD. field. nra.
  - rewrite Rabs_left in DD, Dp by lra. apply (is_derive_ext (fun y => sqrt (- D2) * atanh (sqrt (- D2) / B * y))).
    { intros t. unfold FvOf. cbv zeta. rewrite Rle_b_f by lra. rewrite (Rabs_left D2) by lra. reflexivity. }
    set (D := sqrt (- D2)) in *. clearbody D. assert (E : D2 = - (D * D)) by lra. subst D2.
    assert (DB : D < B) by nra.
    assert (Bnd : -1 < D / B * c < 1).
    { assert (Q : (D * c) ^ 2 < B ^ 2) by nra. replace (D / B * c) with (D * c / B) by (field; lra).
      split; [apply (Rmult_lt_reg_r B); [exact HB|]|apply (Rmult_lt_reg_r B); [exact HB|]]; replace (D * c / B * B) with (D * c) by (field; lra); nra. }
    unfold atanh. auto_derive.
    + split; [apply Rgt_not_eq; lra|]. split; [|exact Logic.I]. apply Rmult_lt_0_compat; [lra|]. apply Rinv_0_lt_compat; lra.
    + assert (Q : (D * c) ^ 2 < B ^ 2) by nra.
      assert (N1 : B + D * c <> 0) by (intros N; nra). assert (N2 : B - D * c <> 0) by (intros N; nra).
      field. repeat split; try lra.
Qed.
Lemma Fu_derive B y : 0 < B -> is_derive (fun y => atan (y / B)) y (B / (B ^ 2 + y ^ 2)).
Proof.
  intros HB. auto_derive; [exact Logic.I|]. field. split; [|nra]. pose proof (pow2_ge_0 y). assert (0 < B ^ 2) by (apply pow_lt; exact HB). lra.
Qed.
Lemma comp_derive (f g : R -> R) t g' f' : is_derive g t g' -> is_derive f (g t) f' -> is_derive (fun t => f (g t)) t (f' * g').
Proof. intros Hg Hf. pose proof (is_derive_comp f g t f' g' Hf Hg) as H. replace (f' * g') with (scal g' f'); [exact H|]. unfold scal. simpl. unfold mult. simpl. ring. Qed.

(** ** the gradient is the derivative of the potential *)
Section Grad.
  Variables mass B D2 Rc z : R.
  Hypothesis HB : 0 < B.
  Hypothesis HA : 0 < B ^ 2 + D2.
  Hypothesis Hreg : regular D2 Rc z.
  Lemma c_bound : cosOf D2 Rc z ^ 2 <= 1.
  Proof. destruct (frame D2 Rc z Hreg) as (P & C & Sp & F & _). pose proof (pow2_ge_0 (sinOf D2 Rc z)). lra. Qed.
  Lemma den_pos : 0 < B ^ 2 + psiOf D2 Rc z ^ 2 /\ 0 < B ^ 2 + D2 * cosOf D2 Rc z ^ 2 /\ 0 < psiOf D2 Rc z ^ 2 - D2 * cosOf D2 Rc z ^ 2.
  Proof.
    pose proof c_bound as c1. pose proof (pow2_ge_0 (cosOf D2 Rc z)) as c0. pose proof (pow_lt B 2 HB). pose proof (pow2_ge_0 (psiOf D2 Rc z)).
    split; [lra|]. split; [destruct (Rle_dec 0 D2); nra|].
    destruct (frame D2 Rc z Hreg) as (_ & _ & _ & _ & E & _ & _ & XP & _). rewrite (XE1 D2 Rc z Hreg) in XP. rewrite <- E in XP. exact XP.
  Qed.
  (** everything needed to differentiate along R or z *)
  Lemma curve_R : let psi := psiOf D2 Rc z in let chi := chiOf D2 Rc z in let c := cosOf D2 Rc z in let s := sinOf D2 Rc z in let X := psi ^ 2 - D2 * c ^ 2 in
    is_derive (fun x => psiOf D2 x z) Rc (Rc * psi / X) /\ is_derive (fun x => cosOf D2 x z) Rc (- c * Rc / X) /\
    is_derive (fun x => atan (psiOf D2 x z / B)) Rc (B / (B ^ 2 + psi ^ 2) * (Rc * psi / X)) /\
    is_derive (fun x => FvOf B D2 (cosOf D2 x z)) Rc (- D2 * B / (B ^ 2 + D2 * c ^ 2) * (- c * Rc / X)).
  Proof.
    intros psi chi c s X. destruct (frame D2 Rc z Hreg) as (P & C & Sp & F & E & HR & HZ & XP & XE).
    pose proof (XE1 D2 Rc z Hreg) as X1. rewrite <- E in X1. fold psi c in X1. fold X in X1.
    assert (A1 : is_derive (fun x => psiOf D2 x z) Rc (Rc * psi / X)).
    { pose proof (psi_dR D2 Rc z Hreg) as H. rewrite X1 in H. change (is_derive (fun x => psiOf D2 x z) Rc (chi * s * psi / X)) in H. fold chi s in HR. rewrite <- HR in H. exact H. }
    assert (A2 : is_derive (fun x => cosOf D2 x z) Rc (- c * Rc / X)).
    { pose proof (cos_dR D2 Rc z Hreg) as H. rewrite X1 in H. change (is_derive (fun x => cosOf D2 x z) Rc (- c * chi * s / X)) in H. fold chi s in HR.
      rewrite (Rmult_assoc (- c) chi s), <- HR in H. exact H. }
    split; [exact A1|]. split; [exact A2|]. split.
    - exact (comp_derive (fun y => atan (y / B)) _ _ _ _ A1 (Fu_derive B psi HB)).
    - exact (comp_derive (fun y => FvOf B D2 y) _ _ _ _ A2 (Fv_derive B D2 c HB HA c_bound)).
  Qed.
  Lemma curve_z : let psi := psiOf D2 Rc z in let c := cosOf D2 Rc z in let X := psi ^ 2 - D2 * c ^ 2 in
    is_derive (fun x => psiOf D2 Rc x) z (c * (psi ^ 2 - D2) / X) /\ is_derive (fun x => cosOf D2 Rc x) z (psi * (1 - c ^ 2) / X) /\
    is_derive (fun x => atan (psiOf D2 Rc x / B)) z (B / (B ^ 2 + psi ^ 2) * (c * (psi ^ 2 - D2) / X)) /\
    is_derive (fun x => FvOf B D2 (cosOf D2 Rc x)) z (- D2 * B / (B ^ 2 + D2 * c ^ 2) * (psi * (1 - c ^ 2) / X)).
  Proof.
    intros psi c X. destruct (frame D2 Rc z Hreg) as (P & C & Sp & F & E & HR & HZ & XP & XE).
    pose proof (XE1 D2 Rc z Hreg) as X1. rewrite <- E in X1. fold psi c in X1. fold X in X1. fold psi c in F, E.
    assert (A1 : is_derive (fun x => psiOf D2 Rc x) z (c * (psi ^ 2 - D2) / X)) by (pose proof (psi_dz D2 Rc z Hreg) as H; rewrite X1 in H; replace (psi ^ 2 - D2) with (chiOf D2 Rc z ^ 2) by lra; exact H).
    assert (A2 : is_derive (fun x => cosOf D2 Rc x) z (psi * (1 - c ^ 2) / X)) by (pose proof (cos_dz D2 Rc z Hreg) as H; rewrite X1 in H; rewrite <- F; exact H).
    split; [exact A1|]. split; [exact A2|]. split.
    - exact (comp_derive (fun y => atan (y / B)) _ _ _ _ A1 (Fu_derive B psi HB)).
    - exact (comp_derive (fun y => FvOf B D2 y) _ _ _ _ A2 (Fv_derive B D2 c HB HA c_bound)).
  Qed.
  Lemma grad_R : is_derive (fun x => cval (codeResult mass B D2 x z)) Rc (cdR (codeResult mass B D2 Rc z)).
  Proof.
    destruct curve_R as (A1 & A2 & A3 & A4). destruct den_pos as (Y & T & X0).
    apply (is_derive_ext_loc (fun x => clV (normOf mass) D2 (psiOf D2 x z) (cosOf D2 x z) (atan (psiOf D2 x z / B)) (FvOf B D2 (cosOf D2 x z)))).
    { apply (filter_imp (fun x => regular D2 x z)); [|apply regular_open_R; exact Hreg]. intros x Hx. symmetry. apply (proj1 (code_grad mass B D2 x z HB HA Hx)). }
    destruct (code_grad mass B D2 Rc z HB HA Hreg) as (_ & E & _). rewrite E.
    eapply der_eq; [apply (V_derive (normOf mass) B D2 (fun x => psiOf D2 x z) (fun x => cosOf D2 x z) (fun x => atan (psiOf D2 x z / B)) (fun x => FvOf B D2 (cosOf D2 x z)) Rc _ _ A1 A2 A3 A4); lra|].
    match goal with |- ?a = ?b => change (@eq R a b) end. cbv beta. unfold clR. set (n := normOf mass). set (psi := psiOf D2 Rc z) in *. set (c := cosOf D2 Rc z) in *.
    set (U := atan (psi / B)). set (V := FvOf B D2 c). set (P := clP B psi U). set (Q := clQ B D2 c V). set (W := clW psi c U V). cbv zeta. field. lra.
  Qed.
  Lemma grad_z : is_derive (fun x => cval (codeResult mass B D2 Rc x)) z (cdz (codeResult mass B D2 Rc z)).
  Proof.
    destruct curve_z as (A1 & A2 & A3 & A4). destruct den_pos as (Y & T & X0).
    apply (is_derive_ext_loc (fun x => clV (normOf mass) D2 (psiOf D2 Rc x) (cosOf D2 Rc x) (atan (psiOf D2 Rc x / B)) (FvOf B D2 (cosOf D2 Rc x)))).
    { apply (filter_imp (fun x => regular D2 Rc x)); [|apply regular_open_z; exact Hreg]. intros x Hx. symmetry. apply (proj1 (code_grad mass B D2 Rc x HB HA Hx)). }
    destruct (code_grad mass B D2 Rc z HB HA Hreg) as (_ & _ & E). rewrite E.
    eapply der_eq; [apply (V_derive (normOf mass) B D2 (fun x => psiOf D2 Rc x) (fun x => cosOf D2 Rc x) (fun x => atan (psiOf D2 Rc x / B)) (fun x => FvOf B D2 (cosOf D2 Rc x)) z _ _ A1 A2 A3 A4); lra|].
    match goal with |- ?a = ?b => change (@eq R a b) end. cbv beta. unfold clZ. set (n := normOf mass). set (psi := psiOf D2 Rc z) in *. set (c := cosOf D2 Rc z) in *.
    set (U := atan (psi / B)). set (V := FvOf B D2 c). set (P := clP B psi U). set (Q := clQ B D2 c V). set (W := clW psi c U V). cbv zeta. field. lra.
  Qed.
End Grad.
