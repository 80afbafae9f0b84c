From Coq Require Import Reals Lra Psatz Bool.
From Coquelicot Require Import Coquelicot.
From Verif Require Import RandReal PolyModel PolyProofs CoordModel EllipModel EllipProofs.
Local Open Scope R_scope.

Definition XOf D2 Rc z : R := chiOf D2 Rc z ^ 2 * cosOf D2 Rc z ^ 2 + psiOf D2 Rc z ^ 2 * sinOf D2 Rc z ^ 2.
Lemma det_dR D2 Rc z : regular D2 Rc z -> is_derive (fun x => detOf D2 x z) Rc (Rc * sumOf D2 Rc z / detOf D2 Rc z).
Proof.
  intros H. destruct (regular_pos D2 Rc z H) as (P & _ & _). unfold detOf. pose proof (det2 D2 Rc z) as E. unfold detOf in P, E.
  unfold difOf in *. auto_derive.
  - match goal with |- 0 < ?e => replace e with (((Rc ^ 2 + z ^ 2 - D2) / 2) ^ 2 + Rc ^ 2 * D2) by (unfold Rdiv; ring) end. rewrite <- E. apply Rmult_lt_0_compat; exact P.
  - match goal with |- context [sqrt ?e] => replace e with (((Rc ^ 2 + z ^ 2 - D2) / 2) ^ 2 + Rc ^ 2 * D2) by (unfold Rdiv; ring) end.
    unfold sumOf. field. lra.
Qed.
Lemma det_dz D2 Rc z : regular D2 Rc z -> is_derive (fun x => detOf D2 Rc x) z (z * difOf D2 Rc z / detOf D2 Rc z).
Proof.
  intros H. destruct (regular_pos D2 Rc z H) as (P & _ & _). unfold detOf. pose proof (det2 D2 Rc z) as E. unfold detOf in P, E.
  unfold difOf in *. auto_derive.
  - match goal with |- 0 < ?e => replace e with (((Rc ^ 2 + z ^ 2 - D2) / 2) ^ 2 + Rc ^ 2 * D2) by (unfold Rdiv; ring) end. rewrite <- E. apply Rmult_lt_0_compat; exact P.
  - match goal with |- context [sqrt ?e] => replace e with (((Rc ^ 2 + z ^ 2 - D2) / 2) ^ 2 + Rc ^ 2 * D2) by (unfold Rdiv; ring) end.
    field. lra.
Qed.
Lemma sqrt_derive (f : R -> R) x l : is_derive f x l -> 0 < f x -> is_derive (fun t => sqrt (f t)) x (l / (2 * sqrt (f x))).
Proof.
  exact (is_derive_sqrt f x l).
Qed.
Lemma sum_dR D2 Rc z : is_derive (fun x => sumOf D2 x z) Rc Rc.
Proof. unfold sumOf. auto_derive; [exact Logic.I|field]. Qed.
Lemma sum_dz D2 Rc z : is_derive (fun x => sumOf D2 Rc x) z z.
Proof. unfold sumOf. auto_derive; [exact Logic.I|field]. Qed.
Lemma dif_dR D2 Rc z : is_derive (fun x => difOf D2 x z) Rc Rc.
Proof. unfold difOf. auto_derive; [exact Logic.I|field]. Qed.
Lemma dif_dz D2 Rc z : is_derive (fun x => difOf D2 Rc x) z z.
Proof. unfold difOf. auto_derive; [exact Logic.I|field]. Qed.

(** derivatives of the four quantities, expressed through themselves *)
Ltac nz := repeat split; first [assumption | apply Rgt_not_eq; assumption].
Section Frame.
  Variables D2 Rc z : R.
  Hypothesis Hreg : regular D2 Rc z.
  Let psi := psiOf D2 Rc z.
  Let chi := chiOf D2 Rc z.
  Let c := cosOf D2 Rc z.
  Let s := sinOf D2 Rc z.
  Let X := XOf D2 Rc z.
  Lemma frame : 0 < psi /\ 0 < chi /\ 0 < s /\ s ^ 2 = 1 - c ^ 2 /\ D2 = psi ^ 2 - chi ^ 2 /\ Rc = chi * s /\ z = psi * c /\ 0 < X /\ X = 2 * detOf D2 Rc z.
  Proof.
    destruct (geometry D2 Rc z Hreg) as (A1 & A2 & A3 & A4 & A5 & A6 & A7 & A8). destruct (regular_pos D2 Rc z Hreg) as (B & _ & _).
    unfold X, XOf. rewrite A8. repeat (split; [assumption|]). split; [lra|reflexivity].
  Qed.
  Lemma psi_dR : is_derive (fun x => psiOf D2 x z) Rc (chi * s * psi / X).
  Proof.
    destruct frame as (P & C & Sp & F & E & HR & HZ & XP & XE). destruct (psi2 D2 Rc z Hreg) as [_ P2]. fold psi in P2.
    pose proof (is_derive_plus _ _ _ _ _ (det_dR D2 Rc z Hreg) (sum_dR D2 Rc z)) as H.
    apply (sqrt_derive (fun x => detOf D2 x z + sumOf D2 x z)) in H; [|rewrite <- P2; apply Rmult_lt_0_compat; exact P].
    eapply is_derive_ext_loc; [apply filter_forall; intros t; reflexivity|]. unfold plus in H. cbn in H. fold (psiOf D2 Rc z) in H. fold psi in H.
    replace (chi * s * psi / X) with ((Rc * sumOf D2 Rc z / detOf D2 Rc z + Rc) / (2 * psi)); [exact H|]. rewrite <- HR, XE.
    assert (Dp : 0 < detOf D2 Rc z) by apply (regular_pos D2 Rc z Hreg). set (d := detOf D2 Rc z) in *. replace (sumOf D2 Rc z) with (psi * psi - d) by (rewrite P2; ring). field. nz.
  Qed.
  Lemma psi_dz : is_derive (fun x => psiOf D2 Rc x) z (c * chi ^ 2 / X).
  Proof.
    destruct frame as (P & C & Sp & F & E & HR & HZ & XP & XE). destruct (psi2 D2 Rc z Hreg) as [_ P2]. destruct (chi2 D2 Rc z Hreg) as [_ C2]. fold psi in P2. fold chi in C2.
    pose proof (is_derive_plus _ _ _ _ _ (det_dz D2 Rc z Hreg) (sum_dz D2 Rc z)) as H.
    apply (sqrt_derive (fun x => detOf D2 Rc x + sumOf D2 Rc x)) in H; [|rewrite <- P2; apply Rmult_lt_0_compat; exact P].
    unfold plus in H. cbn in H. fold (psiOf D2 Rc z) in H. fold psi in H.
    replace (c * chi ^ 2 / X) with ((z * difOf D2 Rc z / detOf D2 Rc z + z) / (2 * psi)); [exact H|]. rewrite XE.
    assert (Dp : 0 < detOf D2 Rc z) by apply (regular_pos D2 Rc z Hreg). set (d := detOf D2 Rc z) in *. replace (difOf D2 Rc z) with (chi * chi - d) by (rewrite C2; ring). rewrite HZ. field. nz.
  Qed.
  Lemma chi_dR : is_derive (fun x => chiOf D2 x z) Rc (s * psi ^ 2 / X).
  Proof.
    destruct frame as (P & C & Sp & F & E & HR & HZ & XP & XE). destruct (psi2 D2 Rc z Hreg) as [_ P2]. destruct (chi2 D2 Rc z Hreg) as [_ C2]. fold psi in P2. fold chi in C2.
    pose proof (is_derive_plus _ _ _ _ _ (det_dR D2 Rc z Hreg) (dif_dR D2 Rc z)) as H.
    apply (sqrt_derive (fun x => detOf D2 x z + difOf D2 x z)) in H; [|rewrite <- C2; apply Rmult_lt_0_compat; exact C].
    unfold plus in H. cbn in H. fold (chiOf D2 Rc z) in H. fold chi in H.
    replace (s * psi ^ 2 / X) with ((Rc * sumOf D2 Rc z / detOf D2 Rc z + Rc) / (2 * chi)); [exact H|]. rewrite XE.
    assert (Dp : 0 < detOf D2 Rc z) by apply (regular_pos D2 Rc z Hreg). set (d := detOf D2 Rc z) in *. replace (sumOf D2 Rc z) with (psi * psi - d) by (rewrite P2; ring). rewrite HR. field. nz.
  Qed.
  Lemma chi_dz : is_derive (fun x => chiOf D2 Rc x) z (psi * c * chi / X).
  Proof.
    destruct frame as (P & C & Sp & F & E & HR & HZ & XP & XE). destruct (chi2 D2 Rc z Hreg) as [_ C2]. fold chi in C2.
    pose proof (is_derive_plus _ _ _ _ _ (det_dz D2 Rc z Hreg) (dif_dz D2 Rc z)) as H.
    apply (sqrt_derive (fun x => detOf D2 Rc x + difOf D2 Rc x)) in H; [|rewrite <- C2; apply Rmult_lt_0_compat; exact C].
    unfold plus in H. cbn in H. fold (chiOf D2 Rc z) in H. fold chi in H.
    replace (psi * c * chi / X) with ((z * difOf D2 Rc z / detOf D2 Rc z + z) / (2 * chi)); [exact H|]. rewrite XE.
    assert (Dp : 0 < detOf D2 Rc z) by apply (regular_pos D2 Rc z Hreg). set (d := detOf D2 Rc z) in *. replace (difOf D2 Rc z) with (chi * chi - d) by (rewrite C2; ring). rewrite HZ. field. nz.
  Qed.
  Lemma XE1 : X = psi ^ 2 - (psi ^ 2 - chi ^ 2) * c ^ 2.
  Proof. destruct frame as (P & C & Sp & F & E & HR & HZ & XP & XE). unfold X, XOf. fold chi psi c s. rewrite F. ring. Qed.
  Lemma cos_dR : is_derive (fun x => cosOf D2 x z) Rc (- c * chi * s / X).
  Proof.
    destruct frame as (P & C & Sp & F & E & HR & HZ & XP & XE). unfold cosOf. pose proof psi_dR as H.
    pose proof (is_derive_div (fun _ => z) (fun x => psiOf D2 x z) Rc 0 _ (is_derive_const z Rc) H) as Q. fold psi in Q. specialize (Q ltac:(nz)).
    replace (- c * chi * s / X) with ((0 * psi - z * (chi * s * psi / X)) / psi ^ 2); [exact Q|]. rewrite HZ. field. nz.
  Qed.
  Lemma cos_dz : is_derive (fun x => cosOf D2 Rc x) z (psi * s ^ 2 / X).
  Proof.
    destruct frame as (P & C & Sp & F & E & HR & HZ & XP & XE). unfold cosOf. pose proof psi_dz as H.
    pose proof (is_derive_div (fun x => x) (fun x => psiOf D2 Rc x) z 1 _ (is_derive_id z) H) as Q. fold psi in Q. specialize (Q ltac:(nz)).
    replace (psi * s ^ 2 / X) with ((1 * psi - z * (c * chi ^ 2 / X)) / psi ^ 2); [exact Q|]. rewrite HZ.
    transitivity ((X - c ^ 2 * chi ^ 2) / (psi * X)); [field; nz|]. rewrite XE1 at 1. rewrite F. field. nz.
  Qed.
  Lemma sin_dR : is_derive (fun x => sinOf D2 x z) Rc (chi * c ^ 2 / X).
  Proof.
    destruct frame as (P & C & Sp & F & E & HR & HZ & XP & XE). unfold sinOf. pose proof chi_dR as H.
    pose proof (is_derive_div (fun x => x) (fun x => chiOf D2 x z) Rc 1 _ (is_derive_id Rc) H) as Q. fold chi in Q. specialize (Q ltac:(nz)).
    replace (chi * c ^ 2 / X) with ((1 * chi - Rc * (s * psi ^ 2 / X)) / chi ^ 2); [exact Q|]. rewrite HR.
    transitivity ((X - s ^ 2 * psi ^ 2) / (chi * X)); [field; nz|]. rewrite XE1 at 1. rewrite F. field. nz.
  Qed.
  Lemma sin_dz : is_derive (fun x => sinOf D2 Rc x) z (- s * psi * c / X).
  Proof.
    destruct frame as (P & C & Sp & F & E & HR & HZ & XP & XE). unfold sinOf. pose proof chi_dz as H.
    pose proof (is_derive_div (fun _ => Rc) (fun x => chiOf D2 Rc x) z 0 _ (is_derive_const Rc z) H) as Q. fold chi in Q. specialize (Q ltac:(nz)).
    replace (- s * psi * c / X) with ((0 * chi - Rc * (psi * c * chi / X)) / chi ^ 2); [exact Q|]. rewrite HR. field. nz.
  Qed.
End Frame.
(** the regular points form an open set *)
Lemma regular_open_R D2 Rc z : regular D2 Rc z -> locally Rc (fun x => regular D2 x z).
Proof.
  intros [H1 H2]. assert (L1 : locally Rc (fun x => 0 < x)) by (apply open_gt; exact H1). destruct H2 as [H2|H2].
  - generalize L1. apply filter_imp. intros x Hx. split; [exact Hx|left; exact H2].
  - assert (L2 : locally Rc (fun x => 0 < x ^ 2 + D2)).
    { pose proof (ex_derive_continuous (fun x : R => x ^ 2 + D2) Rc) as Q. specialize (Q ltac:(auto_derive; exact Logic.I)). apply Q. apply open_gt. exact H2. }
    generalize (filter_and _ _ L1 L2). apply filter_imp. intros x [Hx Hx2]. split; [exact Hx|right; exact Hx2].
Qed.
Lemma regular_open_z D2 Rc z : regular D2 Rc z -> locally z (fun x => regular D2 Rc x).
Proof.
  intros [H1 H2]. destruct H2 as [H2|H2].
  - assert (L : locally z (fun x => x <> 0)) by (apply open_neq; exact H2). generalize L. apply filter_imp. intros x Hx. split; [exact H1|left; exact Hx].
  - apply filter_forall. intros x. split; [exact H1|right; exact H2].
Qed.
