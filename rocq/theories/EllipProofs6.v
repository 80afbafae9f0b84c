From Coq Require Import Reals Lra Psatz Bool.
From Coquelicot Require Import Coquelicot.
From Verif Require Import RandReal PolyModel PolyProofs CoordModel EllipModel EllipProofs EllipProofs2 EllipProofs3 EllipProofs4 EllipProofs5.
Local Open Scope R_scope.

(** squared distance to the focal points (two points on the z axis when A > B, a ring in the equatorial plane when A <= B) *)
Definition focalDist2 (A B Rc z : R) : R :=
  if Rle_dec A B then (Rc - sqrt (B ^ 2 - A ^ 2)) ^ 2 + z ^ 2 else Rc ^ 2 + (Rabs z - sqrt (A ^ 2 - B ^ 2)) ^ 2.
Definition focalRadius (A B : R) : R := if Rle_dec A B then B / 10000 else A * 6 / 10000.

Definition dD2 (A B : R) : R := pow_2 A - pow_2 B.
Section Params.
  Variables mass A B : R.
  Hypothesis HA : 0 < A.
  Hypothesis HB : 0 < B.
  Lemma D2_le : A <= B -> (dD2 A B) <= 0. Proof. unfold dD2, pow_2. nra. Qed.
  Lemma D2_gt : B < A -> 0 < (dD2 A B). Proof. unfold dD2, pow_2. nra. Qed.
  Lemma focal_iff Rc z : focal A B Rc z = Rlt_b (focalDist2 A B Rc z) (focalRadius A B ^ 2).
  Proof.
    unfold focal, focalDist2, focalRadius. cbv zeta. fold (dD2 A B). destruct (Rle_dec A B) as [L|L].
    - pose proof (D2_le L). rewrite !(Rle_b_t (dD2 A B) 0) by assumption. rewrite (Rmax_right A B) by exact L. rewrite (Rabs_left1 (dD2 A B)) by assumption.
      replace (- (dD2 A B)) with (B ^ 2 - A ^ 2) by (unfold dD2, pow_2; ring). unfold pow_2. f_equal; [ring|field].
    - pose proof (D2_gt ltac:(lra)). rewrite !(Rle_b_f (dD2 A B) 0) by lra. rewrite (Rmax_left A B) by lra. rewrite (Rabs_right (dD2 A B)) by lra.
      replace (dD2 A B) with (A ^ 2 - B ^ 2) by (unfold dD2, pow_2; ring). unfold pow_2. f_equal; [ring|field].
  Qed.
  Lemma eval_out Rc z : focalRadius A B ^ 2 <= focalDist2 A B Rc z -> evalCyl mass A B Rc z = codeResult mass B (dD2 A B) Rc z.
  Proof. intros H. unfold evalCyl. rewrite focal_iff, Rlt_b_f by lra. reflexivity. Qed.
  Lemma eval_in Rc z : focalDist2 A B Rc z < focalRadius A B ^ 2 -> evalCyl mass A B Rc z = taylor mass A B Rc z.
  Proof. intros H. unfold evalCyl. rewrite focal_iff, Rlt_b_t by lra. reflexivity. Qed.
  Lemma dist_cont_R Rc z : continuous (fun x => focalDist2 A B x z) Rc.
  Proof. unfold focalDist2. destruct (Rle_dec A B); apply (ex_derive_continuous (V := R_NormedModule)); auto_derive; exact Logic.I. Qed.
  Lemma dist_cont_z Rc z : continuous (fun x => focalDist2 A B Rc x) z.
  Proof.
    unfold focalDist2. destruct (Rle_dec A B).
    - apply (ex_derive_continuous (V := R_NormedModule)); auto_derive; exact Logic.I.
    - apply (continuous_comp Rabs (fun y => Rc ^ 2 + (y - sqrt (A ^ 2 - B ^ 2)) ^ 2)); [apply continuous_Rabs|].
      apply (ex_derive_continuous (V := R_NormedModule)); auto_derive; exact Logic.I.
  Qed.
  Lemma near_gt (f : R -> R) x r : continuous f x -> r < f x -> locally x (fun y => r < f y).
  Proof. intros C H. apply (C (fun v => r < v)). apply open_gt. exact H. Qed.
  Lemma near_lt (f : R -> R) x r : continuous f x -> f x < r -> locally x (fun y => f y < r).
  Proof. intros C H. apply (C (fun v => v < r)). apply open_lt. exact H. Qed.
  Lemma D2e : B ^ 2 + (dD2 A B) = A ^ 2. Proof. unfold dD2, pow_2. ring. Qed.
  Lemma Dpos : 0 < B ^ 2 + (dD2 A B). Proof. rewrite D2e. apply pow_lt. exact HA. Qed.
  (** off the axis and off the focal disc *)
  Definition regularPt (Rc z : R) : Prop := 0 < Rc /\ (z <> 0 \/ B ^ 2 < Rc ^ 2 + A ^ 2).
  Lemma regularPt_iff Rc z : regularPt Rc z -> regular (dD2 A B) Rc z.
  Proof. intros [H1 H2]. split; [exact H1|]. destruct H2 as [H2|H2]; [left; exact H2|right; unfold dD2, pow_2; lra]. Qed.

  Theorem eval_grad_R Rc z : regularPt Rc z -> focalRadius A B ^ 2 < focalDist2 A B Rc z -> is_derive (fun x => cval (evalCyl mass A B x z)) Rc (cdR (evalCyl mass A B Rc z)).
  Proof.
    intros H1 H2. rewrite (eval_out Rc z) by lra. apply (is_derive_ext_loc (fun x => cval (codeResult mass B (dD2 A B) x z))).
    { apply (filter_imp (fun x => focalRadius A B ^ 2 < focalDist2 A B x z)); [intros x Hx; rewrite eval_out by lra; reflexivity|]. apply near_gt; [apply dist_cont_R|exact H2]. }
    apply grad_R; [exact HB|exact Dpos|apply regularPt_iff; exact H1].
  Qed.
  Theorem eval_grad_z Rc z : regularPt Rc z -> focalRadius A B ^ 2 < focalDist2 A B Rc z -> is_derive (fun x => cval (evalCyl mass A B Rc x)) z (cdz (evalCyl mass A B Rc z)).
  Proof.
    intros H1 H2. rewrite (eval_out Rc z) by lra. apply (is_derive_ext_loc (fun x => cval (codeResult mass B (dD2 A B) Rc x))).
    { apply (filter_imp (fun x => focalRadius A B ^ 2 < focalDist2 A B Rc x)); [intros x Hx; rewrite eval_out by lra; reflexivity|]. apply near_gt; [apply dist_cont_z|exact H2]. }
    apply grad_z; [exact HB|exact Dpos|apply regularPt_iff; exact H1].
  Qed.
  Theorem eval_hess_RR Rc z : regularPt Rc z -> focalRadius A B ^ 2 < focalDist2 A B Rc z -> is_derive (fun x => cdR (evalCyl mass A B x z)) Rc (cdR2 (evalCyl mass A B Rc z)).
  Proof.
    intros H1 H2. rewrite (eval_out Rc z) by lra. apply (is_derive_ext_loc (fun x => cdR (codeResult mass B (dD2 A B) x z))).
    { apply (filter_imp (fun x => focalRadius A B ^ 2 < focalDist2 A B x z)); [intros x Hx; rewrite eval_out by lra; reflexivity|]. apply near_gt; [apply dist_cont_R|exact H2]. }
    apply hess_RR; [exact HB|exact Dpos|apply regularPt_iff; exact H1].
  Qed.
  Theorem eval_hess_Rz Rc z : regularPt Rc z -> focalRadius A B ^ 2 < focalDist2 A B Rc z -> is_derive (fun x => cdR (evalCyl mass A B Rc x)) z (cdRdz (evalCyl mass A B Rc z)).
  Proof.
    intros H1 H2. rewrite (eval_out Rc z) by lra. apply (is_derive_ext_loc (fun x => cdR (codeResult mass B (dD2 A B) Rc x))).
    { apply (filter_imp (fun x => focalRadius A B ^ 2 < focalDist2 A B Rc x)); [intros x Hx; rewrite eval_out by lra; reflexivity|]. apply near_gt; [apply dist_cont_z|exact H2]. }
    apply hess_Rz; [exact HB|exact Dpos|apply regularPt_iff; exact H1].
  Qed.
  Theorem eval_hess_zz Rc z : regularPt Rc z -> focalRadius A B ^ 2 < focalDist2 A B Rc z -> is_derive (fun x => cdz (evalCyl mass A B Rc x)) z (cdz2 (evalCyl mass A B Rc z)).
  Proof.
    intros H1 H2. rewrite (eval_out Rc z) by lra. apply (is_derive_ext_loc (fun x => cdz (codeResult mass B (dD2 A B) Rc x))).
    { apply (filter_imp (fun x => focalRadius A B ^ 2 < focalDist2 A B Rc x)); [intros x Hx; rewrite eval_out by lra; reflexivity|]. apply near_gt; [apply dist_cont_z|exact H2]. }
    apply hess_zz; [exact HB|exact Dpos|apply regularPt_iff; exact H1].
  Qed.
  Theorem eval_poisson Rc z : regularPt Rc z -> focalRadius A B ^ 2 <= focalDist2 A B Rc z ->
    cdR2 (evalCyl mass A B Rc z) + cdR (evalCyl mass A B Rc z) / Rc + cdz2 (evalCyl mass A B Rc z) = 4 * PI * densityCyl mass A B Rc z.
  Proof.
    intros H1 H2. rewrite (eval_out Rc z) by lra. rewrite (poisson mass B (dD2 A B) Rc z HB Dpos (regularPt_iff Rc z H1)). rewrite D2e, sqrt_pow2 by lra. reflexivity.
  Qed.

  (** *** the expansion near the focal points *)
  Definition tK0 : R := let '(K0, _, _, _) := taylorK A B in K0.
  Definition tK1 : R := let '(_, K1, _, _) := taylorK A B in K1.
  Definition tK2 : R := let '(_, _, K2, _) := taylorK A B in K2.
  Definition tK3 : R := let '(_, _, _, K3) := taylorK A B in K3.
  Definition tval (p q : R) : R :=
    let D := sqrt (Rabs (dD2 A B)) in
    normOf mass * (tK0 + 2 * tK1 * D * p + (tK1 + 4 * tK2 * D ^ 2) * p ^ 2 + (tK1 + tK2 * D ^ 2) * q ^ 2 + (4 * tK2 * D + 8 * tK3 * D ^ 3) * p ^ 3 + (4 * tK2 * D + 4 * tK3 * D ^ 3) * (p * q ^ 2)).
  Definition tp (p q : R) : R :=
    let D := sqrt (Rabs (dD2 A B)) in normOf mass * (2 * tK1 * D + 2 * (tK1 + 4 * tK2 * D ^ 2) * p + 3 * (4 * tK2 * D + 8 * tK3 * D ^ 3) * p ^ 2 + (4 * tK2 * D + 4 * tK3 * D ^ 3) * q ^ 2).
  Definition tq (p q : R) : R :=
    let D := sqrt (Rabs (dD2 A B)) in normOf mass * (2 * (tK1 + tK2 * D ^ 2) * q + 2 * (4 * tK2 * D + 4 * tK3 * D ^ 3) * (p * q)).
  Definition tpp (p q : R) : R :=
    let D := sqrt (Rabs (dD2 A B)) in normOf mass * (2 * (tK1 + 4 * tK2 * D ^ 2) + 6 * (4 * tK2 * D + 8 * tK3 * D ^ 3) * p).
  Definition tqq (p q : R) : R :=
    let D := sqrt (Rabs (dD2 A B)) in normOf mass * (2 * (tK1 + tK2 * D ^ 2) + 2 * (4 * tK2 * D + 4 * tK3 * D ^ 3) * p).
  Definition tpq (p q : R) : R :=
    let D := sqrt (Rabs (dD2 A B)) in normOf mass * (2 * (4 * tK2 * D + 4 * tK3 * D ^ 3) * q).
  Lemma taylor_form Rc z : let D := sqrt (Rabs (dD2 A B)) in
    taylor mass A B Rc z = if Rle_b (dD2 A B) 0 then
      let sg := if Rle_b D 0 || Rle_b 0 z then 1 else -1 in mkCyl (tval (Rc - D) z) (tp (Rc - D) z * sg) (tq (Rc - D) z) (tpp (Rc - D) z) (tqq (Rc - D) z) (tpq (Rc - D) z * sg)
    else
      let sg := if Rle_b D 0 || Rle_b 0 z then 1 else -1 in mkCyl (tval (Rabs z - D) Rc) (tq (Rabs z - D) Rc) (tp (Rabs z - D) Rc * sg) (tqq (Rabs z - D) Rc) (tpp (Rabs z - D) Rc) (tpq (Rabs z - D) Rc * sg).
  Proof.
    intros D. unfold taylor. cbv zeta. fold (dD2 A B). fold D. unfold tval, tp, tq, tpp, tqq, tpq, tK0, tK1, tK2, tK3, normOf. cbv zeta. fold D. destruct (taylorK A B) as [[[k0 k1] k2] k3]. clearbody D.
    destruct (Rle_b (dD2 A B) 0); f_equal; lra.
  Qed.
  (** the expansion in terms of the sum and the product of the displacements of the spheroidal coordinates *)
  Lemma tval_expansion p q : let D := sqrt (Rabs (dD2 A B)) in
    let sum := 2 * D * p + p ^ 2 + q ^ 2 in let prod := - D ^ 2 * q ^ 2 in let s := p ^ 2 + q ^ 2 in
    tval p q = normOf mass * (tK0 + tK1 * sum + tK2 * (sum ^ 2 - prod) + tK3 * (sum ^ 3 - 2 * sum * prod)
      - s * (tK2 * s + tK3 * (12 * D ^ 2 * p ^ 2 + 2 * D ^ 2 * q ^ 2 + 6 * D * p * s + s ^ 2))).
  Proof. intros D sum prod s. unfold tval. cbv zeta. fold D. unfold sum, prod, s. clearbody D. ring. Qed.
  Lemma tval_p p q : is_derive (fun x => tval x q) p (tp p q).
  Proof. unfold tval, tp. cbv zeta. generalize (sqrt (Rabs (dD2 A B))). intros D. auto_derive; [exact Logic.I|]. ring. Qed.
  Lemma tval_q p q : is_derive (fun x => tval p x) q (tq p q).
  Proof. unfold tval, tq. cbv zeta. generalize (sqrt (Rabs (dD2 A B))). intros D. auto_derive; [exact Logic.I|]. ring. Qed.
  Lemma tp_p p q : is_derive (fun x => tp x q) p (tpp p q).
  Proof. unfold tpp, tp. cbv zeta. generalize (sqrt (Rabs (dD2 A B))). intros D. auto_derive; [exact Logic.I|]. ring. Qed.
  Lemma tp_q p q : is_derive (fun x => tp p x) q (tpq p q).
  Proof. unfold tpq, tp. cbv zeta. generalize (sqrt (Rabs (dD2 A B))). intros D. auto_derive; [exact Logic.I|]. ring. Qed.
  Lemma tq_p p q : is_derive (fun x => tq x q) p (tpq p q).
  Proof. unfold tpq, tq. cbv zeta. generalize (sqrt (Rabs (dD2 A B))). intros D. auto_derive; [exact Logic.I|]. ring. Qed.
  Lemma tq_q p q : is_derive (fun x => tq p x) q (tqq p q).
  Proof. unfold tqq, tq. cbv zeta. generalize (sqrt (Rabs (dD2 A B))). intros D. auto_derive; [exact Logic.I|]. ring. Qed.

  Lemma Rabs_derive z : z <> 0 -> is_derive Rabs z (if Rle_dec 0 z then 1 else -1).
  Proof.
    intros N. destruct (Rle_dec 0 z) as [L|L].
    - apply (is_derive_ext_loc (fun x => x)); [|apply (is_derive_id (K := R_AbsRing))].
      apply (filter_imp (fun x => 0 < x)); [intros x Hx; symmetry; apply Rabs_right; lra|]. apply (open_gt 0); lra.
    - apply (is_derive_ext_loc (fun x => - x)); [|auto_derive; [exact Logic.I|ring]].
      apply (filter_imp (fun x => x < 0)); [intros x Hx; symmetry; apply Rabs_left; lra|]. apply (open_lt 0); lra.
  Qed.
End Params.
