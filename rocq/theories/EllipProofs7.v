From Coq Require Import Reals Lra Psatz Bool.
From Coquelicot Require Import Coquelicot.
From Verif Require Import RandReal PolyModel PolyProofs CoordModel EllipModel EllipProofs EllipProofs2 EllipProofs3 EllipProofs4 EllipProofs5 EllipProofs6.
Local Open Scope R_scope.

(** ** the expansion is the code's gradient and Hessian, and the refutation *)
Section Taylor.
  Variables mass A B : R.
  Hypothesis HA : 0 < A.
  Hypothesis HB : 0 < B.
  Notation evalC := (evalCyl mass A B).
  Definition inFocus (Rc z : R) : Prop := focalDist2 A B Rc z < focalRadius A B ^ 2.
  Lemma in_open_R Rc z : inFocus Rc z -> locally Rc (fun x => inFocus x z).
  Proof. intros H. apply near_lt; [apply dist_cont_R|exact H]. Qed.
  Lemma in_open_z Rc z : inFocus Rc z -> locally z (fun x => inFocus Rc x).
  Proof. intros H. apply near_lt; [apply dist_cont_z|exact H]. Qed.
  Lemma shift_derive (f : R -> R) a x l : is_derive f (x - a) l -> is_derive (fun y => f (y - a)) x l.
  Proof. intros H. replace l with (l * 1) by ring. apply (comp_derive f (fun y => y - a)); [auto_derive; [exact Logic.I|ring]|exact H]. Qed.
  Lemma shiftabs_derive (f : R -> R) a x l : x <> 0 -> is_derive f (Rabs x - a) l -> is_derive (fun y => f (Rabs y - a)) x (l * (if Rle_dec 0 x then 1 else -1)).
  Proof.
    intros N H. apply (comp_derive (fun y => f (y - a)) Rabs); [apply Rabs_derive; exact N|apply shift_derive; exact H].
  Qed.
  Lemma D0_iff : Rle_b (sqrt (Rabs (dD2 A B))) 0 = true <-> A = B.
  Proof.
    split.
    - intros H. destruct (Req_dec A B) as [E|E]; [exact E|exfalso]. assert (N : 0 < Rabs (dD2 A B)) by (apply Rabs_pos_lt; unfold dD2, pow_2; nra).
      apply sqrt_lt_R0 in N. rewrite Rle_b_f in H by lra. discriminate.
    - intros ->. replace (dD2 B B) with 0 by (unfold dD2, pow_2; ring). rewrite Rabs_R0, sqrt_0. apply Rle_b_t. lra.
  Qed.
  (** the flat direction: A <= B *)
  Lemma form_le Rc z : A <= B -> inFocus Rc z -> let D := sqrt (Rabs (dD2 A B)) in let sg := if Rle_b D 0 || Rle_b 0 z then 1 else -1 in
    evalC Rc z = mkCyl (tval mass A B (Rc - D) z) (tp mass A B (Rc - D) z * sg) (tq mass A B (Rc - D) z) (tpp mass A B (Rc - D) z) (tqq mass A B (Rc - D) z) (tpq mass A B (Rc - D) z * sg).
  Proof. intros L H D sg. rewrite (eval_in mass A B HA HB Rc z H). rewrite (taylor_form mass A B Rc z), (Rle_b_t (dD2 A B) 0) by (apply D2_le; assumption). reflexivity. Qed.
  Lemma form_gt Rc z : B < A -> inFocus Rc z -> let D := sqrt (Rabs (dD2 A B)) in let sg := if Rle_dec 0 z then 1 else -1 in
    evalC Rc z = mkCyl (tval mass A B (Rabs z - D) Rc) (tq mass A B (Rabs z - D) Rc) (tp mass A B (Rabs z - D) Rc * sg) (tqq mass A B (Rabs z - D) Rc) (tpp mass A B (Rabs z - D) Rc) (tpq mass A B (Rabs z - D) Rc * sg).
  Proof.
    intros L H D sg. rewrite (eval_in mass A B HA HB Rc z H). rewrite (taylor_form mass A B Rc z), (Rle_b_f (dD2 A B) 0) by (pose proof (D2_gt A B HA HB L); lra). fold D. cbv zeta.
    assert (E : (if Rle_b D 0 || Rle_b 0 z then 1 else -1) = sg).
    { assert (E1 : Rle_b D 0 = false) by (destruct (Rle_b D 0) eqn:Q; [apply D0_iff in Q; lra|reflexivity]). rewrite E1. simpl. unfold sg. destruct (Rle_dec 0 z); [rewrite Rle_b_t by assumption|rewrite Rle_b_f by lra]; reflexivity. }
    rewrite E. reflexivity.
  Qed.
  (** where the sign of the code is right *)
  Definition signOk (z : R) : Prop := if Rle_dec A B then A = B \/ 0 < z else z <> 0.
  Lemma signOk_open z : signOk z -> locally z (fun x => signOk x).
  Proof.
    unfold signOk. destruct (Rle_dec A B) as [L|L]; intros H.
    - destruct H as [H|H]; [apply filter_forall; intros; left; exact H|]. apply (filter_imp (fun x => 0 < x)); [intros x Hx; right; exact Hx|apply (open_gt 0); exact H].
    - destruct (Rlt_dec 0 z) as [G|G]; [apply (filter_imp (fun x => 0 < x)); [intros x Hx; lra|apply (open_gt 0); exact G]|].
      apply (filter_imp (fun x => x < 0)); [intros x Hx; lra|apply (open_lt 0); lra].
  Qed.
  Lemma sg_one z : A <= B -> signOk z -> (if Rle_b (sqrt (Rabs (dD2 A B))) 0 || Rle_b 0 z then 1 else -1) = 1.
  Proof.
    intros L H. unfold signOk in H. destruct (Rle_dec A B); [|lra]. destruct H as [H|H].
    - apply D0_iff in H. rewrite H. reflexivity.
    - rewrite (Rle_b_t 0 z) by lra. rewrite orb_true_r. reflexivity.
  Qed.
  Theorem taylor_derivs Rc z : inFocus Rc z -> signOk z ->
    is_derive (fun x => cval (evalC x z)) Rc (cdR (evalC Rc z)) /\ is_derive (fun x => cval (evalC Rc x)) z (cdz (evalC Rc z)) /\
    is_derive (fun x => cdR (evalC x z)) Rc (cdR2 (evalC Rc z)) /\ is_derive (fun x => cdR (evalC Rc x)) z (cdRdz (evalC Rc z)) /\
    is_derive (fun x => cdz (evalC Rc x)) z (cdz2 (evalC Rc z)).
  Proof.
    intros H Hs. pose proof (in_open_R Rc z H) as LR. pose proof (in_open_z Rc z H) as LZ. pose proof (signOk_open z Hs) as LS. pose proof (filter_and _ _ LZ LS) as LZS.
    set (D := sqrt (Rabs (dD2 A B))). destruct (Rle_dec A B) as [L|L].
    - rewrite (form_le Rc z L H). cbv zeta. rewrite (sg_one z L Hs). fold D. cbn [cval cdR cdz cdR2 cdz2 cdRdz]. rewrite !Rmult_1_r.
      split; [|split; [|split; [|split]]].
      + apply (is_derive_ext_loc (fun x => tval mass A B (x - D) z)); [apply (filter_imp (fun x => inFocus x z)); [|exact LR]; intros x Hx; rewrite (form_le x z L Hx); reflexivity|].
        apply (shift_derive (fun p => tval mass A B p z)), tval_p.
      + apply (is_derive_ext_loc (fun x => tval mass A B (Rc - D) x)); [apply (filter_imp (fun x => inFocus Rc x)); [|exact LZ]; intros x Hx; rewrite (form_le Rc x L Hx); reflexivity|]. apply tval_q.
      + apply (is_derive_ext_loc (fun x => tp mass A B (x - D) z)).
        { apply (filter_imp (fun x => inFocus x z)); [|exact LR]. intros x Hx. rewrite (form_le x z L Hx). cbn [cdR]. cbv zeta. rewrite (sg_one z L Hs), Rmult_1_r. reflexivity. }
        apply (shift_derive (fun p => tp mass A B p z)), tp_p.
      + apply (is_derive_ext_loc (fun x => tp mass A B (Rc - D) x)).
        { apply (filter_imp (fun x => inFocus Rc x /\ signOk x)); [|exact LZS]. intros x [Hx Sx]. rewrite (form_le Rc x L Hx). cbn [cdR]. cbv zeta. rewrite (sg_one x L Sx), Rmult_1_r. reflexivity. }
        apply tp_q.
      + apply (is_derive_ext_loc (fun x => tq mass A B (Rc - D) x)); [apply (filter_imp (fun x => inFocus Rc x)); [|exact LZ]; intros x Hx; rewrite (form_le Rc x L Hx); reflexivity|]. apply tq_q.
    - assert (G : B < A) by lra. assert (Nz : z <> 0) by (unfold signOk in Hs; destruct (Rle_dec A B); [contradiction|exact Hs]).
      rewrite (form_gt Rc z G H). cbv zeta. fold D. cbn [cval cdR cdz cdR2 cdz2 cdRdz].
      split; [|split; [|split; [|split]]].
      + apply (is_derive_ext_loc (fun x => tval mass A B (Rabs z - D) x)); [apply (filter_imp (fun x => inFocus x z)); [|exact LR]; intros x Hx; rewrite (form_gt x z G Hx); reflexivity|]. apply tval_q.
      + apply (is_derive_ext_loc (fun x => tval mass A B (Rabs x - D) Rc)); [apply (filter_imp (fun x => inFocus Rc x)); [|exact LZ]; intros x Hx; rewrite (form_gt Rc x G Hx); reflexivity|].
        apply (shiftabs_derive (fun p => tval mass A B p Rc)); [exact Nz|apply tval_p].
      + apply (is_derive_ext_loc (fun x => tq mass A B (Rabs z - D) x)); [apply (filter_imp (fun x => inFocus x z)); [|exact LR]; intros x Hx; rewrite (form_gt x z G Hx); reflexivity|]. apply tq_q.
      + apply (is_derive_ext_loc (fun x => tq mass A B (Rabs x - D) Rc)); [apply (filter_imp (fun x => inFocus Rc x)); [|exact LZ]; intros x Hx; rewrite (form_gt Rc x G Hx); reflexivity|].
        apply (shiftabs_derive (fun p => tq mass A B p Rc)); [exact Nz|apply tq_p].
      + set (sg := if Rle_dec 0 z then 1 else -1).
        assert (LG : locally z (fun x => (if Rle_dec 0 x then 1 else -1) = sg)).
        { unfold sg. destruct (Rle_dec 0 z) as [Q|Q].
          - apply (filter_imp (fun x => 0 < x)); [intros x Hx; destruct (Rle_dec 0 x); lra|apply (open_gt 0); lra].
          - apply (filter_imp (fun x => x < 0)); [intros x Hx; destruct (Rle_dec 0 x); lra|apply (open_lt 0); lra]. }
        apply (is_derive_ext_loc (fun x => tp mass A B (Rabs x - D) Rc * sg)).
        { apply (filter_imp (fun x => inFocus Rc x /\ (if Rle_dec 0 x then 1 else -1) = sg)); [|apply filter_and; [exact LZ|exact LG]]. intros x [Hx Sx]. rewrite (form_gt Rc x G Hx). cbn [cdz]. cbv zeta. fold D. rewrite Sx. reflexivity. }
        assert (S2 : sg * sg = 1) by (unfold sg; destruct (Rle_dec 0 z); ring).
        pose proof (shiftabs_derive (fun p => tp mass A B p Rc) D z (tpp mass A B (Rabs z - D) Rc) Nz (tp_p mass A B (Rabs z - D) Rc)) as Q. fold sg in Q.
        apply (is_derive_scal_l (K := R_AbsRing) (V := R_NormedModule) (fun x => tp mass A B (Rabs x - D) Rc) z _ sg) in Q.
        eapply der_eq; [exact Q|]. unfold scal. simpl. unfold mult. simpl. rewrite Rmult_assoc, S2. ring.
  Qed.

  (** the sign error for prolate models *)
  Theorem sign_wrong Rc z : A < B -> inFocus Rc z -> z < 0 -> is_derive (fun x => cval (evalC x z)) Rc (- cdR (evalC Rc z)).
  Proof.
    intros L H Hz. set (D := sqrt (Rabs (dD2 A B))).
    assert (SG : (if Rle_b D 0 || Rle_b 0 z then 1 else -1) = -1).
    { assert (E1 : Rle_b D 0 = false) by (destruct (Rle_b D 0) eqn:Q; [apply D0_iff in Q; lra|reflexivity]). rewrite E1, Rle_b_f by lra. reflexivity. }
    rewrite (form_le Rc z ltac:(lra) H). cbv zeta. fold D. rewrite SG. cbn [cdR].
    replace (- (tp mass A B (Rc - D) z * -1)) with (tp mass A B (Rc - D) z) by ring.
    apply (is_derive_ext_loc (fun x => tval mass A B (x - D) z)); [apply (filter_imp (fun x => inFocus x z)); [|apply in_open_R; exact H]; intros x Hx; rewrite (form_le x z ltac:(lra) Hx); reflexivity|].
    apply (shift_derive (fun p => tval mass A B p z)), tval_p.
  Qed.
  Theorem sign_nonzero z : 0 < mass -> A < B -> - (B / 10000) < z < 0 -> let Rc := sqrt (B ^ 2 - A ^ 2) in inFocus Rc z /\ cdR (evalC Rc z) < 0.
  Proof.
    intros Hm L [z1 z2] Rc. assert (BA : 0 < B ^ 2 - A ^ 2) by nra. assert (Dp : 0 < Rc) by (apply sqrt_lt_R0; exact BA). pose proof (sqrt_sqrt _ (Rlt_le _ _ BA)) as DD. fold Rc in DD.
    assert (H : inFocus Rc z).
    { unfold inFocus, focalDist2, focalRadius. destruct (Rle_dec A B); [|lra]. fold Rc. replace ((Rc - Rc) ^ 2 + z ^ 2) with (z ^ 2) by ring. nra. }
    split; [exact H|]. rewrite (form_le Rc z ltac:(lra) H). cbv zeta. 
    assert (ED : sqrt (Rabs (dD2 A B)) = Rc) by (unfold Rc; f_equal; unfold dD2, pow_2; rewrite Rabs_left by nra; ring).
    rewrite ED. rewrite (Rle_b_f Rc 0), (Rle_b_f 0 z) by lra. simpl orb. cbn [cdR]. unfold tp. cbv zeta. rewrite ED.
    unfold tK1, tK2, tK3, taylorK. cbv zeta. fold (dD2 A B). rewrite Rle_b_t by (apply D2_le; lra). unfold normOf, pow_2.
    assert (PN : 0 < / PI) by (apply Rinv_0_lt_compat, PI_RGT_0).
    set (N := mass * (2 * / PI)). assert (NP : 0 < N) by (unfold N; nra).
    assert (E : forall y : R, -2 / PI * mass * y * -1 = N * y) by (intros y; unfold N, Rdiv; ring). rewrite E. clear E.
    assert (Y : 2 * (- 1 / 3 * (1 / B) / (B * B)) * Rc + 2 * (- 1 / 3 * (1 / B) / (B * B) + 4 * (- 3 / 5 * (- 1 / 3 * (1 / B) / (B * B)) / (B * B)) * Rc ^ 2) * (Rc - Rc) +
       3 * (4 * (- 3 / 5 * (- 1 / 3 * (1 / B) / (B * B)) / (B * B)) * Rc + 8 * (- 5 / 7 * (- 3 / 5 * (- 1 / 3 * (1 / B) / (B * B)) / (B * B)) / (B * B)) * Rc ^ 3) * (Rc - Rc) ^ 2 +
       (4 * (- 3 / 5 * (- 1 / 3 * (1 / B) / (B * B)) / (B * B)) * Rc + 4 * (- 5 / 7 * (- 3 / 5 * (- 1 / 3 * (1 / B) / (B * B)) / (B * B)) / (B * B)) * Rc ^ 3) * z ^ 2
       = Rc / B ^ 7 * (- 2 / 3 * B ^ 4 + 4 / 5 * B ^ 2 * z ^ 2 - 4 / 7 * Rc ^ 2 * z ^ 2)) by (field; lra).
    rewrite Y. assert (Q1 : 0 < Rc / B ^ 7) by (apply Rdiv_lt_0_compat; [exact Dp|apply pow_lt; exact HB]).
    assert (Q2 : z ^ 2 <= B ^ 2) by nra. assert (Q3 : 4 / 5 * B ^ 2 * z ^ 2 <= 1 / 3 * B ^ 4).
    { assert (W : z ^ 2 <= (B / 10000) ^ 2) by nra. replace ((B / 10000) ^ 2) with (B ^ 2 / 100000000) in W by field. pose proof (pow_lt B 2 HB). replace (B ^ 4) with (B ^ 2 * B ^ 2) by ring. nra. }
    assert (Q4 : 0 < B ^ 4) by (apply pow_lt; exact HB). assert (Q5 : 0 <= 4 / 7 * Rc ^ 2 * z ^ 2) by (pose proof (pow2_ge_0 Rc); pose proof (pow2_ge_0 z); nra).
    assert (Q6 : (- 2 / 3 * B ^ 4 + 4 / 5 * B ^ 2 * z ^ 2 - 4 / 7 * Rc ^ 2 * z ^ 2) < 0) by lra. rewrite <- Rmult_assoc. assert (Q7 : 0 < N * (Rc / B ^ 7)) by (apply Rmult_lt_0_compat; assumption).
    set (a := N * (Rc / B ^ 7)) in *. set (b := _ - _) in *. clearbody a b. nra.
  Qed.
End Taylor.
