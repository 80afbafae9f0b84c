(** Isochrone potential: constants of the orbit, the phase of the motion in the orbital plane. *)
From Coq Require Import Reals Lra Psatz Bool.
From Coquelicot Require Import Coquelicot.
From Verif Require Import RandReal PolyModel PolyProofs CoordModel CoordAtan MathModel MathProofs IsoModel KeplerProofs2.
Local Open Scope R_scope.

Lemma sc1 x : sin x * sin x + cos x * cos x = 1. Proof. pose proof (sin2_cos2 x) as H. unfold Rsqr in H. exact H. Qed.
Lemma half5 : 0.5 = / 2. Proof. lra. Qed.
Lemma sqrt_eq a x : 0 <= x -> a = x * x -> sqrt a = x. Proof. intros Hx ->. apply sqrt_square. exact Hx. Qed.

Section Consts.
  Variables M b Jr L : R.
  Hypothesis HM : 0 < M. Hypothesis Hb : 0 <= b. Hypothesis HJ : 0 <= Jr. Hypothesis HL : 0 < L.
  Definition cL1 := sqrt (L * L + 4 * M * b).
  Definition cJ0 := Jr + 0.5 * (L + cL1).
  Definition cj := M * b / pow_2 cJ0.
  Definition ce := sqrt (Jr * (Jr + L) * (Jr + cL1) * (Jr + L + cL1)) / pow_2 cJ0.
  Lemma Mb : 0 <= M * b. Proof. apply Rmult_le_pos; lra. Qed.
  Lemma L1_sq : cL1 * cL1 = L * L + 4 * M * b. Proof. pose proof Mb. apply sqrt_sqrt. nra. Qed.
  Lemma L1_ge : L <= cL1. Proof. pose proof Mb. rewrite <- (sqrt_square L) by lra. apply sqrt_le_1_alt. nra. Qed.
  Lemma J0_pos : 0 < cJ0. Proof. pose proof L1_ge. unfold cJ0. lra. Qed.
  Lemma J0_Mb : M * b < cJ0 * cJ0.
  Proof.
    pose proof L1_ge as G. pose proof L1_sq as S. pose proof Mb. assert (A : (L + cL1) / 2 <= cJ0) by (unfold cJ0; lra). assert (B : (L + cL1) / 2 * ((L + cL1) / 2) <= cJ0 * cJ0) by (apply Rmult_le_compat; lra). nra.
  Qed.
  Lemma prod_id : Jr * (Jr + L) * (Jr + cL1) * (Jr + L + cL1) = (cJ0 * cJ0 - M * b) * (cJ0 * cJ0 - M * b) - cJ0 * cJ0 * (L * L).
  Proof.
    assert (E : M * b = (cL1 * cL1 - L * L) / 4) by (rewrite L1_sq; field). rewrite E. unfold cJ0. rewrite half5. field.
  Qed.
  Lemma prod_nn : 0 <= Jr * (Jr + L) * (Jr + cL1) * (Jr + L + cL1). Proof. pose proof L1_ge. repeat apply Rmult_le_pos; lra. Qed.
  Lemma j_bnd : 0 <= cj < 1.
  Proof.
    pose proof J0_Mb. pose proof Mb. pose proof J0_pos. unfold cj, pow_2. assert (P : 0 < cJ0 * cJ0) by (apply Rmult_lt_0_compat; assumption).
    split; [apply Rmult_le_pos; [assumption|left; apply Rinv_0_lt_compat; assumption]|]. apply Rmult_lt_reg_r with (cJ0 * cJ0); [exact P|]. unfold Rdiv. rewrite Rmult_assoc, Rinv_l by lra. lra.
  Qed.
  Lemma e_nn : 0 <= ce. Proof. pose proof J0_pos. unfold ce, pow_2. apply Rmult_le_pos; [apply sqrt_pos|left; apply Rinv_0_lt_compat, Rmult_lt_0_compat; assumption]. Qed.
  Lemma e_sq : ce * ce = (1 - cj) * (1 - cj) - (L / cJ0) * (L / cJ0).
  Proof.
    pose proof J0_pos. unfold ce, cj, pow_2. match goal with |- sqrt ?p / ?q * (sqrt ?p / ?q) = _ => replace (sqrt p / q * (sqrt p / q)) with ((sqrt p * sqrt p) / (q * q)) by (field; lra) end.
    rewrite sqrt_sqrt by apply prod_nn. rewrite prod_id. field. lra.
  Qed.
  Lemma l_pos : 0 < L / cJ0. Proof. apply Rdiv_lt_0_compat; [exact HL|apply J0_pos]. Qed.
  Lemma e_lt : ce < 1 - cj.
  Proof. pose proof e_sq. pose proof l_pos. pose proof j_bnd. pose proof e_nn. apply Rnot_le_lt. intros A. assert ((1 - cj) * (1 - cj) <= ce * ce) by (apply Rmult_le_compat; lra). nra. Qed.
  Lemma e_lt1 : ce < 1. Proof. pose proof e_lt. pose proof j_bnd. lra. Qed.
  Lemma e_min : Rmin ce 1 = ce. Proof. apply Rmin_left. pose proof e_lt1. lra. Qed.
  Lemma e_pos : 0 < Jr -> 0 < ce.
  Proof. intros H. pose proof J0_pos. pose proof L1_ge. unfold ce, pow_2. apply Rdiv_lt_0_compat; [apply sqrt_lt_R0; repeat apply Rmult_lt_0_compat; lra|apply Rmult_lt_0_compat; assumption]. Qed.
  Lemma e_sq1 : ce * ce = (1 + cj) * (1 + cj) - (cL1 / cJ0) * (cL1 / cJ0).
  Proof. pose proof J0_pos. rewrite e_sq. replace (cL1 / cJ0 * (cL1 / cJ0)) with ((cL1 * cL1) / (cJ0 * cJ0)) by (field; lra). rewrite L1_sq. unfold cj, pow_2. field. lra. Qed.
  Definition f1 := (1 + ce - cj) * cJ0 / L.
  Definition f2 := (1 + ce + cj) * cJ0 / cL1.
  Lemma f1_pos : 0 < f1. Proof. pose proof J0_pos. pose proof j_bnd. pose proof e_nn. unfold f1. apply Rdiv_lt_0_compat; [apply Rmult_lt_0_compat; lra|exact HL]. Qed.
  Lemma f2_pos : 0 < f2. Proof. pose proof J0_pos. pose proof j_bnd. pose proof e_nn. pose proof L1_ge. unfold f2. apply Rdiv_lt_0_compat; [apply Rmult_lt_0_compat; lra|lra]. Qed.
End Consts.

(** ---- the half-angle function without jumps ---- *)
Definition branch (f eta : R) : R := atan ((f - 1) * sin eta / ((1 + f) + (1 - f) * cos eta)).
Lemma mix_pos g c : 0 < g -> -1 <= c <= 1 -> 0 < (1 + g) + (1 - g) * c.
Proof. intros H C. replace ((1 + g) + (1 - g) * c) with ((1 + c) + g * (1 - c)) by ring. destruct (Rle_lt_dec 0 c); [assert (0 <= g * (1 - c)) by (apply Rmult_le_pos; lra); lra|]. assert (0 < g * (1 - c)) by (apply Rmult_lt_0_compat; lra). lra. Qed.
Lemma D_pos f eta : 0 < f -> 0 < (1 + f) + (1 - f) * cos eta. Proof. intros H. apply mix_pos; [exact H|apply COS_bound]. Qed.
Lemma X_pos f eta : 0 < f -> 0 < (1 + f * f) + (1 - f * f) * cos eta. Proof. intros H. apply mix_pos; [apply Rmult_lt_0_compat; exact H|apply COS_bound]. Qed.
Lemma branch_derive f eta : 0 < f -> is_derive (branch f) eta (f / ((1 + f * f) + (1 - f * f) * cos eta) - / 2).
Proof.
  intros H. pose proof (D_pos f eta H) as D. pose proof (X_pos f eta H) as X. pose proof (sc1 eta) as SC. unfold branch.
  auto_derive; [lra|]. set (s := sin eta) in *. set (c := cos eta) in *. clearbody s c.
  assert (Q : 0 < 1 + Rsqr ((f - 1) * s / (1 + f + (1 - f) * c))) by (pose proof (Rle_0_sqr ((f - 1) * s / (1 + f + (1 - f) * c))); lra).
  assert (EQ : 1 + Rsqr ((f - 1) * s / (1 + f + (1 - f) * c)) = 2 * ((1 + f * f) + (1 - f * f) * c) / ((1 + f + (1 - f) * c) * (1 + f + (1 - f) * c))).
  { unfold Rsqr. replace (2 * ((1 + f * f) + (1 - f * f) * c)) with ((1 + f + (1 - f) * c) * (1 + f + (1 - f) * c) + (f - 1) * (f - 1) * (s * s)) by (replace (s * s) with (1 - c * c) by lra; ring). field. lra. }
  unfold Rsqr in EQ.
  match goal with |- ?lhs = _ => replace lhs with (((f - 1) * c * (1 + f + (1 - f) * c) + (f - 1) * s * ((1 - f) * s)) / ((1 + f + (1 - f) * c) * (1 + f + (1 - f) * c)) * / (1 + (f - 1) * s / (1 + f + (1 - f) * c) * ((f - 1) * s / (1 + f + (1 - f) * c)))) end.
  - rewrite EQ. replace ((f - 1) * c * (1 + f + (1 - f) * c) + (f - 1) * s * ((1 - f) * s)) with ((f - 1) * ((1 + f) * c + (1 - f) * (c * c) + (1 - f) * (s * s))) by ring. replace (s * s) with (1 - c * c) by lra. field. repeat split; lra.
  - unfold Rsqr in Q. field. repeat split; try lra. intros K. apply (Rlt_irrefl 0). rewrite <- K at 2. 
    replace ((1 + f + (1 - f) * c) * (1 + f + (1 - f) * c) + ((f - 1) * s) * ((f - 1) * s)) with ((1 + (f - 1) * s / (1 + f + (1 - f) * c) * ((f - 1) * s / (1 + f + (1 - f) * c))) * ((1 + f + (1 - f) * c) * (1 + f + (1 - f) * c))) by (field; lra).
    apply Rmult_lt_0_compat; [exact Q|apply Rmult_lt_0_compat; exact D].
Qed.

(** the code's expression: atan(f * tan(eta/2)) *)
Definition tanhalf (eta : R) : option R := if Req_b (cos eta) (-1) then None else Some (sin eta / (1 + cos eta)).
Definition centred (eta : R) : R := eta - (if Rlt_b PI eta then 2 * PI else 0).
Lemma cos_m1 eta : 0 <= eta < 2 * PI -> cos eta = -1 -> eta = PI.
Proof.
  intros B H. assert (S : sin eta = 0). { pose proof (sc1 eta) as K. rewrite H in K. nra. }
  destruct (Rtotal_order eta PI) as [A|[A|A]]; [|exact A|].
  - destruct (Req_dec eta 0) as [->|N]; [rewrite cos_0 in H; lra|]. pose proof (sin_gt_0 eta ltac:(lra) ltac:(lra)). lra.
  - pose proof (sin_lt_0 eta ltac:(lra) ltac:(lra)). lra.
Qed.
Lemma half_tan u : cos u <> 0 -> sin (2 * u) / (1 + cos (2 * u)) = tan u.
Proof. intros H. rewrite sin_2a, cos_2a_cos. unfold tan. field. split; [exact H|]. intros K. apply H. nra. Qed.
Lemma atan_branch f u : 0 < f -> - (PI / 2) < u < PI / 2 -> atan (f * tan u) = u + branch f (2 * u).
Proof.
  intros Hf Hu. assert (Cu : 0 < cos u) by (apply cos_gt_0; lra). set (w := atan (f * tan u) - u).
  assert (W : - (PI / 2) < w < PI / 2).
  { unfold w. pose proof (atan_bound (f * tan u)) as B. destruct (Rtotal_order u 0) as [A|[A|A]].
    - assert (tan u < 0) by (rewrite <- tan_0; apply tan_increasing; lra). assert (f * tan u < 0) by nra. assert (atan (f * tan u) < 0) by (rewrite <- atan_0; apply atan_increasing; assumption). lra.
    - subst u. rewrite tan_0, Rmult_0_r, atan_0. lra.
    - assert (0 < tan u) by (rewrite <- tan_0; apply tan_increasing; lra). assert (0 < f * tan u) by nra. assert (0 < atan (f * tan u)) by (rewrite <- atan_0; apply atan_increasing; assumption). lra. }
  assert (Tw : tan w = (f - 1) * sin (2 * u) / ((1 + f) + (1 - f) * cos (2 * u))).
  { assert (CA : 0 < cos (atan (f * tan u))) by (pose proof (atan_bound (f * tan u)); apply cos_gt_0; lra).
    assert (CW : 0 < cos w) by (apply cos_gt_0; lra).
    pose proof (D_pos f (2 * u) Hf) as D. unfold w in *. rewrite tan_minus; [|lra|lra|lra|].
    - rewrite tan_atan. rewrite sin_2a, cos_2a in *. pose proof (sc1 u) as K. unfold tan. 
      replace ((1 + f) + (1 - f) * (cos u * cos u - sin u * sin u)) with (2 * (cos u * cos u + f * (sin u * sin u))) in * by (replace 1 with (sin u * sin u + cos u * cos u) at 1 by lra; replace (cos u * cos u + f * (sin u * sin u)) with (cos u * cos u + f * (sin u * sin u)) by ring; nra).
      field. split; lra.
    - rewrite tan_atan. rewrite <- (Rplus_0_r 1) at 1. intros K.
      assert (N : 0 <= f * tan u * tan u) by (rewrite Rmult_assoc; apply Rmult_le_pos; [lra|apply Rle_0_sqr]). lra. }
  unfold branch. rewrite <- Tw, atan_tan by exact W. unfold w. ring.
Qed.
Lemma half_angle f eta : 0 < f -> 0 <= eta < 2 * PI -> atanMul f (tanhalf eta) = centred eta / 2 + branch f eta.
Proof.
  intros Hf B. unfold tanhalf. destruct (Req_EM_T (cos eta) (-1)) as [C|C].
  - rewrite (Req_b_t _ _ C). cbn [atanMul]. rewrite (cos_m1 eta B C). unfold centred, branch. rewrite Rlt_b_f by lra. rewrite sin_PI. replace ((f - 1) * 0 / (1 + f + (1 - f) * cos PI)) with 0 by (rewrite cos_PI; field; lra). rewrite atan_0. lra.
  - rewrite (Req_b_f _ _ C). cbn [atanMul]. assert (N : eta <> PI) by (intros ->; rewrite cos_PI in C; lra).
    set (u := centred eta / 2). assert (Hu : - (PI / 2) < u < PI / 2). { unfold u, centred. destruct (Rlt_le_dec PI eta); [rewrite Rlt_b_t by assumption; lra|rewrite Rlt_b_f by lra; lra]. }
    assert (S : sin eta = sin (2 * u) /\ cos eta = cos (2 * u)).
    { unfold u, centred. destruct (Rlt_le_dec PI eta); [rewrite Rlt_b_t by assumption|rewrite Rlt_b_f by lra].
      - replace (2 * ((eta - 2 * PI) / 2)) with (eta - 2 * PI * IZR 1) by field. destruct (cos_turns eta 1) as [-> ->]. auto.
      - replace (2 * ((eta - 0) / 2)) with eta by field. auto. }
    destruct S as [S1 C1]. rewrite S1, C1, half_tan by (apply Rgt_not_eq, cos_gt_0; lra). rewrite (atan_branch f u Hf Hu). unfold branch. rewrite S1, C1. reflexivity.
Qed.
