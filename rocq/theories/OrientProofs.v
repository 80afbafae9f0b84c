(** Proofs about rotations *)
From Coq Require Import Reals Lra Psatz Bool.
From Coquelicot Require Import Coquelicot.
From Verif Require Import RandReal RandRealProofs PolyModel PolyProofs RootProofs CoordModel CoordSpec CoordCalc CoordAtan CoordMaps CoordMaps2 CoordProofs CoordVel OrientModel OrientSpec.
Local Open Scope R_scope.

Lemma Orientation_rotation a b c : is_rotation (Orientation a b c).
Proof.
  pose proof (cs1 a) as A. pose proof (cs1 b) as B. pose proof (cs1 c) as C. unfold is_rotation, Orientation, orthonormal_rows, transp, det3, dot. cbv zeta.
  set (ca := cos a) in *; set (sa := sin a) in *; set (cb := cos b) in *; set (sb := sin b) in *; set (cc := cos c) in *; set (sc := sin c) in *.
  repeat split; ring [A B C].
Qed.
Lemma Orientation_elementary a b c v : toRotated (Orientation a b c) v = rotZ c (rotX b (rotZ a v)).
Proof. unfold toRotated, Orientation, rotZ, rotX, v1, v2, v3; cbv zeta; cbn [fst snd]. apply v_eq; ring. Qed.
Lemma rot_cancel_l m v : orthonormal_rows (transp m) -> fromRotated m (toRotated m v) = v.
Proof.
  destruct m as [[[[m0 m1] m2] [[m3 m4] m5]] [[m6 m7] m8]]. destruct v as [[x y] z]. unfold orthonormal_rows, transp, dot. intros (A & B & C & D & E & F).
  unfold fromRotated, toRotated, v1, v2, v3; cbn [fst snd].
  apply v_eq.
  - transitivity ((m0 * m0 + m3 * m3 + m6 * m6) * x + (m0 * m1 + m3 * m4 + m6 * m7) * y + (m0 * m2 + m3 * m5 + m6 * m8) * z); [ring|rewrite A, D, E; ring].
  - transitivity ((m0 * m1 + m3 * m4 + m6 * m7) * x + (m1 * m1 + m4 * m4 + m7 * m7) * y + (m1 * m2 + m4 * m5 + m7 * m8) * z); [ring|rewrite D, B, F; ring].
  - transitivity ((m0 * m2 + m3 * m5 + m6 * m8) * x + (m1 * m2 + m4 * m5 + m7 * m8) * y + (m2 * m2 + m5 * m5 + m8 * m8) * z); [ring|rewrite C, E, F; ring].
Qed.
Lemma transp_invol m : transp (transp m) = m.
Proof. destruct m as [[[[m0 m1] m2] [[m3 m4] m5]] [[m6 m7] m8]]. reflexivity. Qed.
Lemma fromRotated_transp m v : fromRotated m v = toRotated (transp m) v.
Proof. destruct m as [[[[m0 m1] m2] [[m3 m4] m5]] [[m6 m7] m8]]. reflexivity. Qed.
Lemma toRotated_transp m v : toRotated m v = fromRotated (transp m) v.
Proof. destruct m as [[[[m0 m1] m2] [[m3 m4] m5]] [[m6 m7] m8]]. reflexivity. Qed.
Lemma rot_cancel_r m v : orthonormal_rows m -> toRotated m (fromRotated m v) = v.
Proof. intros H. rewrite fromRotated_transp, toRotated_transp. apply rot_cancel_l. rewrite transp_invol. exact H. Qed.
Lemma Orientation_inverse a b c : Orientation (- c) (- b) (- a) = transp (Orientation a b c).
Proof. unfold Orientation, transp. cbv zeta. rewrite !sin_neg, !cos_neg. apply f_equal2; [apply f_equal2; apply v_eq|apply v_eq]; ring. Qed.
Lemma rot_dot m u v : orthonormal_rows (transp m) -> dot (toRotated m u) (toRotated m v) = dot u v.
Proof.
  intros H. transitivity (dot u (fromRotated m (toRotated m v))); [|rewrite rot_cancel_l by exact H; reflexivity].
  destruct m as [[[[m0 m1] m2] [[m3 m4] m5]] [[m6 m7] m8]], u as [[a b] c], v as [[x y] z]. unfold dot, fromRotated, toRotated, v1, v2, v3; cbn [fst snd]. ring.
Qed.
(** a rotation matrix equals its matrix of cofactors *)
Lemma sq3_0 a b c : a * a + b * b + c * c = 0 -> a = 0 /\ b = 0 /\ c = 0.
Proof. intros H. repeat split; nra. Qed.
Lemma cofactor m : orthonormal_rows m -> det3 m = 1 -> let '((m0, m1, m2), (m3, m4, m5), (m6, m7, m8)) := m in
  m0 = m4 * m8 - m5 * m7 /\ m1 = m5 * m6 - m3 * m8 /\ m3 = m7 * m2 - m8 * m1 /\ m4 = m8 * m0 - m6 * m2.
Proof.
  destruct m as [[[[m0 m1] m2] [[m3 m4] m5]] [[m6 m7] m8]]. unfold orthonormal_rows, det3, dot. intros (A & B & C & D & E & F) G.
  assert (P : m0 - (m4 * m8 - m5 * m7) = 0 /\ m1 - (m5 * m6 - m3 * m8) = 0 /\ m2 - (m3 * m7 - m4 * m6) = 0).
  { apply sq3_0. transitivity ((m0 * m0 + m1 * m1 + m2 * m2) - 2 * (m0 * (m4 * m8 - m5 * m7) - m1 * (m3 * m8 - m5 * m6) + m2 * (m3 * m7 - m4 * m6)) + ((m3 * m3 + m4 * m4 + m5 * m5) * (m6 * m6 + m7 * m7 + m8 * m8) - (m3 * m6 + m4 * m7 + m5 * m8) * (m3 * m6 + m4 * m7 + m5 * m8))); [ring|].
    rewrite A, B, C, F. nra. }
  assert (Q : m3 - (m7 * m2 - m8 * m1) = 0 /\ m4 - (m8 * m0 - m6 * m2) = 0 /\ m5 - (m6 * m1 - m7 * m0) = 0).
  { apply sq3_0. transitivity ((m3 * m3 + m4 * m4 + m5 * m5) - 2 * (m0 * (m4 * m8 - m5 * m7) - m1 * (m3 * m8 - m5 * m6) + m2 * (m3 * m7 - m4 * m6)) + ((m0 * m0 + m1 * m1 + m2 * m2) * (m6 * m6 + m7 * m7 + m8 * m8) - (m0 * m6 + m1 * m7 + m2 * m8) * (m0 * m6 + m1 * m7 + m2 * m8))); [ring|].
    rewrite A, B, C, E. nra. }
  repeat split; lra.
Qed.
(** the angles reproduce the matrix *)
Lemma euler_roundtrip m : is_rotation m -> let '(a, b, c) := toEulerAngles m in Orientation a b c = m.
Proof.
  intros (O & OT & DT). pose proof (cofactor m O DT) as CF.
  destruct m as [[[[m0 m1] m2] [[m3 m4] m5]] [[m6 m7] m8]]. destruct CF as (F0 & F1 & F3 & F4).
  unfold orthonormal_rows, transp, dot in *. destruct O as (A1 & A2 & A3 & A4 & A5 & A6), OT as (B1 & B2 & B3 & B4 & B5 & B6).
  assert (SB : pow_2 m2 + pow_2 m5 = 1 - m8 * m8) by (unfold pow_2; lra).
  assert (SB' : pow_2 (- m7) + pow_2 m6 = 1 - m8 * m8) by (unfold pow_2; lra).
  unfold toEulerAngles. cbv zeta.
  assert (PB := atan2_polar (sqrt (pow_2 m2 + pow_2 m5)) m8). cbv zeta in PB. destruct PB as (PB1 & PB2).
  replace (pow_2 m8 + pow_2 (sqrt (pow_2 m2 + pow_2 m5))) with 1 in PB1, PB2 by (unfold pow_2 at 2; rewrite sqrt_sqrt by apply sq2_nn; rewrite SB; unfold pow_2; ring).
  rewrite sqrt_1, Rmult_1_l in PB1, PB2.
  destruct (Req_b m2 0 && Req_b m5 0 && Req_b m6 0 && Req_b m7 0) eqn:DEG.
  - assert (Z : m2 = 0 /\ m5 = 0 /\ m6 = 0 /\ m7 = 0).
    { rewrite !andb_true_iff in DEG. destruct DEG as (((E1 & E2) & E3) & E4). repeat split; match goal with |- ?x = 0 => destruct (Req_EM_T x 0) as [?|N]; [assumption|rewrite (Req_b_f x 0) in * by exact N; discriminate] end. }
    destruct Z as (-> & -> & -> & ->). clear DEG.
    assert (M8 : m8 * m8 = 1) by lra.
    assert (SBs : sqrt (pow_2 0 + pow_2 0) = 0) by (replace (pow_2 0 + pow_2 0) with 0 by (unfold pow_2; ring); apply sqrt_0).
    rewrite SBs in *. unfold Orientation. cbv zeta. rewrite PB1, PB2, sin_0, cos_0.
    destruct (atan2_polar m1 m0) as (C & S). replace (pow_2 m0 + pow_2 m1) with 1 in C, S by (unfold pow_2; lra). rewrite sqrt_1, Rmult_1_l in C, S.
    destruct (Rlt_le_dec 0 m8) as [G|L].
    + assert (m8 = 1) by nra. subst m8. rewrite Rlt_b_t by lra. rewrite Rmult_1_r, C, S. apply f_equal2; [apply f_equal2; apply v_eq|apply v_eq]; lra.
    + assert (m8 = -1) by nra. subst m8. rewrite Rlt_b_f by lra. replace (atan2 m1 m0 * -1) with (- atan2 m1 m0) by ring. rewrite cos_neg, sin_neg, C, S. apply f_equal2; [apply f_equal2; apply v_eq|apply v_eq]; lra.
  - assert (NZ : 0 < 1 - m8 * m8).
    { assert (0 <= 1 - m8 * m8) by (rewrite <- SB; apply sq2_nn). destruct H as [H|H]; [exact H|exfalso].
      unfold pow_2 in *. rewrite <- H in SB, SB'. assert (m2 = 0) by nra. assert (m5 = 0) by nra. assert (m6 = 0) by nra. assert (m7 = 0) by nra. subst. rewrite !(Req_b_t 0) in DEG by reflexivity. discriminate. }
    destruct (atan2_polar m6 (- m7)) as (CA & SA). destruct (atan2_polar m2 m5) as (CC & SC). rewrite (Rplus_comm (pow_2 m5)) in CC, SC. rewrite SB in *. rewrite SB' in *.
    pose proof (sqrt_lt_R0 _ NZ) as WP. pose proof (sqrt_sqrt _ (Rlt_le _ _ NZ)) as W2. set (w := sqrt (1 - m8 * m8)) in *. clearbody w.
    unfold Orientation. cbv zeta. rewrite PB1, PB2.
    set (ca := cos (atan2 m6 (- m7))) in *; set (sa := sin (atan2 m6 (- m7))) in *; set (cc := cos (atan2 m2 m5)) in *; set (sc := sin (atan2 m2 m5)) in *. clearbody ca sa cc sc.
    assert (E6 : m6 = w * sa) by lra. assert (E7 : m7 = - (w * ca)) by lra. assert (E2 : m2 = w * sc) by lra. assert (E5 : m5 = w * cc) by lra. clear CA SA CC SC.
    assert (W2' : m8 * m8 = 1 - w * w) by lra.
    assert (WN : w * w <> 0) by nra.
    apply f_equal2; [apply f_equal2; apply v_eq|apply v_eq]; try lra.
    + assert (K : m0 - (m8 * m0) * m8 = w * w * (ca * cc - sa * m8 * sc)) by (replace (m8 * m0) with (m4 + m6 * m2) by lra; rewrite F0 at 1; rewrite E6, E7, E2, E5; ring).
      apply Rmult_eq_reg_l with (w * w); [|exact WN]. rewrite <- K, W2. ring.
    + assert (K : m1 - (m8 * m1) * m8 = w * w * (sa * cc + ca * m8 * sc)) by (replace (m8 * m1) with (m7 * m2 - m3) by lra; rewrite F1 at 1; rewrite E6, E7, E2, E5; ring).
      apply Rmult_eq_reg_l with (w * w); [|exact WN]. rewrite <- K, W2. ring.
    + assert (K : m3 - (m3 * m8) * m8 = w * w * (- ca * sc - sa * m8 * cc)) by (replace (m3 * m8) with (m5 * m6 - m1) by lra; rewrite F3 at 1; rewrite E6, E7, E2, E5; ring).
      apply Rmult_eq_reg_l with (w * w); [|exact WN]. rewrite <- K, W2. ring.
    + assert (K : m4 - (m4 * m8) * m8 = w * w * (- sa * sc + ca * m8 * cc)) by (replace (m4 * m8) with (m0 + m5 * m7) by lra; rewrite F4 at 1; rewrite E6, E7, E2, E5; ring).
      apply Rmult_eq_reg_l with (w * w); [|exact WN]. rewrite <- K, W2. ring.
Qed.
Lemma euler_range m : let '(a, b, c) := toEulerAngles m in - PI <= a <= PI /\ 0 <= b <= PI /\ - PI <= c <= PI.
Proof.
  destruct m as [[[[m0 m1] m2] [[m3 m4] m5]] [[m6 m7] m8]]. unfold toEulerAngles. cbv zeta. pose proof PI_RGT_0.
  assert (B : 0 <= atan2 (sqrt (pow_2 m2 + pow_2 m5)) m8 <= PI) by (apply atan2_range_y, sqrt_pos).
  destruct (_ && _).
  - split; [lra|split; [exact B|]]. pose proof (atan2_range m1 m0). destruct (Rlt_b 0 m8); lra.
  - pose proof (atan2_range m6 (- m7)). pose proof (atan2_range m2 m5). split; [lra|split; [exact B|lra]].
Qed.
Lemma euler_recover a b c : - PI < a <= PI -> 0 < b < PI -> - PI < c <= PI -> toEulerAngles (Orientation a b c) = (a, b, c).
Proof.
  intros A B C. unfold Orientation, toEulerAngles. cbv zeta. assert (SP : 0 < sin b) by (apply sin_gt_0; lra).
  assert (N : Req_b (sin b * sin c) 0 && Req_b (sin b * cos c) 0 && Req_b (sin a * sin b) 0 && Req_b (- cos a * sin b) 0 = false).
  { pose proof (cs1 c) as CS. destruct (Req_EM_T (sin c) 0) as [E|E].
    - rewrite (Req_b_f (sin b * cos c)); [rewrite andb_false_r; reflexivity|]. intros Q. rewrite E in CS. assert (cos c = 0) by (apply Rmult_eq_reg_l with (sin b); lra). rewrite H in CS. lra.
    - rewrite (Req_b_f (sin b * sin c)); [reflexivity|]. apply Rmult_integral_contrapositive_currified; lra. }
  rewrite N. apply v_eq.
  - replace (- (- cos a * sin b)) with (sin b * cos a) by ring. rewrite (Rmult_comm (sin a)). apply atan2_unique; assumption.
  - rewrite Rplus_comm, sqrt_polar by lra. rewrite <- (Rmult_1_l (sin b)), <- (Rmult_1_l (cos b)). apply atan2_unique; lra.
  - apply atan2_unique; assumption.
Qed.
(** gradients and hessians of a function of the rotated coordinates *)
Lemma lin_grad a b c p : is_grad (fun q => a * v1 q + b * v2 q + c * v3 q) p (a, b, c).
Proof.
  destruct p as [[x y] z]. gcurve. auto_derive; [gside|]. gfin. ring.
Qed.
Lemma lin_hess a b c p : is_hess_with (fun q => a * v1 q + b * v2 q + c * v3 q) (fun _ => (a, b, c)) p h0.
Proof. split; [apply filter_forall; intros q; apply lin_grad|]. split; [|split]; exact (is_grad_const _ _). Qed.
Lemma rot_map2 m p : is_map2 (toRotated m) (fun _ => m) p (h0, h0, h0).
Proof. destruct m as [[[[m0 m1] m2] [[m3 m4] m5]] [[m6 m7] m8]]. unfold toRotated. split; [|split]; apply lin_hess. Qed.
Lemma rot_cont m p : continuous (toRotated m) p.
Proof. destruct m as [[[[m0 m1] m2] [[m3 m4] m5]] [[m6 m7] m8]]. unfold toRotated. apply triple_continuous; cont. Qed.
Lemma hess_toRotated m f p g h : is_hess f (toRotated m p) g h -> is_hess (fun q => f (toRotated m q)) p (fromRotated m g) (fromRotatedH m h).
Proof.
  intros H. generalize (is_hess_comp f (toRotated m) _ p _ g h H (rot_map2 m p) (rot_cont m p)).
  destruct m as [[[[m0 m1] m2] [[m3 m4] m5]] [[m6 m7] m8]]. cbv beta iota zeta. intros K. eapply is_hess_eq; [exact K| |].
  - unfold fromRotated, v1, v2, v3; cbn [fst snd]. apply v_eq; ring.
  - unfold fromRotatedH, h0. apply hess6_eq; cbn [h11 h22 h33 h12 h23 h13]; unfold fromRotated, v1, v2, v3; cbn [fst snd]; ring.
Qed.
Lemma fromRotatedH_transp m h : fromRotatedH m h = toRotatedH (transp m) h.
Proof. destruct m as [[[[m0 m1] m2] [[m3 m4] m5]] [[m6 m7] m8]]. reflexivity. Qed.
Lemma toRotatedH_transp m h : toRotatedH m h = fromRotatedH (transp m) h.
Proof. destruct m as [[[[m0 m1] m2] [[m3 m4] m5]] [[m6 m7] m8]]. reflexivity. Qed.
Lemma fromRotated_fun m : fromRotated m = toRotated (transp m).
Proof. apply FunctionalExtensionality.functional_extensionality. apply fromRotated_transp. Qed.
Lemma hess_fromRotated m f p g h : is_hess f (fromRotated m p) g h -> is_hess (fun q => f (fromRotated m q)) p (toRotated m g) (toRotatedH m h).
Proof. rewrite (toRotatedH_transp m h), (toRotated_transp m g). rewrite (fromRotated_fun m). apply hess_toRotated. Qed.
Lemma outer_toRotated m v : toRotatedH m (outer v) = outer (toRotated m v).
Proof. destruct m as [[[[m0 m1] m2] [[m3 m4] m5]] [[m6 m7] m8]]. unfold toRotatedH, outer. apply hess6_eq; cbn [h11 h22 h33 h12 h23 h13]; unfold toRotated, v1, v2, v3; cbn [fst snd]; ring. Qed.
Lemma outer_fromRotated m v : fromRotatedH m (outer v) = outer (fromRotated m v).
Proof. rewrite fromRotatedH_transp, fromRotated_transp. apply outer_toRotated. Qed.
(** the rotation of moments is linear *)
Lemma toRotatedH_lin m a b h k : toRotatedH m (hlin a b h k) = hlin a b (toRotatedH m h) (toRotatedH m k).
Proof. destruct m as [[[[m0 m1] m2] [[m3 m4] m5]] [[m6 m7] m8]]. unfold toRotatedH, hlin. apply hess6_eq; cbn [h11 h22 h33 h12 h23 h13]; unfold toRotated, v1, v2, v3; cbn [fst snd]; ring. Qed.
Lemma fromRotatedH_lin m a b h k : fromRotatedH m (hlin a b h k) = hlin a b (fromRotatedH m h) (fromRotatedH m k).
Proof. rewrite !fromRotatedH_transp. apply toRotatedH_lin. Qed.
Lemma faceOn_iff a b c : isFaceOn (Orientation a b c) = true <-> sin b = 0.
Proof.
  unfold isFaceOn, Orientation. cbv zeta. pose proof (cs1 b) as CS. rewrite orb_true_iff. split.
  - intros [H|H]; [destruct (Req_EM_T (cos b) 1) as [E|N]; [rewrite E in CS; nra|rewrite Req_b_f in H by exact N; discriminate]|destruct (Req_EM_T (cos b) (-1)) as [E|N]; [rewrite E in CS; nra|rewrite Req_b_f in H by exact N; discriminate]].
  - intros E. rewrite E in CS. destruct (Rle_lt_dec 0 (cos b)); [left|right]; apply Req_b_t; nra.
Qed.
