(** Conversion of positions and velocities between Cartesian, cylindrical and spherical coordinates: inverses, invariants *)
From Coq Require Import Reals Lra Psatz Bool.
From Coquelicot Require Import Coquelicot.
From Verif Require Import RandReal PolyModel PolyProofs RootProofs CoordModel CoordSpec CoordCalc CoordAtan CoordMaps CoordMaps2 CoordProofs.
Local Open Scope R_scope.

Lemma sq2_0 x y : sqrt (pow_2 x + pow_2 y) = 0 -> x = 0 /\ y = 0.
Proof. intros E. apply sqrt_eq_0 in E; [|unfold pow_2; nra]. unfold pow_2 in E. split; nra. Qed.
Lemma sq2_nn x y : 0 <= pow_2 x + pow_2 y.
Proof. unfold pow_2. nra. Qed.
Lemma pv_eq (a b : posvel) : fst a = fst b -> snd a = snd b -> a = b.
Proof. destruct a, b; cbn; intros -> ->; reflexivity. Qed.
Lemma v_eq (a b c a' b' c' : R) : a = a' -> b = b' -> c = c' -> (a, b, c) = (a', b', c').
Proof. intros -> -> ->; reflexivity. Qed.
Lemma cs1 t : cos t * cos t = 1 - sin t * sin t.
Proof. pose proof (sin2_cos2 t) as E. unfold Rsqr in E. lra. Qed.
(* cos and sin of an angle as a pair of numbers *)
Ltac csgen t := let c := fresh "c" in let s := fresh "s" in let E := fresh "CS" in pose proof (cs1 t) as E; set (c := cos t) in *; set (s := sin t) in *; clearbody c s.

Lemma CY_YC p : toPosVel_YC (toPosVel_CY p) = p.
Proof.
  destruct p as [[[x y] z] [[vx vy] vz]]. unfold toPosVel_CY. destruct (Req_EM_T (sqrt (pow_2 x + pow_2 y)) 0) as [E|N].
  - rewrite Req_b_t by exact E. rewrite E. apply sq2_0 in E. destruct E as (-> & ->). unfold toPosVel_YC. destruct (atan2_polar vy vx) as [C S].
    apply pv_eq; cbn [fst snd]; apply v_eq; lra.
  - rewrite Req_b_f by exact N. unfold toPosVel_YC. destruct (atan2_polar y x) as [C S]. pose proof (sqrt_sqrt _ (sq2_nn x y)) as S2. set (w := sqrt _) in *.
    pose proof (cs1 (atan2 y x)) as CS. set (c := cos _) in *; set (s := sin _) in *.
    assert (Ec : x / w = c) by (rewrite <- C; field; exact N). assert (Es : y / w = s) by (rewrite <- S; field; exact N). rewrite Ec, Es.
    apply pv_eq; cbn [fst snd]; apply v_eq; try assumption; try reflexivity; ring [CS].
Qed.
Lemma SC_eq p : toPosVel_SC p = toPosVel_YC (toPosVel_SY p).
Proof. destruct p as [[[x y] z] [[vx vy] vz]]. reflexivity. Qed.
Lemma YS_SY p : fst p <> (0, 0, v3 (fst p)) -> toPosVel_SY (toPosVel_YS p) = p.
Proof.
  destruct p as [[[Rc z] phi] [[vR vz] vphi]]. cbn [fst]. unfold v3; cbn [snd]. intros N. unfold toPosVel_YS.
  assert (N' : sqrt (pow_2 Rc + pow_2 z) <> 0). { intros E. apply sq2_0 in E. destruct E as (-> & ->). apply N. reflexivity. }
  rewrite Req_b_f by exact N'. unfold toPosVel_SY. destruct (atan2_polar Rc z) as [C S]. rewrite Rplus_comm in C, S. set (w := sqrt _) in *.
  pose proof (cs1 (atan2 Rc z)) as CS. set (c := cos _) in *; set (s := sin _) in *. clearbody w c s.
  assert (Ec : z * (1 / w) = c) by (rewrite <- C; field; exact N'). assert (Es : Rc * (1 / w) = s) by (rewrite <- S; field; exact N'). rewrite Ec, Es.
  apply pv_eq; cbn [fst snd]; apply v_eq; try assumption; try reflexivity; ring [CS].
Qed.
(** the direct conversion Car -> Sph agrees with the two-step one everywhere *)
Lemma CS_eq p : toPosVel_CS p = toPosVel_YS (toPosVel_CY p).
Proof.
  destruct p as [[[x y] z] [[vx vy] vz]]. unfold toPosVel_CS, toPosVel_CY. cbv zeta. destruct (Req_EM_T (sqrt (pow_2 x + pow_2 y)) 0) as [E|N].
  - rewrite !(Req_b_t (sqrt (pow_2 x + pow_2 y))) by exact E. rewrite E. apply sq2_0 in E. destruct E as (-> & ->). unfold toPosVel_YS. cbv zeta.
    replace (pow_2 0 + pow_2 0 + pow_2 z) with (pow_2 z) by (unfold pow_2; ring). replace (pow_2 0 + pow_2 z) with (pow_2 z) by (unfold pow_2; ring).
    destruct (Rtotal_order z 0) as [L|[->|G]].
    + assert (A : sqrt (pow_2 z) = - z). { replace (pow_2 z) with ((- z) * (- z)) by (unfold pow_2; ring). apply sqrt_square. lra. } rewrite A.
      rewrite (Req_b_f z) by lra. rewrite (Req_b_f (- z)) by lra. rewrite !Rle_b_f by lra. rewrite (atan2_xneg z) by exact L.
      apply pv_eq; cbn [fst snd]; apply v_eq; try reflexivity; field; lra.
    + assert (A : sqrt (pow_2 0) = 0) by (unfold pow_2; rewrite Rmult_0_r; apply sqrt_0). rewrite A. rewrite !(Req_b_t 0) by reflexivity. reflexivity.
    + assert (A : sqrt (pow_2 z) = z) by (apply sqrt_square; lra). rewrite A.
      rewrite (Req_b_f z) by lra. rewrite !Rle_b_t by lra. rewrite (atan2_xpos 0 z) by exact G. replace (0 / z) with 0 by (field; lra). rewrite atan_0.
      apply pv_eq; cbn [fst snd]; apply v_eq; try reflexivity; field; lra.
  - rewrite !(Req_b_f (sqrt (pow_2 x + pow_2 y))) by exact N. unfold toPosVel_YS. cbv zeta.
    pose proof (sqrt_sqrt _ (sq2_nn x y)) as S2. assert (E2 : pow_2 x + pow_2 y = pow_2 (sqrt (pow_2 x + pow_2 y))) by (symmetry; exact S2). rewrite <- E2.
    assert (N' : sqrt (pow_2 x + pow_2 y + pow_2 z) <> 0). { intros E. apply sqrt_eq_0 in E; [|unfold pow_2; nra]. assert (pow_2 x + pow_2 y = 0) by (unfold pow_2 in *; nra). apply N. rewrite H. apply sqrt_0. }
    rewrite Req_b_f by exact N'. unfold pow_2 in *. set (w := sqrt (_ + _ + _)) in *. set (v := sqrt (_ + _)) in *. clearbody w. clear E2.
    apply pv_eq; cbn [fst snd]; apply v_eq; try reflexivity.
    + field. split; assumption.
    + field [S2]. split; assumption.
    + field. assumption.
Qed.
Lemma CS_SC p : toPosVel_SC (toPosVel_CS p) = p.
Proof.
  rewrite SC_eq, CS_eq. destruct p as [[[x y] z] [[vx vy] vz]].
  destruct (Req_EM_T (sqrt (pow_2 x + pow_2 y)) 0) as [E|N]; [destruct (Req_EM_T z 0) as [Ez|Nz]|].
  - (* origin *) unfold toPosVel_CY. cbv zeta. rewrite Req_b_t by exact E. rewrite E. apply sq2_0 in E. destruct E as (-> & ->). rewrite Ez. unfold toPosVel_YS. cbv zeta.
    replace (pow_2 0 + pow_2 0) with 0 by (unfold pow_2; ring). rewrite sqrt_0. rewrite Req_b_t by reflexivity. unfold toPosVel_SY, toPosVel_YC. cbv zeta.
    destruct (atan2_polar vy vx) as [C S]. set (vR := sqrt (pow_2 vx + pow_2 vy)) in *. destruct (atan2_polar vR vz) as [C' S']. rewrite (Rplus_comm (pow_2 vz)) in C', S'. set (vv := sqrt (pow_2 vR + pow_2 vz)) in *.
    set (a := cos (atan2 vR vz)) in *; set (b := sin (atan2 vR vz)) in *; set (c := cos _) in *; set (d := sin _) in *. clearbody a b c d vv vR.
    apply pv_eq; cbn [fst snd]; apply v_eq; try lra.
    + replace (vv * b + 0 * a) with vR by lra. lra.
    + replace (vv * b + 0 * a) with vR by lra. lra.
  - rewrite YS_SY; [apply CY_YC|]. unfold toPosVel_CY. cbv zeta. rewrite Req_b_t by exact E. cbn [fst]. unfold v3; cbn [snd]. intros Q. injection Q as _ Q. contradiction.
  - rewrite YS_SY; [apply CY_YC|]. unfold toPosVel_CY. cbv zeta. rewrite Req_b_f by exact N. cbn [fst]. unfold v3; cbn [snd]. intros Q. injection Q as Q _. contradiction.
Qed.
Lemma YC_CY p : 0 < v1 (fst p) -> - PI < v3 (fst p) <= PI -> toPosVel_CY (toPosVel_YC p) = p.
Proof.
  destruct p as [[[Rc z] phi] [[vR vz] vphi]]. unfold v1, v3; cbn [fst snd]. intros H A. unfold toPosVel_YC, toPosVel_CY. cbv zeta.
  rewrite sqrt_polar by lra. rewrite Req_b_f by lra. rewrite atan2_unique by assumption. pose proof (cs1 phi) as CS. set (c := cos _) in *; set (s := sin _) in *.
  apply pv_eq; cbn [fst snd]; apply v_eq; try reflexivity; field [CS]; lra.
Qed.
Lemma SY_YS p : 0 < v1 (fst p) -> 0 <= v2 (fst p) <= PI -> toPosVel_YS (toPosVel_SY p) = p.
Proof.
  destruct p as [[[r theta] phi] [[vr vtheta] vphi]]. unfold v1, v2; cbn [fst snd]. intros H A. unfold toPosVel_SY, toPosVel_YS. cbv zeta.
  rewrite (Rplus_comm (pow_2 _)). rewrite sqrt_polar by lra. rewrite Req_b_f by lra. pose proof PI_RGT_0. rewrite atan2_unique by (try assumption; lra). pose proof (cs1 theta) as CS. set (c := cos _) in *; set (s := sin _) in *.
  apply pv_eq; cbn [fst snd]; apply v_eq; try reflexivity; field [CS]; lra.
Qed.
Lemma SC_CS p : 0 < v1 (fst p) -> 0 < v2 (fst p) < PI -> - PI < v3 (fst p) <= PI -> toPosVel_CS (toPosVel_SC p) = p.
Proof.
  intros H1 H2 H3. rewrite SC_eq, CS_eq. rewrite YC_CY; [apply SY_YS; lra| |].
  - destruct p as [[[r theta] phi] [[vr vtheta] vphi]]. unfold v1, v2, v3 in *; cbn [fst snd] in *. unfold toPosVel_SY; cbn [fst snd]. apply Rmult_lt_0_compat; [exact H1|]. apply sin_gt_0; lra.
  - destruct p as [[[r theta] phi] [[vr vtheta] vphi]]. exact H3.
Qed.
(** positions alone *)
Lemma pos_CY_YC p : toPos_YC (toPos_CY p) = p.
Proof. destruct p as [[x y] z]. unfold toPos_YC, toPos_CY. rewrite mul_fun. destruct (atan2_polar y x) as [C S]. apply v_eq; auto. Qed.
Lemma pos_YS_SY p : 0 <= v1 p \/ True -> toPos_SY (toPos_YS p) = p.
Proof. intros _. destruct p as [[Rc z] phi]. unfold toPos_SY, toPos_YS. rewrite mul_fun. destruct (atan2_polar Rc z) as [C S]. rewrite Rplus_comm in C, S. apply v_eq; auto. Qed.
Lemma pos_SC_eq p : toPos_SC p = toPos_YC (toPos_SY p).
Proof. destruct p as [[r th] phi]. unfold toPos_SC, toPos_YC, toPos_SY. rewrite mul_fun. apply v_eq; ring. Qed.
Lemma pos_CS_eq p : toPos_CS p = toPos_YS (toPos_CY p).
Proof. destruct p as [[x y] z]. unfold toPos_CS, toPos_YS, toPos_CY. apply v_eq; try reflexivity. f_equal. f_equal. symmetry. apply sqrt_sqrt, sq2_nn. Qed.
Lemma pos_CS_SC p : toPos_SC (toPos_CS p) = p.
Proof. rewrite pos_SC_eq, pos_CS_eq, pos_YS_SY by tauto. apply pos_CY_YC. Qed.
Lemma pos_YC_CY p : 0 < v1 p -> - PI < v3 p <= PI -> toPos_CY (toPos_YC p) = p.
Proof. destruct p as [[Rc z] phi]. unfold v1, v3; cbn [fst snd]. intros H A. unfold toPos_CY, toPos_YC. rewrite mul_fun. rewrite sqrt_polar by lra. rewrite atan2_unique by assumption. reflexivity. Qed.
Lemma pos_SY_YS p : 0 < v1 p -> 0 <= v2 p <= PI -> toPos_YS (toPos_SY p) = p.
Proof. destruct p as [[r th] phi]. unfold v1, v2; cbn [fst snd]. intros H A. unfold toPos_YS, toPos_SY. rewrite mul_fun. rewrite Rplus_comm, sqrt_polar by lra. pose proof PI_RGT_0. rewrite atan2_unique by (try assumption; lra). reflexivity. Qed.
Lemma pos_SC_CS p : 0 < v1 p -> 0 < v2 p < PI -> - PI < v3 p <= PI -> toPos_CS (toPos_SC p) = p.
Proof.
  intros H1 H2 H3. rewrite pos_SC_eq, pos_CS_eq. rewrite pos_YC_CY; [apply pos_SY_YS; lra| |].
  - destruct p as [[r th] phi]. unfold v1, v2, v3 in *; cbn [fst snd] in *. unfold toPos_SY. rewrite mul_fun. cbn [fst snd]. apply Rmult_lt_0_compat; [exact H1|]. apply sin_gt_0; lra.
  - destruct p as [[r th] phi]. exact H3.
Qed.
(** the position part of toPosVel is toPos off the axis *)
Lemma posvel_pos_YC p : fst (toPosVel_YC p) = toPos_YC (fst p).
Proof. destruct p as [[[a b] c] [[d e] f]]. unfold toPosVel_YC, toPos_YC. rewrite mul_fun. reflexivity. Qed.
Lemma posvel_pos_SC p : fst (toPosVel_SC p) = toPos_SC (fst p).
Proof. destruct p as [[[a b] c] [[d e] f]]. unfold toPosVel_SC, toPos_SC. rewrite mul_fun. cbn [fst snd]. apply v_eq; ring. Qed.
Lemma posvel_pos_SY p : fst (toPosVel_SY p) = toPos_SY (fst p).
Proof. destruct p as [[[a b] c] [[d e] f]]. unfold toPosVel_SY, toPos_SY. rewrite mul_fun. reflexivity. Qed.
Lemma posvel_pos_CY p : R2pos (fst p) -> fst (toPosVel_CY p) = toPos_CY (fst p).
Proof. destruct p as [[[a b] c] [[d e] f]]. unfold R2pos, v1, v2; cbn [fst snd]. intros H. unfold toPosVel_CY, toPos_CY. cbv zeta. rewrite Req_b_f; [reflexivity|]. apply Rgt_not_eq, sqrt_lt_R0, H. Qed.
Lemma speed_YC p : speed2 (toPosVel_YC p) = speed2 p.
Proof. destruct p as [[[Rc z] phi] [[vR vz] vphi]]. unfold toPosVel_YC, speed2, v1, v2, v3, pow_2; cbn [fst snd]. pose proof (cs1 phi) as CS. set (c := cos _) in *; set (s := sin _) in *. ring [CS]. Qed.
Lemma speed_SY p : speed2 (toPosVel_SY p) = speed2 p.
Proof. destruct p as [[[Rc z] phi] [[vR vz] vphi]]. unfold toPosVel_SY, speed2, v1, v2, v3, pow_2; cbn [fst snd]. pose proof (cs1 z) as CS. set (c := cos _) in *; set (s := sin _) in *. ring [CS]. Qed.
Lemma speed_SC p : speed2 (toPosVel_SC p) = speed2 p.
Proof. rewrite SC_eq, speed_YC. apply speed_SY. Qed.
Lemma speed_CY p : speed2 (toPosVel_CY p) = speed2 p.
Proof. rewrite <- (CY_YC p) at 2. rewrite speed_YC. reflexivity. Qed.
Lemma speed_CS p : speed2 (toPosVel_CS p) = speed2 p.
Proof. rewrite <- (CS_SC p) at 2. rewrite speed_SC. reflexivity. Qed.
Lemma speed_YS p : fst p <> (0, 0, v3 (fst p)) -> speed2 (toPosVel_YS p) = speed2 p.
Proof. intros H. rewrite <- (YS_SY p H) at 2. rewrite speed_SY. reflexivity. Qed.
(** angular momentum *)
Lemma Lz_YC p : Lz_C (toPosVel_YC p) = Lz_Y p.
Proof. destruct p as [[[Rc z] phi] [[vR vz] vphi]]. unfold toPosVel_YC, Lz_C, Lz_Y. pose proof (cs1 phi) as CS. set (c := cos _) in *; set (s := sin _) in *. ring [CS]. Qed.
Lemma Lz_SY p : Lz_Y (toPosVel_SY p) = Lz_S p.
Proof. destruct p as [[[Rc z] phi] [[vR vz] vphi]]. reflexivity. Qed.
Lemma Lz_SC p : Lz_C (toPosVel_SC p) = Lz_S p.
Proof. rewrite SC_eq, Lz_YC. apply Lz_SY. Qed.
Lemma Lz_CY p : Lz_Y (toPosVel_CY p) = Lz_C p.
Proof. rewrite <- (CY_YC p) at 2. symmetry. apply Lz_YC. Qed.
Lemma Lz_CS p : Lz_S (toPosVel_CS p) = Lz_C p.
Proof. rewrite <- (CS_SC p) at 2. symmetry. apply Lz_SC. Qed.
Lemma Lz_YS p : Lz_S (toPosVel_YS p) = Lz_Y p.
Proof.
  destruct p as [[[Rc z] phi] [[vR vz] vphi]]. destruct (Req_EM_T (sqrt (pow_2 Rc + pow_2 z)) 0) as [E|N].
  - unfold toPosVel_YS, Lz_S, Lz_Y. cbv zeta. rewrite Req_b_t by exact E. apply sq2_0 in E. destruct E as (-> & _). ring.
  - rewrite <- (YS_SY ((Rc, z, phi), (vR, vz, vphi))) at 2; [symmetry; apply Lz_SY|]. cbn [fst]. unfold v3; cbn [snd]. intros E. injection E as -> ->. apply N. replace (pow_2 0 + pow_2 0) with 0 by (unfold pow_2; ring). apply sqrt_0.
Qed.
Lemma Ltotal_YC p : Ltotal_C (toPosVel_YC p) = Ltotal_Y p.
Proof. destruct p as [[[Rc z] phi] [[vR vz] vphi]]. unfold toPosVel_YC, Ltotal_C, Ltotal_Y. f_equal. unfold pow_2. pose proof (cs1 phi) as CS. set (c := cos _) in *; set (s := sin _) in *. ring [CS]. Qed.
Lemma Ltotal_SY p : 0 <= v1 (fst p) -> Ltotal_Y (toPosVel_SY p) = Ltotal_S p.
Proof.
  destruct p as [[[r th] phi] [[vr vth] vphi]]. unfold v1; cbn [fst]. intros H. unfold toPosVel_SY, Ltotal_Y, Ltotal_S. cbv zeta.
  transitivity (sqrt (pow_2 vth + pow_2 vphi) * sqrt (r * r)); [|rewrite sqrt_square by exact H; reflexivity]. rewrite <- sqrt_mult; [|apply sq2_nn|nra]. f_equal.
  unfold pow_2. pose proof (cs1 th) as CS. set (c := cos _) in *; set (s := sin _) in *. ring [CS].
Qed.
Lemma Ltotal_SC p : 0 <= v1 (fst p) -> Ltotal_C (toPosVel_SC p) = Ltotal_S p.
Proof. intros H. rewrite SC_eq, Ltotal_YC. apply Ltotal_SY, H. Qed.
Lemma Ltotal_CY p : Ltotal_Y (toPosVel_CY p) = Ltotal_C p.
Proof. rewrite <- (CY_YC p) at 2. symmetry. apply Ltotal_YC. Qed.
Lemma rnn_YS p : 0 <= v1 (fst (toPosVel_YS p)).
Proof. destruct p as [[[Rc z] phi] [[vR vz] vphi]]. unfold toPosVel_YS. cbv zeta. destruct (Req_b _ _); unfold v1; cbn [fst]; [lra|apply sqrt_pos]. Qed.
Lemma Ltotal_CS p : Ltotal_S (toPosVel_CS p) = Ltotal_C p.
Proof. rewrite <- (CS_SC p) at 2. symmetry. apply Ltotal_SC. rewrite CS_eq. apply rnn_YS. Qed.
Lemma Ltotal_YS p : Ltotal_S (toPosVel_YS p) = Ltotal_Y p.
Proof.
  destruct p as [[[Rc z] phi] [[vR vz] vphi]]. destruct (Req_EM_T (sqrt (pow_2 Rc + pow_2 z)) 0) as [E|N].
  - unfold toPosVel_YS, Ltotal_S, Ltotal_Y. cbv zeta. rewrite Req_b_t by exact E. apply sq2_0 in E. destruct E as (-> & ->). symmetry. rewrite Rmult_0_r. transitivity (sqrt 0); [f_equal; unfold pow_2; ring|apply sqrt_0].
  - assert (Q : fst ((Rc, z, phi), (vR, vz, vphi)) <> (0, 0, v3 (fst ((Rc, z, phi), (vR, vz, vphi))))). { cbn [fst]. unfold v3; cbn [snd]. intros E. injection E as -> ->. apply N. replace (pow_2 0 + pow_2 0) with 0 by (unfold pow_2; ring). apply sqrt_0. }
    rewrite <- (YS_SY _ Q) at 2. symmetry. apply Ltotal_SY, rnn_YS.
Qed.
(** documented ranges *)
Lemma range_CY p : 0 <= v1 (fst (toPosVel_CY p)) /\ - PI < v3 (fst (toPosVel_CY p)) <= PI.
Proof. destruct p as [[[x y] z] [[vx vy] vz]]. unfold toPosVel_CY. cbv zeta. destruct (Req_b _ _); unfold v1, v3; cbn [fst snd]; (split; [apply sqrt_pos|apply atan2_range]). Qed.
Lemma range_YS p : 0 <= v1 (fst p) -> (fst p = (0, 0, v3 (fst p)) -> 0 <= v1 (snd p)) -> 0 <= v2 (fst (toPosVel_YS p)) <= PI.
Proof.
  destruct p as [[[Rc z] phi] [[vR vz] vphi]]. unfold v1, v2, v3; cbn [fst snd]. intros H H0. unfold toPosVel_YS. cbv zeta. destruct (Req_EM_T (sqrt (pow_2 Rc + pow_2 z)) 0) as [E|N].
  - rewrite Req_b_t by exact E. cbn [fst snd]. apply sq2_0 in E. destruct E as (-> & ->). apply atan2_range_y. apply H0. reflexivity.
  - rewrite Req_b_f by exact N. cbn [fst snd]. apply atan2_range_y, H.
Qed.
Lemma range_CS p : 0 <= v1 (fst (toPosVel_CS p)) /\ 0 <= v2 (fst (toPosVel_CS p)) <= PI /\ - PI < v3 (fst (toPosVel_CS p)) <= PI.
Proof.
  rewrite CS_eq. split; [apply rnn_YS|]. pose proof (range_CY p) as (A & B). split.
  - apply range_YS; [exact A|]. intros E. destruct p as [[[x y] z] [[vx vy] vz]]. unfold toPosVel_CY in *. cbv zeta in *. destruct (Req_EM_T (sqrt (pow_2 x + pow_2 y)) 0) as [E0|N].
    + rewrite Req_b_t by exact E0. unfold v1; cbn [fst snd]. apply sqrt_pos.
    + rewrite Req_b_f in E by exact N. unfold v3 in E; cbn [fst snd] in E. injection E as E _. contradiction.
  - destruct (toPosVel_CY p) as [[[Rc z] phi] [[vR vz] vphi]]. unfold v3 in *; cbn [fst snd] in *. unfold toPosVel_YS. cbv zeta. destruct (Req_b _ _); exact B.
Qed.
(** velocities are the time derivatives *)
Ltac dcurve := repeat match goal with D : is_derive ?c ?t ?u |- _ => lazymatch goal with E : Derive (fun s : R => c s) t = u |- _ => fail | _ =>
   assert (Derive (fun s : R => c s) t = u) by (apply is_derive_unique; exact D); assert (ex_derive (fun s : R => c s) t) by (eexists; exact D) end end.
Lemma vel_YC (Rc z phi : R -> R) t R' z' phi' : is_derive Rc t R' -> is_derive z t z' -> is_derive phi t phi' ->
  let pv := toPosVel_YC ((Rc t, z t, phi t), (R', z', Rc t * phi')) in
  is_derive (fun s => v1 (toPos_YC (Rc s, z s, phi s))) t (v1 (snd pv)) /\
  is_derive (fun s => v2 (toPos_YC (Rc s, z s, phi s))) t (v2 (snd pv)) /\
  is_derive (fun s => v3 (toPos_YC (Rc s, z s, phi s))) t (v3 (snd pv)).
Proof.
  intros D1 D2 D3. dcurve. cbv zeta. unfold toPos_YC, toPosVel_YC, v1, v2, v3; rewrite mul_fun; cbn [fst snd]. split; [|split].
  - auto_derive; [gside|]. gfin. ring.
  - auto_derive; [gside|]. gfin. ring.
  - exact D2.
Qed.
Lemma vel_SC (r th phi : R -> R) t r' th' phi' : is_derive r t r' -> is_derive th t th' -> is_derive phi t phi' ->
  let pv := toPosVel_SC ((r t, th t, phi t), (r', r t * th', r t * sin (th t) * phi')) in
  is_derive (fun s => v1 (toPos_SC (r s, th s, phi s))) t (v1 (snd pv)) /\
  is_derive (fun s => v2 (toPos_SC (r s, th s, phi s))) t (v2 (snd pv)) /\
  is_derive (fun s => v3 (toPos_SC (r s, th s, phi s))) t (v3 (snd pv)).
Proof.
  intros D1 D2 D3. dcurve. cbv zeta. unfold toPos_SC, toPosVel_SC, v1, v2, v3; rewrite mul_fun; cbn [fst snd]. split; [|split].
  - auto_derive; [gside|]. gfin. ring.
  - auto_derive; [gside|]. gfin. ring.
  - auto_derive; [gside|]. gfin. ring.
Qed.
(** and conversely for the conversion from Cartesian coordinates *)
Lemma vel_CY (x y z : R -> R) t x' y' z' : is_derive x t x' -> is_derive y t y' -> is_derive z t z' -> ~ on_cut (x t, y t, z t) ->
  let pv := toPosVel_CY ((x t, y t, z t), (x', y', z')) in
  is_derive (fun s => v1 (toPos_CY (x s, y s, z s))) t (v1 (snd pv)) /\
  is_derive (fun s => v2 (toPos_CY (x s, y s, z s))) t (v2 (snd pv)) /\
  is_derive (fun s => v3 (toPos_CY (x s, y s, z s))) t (v3 (snd pv) / v1 (fst pv)).
Proof.
  intros D1 D2 D3 NC. apply not_cut_offcut in NC. pose proof (offcut_R2pos _ NC) as P. unfold R2pos, offcut, v1, v2 in *; cbn [fst snd] in *.
  pose proof (sqrt_lt_R0 _ P) as SP. pose proof (sqrt_sqrt _ (Rlt_le _ _ P)) as S2.
  unfold toPosVel_CY, toPos_CY, pow_2. cbv zeta. rewrite Req_b_f by lra. unfold v1, v2, v3; cbn [fst snd]. split; [|split].
  - dcurve. auto_derive; [gside|]. gfin. field. lra.
  - exact D3.
  - generalize (atan2_derive y x t y' x' NC D2 D1). match goal with |- is_derive _ _ ?l -> is_derive _ _ ?r => replace r with l; [tauto|] end. set (w := sqrt _) in *. rewrite <- S2. field. lra.
Qed.
Lemma vel_CS (x y z : R -> R) t x' y' z' : is_derive x t x' -> is_derive y t y' -> is_derive z t z' -> ~ on_cut (x t, y t, z t) ->
  let pv := toPosVel_CS ((x t, y t, z t), (x', y', z')) in
  is_derive (fun s => v1 (toPos_CS (x s, y s, z s))) t (v1 (snd pv)) /\
  is_derive (fun s => v2 (toPos_CS (x s, y s, z s))) t (v2 (snd pv) / v1 (fst pv)) /\
  is_derive (fun s => v3 (toPos_CS (x s, y s, z s))) t (v3 (snd pv) / sqrt (x t * x t + y t * y t)).
Proof.
  intros D1 D2 D3 NC. apply not_cut_offcut in NC. pose proof (offcut_R2pos _ NC) as P. unfold R2pos, offcut, v1, v2 in *; cbn [fst snd] in *.
  pose proof (sqrt_lt_R0 _ P) as SP. pose proof (sqrt_sqrt _ (Rlt_le _ _ P)) as S2.
  assert (P3 : 0 < x t * x t + y t * y t + z t * z t) by nra. pose proof (sqrt_lt_R0 _ P3) as SP3. pose proof (sqrt_sqrt _ (Rlt_le _ _ P3)) as S3.
  unfold toPosVel_CS, toPos_CS, pow_2. cbv zeta. rewrite Req_b_f by lra. unfold v1, v2, v3; cbn [fst snd].
  assert (DRc : is_derive (fun s : R => sqrt (x s * x s + y s * y s)) t ((x t * x' + y t * y') / sqrt (x t * x t + y t * y t))).
  { dcurve. auto_derive; [gside|]. gfin. field. lra. }
  split; [|split].
  - clear DRc. dcurve. auto_derive; [gside|]. gfin. field. lra.
  - generalize (atan2_derive _ z t _ z' (or_intror (Rgt_not_eq _ _ SP)) DRc D3). match goal with |- is_derive _ _ ?l -> is_derive _ _ ?r => replace r with l; [tauto|] end. clear DRc.
    set (w := sqrt (x t * x t + y t * y t)) in *. set (r := sqrt _) in *. rewrite S2. clearbody w r. field [S2 S3]. repeat split; lra.
  - generalize (atan2_derive y x t y' x' NC D2 D1). match goal with |- is_derive _ _ ?l -> is_derive _ _ ?r => replace r with l; [tauto|] end. set (w := sqrt (x t * x t + y t * y t)) in *. rewrite <- S2. field. lra.
Qed.
