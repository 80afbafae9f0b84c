(** Accuracy of scale(ScalingCub): the initial guess is within 0.1% and two Newton iterations leave a relative error below 2e-13 *)
From Coq Require Import Reals Lra Psatz.
From Coquelicot Require Import Coquelicot.
From Verif Require Import RandReal PolyModel PolyProofs ScaleModel ScaleProofs RootProofs.
Local Open Scope R_scope.

(** relative error of the initial guess as a function of r = sqrt (1 - 2x/3) *)
Definition d0 (r : R) : R := let x := 3 / 2 * (1 - r * r) in let v := x * (3 - 2 * x) in r - 1 + v * (1184 / 10000 + 1291 / 10000 * (x * v)).
Lemma bern10 (b0 b1 b2 b3 b4 b5 b6 b7 b8 b9 b10 t : R) : 0 <= t <= 1 -> 0 <= b0 -> 0 <= b1 -> 0 <= b2 -> 0 <= b3 -> 0 <= b4 -> 0 <= b5 -> 0 <= b6 -> 0 <= b7 -> 0 <= b8 -> 0 <= b9 -> 0 <= b10 ->
  0 <= b0 * (1 - t) ^ 10 + b1 * (t * (1 - t) ^ 9) + b2 * (t ^ 2 * (1 - t) ^ 8) + b3 * (t ^ 3 * (1 - t) ^ 7) + b4 * (t ^ 4 * (1 - t) ^ 6) + b5 * (t ^ 5 * (1 - t) ^ 5)
     + b6 * (t ^ 6 * (1 - t) ^ 4) + b7 * (t ^ 7 * (1 - t) ^ 3) + b8 * (t ^ 8 * (1 - t) ^ 2) + b9 * (t ^ 9 * (1 - t)) + b10 * t ^ 10.
Proof.
  intros. assert (0 <= t) by lra. assert (0 <= 1 - t) by lra.
  repeat apply Rplus_le_le_0_compat; (apply Rmult_le_pos; [assumption|]); first [apply pow_le; assumption | apply Rmult_le_pos; first [assumption | apply pow_le; assumption]].
Qed.
Lemma d0_le0 t : 0 <= t <= 1 -> 0 <= 1 / 1000 - d0 ((2041 / 2500) + (117 / 1250) * t).
Proof.
  intros Ht. pose proof (bern10 (1190888329898914677294405836105284913 / 762939453125000000000000000000000000000) (25403492892523429864872405415758563 / 3051757812500000000000000000000000000) (4565644637786225792230324261344417 / 244140625000000000000000000000000000) (37239660111310076817216155347089 / 1220703125000000000000000000000000) (11868466618165347744392194882773 / 195312500000000000000000000000000) (2267998257458303681566950964269 / 19531250000000000000000000000000) (46546043687366570615879820573 / 312500000000000000000000000000) (367208221732882552630457889 / 3125000000000000000000000000) (55000361815185104602093017 / 1000000000000000000000000000) (280262946526712882365763 / 20000000000000000000000000) (11969464731391047793913 / 8000000000000000000000000) t Ht ltac:(lra) ltac:(lra) ltac:(lra) ltac:(lra) ltac:(lra) ltac:(lra) ltac:(lra) ltac:(lra) ltac:(lra) ltac:(lra) ltac:(lra)) as H.
  match type of H with 0 <= ?e => replace (1 / 1000 - d0 ((2041 / 2500) + (117 / 1250) * t)) with e; [exact H|] end. unfold d0. cbv zeta. field.
Qed.
Lemma d0_ge0 t : 0 <= t <= 1 -> 0 <= 1 / 1000 + d0 ((2041 / 2500) + (117 / 1250) * t).
Proof.
  intros Ht. pose proof (bern10 (334990576351085322705594163894715087 / 762939453125000000000000000000000000000) (35631663357476570135127594584241437 / 3051757812500000000000000000000000000) (17407011612213774207769675738655583 / 244140625000000000000000000000000000) (255729089888689923182783844652911 / 1220703125000000000000000000000000) (70162783381834652255607805117227 / 195312500000000000000000000000000) (7575751742541696318433049035731 / 19531250000000000000000000000000) (84703956312633429384120179427 / 312500000000000000000000000000) (382791778267117447369542111 / 3125000000000000000000000000) (34999638184814895397906983 / 1000000000000000000000000000) (119737053473287117634237 / 20000000000000000000000000) (4030535268608952206087 / 8000000000000000000000000) t Ht ltac:(lra) ltac:(lra) ltac:(lra) ltac:(lra) ltac:(lra) ltac:(lra) ltac:(lra) ltac:(lra) ltac:(lra) ltac:(lra) ltac:(lra)) as H.
  match type of H with 0 <= ?e => replace (1 / 1000 + d0 ((2041 / 2500) + (117 / 1250) * t)) with e; [exact H|] end. unfold d0. cbv zeta. field.
Qed.
Lemma d0_le1 t : 0 <= t <= 1 -> 0 <= 1 / 1000 - d0 ((91 / 100) + (9 / 100) * t).
Proof.
  intros Ht. pose proof (bern10 (11969464731391047793913 / 8000000000000000000000000) (126992213374704059663 / 8000000000000000000000) (28813674852365279733 / 400000000000000000000) (91092870085485543 / 500000000000000000) (22444714451218857 / 80000000000000000) (107746978541013 / 400000000000000) (317302779939 / 2000000000000) (22263951 / 400000000) (16803 / 1250000) (64 / 15625) (1 / 1000) t Ht ltac:(lra) ltac:(lra) ltac:(lra) ltac:(lra) ltac:(lra) ltac:(lra) ltac:(lra) ltac:(lra) ltac:(lra) ltac:(lra) ltac:(lra)) as H.
  match type of H with 0 <= ?e => replace (1 / 1000 - d0 ((91 / 100) + (9 / 100) * t)) with e; [exact H|] end. unfold d0. cbv zeta. field.
Qed.
Lemma d0_ge1 t : 0 <= t <= 1 -> 0 <= 1 / 1000 + d0 ((91 / 100) + (9 / 100) * t).
Proof.
  intros Ht. pose proof (bern10 (4030535268608952206087 / 8000000000000000000000000) (33007786625295940337 / 8000000000000000000000) (7186325147634720267 / 400000000000000000000) (28907129914514457 / 500000000000000000) (11155285548781143 / 80000000000000000) (93853021458987 / 400000000000000) (522697220061 / 2000000000000) (73736049 / 400000000) (95697 / 1250000) (497 / 31250) (1 / 1000) t Ht ltac:(lra) ltac:(lra) ltac:(lra) ltac:(lra) ltac:(lra) ltac:(lra) ltac:(lra) ltac:(lra) ltac:(lra) ltac:(lra) ltac:(lra)) as H.
  match type of H with 0 <= ?e => replace (1 / 1000 + d0 ((91 / 100) + (9 / 100) * t)) with e; [exact H|] end. unfold d0. cbv zeta. field.
Qed.

Lemma d0_bound r : 2041 / 2500 <= r <= 1 -> Rabs (d0 r) <= 1 / 1000.
Proof.
  intros H. apply Rabs_le. destruct (Rle_dec r (91 / 100)) as [L|L].
  - set (t := (r - 2041 / 2500) / (117 / 1250)).
    assert (Ht : 0 <= t <= 1) by (unfold t; lra).
    pose proof (d0_le0 t Ht) as A. pose proof (d0_ge0 t Ht) as B. replace (2041 / 2500 + 117 / 1250 * t) with r in * by (unfold t; field). lra.
  - set (t := (r - 91 / 100) / (9 / 100)).
    assert (Ht : 0 <= t <= 1) by (unfold t; lra).
    pose proof (d0_le1 t Ht) as A. pose proof (d0_ge1 t Ht) as B. replace (91 / 100 + 9 / 100 * t) with r in * by (unfold t; field). lra.
Qed.

(** one Newton step from s = x (1 + d) *)
Lemma newton_err x s d : 0 < x <= 1 / 2 -> s = x * (1 + d) -> Rabs d <= 1 / 1000 ->
  exists d', cubNewton (x * x * (3 - 2 * x)) s = x * (1 + d') /\ Rabs d' <= 51 / 100 * (d * d).
Proof.
  intros Hx -> Hd. apply Rabs_le_between in Hd. set (s := x * (1 + d)).
  assert (S0 : 0 < s) by (unfold s; nra). assert (S1 : s <= 1 / 2 + 1 / 2000) by (unfold s; nra).
  exists (d * d * ((3 - 4 * s - 2 * x) / (6 * (1 + d) * (1 - s)))). split.
  - unfold cubNewton. fold s. unfold s. field. fold s. unfold s in *. repeat split; nra.
  - rewrite Rabs_mult, (Rabs_pos_eq (d * d)) by nra. rewrite (Rmult_comm (51 / 100)). apply Rmult_le_compat_l; [nra|].
    assert (D : 0 < 6 * (1 + d) * (1 - s)) by (apply Rmult_lt_0_compat; lra).
    unfold Rdiv. rewrite Rabs_mult, (Rabs_pos_eq (/ _)) by (left; apply Rinv_0_lt_compat; exact D).
    apply (Rmult_le_reg_r (6 * (1 + d) * (1 - s))); [exact D|]. rewrite Rmult_assoc, Rinv_l, Rmult_1_r by lra.
    assert (Es : s - x = x * d) by (unfold s; ring). assert (- (1 / 2000) <= s - x <= 1 / 2000) by (rewrite Es; nra).
    apply Rabs_le. split; nra.
Qed.

Lemma guess_err x : 0 < x <= 1 / 2 -> exists d, let w := x * x * (3 - 2 * x) in
  1 / sqrt 3 * sqrt w + w * (1184 / 10000 + 1291 / 10000 * w) = x * (1 + d) /\ Rabs d <= 1 / 1000.
Proof.
  intros Hx. set (r := sqrt (1 - 2 * x / 3)). assert (Hr2 : r * r = 1 - 2 * x / 3) by (unfold r; apply sqrt_sqrt; lra).
  assert (R0 : 0 <= r) by apply sqrt_pos. exists (d0 r). cbv zeta. split.
  - assert (E : 1 / sqrt 3 * sqrt (x * x * (3 - 2 * x)) = x * r).
    { replace (x * x * (3 - 2 * x)) with (3 * ((x * x) * (1 - 2 * x / 3))) by field. rewrite sqrt_mult by nra. rewrite sqrt_mult by nra. rewrite sqrt_square by lra. fold r.
      assert (0 < sqrt 3) by (apply sqrt_lt_R0; lra). field. lra. }
    rewrite E. unfold d0. rewrite Hr2. cbv zeta. field.
  - apply d0_bound. split; nra.
Qed.
(** two iterations *)
Lemma cub_lower x : 0 < x <= 1 / 2 -> let w := x * x * (3 - 2 * x) in
  Rabs (cubNewton w (cubNewton w (1 / sqrt 3 * sqrt w + w * (1184 / 10000 + 1291 / 10000 * w))) - x) <= 2 / 10 ^ 13 * x.
Proof.
  intros Hx w. destruct (guess_err x Hx) as (d & E & D). fold w in E. rewrite E.
  destruct (newton_err x _ d Hx eq_refl D) as (d1 & E1 & D1). fold w in E1. rewrite E1.
  assert (D' : Rabs d * Rabs d = d * d) by (rewrite <- Rabs_mult; apply Rabs_pos_eq; nra). pose proof (Rabs_pos d). pose proof (Rabs_pos d1).
  assert (D1' : Rabs d1 <= 51 / 10 ^ 8) by (cbn [pow]; nra).
  destruct (newton_err x _ d1 Hx eq_refl ltac:(cbn [pow] in D1'; lra)) as (d2 & E2 & D2). fold w in E2. rewrite E2.
  assert (D'' : Rabs d1 * Rabs d1 = d1 * d1) by (rewrite <- Rabs_mult; apply Rabs_pos_eq; nra).
  replace (x * (1 + d2) - x) with (d2 * x) by ring. rewrite Rabs_mult, (Rabs_pos_eq x) by lra. apply Rmult_le_compat_r; [lra|].
  cbn [pow] in *. nra.
Qed.
Lemma cub_unique ul ur x y : ul < ur -> 0 <= x <= 1 -> 0 <= y <= 1 -> unscale (ScalingCub ul ur) x = unscale (ScalingCub ul ur) y -> x = y.
Proof.
  intros U Hx Hy E. destruct (Rtotal_order x y) as [L|[L|L]]; [|exact L|].
  - pose proof (cub_mono ul ur x y U ltac:(lra) L ltac:(lra)). lra.
  - pose proof (cub_mono ul ur y x U ltac:(lra) L ltac:(lra)). lra.
Qed.
Lemma cub_accuracy ul ur x : ul < ur -> 0 <= x <= 1 ->
  exists s, scale (ScalingCub ul ur) (unscale (ScalingCub ul ur) x) = Some s /\ Rabs (s - x) <= 2 / 10 ^ 13 * Rmin x (1 - x).
Proof.
  intros U Hx. set (u := unscale (ScalingCub ul ur) x).
  assert (Eu : u = ul + (ur - ul) * (x * x * (3 - 2 * x))) by (unfold u; cbn [unscale]; unfold pow_2; ring).
  assert (E0 : unscale (ScalingCub ul ur) 0 = ul) by (cbn [unscale]; unfold pow_2; ring).
  assert (E1 : unscale (ScalingCub ul ur) 1 = ur) by (cbn [unscale]; unfold pow_2; ring).
  assert (E2 : unscale (ScalingCub ul ur) (1 / 2) = 1 / 2 * (ul + ur)) by (cbn [unscale]; unfold pow_2; field).
  assert (M0 : 0 <= 2 / 10 ^ 13 * Rmin x (1 - x)) by (apply Rmult_le_pos; [cbn [pow]; lra|apply Rmin_glb; lra]).
  cbn [scale]. 
  destruct (Req_dec u ul) as [E|N0].
  { rewrite Req_b_t by exact E. exists 0. split; [reflexivity|]. rewrite <- E0 in E. apply cub_unique in E; [|lra..]. replace (0 - x) with 0 by lra. rewrite Rabs_R0. exact M0. }
  rewrite Req_b_f by exact N0. destruct (Req_dec u ur) as [E|N1].
  { rewrite Req_b_t by exact E. exists 1. split; [reflexivity|]. rewrite <- E1 in E. apply cub_unique in E; [|lra..]. rewrite E at 1. rewrite Rminus_eq_0, Rabs_R0. exact M0. }
  rewrite Req_b_f by exact N1. destruct (Req_dec u (1 / 2 * (ul + ur))) as [E|N2].
  { rewrite Req_b_t by exact E. exists (1 / 2). split; [reflexivity|]. rewrite <- E2 in E. apply cub_unique in E; [|lra..]. rewrite E at 1. rewrite Rminus_eq_0, Rabs_R0. exact M0. }
  rewrite Req_b_f by exact N2.
  assert (X0 : x <> 0) by (intros ->; apply N0; exact E0). assert (X1 : x <> 1) by (intros ->; apply N1; exact E1). assert (X2 : x <> 1 / 2) by (intros ->; apply N2; exact E2).
  destruct (Rlt_dec x (1 / 2)) as [L|L].
  - pose proof (cub_mono ul ur x (1 / 2) U ltac:(lra) L ltac:(lra)) as Mn. rewrite E2 in Mn. fold u in Mn. rewrite !Rlt_b_t by exact Mn.
    eexists. split; [reflexivity|]. rewrite Rmin_left by lra. replace ((u - ul) / (ur - ul)) with (x * x * (3 - 2 * x)) by (rewrite Eu; field; lra). apply cub_lower; lra.
  - pose proof (cub_mono ul ur (1 / 2) x U ltac:(lra) ltac:(lra) ltac:(lra)) as Mn. rewrite E2 in Mn. fold u in Mn. rewrite !Rlt_b_f by lra.
    eexists. split; [reflexivity|]. rewrite Rmin_right by lra. replace ((ur - u) / (ur - ul)) with ((1 - x) * (1 - x) * (3 - 2 * (1 - x))) by (rewrite Eu; field; lra).
    match goal with |- Rabs (1 - ?s - x) <= _ => replace (1 - s - x) with (- (s - (1 - x))) by ring end. rewrite Rabs_Ropp. apply cub_lower; lra.
Qed.
