(** Proofs for TargetModel2.v (C67). *)
From Verif Require Import Base RandReal PolyModel PolyProofs TargetModel TargetProofs TargetModel2.
From Coq Require Import Reals Lra Lia.
Local Open Scope Z_scope.
Lemma nodeR_mono : forall g, gridOk g = true -> forall i j, -1 <= i -> i < j -> j < zlen g -> (nodeR g i < nodeR g j)%R.
Proof.
  intros g H i j Hi L Hj. assert (G : forall n : nat, i + 1 + Z.of_nat n < zlen g -> (nodeR g i < nodeR g (i + 1 + Z.of_nat n))%R).
  { induction n as [|n IH]; intros K.
    - replace (i + 1 + Z.of_nat 0) with (i + 1) in * by lia. pose proof (nodeR_lt g H (i + 1) ltac:(lia)) as P. replace (i + 1 - 1) with i in P by ring. exact P.
    - pose proof (nodeR_lt g H (i + 1 + Z.of_nat (S n)) ltac:(lia)) as P. replace (i + 1 + Z.of_nat (S n) - 1) with (i + 1 + Z.of_nat n) in P by lia. specialize (IH ltac:(lia)). lra. }
  specialize (G (Z.to_nat (j - i - 1))). replace (i + 1 + Z.of_nat (Z.to_nat (j - i - 1))) with j in G by lia. apply G. lia.
Qed.
Lemma radSeg_inside : forall g ish o, gridOk g = true -> 0 <= ish < zlen g -> (0 < o < 1)%R ->
  radSeg g (nodeR g (ish - 1) * (1 - o) + nodeR g ish * o)%R = Ok (Some (ish, o)).
Proof.
  intros g ish o H Hi Ho. set (r := (nodeR g (ish - 1) * (1 - o) + nodeR g ish * o)%R).
  pose proof (nodeR_lt g H ish Hi) as L.
  assert (N0 : (0 <= nodeR g (ish - 1))%R).
  { destruct (Z.eq_dec ish 0) as [->|N]; [unfold nodeR; simpl; lra|]. pose proof (nodeR_mono g H (-1) (ish - 1) ltac:(lia) ltac:(lia) ltac:(lia)) as P. replace (nodeR g (-1)) with 0%R in P by reflexivity. lra. }
  assert (B : (nodeR g (ish - 1) < r < nodeR g ish)%R) by (unfold r; split; nra).
  destruct (radSeg_spec g r H ltac:(lra)) as [[_ O]|(i & f & E & _ & I1 & I2 & I3)].
  - exfalso. assert (LA : (nodeR g ish <= last g 0)%R).
    { rewrite last_nth. assert (Q : nth (length g - 1) g 0%R = nodeR g (zlen g - 1)). { unfold nodeR, zlen. replace (Z.of_nat (length g) - 1 <? 0) with false by (symmetry; apply Z.ltb_ge; unfold zlen in Hi; lia). f_equal. lia. }
      rewrite Q. destruct (Z.eq_dec ish (zlen g - 1)) as [->|N]; [lra|]. left. apply nodeR_mono; [exact H|lia|lia|lia]. }
    destruct O as [O|[_ O]]; lra.
  - assert (i = ish) as ->.
    { pose proof (nodeR_lt g H i I1) as L'. assert (C : (nodeR g (i - 1) <= r <= nodeR g i)%R) by (rewrite I3; split; nra).
      destruct (Z.lt_trichotomy i ish) as [K|[K|K]]; [|exact K|].
      - exfalso. destruct (Z.eq_dec i (ish - 1)) as [->|N]; [lra|]. pose proof (nodeR_mono g H i (ish - 1) ltac:(lia) ltac:(lia) ltac:(lia)). lra.
      - exfalso. destruct (Z.eq_dec ish (i - 1)) as [->|N]; [lra|]. pose proof (nodeR_mono g H ish (i - 1) ltac:(lia) ltac:(lia) ltac:(lia)). lra. }
    rewrite E. do 3 f_equal. unfold r in I3. nra.
Qed.
Lemma strip_inside : forall s i o c, 1 <= s -> 0 <= i < s -> (0 < o < 1)%R -> (0 < c)%R -> strip s (c * nodeAng s i o) c = (i, o).
Proof.
  intros s i o c Hs Hi Ho Hc. unfold strip. rewrite Req_b_f by lra. unfold nodeAng. replace (c * tan (PI / 4 * (IZR i + o) / IZR s) / c)%R with (tan (PI / 4 * (IZR i + o) / IZR s)) by (field; lra).
  assert (SP : (0 < IZR s)%R) by (apply IZR_lt; lia). pose proof PI_RGT_0 as PP.
  assert (I0 : (0 <= IZR i)%R) by (apply IZR_le; lia). assert (I1 : (IZR i <= IZR s - 1)%R) by (rewrite <- minus_IZR; apply IZR_le; lia).
  set (t := ((IZR i + o) / IZR s)%R).
  assert (T : (0 < t < 1)%R). { unfold t. split; [apply Rdiv_lt_0_compat; lra|]. apply Rmult_lt_reg_r with (IZR s); [lra|]. unfold Rdiv. rewrite Rmult_assoc, Rinv_l by lra. lra. }
  replace (PI / 4 * (IZR i + o) / IZR s)%R with (PI / 4 * t)%R by (unfold t; field; lra).
  rewrite atan_tan by (split; nra). replace (PI / 4 * t * (4 / PI))%R with t by (field; lra). rewrite Rmin_left by lra.
  replace (t * IZR s)%R with (IZR i + o)%R by (unfold t; field; lra).
  assert (IP : Int_part (IZR i + o) = i). { destruct (base_Int_part (IZR i + o)) as [Q1 Q2]. assert (Int_part (IZR i + o) < i + 1) by (apply lt_IZR; rewrite plus_IZR; lra). assert (i < Int_part (IZR i + o) + 1) by (apply lt_IZR; rewrite plus_IZR; lra). lia. }
  rewrite IP, Z.min_l by lia. f_equal. ring.
Qed.
Lemma nodeAng_range : forall s i o, 1 <= s -> 0 <= i < s -> (0 < o < 1)%R -> (0 < nodeAng s i o < 1)%R.
Proof.
  intros s i o Hs Hi Ho. unfold nodeAng. assert (SP : (0 < IZR s)%R) by (apply IZR_lt; lia). pose proof PI_RGT_0 as PP.
  assert (I0 : (0 <= IZR i)%R) by (apply IZR_le; lia). assert (I1 : (IZR i <= IZR s - 1)%R) by (rewrite <- minus_IZR; apply IZR_le; lia).
  set (t := ((IZR i + o) / IZR s)%R).
  assert (T : (0 < t < 1)%R). { unfold t. split; [apply Rdiv_lt_0_compat; lra|]. apply Rmult_lt_reg_r with (IZR s); [lra|]. unfold Rdiv. rewrite Rmult_assoc, Rinv_l by lra. lra. }
  replace (PI / 4 * (IZR i + o) / IZR s)%R with (PI / 4 * t)%R by (unfold t; field; lra).
  rewrite <- tan_0 at 1. rewrite <- tan_PI4. split; apply tan_increasing; nra.
Qed.
Lemma proj_point : forall N s g a1 a2 a3 ish oR pane i1 o1 i2 o2 value, gridOk g = true -> 1 <= s -> (0 < a1)%R -> (0 < a2)%R -> (0 < a3)%R -> N = 0 \/ N = 1 ->
  0 <= ish < zlen g -> 0 <= pane < 3 -> 0 <= i1 < s -> 0 <= i2 < s -> (0 < oR < 1)%R -> (0 < o1 < 1)%R -> (0 < o2 < 1)%R -> value <> 0%R ->
  let '(x, y, z) := projPoint s g (a1, a2, a3) ish oR pane i1 o1 i2 o2 in
  addClassic N s g (a1, a2, a3) x y z value = Ok (projAdd N s ish oR pane i1 o1 i2 o2 value).
Proof.
  intros N s g a1 a2 a3 ish oR pane i1 o1 i2 o2 value Hg Hs A1 A2 A3 HN Hi Hp H1 H2 HR Ho1 Ho2 Hv.
  unfold projPoint. cbv zeta.
  assert (IN : innerRadius g ish = nodeR g (ish - 1)). { unfold innerRadius, nodeR. destruct (ish =? 0) eqn:C; [apply Z.eqb_eq in C; subst; reflexivity|]. apply Z.eqb_neq in C. replace (ish - 1 <? 0) with false by (symmetry; apply Z.ltb_ge; lia). reflexivity. }
  assert (OU : nth (Z.to_nat ish) g 0%R = nodeR g ish) by (unfold nodeR; replace (ish <? 0) with false by (symmetry; apply Z.ltb_ge; lia); reflexivity).
  rewrite IN, OU. set (radius := (nodeR g (ish - 1) * (1 - oR) + nodeR g ish * oR)%R).
  set (n1 := nodeAng s i1 o1). set (n2 := nodeAng s i2 o2). set (denom := (1 / sqrt (1 + pow_2 n1 + pow_2 n2))%R).
  assert (V1 : (0 < n1 < 1)%R) by (apply nodeAng_range; assumption). assert (V2 : (0 < n2 < 1)%R) by (apply nodeAng_range; assumption).
  assert (RP : (0 < radius)%R).
  { pose proof (nodeR_lt g Hg ish Hi) as L. assert (N0 : (0 <= nodeR g (ish - 1))%R).
    { destruct (Z.eq_dec ish 0) as [->|NN]; [unfold nodeR; simpl; lra|]. pose proof (nodeR_mono g Hg (-1) (ish - 1) ltac:(lia) ltac:(lia) ltac:(lia)) as P. replace (nodeR g (-1)) with 0%R in P by reflexivity. lra. }
    unfold radius. nra. }
  assert (Q : (0 < 1 + pow_2 n1 + pow_2 n2)%R) by (unfold pow_2; nra).
  assert (SQ : (0 < sqrt (1 + pow_2 n1 + pow_2 n2))%R) by (apply sqrt_lt_R0; exact Q).
  assert (DP : (0 < denom)%R) by (unfold denom; apply Rdiv_lt_0_compat; lra).
  set (c := (radius * denom)%R). assert (CP : (0 < c)%R) by (unfold c; nra).
  assert (C1 : (0 < c * n1 < c)%R) by nra. assert (C2 : (0 < c * n2 < c)%R) by nra.
  assert (RR : sqrt (c * c + c * n1 * (c * n1) + c * n2 * (c * n2)) = radius).
  { replace (c * c + c * n1 * (c * n1) + c * n2 * (c * n2))%R with (radius * radius)%R.
    - apply sqrt_square. lra.
    - unfold c, denom. transitivity (radius * radius * ((1 + pow_2 n1 + pow_2 n2) / (sqrt (1 + pow_2 n1 + pow_2 n2) * sqrt (1 + pow_2 n1 + pow_2 n2))))%R; [rewrite sqrt_sqrt by lra; field; lra|]. unfold pow_2 at 1 2. field. lra. }
  assert (AB : forall a v, (0 < a)%R -> (0 < v)%R -> Rabs (v * a / a) = v /\ (Rabs (v * a) / a = v)%R).
  { intros a v Ha Hv'. split; [replace (v * a / a)%R with v by (field; lra); apply Rabs_right; lra|]. rewrite Rabs_right by nra. field. lra. }
  assert (RES : forall X Y Zc x y z, (0 < X)%R -> (0 < Y)%R -> (0 < Zc)%R -> x = (X * a1)%R -> y = (Y * a2)%R -> z = (Zc * a3)%R -> sqrt (X * X + Y * Y + Zc * Zc) = radius -> paneOf X Y Zc = Ok (pane, c, (c * n1)%R, (c * n2)%R) ->
    addClassic N s g (a1, a2, a3) x y z value = Ok (projAdd N s ish oR pane i1 o1 i2 o2 value)).
  { intros X Y Zc x y z PX PY PZ -> -> -> ER EP. unfold addClassic.
    rewrite (proj1 (AB a1 X A1 PX)), (proj2 (AB a2 Y A2 PY)), (proj2 (AB a3 Zc A3 PZ)). rewrite ER. unfold radius. rewrite radSeg_inside by assumption. cbn [bind].
    rewrite (Req_b_f _ _ Hv). rewrite EP. cbn [bind]. unfold n1, n2. rewrite !strip_inside by assumption. unfold projAdd. destruct HN as [->| ->]; [reflexivity|].
    change (1 =? 0) with false. cbv iota. destruct (corner1 pane i1 i2 s) as [[[ll ul] lu] uu]. cbv zeta.
    f_equal. destruct (ish =? 0); repeat (f_equal; try ring). }
  assert (T : forall a b, (a <= b)%R -> Rle_b a b = true) by (intros; apply Rle_b_t; assumption).
  assert (D : pane = 0 \/ pane = 1 \/ pane = 2) by lia. destruct D as [->|[->| ->]].
  - apply (RES c (c * n1)%R (c * n2)%R); try reflexivity; try tauto. unfold paneOf. rewrite Rle_b_t, Rlt_b_t by lra. reflexivity.
  - apply (RES (c * n2)%R c (c * n1)%R); try reflexivity; try tauto; [rewrite <- RR; f_equal; ring|]. unfold paneOf. rewrite (Rle_b_f c (c * n2)) by lra. cbn [andb]. rewrite (Rle_b_t (c * n1) c), (Rlt_b_t (c * n2) c) by lra. reflexivity.
  - apply (RES (c * n1)%R (c * n2)%R c); try reflexivity; try tauto; [rewrite <- RR; f_equal; ring|]. unfold paneOf. rewrite (Rlt_b_f c (c * n1)) by lra. rewrite andb_false_r. rewrite (Rle_b_f c (c * n2)) by lra. cbn [andb]. rewrite !Rle_b_t by lra. reflexivity.
Qed.
