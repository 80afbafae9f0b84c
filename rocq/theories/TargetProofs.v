(** Proofs for TargetModel.v: the radial segment and the strips of a pane (C67). *)
From Verif Require Import Base BinSearchSpec BinSearchModel PropsSearch RandReal PolyModel PolyProofs TargetModel.
From Coq Require Import Reals Lra Lia.
Local Open Scope Z_scope.

Lemma ltT x y : Rlt_b x y = true -> (x < y)%R. Proof. unfold Rlt_b. destruct (Rlt_dec x y); [tauto|discriminate]. Qed.
Lemma ltF x y : Rlt_b x y = false -> (y <= x)%R. Proof. unfold Rlt_b. destruct (Rlt_dec x y); [discriminate|lra]. Qed.
Lemma leT x y : Rle_b x y = true -> (x <= y)%R. Proof. unfold Rle_b. destruct (Rle_dec x y); [tauto|discriminate]. Qed.
Lemma leF x y : Rle_b x y = false -> (y < x)%R. Proof. unfold Rle_b. destruct (Rle_dec x y); [discriminate|lra]. Qed.
Lemma eqT x y : Req_b x y = true -> x = y. Proof. unfold Req_b. destruct (Req_EM_T x y); [tauto|discriminate]. Qed.
Lemma eqF x y : Req_b x y = false -> x <> y. Proof. unfold Req_b. destruct (Req_EM_T x y); [discriminate|tauto]. Qed.
Definition nodeR (g : list R) (i : Z) : R := if i <? 0 then 0%R else nth (Z.to_nat i) g 0%R.
Definition outside (g : list R) (r : R) : Prop := (last g 0 < r)%R \/ (length g = 1%nat /\ (last g 0 <= r)%R).

Lemma incb_spec : forall l p, increasingb p l = true -> forall i a, nth_error l i = Some a -> (p < a)%R /\ forall j b, nth_error l j = Some b -> (i < j)%nat -> (a < b)%R.
Proof.
  induction l as [|x t IH]; intros p H i a Hi; [destruct i; discriminate|].
  simpl in H. apply andb_prop in H. destruct H as [H1 H2]. apply ltT in H1.
  destruct i as [|i]; simpl in Hi.
  - injection Hi as <-. split; [exact H1|]. intros j b Hj Lj. destruct j as [|j]; [lia|]. simpl in Hj. exact (proj1 (IH _ H2 _ _ Hj)).
  - destruct (IH _ H2 _ _ Hi) as [A B]. split; [lra|]. intros j b Hj Lj. destruct j as [|j]; [lia|]. simpl in Hj. exact (B _ _ Hj ltac:(lia)).
Qed.
Lemma gridOk_pos : forall g, gridOk g = true -> forall i a, nth_error g i = Some a -> (0 < a)%R.
Proof.
  intros [|x t] H i a Hi; [discriminate|]. unfold gridOk in H. apply andb_prop in H. destruct H as [H1 H2]. apply ltT in H1.
  destruct i as [|i]; simpl in Hi; [injection Hi as <-; exact H1|]. pose proof (proj1 (incb_spec _ _ H2 _ _ Hi)). lra.
Qed.
Lemma gridOk_lt : forall g, gridOk g = true -> forall i j a b, nth_error g i = Some a -> nth_error g j = Some b -> (i < j)%nat -> (a < b)%R.
Proof.
  intros [|x t] H i j a b Hi Hj L; [discriminate|].
  refine (proj2 (incb_spec (x :: t) 0 H i a Hi) j b Hj L).
Qed.
Lemma last_nth : forall (g : list R), last g 0%R = nth (length g - 1) g 0%R.
Proof.
  induction g as [|x t IH]; [reflexivity|]. destruct t as [|y t]; [reflexivity|].
  replace (last (x :: y :: t) 0%R) with (last (y :: t) 0%R) by reflexivity. rewrite IH. simpl. rewrite Nat.sub_0_r. reflexivity.
Qed.
Lemma nth_err : forall (g : list R) i a, nth_error g i = Some a -> nth i g 0%R = a.
Proof. intros. apply nth_error_nth. assumption. Qed.
Lemma get_R : forall (g : list R) i, 0 <= i < zlen g -> get g i = Ok (nodeR g i).
Proof.
  intros g i H. unfold zlen in H. destruct (nth_error g (Z.to_nat i)) as [a|] eqn:E.
  - unfold nodeR. replace (i <? 0) with false by (symmetry; apply Z.ltb_ge; lia). rewrite (nth_err _ _ _ E).
    unfold get. replace (i <? 0) with false by (symmetry; apply Z.ltb_ge; lia). rewrite E. reflexivity.
  - apply nth_error_None in E. lia.
Qed.
Lemma nodeR_lt : forall g, gridOk g = true -> forall i, 0 <= i < zlen g -> (nodeR g (i - 1) < nodeR g i)%R.
Proof.
  intros g H i Hi. unfold zlen in Hi. unfold nodeR. replace (i <? 0) with false by (symmetry; apply Z.ltb_ge; lia).
  destruct (nth_error g (Z.to_nat i)) as [b|] eqn:E; [|apply nth_error_None in E; lia]. rewrite (nth_err _ _ _ E).
  destruct (i - 1 <? 0) eqn:C; [exact (gridOk_pos g H _ _ E)|]. apply Z.ltb_ge in C.
  destruct (nth_error g (Z.to_nat (i - 1))) as [a|] eqn:E'; [|apply nth_error_None in E'; lia]. rewrite (nth_err _ _ _ E').
  refine (gridOk_lt g H _ _ _ _ E' E _). lia.
Qed.

Lemma radSeg_spec : forall g r, gridOk g = true -> (0 <= r)%R ->
  (radSeg g r = Ok None /\ outside g r) \/
  (exists i f, radSeg g r = Ok (Some (i, f)) /\ ~ outside g r /\ 0 <= i < zlen g /\ (0 <= f <= 1)%R /\ (r = nodeR g (i - 1) + f * (nodeR g i - nodeR g (i - 1)))%R).
Proof.
  intros g r H Hr.
  assert (SR : sorted Rle g).
  { intros i j a b Hi Hj L. destruct (Nat.eq_dec i j) as [->|N]; [rewrite Hi in Hj; injection Hj as ->; lra|].
    left. refine (gridOk_lt g H i j a b Hi Hj _). lia. }
  destruct (C05_binSearch_real r g SR) as [k [Ek Sk]].
  { intros a0 aN L H0 HN. refine (gridOk_lt g H _ _ _ _ H0 HN _). lia. }
  assert (LN : (0 < length g)%nat) by (destruct g; [discriminate|simpl; lia]).
  assert (SEG : forall i, 0 <= i < zlen g -> (nodeR g (i - 1) <= r <= nodeR g i)%R -> k = i - 1 ->
    exists f, radSeg g r = Ok (Some (i, f)) /\ (0 <= f <= 1)%R /\ (r = nodeR g (i - 1) + f * (nodeR g i - nodeR g (i - 1)))%R).
  { intros i Hi B ->. pose proof (nodeR_lt g H i Hi) as P.
    exists ((r - nodeR g (i - 1)) / (nodeR g i - nodeR g (i - 1)))%R. split; [|split; [split|]].
    - unfold radSeg. rewrite Ek. cbn [bind]. replace (i - 1 + 1) with i by ring.
      replace (zlen g <=? i) with false by (symmetry; apply Z.leb_gt; lia).
      rewrite get_R by exact Hi. cbn [bind].
      destruct (i =? 0) eqn:C.
      + apply Z.eqb_eq in C. subst i. reflexivity.
      + apply Z.eqb_neq in C. rewrite get_R by lia. reflexivity.
    - apply Rmult_le_pos; [lra|]. left. apply Rinv_0_lt_compat. lra.
    - apply Rmult_le_reg_r with (nodeR g i - nodeR g (i - 1))%R; [lra|]. unfold Rdiv. rewrite Rmult_assoc, Rinv_l by lra. lra.
    - field. lra. }
  destruct Sk as [[E _]|(a0 & aN & H0 & HN & Sk)]; [subst g; discriminate|].
  assert (LA : last g 0%R = aN) by (rewrite last_nth; apply nth_err; exact HN).
  assert (OUT : k = zlen g - 1 -> radSeg g r = Ok None).
  { intros ->. unfold radSeg. rewrite Ek. cbn [bind]. replace (zlen g <=? zlen g - 1 + 1) with true by (symmetry; apply Z.leb_le; lia). reflexivity. }
  assert (N0 : nodeR g 0 = a0) by (unfold nodeR; cbn; apply nth_err; exact H0).
  assert (A0N : (a0 <= aN)%R) by (refine (SR _ _ _ _ H0 HN _); lia).
  unfold lt in Sk. destruct Sk as [[L ->]|[[L Ek']|[(L1 & L2 & L3 & ->)|(L1 & L2 & L3 & ak & ak1 & Hk & Hk1 & B1 & B2 & _)]]].
  - right. apply Rnot_le_lt in L. destruct (SEG 0) as (f & F1 & F2 & F3); [unfold zlen; lia| |reflexivity|].
    { rewrite N0. unfold nodeR. cbn. lra. }
    exists 0, f. split; [exact F1|]. split; [unfold outside; rewrite LA; intros [C|[_ C]]; lra|]. split; [unfold zlen; lia|]. split; assumption.
  - left. split; [apply OUT; exact Ek'|]. left. rewrite LA. apply Rnot_le_lt. exact L.
  - left. assert (LZ : zlen g = 1) by (unfold zlen; lia). split; [apply OUT; lia|]. right. split; [exact L3|]. rewrite L3 in HN. change (1 - 1)%nat with 0%nat in HN. rewrite H0 in HN. injection HN as <-. rewrite LA. exact L1.
  - right. destruct (SEG (k + 1)) as (f & F1 & F2 & F3); [lia| |lia|].
    { unfold nodeR. replace (k + 1 - 1 <? 0) with false by (symmetry; apply Z.ltb_ge; lia). replace (k + 1 <? 0) with false by (symmetry; apply Z.ltb_ge; lia).
      replace (k + 1 - 1) with k by ring. replace (Z.to_nat (k + 1)) with (Z.to_nat k + 1)%nat by lia. rewrite (nth_err _ _ _ Hk), (nth_err _ _ _ Hk1). lra. }
    exists (k + 1), f. split; [exact F1|]. split; [unfold outside; rewrite LA; intros [C|[C _]]; [lra|unfold zlen in L3; lia]|]. split; [lia|]. split; assumption.
Qed.

Lemma tan_quarter : tan (PI / 4) = 1%R. Proof. exact tan_PI4. Qed.
Lemma atan_quarter : forall t, (0 <= t <= 1)%R -> (0 <= atan t <= PI / 4)%R.
Proof.
  intros t [A B]. pose proof PI_RGT_0. split.
  - destruct A as [A|<-]; [rewrite <- atan_0; left; apply atan_increasing; exact A|rewrite atan_0; lra].
  - rewrite <- atan_1. destruct B as [B| ->]; [left; apply atan_increasing; exact B|lra].
Qed.
(** the strip contains the point: position in it is the angle in units of the width of one strip *)
Lemma strip_spec : forall s c1 c0, 1 <= s -> (0 <= c1 <= c0)%R -> exists i f, strip s c1 c0 = (i, f) /\ 0 <= i < s /\ (0 <= f <= 1)%R /\
  ((0 < c0)%R -> (c1 / c0 = tan (PI / 4 * (IZR i + f) / IZR s))%R).
Proof.
  intros s c1 c0 Hs [A B]. pose proof PI_RGT_0 as PP.
  assert (SP : (0 < IZR s)%R) by (apply IZR_lt; lia).
  set (q := (if Req_b c0 0 then 1 else Rmin (atan (c1 / c0) * (4 / PI)) 1)%R).
  assert (Q : (0 <= q <= 1)%R /\ ((0 < c0)%R -> q = atan (c1 / c0) * (4 / PI))%R).
  { unfold q. destruct (Req_b c0 0) eqn:E.
    - apply eqT in E. split; [lra|]. lra.
    - apply eqF in E. assert (CP : (0 < c0)%R) by lra.
      assert (T : (0 <= c1 / c0 <= 1)%R). { split; [apply Rmult_le_pos; [lra|left; apply Rinv_0_lt_compat; lra]|]. apply Rmult_le_reg_r with c0; [lra|]. unfold Rdiv. rewrite Rmult_assoc, Rinv_l by lra. lra. }
      pose proof (atan_quarter _ T) as [U V].
      assert (W : (0 <= atan (c1 / c0) * (4 / PI) <= 1)%R).
      { split; [apply Rmult_le_pos; [lra|]; apply Rmult_le_pos; [lra|left; apply Rinv_0_lt_compat; lra]|].
        apply Rmult_le_reg_r with (PI / 4)%R; [lra|]. replace (atan (c1 / c0) * (4 / PI) * (PI / 4))%R with (atan (c1 / c0)) by (field; lra). lra. }
      rewrite Rmin_left by lra. split; [lra|]. reflexivity. }
  destruct Q as [Q1 Q2].
  assert (RA : (0 <= q * IZR s <= IZR s)%R) by (split; nra).
  destruct (base_Int_part (q * IZR s)) as [I1 I2].
  assert (J0 : 0 <= Int_part (q * IZR s)). { assert (X : (IZR (-1) < IZR (Int_part (q * IZR s)))%R) by (change (IZR (-1)) with (-1)%R; lra). apply lt_IZR in X. lia. }
  assert (J1 : Int_part (q * IZR s) <= s) by (apply le_IZR; lra).
  exists (Z.min (Int_part (q * IZR s)) (s - 1)), (q * IZR s - IZR (Z.min (Int_part (q * IZR s)) (s - 1)))%R.
  split; [reflexivity|]. split; [lia|]. split.
  - destruct (Z.eq_dec (Int_part (q * IZR s)) s) as [E|N].
    + rewrite E in *. rewrite Z.min_r by lia. rewrite minus_IZR. lra.
    + rewrite Z.min_l by lia. lra.
  - intros CP. rewrite <- (tan_atan (c1 / c0)) at 1. f_equal. rewrite (Q2 CP).
    match goal with |- ?a = (_ * (IZR ?i + ?f) / _)%R => replace (IZR i + f)%R with (atan (c1 / c0) * (4 / PI) * IZR s)%R by ring end. field. lra.
Qed.
Lemma paneOf_spec : forall X Y Zc, exists pane c0 c1 c2, paneOf X Y Zc = Ok (pane, c0, c1, c2) /\ 0 <= pane < 3 /\ rotate pane c0 c1 c2 = (X, Y, Zc) /\ (c1 <= c0)%R /\ (c2 <= c0)%R.
Proof.
  intros X Y Zc. unfold paneOf. destruct (Rle_b Y X && Rlt_b Zc X) eqn:E1.
  - apply andb_prop in E1. destruct E1 as [A B]. apply leT in A. apply ltT in B. exists 0, X, Y, Zc. repeat split; try lia; try reflexivity; lra.
  - destruct (Rle_b Zc Y && Rlt_b X Y) eqn:E2.
    + apply andb_prop in E2. destruct E2 as [A B]. apply leT in A. apply ltT in B. exists 1, Y, Zc, X. repeat split; try lia; try reflexivity; lra.
    + assert (XZ : (X <= Zc)%R /\ (Y <= Zc)%R).
      { apply andb_false_iff in E1, E2. destruct E1 as [E1|E1], E2 as [E2|E2];
        first [apply leF in E1|apply ltF in E1]; first [apply leF in E2|apply ltF in E2]; lra. }
      destruct XZ as [A B]. exists 2, Zc, X, Y.
      assert (A' : Rle_b X Zc = true). { destruct (Rle_b X Zc) eqn:E; [reflexivity|apply leF in E; lra]. }
      assert (B' : Rle_b Y Zc = true). { destruct (Rle_b Y Zc) eqn:E; [reflexivity|apply leF in E; lra]. }
      rewrite A', B'. repeat split; try lia; try reflexivity; lra.
Qed.
(** any of the four corners of a cell, as decoded from its index, is where it should be *)
Definition cornerPos (s pane j1 j2 : Z) : R * R * R := rotate pane 1%R (tanS s j1) (tanS s j2).
Lemma tanS_s : forall s, 1 <= s -> tanS s s = 1%R.
Proof. intros s H. unfold tanS. replace (PI / 4 * IZR s / IZR s)%R with (PI / 4)%R; [exact tan_PI4|]. field. apply not_0_IZR. lia. Qed.
Lemma node_decode : forall s shell pane j1 j2, 1 <= s -> 0 <= shell -> 0 <= pane < 3 -> 0 <= j1 <= s -> 0 <= j2 < s ->
  nodeClassic s (shell * vps 1 s + 1 + (j1 + (j2 + pane * s) * (s + 1))) = (shell, cornerPos s pane j1 j2).
Proof.
  intros s shell pane j1 j2 Hs H0 Hp H1 H2.
  assert (B : 0 <= j1 + (j2 + pane * s) * (s + 1) < vps 1 s - 1) by (unfold vps; nia).
  unfold nodeClassic. replace (shell * vps 1 s + 1 + (j1 + (j2 + pane * s) * (s + 1)) =? 0) with false by (symmetry; apply Z.eqb_neq; nia).
  replace (shell * vps 1 s + 1 + (j1 + (j2 + pane * s) * (s + 1)) - 1) with (j1 + (j2 + pane * s) * (s + 1) + shell * vps 1 s) by ring.
  rewrite Z.div_add, Z.mod_add by (unfold vps; nia). rewrite Z.div_small, Z.mod_small by lia. cbn zeta.
  replace (j1 + (j2 + pane * s) * (s + 1) =? vps 1 s - 1) with false by (symmetry; apply Z.eqb_neq; lia).
  replace (j1 + (j2 + pane * s) * (s + 1)) with (j1 + j2 * (s + 1) + pane * (s * (s + 1))) by ring.
  rewrite Z.div_add, Z.mod_add by nia. rewrite (Z.div_small (j1 + j2 * (s + 1))), (Z.mod_small (j1 + j2 * (s + 1))) by nia.
  rewrite Z.div_add, Z.mod_add by lia. rewrite Z.div_small, Z.mod_small by lia. reflexivity.
Qed.
Lemma node_central : forall s shell, 1 <= s -> 0 <= shell -> nodeClassic s (shell * vps 1 s + 1 + 3 * s * (s + 1)) = (shell, (1, 1, 1)%R).
Proof.
  intros s shell Hs H0. unfold nodeClassic. replace (shell * vps 1 s + 1 + 3 * s * (s + 1) =? 0) with false by (symmetry; apply Z.eqb_neq; unfold vps; nia).
  replace (shell * vps 1 s + 1 + 3 * s * (s + 1) - 1) with (3 * s * (s + 1) + shell * vps 1 s) by ring.
  rewrite Z.div_add, Z.mod_add by (unfold vps; nia). rewrite Z.div_small, Z.mod_small by (unfold vps; nia). cbn zeta.
  replace (3 * s * (s + 1) =? vps 1 s - 1) with true by (symmetry; apply Z.eqb_eq; unfold vps; ring). reflexivity.
Qed.
Lemma corner1_spec : forall s pane i1 i2, 1 <= s -> 0 <= pane < 3 -> 0 <= i1 < s -> 0 <= i2 < s -> exists ll ul lu uu, corner1 pane i1 i2 s = (ll, ul, lu, uu) /\
  forall shell, 0 <= shell ->
  nodeClassic s (shell * vps 1 s + 1 + ll) = (shell, cornerPos s pane i1 i2) /\
  nodeClassic s (shell * vps 1 s + 1 + ul) = (shell, cornerPos s pane (i1 + 1) i2) /\
  nodeClassic s (shell * vps 1 s + 1 + lu) = (shell, cornerPos s pane i1 (i2 + 1)) /\
  nodeClassic s (shell * vps 1 s + 1 + uu) = (shell, cornerPos s pane (i1 + 1) (i2 + 1)) /\
  (forall k, In k [ll; ul; lu; uu] -> 0 <= k < vps 1 s).
Proof.
  intros s pane i1 i2 Hs Hp H1 H2. unfold corner1. destruct (i2 <? s - 1) eqn:C.
  - apply Z.ltb_lt in C. do 4 eexists. split; [reflexivity|]. intros shell H0. split; [apply node_decode; lia|].
    split; [rewrite <- node_decode by lia; f_equal; ring|]. split; [rewrite <- node_decode by lia; f_equal; ring|]. split; [rewrite <- node_decode by lia; f_equal; ring|].
    intros k [<-|[<-|[<-|[<-|[]]]]]; unfold vps; nia.
  - apply Z.ltb_ge in C. assert (E : i2 = s - 1) by lia. do 4 eexists. split; [reflexivity|]. intros shell H0.
    assert (AD : 0 <= (pane + 2) mod 3 < 3) by (apply Z.mod_pos_bound; lia).
    assert (ROT : forall t, rotate ((pane + 2) mod 3) 1%R 1%R t = rotate pane 1%R t 1%R).
    { intros t. assert (D : pane = 0 \/ pane = 1 \/ pane = 2) by lia. destruct D as [->|[->| ->]]; reflexivity. }
    assert (ADJ : forall j, 0 <= j < s -> nodeClassic s (shell * vps 1 s + 1 + ((j + (pane + 2) mod 3 * s + 1) * (s + 1) - 1)) = (shell, cornerPos s pane j s)).
    { intros j Hj. replace ((j + (pane + 2) mod 3 * s + 1) * (s + 1) - 1) with (s + (j + (pane + 2) mod 3 * s) * (s + 1)) by ring.
      rewrite node_decode by lia. unfold cornerPos. rewrite tanS_s by lia. rewrite ROT. reflexivity. }
    split; [apply node_decode; lia|]. split; [rewrite <- node_decode by lia; f_equal; ring|].
    replace (i2 + 1) with s by lia. split; [apply ADJ; lia|]. destruct (i1 <? s - 1) eqn:C1.
    + apply Z.ltb_lt in C1. split; [rewrite <- ADJ by lia; f_equal; ring|].
      intros k [<-|[<-|[<-|[<-|[]]]]]; unfold vps; nia.
    + apply Z.ltb_ge in C1. split.
      * replace (i1 + 1) with s by lia. rewrite node_central by lia. unfold cornerPos. rewrite tanS_s by lia. assert (D : pane = 0 \/ pane = 1 \/ pane = 2) by lia. destruct D as [->|[->| ->]]; reflexivity.
      * intros k [<-|[<-|[<-|[<-|[]]]]]; unfold vps; nia.
Qed.
