From Coquelicot Require Import Coquelicot.
From Verif Require Import Arr BinSearchModel SplineModel SplineGlue SplIntModel PolyProofs RootProofs SplineSpec SplIntSpec SplIntProofs SplIntProofs2 VanderProofs.
Local Open Scope R_scope.

Lemma RI_unique (f : R -> R) (a b u : R) : is_RInt f a b u -> RInt f a b = u. Proof. intros H. exact (is_RInt_unique f a b u H). Qed.
Lemma for_ext {S} lo hi (f g : Z -> S -> res S) s : (forall i s, (lo <= i < hi)%Z -> f i s = g i s) -> for_ lo hi f s = for_ lo hi g s.
Proof.
  intros H. unfold for_. assert (G : forall n i s, (lo <= i)%Z -> (i + Z.of_nat n <= Z.max lo hi)%Z -> forn n i f s = forn n i g s).
  { induction n as [|n IH]; intros i s' Hi Hn; cbn [forn]; [reflexivity|]. rewrite H by lia. destruct (g i s'); cbn [bind]; try reflexivity. apply IH; lia. }
  apply G; lia.
Qed.

Lemma zsum_const lo hi c : (lo <= hi)%Z -> zsum lo hi (fun _ => c) = IZR (hi - lo) * c.
Proof.
  intros H. unfold zsum. rewrite <- (Z2Nat.id (hi - lo)) at 2 by lia. rewrite <- INR_IZR_INZ. generalize (Z.to_nat (hi - lo)) as n. intros n. generalize lo.
  induction n as [|n IH]; intros l; cbn [zsumn]; [cbn; ring|]. rewrite IH, S_INR. ring.
Qed.
Section Segs.
  Variables (N : nat) (CONV : bool) (S : interp) (G F : R -> R) (Fi : R -> R -> Z -> R) (xc x1 x2 : R) (i2 : Z).
  Notation x := (i_x S).
  Hypothesis Hx : increasing x.
  Hypothesis Hi2 : (0 <= i2 < alen x)%Z.
  Hypothesis HF : computes S G.
  Hypothesis HP : piecewise_poly N x G.
  Hypothesis HI : integrates F Fi.
  Definition tl i := if CONV then xc - afn x (i + 1)%Z else Rmax x1 (afn x i).
  Definition th i := if CONV then xc - afn x i else Rmin x2 (afn x (i + 1)%Z).
  Definition tt y := if CONV then xc - y else y.
  Definition Sf t := G (if CONV then xc - t else t).
  Hypothesis Hseg : CONV = false -> forall i, (0 <= i < i2)%Z -> Rmax x1 (afn x i) <= Rmin x2 (afn x (i + 1)%Z).
  Definition J i := RInt (fun t => F t * Sf t) (tl i) (th i).
  Definition Q i := Fi (tl i) (th i) 0%Z.

  Lemma seg_poly i : (0 <= i < i2)%Z -> exists a, forall y, afn x i <= y <= afn x (i + 1)%Z -> G y = poly N a (tt y).
  Proof.
    intros Hi. destruct (HP i ltac:(lia)) as (a & Ha). unfold tt. destruct CONV; [|exists a; exact Ha].
    destruct (poly_affine N a xc (-1)) as (b & Hb). exists b. intros y Hy. rewrite (Ha y Hy), <- Hb. f_equal. ring.
  Qed.
  Lemma seg_bounds i : (0 <= i < i2)%Z -> tl i <= th i /\ forall t, tl i <= t <= th i -> exists y, afn x i <= y <= afn x (i + 1)%Z /\ tt y = t /\ Sf t = G y.
  Proof.
    intros Hi. pose proof (inc_lt x Hx i (i + 1) ltac:(lia) ltac:(lia) ltac:(lia)) as L. unfold tl, th, tt, Sf. destruct CONV eqn:EC.
    - split; [lra|]. intros t Ht. exists (xc - t). split; [lra|]. split; [ring|reflexivity].
    - pose proof (Hseg eq_refl i Hi) as H. pose proof (Rmax_r x1 (afn x i)). pose proof (Rmin_r x2 (afn x (i + 1)%Z)). split; [exact H|]. intros t Ht. exists t. split; [lra|]. split; reflexivity.
  Qed.
  Lemma J_is i a : (0 <= i < i2)%Z -> (forall y, afn x i <= y <= afn x (i + 1)%Z -> G y = poly N a (tt y)) ->
    is_RInt (fun t => F t * Sf t) (tl i) (th i) (zsum 0 (Z.of_nat N + 1) (fun n => Fi (tl i) (th i) n * a (Z.to_nat n))).
  Proof.
    intros Hi Ha. destruct (seg_bounds i Hi) as (B1 & B2).
    apply (RI_ext (fun t => F t * poly N a t)).
    { intros t Ht. rewrite Rmin_left, Rmax_right in Ht by lra. destruct (B2 t ltac:(lra)) as (y & Hy & E & ->). rewrite (Ha y Hy), E. reflexivity. }
    rewrite zsum_sum. clear Ha HP. induction N as [|m IH].
    - apply (RI_ext (fun t => a 0%nat * (F t * t ^ Z.to_nat 0))); [intros; unfold poly; cbn; ring|]. eapply RI_val; [apply RI_scal, HI; lia|]. cbn. ring.
    - apply (RI_ext (fun t => F t * poly m a t + a (Datatypes.S m) * (F t * t ^ Z.to_nat (Z.of_nat (Datatypes.S m))))).
      { intros t _. rewrite poly_last, Nat2Z.id. ring. }
      cbn [sum_f_R0]. apply RI_plus; [exact IH|]. eapply RI_val; [apply RI_scal, HI; lia|]. rewrite Nat2Z.id. ring.
  Qed.
  Lemma segs_loop1 : exists I0 : arr (option R),
    for_ 0 i2 (fun i (st : arr (option R) * R) =>
          let (I0, sum) := st in
          yl <- aget x i ;; yh <- aget x (i + 1)%Z ;;
          I0 <- aset I0 (i - 0)%Z (Some (Fi (if CONV then xc - yh else Rmax x1 yl) (if CONV then xc - yl else Rmin x2 yh) 0%Z)) ;;
          a <- oget I0 i ;;
          Ok (I0, (sum + a)%R)) (anew (i2 - 0) None, 0%R) = Ok (I0, zsum 0 i2 Q) /\ alen I0 = i2 /\ forall i, (0 <= i < i2)%Z -> afn I0 i = Some (Q i).
  Proof.
    match goal with |- exists I0, for_ 0 i2 ?b ?s = _ /\ _ =>
      destruct (for_total (fun i (st : arr (option R) * R) => alen (fst st) = i2 /\ (forall k, (0 <= k < i)%Z -> afn (fst st) k = Some (Q k)) /\ snd st = zsum 0 i Q) 0 i2 b s) as ([I0 sm] & E & A1 & A2 & A3) end; [lia| | |].
    - cbn [fst snd alen anew]. split; [lia|]. split; [intros; lia|]. rewrite zsum_nil by lia. reflexivity.
    - intros i [I0 sm] Hi (A1 & A2 & A3). cbn [fst snd] in *. rewrite !aget_ok by lia. cbn [bind]. rewrite Z.sub_0_r. rewrite aset_ok by lia. cbn [bind]. unfold oget. rewrite aget_ok by (cbn; lia). cbn [bind afn]. rewrite upd_same. cbn [bind].
      eexists. split; [reflexivity|]. cbn [fst snd alen afn]. split; [exact A1|]. split.
      + intros k Hk. unfold upd. destruct (Z.eqb_spec k i) as [->|]; [reflexivity|apply A2; lia].
      + rewrite zsum_last by lia. rewrite A3. reflexivity.
    - cbn [fst snd] in *. subst sm. exists I0. split; [exact E|]. split; [exact A1|exact A2].
  Qed.
  Lemma segs_ok : integrateSegs (Z.of_nat N) CONV S Fi xc x1 x2 0 i2 =
    Ok (zsum 0 i2 (fun i => if Rlt_b (Rabs (Q i)) (Rabs (zsum 0 i2 Q) * deps) then 0 else J i)).
  Proof.
    unfold integrateSegs. destruct segs_loop1 as (I0 & E & L0 & H0). cbv zeta. rewrite E. cbn [bind].
    match goal with |- _ = Ok ?s => rewrite <- (Rplus_0_l s) end. apply for_sum; [lia|]. intros i r Hi.
    rewrite Z.sub_0_r. unfold oget. rewrite aget_ok by lia. cbn [bind]. rewrite H0 by exact Hi. cbn [bind].
    destruct (Rlt_b (Rabs (Q i)) (Rabs (zsum 0 i2 Q) * deps)); [f_equal; ring|].
    rewrite !aget_ok by lia. cbn [bind]. fold (tl i). fold (th i).
    pose proof (inc_lt x Hx i (i + 1) ltac:(lia) ltac:(lia) ltac:(lia)) as L.
    set (yk := fun k => afn x i + (IZR k + / 2) / IZR (Z.of_nat N + 1) * (afn x (i + 1)%Z - afn x i)).
    assert (NP : 0 < IZR (Z.of_nat N + 1)) by (apply IZR_lt; lia).
    assert (Yk : forall k, (0 <= k <= Z.of_nat N)%Z -> afn x i <= yk k <= afn x (i + 1)%Z).
    { intros k Hk. unfold yk. assert (0 <= (IZR k + / 2) / IZR (Z.of_nat N + 1) <= 1).
      { assert (0 <= IZR k <= IZR (Z.of_nat N + 1) - 1) by (rewrite <- minus_IZR; split; apply IZR_le; lia). split; [apply Rdiv_le_0_compat; lra|].
        apply Rmult_le_reg_r with (IZR (Z.of_nat N + 1)); [exact NP|]. unfold Rdiv. rewrite Rmult_assoc, Rinv_l by lra. lra. }
      nra. }
    assert (Yi : forall k l, (k < l)%Z -> yk k < yk l).
    { intros k l Hkl. unfold yk. apply Rplus_lt_compat_l, Rmult_lt_compat_r; [lra|]. unfold Rdiv. apply Rmult_lt_compat_r; [apply Rinv_0_lt_compat; exact NP|]. apply Rplus_lt_compat_r, IZR_lt, Hkl. }
    destruct (seg_poly i Hi) as (a & Ha).
    match goal with |- bind ?e _ = _ => assert (LP : exists t v : arr R, e = Ok (t, v) /\ alen t = (Z.of_nat N + 1)%Z /\ alen v = (Z.of_nat N + 1)%Z /\ forall k, (0 <= k <= Z.of_nat N)%Z -> afn t k = tt (yk k) /\ afn v k = G (yk k)) end.
    { match goal with |- exists t v, for_ 0 ?h ?b ?s = _ /\ _ =>
        destruct (for_total (fun k (tv : arr R * arr R) => alen (fst tv) = (Z.of_nat N + 1)%Z /\ alen (snd tv) = (Z.of_nat N + 1)%Z /\ forall j, (0 <= j < k)%Z -> afn (fst tv) j = tt (yk j) /\ afn (snd tv) j = G (yk j)) 0 h b s) as ([t v] & E' & A1 & A2 & A3) end; [lia| | |].
      - cbn. split; [reflexivity|]. split; [reflexivity|]. intros; lia.
      - intros k [t v] Hk (A1 & A2 & A3). cbn [fst snd] in *. rewrite aset_ok by lia. cbn [bind]. fold (yk k). rewrite HF.
        2:{ pose proof (Yk k ltac:(lia)). unfold x_first, x_last. pose proof (inc_le x Hx 0 i ltac:(lia) ltac:(lia) ltac:(lia)). pose proof (inc_le x Hx (i + 1) (alen x - 1) ltac:(lia) ltac:(lia) ltac:(lia)). lra. }
        cbn [bind]. rewrite aset_ok by lia. cbn [bind]. eexists. split; [reflexivity|]. cbn [fst snd alen afn]. split; [exact A1|]. split; [exact A2|].
        intros j Hj. unfold upd. destruct (Z.eqb_spec j k) as [->|]; [split; reflexivity|apply A3; lia].
      - cbn [fst snd] in *. exists t, v. split; [exact E'|]. split; [exact A1|]. split; [exact A2|]. intros k Hk. apply A3. lia. }
    destruct LP as (t & v & -> & Lt & Lv & Htv). cbn [bind].
    destruct (vandermonde_ok N t v Lt Lv) with (a := a) as (c & Ec & Lc & Hc).
    { intros k l H1 H2. rewrite (proj1 (Htv k ltac:(lia))), (proj1 (Htv l ltac:(lia))). pose proof (Yi k l ltac:(lia)). unfold tt. destruct CONV; lra. }
    { intros k Hk. destruct (Htv k Hk) as (-> & ->). apply Ha, Yk, Hk. }
    rewrite Ec. cbn [bind]. unfold J. rewrite (RI_unique _ _ _ _ (J_is i a Hi Ha)). apply for_sum; [lia|]. intros k r' Hk.
    rewrite aget_ok by lia. cbn [bind]. replace (afn c k) with (a (Z.to_nat k)) by (rewrite <- Hc by lia; rewrite Z2Nat.id by lia; reflexivity). destruct (Z.eqb_spec k 0) as [->|]; reflexivity.
  Qed.
  Lemma J_RInt i : (0 <= i < i2)%Z -> is_RInt (fun t => F t * Sf t) (tl i) (th i) (J i).
  Proof. intros Hi. destruct (seg_poly i Hi) as (a & Ha). unfold J. rewrite (RI_unique _ _ _ _ (J_is i a Hi Ha)). apply J_is; assumption. Qed.
  Lemma Q_RInt i : is_RInt F (tl i) (th i) (Q i).
  Proof. apply (RI_ext (fun t => F t * t ^ Z.to_nat 0)); [intros; cbn; ring|]. apply HI. lia. Qed.
  (** the error due to skipped segments *)
  Lemma segs_err M : (forall y, x_first x <= y <= x_last x -> Rabs (G y) <= M) -> (forall t, 0 <= F t) ->
    Rabs (zsum 0 i2 (fun i => if Rlt_b (Rabs (Q i)) (Rabs (zsum 0 i2 Q) * deps) then 0 else J i) - zsum 0 i2 J) <= IZR i2 * M * deps * zsum 0 i2 Q.
  Proof.
    intros HM HF0. rewrite zsum_minus.
    assert (QP : forall i, (0 <= i < i2)%Z -> 0 <= Q i).
    { intros i Hi. destruct (seg_bounds i Hi) as (B1 & _). eapply (is_RInt_ge_0 F); [exact B1|apply Q_RInt|]. intros; apply HF0. }
    pose proof (zsum_nonneg 0 i2 Q QP) as SQ.
    assert (EQ : IZR i2 * M * deps * zsum 0 i2 Q = zsum 0 i2 (fun _ => M * (deps * zsum 0 i2 Q))).
    { rewrite zsum_const by lia. rewrite Z.sub_0_r. ring. }
    rewrite EQ. eapply Rle_trans; [apply zsum_abs|]. apply zsum_le. intros i Hi.
    pose proof (QP i Hi) as Qi. destruct (seg_bounds i Hi) as (B1 & B2).
    assert (M0 : 0 <= M). { pose proof (inc_le x Hx 0 (alen x - 1) ltac:(lia) ltac:(lia) ltac:(lia)). specialize (HM (x_first x) ltac:(unfold x_first, x_last; lra)). pose proof (Rabs_pos (G (x_first x))). lra. }
    assert (D0 : 0 <= deps) by (unfold deps; apply Rlt_le, Rinv_0_lt_compat, pow_lt; lra).
    unfold Rlt_b. destruct (Rlt_dec (Rabs (Q i)) (Rabs (zsum 0 i2 Q) * deps)) as [Sk|_].
    2:{ rewrite Rminus_eq_0, Rabs_R0. apply Rmult_le_pos; [exact M0|]. apply Rmult_le_pos; [exact D0|exact SQ]. }
    rewrite (Rabs_pos_eq (Q i)), (Rabs_pos_eq (zsum 0 i2 Q)) in Sk by assumption.
    assert (BG : forall t, tl i < t < th i -> Rabs (Sf t) <= M).
    { intros t Ht. destruct (B2 t ltac:(lra)) as (y & Hy & _ & ->). apply HM. unfold x_first, x_last. pose proof (inc_le x Hx 0 i ltac:(lia) ltac:(lia) ltac:(lia)). pose proof (inc_le x Hx (i + 1) (alen x - 1) ltac:(lia) ltac:(lia) ltac:(lia)). lra. }
    pose proof (J_RInt i Hi) as JI. pose proof (RI_scal M _ _ _ _ (Q_RInt i)) as QI. pose proof (RI_scal (- M) _ _ _ _ (Q_RInt i)) as QI'.
    assert (U : J i <= M * Q i).
    { eapply (is_RInt_le _ _ _ _ _ _ B1 JI QI). intros t Ht. pose proof (BG t Ht) as Bt. pose proof (HF0 t). apply Rabs_le_between in Bt. nra. }
    assert (V : - M * Q i <= J i).
    { eapply (is_RInt_le _ _ _ _ _ _ B1 QI' JI). intros t Ht. pose proof (BG t Ht) as Bt. pose proof (HF0 t). apply Rabs_le_between in Bt. nra. }
    apply Rabs_le. nra.
  Qed.
End Segs.
