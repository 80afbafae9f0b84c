(** C67: density discretization schemes used in Schwarzschild modelling (galaxymodel_densitygrid). *)
From Verif Require Import Base RandReal PolyModel PolyProofs TargetModel TargetProofs TargetProofs2 TargetProofs3.
From Coq Require Import Reals Lra Lia.
Local Open Scope Z_scope.

(** constructors accept exactly the valid parameters; the stored grid is positive and strictly increasing, and is the input without a leading zero *)
Definition validGrid (g : list R) : Prop := g <> [] /\ (forall i a, nth_error g i = Some a -> (0 < a)%R) /\ (forall i j a b, nth_error g i = Some a -> nth_error g j = Some b -> (i < j)%nat -> (a < b)%R).
Lemma incb_intro : forall l p, (forall i a, nth_error l i = Some a -> (p < a)%R) -> (forall i j a b, nth_error l i = Some a -> nth_error l j = Some b -> (i < j)%nat -> (a < b)%R) -> increasingb p l = true.
Proof.
  induction l as [|x t IH]; intros p H1 H2; [reflexivity|]. simpl. apply andb_true_intro. split.
  - apply Rlt_b_t. apply (H1 0%nat). reflexivity.
  - apply IH.
    + intros i a Hi. apply (H2 0%nat (S i) x a); [reflexivity|exact Hi|lia].
    + intros i j a b Hi Hj L. apply (H2 (S i) (S j)); [exact Hi|exact Hj|lia].
Qed.
Lemma gridOk_valid : forall g, gridOk g = true <-> validGrid g.
Proof.
  intros g. split.
  - intros H. split; [intros ->; discriminate|]. split; [exact (gridOk_pos g H)|exact (gridOk_lt g H)].
  - intros (N & P & L). destruct g as [|x t]; [contradiction|]. exact (incb_intro (x :: t) 0 P L).
Qed.
Lemma skipZero_cases : forall grid, (exists x t, grid = x :: t /\ (x <= 0)%R /\ skipZero grid = t) \/ ((grid = [] \/ exists x t, grid = x :: t /\ (0 < x)%R) /\ skipZero grid = grid).
Proof.
  intros [|x t]; [right; split; [left; reflexivity|reflexivity]|]. simpl. destruct (Rlt_b 0 x) eqn:E.
  - right. split; [right; exists x, t; split; [reflexivity|exact (ltT _ _ E)]|reflexivity].
  - left. exists x, t. split; [reflexivity|]. split; [exact (ltF _ _ E)|reflexivity].
Qed.
Theorem C67_constructors : forall grid,
  (forall s p q g, mkClassic s grid p q = Some g <-> 1 <= s /\ (0 < p)%R /\ (0 < q)%R /\ g = skipZero grid /\ validGrid g) /\
  (forall lmax mmax g, mkSph lmax mmax grid = Some g <-> 0 <= mmax <= lmax /\ g = skipZero grid /\ validGrid g) /\
  (forall mmax grid2 g g2, mkCyl mmax grid grid2 = Some (g, g2) <-> 0 <= mmax /\ g = skipZero grid /\ g2 = skipZero grid2 /\ validGrid g /\ validGrid g2) /\
  ((exists x t, grid = x :: t /\ (x <= 0)%R /\ skipZero grid = t) \/ ((grid = [] \/ exists x t, grid = x :: t /\ (0 < x)%R) /\ skipZero grid = grid)).
Proof.
  intros grid. split; [|split; [|split]].
  - intros s p q g. unfold mkClassic. cbv zeta. split.
    + destruct (negb (gridOk (skipZero grid)) || (s <? 1) || Rle_b p 0 || Rle_b q 0) eqn:E; [discriminate|]. intros H. injection H as <-.
      apply orb_false_iff in E. destruct E as [E E4]. apply orb_false_iff in E. destruct E as [E E3]. apply orb_false_iff in E. destruct E as [E1 E2].
      apply negb_false_iff in E1. apply Z.ltb_ge in E2. apply leF in E3, E4. repeat split; try assumption; apply gridOk_valid; assumption.
    + intros (A & B & C & -> & V). apply gridOk_valid in V. rewrite V. replace (s <? 1) with false by (symmetry; apply Z.ltb_ge; lia). rewrite !Rle_b_f by assumption. reflexivity.
  - intros lmax mmax g. unfold mkSph. cbv zeta. split.
    + destruct ((0 <=? lmax) && (0 <=? mmax) && (mmax <=? lmax) && gridOk (skipZero grid)) eqn:E; [|discriminate]. intros H. injection H as <-.
      repeat (apply andb_prop in E; destruct E as [E ?]). apply Z.leb_le in H0, H1. split; [lia|]. split; [reflexivity|]. apply gridOk_valid. assumption.
    + intros (A & -> & V). apply gridOk_valid in V. rewrite V. replace (0 <=? lmax) with true by (symmetry; apply Z.leb_le; lia). replace (0 <=? mmax) with true by (symmetry; apply Z.leb_le; lia). replace (mmax <=? lmax) with true by (symmetry; apply Z.leb_le; lia). reflexivity.
  - intros mmax grid2 g g2. unfold mkCyl. cbv zeta. split.
    + destruct ((0 <=? mmax) && gridOk (skipZero grid) && gridOk (skipZero grid2)) eqn:E; [|discriminate]. intros H. injection H as <- <-.
      repeat (apply andb_prop in E; destruct E as [E ?]). apply Z.leb_le in E. repeat split; try assumption; apply gridOk_valid; assumption.
    + intros (A & -> & -> & V & W). apply gridOk_valid in V, W. rewrite V, W. replace (0 <=? mmax) with true by (symmetry; apply Z.leb_le; lia). reflexivity.
  - apply skipZero_cases.
Qed.
(** the axes of the ellipsoidal grid have the requested ratios and unit product *)
Theorem C67_axes : forall p q, (0 < p)%R -> (0 < q)%R -> let '(a, b, c) := axes p q in (0 < a)%R /\ (0 < b)%R /\ (0 < c)%R /\ (b / a = p)%R /\ (c / a = q)%R /\ (a * b * c = 1)%R.
Proof.
  intros p q Hp Hq. unfold axes. set (t := Rpower (p * q) (1 / 3)). assert (T : (0 < t)%R) by apply exp_pos. assert (PQ : (0 < p * q)%R) by nra.
  assert (T3 : (t * t * t = p * q)%R).
  { unfold t. rewrite <- !Rpower_plus. replace (1 / 3 + 1 / 3 + 1 / 3)%R with 1%R by field. apply Rpower_1. exact PQ. }
  assert (I : (0 < 1 / t)%R) by (apply Rdiv_lt_0_compat; lra).
  split; [exact I|]. split; [nra|]. split; [nra|]. split; [field; lra|]. split; [field; lra|].
  replace (1 / t * (p * (1 / t)) * (q * (1 / t)))%R with (p * q / (t * t * t))%R by (field; lra). rewrite T3. field. lra.
Qed.

(** the radial segment: the search never fails, and returns the cell containing r, with the linear coordinate in it; [nodeR g (-1)] is the implied node at zero *)
Theorem C67_radial_segment : forall g r, validGrid g -> (0 <= r)%R ->
  (radSeg g r = Ok None /\ outside g r) \/
  (exists i f, radSeg g r = Ok (Some (i, f)) /\ ~ outside g r /\ 0 <= i < zlen g /\ (0 <= f <= 1)%R /\ (r = nodeR g (i - 1) + f * (nodeR g i - nodeR g (i - 1)))%R).
Proof. intros g r V. apply radSeg_spec. apply gridOk_valid. exact V. Qed.

(** ** Classic scheme *)
(** ellipsoidal radius and the scaled coordinates *)
Definition scaled (p q x y z : R) : R * R * R := let '(a, b, c) := axes p q in (Rabs (x / a), Rabs (y / b), Rabs (z / c)).
Definition ellRadius (p q x y z : R) : R := let '(a, b, c) := axes p q in sqrt (Rsqr (x / a) + Rsqr (y / b) + Rsqr (z / c)).
Section classic.
  Variables (s : Z) (grid g : list R) (p q : R).
  Hypothesis HC : mkClassic s grid p q = Some g.
  Lemma Habs_div : forall a b, (0 < b)%R -> (Rabs a / b = Rabs (a / b))%R.
  Proof using. intros a b H. unfold Rdiv. rewrite Rabs_mult. rewrite (Rabs_right (/ b)); [reflexivity|]. left. apply Rinv_0_lt_compat. exact H. Qed.
  Lemma ell_eq : forall x y z, let '(X, Y, Zc) := scaled p q x y z in sqrt (X * X + Y * Y + Zc * Zc) = ellRadius p q x y z.
  Proof using. intros. unfold scaled, ellRadius. destruct (axes p q) as [[a b] c]. f_equal. unfold Rsqr. rewrite <- !Rabs_mult. rewrite !Rabs_right by (apply Rle_ge, Rle_0_sqr). reflexivity. Qed.
  (** all 3-d information: where the contributions go and with which weights *)
  Lemma classic_cases : forall N x y z mult, let '(X, Y, Zc) := scaled p q x y z in let r := ellRadius p q x y z in
    (outside g r /\ addClassic N s g (axes p q) x y z mult = Ok []) \/
    (~ outside g r /\ mult = 0%R /\ addClassic N s g (axes p q) x y z mult = Ok []) \/
    (~ outside g r /\ mult <> 0%R /\ exists pane i1 f1 i2 f2 ish off, located s g X Y Zc pane i1 f1 i2 f2 ish off /\
     (N = 0 -> addClassic N s g (axes p q) x y z mult = Ok [(corner0 pane i1 i2 s + ish * vps N s, mult)]) /\
     (N = 1 -> exists ll ul lu uu, corner1 pane i1 i2 s = (ll, ul, lu, uu) /\
        let four (o : Z) (v : R) := [((o + ll)%Z, (1 - f1) * (1 - f2) * v); ((o + ul)%Z, f1 * (1 - f2) * v); ((o + lu)%Z, (1 - f1) * f2 * v); ((o + uu)%Z, f1 * f2 * v)]%R in
        addClassic N s g (axes p q) x y z mult = Ok (four (ish * vps N s + 1) (mult * off)%R ++ (if ish =? 0 then [(0, (mult - mult * off)%R)] else four (ish * vps N s + 1 - vps N s) (mult - mult * off)%R)))).
  Proof using HC.
    intros N x y z mult. apply C67_constructors in HC. destruct HC as (Hs & Hp & Hq & _ & V). apply gridOk_valid in V.
    pose proof (C67_axes p q Hp Hq) as HA. pose proof (ell_eq x y z) as HE. revert HE. unfold scaled. destruct (axes p q) as [[a b] c]. destruct HA as (A1 & A2 & A3 & _).
    intros <-. pose proof (addClassic_spec N s g a b c x y z mult V Hs A2 A3) as T. cbv zeta in T. rewrite !Habs_div in T by assumption. exact T.
  Qed.
  Lemma HsV : 1 <= s /\ validGrid g. Proof using HC. apply C67_constructors in HC. destruct HC as (Hs & _ & _ & _ & V). split; assumption. Qed.

  (** N=0: a point inside the grid adds its weight to exactly one cell; the index encodes the shell, the pane and the two strips containing the point *)
  Theorem C67_classic0_cell : forall x y z mult, let '(X, Y, Zc) := scaled p q x y z in
    (outside g (ellRadius p q x y z) -> addClassic 0 s g (axes p q) x y z mult = Ok []) /\
    (~ outside g (ellRadius p q x y z) -> mult <> 0%R -> exists pane i1 f1 i2 f2 ish off k, located s g X Y Zc pane i1 f1 i2 f2 ish off /\
      addClassic 0 s g (axes p q) x y z mult = Ok [(k, mult)] /\ 0 <= k < numClassic 0 s g /\
      k / vps 0 s = ish /\ k mod s = i1 /\ (k / s) mod s = i2 /\ (k mod vps 0 s) / (s * s) = pane).
  Proof using HC.
    intros x y z mult. pose proof (classic_cases 0 x y z mult) as T. destruct (scaled p q x y z) as [[X Y] Zc]. cbv zeta in T. destruct HsV as [Hs _]. split.
    - intros O. destruct T as [[_ T]|[[C _]|[C _]]]; [exact T|contradiction|contradiction].
    - intros NO NM. destruct T as [[C _]|[[_ [C _]]|(_ & _ & pane & i1 & f1 & i2 & f2 & ish & off & L & T & _)]]; [contradiction|contradiction|].
      specialize (T eq_refl). pose proof L as (P1 & P2 & P3 & P4 & _).
      exists pane, i1, f1, i2, f2, ish, off, (corner0 pane i1 i2 s + ish * vps 0 s). split; [exact L|]. split; [exact T|].
      assert (VP : vps 0 s = 3 * (s * s)) by (unfold vps; ring). assert (B : 0 <= corner0 pane i1 i2 s < vps 0 s) by (rewrite VP; unfold corner0; nia).
      split; [unfold numClassic; assert (0 <= ish * vps 0 s <= (zlen g - 1) * vps 0 s) by nia; nia|].
      split; [rewrite Z.div_add by lia; rewrite Z.div_small by lia; ring|].
      assert (E : corner0 pane i1 i2 s + ish * vps 0 s = i1 + (i2 + (pane + 3 * ish) * s) * s) by (rewrite VP; unfold corner0; ring).
      split; [rewrite E, Z.mod_add by lia; apply Z.mod_small; lia|].
      split; [rewrite E, Z.div_add by lia; rewrite (Z.div_small i1) by lia; rewrite Z.add_0_l, Z.mod_add by lia; apply Z.mod_small; lia|].
      rewrite Z.mod_add by lia. rewrite Z.mod_small by lia. replace (corner0 pane i1 i2 s) with (i1 + i2 * s + pane * (s * s)) by (unfold corner0; ring). rewrite Z.div_add by nia. rewrite Z.div_small by nia. ring.
  Qed.
  (** N=1: the weight is distributed over the nodes at the corners of the enclosing cell (named as in coefName), trilinearly *)
  Theorem C67_classic1_nodes : forall x y z mult, let '(X, Y, Zc) := scaled p q x y z in
    (outside g (ellRadius p q x y z) -> addClassic 1 s g (axes p q) x y z mult = Ok []) /\
    (~ outside g (ellRadius p q x y z) -> mult <> 0%R -> exists pane i1 f1 i2 f2 ish off c, located s g X Y Zc pane i1 f1 i2 f2 ish off /\
      addClassic 1 s g (axes p q) x y z mult = Ok c /\
      (forall k w, In (k, w) c -> 0 <= k < numClassic 1 s g) /\
      let four (sh : Z) (v : R) := [((sh, cornerPos s pane i1 i2), (1 - f1) * (1 - f2) * v); ((sh, cornerPos s pane (i1 + 1) i2), f1 * (1 - f2) * v);
                                    ((sh, cornerPos s pane i1 (i2 + 1)), (1 - f1) * f2 * v); ((sh, cornerPos s pane (i1 + 1) (i2 + 1)), f1 * f2 * v)]%R in
      map (fun e => (nodeClassic s (fst e), snd e)) c = four ish (mult * off)%R ++ (if ish =? 0 then [((-1, (1, 0, 0)%R), (mult * (1 - off))%R)] else four (ish - 1) (mult * (1 - off))%R)).
  Proof using HC.
    intros x y z mult. pose proof (classic_cases 1 x y z mult) as T. destruct (scaled p q x y z) as [[X Y] Zc]. cbv zeta in T. destruct HsV as [Hs _]. split.
    - intros O. destruct T as [[_ T]|[[C _]|[C _]]]; [exact T|contradiction|contradiction].
    - intros NO NM. destruct T as [[C _]|[[_ [C _]]|(_ & _ & pane & i1 & f1 & i2 & f2 & ish & off & L & _ & T)]]; [contradiction|contradiction|].
      destruct (T eq_refl) as (ll & ul & lu & uu & EC & TT). pose proof L as (P1 & P2 & P3 & P4 & _).
      destruct (corner1_spec s pane i1 i2 Hs P1 P2 P3) as (ll' & ul' & lu' & uu' & EC' & CS). rewrite EC in EC'. injection EC' as <- <- <- <-.
      exists pane, i1, f1, i2, f2, ish, off. eexists. split; [exact L|]. split; [exact TT|]. cbv zeta.
      destruct (CS ish ltac:(lia)) as (D1 & D2 & D3 & D4 & RG).
      assert (VP : 0 < vps 1 s) by (unfold vps; nia).
      assert (RB : forall k, In k [ll; ul; lu; uu] -> 0 <= ish * vps 1 s + 1 + k < numClassic 1 s g /\ (0 < ish -> 0 <= ish * vps 1 s + 1 - vps 1 s + k < numClassic 1 s g)).
      { intros k Hk. apply RG in Hk. unfold numClassic. assert (0 <= ish * vps 1 s <= (zlen g - 1) * vps 1 s) by nia. split; [nia|]. intros. assert (vps 1 s <= ish * vps 1 s) by nia. nia. }
      pose proof (RB ll ltac:(simpl; auto)) as R1. pose proof (RB ul ltac:(simpl; auto)) as R2. pose proof (RB lu ltac:(simpl; auto)) as R3. pose proof (RB uu ltac:(simpl; auto)) as R4.
      destruct (ish =? 0) eqn:C.
      + split.
        * intros k w Hk. simpl in Hk. destruct Hk as [E|[E|[E|[E|[E|[]]]]]]; injection E as <- _; try tauto. unfold numClassic, zlen in *. nia.
        * cbn [app map fst snd]. rewrite D1, D2, D3, D4. replace (mult - mult * off)%R with (mult * (1 - off))%R by ring. reflexivity.
      + apply Z.eqb_neq in C. split.
        * intros k w Hk. simpl in Hk. destruct Hk as [E|[E|[E|[E|[E|[E|[E|[E|[]]]]]]]]]; injection E as <- _; try tauto; first [apply R1|apply R2|apply R3|apply R4]; lia.
        * destruct (CS (ish - 1) ltac:(lia)) as (F1 & F2 & F3 & F4 & _). replace ((ish - 1) * vps 1 s + 1) with (ish * vps 1 s + 1 - vps 1 s) in * by ring.
          cbn [app map fst snd]. rewrite D1, D2, D3, D4, F1, F2, F3, F4. replace (mult - mult * off)%R with (mult * (1 - off))%R by ring. reflexivity.
  Qed.
  (** both schemes: no exception, all indices within the array, nothing is added for a point outside; inside, the sum of increments is the weight of the point
      (the basis functions are a partition of unity), no increment is negative, and at most 1 or 8 elements change *)
  Theorem C67_classic_partition : forall N x y z mult, N = 0 \/ N = 1 -> exists c, addClassic N s g (axes p q) x y z mult = Ok c /\
    (forall k w, In (k, w) c -> 0 <= k < numClassic N s g /\ ((0 <= mult)%R -> (0 <= w)%R)) /\
    (outside g (ellRadius p q x y z) -> c = []) /\ (~ outside g (ellRadius p q x y z) -> total c = mult) /\
    (length c <= (if (N =? 0)%Z then 1 else 8))%nat.
  Proof using HC.
    intros N x y z mult HN. pose proof (classic_cases N x y z mult) as T. pose proof (C67_classic0_cell x y z mult) as T0. pose proof (C67_classic1_nodes x y z mult) as T1.
    destruct (scaled p q x y z) as [[X Y] Zc]. cbv zeta in T.
    destruct T as [[O T]|[(O & M & T)|(O & M & pane & i1 & f1 & i2 & f2 & ish & off & L & TN0 & TN1)]].
    - exists []. split; [exact T|]. split; [intros k w []|]. split; [reflexivity|]. split; [contradiction|]. simpl. lia.
    - exists []. split; [exact T|]. split; [intros k w []|]. split; [reflexivity|]. split; [intros _; subst mult; reflexivity|]. simpl. lia.
    - pose proof L as (_ & _ & _ & _ & F1 & F2 & FO & _). destruct HN as [->| ->].
      + destruct T0 as [_ T0]. destruct (T0 O M) as (pa & j1 & g1 & j2 & g2 & js & of & k & _ & E & RK & _). exists [(k, mult)]. split; [exact E|].
        split; [intros k' w [Q|[]]; injection Q as <- <-; split; [exact RK|tauto]|]. split; [contradiction|]. split; [intros _; unfold total, weighted; cbn [fold_right fst snd]; ring|simpl; lia].
      + destruct T1 as [_ T1]. destruct (T1 O M) as (_ & _ & _ & _ & _ & _ & _ & c & _ & E & RG & _).
        destruct (TN1 eq_refl) as (ll & ul & lu & uu & _ & E'). cbv zeta in E'. exists c. split; [exact E|].
        assert (EC : c = _) by (rewrite E in E'; injection E' as E'; exact E'). clear E E'.
        split; [|split; [contradiction|split]].
        * intros k w Hk. split; [exact (RG k w Hk)|]. intros PM. rewrite EC in Hk. clear RG EC.
          assert (W : (0 <= mult * off)%R /\ (0 <= mult - mult * off)%R) by (split; nra). destruct W as [W1 W2].
          assert (G1 : (0 <= (1 - f1) * (1 - f2))%R) by (apply Rmult_le_pos; lra). assert (G2 : (0 <= f1 * (1 - f2))%R) by (apply Rmult_le_pos; lra).
          assert (G3 : (0 <= (1 - f1) * f2)%R) by (apply Rmult_le_pos; lra). assert (G4 : (0 <= f1 * f2)%R) by (apply Rmult_le_pos; lra).
          destruct (ish =? 0); simpl in Hk; repeat (destruct Hk as [Q|Hk]; [injection Q as _ <-; first [exact W2|apply Rmult_le_pos; assumption]|]); contradiction.
        * intros _. rewrite EC. unfold total. destruct (ish =? 0); unfold weighted; cbn [app fold_right fst snd]; ring.
        * rewrite EC. destruct (ish =? 0); simpl; lia.
  Qed.
  (** N=1: the mean radius of the nodes is the radius of the point, i.e. linear functions of radius are reproduced; [nodeR g (-1)] is zero *)
  Theorem C67_classic1_radius : forall x y z mult c, addClassic 1 s g (axes p q) x y z mult = Ok c -> ~ outside g (ellRadius p q x y z) ->
    weighted (fun k => nodeR g (fst (nodeClassic s k))) c = (mult * ellRadius p q x y z)%R.
  Proof using HC.
    intros x y z mult c E O. pose proof (classic_cases 1 x y z mult) as T. pose proof (C67_classic1_nodes x y z mult) as T1. pose proof (ell_eq x y z) as EL. revert T T1 EL.
    destruct (scaled p q x y z) as [[X Y] Zc]. cbv zeta. intros T [_ T1] EL. rewrite <- EL in *.
    destruct (Req_EM_T mult 0) as [M|M].
    - destruct T as [[C _]|[(_ & _ & T)|(_ & C & _)]]; [contradiction| |contradiction]. rewrite E in T. injection T as ->. subst mult. unfold weighted. simpl. ring.
    - destruct (T1 O M) as (pane & i1 & f1 & i2 & f2 & ish & off & c' & L & E' & _ & MP). rewrite E in E'. injection E' as <-.
      destruct L as (_ & _ & _ & LI & _ & _ & _ & LR & _). rewrite LR.
      assert (W : forall c, weighted (fun k => nodeR g (fst (nodeClassic s k))) c = fold_right (fun e a => (snd e * nodeR g (fst (fst e)) + a)%R) 0%R (map (fun e => (nodeClassic s (fst e), snd e)) c)).
      { clear. induction c as [|e t IH]; [reflexivity|]. cbn [map fold_right fst snd]. rewrite <- IH. reflexivity. }
      rewrite W, MP. clear W MP. destruct (ish =? 0) eqn:C; cbn [app fold_right fst snd].
      + apply Z.eqb_eq in C. subst ish. replace (nodeR g (-1)) with 0%R by reflexivity. change (0 - 1) with (-1). replace (nodeR g (-1)) with 0%R by reflexivity. ring.
      + ring.
  Qed.
End classic.

(** ** Cylindrical scheme: [cosm m] is cos(m phi) *)
Section cyl.
  Variables (mmax : Z) (gridR gridz gR gz : list R).
  Hypothesis HC : mkCyl mmax gridR gridz = Some (gR, gz).
  Lemma HcylV : 0 <= mmax /\ gridOk gR = true /\ gridOk gz = true.
  Proof using HC. unfold mkCyl in HC. cbv zeta in HC. destruct ((0 <=? mmax) && gridOk (skipZero gridR) && gridOk (skipZero gridz)) eqn:E; [|discriminate]. injection HC as <- <-.
    repeat (apply andb_prop in E; destruct E as [E ?]). apply Z.leb_le in E. tauto. Qed.
  (** N=0: for each even m, the cell containing the point receives the weight times 1 or 2 cos(m phi) *)
  Theorem C67_cyl0_cells : forall Rc z cosm mult, (0 <= Rc)%R -> (0 <= z)%R ->
    ((outside gR Rc \/ outside gz z) -> addCyl 0 mmax gR gz Rc z cosm mult = Ok []) /\
    (~ outside gR Rc -> ~ outside gz z -> mult <> 0%R -> exists iR iz c, addCyl 0 mmax gR gz Rc z cosm mult = Ok c /\
       0 <= iR < zlen gR /\ 0 <= iz < zlen gz /\ (nodeR gR (iR - 1) <= Rc <= nodeR gR iR)%R /\ (nodeR gz (iz - 1) <= z <= nodeR gz iz)%R /\
       (forall k w, In (k, w) c -> 0 <= k < numCyl 0 mmax (zlen gR) (zlen gz)) /\
       map (fun e => (nodeCyl0 (zlen gR) (zlen gz) (fst e), snd e)) c = map (fun m => ((m, iR, iz), (mult * (if (m =? 0)%Z then 1 else 2 * cosm m))%R)) (evens mmax)).
  Proof using HC.
    intros Rc z cosm mult PR Pz. destruct HcylV as (Hm & VR & Vz).
    destruct (addCyl_spec mmax gR gz Rc z mult cosm VR Vz PR Pz 0 (or_introl eq_refl)) as [[O T]|[(O & O' & M & T)|(O & O' & M & iR & oR & iz & oz & I1 & J1 & I2 & J2 & I3 & J3 & T & _)]].
    - split; [intros _; exact T|]. intros C1 C2. tauto.
    - split; [intros _; exact T|]. intros C1 C2. tauto.
    - split; [tauto|]. intros _ _ _. specialize (T eq_refl). exists iR, iz. eexists. split; [exact T|]. split; [exact I1|]. split; [exact J1|].
      pose proof (nodeR_lt gR VR iR I1) as LR. pose proof (nodeR_lt gz Vz iz J1) as Lz.
      split; [rewrite I3; split; nra|]. split; [rewrite J3; split; nra|]. split.
      + intros k w Hk. apply in_flat_map in Hk. destruct Hk as (m & Hm' & [Q|[]]). injection Q as <- _. apply evens_in in Hm'. apply (cylCorner0_spec m iR iz (zlen gR) (zlen gz) mmax); tauto.
      + assert (EV : forall m, In m (evens mmax) -> nodeCyl0 (zlen gR) (zlen gz) (cylCorner0 m iR iz (zlen gR) (zlen gz)) = (m, iR, iz)).
        { intros m Hm'. apply evens_in in Hm'. apply (cylCorner0_spec m iR iz (zlen gR) (zlen gz) mmax); tauto. }
        revert EV. generalize (evens mmax). induction l as [|m t IH]; intros EV; [reflexivity|]. cbn [flat_map app map fst snd]. rewrite (EV m (or_introl eq_refl)). f_equal. apply IH. intros; apply EV; right; assumption.
  Qed.
  (** N=1: no exception, all indices within the array, nothing for a point outside; for a point inside, the functions of each harmonic reproduce
      any bilinear function of (R,z) exactly - for m>0, those vanishing at R=0, where there are no nodes *)
  Theorem C67_cyl1_bilinear : forall Rc z cosm mult, (0 <= Rc)%R -> (0 <= z)%R -> exists c, addCyl 1 mmax gR gz Rc z cosm mult = Ok c /\
    (forall k w, In (k, w) c -> 0 <= k < numCyl 1 mmax (zlen gR) (zlen gz)) /\
    ((outside gR Rc \/ outside gz z) -> c = []) /\
    (~ outside gR Rc -> ~ outside gz z -> forall a b c1 d m, In m (evens mmax) -> m = 0 \/ (a = 0%R /\ c1 = 0%R) ->
       cylMoment (zlen gR) (zlen gz) m (fun i j => bilinear a b c1 d (nodeR gR i) (nodeR gz j)) c = (mult * (if (m =? 0)%Z then 1 else 2 * cosm m) * bilinear a b c1 d Rc z)%R).
  Proof using HC.
    intros Rc z cosm mult PR Pz. destruct HcylV as (Hm & VR & Vz).
    destruct (addCyl_spec mmax gR gz Rc z mult cosm VR Vz PR Pz 1 (or_intror eq_refl)) as [[O T]|[(O & O' & M & T)|(O & O' & M & iR & oR & iz & oz & I1 & J1 & I2 & J2 & I3 & J3 & _ & T)]].
    - exists []. split; [exact T|]. split; [intros k w []|]. split; [reflexivity|]. intros C1 C2. tauto.
    - exists []. split; [exact T|]. split; [intros k w []|]. split; [reflexivity|]. intros _ _ a b c1 d m Hm' _. unfold cylMoment, weighted. simpl. subst mult. ring.
    - specialize (T eq_refl). eexists. split; [exact T|]. split; [|split; [tauto|]].
      + intros k w Hk. apply in_flat_map in Hk. destruct Hk as (m & Hm' & Hk). exact (proj1 (cylBlock_range mmax gR gz iR iz oR oz (cylVal mult cosm) I1 J1 m Hm' (k, w) Hk)).
      + intros _ _ a b c1 d m Hm' Hac. exact (cyl_moment mmax gR gz iR iz oR oz (cylVal mult cosm) I1 J1 m a b c1 d Rc z Hm' I3 J3 Hac).
  Qed.
End cyl.

(** ** spherical-harmonic scheme *)
(** the contributions to the harmonic (l,m), weighted with the value of [h] at the radius of the node *)
Definition sphMoment (lmax mmax n m l : Z) (h : Z -> R) (c : contrib) : R :=
  weighted (fun k => match nodeSph lmax mmax n k with Ok (m', l', j) => if (m' =? m) && (l' =? l) then h j else 0%R | _ => 0%R end) c.
Section sph.
  Variables (lmax mmax : Z) (grid g : list R).
  Hypothesis HC : mkSph lmax mmax grid = Some g.
  (** each of the harmonics with even 0<=m<=mmax, even m<=l<=lmax receives weight * ylm, split linearly between two adjacent nodes in radius (named as in coefName);
      at the origin there is only the node for l=0; all indices are within the array; nothing is added for a point outside *)
  Theorem C67_sph_nodes : forall r ylm mult, (0 < r)%R ->
    (outside g r -> addSph lmax mmax g r ylm mult = Ok []) /\
    (~ outside g r -> mult <> 0%R -> exists ir off c, 0 <= ir < zlen g /\ (0 <= off <= 1)%R /\ (r = nodeR g (ir - 1) + off * (nodeR g ir - nodeR g (ir - 1)))%R /\
       addSph lmax mmax g r ylm mult = Ok c /\ (forall k w, In (k, w) c -> 0 <= k < numSph lmax mmax g) /\
       map (fun e => (nodeSph lmax mmax (zlen g) (fst e), snd e)) c =
       flat_map (fun m => flat_map (fun l => (Ok (m, l, ir), mult * ylm l m * off)%R :: (if (0 <? ir) || (l =? 0) then [(Ok (m, l, (ir - 1)%Z), mult * ylm l m * (1 - off))%R] else [])) (lsOf lmax m)) (every2 (Z.to_nat (mmax / 2 + 1)) 0)).
  Proof using HC.
    intros r ylm mult Hr. assert (V := HC). apply C67_constructors in V. destruct V as (Hm & _ & V). apply gridOk_valid in V.
    unfold addSph. rewrite (Req_b_f r 0) by lra.
    destruct (radSeg_spec g r V ltac:(lra)) as [[E O]|(ir & off & E & O & I1 & I2 & I3)]; rewrite E; cbn [bind].
    - split; [reflexivity|]. intros; contradiction.
    - split; [contradiction|]. intros _ M. rewrite (Req_b_f _ _ M). exists ir, off. eexists. split; [exact I1|]. split; [exact I2|]. split; [exact I3|]. split; [reflexivity|].
      assert (M0 : 0 <= mmax / 2) by (apply Z.div_pos; lia).
      split.
      + intros k w Hk. pose proof (mLoop_range lmax mmax (zlen g) ir off mult ylm I1 Hm (Z.to_nat (mmax / 2 + 1)) 0 ltac:(lia) (k, w)) as RG.
        cbn [base] in RG. change (2 * Z.of_nat 0) with 0 in RG. replace (0 + ir + 1) with (ir + 1) in RG by ring. specialize (RG Hk). cbn [fst] in RG.
        change (0 + Z.to_nat (mmax / 2 + 1))%nat with (Z.to_nat (mmax / 2 + 1)) in RG. rewrite base_total in RG by lia. unfold numSph. lia.
      + pose proof (mLoop_map lmax mmax (zlen g) ir off mult ylm I1 Hm (Z.to_nat (mmax / 2 + 1)) 0 ltac:(lia)) as MP.
        cbn [base] in MP. change (2 * Z.of_nat 0) with 0 in MP. replace (0 + ir + 1) with (ir + 1) in MP by ring. exact MP.
  Qed.
  (** a point at the origin adds its weight to the first element, which is the node at the origin for l=0 *)
  Theorem C67_sph_origin : forall ylm mult, addSph lmax mmax g 0 ylm mult = Ok [(0, mult)] /\ 0 < numSph lmax mmax g /\ nodeSph lmax mmax (zlen g) 0 = Ok (0, 0, -1).
  Proof using HC.
    intros ylm mult. split; [unfold addSph; rewrite (Req_b_t 0 0 eq_refl); reflexivity|]. split; [|reflexivity].
    assert (V := HC). apply C67_constructors in V. destruct V as (Hm & _ & V). pose proof (base_total lmax mmax (zlen g) Hm) as B.
    assert (P : 0 < zlen g) by (destruct V as [V _]; destruct g; [contradiction|unfold zlen; simpl; lia]).
    assert (0 <= base lmax (zlen g) (Z.to_nat (mmax / 2 + 1))). { apply (base_nonneg lmax (zlen g) 0); [lia|]. assert (0 <= mmax / 2 <= lmax / 2) by (split; [apply Z.div_pos; lia|apply Z.div_le_mono; lia]). lia. }
    unfold numSph. lia.
  Qed.
  (** the functions of each harmonic reproduce a linear function of radius - for l>0, those vanishing at r=0, where there are no nodes *)
  Theorem C67_sph_linear : forall r ylm mult, (0 < r)%R -> ~ outside g r -> exists c, addSph lmax mmax g r ylm mult = Ok c /\
    forall m l a b, m mod 2 = 0 -> 0 <= m <= mmax -> l mod 2 = 0 -> m <= l <= lmax -> l = 0 \/ a = 0%R ->
      sphMoment lmax mmax (zlen g) m l (fun j => (a + b * nodeR g j)%R) c = (mult * ylm l m * (a + b * r))%R.
  Proof using HC.
    intros r ylm mult Hr O. assert (V := HC). apply C67_constructors in V. destruct V as (Hm & _ & V). apply gridOk_valid in V.
    destruct (Req_EM_T mult 0) as [M|M].
    - exists []. split.
      + unfold addSph. rewrite (Req_b_f r 0) by lra. destruct (radSeg_spec g r V ltac:(lra)) as [[E C]|(ir & off & E & _)]; [contradiction|]. rewrite E. cbn [bind]. rewrite (Req_b_t _ _ M). reflexivity.
      + intros. subst mult. unfold sphMoment, weighted. simpl. ring.
    - destruct (C67_sph_nodes r ylm mult Hr) as [_ T]. destruct (T O M) as (ir & off & c & I1 & I2 & I3 & E & _ & MP). exists c. split; [exact E|].
      intros m l a b Me Mr Le Lr Ha. set (h := fun j => (a + b * nodeR g j)%R).
      set (F := fun e : res (Z * Z * Z) => match e with Ok (m', l', j) => if (m' =? m) && (l' =? l) then h j else 0%R | _ => 0%R end).
      assert (W : forall c, sphMoment lmax mmax (zlen g) m l h c = fold_right (fun e a => (snd e * F (fst e) + a)%R) 0%R (map (fun e => (nodeSph lmax mmax (zlen g) (fst e), snd e)) c)).
      { clear. unfold sphMoment. induction c as [|e t IH]; [reflexivity|]. cbn [map fold_right fst snd]. rewrite <- IH. reflexivity. }
      rewrite W, MP. clear W MP.
      assert (FA : forall u v : list (res (Z * Z * Z) * R), fold_right (fun e a => (snd e * F (fst e) + a)%R) 0%R (u ++ v) = (fold_right (fun e a => (snd e * F (fst e) + a)%R) 0%R u + fold_right (fun e a => (snd e * F (fst e) + a)%R) 0%R v)%R).
      { intros u v. induction u as [|e t IH]; cbn [app fold_right]; [ring|]. rewrite IH. ring. }
      assert (FL : forall (B : Z -> list (res (Z * Z * Z) * R)) lst x, NoDup lst -> In x lst -> (forall x', In x' lst -> x' <> x -> fold_right (fun e a => (snd e * F (fst e) + a)%R) 0%R (B x') = 0%R) ->
        fold_right (fun e a => (snd e * F (fst e) + a)%R) 0%R (flat_map B lst) = fold_right (fun e a => (snd e * F (fst e) + a)%R) 0%R (B x)).
      { intros B. assert (FZ : forall lst, (forall x', In x' lst -> fold_right (fun e a => (snd e * F (fst e) + a)%R) 0%R (B x') = 0%R) -> fold_right (fun e a => (snd e * F (fst e) + a)%R) 0%R (flat_map B lst) = 0%R).
        { induction lst as [|y t IH]; intros H; [reflexivity|]. cbn [flat_map]. rewrite FA, (H y (or_introl eq_refl)), IH; [ring|]. intros; apply H; right; assumption. }
        induction lst as [|y t IH]; intros x ND I H; [contradiction|]. inversion ND; subst. cbn [flat_map]. rewrite FA. destruct I as [->|I].
        - rewrite (FZ t); [ring|]. intros x' Hx'. apply H; [right; exact Hx'|]. intros ->. contradiction.
        - rewrite (H y); [rewrite (IH x); [ring|assumption|assumption|]|left; reflexivity|intros ->; contradiction]. intros x' Hx' Nx. apply H; [right; exact Hx'|exact Nx]. }
      rewrite FL with (x := m); [rewrite FL with (x := l)| | |].
      + assert (DD : F (Ok (m, l, ir)) = h ir /\ F (Ok (m, l, ir - 1)) = h (ir - 1)) by (unfold F; rewrite !Z.eqb_refl; split; reflexivity). destruct DD as [D1 D2].
        destruct ((0 <? ir) || (l =? 0)) eqn:C; cbn [fold_right fst snd].
        * rewrite D1, D2. unfold h. rewrite I3. ring.
        * apply orb_false_iff in C. destruct C as [C1 C2]. apply Z.ltb_ge in C1. apply Z.eqb_neq in C2. destruct Ha as [?| ->]; [contradiction|]. assert (Z0 : ir = 0) by lia.
          assert (N1 : nodeR g (ir - 1) = 0%R) by (subst ir; reflexivity). rewrite N1 in I3. rewrite D1. unfold h. rewrite I3. ring.
      + apply every2_nodup.
      + apply lsOf_in; [lia|]. split; [|lia]. rewrite Zminus_mod, Le, Me. reflexivity.
      + intros l' Hl' Nl. assert (Q : forall j, F (Ok (m, l', j)) = 0%R) by (intros j; unfold F; replace (l' =? l) with false by (symmetry; apply Z.eqb_neq; exact Nl); rewrite andb_false_r; reflexivity).
        destruct ((0 <? ir) || (l' =? 0)); cbn [fold_right fst snd]; rewrite !Q; ring.
      + apply every2_nodup.
      + apply every2_in. pose proof (Z.div_mod m 2 ltac:(lia)) as D. rewrite Me in D. exists (Z.to_nat (m / 2)). assert (m / 2 <= mmax / 2) by (apply Z.div_le_mono; lia). assert (0 <= m / 2) by (apply Z.div_pos; lia). lia.
      + intros m' Hm' Nm. assert (Q : forall l' j, F (Ok (m', l', j)) = 0%R) by (intros l' j; unfold F; replace (m' =? m) with false by (symmetry; apply Z.eqb_neq; exact Nm); reflexivity).
        generalize (lsOf lmax m'). induction l0 as [|l' t IH]; [reflexivity|]. cbn [flat_map]. rewrite FA, IH. destruct ((0 <? ir) || (l' =? 0)); cbn [fold_right fst snd]; rewrite !Q; ring.
  Qed.
End sph.

(** ** concrete, non-trivial cases meet the hypotheses *)
Lemma ex_grid : skipZero [0; 1; 3]%R = [1; 3]%R /\ gridOk [1; 3]%R = true.
Proof.
  split.
  - simpl. rewrite Rlt_b_f by lra. reflexivity.
  - apply gridOk_valid. split; [discriminate|]. split.
    + intros [|[|[|i]]] a H; simpl in H; try discriminate; injection H as <-; lra.
    + intros [|[|[|i]]] [|[|[|j]]] a b Hi Hj L; simpl in Hi, Hj; try discriminate; try lia; injection Hi as <-; injection Hj as <-; lra.
Qed.
Lemma ex_classic : mkClassic 2 [0; 1; 3]%R 1 1 = Some [1; 3]%R.
Proof. apply C67_constructors. destruct ex_grid as [A B]. rewrite A. repeat split; try lia; try lra; apply gridOk_valid in B; apply B. Qed.
Lemma ex_radius : ellRadius 1 1 2 0 0 = 2%R /\ ~ outside [1; 3]%R (ellRadius 1 1 2 0 0).
Proof.
  assert (E : ellRadius 1 1 2 0 0 = 2%R).
  { unfold ellRadius, axes. replace (Rpower (1 * 1) (1 / 3)) with 1%R by (unfold Rpower; rewrite Rmult_1_r, ln_1, Rmult_0_r, exp_0; reflexivity).
    unfold Rsqr. replace (2 / (1 / 1) * (2 / (1 / 1)) + 0 / (1 * (1 / 1)) * (0 / (1 * (1 / 1))) + 0 / (1 * (1 / 1)) * (0 / (1 * (1 / 1))))%R with (2 * 2)%R by field. apply sqrt_square. lra. }
  split; [exact E|]. rewrite E. intros [C|[C _]]; simpl in C; [lra|discriminate].
Qed.
(** a point of mass 5 at x=2 in the classic linear scheme with 25 elements: the mass and the mean radius are conserved *)
Example C67_ex_classic : numClassic 1 2 [1; 3]%R = 39 /\ exists c, addClassic 1 2 [1; 3]%R (axes 1 1) 2 0 0 5 = Ok c /\ total c = 5%R /\ weighted (fun k => nodeR [1; 3]%R (fst (nodeClassic 2 k))) c = 10%R.
Proof.
  split; [reflexivity|]. destruct ex_radius as [E O].
  destruct (C67_classic_partition 2 _ _ 1 1 ex_classic 1 2 0 0 5 (or_intror eq_refl)) as (c & Ec & _ & _ & T & _). exists c. split; [exact Ec|]. split; [apply T; exact O|].
  rewrite (C67_classic1_radius 2 _ _ 1 1 ex_classic 2 0 0 5 c Ec O), E. ring.
Qed.
Example C67_ex_cyl : mkCyl 2 [0; 1; 3]%R [1; 3]%R = Some ([1; 3]%R, [1; 3]%R) /\
  exists c, addCyl 1 2 [1; 3]%R [1; 3]%R 2 (1 / 2) (fun _ => (1 / 3)%R) 5 = Ok c /\ cylMoment 2 2 0 (fun i j => bilinear 1 0 0 0 (nodeR [1; 3]%R i) (nodeR [1; 3]%R j)) c = 5%R /\
    cylMoment 2 2 2 (fun i j => bilinear 0 1 0 0 (nodeR [1; 3]%R i) (nodeR [1; 3]%R j)) c = (20 / 3)%R.
Proof.
  assert (A : mkCyl 2 [0; 1; 3]%R [1; 3]%R = Some ([1; 3]%R, [1; 3]%R)).
  { destruct ex_grid as [B C]. unfold mkCyl. rewrite B. replace (skipZero [1; 3]%R) with [1; 3]%R by (simpl; rewrite Rlt_b_t by lra; reflexivity). rewrite C. reflexivity. }
  split; [exact A|]. destruct (C67_cyl1_bilinear 2 _ _ _ _ A 2 (1 / 2) (fun _ => (1 / 3)%R) 5 ltac:(lra) ltac:(lra)) as (c & E & _ & _ & T). exists c. split; [exact E|].
  assert (O1 : ~ outside [1; 3]%R 2) by (intros [C|[C _]]; simpl in C; [lra|discriminate]).
  assert (O2 : ~ outside [1; 3]%R (1 / 2)) by (intros [C|[C _]]; simpl in C; [lra|discriminate]).
  split.
  - change 2 with (zlen [1; 3]%R) at 1 2. rewrite (T O1 O2); [simpl; unfold bilinear; field|simpl; auto|left; reflexivity].
  - change 2 with (zlen [1; 3]%R) at 1 2. rewrite (T O1 O2); [simpl; unfold bilinear; field|simpl; auto|right; split; reflexivity].
Qed.
Example C67_ex_sph : mkSph 4 2 [0; 1; 3]%R = Some [1; 3]%R /\ numSph 4 2 [1; 3]%R = 11 /\
  exists c, addSph 4 2 [1; 3]%R 2 (fun l m => (1 + IZR l + IZR m)%R) 5 = Ok c /\ sphMoment 4 2 2 0 0 (fun j => (1 + 0 * nodeR [1; 3]%R j)%R) c = 5%R /\
    sphMoment 4 2 2 2 4 (fun j => (0 + 1 * nodeR [1; 3]%R j)%R) c = 70%R.
Proof.
  assert (A : mkSph 4 2 [0; 1; 3]%R = Some [1; 3]%R) by (destruct ex_grid as [B C]; unfold mkSph; rewrite B, C; reflexivity).
  split; [exact A|]. split; [reflexivity|].
  assert (O1 : ~ outside [1; 3]%R 2) by (intros [C|[C _]]; simpl in C; [lra|discriminate]).
  destruct (C67_sph_linear 4 2 _ _ A 2 (fun l m => (1 + IZR l + IZR m)%R) 5 ltac:(lra) O1) as (c & E & T). exists c. split; [exact E|].
  split.
  - change 2 with (zlen [1; 3]%R) at 2. rewrite (T 0 0 1%R 0%R); [ring|reflexivity|lia|reflexivity|lia|left; reflexivity].
  - change 2 with (zlen [1; 3]%R) at 2. rewrite (T 2 4 0%R 1%R); [ring|reflexivity|lia|reflexivity|lia|right; reflexivity].
Qed.
Print Assumptions C67_classic1_nodes.
Print Assumptions C67_sph_linear.
