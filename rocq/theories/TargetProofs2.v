(** Proofs for TargetModel.v: addPoint of the three schemes (C67). *)
From Verif Require Import Base RandReal PolyModel PolyProofs TargetModel TargetProofs.
From Coq Require Import Reals Lra Lia.
Local Open Scope Z_scope.

Definition weighted (f : Z -> R) (c : contrib) : R := fold_right (fun p s => (snd p * f (fst p) + s)%R) 0%R c.
Definition total (c : contrib) : R := weighted (fun _ => 1%R) c.
Lemma weighted_app : forall f a b, weighted f (a ++ b) = (weighted f a + weighted f b)%R.
Proof. induction a as [|x a IH]; intros b; [unfold weighted; simpl; ring|]. change (weighted f ((x :: a) ++ b)) with (snd x * f (fst x) + weighted f (a ++ b))%R. rewrite IH. change (weighted f (x :: a)) with (snd x * f (fst x) + weighted f a)%R. ring. Qed.

(** ** Classic *)
Definition located (s : Z) (g : list R) (X Y Zc : R) (pane i1 : Z) (f1 : R) (i2 : Z) (f2 : R) (ish : Z) (off : R) : Prop :=
  0 <= pane < 3 /\ 0 <= i1 < s /\ 0 <= i2 < s /\ 0 <= ish < zlen g /\ (0 <= f1 <= 1)%R /\ (0 <= f2 <= 1)%R /\ (0 <= off <= 1)%R /\
  (sqrt (X * X + Y * Y + Zc * Zc) = nodeR g (ish - 1) + off * (nodeR g ish - nodeR g (ish - 1)))%R /\
  exists c0 c1 c2, rotate pane c0 c1 c2 = (X, Y, Zc) /\ (c1 <= c0)%R /\ (c2 <= c0)%R /\
    (c1 = c0 * tan (PI / 4 * (IZR i1 + f1) / IZR s))%R /\ (c2 = c0 * tan (PI / 4 * (IZR i2 + f2) / IZR s))%R.
Lemma Rneg_b : forall a b : R, a <> b -> Req_b a b = false. Proof. exact Req_b_f. Qed.
Lemma addClassic_spec : forall N s g ax1 ax2 ax3 x y z mult, gridOk g = true -> 1 <= s -> (0 < ax2)%R -> (0 < ax3)%R ->
  let X := Rabs (x / ax1) in let Y := (Rabs y / ax2)%R in let Zc := (Rabs z / ax3)%R in let r := sqrt (X * X + Y * Y + Zc * Zc) in
  (outside g r /\ addClassic N s g (ax1, ax2, ax3) x y z mult = Ok []) \/
  (~ outside g r /\ mult = 0%R /\ addClassic N s g (ax1, ax2, ax3) x y z mult = Ok []) \/
  (~ outside g r /\ mult <> 0%R /\ exists pane i1 f1 i2 f2 ish off, located s g X Y Zc pane i1 f1 i2 f2 ish off /\
     (N = 0 -> addClassic N s g (ax1, ax2, ax3) x y z mult = Ok [(corner0 pane i1 i2 s + ish * vps N s, mult)]) /\
     (N = 1 -> exists ll ul lu uu, corner1 pane i1 i2 s = (ll, ul, lu, uu) /\
        let four (o : Z) (v : R) := [((o + ll)%Z, (1 - f1) * (1 - f2) * v); ((o + ul)%Z, f1 * (1 - f2) * v); ((o + lu)%Z, (1 - f1) * f2 * v); ((o + uu)%Z, f1 * f2 * v)]%R in
        addClassic N s g (ax1, ax2, ax3) x y z mult = Ok (four (ish * vps N s + 1) (mult * off)%R ++ (if ish =? 0 then [(0, (mult - mult * off)%R)] else four (ish * vps N s + 1 - vps N s) (mult - mult * off)%R)))).
Proof.
  intros N s g ax1 ax2 ax3 x y z mult Hg Hs A2 A3. cbv zeta. unfold addClassic.
  set (X := Rabs (x / ax1)). set (Y := (Rabs y / ax2)%R). set (Zc := (Rabs z / ax3)%R). set (r := sqrt (X * X + Y * Y + Zc * Zc)).
  assert (PX : (0 <= X)%R) by apply Rabs_pos.
  assert (PY : (0 <= Y)%R) by (apply Rmult_le_pos; [apply Rabs_pos|left; apply Rinv_0_lt_compat; exact A2]).
  assert (PZ : (0 <= Zc)%R) by (apply Rmult_le_pos; [apply Rabs_pos|left; apply Rinv_0_lt_compat; exact A3]).
  destruct (radSeg_spec g r Hg (sqrt_pos _)) as [[E O]|(ish & off & E & O & IR & IO & IE)]; rewrite E; cbn [bind].
  - left. split; [exact O|reflexivity].
  - right. destruct (Req_EM_T mult 0) as [M|M].
    + left. rewrite (Req_b_t _ _ M). repeat split; assumption.
    + right. rewrite (Req_b_f _ _ M). split; [exact O|]. split; [exact M|].
      destruct (paneOf_spec X Y Zc) as (pane & c0 & c1 & c2 & EP & HP & RO & L1 & L2). rewrite EP. cbn [bind].
      assert (P12 : (0 <= c1)%R /\ (0 <= c2)%R).
      { assert (D : pane = 0 \/ pane = 1 \/ pane = 2) by lia. destruct D as [->|[->| ->]]; unfold rotate in RO; simpl in RO; injection RO; intros; subst; split; assumption. }
      destruct (strip_spec s c1 c0 Hs (conj (proj1 P12) L1)) as (i1 & f1 & S1 & I1 & F1 & T1).
      destruct (strip_spec s c2 c0 Hs (conj (proj2 P12) L2)) as (i2 & f2 & S2 & I2 & F2 & T2).
      rewrite S1, S2. exists pane, i1, f1, i2, f2, ish, off.
      split.
      { unfold located. repeat (split; [assumption|]). exists c0, c1, c2. repeat (split; [assumption|]).
        destruct (Rlt_dec 0 c0) as [C|C].
        - specialize (T1 C). specialize (T2 C). rewrite <- T1, <- T2. split; field; lra.
        - assert (c0 = 0%R) by lra. split; nra. }
      split.
      * intros ->. reflexivity.
      * intros ->. destruct (corner1_spec s pane i1 i2 Hs HP I1 I2) as (ll & ul & lu & uu & EC & _). exists ll, ul, lu, uu. split; [exact EC|]. cbv zeta. rewrite EC. reflexivity.
Qed.

(** ** Cylindrical *)
Lemma cylCorner1_spec : forall m iR iz nR nz, m mod 2 = 0 -> 0 <= m -> 0 <= iR < nR -> 0 <= iz < nz -> exists ll ul lu uu, cylCorner1 m iR iz nR nz = (ll, ul, lu, uu) /\
  nodeCyl1 nR nz ul = (m, iR, iz - 1) /\ nodeCyl1 nR nz uu = (m, iR, iz) /\
  (m = 0 \/ 0 < iR -> nodeCyl1 nR nz ll = (m, iR - 1, iz - 1) /\ nodeCyl1 nR nz lu = (m, iR - 1, iz)) /\
  (forall mmax k, m <= mmax -> (In k [ul; uu] \/ ((m = 0 \/ 0 < iR) /\ In k [ll; lu])) -> 0 <= k < numCyl 1 mmax nR nz).
Proof.
  intros m iR iz nR nz ME M0 HR Hz. unfold cylCorner1. destruct (0 <? m) eqn:C.
  - apply Z.ltb_lt in C. pose proof (Z.div_mod m 2 ltac:(lia)) as DM. rewrite ME in DM. set (h := m / 2) in *. assert (m = 2 * h) by lia. assert (H1 : 1 <= h) by lia.
    do 4 eexists. split; [reflexivity|].
    assert (DEC : forall jR jz, 0 <= jR < nR -> 0 <= jz <= nz -> nodeCyl1 nR nz ((1 + h * nR) * (nz + 1) + jR + jz * nR) = (m, jR, jz - 1) /\ (forall mmax, m <= mmax -> 0 <= (1 + h * nR) * (nz + 1) + jR + jz * nR < numCyl 1 mmax nR nz)).
    { intros jR jz H2 H3. split.
      - unfold nodeCyl1. cbv zeta. replace ((1 + h * nR) * (nz + 1) + jR + jz * nR <? (nR + 1) * (nz + 1)) with false by (symmetry; apply Z.ltb_ge; assert (0 <= (h - 1) * (nR * (nz + 1))) by (apply Z.mul_nonneg_nonneg; nia); assert (0 <= jz * nR) by nia; nia).
        replace ((1 + h * nR) * (nz + 1) + jR + jz * nR - (nR + 1) * (nz + 1)) with (jR + jz * nR + (h - 1) * (nR * (nz + 1))) by ring.
        rewrite Z.div_add by nia. rewrite (Z.div_small (jR + jz * nR)) by nia.
        replace (jR + jz * nR + (h - 1) * (nR * (nz + 1))) with (jR + (jz + (h - 1) * (nz + 1)) * nR) by ring.
        rewrite Z.div_add, Z.mod_add by lia. rewrite Z.div_small, (Z.mod_small jR) by lia. replace (0 + (jz + (h - 1) * (nz + 1))) with (jz + (h - 1) * (nz + 1)) by ring. rewrite Z.mod_add by lia. rewrite Z.mod_small by lia.
        repeat f_equal; lia.
      - intros mmax HM. assert (HH : h <= mmax / 2) by (apply Z.div_le_mono; lia). unfold numCyl. assert (0 <= (mmax / 2 - h) * (nR * (nz + 1))) by (apply Z.mul_nonneg_nonneg; nia). assert (0 <= jz * nR <= nz * nR) by nia. assert (0 <= h * nR * (nz + 1)) by nia. split; nia. }
    assert (D1 := DEC iR iz HR ltac:(lia)). assert (D2 := DEC iR (iz + 1) HR ltac:(lia)).
    replace ((1 + h * nR) * (nz + 1) + iR + iz * nR) with ((1 + h * nR) * (nz + 1) + (iR - 1) + iz * (nR - 1 + 1) + 1) in D1 by ring.
    replace ((1 + h * nR) * (nz + 1) + iR + (iz + 1) * nR) with ((1 + h * nR) * (nz + 1) + (iR - 1) + iz * (nR - 1 + 1) + (nR - 1) + 1 + 1) in D2 by ring.
    split; [exact (proj1 D1)|]. split; [rewrite (proj1 D2); f_equal; lia|].
    assert (D34 : 0 < iR -> (nodeCyl1 nR nz ((1 + h * nR) * (nz + 1) + (iR - 1) + iz * (nR - 1 + 1)) = (m, iR - 1, iz - 1) /\ (forall mmax, m <= mmax -> 0 <= (1 + h * nR) * (nz + 1) + (iR - 1) + iz * (nR - 1 + 1) < numCyl 1 mmax nR nz)) /\
      (nodeCyl1 nR nz ((1 + h * nR) * (nz + 1) + (iR - 1) + iz * (nR - 1 + 1) + (nR - 1) + 1) = (m, iR - 1, iz) /\ (forall mmax, m <= mmax -> 0 <= (1 + h * nR) * (nz + 1) + (iR - 1) + iz * (nR - 1 + 1) + (nR - 1) + 1 < numCyl 1 mmax nR nz))).
    { intros P. assert (D3 := DEC (iR - 1) iz ltac:(lia) ltac:(lia)). assert (D4 := DEC (iR - 1) (iz + 1) ltac:(lia) ltac:(lia)).
      replace ((1 + h * nR) * (nz + 1) + (iR - 1) + iz * nR) with ((1 + h * nR) * (nz + 1) + (iR - 1) + iz * (nR - 1 + 1)) in D3 by ring.
      replace ((1 + h * nR) * (nz + 1) + (iR - 1) + (iz + 1) * nR) with ((1 + h * nR) * (nz + 1) + (iR - 1) + iz * (nR - 1 + 1) + (nR - 1) + 1) in D4 by ring.
      replace (iz + 1 - 1) with iz in D4 by ring. split; assumption. }
    split.
    + intros [P|P]; [lia|]. destruct (D34 P) as [[Q1 _] [Q2 _]]. split; assumption.
    + intros mmax k HM [[<-|[<-|[]]]|[[P|P] HK]]; [exact (proj2 D1 _ HM)|exact (proj2 D2 _ HM)|lia|].
      destruct (D34 P) as [[_ Q1] [_ Q2]]. destruct HK as [<-|[<-|[]]]; [exact (Q1 _ HM)|exact (Q2 _ HM)].
  - apply Z.ltb_ge in C. assert (m = 0) by lia. subst m. do 4 eexists. split; [reflexivity|].
    assert (DEC : forall jR jz, 0 <= jR <= nR -> 0 <= jz <= nz -> nodeCyl1 nR nz (0 + jR + jz * (nR + 1)) = (0, jR - 1, jz - 1) /\ (forall mmax, 0 <= mmax -> 0 <= 0 + jR + jz * (nR + 1) < numCyl 1 mmax nR nz)).
    { intros jR jz H2 H3. split.
      - unfold nodeCyl1. cbv zeta. replace (0 + jR + jz * (nR + 1) <? (nR + 1) * (nz + 1)) with true by (symmetry; apply Z.ltb_lt; nia).
        replace (0 + jR) with jR by ring. rewrite Z.div_add, Z.mod_add by lia. rewrite Z.div_small, Z.mod_small by lia. reflexivity.
      - intros mmax HM. assert (HH : 0 <= mmax / 2) by (apply Z.div_pos; lia). unfold numCyl. assert (0 <= mmax / 2 * (nR * (nz + 1))) by (apply Z.mul_nonneg_nonneg; nia). assert (0 <= jz * (nR + 1) <= nz * (nR + 1)) by nia. split; nia. }
    assert (D1 := DEC (iR + 1) iz ltac:(lia) ltac:(lia)). assert (D2 := DEC (iR + 1) (iz + 1) ltac:(lia) ltac:(lia)). assert (D3 := DEC iR iz ltac:(lia) ltac:(lia)). assert (D4 := DEC iR (iz + 1) ltac:(lia) ltac:(lia)).
    replace (0 + (iR + 1) + iz * (nR + 1)) with (0 + iR + iz * (nR + 1) + 1) in D1 by ring.
    replace (0 + (iR + 1) + (iz + 1) * (nR + 1)) with (0 + iR + iz * (nR + 1) + nR + 1 + 1) in D2 by ring.
    replace (0 + iR + (iz + 1) * (nR + 1)) with (0 + iR + iz * (nR + 1) + nR + 1) in D4 by ring.
    replace (iR + 1 - 1) with iR in * by ring. replace (iz + 1 - 1) with iz in * by ring.
    split; [exact (proj1 D1)|]. split; [exact (proj1 D2)|]. split; [intros _; split; [exact (proj1 D3)|exact (proj1 D4)]|].
    intros mmax k HM [[<-|[<-|[]]]|[_ [<-|[<-|[]]]]]; [exact (proj2 D1 _ HM)|exact (proj2 D2 _ HM)|exact (proj2 D3 _ HM)|exact (proj2 D4 _ HM)].
Qed.
Lemma cylCorner0_spec : forall m iR iz nR nz mmax, m mod 2 = 0 -> 0 <= m <= mmax -> 0 <= iR < nR -> 0 <= iz < nz ->
  nodeCyl0 nR nz (cylCorner0 m iR iz nR nz) = (m, iR, iz) /\ 0 <= cylCorner0 m iR iz nR nz < numCyl 0 mmax nR nz.
Proof.
  intros m iR iz nR nz mmax ME M0 HR Hz. pose proof (Z.div_mod m 2 ltac:(lia)) as DM. rewrite ME in DM. unfold nodeCyl0, cylCorner0, numCyl. set (h := m / 2) in *.
  assert (HH : h <= mmax / 2) by (apply Z.div_le_mono; lia). assert (0 <= h) by lia.
  assert (Q1 : (iR + (iz + h * nz) * nR) / nR = iz + h * nz) by (rewrite Z.div_add by lia; rewrite Z.div_small by lia; ring).
  assert (Q2 : (iR + (iz + h * nz) * nR) mod nR = iR) by (rewrite Z.mod_add by lia; apply Z.mod_small; lia).
  assert (Q3 : (iz + h * nz) / nz = h) by (rewrite Z.div_add by lia; rewrite Z.div_small by lia; ring).
  assert (Q4 : (iz + h * nz) mod nz = iz) by (rewrite Z.mod_add by lia; apply Z.mod_small; lia).
  cbv zeta. rewrite Q1, Q2, Q3, Q4. split; [repeat f_equal; lia|]. assert (0 <= (mmax / 2 - h) * (nz * nR)) by (apply Z.mul_nonneg_nonneg; nia). assert (0 <= iz * nR <= (nz - 1) * nR) by nia. assert (0 <= h * (nz * nR)) by (apply Z.mul_nonneg_nonneg; nia). split; nia.
Qed.
Lemma evens_in : forall mmax m, In m (evens mmax) <-> m mod 2 = 0 /\ 0 <= m <= mmax.
Proof.
  intros mmax m. unfold evens. rewrite in_map_iff. split.
  - intros (k & <- & Hk). apply in_seq in Hk. assert (Z.of_nat k <= mmax / 2) by lia. split; [rewrite Z.mul_comm; apply Z.mod_mul; lia|].
    split; [lia|]. pose proof (Z.mul_div_le mmax 2 ltac:(lia)). lia.
  - intros [A B]. pose proof (Z.div_mod m 2 ltac:(lia)) as DM. rewrite A in DM. exists (Z.to_nat (m / 2)).
    assert (m / 2 <= mmax / 2) by (apply Z.div_le_mono; lia). split; [lia|]. apply in_seq. lia.
Qed.
Lemma evens_nodup : forall mmax, NoDup (evens mmax).
Proof.
  intros. unfold evens. generalize (seq_NoDup (Z.to_nat (mmax / 2 + 1)) 0). generalize (seq 0 (Z.to_nat (mmax / 2 + 1))). intros l.
  induction l as [|x t IH]; intros ND; [constructor|]. inversion ND; subst. cbn [map]. constructor; [|auto]. intros C. apply in_map_iff in C. destruct C as (j & E & J). cbv beta in E; assert (j = x) by lia. subst. contradiction.
Qed.

(** the contributions of [c] to harmonic [m], weighted with the value of [h] at the position of the node *)
Definition cylMoment (nR nz m : Z) (h : Z -> Z -> R) (c : contrib) : R :=
  weighted (fun k => let '(m', iR, iz) := nodeCyl1 nR nz k in if m' =? m then h iR iz else 0%R) c.
Definition bilinear (a b c d x y : R) : R := (a + b * x + c * y + d * (x * y))%R.
Section cyl.
  Variables (mmax : Z) (gR gz : list R) (Rc z mult : R) (cosm : Z -> R).
  Hypotheses (HR : gridOk gR = true) (Hz : gridOk gz = true) (PR : (0 <= Rc)%R) (Pz : (0 <= z)%R) (Hm : 0 <= mmax).
  Let nR := zlen gR.
  Let nz := zlen gz.
  Definition cylVal (m : Z) : R := (mult * (if (m =? 0)%Z then 1 else 2 * cosm m))%R.
  Lemma addCyl_spec : forall N, N = 0 \/ N = 1 ->
    ((outside gR Rc \/ outside gz z) /\ addCyl N mmax gR gz Rc z cosm mult = Ok []) \/
    (~ outside gR Rc /\ ~ outside gz z /\ mult = 0%R /\ addCyl N mmax gR gz Rc z cosm mult = Ok []) \/
    (~ outside gR Rc /\ ~ outside gz z /\ mult <> 0%R /\ exists iR oR iz oz, 0 <= iR < zlen gR /\ 0 <= iz < zlen gz /\ (0 <= oR <= 1)%R /\ (0 <= oz <= 1)%R /\
      (Rc = nodeR gR (iR - 1) + oR * (nodeR gR iR - nodeR gR (iR - 1)))%R /\ (z = nodeR gz (iz - 1) + oz * (nodeR gz iz - nodeR gz (iz - 1)))%R /\
      (N = 0 -> addCyl N mmax gR gz Rc z cosm mult = Ok (flat_map (fun m => [(cylCorner0 m iR iz (zlen gR) (zlen gz), cylVal m)]) (evens mmax))) /\
      (N = 1 -> addCyl N mmax gR gz Rc z cosm mult = Ok (flat_map (fun m => let '(ll, ul, lu, uu) := cylCorner1 m iR iz (zlen gR) (zlen gz) in
         [(ul, cylVal m * oR * (1 - oz)); (uu, cylVal m * oR * oz)]%R ++
         (if (m =? 0) || (0 <? iR) then [(ll, cylVal m * (1 - oR) * (1 - oz)); (lu, cylVal m * (1 - oR) * oz)]%R else [])) (evens mmax)))).
  Proof using HR Hz PR Pz.
    intros N HN. unfold addCyl.
    destruct (radSeg_spec gR Rc HR PR) as [[E O]|(iR & oR & E & O & I1 & I2 & I3)]; rewrite E; cbn [bind];
    destruct (radSeg_spec gz z Hz Pz) as [[E' O']|(iz & oz & E' & O' & J1 & J2 & J3)]; rewrite E'; cbn [bind].
    - left. split; [left; exact O|reflexivity].
    - left. split; [left; exact O|reflexivity].
    - left. split; [right; exact O'|reflexivity].
    - right. destruct (Req_EM_T mult 0) as [M|M].
      + left. rewrite (Req_b_t _ _ M). repeat split; assumption.
      + right. rewrite (Req_b_f _ _ M). repeat (split; [assumption|]). exists iR, oR, iz, oz. repeat (split; [assumption|]). split; intros ->; reflexivity.
  Qed.
End cyl.
