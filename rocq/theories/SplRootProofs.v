(** Roots and extrema: the loop over segments *)
From Coquelicot Require Import Coquelicot.
From Coq Require Import Sorting.
From Verif Require Import Arr BinSearchModel SplineModel SplineGlue SplIntModel PolyProofs RootProofs SplRootModel BsplSpec BsplProofs BsplProofs3 SplineSpec SplRootSpec.
Local Open Scope R_scope.

Lemma tiny_pos : 0 < tiny.
Proof. unfold tiny. assert (0 < / 2 ^ 52) by (apply Rinv_0_lt_compat; apply pow_lt; lra). lra. Qed.
Lemma tiny_deps : 10 * deps = tiny. Proof. reflexivity. Qed.
Lemma tiny_small : tiny < 1.
Proof. unfold tiny. assert (H : 1 < 2 ^ 52 / 10) by (rewrite (pow_IZR 2 52); cbn; lra). apply Rmult_lt_reg_r with (2 ^ 52); [apply pow_lt; lra|]. rewrite Rmult_assoc, Rinv_l by (apply pow_nonzero; lra). lra. Qed.
Lemma isLarger_spec r p : isLarger r p = true <-> apart p r.
Proof.
  unfold isLarger, apart. rewrite tiny_deps, (Rmult_comm (Rmax _ _)), (Rmax_comm (Rabs r)). split; intros H.
  - unfold Rle_b in H. destruct (Rle_dec _ _); [assumption|discriminate].
  - apply Rle_b_t. exact H.
Qed.
Lemma isLarger_no r p : isLarger r p = false -> ~ apart p r.
Proof. intros H A. apply isLarger_spec in A. congruence. Qed.
Lemma apart_le u v : apart u v -> u <= v.
Proof. unfold apart. intros H. pose proof tiny_pos. pose proof (Rmax_l (Rabs u) (Rabs v)). pose proof (Rabs_pos u). nra. Qed.
Lemma apart_trans u v w : apart u v -> apart v w -> apart u w.
Proof.
  unfold apart. intros A B. pose proof tiny_pos as T. pose proof (Rmax_l (Rabs u) (Rabs v)). pose proof (Rmax_r (Rabs u) (Rabs v)). pose proof (Rmax_l (Rabs v) (Rabs w)). pose proof (Rmax_r (Rabs v) (Rabs w)).
  pose proof (Rabs_pos u). pose proof (Rabs_pos v). pose proof (Rabs_pos w). assert (Rmax (Rabs u) (Rabs w) <= Rabs u + Rabs w) by (apply Rmax_lub; lra). nra.
Qed.
Lemma not_apart_close u v : u <= v -> ~ apart u v -> close u v.
Proof. unfold apart, close. intros H N. rewrite Rabs_left1 by lra. lra. Qed.
Lemma close_refl u : close u u.
Proof. unfold close. rewrite Rminus_eq_0, Rabs_R0. pose proof tiny_pos. pose proof (Rmax_l (Rabs u) (Rabs u)). pose proof (Rabs_pos u). nra. Qed.
Lemma apart_ne u v : apart u v -> u <> v \/ u = 0.
Proof.
  unfold apart. intros H. destruct (Req_dec u v) as [->|N]; [|left; exact N]. right. rewrite Rmax_left in H by lra. pose proof tiny_pos. pose proof (Rabs_pos v).
  assert (Rabs v = 0) by nra. destruct (Req_dec v 0) as [E|E]; [exact E|]. apply Rabs_no_R0 in E. lra.
Qed.

Section Iv.
  Variable x : arr R.
  Hypothesis Hx : increasing x.
  Hypothesis Hn : (1 <= alen x)%Z.
  Lemma interval_ok x1 x2 : interval x x1 x2 = Ok (lower x x1 x2, upper x x1 x2).
  Proof.
    unfold interval. rewrite !aget_ok by lia. cbn [bind]. fold (x_first x) (x_last x). unfold lower, upper. destruct x1 as [p|], x2 as [q|]; cbn [fst snd]; try reflexivity.
    unfold Rlt_b. destruct (Rlt_dec q p); cbn [fst snd]; [rewrite (Rmin_right p q), (Rmax_left p q) by lra|rewrite (Rmin_left p q), (Rmax_right p q) by lra]; reflexivity.
  Qed.
  Lemma bounds x1 x2 : x_first x <= lower x x1 x2 /\ upper x x1 x2 <= x_last x.
  Proof. unfold lower, upper. destruct x1 as [p|], x2 as [q|]; split; try apply Rmax_r; try apply Rmin_r; lra. Qed.
End Iv.
Section Seg.
  Variable x : arr R.
  Hypothesis Hx : increasing x.
  Hypothesis Hn : (2 <= alen x)%Z.
  Lemma segments_ok a b : x_first x <= a -> a < b -> b <= x_last x -> exists i1 i2, segments x a b = Ok (i1, i2) /\ (0 <= i1)%Z /\ (i1 <= i2)%Z /\ (i2 <= alen x - 2)%Z /\
    afn x i1 <= a < afn x (i1 + 1)%Z /\ afn x i2 <= b <= afn x (i2 + 1)%Z /\ (b < afn x (i2 + 1)%Z \/ i2 = (alen x - 2)%Z).
  Proof.
    intros H1 H2 H3. destruct (seg_of x Hx Hn a) as (i1 & E1 & I1 & A1 & A2); [unfold within; lra|]. destruct (seg_of x Hx Hn b) as (i2 & E2 & I2 & B1 & B2); [unfold within; lra|].
    exists i1, i2. rewrite !knot_in in * by lia. unfold segments. rewrite E1, E2. cbn [bind].
    assert (A3 : a < afn x (i1 + 1)%Z). { destruct A2 as [A2|[-> A2]]; [exact A2|]. unfold x_last in H3. replace (alen x - 2 + 1)%Z with (alen x - 1)%Z in * by lia. lra. }
    assert (L : (i1 <= i2)%Z). { destruct (Z_le_gt_dec i1 i2); [assumption|]. pose proof (inc_le x Hx (i2 + 1) i1 ltac:(lia) ltac:(lia) ltac:(lia)). destruct B2 as [B2|[-> B2]]; [lra|lia]. }
    rewrite (proj2 (Z.leb_le 0 i1)), (proj2 (Z.leb_le i1 i2)), (proj2 (Z.leb_le i2 _)) by lia. cbn [andb].
    split; [reflexivity|]. repeat split; try lia; try lra; destruct B2 as [B2|[B3 B2]]; try lra; auto.
  Qed.
  (** the interval does not overlap with the grid *)
  Lemma segments_UB a b : b < a -> x_last x < a \/ b < x_first x -> segments x a b = UB.
  Proof.
    intros H O. unfold segments. destruct (bin_inseg x Hx ltac:(lia) a) as (k1 & -> & (P1 & Q1 & C1) & D1 & D2 & D3). destruct (bin_inseg x Hx ltac:(lia) b) as (k2 & -> & (P2 & Q2 & C2) & G1 & G2 & G3). cbn [bind].
    destruct O as [O|O].
    - assert (k1 = alen x - 1)%Z. { destruct (Z.eq_dec k1 (alen x - 1)); [assumption|]. specialize (C1 ltac:(lia)). unfold x_last in O. pose proof (inc_le x Hx (k1 + 1) (alen x - 1) ltac:(lia) ltac:(lia) ltac:(lia)). lra. }
      destruct (Z.leb_spec k1 k2); [|rewrite andb_false_r; reflexivity]. rewrite (proj2 (Z.leb_gt k2 _)) by lia. rewrite !andb_false_r. reflexivity.
    - assert (k2 < 0)%Z. { destruct (Z_lt_le_dec k2 0); [assumption|]. specialize (Q2 ltac:(lia)). unfold x_first in O. pose proof (inc_le x Hx 0 k2 ltac:(lia) ltac:(lia) ltac:(lia)). lra. }
      destruct (Z.leb_spec 0 k1); [|reflexivity]. rewrite (proj2 (Z.leb_gt k1 k2)) by lia. reflexivity.
  Qed.
End Seg.

(** concatenation of lists over a range of segments *)
Fixpoint segcat (g : Z -> list R) (lo : Z) (n : nat) : list R := match n with O => [] | S n => segcat g lo n ++ g (lo + Z.of_nat n)%Z end.
Lemma segcat_in g lo n r : In r (segcat g lo n) <-> exists i, (lo <= i < lo + Z.of_nat n)%Z /\ In r (g i).
Proof.
  induction n as [|n IH]; cbn [segcat].
  - split; [intros []|intros (i & Hi & _); lia].
  - rewrite in_app_iff, IH. split.
    + intros [(i & Hi & H)|H]; [exists i|exists (lo + Z.of_nat n)%Z]; (split; [lia|assumption]).
    + intros (i & Hi & H). destruct (Z.eq_dec i (lo + Z.of_nat n)) as [->|N]; [right; assumption|left; exists i; split; [lia|assumption]].
Qed.
Lemma sorted_app (P : R -> R -> Prop) l1 l2 : StronglySorted P l1 -> StronglySorted P l2 -> (forall u v, In u l1 -> In v l2 -> P u v) -> StronglySorted P (l1 ++ l2).
Proof.
  induction l1 as [|a l1 IH]; intros H1 H2 H; cbn; [exact H2|]. inversion H1; subst. constructor.
  - apply IH; try assumption. intros; apply H; [right|]; assumption.
  - apply Forall_app. split; [assumption|]. apply Forall_forall. intros v Hv. apply H; [left; reflexivity|assumption].
Qed.
Lemma segcat_sorted (x : arr R) g lo n : increasing x -> (0 <= lo)%Z -> (lo + Z.of_nat n <= alen x - 1)%Z ->
  (forall i, (lo <= i < lo + Z.of_nat n)%Z -> StronglySorted Rle (g i) /\ forall r, In r (g i) -> afn x i <= r <= afn x (i + 1)%Z) -> StronglySorted Rle (segcat g lo n).
Proof.
  intros Hx H0 H1 H. induction n as [|n IH]; cbn [segcat]; [constructor|]. apply sorted_app.
  - apply IH; [lia|]. intros i Hi. apply H. lia.
  - apply H. lia.
  - intros u v Hu Hv. apply segcat_in in Hu. destruct Hu as (i & Hi & Hu). apply (proj2 (H i ltac:(lia))) in Hu. apply (proj2 (H (lo + Z.of_nat n)%Z ltac:(lia))) in Hv. pose proof (inc_le x Hx (i + 1) (lo + Z.of_nat n) ltac:(lia) ltac:(lia) ltac:(lia)). lra.
Qed.
Lemma filter_sorted (P : R -> R -> Prop) f l : StronglySorted P l -> StronglySorted P (filter f l).
Proof.
  induction 1 as [|a l H IH F]; cbn; [constructor|]. destruct (f a); [|exact IH]. constructor; [exact IH|]. apply Forall_forall. intros v Hv. apply filter_In in Hv. rewrite Forall_forall in F. apply F, Hv.
Qed.
Lemma map_sorted c l : StronglySorted Rlt l -> StronglySorted Rle (map (fun r => r + c) l).
Proof. induction 1 as [|a l H IH F]; cbn; [constructor|]. constructor; [exact IH|]. apply Forall_forall. intros v Hv. apply in_map_iff in Hv. destruct Hv as (u & <- & Hu). rewrite Forall_forall in F. specialize (F u Hu). lra. Qed.
Lemma rev_sorted (P : R -> R -> Prop) l : StronglySorted (fun u v => P v u) l -> StronglySorted P (rev l).
Proof.
  induction 1 as [|a l H IH F]; cbn; [constructor|]. apply sorted_app; [exact IH|repeat constructor|]. intros u v Hu [<-|[]]. apply in_rev in Hu. rewrite Forall_forall in F. apply F. exact Hu.
Qed.

(** ---- findRoots<false> ---- *)
Definition push1 (result : list R) (r : R) : list R := match result with [] => [r] | p :: _ => if isLarger r p then r :: result else result end.
Definition inb (t1 t2 r : R) : bool := Rle_b t1 r && Rle_b r t2.
Lemma inb_spec t1 t2 r : inb t1 t2 r = true <-> t1 <= r <= t2.
Proof. unfold inb. rewrite andb_true_iff. unfold Rle_b. destruct (Rle_dec t1 r), (Rle_dec r t2); split; intros; try split; try lra; try discriminate; try reflexivity; destruct H; discriminate. Qed.
Lemma fold_pushRoot t1 t2 L : forall res, fold_left (pushRoot t1 t2) L res = fold_left push1 (filter (inb t1 t2) L) res.
Proof.
  induction L as [|r L IH]; intros res; cbn [fold_left filter]; [reflexivity|]. rewrite IH. unfold pushRoot, admit_root. fold (inb t1 t2 r). destruct (inb t1 t2 r) eqn:E; cbn [andb fold_left]; [|reflexivity].
  f_equal. unfold push1. destruct res as [|p res]; reflexivity.
Qed.
Lemma push1_fold G : forall res, StronglySorted Rle G -> (forall p q, In p res -> In q G -> p <= q) -> StronglySorted (fun u v => apart v u) res ->
  let out := fold_left push1 G res in
  StronglySorted (fun u v => apart v u) out /\ (forall p, In p out -> In p res \/ In p G) /\ (forall p, In p res -> In p out) /\
  (forall q, In q G -> exists p, In p out /\ p <= q /\ close p q).
Proof.
  induction G as [|r G IH]; intros res SG HL SR; cbn [fold_left].
  - repeat split; auto. intros q [].
  - inversion SG as [|? ? SG' FG]; subst. rewrite Forall_forall in FG.
    assert (K : push1 res r = r :: res /\ StronglySorted (fun u v => apart v u) (r :: res) \/ exists p l, res = p :: l /\ push1 res r = res /\ close p r /\ p <= r).
    { destruct res as [|p l]; [left; split; [reflexivity|repeat constructor]|]. unfold push1. destruct (isLarger r p) eqn:E.
      - left. split; [reflexivity|]. apply isLarger_spec in E. constructor; [exact SR|]. inversion SR as [|? ? SR' FR]; subst. constructor; [exact E|]. rewrite Forall_forall in *. intros w Hw. apply (apart_trans w p r); [apply FR; exact Hw|exact E].
      - right. exists p, l. split; [reflexivity|]. split; [reflexivity|]. assert (p <= r) by (apply HL; left; reflexivity). split; [|assumption]. apply not_apart_close; [assumption|]. apply isLarger_no. exact E. }
    destruct K as [(-> & SS)|(p & l & -> & -> & C & Le)].
    + destruct (IH (r :: res) SG') as (S1 & S2 & S3 & S4); [|exact SS|].
      { intros p q [<-|Hp] Hq; [apply FG; exact Hq|apply HL; [exact Hp|right; exact Hq]]. }
      split; [exact S1|]. split; [|split].
      * intros p Hp. destruct (S2 p Hp) as [[<-|Hp']|Hp']; [right; left; reflexivity|left; exact Hp'|right; right; exact Hp'].
      * intros p Hp. apply S3. right. exact Hp.
      * intros q [<-|Hq]; [|apply S4; exact Hq]. exists r. split; [apply S3; left; reflexivity|]. split; [lra|apply close_refl].
    + destruct (IH (p :: l) SG') as (S1 & S2 & S3 & S4); [|exact SR|].
      { intros u q Hu Hq. apply HL; [exact Hu|right; exact Hq]. }
      split; [exact S1|]. split; [|split].
      * intros u Hu. destruct (S2 u Hu) as [Hu'|Hu']; [left; exact Hu'|right; right; exact Hu'].
      * exact S3.
      * intros q [<-|Hq]; [|apply S4; exact Hq]. exists p. split; [apply S3; left; reflexivity|]. split; assumption.
Qed.

Section Roots.
  Variable x : arr R.
  Hypothesis Hx : increasing x.
  Hypothesis Hn : (2 <= alen x)%Z.
  Variable rf : Z -> res (list R).
  Variable rs : Z -> list R.
  Hypothesis Hrf : forall i, (0 <= i <= alen x - 2)%Z -> rf i = Ok (rs i) /\ (length (rs i) <= 4)%nat /\ StronglySorted Rlt (rs i).
  Definition cand (a b : R) (i : Z) : list R := filter (inb (Rmax a (afn x i)) (Rmin b (afn x (i + 1)%Z))) (map (fun r => r + afn x i) (rs i)).
  Lemma cand_in a b i r : In r (cand a b i) <-> (a <= r <= b /\ afn x i <= r <= afn x (i + 1)%Z) /\ In (r - afn x i) (rs i).
  Proof.
    unfold cand. rewrite filter_In, inb_spec, in_map_iff. split.
    - intros ((t & <- & Ht) & H1 & H2). pose proof (Rmax_l a (afn x i)). pose proof (Rmax_r a (afn x i)). pose proof (Rmin_l b (afn x (i + 1)%Z)). pose proof (Rmin_r b (afn x (i + 1)%Z)).
      split; [lra|]. replace (t + afn x i - afn x i) with t by ring. exact Ht.
    - intros ((H1 & H2) & H). split; [exists (r - afn x i); split; [ring|exact H]|]. split; [apply Rmax_lub; lra|apply Rmin_glb; lra].
  Qed.
  Lemma cand_sorted a b i : (0 <= i <= alen x - 2)%Z -> StronglySorted Rle (cand a b i).
  Proof. intros Hi. apply filter_sorted, map_sorted. apply Hrf. exact Hi. Qed.

  Lemma findRoots_spec x1 x2 : let a := lower x x1 x2 in let b := upper x x1 x2 in a < b ->
    exists L, findRoots x rf x1 x2 = Ok L /\ StronglySorted apart L /\
      (forall r, In r L -> a <= r <= b /\ exists i, (0 <= i <= alen x - 2)%Z /\ afn x i <= r <= afn x (i + 1)%Z /\ In (r - afn x i) (rs i)) /\
      (forall i r, (0 <= i <= alen x - 2)%Z -> a <= r <= b -> afn x i <= r -> r < afn x (i + 1)%Z \/ i = (alen x - 2)%Z /\ r = afn x (i + 1)%Z -> In (r - afn x i) (rs i) -> exists r', In r' L /\ r' <= r /\ close r' r).
  Proof.
    intros a b Hab. unfold findRoots. rewrite (proj2 (Z.eqb_neq (alen x) 0)) by lia. rewrite (interval_ok x ltac:(lia)). cbn [bind]. fold a b. rewrite (Req_b_f a b) by lra.
    destruct (bounds x x1 x2) as (B1 & B2). fold a in B1. fold b in B2. destruct (segments_ok x Hx Hn a b B1 Hab B2) as (i1 & i2 & -> & I0 & I12 & I2 & A1 & A2 & A3). cbn [bind fst snd].
    set (G := segcat (cand a b) i1 (Z.to_nat (i2 + 1 - i1))).
    match goal with |- context [for_ i1 (i2 + 1) ?f []] => destruct (for_total (fun i res => res = fold_left push1 (segcat (cand a b) i1 (Z.to_nat (i - i1))) []) i1 (i2 + 1) f []) as (res & E & Er) end.
    - lia.
    - rewrite Z.sub_diag. reflexivity.
    - intros i res Hi Er. rewrite !aget_ok by lia. cbn [bind]. destruct (Hrf i ltac:(lia)) as (-> & Hl & Hs). cbn [bind]. rewrite (proj2 (Nat.ltb_ge 4 _)) by assumption.
      eexists. split; [reflexivity|]. rewrite fold_pushRoot. fold (cand a b i). rewrite Er. replace (Z.to_nat (i + 1 - i1)) with (S (Z.to_nat (i - i1))) by lia. cbn [segcat]. rewrite fold_left_app. do 2 f_equal. lia.
    - rewrite E. cbn [bind]. fold G in Er.
      assert (SG : StronglySorted Rle G). { apply (segcat_sorted x); try assumption; try lia. intros i Hi. split; [apply cand_sorted; lia|]. intros r Hr. apply cand_in in Hr. tauto. }
      destruct (push1_fold G [] SG) as (S1 & S2 & _ & S4); [intros p q []|constructor|]. rewrite <- Er in *. clear Er.
      exists (rev res). split; [reflexivity|]. split; [apply rev_sorted; exact S1|]. split.
      + intros r Hr. apply in_rev in Hr. destruct (S2 r Hr) as [[]|Hg]. unfold G in Hg. apply segcat_in in Hg. destruct Hg as (i & Hi & Hg). apply cand_in in Hg. split; [tauto|]. exists i. split; [lia|]. tauto.
      + intros m r Hm Hr M1 M2 Hin. assert (M3 : r <= afn x (m + 1)%Z) by (destruct M2 as [M2|[_ M2]]; lra).
        assert (i1 <= m)%Z. { destruct (Z_le_gt_dec i1 m); [assumption|]. pose proof (inc_le x Hx (m + 1) i1 ltac:(lia) ltac:(lia) ltac:(lia)). destruct M2 as [M2|[-> M2]]; [lra|lia]. }
        assert (m <= i2)%Z. { destruct (Z_le_gt_dec m i2); [assumption|]. pose proof (inc_le x Hx (i2 + 1) m ltac:(lia) ltac:(lia) ltac:(lia)). destruct A3 as [A3| ->]; [lra|lia]. }
        destruct (S4 r) as (p & Hp & Hp1 & Hp2).
        { unfold G. apply segcat_in. exists m. split; [lia|]. apply cand_in. split; [split; lra|exact Hin]. }
        exists p. split; [rewrite <- in_rev; exact Hp|]. split; assumption.
  Qed.
End Roots.
