(** Extrema: the loop over segments *)
From Coquelicot Require Import Coquelicot.
From Coq Require Import Sorting Ranalysis5.
From Verif Require Import Arr BinSearchModel SplineModel SplineGlue SplIntModel PolyProofs RootProofs SplRootModel BsplSpec BsplProofs BsplProofs3 SplineSpec SplRootSpec SplRootProofs.
Local Open Scope R_scope.

(** the list of points found so far, the last one first *)
Inductive chain (F : R -> R) (a : R) : R -> list R -> Prop :=
| ch_one : chain F a 0 [a]
| ch_up s p q l : s <= 0 -> chain F a s (p :: l) -> p < q -> F p < F q -> non_decreasing F p q -> chain F a 1 (q :: p :: l)
| ch_down s p q l : 0 <= s -> chain F a s (p :: l) -> p < q -> F q < F p -> non_increasing F p q -> chain F a (-1) (q :: p :: l).
Lemma chain_sign F a s l : chain F a s l -> s = 0 \/ s = 1 \/ s = -1.
Proof. inversion 1; auto. Qed.
Lemma chain_zigzag F a s p l : chain F a s (p :: l) -> forall up l2, zigzag F up (p :: l2) -> (0 < s -> up = false) -> (s < 0 -> up = true) -> exists up', zigzag F up' (rev l ++ p :: l2).
Proof.
  intros H. remember (p :: l) as L eqn:EL. revert p l EL. induction H as [|s p' q l' Hs H IH L1 L2 L3|s p' q l' Hs H IH L1 L2 L3]; intros p l EL up l2 Z U D; injection EL as <- <-.
  - exists up. exact Z.
  - cbn [rev]. rewrite <- app_assoc. cbn [app]. rewrite U in Z by lra. apply (IH p' l' eq_refl true).
    + apply zz_up; assumption.
    + intros; lra.
    + reflexivity.
  - cbn [rev]. rewrite <- app_assoc. cbn [app]. rewrite D in Z by lra. apply (IH p' l' eq_refl false).
    + apply zz_down; assumption.
    + reflexivity.
    + intros; lra.
Qed.
Lemma nd_trans F p q r : non_decreasing F p q -> non_decreasing F q r -> p <= q -> q <= r -> non_decreasing F p r.
Proof. intros A B H1 H2 u v H3 H4 H5. destruct (Rle_dec v q); [apply A; lra|]. destruct (Rle_dec q u); [apply B; lra|]. apply Rle_trans with (F q); [apply A; lra|apply B; lra]. Qed.
Lemma ni_trans F p q r : non_increasing F p q -> non_increasing F q r -> p <= q -> q <= r -> non_increasing F p r.
Proof. intros A B H1 H2 u v H3 H4 H5. destruct (Rle_dec v q); [apply A; lra|]. destruct (Rle_dec q u); [apply B; lra|]. apply Rle_trans with (F q); [apply B; lra|apply A; lra]. Qed.
Lemma const_nd F p q : constant F p q -> non_decreasing F p q. Proof. intros H u v H1 H2 H3. rewrite (H u), (H v) by lra. lra. Qed.
Lemma const_ni F p q : constant F p q -> non_increasing F p q. Proof. intros H u v H1 H2 H3. rewrite (H u), (H v) by lra. lra. Qed.
Definition monotone F p q := non_decreasing F p q \/ non_increasing F p q.
Lemma mono_extend F p c q : p <= c -> c <= q -> constant F p c -> monotone F c q -> monotone F p q.
Proof. intros H1 H2 H3 [H|H]; [left; apply (nd_trans F p c q); auto using const_nd|right; apply (ni_trans F p c q); auto using const_ni]. Qed.
Lemma mono_up F p q : p <= q -> monotone F p q -> F p < F q -> non_decreasing F p q.
Proof. intros L [H|H] N; [exact H|]. specialize (H p q ltac:(lra) L ltac:(lra)). lra. Qed.
Lemma mono_down F p q : p <= q -> monotone F p q -> F q < F p -> non_increasing F p q.
Proof. intros L [H|H] N; [|exact H]. specialize (H p q ltac:(lra) L ltac:(lra)). lra. Qed.
Lemma mono_const F p q : monotone F p q -> F q = F p -> constant F p q.
Proof. intros [H|H] N u Hu; pose proof (H p u ltac:(lra) ltac:(lra) ltac:(lra)); pose proof (H u q ltac:(lra) ltac:(lra) ltac:(lra)); lra. Qed.

(** one step of the algorithm *)
Definition stepE (F : R -> R) (st : extState) (r : R) : extState :=
  let '(result, prev, sign) := st in
  if match result with [] => true | p :: _ => isLarger r p end then
    if (Rlt_b 0 sign && Rlt_b prev (F r)) || (Rlt_b sign 0 && Rlt_b (F r) prev) then (r :: tl result, F r, sign)
    else if negb (Req_b (F r) prev) then (r :: result, F r, if Rlt_b prev (F r) then 1 else -1)
    else st
  else st.
(** c is the last candidate point seen so far *)
Definition good (F : R -> R) (crit : R -> Prop) (a c : R) (st : extState) : Prop :=
  exists p l, fst (fst st) = p :: l /\ snd (fst st) = F p /\ chain F a (snd st) (p :: l) /\ p <= c /\ constant F p c /\ crit p /\ Forall (fun q => a <= q <= c /\ crit q) (p :: l).
Lemma Rlt_b_spec u v : Rlt_b u v = true <-> u < v.
Proof. unfold Rlt_b. destruct (Rlt_dec u v); split; intros; try assumption; try reflexivity; try discriminate; contradiction. Qed.
Lemma step_good F (crit : R -> Prop) a c st q :
  good F crit a c st -> a <= c -> c <= q -> crit q -> monotone F c q -> (forall p, p <= q -> crit p -> a <= p -> constant F p q \/ apart p q) -> good F crit a q (stepE F st q).
Proof.
  intros (p & l & Er & Ep & Hc & Hpc & HK & Cp & HF) Hac Hcq Cq Hm Hs. destruct st as [[res prev] sign]. cbn [fst snd] in *. subst res prev. unfold stepE.
  inversion HF as [|? ? [HFp _] HFl]; subst.
  assert (M : monotone F p q) by (apply (mono_extend F p c q); assumption).
  assert (W : Forall (fun u => a <= u <= q /\ crit u) (p :: l)) by (eapply Forall_impl; [|exact HF]; cbn; intros u (Hu & Cu); split; [lra|exact Cu]).
  assert (Keep : constant F p q -> good F crit a q (p :: l, F p, sign)).
  { intros K. exists p, l. cbn [fst snd]. repeat split; try assumption; try lra. }
  destruct (isLarger q p) eqn:EL.
  2:{ apply Keep. apply isLarger_no in EL. destruct (Hs p ltac:(lra) Cp ltac:(lra)); [assumption|contradiction]. }
  destruct ((Rlt_b 0 sign && Rlt_b (F p) (F q)) || (Rlt_b sign 0 && Rlt_b (F q) (F p))) eqn:ET.
  - apply orb_true_iff in ET. rewrite !andb_true_iff, !Rlt_b_spec in ET. exists q, l. cbn [fst snd tl]. split; [reflexivity|]. split; [reflexivity|].
    assert (CH : chain F a sign (q :: l)).
    { destruct ET as [(E1 & E2)|(E1 & E2)].
      - inversion Hc as [|s0 p0 ? l0 Hs0 Hc0 L1 L2 L3|]; subst; try lra. pose proof (mono_up F p q ltac:(lra) M E2). apply (ch_up F a s0); try assumption; try lra. apply (nd_trans F p0 p q); try assumption; lra.
      - inversion Hc as [| |s0 p0 ? l0 Hs0 Hc0 L1 L2 L3]; subst; try lra. pose proof (mono_down F p q ltac:(lra) M E2). apply (ch_down F a s0); try assumption; try lra. apply (ni_trans F p0 p q); try assumption; lra. }
    split; [exact CH|]. split; [lra|]. split; [intros u Hu; f_equal; lra|]. split; [exact Cq|]. constructor; [split; [lra|exact Cq]|]. inversion W; assumption.
  - apply orb_false_iff in ET. rewrite !andb_false_iff in ET. destruct ET as (ET1 & ET2).
    unfold Req_b. destruct (Req_EM_T (F q) (F p)) as [E|N]; cbn [negb]; [apply Keep; apply mono_const; [exact M|exact E]|].
    assert (Hpq : p < q) by (destruct (Rle_lt_or_eq_dec p q ltac:(lra)) as [|E]; [assumption|exfalso; apply N; rewrite E; reflexivity]).
    exists q, (p :: l). cbn [fst snd]. split; [reflexivity|]. split; [reflexivity|]. split; [|split; [lra|split; [intros u Hu; f_equal; lra|split; [exact Cq|constructor; [split; [lra|exact Cq]|exact W]]]]].
    unfold Rlt_b in *. destruct (Rlt_dec (F p) (F q)) as [L|L].
    + destruct ET1 as [ET1|ET1]; [|discriminate]. destruct (Rlt_dec 0 sign) as [|Ns]; [discriminate|]. apply (ch_up F a sign); try assumption; [lra|]. apply mono_up; [lra|exact M|exact L].
    + destruct (Rlt_dec (F q) (F p)) as [L'|]; [|lra]. destruct ET2 as [ET2|ET2]; [|discriminate]. destruct (Rlt_dec sign 0) as [|Ns]; [discriminate|]. apply (ch_down F a sign); try assumption; [lra|]. apply mono_down; [lra|exact M|exact L'].
Qed.
(** all candidates *)
Lemma fold_good F crit a : forall G c st, good F crit a c st -> a <= c -> StronglySorted Rle G -> (forall q, In q G -> c <= q /\ crit q) ->
  (forall l1 q l2, G = l1 ++ q :: l2 -> monotone F (last l1 c) q) ->
  (forall p q, In q G -> p <= q -> crit p -> a <= p -> constant F p q \/ apart p q) -> good F crit a (last G c) (fold_left (stepE F) G st).
Proof.
  induction G as [|q G IH]; intros c st Hg Hac SG HC HM HS; [exact Hg|]. cbn [fold_left]. inversion SG as [|? ? SG' FG]; subst. rewrite Forall_forall in FG.
  destruct (HC q ltac:(left; reflexivity)) as (Hcq & Cq).
  replace (last (q :: G) c) with (last G q). 2:{ destruct G; [reflexivity|]. cbn [last]. clear. revert r. induction G; intros; [reflexivity|]. cbn [last]. apply IHG. }
  apply IH; try assumption.
  - apply (step_good F crit a c); try assumption; [apply (HM [] q G eq_refl)|]. intros p Hp Cp Hap. apply HS; auto. left; reflexivity.
  - lra.
  - intros r Hr. split; [apply FG; exact Hr|apply HC; right; exact Hr].
  - intros l1 r l2 E. specialize (HM (q :: l1) r l2). rewrite E in HM. specialize (HM eq_refl). replace (last l1 q) with (last (q :: l1) c); [exact HM|].
    destruct l1 as [|u l1]; [reflexivity|]. cbn [last]. clear. revert u. induction l1; intros; [reflexivity|]. cbn [last]. apply IHl1.
  - intros p r Hr. apply HS. right; exact Hr.
Qed.

(** a function whose derivative does not vanish inside an interval *)
Lemma no_zero_monotone F F1 p q : p <= q -> (forall t, p <= t <= q -> is_derive F t (F1 t)) -> (forall t, p <= t <= q -> continuity_pt F1 t) -> (forall t, p < t < q -> F1 t <> 0) -> monotone F p q.
Proof.
  intros Hpq D C N. destruct (Req_dec p q) as [->|Ne]; [left; intros u v H1 H2 H3; replace u with v by lra; lra|].
  set (m := (p + q) / 2). assert (Hm : p < m < q) by (unfold m; lra).
  assert (SS : forall u v, p < u < q -> p < v < q -> 0 < F1 u -> 0 < F1 v).
  { intros u v Hu Hv P. destruct (Rlt_dec 0 (F1 v)) as [|L]; [assumption|]. exfalso. assert (L' : F1 v < 0) by (specialize (N v Hv); lra).
    destruct (Rlt_dec u v) as [Luv|Luv].
    - destruct (IVT_interv (fun t => - F1 t) u v) as (z & Hz & E); try lra.
      + intros t Ht. apply continuity_pt_opp, C. lra.
      + apply (N z); lra.
    - destruct (Req_dec u v) as [->|]; [lra|]. destruct (IVT_interv F1 v u) as (z & Hz & E); try lra.
      + intros t Ht. apply C. lra.
      + apply (N z); lra. }
  assert (MV : forall u v, p <= u -> u < v -> v <= q -> exists z, F v - F u = F1 z * (v - u) /\ u < z < v).
  { intros u v H1 H2 H3. apply (MVT_cor2 F F1 u v H2). intros t Ht. apply is_derive_Reals, D. lra. }
  destruct (Rlt_dec 0 (F1 m)) as [P|P].
  - left. intros u v H1 H2 H3. destruct (Req_dec u v) as [->|Nuv]; [lra|]. destruct (MV u v H1 ltac:(lra) H3) as (z & E & Hz). pose proof (SS m z Hm ltac:(lra) P). nra.
  - right. intros u v H1 H2 H3. destruct (Req_dec u v) as [->|Nuv]; [lra|]. destruct (MV u v H1 ltac:(lra) H3) as (z & E & Hz).
    assert (F1 z <= 0). { destruct (Rle_dec (F1 z) 0); [assumption|]. pose proof (SS z m ltac:(lra) Hm ltac:(lra)). lra. } nra.
Qed.
Lemma zero_constant F F1 p q : (forall t, p <= t <= q -> is_derive F t (F1 t)) -> (forall t, p <= t <= q -> F1 t = 0) -> constant F p q.
Proof.
  intros D Z u Hu. destruct (Req_dec p u) as [->|N]; [reflexivity|]. destruct (MVT_cor2 F F1 p u ltac:(lra)) as (z & E & Hz).
  - intros t Ht. apply is_derive_Reals, D. lra.
  - rewrite Z in E by lra. lra.
Qed.

Section Ext.
  Variable x : arr R.
  Hypothesis Hx : increasing x.
  Hypothesis Hn : (2 <= alen x)%Z.
  Variable rf : Z -> res (list R).
  Variable rs : Z -> list R.
  Hypothesis Hrf : forall i, (0 <= i <= alen x - 2)%Z -> rf i = Ok (rs i) /\ (length (rs i) <= 4)%nat /\ StronglySorted Rlt (rs i).
  Variable ev : R -> res R.
  Variable F F1 : R -> R.
  Hypothesis Hev : forall t, within x t -> ev t = Ok (F t).
  Hypothesis HD : forall t, within x t -> is_derive F t (F1 t).
  Hypothesis HC1 : forall t, within x t -> continuity_pt F1 t.
  (** the segments where the function is constant; otherwise the roots of its derivative are those given by rs *)
  Variable flat : Z -> bool.
  Hypothesis Hsound : forall i r, (0 <= i <= alen x - 2)%Z -> afn x i <= r <= afn x (i + 1)%Z -> In (r - afn x i) (rs i) -> F1 r = 0.
  Hypothesis Hflat : forall i r, (0 <= i <= alen x - 2)%Z -> flat i = true -> afn x i <= r <= afn x (i + 1)%Z -> F1 r = 0.
  Hypothesis Hflat0 : forall i, (0 <= i <= alen x - 2)%Z -> flat i = true -> In 0 (rs i).
  Hypothesis Hcomp : forall i r, (0 <= i <= alen x - 2)%Z -> flat i = false -> afn x i <= r <= afn x (i + 1)%Z -> F1 r = 0 -> In (r - afn x i) (rs i).

  Definition candE (a b : R) (i2 i : Z) : list R := cand x rs a b i ++ if (i =? i2)%Z then [b] else [].
  Lemma foldRes_step t1 t2 L : (forall r, In r L -> t1 <= r <= t2 -> ev r = Ok (F r)) -> forall st, foldRes (pushExt ev t1 t2) L st = Ok (fold_left (stepE F) (filter (inb t1 t2) L) st).
  Proof.
    induction L as [|r L IH]; intros HL st; [reflexivity|]. cbn [foldRes filter].
    assert (E : pushExt ev t1 t2 st r = Ok (if inb t1 t2 r then stepE F st r else st)).
    { unfold pushExt, stepE, admit_root. destruct st as [[res prev] sign]. fold (inb t1 t2 r). destruct (inb t1 t2 r) eqn:EI; cbn [andb]; [|reflexivity].
      destruct (match res with [] => true | p :: _ => isLarger r p end); [|reflexivity]. rewrite HL by (try (left; reflexivity); apply inb_spec; exact EI). cbn [bind].
      destruct ((Rlt_b 0 sign && Rlt_b prev (F r)) || (Rlt_b sign 0 && Rlt_b (F r) prev)); [reflexivity|]. destruct (negb (Req_b (F r) prev)); reflexivity. }
    rewrite E. cbn [bind]. rewrite IH by (intros u Hu; apply HL; right; exact Hu). destruct (inb t1 t2 r); reflexivity.
  Qed.

  Lemma findExtrema_spec x1 x2 : let a := lower x x1 x2 in let b := upper x x1 x2 in a < b ->
    exists L, findExtrema x ev rf x1 x2 = Ok L /\
     (forall p, In p L -> a <= p <= b /\ (p = a \/ p = b \/ F1 p = 0)) /\
     ((forall u v, a <= u -> u < v -> v <= b -> (u = a \/ F1 u = 0) -> (v = b \/ F1 v = 0) -> constant F u v \/ apart u v) -> extrema_of F a b L).
  Proof.
    intros a b Hab. unfold findExtrema. rewrite (proj2 (Z.eqb_neq (alen x) 0)) by lia. rewrite (interval_ok x ltac:(lia)). cbn [bind]. fold a b.
    destruct (bounds x x1 x2) as (B1 & B2). fold a in B1. fold b in B2. rewrite (Hev a) by (unfold within; lra). cbn [bind]. rewrite (Req_b_f a b) by lra.
    destruct (segments_ok x Hx Hn a b B1 Hab B2) as (i1 & i2 & -> & I0 & I12 & I2 & A1 & A2 & A3). cbn [bind fst snd].
    set (G := segcat (candE a b i2) i1 (Z.to_nat (i2 + 1 - i1))).
    match goal with |- context [for_ i1 (i2 + 1) ?f ?s] => destruct (for_total (fun i st => st = fold_left (stepE F) (segcat (candE a b i2) i1 (Z.to_nat (i - i1))) s) i1 (i2 + 1) f s) as (st & E & Er) end.
    - lia.
    - rewrite Z.sub_diag. reflexivity.
    - intros i st Hi Er. rewrite !aget_ok by lia. cbn [bind]. destruct (Hrf i ltac:(lia)) as (-> & Hl & Hs). cbn [bind]. rewrite (proj2 (Nat.ltb_ge 4 _)) by assumption.
      eexists. split; [apply foldRes_step|].
      + intros r Hr Hr2. apply Hev. unfold within. pose proof (Rmax_l a (afn x i)). pose proof (Rmin_l b (afn x (i + 1)%Z)). lra.
      + rewrite filter_app. fold (cand x rs a b i).
        replace (filter (inb (Rmax a (afn x i)) (Rmin b (afn x (i + 1)%Z))) (if (i =? i2)%Z then [Rmin b (afn x (i + 1)%Z)] else [])) with (if (i =? i2)%Z then [b] else []).
        2:{ destruct (Z.eqb_spec i i2) as [->|]; [|reflexivity]. rewrite (Rmin_left b) by lra. cbn [filter]. rewrite (proj2 (inb_spec _ _ _)); [reflexivity|]. split; [apply Rmax_lub; lra|lra]. }
        fold (candE a b i2 i). rewrite Er. replace (Z.to_nat (i + 1 - i1)) with (S (Z.to_nat (i - i1))) by lia. cbn [segcat]. rewrite fold_left_app. do 2 f_equal. lia.
    - rewrite E. cbn [bind]. fold G in Er. eexists. split; [reflexivity|].
      assert (CI : forall i r, In r (candE a b i2 i) <-> ((a <= r <= b /\ afn x i <= r <= afn x (i + 1)%Z) /\ In (r - afn x i) (rs i)) \/ i = i2 /\ r = b).
      { intros i r. unfold candE. rewrite in_app_iff, cand_in. destruct (Z.eqb_spec i i2) as [->|Ni]; cbn; intuition. }
      assert (GI : forall r, In r G -> a <= r <= b /\ (r = b \/ F1 r = 0)).
      { intros r Hr. unfold G in Hr. apply segcat_in in Hr. destruct Hr as (i & Hi & Hr). apply CI in Hr. destruct Hr as [(Hr & Hin)|(_ & ->)]; [|split; [lra|left; reflexivity]].
        split; [tauto|]. right. apply (Hsound i); try tauto. lia. }
      assert (SG : StronglySorted Rle G).
      { apply (segcat_sorted x); try assumption; try lia. intros i Hi. split.
        - unfold candE. apply sorted_app; [apply (cand_sorted x rf rs Hrf); lia|destruct (i =? i2)%Z; repeat constructor|]. intros u v Hu Hv. apply cand_in in Hu. destruct (i =? i2)%Z; [|destruct Hv]. destruct Hv as [<-|[]]. lra.
        - intros r Hr. apply CI in Hr. destruct Hr as [Hr|(-> & ->)]; [tauto|lra]. }
      assert (Gb : In b G). { unfold G. apply segcat_in. exists i2. split; [lia|]. apply CI. right. auto. }
      (* soundness *)
      assert (SND : forall p, In p (rev (fst (fst st))) -> a <= p <= b /\ (p = a \/ p = b \/ F1 p = 0)).
      { intros p Hp. apply in_rev in Hp. rewrite Er in Hp.
        assert (K : forall G0 s0, (forall r, In r (fst (fst (fold_left (stepE F) G0 s0))) -> In r (fst (fst s0)) \/ In r G0)).
        { induction G0 as [|q G0 IH]; intros s0 r Hr; [left; exact Hr|]. cbn [fold_left] in Hr. destruct (IH _ _ Hr) as [H|H]; [|right; right; exact H].
          destruct s0 as [[res prev] sign]. unfold stepE in H. cbn [fst snd] in *. destruct (match res with [] => true | p :: _ => isLarger q p end); [|left; exact H].
          destruct ((Rlt_b 0 sign && Rlt_b prev (F q)) || (Rlt_b sign 0 && Rlt_b (F q) prev)); [|destruct (negb (Req_b (F q) prev))]; cbn [fst] in H; [| |left; exact H].
          - destruct H as [<-|H]; [right; left; reflexivity|]. left. destruct res; [destruct H|right; exact H].
          - destruct H as [<-|H]; [right; left; reflexivity|left; exact H]. }
        destruct (K _ _ _ Hp) as [[<-|[]]|H]; [split; [lra|auto]|]. destruct (GI _ H) as (H1 & [H2|H2]); auto. }
      split; [exact SND|]. intros SEP.
      set (crit := fun p => p = a \/ p = b \/ F1 p = 0).
      assert (GG : good F crit a (last G a) (fold_left (stepE F) G ([a], F a, 0))).
      { apply fold_good.
        - exists a, []. cbn [fst snd]. split; [reflexivity|]. split; [reflexivity|]. split; [constructor|]. split; [lra|]. split; [intros u Hu; f_equal; lra|]. split; [left; reflexivity|].
          constructor; [split; [lra|left; reflexivity]|constructor].
        - lra.
        - exact SG.
        - intros q Hq. destruct (GI q Hq) as (H1 & H2). split; [lra|]. right. exact H2.
        - (* no zeros of the derivative between candidates *)
          intros l1 q l2 EG. set (c := last l1 a).
          assert (Hc : forall r, In r G -> r <= c \/ q <= r).
          { intros r Hr. rewrite EG in Hr, SG. apply in_app_iff in Hr. destruct Hr as [Hr|Hr].
            - left. unfold c. clear - SG Hr. assert (S1 : StronglySorted Rle l1). { clear - SG. induction l1; [constructor|]. cbn in SG. inversion SG; subst. constructor; [apply IHl1; assumption|]. apply Forall_app in H2. apply H2. }
              revert Hr S1. clear. revert r. induction l1 as [|u l1 IH]; intros r Hr S1; [destruct Hr|]. inversion S1 as [|? ? S2 F2]; subst. destruct l1 as [|v l1].
              + destruct Hr as [<-|[]]. cbn. lra.
              + change (last (u :: v :: l1) a) with (last (v :: l1) a). destruct Hr as [<-|Hr]; [|apply IH; assumption].
                rewrite Forall_forall in F2. apply Rle_trans with v; [apply F2; left; reflexivity|apply IH; [left; reflexivity|assumption]].
            - right. destruct Hr as [<-|Hr]; [lra|]. clear - SG Hr. induction l1 as [|u l1 IH]; cbn in SG; inversion SG as [|? ? S1 F1']; subst; [rewrite Forall_forall in F1'; apply F1'; exact Hr|apply IH; exact S1]. }
          assert (Hq : In q G) by (rewrite EG; apply in_app_iff; right; left; reflexivity).
          assert (Hcin : c = a \/ In c G).
          { unfold c. destruct l1 as [|u l1]; [left; reflexivity|]. right. rewrite EG. apply in_app_iff. left. clear. revert u. induction l1 as [|v l1 IH]; intros u; [left; reflexivity|]. right. apply IH. }
          assert (Hca : a <= c <= b) by (destruct Hcin as [-> | H]; [lra|apply GI; exact H]). assert (Hqb : a <= q <= b) by (apply GI; exact Hq).
          assert (Hcq : c <= q).
          { destruct Hcin as [-> | H]; [lra|]. unfold c in *. rewrite EG in SG. clear - SG Hqb. assert (K : forall r, In r l1 -> r <= q). { intros r Hr. induction l1 as [|u l1 IH]; [destruct Hr|]. cbn in SG. inversion SG as [|? ? S1 F1']; subst. rewrite Forall_forall in F1'. destruct Hr as [<-|Hr]; [apply F1', in_app_iff; right; left; reflexivity|apply IH; assumption]. }
            destruct l1 as [|u l1]; [cbn; lra|]. apply K. clear. revert u. induction l1 as [|v l1 IH]; intros u; [left; reflexivity|]. right. apply IH. }
          assert (DEC : (exists j, (i1 <= j <= i2)%Z /\ flat j = true /\ afn x j <= c /\ q <= afn x (j + 1)%Z) \/ ~ (exists j, (i1 <= j <= i2)%Z /\ flat j = true /\ afn x j <= c /\ q <= afn x (j + 1)%Z)).
          { assert (K : forall n : nat, (exists j, (i1 <= j < i1 + Z.of_nat n)%Z /\ flat j = true /\ afn x j <= c /\ q <= afn x (j + 1)%Z) \/ ~ (exists j, (i1 <= j < i1 + Z.of_nat n)%Z /\ flat j = true /\ afn x j <= c /\ q <= afn x (j + 1)%Z)).
            { induction n as [|n [IH|IH]]; [right; intros (j & Hj & _); lia|left; destruct IH as (j & Hj & H); exists j; split; [lia|exact H]|].
              destruct (flat (i1 + Z.of_nat n)) eqn:Ef; [destruct (Rle_dec (afn x (i1 + Z.of_nat n)%Z) c); [destruct (Rle_dec q (afn x (i1 + Z.of_nat n + 1)%Z))|]|].
              1: left; exists (i1 + Z.of_nat n)%Z; split; [lia|auto].
              all: right; intros (j & Hj & H1 & H2 & H3); destruct (Z.eq_dec j (i1 + Z.of_nat n)) as [->|Nj]; [congruence || contradiction|apply IH; exists j; split; [lia|auto]]. }
            destruct (K (Z.to_nat (i2 + 1 - i1))) as [(j & Hj & H)|H]; [left; exists j; split; [lia|exact H]|]. right. intros (j & Hj & Hj2). apply H. exists j. split; [lia|exact Hj2]. }
          destruct DEC as [(j & Hj & Ef & J1 & J2)|ND].
          + left. apply const_nd. apply (zero_constant F F1); [intros t Ht; apply HD; unfold within; lra|]. intros t Ht. apply (Hflat j); [lia|exact Ef|lra].
          + apply (no_zero_monotone F F1); [exact Hcq|intros t Ht; apply HD; unfold within; lra|intros t Ht; apply HC1; unfold within; lra|]. intros t Ht Z0.
            assert (W : within x t) by (unfold within; lra). destruct (seg_of x Hx Hn t W) as (m & _ & Hm & M1 & M2). rewrite !knot_in in * by lia.
            assert (M3 : t <= afn x (m + 1)%Z) by (destruct M2 as [M2|[_ M2]]; lra).
            assert (L1 : (i1 <= m)%Z). { destruct (Z_le_gt_dec i1 m); [assumption|]. pose proof (inc_le x Hx (m + 1) i1 ltac:(lia) ltac:(lia) ltac:(lia)). destruct M2 as [M2|[-> M2]]; [lra|lia]. }
            assert (L2 : (m <= i2)%Z). { destruct (Z_le_gt_dec m i2); [assumption|]. pose proof (inc_le x Hx (i2 + 1) m ltac:(lia) ltac:(lia) ltac:(lia)). destruct A3 as [A3| ->]; [lra|lia]. }
            destruct (flat m) eqn:Ef.
            * apply ND. exists m. split; [lia|]. split; [exact Ef|]. split.
              -- destruct (Rle_dec a (afn x m)) as [La|La]; [|lra].
                 assert (Gm : In (afn x m) G). { unfold G. apply segcat_in. exists m. split; [lia|]. apply CI. left. split; [lra|]. rewrite Rminus_eq_0. apply Hflat0; [lia|exact Ef]. }
                 destruct (Hc _ Gm); [assumption|lra].
              -- destruct (Z.eq_dec m i2) as [->|Nm]; [lra|].
                 assert (Gm : In (afn x (m + 1)%Z) G).
                 { unfold G. apply segcat_in. exists (m + 1)%Z. split; [lia|]. apply CI. left. pose proof (inc_lt x Hx (m + 1) (m + 1 + 1) ltac:(lia) ltac:(lia) ltac:(lia)). pose proof (inc_le x Hx (m + 1) i2 ltac:(lia) ltac:(lia) ltac:(lia)).
                   split; [lra|]. destruct (flat (m + 1)) eqn:Ef2; [rewrite Rminus_eq_0; apply Hflat0; [lia|exact Ef2]|]. apply Hcomp; [lia|exact Ef2|lra|]. apply (Hflat m); [lia|exact Ef|lra]. }
                 destruct (Hc _ Gm); [lra|assumption].
            * assert (Gt : In t G). { unfold G. apply segcat_in. exists m. split; [lia|]. apply CI. left. split; [lra|]. apply Hcomp; [lia|exact Ef|lra|exact Z0]. }
              destruct (Hc _ Gt); lra.
        - intros p q Hq Hpq Cp Hap. destruct (GI q Hq) as (Hqb & Cq). destruct (Req_dec p q) as [->|N]; [left; intros u Hu; f_equal; lra|].
          apply SEP; try assumption; try lra. destruct Cp as [H|[H|H]]; [left; exact H|lra|right; exact H]. }
      rewrite <- Er in GG. destruct GG as (p & l & Ep & _ & Hch & Hpc & HK & _ & HFa).
      assert (Lb : last G a = b).
      { assert (K : forall l r, In r l -> StronglySorted Rle l -> r <= last l a). { clear. induction l as [|u l IH]; intros r Hr S1; [destruct Hr|]. inversion S1 as [|? ? S2 F2]; subst. destruct l as [|v l]; [destruct Hr as [<-|[]]; cbn; lra|].
          change (last (u :: v :: l) a) with (last (v :: l) a). destruct Hr as [<-|Hr]; [|apply IH; assumption]. rewrite Forall_forall in F2. apply Rle_trans with v; [apply F2; left; reflexivity|apply IH; [left; reflexivity|assumption]]. }
        pose proof (K G b Gb SG). assert (In (last G a) G). { clear - Gb. destruct G as [|u G]; [destruct Gb|]. clear. revert u. induction G as [|v G IH]; intros u; [left; reflexivity|]. right. apply IH. }
        destruct (GI _ H0). lra. }
      rewrite Lb in *. rewrite Ep. unfold extrema_of. split; [|split; [|split]].
      + assert (K : forall s p l, chain F a s (p :: l) -> exists l', rev (p :: l) = a :: l').
        { clear. intros s p l H. remember (p :: l) as L. clear p l HeqL. induction H; [exists []; reflexivity| |]; destruct IHchain as (l' & El); cbn [rev] in *; rewrite El; cbn; eexists; reflexivity. }
        apply (K _ _ _ Hch).
      + destruct (Rlt_dec 0 (snd st)) as [L|L]; [destruct (chain_zigzag F a _ p l Hch false []) as (up & Hz)|destruct (chain_zigzag F a _ p l Hch true []) as (up & Hz)]; try constructor; try reflexivity; try (intros; lra); exists up; exact Hz.
      + intros u Hu. apply in_rev in Hu. rewrite Forall_forall in HFa. apply HFa in Hu. tauto.
      + cbn [rev]. rewrite last_last. exact HK.
  Qed.
End Ext.
