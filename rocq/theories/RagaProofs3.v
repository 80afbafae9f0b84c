From Coq Require Import Reals Lra Lia Bool List Arith Psatz.
From Coquelicot Require Import Coquelicot.
From Verif Require Import RandReal PolyModel PolyProofs CoordModel DiskModel RagaModel RagaSpec RagaProofs RagaProofs2.
Import ListNotations.
Local Open Scope R_scope.

(** ** masses *)
Definition capOf (p : R * option nat) : R := if isCaptured p then fst p else 0.
Lemma cap_split parts : (forall p b, In p parts -> isCaptured p = true -> snd p = Some b -> (b < 2)%nat) ->
  sumR (map (capturedBy 0) parts) + sumR (map (capturedBy 1) parts) = sumR (map capOf parts).
Proof.
  induction parts as [|p parts IH]; intros H; cbn; [ring|]. unfold sumR in IH. rewrite <- IH by (intros p' b Hp; apply H; right; exact Hp).
  assert (E : capturedBy 0 p + capturedBy 1 p = capOf p).
  { unfold capturedBy, capOf. destruct (isCaptured p) eqn:E; [|ring]. destruct p as [m [b|]]; cbn [snd fst] in *; [|discriminate].
    pose proof (H (m, Some b) b (or_introl eq_refl) E eq_refl) as Hb. destruct b as [|[|b]]; cbn; [ring|ring|lia]. }
  rewrite <- E. ring.
Qed.
Lemma cap_masses parts : sumR (map (fun p => if isCaptured p then 0 else fst p) parts) + sumR (map capOf parts) = sumR (map fst parts).
Proof.
  induction parts as [|p parts IH]; cbn; [ring|]. unfold sumR in IH. rewrite <- IH. unfold capOf at 1. destruct (isCaptured p); ring.
Qed.
Lemma cap_none parts : existsb isCaptured parts = false -> sumR (map capOf parts) = 0.
Proof.
  induction parts as [|p parts IH]; intros H; [reflexivity|]. cbn in H. apply orb_false_iff in H. destruct H as [H1 H2]. cbn. unfold capOf at 1. rewrite H1.
  specialize (IH H2). unfold sumR in IH. rewrite IH. ring.
Qed.
Lemma cap_nonneg b parts : (forall p, In p parts -> 0 <= fst p) -> 0 <= sumR (map (capturedBy b) parts).
Proof.
  induction parts as [|p parts IH]; intros H; cbn; [lra|]. specialize (IH (fun q Hq => H q (or_intror Hq))). unfold sumR in IH.
  assert (0 <= capturedBy b p); [|lra]. unfold capturedBy. pose proof (H p (or_introl eq_refl)). destruct (isCaptured p); [|lra]. destruct (snd p); [|lra]. destruct (Nat.eqb _ _); lra.
Qed.
Lemma lossFinish_total f bh parts : (forall p b, In p parts -> isCaptured p = true -> snd p = Some b -> (b < 2)%nat) ->
  let '(bh', m') := lossFinish f bh parts in
  bmass bh' = bmass bh + f * (sumR (map fst parts) - sumR m').
Proof.
  intros H. pose proof (cap_split parts H) as E. pose proof (cap_masses parts) as E2. unfold lossFinish. cbv zeta. destruct (existsb isCaptured parts) eqn:X.
  - cbn [bmass]. rewrite E. rewrite <- E2. ring.
  - pose proof (cap_none parts X) as E3. rewrite <- E2, E3. ring.
Qed.
Lemma lossFinish_binary bh parts : 0 < bsma bh -> 0 < bmass bh -> 0 <= bq bh -> (forall p, In p parts -> 0 <= fst p) ->
  let '(bh', m') := lossFinish 1 bh parts in
  mass1 (bmass bh') (bq bh') = mass1 (bmass bh) (bq bh) + sumR (map (capturedBy 0) parts) /\
  mass2 (bmass bh') (bq bh') = mass2 (bmass bh) (bq bh) + sumR (map (capturedBy 1) parts) /\ 0 <= bq bh' /\ 0 < bmass bh'.
Proof.
  intros Hs HM Hq Hp. pose proof (cap_nonneg 0 parts Hp) as C0. pose proof (cap_nonneg 1 parts Hp) as C1.
  unfold lossFinish. cbv zeta. destruct (existsb isCaptured parts) eqn:X.
  - rewrite Rlt_b_t by exact Hs. cbn [bmass bq]. set (c0 := sumR (map (capturedBy 0) parts)) in *. set (c1 := sumR (map (capturedBy 1) parts)) in *.
    assert (D : 0 < bmass bh + c0 * (1 + bq bh)) by nra. unfold mass1, mass2.
    assert (D2 : 0 < bmass bh + c0 + c1) by lra.
    assert (E : 1 + (bmass bh * bq bh + c1 * (1 + bq bh)) / (bmass bh + c0 * (1 + bq bh)) = (1 + bq bh) * (bmass bh + c0 + c1) / (bmass bh + c0 * (1 + bq bh))) by (field; lra).
    rewrite E. split; [|split; [|split]].
    + field. repeat split; lra.
    + field. repeat split; lra.
    + apply Rmult_le_pos; [|left; apply Rinv_0_lt_compat; exact D]. nra.
    + lra.
  - assert (Z : forall b, sumR (map (capturedBy b) parts) = 0).
    { intros b. clear - X. induction parts as [|p parts IH]; [reflexivity|]. cbn in X. apply orb_false_iff in X. destruct X as [X1 X2]. cbn. unfold capturedBy at 1. rewrite X1.
      specialize (IH X2). unfold sumR in IH. rewrite IH. ring. }
    rewrite !Z. repeat split; try lra.
Qed.
Definition validCaptures (e : list (option nat)) : Prop := forall b, In (Some b) e -> (b < 2)%nat.
Lemma combine_fst {A B} : forall (l : list A) (l' : list B), length l = length l' -> map fst (combine l l') = l.
Proof. induction l as [|x l IH]; intros [|y l'] H; try discriminate; [reflexivity|]. cbn. f_equal. apply IH. cbn in H. lia. Qed.
Lemma lossFinish_masses f bh parts : snd (lossFinish f bh parts) = map (fun p => if isCaptured p then 0 else fst p) parts.
Proof. unfold lossFinish. cbv zeta. destruct (existsb _ _); reflexivity. Qed.
Lemma lossHistory_spec f : forall episodes bh masses, (forall e, In e episodes -> length e = length masses /\ validCaptures e) -> (forall m, In m masses -> 0 <= m) -> 0 <= f ->
  let '(bh', m') := lossHistory f bh masses episodes in
  bmass bh' = bmass bh + f * (sumR masses - sumR m') /\ bmass bh <= bmass bh' /\ length m' = length masses /\
  (forall i, nth i m' 0 = nth i masses 0 \/ nth i m' 0 = 0).
Proof.
  induction episodes as [|e r IH]; intros bh masses He Hm Hf; cbn [lossHistory].
  - split; [ring|]. split; [lra|]. split; [reflexivity|]. intros; left; reflexivity.
  - destruct (He e (or_introl eq_refl)) as [L V].
    assert (Hc : forall p b, In p (combine masses e) -> isCaptured p = true -> snd p = Some b -> (b < 2)%nat).
    { intros [m o] b Hp _ E. cbn in E. subst. apply V. eapply in_combine_r. exact Hp. }
    pose proof (lossFinish_total f bh (combine masses e) Hc) as T. pose proof (lossFinish_masses f bh (combine masses e)) as M.
    destruct (lossFinish f bh (combine masses e)) as [bh1 m1]. cbn [snd] in M. rewrite combine_fst in T by (symmetry; exact L).
    assert (L1 : length m1 = length masses) by (rewrite M, map_length, combine_length, L, Nat.min_id; reflexivity).
    assert (P1 : forall m, In m m1 -> 0 <= m).
    { rewrite M. intros m Hm1. apply in_map_iff in Hm1. destruct Hm1 as ([m0 o] & E & Hin). destruct (isCaptured (m0, o)); cbn in E; [lra|]. subst. apply Hm. eapply in_combine_l. exact Hin. }
    assert (S1 : sumR m1 <= sumR masses).
    { pose proof (cap_masses (combine masses e)) as C. rewrite <- M, combine_fst in C by (symmetry; exact L).
      assert (0 <= sumR (map capOf (combine masses e))); [|lra]. assert (Hpos : forall p, In p (combine masses e) -> 0 <= fst p) by (intros [m o] Hp; apply Hm; eapply in_combine_l; exact Hp).
      clear - Hpos. induction (combine masses e) as [|p l IH]; cbn; [lra|]. specialize (IH (fun q Hq => Hpos q (or_intror Hq))). unfold sumR in IH.
      pose proof (Hpos p (or_introl eq_refl)). unfold capOf at 1. destruct (isCaptured p); lra. }
    specialize (IH bh1 m1). destruct (lossHistory f bh1 m1 r) as [bh2 m2]. destruct IH as (I1 & I2 & I3 & I4); [|exact P1|exact Hf|].
    { intros e' He'. rewrite L1. apply He. right. exact He'. }
    split; [rewrite I1, T; ring|]. split; [|split; [lia|]].
    + assert (0 <= f * (sumR masses - sumR m1)) by (apply Rmult_le_pos; lra). lra.
    + intros i. destruct (I4 i) as [E|E]; [|right; exact E]. rewrite E, M. clear - L.
      revert i e L. induction masses as [|m masses IHm]; intros i [|o e] L; try discriminate; [left; destruct i; reflexivity|].
      cbn [combine map]. destruct i as [|i]; cbn [nth]; [destruct (isCaptured (m, o)); [right; reflexivity|left; reflexivity]|]. apply IHm. cbn in L. lia.
Qed.

(** ** timestep of the evolution of the binary *)
Definition tstepOf (A B k h rest : R) : R :=
  match efmin2 (edivpos A (Rabs k)) (edivpos B (Rabs h)) with None => rest | Some s => let s := 0.01 * s in if Rlt_b rest s then rest else s end.
Lemma tstep_spec A B k h rest : 0 < A -> 0 < B -> 0 < rest -> let ts := tstepOf A B k h rest in
  0 < ts <= rest /\ ts * Rabs k <= A / 100 /\ ts * Rabs h <= B / 100 /\ (ts = rest \/ ts * Rabs k = A / 100 \/ ts * Rabs h = B / 100).
Proof.
  intros HA HB Hr ts. unfold ts, tstepOf, edivpos. clear ts.
  assert (F : forall s, 0 < s -> 0 < 0.01 * s) by (intros; lra).
  assert (G : forall s u C, 0 < s -> 0 <= u -> s * u <= C -> let t := (let s := 0.01 * s in if Rlt_b rest s then rest else s) in 0 < t <= rest /\ t * u <= C / 100 /\ (t = rest \/ t = s / 100)).
  { intros s u C Hs Hu HC. cbv zeta. destruct (Rlt_dec rest (0.01 * s)) as [L|L]; [rewrite Rlt_b_t by exact L|rewrite Rlt_b_f by lra].
    - split; [lra|]. split; [|left; reflexivity]. apply Rle_trans with (0.01 * s * u); [apply Rmult_le_compat_r; lra|lra].
    - split; [lra|]. split; [lra|]. right. lra. }
  destruct (Req_dec (Rabs k) 0) as [K|K]; [rewrite (Req_b_t (Rabs k)) by exact K|rewrite (Req_b_f (Rabs k)) by exact K];
  (destruct (Req_dec (Rabs h) 0) as [Hh|Hh]; [rewrite (Req_b_t (Rabs h)) by exact Hh|rewrite (Req_b_f (Rabs h)) by exact Hh]); cbn [efmin2];
  pose proof (Rabs_pos k); pose proof (Rabs_pos h).
  - rewrite K, Hh. repeat split; try lra.
  - assert (P : 0 < B / Rabs h) by (apply Rdiv_lt_0_compat; lra). destruct (G (B / Rabs h) (Rabs h) B P ltac:(lra)) as (G1 & G2 & G3); [right; field; exact Hh|].
    cbv zeta in *. split; [exact G1|]. split; [rewrite K, Rmult_0_r; lra|]. split; [exact G2|]. destruct G3 as [G3|G3]; [left; exact G3|right; right]. rewrite G3. field. exact Hh.
  - assert (P : 0 < A / Rabs k) by (apply Rdiv_lt_0_compat; lra). destruct (G (A / Rabs k) (Rabs k) A P ltac:(lra)) as (G1 & G2 & G3); [right; field; exact K|].
    cbv zeta in *. split; [exact G1|]. split; [exact G2|]. split; [rewrite Hh, Rmult_0_r; lra|]. destruct G3 as [G3|G3]; [left; exact G3|right; left]. rewrite G3. field. exact K.
  - assert (P : 0 < A / Rabs k) by (apply Rdiv_lt_0_compat; lra). assert (Q : 0 < B / Rabs h) by (apply Rdiv_lt_0_compat; lra).
    set (s := Rmin (A / Rabs k) (B / Rabs h)). assert (S0 : 0 < s) by (unfold s; apply Rmin_glb_lt; assumption).
    assert (SA : s * Rabs k <= A). { apply Rle_trans with (A / Rabs k * Rabs k); [apply Rmult_le_compat_r; [lra|apply Rmin_l]|right; field; exact K]. }
    assert (SB : s * Rabs h <= B). { apply Rle_trans with (B / Rabs h * Rabs h); [apply Rmult_le_compat_r; [lra|apply Rmin_r]|right; field; exact Hh]. }
    destruct (G s (Rabs k) A S0 ltac:(lra) SA) as (G1 & G2 & G3). destruct (G s (Rabs h) B S0 ltac:(lra) SB) as (_ & G4 & _). cbv zeta in *.
    split; [exact G1|]. split; [exact G2|]. split; [exact G4|]. destruct G3 as [G3|G3]; [left; exact G3|right]. rewrite G3. unfold s, Rmin. destruct (Rle_dec _ _); [left; field; exact K|right; field; exact Hh].
Qed.
Lemma evolveIter_eq c M q H K sma ecc tp T : evolveIter c M q H K (sma, ecc, tp, T) =
  let Hgw := gwH c M q sma ecc in let Kgw := gwK c M q sma ecc in
  let ts := tstepOf (Rmin (1 - pow_2 ecc) (pow_2 ecc + 1 / 1000)) (1 / sma) (K + Kgw) (H + Hgw) (T - tp) in
  if (if Req_b Hgw 0 then false else Rlt_b (0.25 / sma / Hgw) (T - tp)) && Rlt_b ecc 0.01 then let tp' := tp + 0.25 / sma / Hgw in (0, 0, tp', tp')
  else (1 / (1 / sma + ts * (H + Hgw)), Rmin MAX_ECC (sqrt (Rmax 0 (pow_2 ecc + ts * (K + Kgw)))), tp + ts, T).
Proof. reflexivity. Qed.
Definition posC (c : option R) : Prop := match c with None => True | Some c => 0 < c end.
Lemma gwMult_nonneg c M q sma ecc : posC c -> 0 < M -> 0 <= q -> 0 < sma -> 0 <= gwMult c M q sma ecc.
Proof.
  intros Hc HM Hq Hs. unfold gwMult. destruct c as [c|]; [|lra]. cbn in Hc.
  assert (0 < (c * sma) ^ 5) by (apply pow_lt, Rmult_lt_0_compat; assumption). assert (0 < M ^ 3) by (apply pow_lt; assumption).
  assert (0 < 1 / (c * sma) ^ 5) by (apply Rdiv_lt_0_compat; lra). assert (0 < / pow_2 (1 + q)) by (apply Rinv_0_lt_compat; unfold pow_2; nra).
  apply Rmult_le_pos; [|left; unfold Rpower; apply exp_pos]. unfold Rdiv at 1. apply Rmult_le_pos; [|lra]. apply Rmult_le_pos; [|exact Hq]. apply Rmult_le_pos; [|lra]. apply Rmult_le_pos; lra.
Qed.
Lemma gwH_nonneg c M q sma ecc : posC c -> 0 < M -> 0 <= q -> 0 < sma -> 0 <= gwH c M q sma ecc.
Proof.
  intros Hc HM Hq Hs. pose proof (gwMult_nonneg c M q sma ecc Hc HM Hq Hs) as G. unfold gwH. unfold Rdiv.
  assert (0 <= pow_2 ecc) by (unfold pow_2; nra). assert (0 < / sma) by (apply Rinv_0_lt_compat; exact Hs).
  apply Rmult_le_pos; [|lra]. apply Rmult_le_pos; [|lra]. apply Rmult_le_pos; [exact G|]. nra.
Qed.
Definition goodState (st : R * R * R * R) : Prop := let '(sma, ecc, tp, T) := st in 0 < sma /\ 0 <= ecc < 1 /\ 0 <= tp < T.
(** one iteration *)
Lemma evolveIter_spec c M q H K sma ecc tp T : posC c -> 0 < M -> 0 <= q -> goodState (sma, ecc, tp, T) ->
  let '(sma', ecc', tp', T') := evolveIter c M q H K (sma, ecc, tp, T) in
  (sma' = 0 /\ ecc' = 0 /\ tp' = T' /\ tp < T' < T /\ 0 < gwH c M q sma ecc) \/
  (T' = T /\ 0 < sma' /\ 0 <= ecc' <= MAX_ECC /\ tp < tp' <= T /\ 1 / sma' = 1 / sma + (tp' - tp) * (H + gwH c M q sma ecc) /\
   ecc' = Rmin MAX_ECC (sqrt (Rmax 0 (pow_2 ecc + (tp' - tp) * (K + gwK c M q sma ecc)))) /\ (99 / 100 / sma <= 1 / sma' <= 101 / 100 / sma) /\
   (tp' = T \/ (tp' - tp) * Rabs (K + gwK c M q sma ecc) = Rmin (1 - pow_2 ecc) (pow_2 ecc + 1 / 1000) / 100 \/ (tp' - tp) * Rabs (H + gwH c M q sma ecc) = 1 / sma / 100)).
Proof.
  intros Hc HM Hq (Hs & He & Ht). rewrite evolveIter_eq. cbv zeta. set (Hgw := gwH c M q sma ecc). set (Kgw := gwK c M q sma ecc).
  pose proof (gwH_nonneg c M q sma ecc Hc HM Hq Hs) as G. fold Hgw in G.
  destruct ((if Req_b Hgw 0 then false else Rlt_b (0.25 / sma / Hgw) (T - tp)) && Rlt_b ecc 0.01) eqn:E.
  - left. apply andb_true_iff in E. destruct E as [E1 E2]. destruct (Req_EM_T Hgw 0) as [Z|Z]; [rewrite Req_b_t in E1 by exact Z; discriminate|].
    rewrite Req_b_f in E1 by exact Z. assert (L : 0.25 / sma / Hgw < T - tp) by (unfold Rlt_b in E1; destruct (Rlt_dec _ _); [assumption|discriminate]).
    assert (P : 0 < 0.25 / sma / Hgw) by (apply Rdiv_lt_0_compat; [apply Rdiv_lt_0_compat; lra|lra]). repeat split; try reflexivity; lra.
  - right. set (A := Rmin _ _).
    assert (He2 : 0 <= pow_2 ecc < 1) by (unfold pow_2; nra).
    assert (HA : 0 < A) by (unfold A; apply Rmin_glb_lt; lra). assert (HB : 0 < 1 / sma) by (apply Rdiv_lt_0_compat; lra).
    destruct (tstep_spec A (1 / sma) (K + Kgw) (H + Hgw) (T - tp) HA HB ltac:(lra)) as (T1 & T2 & T3 & T4). set (ts := tstepOf _ _ _ _ _) in *.
    assert (HH : Rabs (ts * (H + Hgw)) <= 1 / sma / 100) by (rewrite Rabs_mult, (Rabs_right ts) by lra; exact T3).
    apply Rabs_le_between in HH. assert (P : 0 < 1 / sma + ts * (H + Hgw)) by lra.
    replace (tp + ts - tp) with ts by ring. split; [reflexivity|]. split; [apply Rdiv_lt_0_compat; lra|]. split.
    { split; [apply Rmin_glb; [unfold MAX_ECC; lra|apply sqrt_pos]|apply Rmin_l]. }
    split; [lra|]. split; [field; repeat split; try lra; intro Z; assert (1 / sma + ts * (H + Hgw) = (1 + ts * (H + Hgw) * sma) / sma) as Q by (field; lra); rewrite Q in P; unfold Rdiv in P; rewrite Z in P; lra|].
    split; [reflexivity|]. split.
    + assert (EE : 1 / (1 / (1 / sma + ts * (H + Hgw))) = 1 / sma + ts * (H + Hgw)) by (unfold Rdiv at 1 2; rewrite !Rmult_1_l, Rinv_inv; reflexivity).
      rewrite EE. replace (99 / 100 / sma) with (99 / 100 * (1 / sma)) by (field; lra). replace (101 / 100 / sma) with (101 / 100 * (1 / sma)) by (field; lra). lra.
    + destruct T4 as [T4|T4]; [left; lra|right; exact T4].
Qed.
