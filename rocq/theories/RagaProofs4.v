From Coq Require Import Reals Lra Lia Bool List Arith Psatz.
From Coquelicot Require Import Coquelicot.
From Verif Require Import RandReal PolyModel PolyProofs CoordModel DiskModel RagaModel RagaSpec RagaProofs RagaProofs2 RagaProofs3.
Import ListNotations.
Local Open Scope R_scope.

Definition nearEnd (tp T : R) : Prop := T * (1 - 1 / 10000000000) <= tp <= T.
(** ** the whole loop *)
Lemma evolveLoop_spec c M q H K : posC c -> 0 < M -> 0 <= q -> forall fuel sma ecc tp T sma' ecc' tp' T', goodState (sma, ecc, tp, T) ->
  evolveLoop fuel c M q H K (sma, ecc, tp, T) = Some (sma', ecc', tp', T') ->
  (sma' = 0 /\ ecc' = 0 /\ tp' = T' /\ tp < T' < T /\ c <> None) \/
  (T' = T /\ 0 < sma' /\ 0 <= ecc' <= MAX_ECC /\ nearEnd tp' T /\ tp < tp' /\ 1 / sma + H * (tp' - tp) <= 1 / sma' /\ (c = None -> 1 / sma' = 1 / sma + H * (tp' - tp))).
Proof.
  intros Hc HM Hq fuel. induction fuel as [|f IH]; intros sma ecc tp T sma' ecc' tp' T' G E; [discriminate|].
  cbn [evolveLoop] in E. pose proof (evolveIter_spec c M q H K sma ecc tp T Hc HM Hq G) as S1. destruct G as (Hs & He & Ht).
  pose proof (gwH_nonneg c M q sma ecc Hc HM Hq Hs) as GH.
  assert (GN : c = None -> gwH c M q sma ecc = 0) by (intros ->; unfold gwH, gwMult, Rdiv; ring).
  destruct (evolveIter c M q H K (sma, ecc, tp, T)) as [[[s1 e1] t1] T1]. destruct S1 as [(A1 & A2 & A3 & A4 & A5)|(A1 & A2 & A3 & A4 & A5 & _)].
  - assert (t1 >= T1 * (1 - 1 / 10000000000)) by lra. rewrite Rlt_b_f in E by lra. injection E as <- <- <- <-. left. repeat split; try assumption; try lra.
    intros ->. rewrite GN in A5 by reflexivity. lra.
  - subst T1. assert (PH : 0 <= (t1 - tp) * gwH c M q sma ecc) by (apply Rmult_le_pos; lra).
    destruct (Rlt_dec t1 (T * (1 - 1 / 10000000000))) as [L|L]; [rewrite Rlt_b_t in E by exact L|rewrite Rlt_b_f in E by lra].
    + apply IH in E; [|split; [exact A2|]; split; [unfold MAX_ECC in A3; lra|lra]]. destruct E as [(B1 & B2 & B3 & B4 & B5)|(B1 & B2 & B3 & B4 & B5 & B6 & B7)].
      * left. repeat split; try assumption; lra.
      * right. repeat split; try assumption; try lra; try apply B3; try apply B4.
        intros EN. rewrite B7 by exact EN. rewrite A5, GN by exact EN. ring.
    + injection E as <- <- <- <-. right. unfold nearEnd. repeat split; try assumption; try lra; try apply A3. intros EN. rewrite A5, GN by exact EN. ring.
Qed.

(** eccentricity without gravitational waves, as long as it is not clamped *)
Lemma evolveLoop_ecc M q H K : 0 < M -> 0 <= q -> forall fuel sma ecc tp T sma' ecc' tp' T', goodState (sma, ecc, tp, T) ->
  (forall t, 0 <= t <= T - tp -> 0 <= ecc ^ 2 + K * t <= MAX_ECC ^ 2) ->
  evolveLoop fuel None M q H K (sma, ecc, tp, T) = Some (sma', ecc', tp', T') -> ecc' ^ 2 = ecc ^ 2 + K * (tp' - tp).
Proof.
  intros HM Hq fuel. induction fuel as [|f IH]; intros sma ecc tp T sma' ecc' tp' T' G HK E; [discriminate|].
  cbn [evolveLoop] in E. pose proof (evolveIter_spec None M q H K sma ecc tp T Logic.I HM Hq G) as S1. destruct G as (Hs & He & Ht).
  assert (GN : gwH None M q sma ecc = 0) by (unfold gwH, gwMult, Rdiv; ring). assert (GK : gwK None M q sma ecc = 0) by (unfold gwK, gwMult, Rdiv; ring).
  destruct (evolveIter None M q H K (sma, ecc, tp, T)) as [[[s1 e1] t1] T1]. destruct S1 as [(_ & _ & _ & _ & A5)|(A1 & A2 & A3 & A4 & _ & A6 & _)]; [rewrite GN in A5; lra|].
  subst T1. rewrite GK, Rplus_0_r in A6.
  assert (E1 : e1 ^ 2 = ecc ^ 2 + K * (t1 - tp)).
  { assert (Q := HK (t1 - tp) ltac:(lra)). replace (pow_2 ecc + (t1 - tp) * K) with (ecc ^ 2 + K * (t1 - tp)) in A6 by (unfold pow_2; ring).
    rewrite Rmax_right in A6 by lra. rewrite Rmin_right in A6.
    - rewrite A6. rewrite <- Rsqr_pow2. apply Rsqr_sqrt. lra.
    - rewrite <- (sqrt_pow2 MAX_ECC) by (unfold MAX_ECC; lra). apply sqrt_le_1; [lra|unfold MAX_ECC; nra|lra]. }
  destruct (Rlt_dec t1 (T * (1 - 1 / 10000000000))) as [L|L]; [rewrite Rlt_b_t in E by exact L|rewrite Rlt_b_f in E by lra].
  - apply IH in E.
    + rewrite E, E1. ring.
    + split; [exact A2|]. split; [unfold MAX_ECC in A3; lra|lra].
    + intros t Htt. rewrite E1. replace (ecc ^ 2 + K * (t1 - tp) + K * t) with (ecc ^ 2 + K * (t1 - tp + t)) by ring. apply HK. lra.
  - injection E as _ <- <- _. exact E1.
Qed.

(** ** termination without gravitational waves *)
Lemma evolveLoop_terminates M q H K : 0 < M -> 0 <= q -> forall umin amin, 0 < umin -> 0 < amin -> amin <= 1 / 1000 -> amin <= 1 - MAX_ECC ^ 2 ->
  let d := Rmin (umin / 100) (amin / 100) / (1 + Rabs K + Rabs H) in
  forall fuel sma ecc tp T, goodState (sma, ecc, tp, T) -> amin <= 1 - pow_2 ecc ->
  (forall t, 0 <= t <= T - tp -> umin <= 1 / sma + H * t) -> T - tp < INR fuel * d ->
  exists r, evolveLoop fuel None M q H K (sma, ecc, tp, T) = Some r.
Proof.
  intros HM Hq umin amin Hu Ha Ha1 Ha2 d.
  pose proof (Rabs_pos K) as PK. pose proof (Rabs_pos H) as PH.
  set (w := Rmin (umin / 100) (amin / 100)) in *. assert (Hw : 0 < w) by (unfold w; apply Rmin_glb_lt; lra).
  assert (Hw1 : w <= umin / 100) by apply Rmin_l. assert (Hw2 : w <= amin / 100) by apply Rmin_r.
  assert (Hd : 0 < d) by (unfold d; apply Rdiv_lt_0_compat; lra).
  assert (Ed : d * (1 + Rabs K + Rabs H) = w) by (unfold d; field; lra).
  induction fuel as [|f IH]; intros sma ecc tp T G He2 HU HF.
  - cbn in HF. destruct G as (_ & _ & Ht). lra.
  - cbn [evolveLoop]. pose proof (evolveIter_spec None M q H K sma ecc tp T Logic.I HM Hq G) as S1. destruct G as (Hs & He & Ht).
    assert (GN : gwH None M q sma ecc = 0) by (unfold gwH, gwMult, Rdiv; ring). assert (GK : gwK None M q sma ecc = 0) by (unfold gwK, gwMult, Rdiv; ring).
    destruct (evolveIter None M q H K (sma, ecc, tp, T)) as [[[s1 e1] t1] T1]. destruct S1 as [(_ & _ & _ & _ & A5)|(A1 & A2 & A3 & A4 & A5 & _ & _ & A8)]; [rewrite GN in A5; lra|].
    subst T1. rewrite GN, Rplus_0_r in A5, A8. rewrite GK, Rplus_0_r in A8.
    destruct (Rlt_dec t1 (T * (1 - 1 / 10000000000))) as [L|L]; [rewrite Rlt_b_t by exact L|rewrite Rlt_b_f by lra; eexists; reflexivity].
    assert (Hstep : d <= t1 - tp).
    { destruct A8 as [A8|[A8|A8]]; [exfalso; assert (0 < T * (1 / 10000000000)) by (apply Rmult_lt_0_compat; lra); lra| |].
      - assert (w <= (t1 - tp) * Rabs K).
        { rewrite A8. assert (amin <= Rmin (1 - pow_2 ecc) (pow_2 ecc + 1 / 1000)); [|lra]. apply Rmin_glb; [exact He2|]. unfold pow_2. nra. }
        apply Rmult_le_reg_r with (1 + Rabs K + Rabs H); [lra|]. rewrite Ed. apply Rle_trans with (1 := H0). apply Rmult_le_compat_l; lra.
      - assert (w <= (t1 - tp) * Rabs H).
        { rewrite A8. assert (HU0 := HU 0 ltac:(lra)). lra. }
        apply Rmult_le_reg_r with (1 + Rabs K + Rabs H); [lra|]. rewrite Ed. apply Rle_trans with (1 := H0). apply Rmult_le_compat_l; lra. }
    apply IH.
    + split; [exact A2|]. split; [unfold MAX_ECC in A3; lra|lra].
    + assert (pow_2 e1 <= MAX_ECC ^ 2) by (unfold pow_2; nra). lra.
    + intros t Htt. rewrite A5. replace (1 / sma + (t1 - tp) * H + H * t) with (1 / sma + H * (t1 - tp + t)) by ring. apply HU. lra.
    + rewrite S_INR in HF. lra.
Qed.
(** ** non-termination: the stars would give the binary more energy than is needed to disrupt it *)
Lemma evolveLoop_diverges M q H K : 0 < M -> 0 <= q -> forall fuel sma ecc tp T, goodState (sma, ecc, tp, T) ->
  1 / sma + H * (T * (1 - 1 / 10000000000) - tp) <= 0 -> H < 0 -> evolveLoop fuel None M q H K (sma, ecc, tp, T) = None.
Proof.
  intros HM Hq fuel. induction fuel as [|f IH]; intros sma ecc tp T G HU HH; [reflexivity|].
  cbn [evolveLoop]. pose proof (evolveIter_spec None M q H K sma ecc tp T Logic.I HM Hq G) as S1. destruct G as (Hs & He & Ht).
  assert (GN : gwH None M q sma ecc = 0) by (unfold gwH, gwMult, Rdiv; ring).
  destruct (evolveIter None M q H K (sma, ecc, tp, T)) as [[[s1 e1] t1] T1]. destruct S1 as [(_ & _ & _ & _ & A5)|(A1 & A2 & A3 & A4 & A5 & _)]; [rewrite GN in A5; lra|].
  subst T1. rewrite GN, Rplus_0_r in A5. assert (P : 0 < 1 / s1) by (apply Rdiv_lt_0_compat; lra).
  assert (L : t1 < T * (1 - 1 / 10000000000)).
  { apply Rnot_le_lt. intros Q. assert (H * (t1 - tp) <= H * (T * (1 - 1 / 10000000000) - tp)) by (apply Rmult_le_compat_neg_l; lra). lra. }
  rewrite Rlt_b_t by exact L. apply IH; [|rewrite A5; lra|exact HH].
  split; [exact A2|]. split; [unfold MAX_ECC in A3; lra|lra].
Qed.

(** ** conservation laws *)
Lemma energy_change bh len parts tp u' : 0 < bq bh -> 0 < bmass bh -> 0 < len -> u' = 1 / bsma bh + rateH bh len parts * tp ->
  binaryEnergy (bmass bh) (bq bh) u' - binaryEnergy (bmass bh) (bq bh) (1 / bsma bh) = - sumEnc fst parts * (tp / len).
Proof.
  intros Hq HM Hl ->. unfold binaryEnergy, mass1, mass2, rateH, pow_2. set (u0 := 1 / bsma bh). set (S := sumEnc fst parts). field. repeat split; lra.
Qed.
Lemma lz_rate bh len parts : 0 < bq bh -> 0 < bmass bh -> 0 < len -> 0 < bsma bh -> 0 <= becc bh < 1 ->
  is_derive (fun t => binaryLz (bmass bh) (bq bh) (1 / bsma bh + rateH bh len parts * t) (becc bh ^ 2 + rateK bh len parts * t)) 0 (- sumEnc snd parts / len).
Proof.
  intros Hq HM Hl Hs He. set (H := rateH bh len parts). set (K := rateK bh len parts). unfold binaryLz.
  assert (He2 : 0 < 1 - becc bh ^ 2) by nra. assert (Hu : 0 < 1 / bsma bh) by (apply Rdiv_lt_0_compat; lra).
  assert (P : 0 < bmass bh * (1 - becc bh ^ 2) / (1 / bsma bh)) by (apply Rdiv_lt_0_compat; [apply Rmult_lt_0_compat; lra|exact Hu]).
  auto_derive.
  - replace (1 / bsma bh + H * 0) with (1 / bsma bh) by ring. replace (becc bh * (becc bh * 1) + K * 0) with (becc bh ^ 2) by ring.
    split; [lra|]. split; [|exact Logic.I]. exact P.
  - replace (1 / bsma bh + H * 0) with (1 / bsma bh) by ring. replace (becc bh * (becc bh * 1) + K * 0) with (becc bh ^ 2) by ring.
    set (e2 := becc bh ^ 2) in *. set (a := bsma bh) in *. set (M := bmass bh) in *. set (q := bq bh) in *.
    replace (M * (1 + - e2) * / (1 / a)) with (M * (1 - e2) * a) in * by (field; lra). replace (M * (1 - e2) / (1 / a)) with (M * (1 - e2) * a) in P by (field; lra).
    set (s := sqrt (M * (1 - e2) * a)). assert (Hs1 : 0 < s) by (apply sqrt_lt_R0; exact P).
    assert (Ss : s * s = M * (1 - e2) * a) by (apply sqrt_sqrt; lra).
    assert (Es : sqrt ((1 - e2) * M / a) = s / a).
    { apply sqrt_lem_1; [apply Rmult_le_pos; [apply Rmult_le_pos; lra|left; apply Rinv_0_lt_compat; exact Hs]|apply Rmult_le_pos; [lra|left; apply Rinv_0_lt_compat; exact Hs]|].
      replace (s / a * (s / a)) with (s * s / (a * a)) by (field; lra). rewrite Ss. field. lra. }
    assert (HK : K = 2 * pow_2 (1 + q) / q / pow_2 M / len * (s / a * sumEnc snd parts - (1 - e2) * sumEnc fst parts * a)).
    { unfold K, rateK. fold q M a. replace (pow_2 (becc bh)) with e2 by (unfold e2, pow_2; ring). rewrite Es. reflexivity. }
    assert (HH : H = 2 * pow_2 (1 + q) / q / pow_2 M / len * sumEnc fst parts) by reflexivity.
    rewrite HK, HH. unfold mass1, mass2, pow_2. set (Sz := sumEnc snd parts). set (Se := sumEnc fst parts). clearbody Sz Se s.
    assert (EM : 1 - e2 = s * s / (M * a)) by (rewrite Ss; field; lra).
    replace (1 + - e2) with (s * s / (M * a)) by (rewrite <- EM; ring). rewrite EM. field. repeat split; try lra.
Qed.
