From Coq Require Import Reals Lra Lia Bool List Arith.
From Verif Require Import RandReal PolyModel PolyProofs CoordModel DiskModel RagaModel RagaSpec.
Import ListNotations.
Local Open Scope R_scope.

(** ** sampling *)
Lemma sampleLoop_spec {A} dt tb te (sol : R -> A) : 0 < dt -> forall rem out,
  (rem = 0%nat \/ tb < dt * INR (length out + 1)) ->
  exists m, (m <= rem)%nat /\ sampleLoop rem dt tb te sol out = out ++ map (fun k => sol (dt * INR (k + 1))) (seq (length out) m) /\
    (forall k, (length out <= k < length out + m)%nat -> tb < dt * INR (k + 1) <= te) /\ (m = rem \/ te < dt * INR (length out + m + 1)).
Proof.
  intros Hd rem. induction rem as [|r IH]; intros out HH.
  - exists 0%nat. cbn. rewrite app_nil_r. split; [lia|]. split; [reflexivity|]. split; [intros; lia|left; reflexivity].
  - cbn [sampleLoop]. destruct HH as [HH|HH]; [discriminate|]. cbv zeta. rewrite Rlt_b_t by exact HH.
    destruct (Rle_dec (dt * INR (length out + 1)) te) as [L|L].
    + rewrite Rle_b_t by exact L. cbn [andb].
      destruct (IH (out ++ [sol (dt * INR (length out + 1))])) as (m & A1 & A2 & A3 & A4).
      { right. rewrite app_length. cbn [length]. apply Rlt_le_trans with (1 := HH). apply Rmult_le_compat_l; [lra|]. apply le_INR. lia. }
      rewrite app_length in A2, A3, A4. cbn [length] in A2, A3, A4.
      exists (S m). split; [lia|]. split; [|split].
      * rewrite A2. rewrite <- app_assoc. f_equal. cbn [seq map app]. f_equal. f_equal. f_equal. lia.
      * intros k Hk. destruct (Nat.eq_dec k (length out)) as [->|N]; [lra|]. apply A3. lia.
      * destruct A4 as [A4|A4]; [left; lia|right]. replace (length out + S m + 1)%nat with (length out + 1 + m + 1)%nat by lia. exact A4.
    + rewrite Rle_b_f by lra. cbn [andb]. exists 0%nat. split; [lia|]. split; [cbn; rewrite app_nil_r; reflexivity|].
      split; [intros; lia|]. right. rewrite Nat.add_0_r. lra.
Qed.
Lemma lastEnd_ge {A} (steps : list (R * A)) : forall t, increasing t steps -> t <= lastEnd t steps.
Proof. induction steps as [|[te s] r IH]; intros t H; cbn; [lra|]. destruct H as [H1 H2]. pose proof (IH te H2). lra. Qed.
Lemma sampleRun_spec {A} n dt (d : A) : 0 < dt -> forall steps t out, increasing t steps -> (length out <= n)%nat ->
  (length out = n \/ t < dt * INR (length out + 1)) ->
  exists m, (length out + m <= n)%nat /\
    sampleRun n dt t steps out = out ++ map (fun k => trajectory steps d (dt * INR (k + 1))) (seq (length out) m) /\
    (forall k, (length out <= k < length out + m)%nat -> t < dt * INR (k + 1) <= lastEnd t steps) /\
    ((length out + m)%nat = n \/ lastEnd t steps < dt * INR (length out + m + 1)).
Proof.
  intros Hd steps. induction steps as [|[te sol] r IH]; intros t out HI HL HT.
  - exists 0%nat. cbn. rewrite app_nil_r, Nat.add_0_r. split; [lia|]. split; [reflexivity|]. split; [intros; lia|]. exact HT.
  - destruct HI as [H1 H2]. cbn [sampleRun lastEnd]. unfold sampleStep.
    destruct (sampleLoop_spec dt t te sol Hd (n - length out) out) as (m1 & A1 & A2 & A3 & A4).
    { destruct HT as [HT|HT]; [left; lia|right; exact HT]. }
    rewrite A2. set (out1 := out ++ _).
    assert (L1 : length out1 = (length out + m1)%nat) by (unfold out1; rewrite app_length, map_length, seq_length; reflexivity).
    destruct (IH te out1 H2) as (m2 & B1 & B2 & B3 & B4).
    { rewrite L1. lia. }
    { rewrite L1. destruct A4 as [A4|A4]; [left; lia|right; exact A4]. }
    rewrite L1 in B1, B2, B3, B4. exists (m1 + m2)%nat. pose proof (lastEnd_ge r te H2) as LE. split; [lia|]. split; [|split].
    + rewrite B2. unfold out1. rewrite <- app_assoc. f_equal. rewrite seq_app, map_app. f_equal.
      * apply map_ext_in. intros k Hk. apply in_seq in Hk. cbn [trajectory]. destruct (Rle_dec _ te) as [L|L]; [reflexivity|].
        exfalso. apply L. apply A3. lia.
      * apply map_ext_in. intros k Hk. apply in_seq in Hk. cbn [trajectory]. destruct (Rle_dec _ te) as [L|L]; [|reflexivity].
        exfalso. destruct (B3 k) as [Q _]; [lia|]. lra.
    + intros k Hk. destruct (lt_dec k (length out + m1)) as [L|L].
      * destruct (A3 k) as [Q1 Q2]; [lia|]. lra.
      * destruct (B3 k) as [Q1 Q2]; [lia|]. lra.
    + replace (length out + (m1 + m2))%nat with (length out + m1 + m2)%nat by lia. exact B4.
Qed.

(** ** selection *)
Lemma replace_app {A} (k : list A) (x y : A) (r : list A) : RagaModel.replace (length k) x (k ++ y :: r) = k ++ x :: r.
Proof. induction k as [|z k IH]; cbn; [reflexivity|]. rewrite IH. reflexivity. Qed.
Lemma squeeze_spec {A} (ok : A -> bool) : forall rest kept junk,
  let '(a, n) := squeeze (length rest) ok (kept ++ junk ++ rest) (length kept + length junk) (length kept) in firstn n a = kept ++ filter ok rest.
Proof.
  induction rest as [|x rest IH]; intros kept junk.
  - cbn. rewrite firstn_app, Nat.sub_diag, firstn_all. cbn. reflexivity.
  - cbn [length squeeze].
    assert (E : nth_error (kept ++ junk ++ x :: rest) (length kept + length junk) = Some x).
    { rewrite nth_error_app2 by lia. rewrite nth_error_app2 by lia. replace (_ - _ - _)%nat with 0%nat by lia. reflexivity. }
    rewrite E. cbn [filter]. destruct (ok x).
    + destruct junk as [|y junk].
      * cbn [app length]. rewrite replace_app. specialize (IH (kept ++ [x]) []). rewrite app_length in IH. cbn [length app] in IH.
        rewrite <- app_assoc in IH. cbn [app] in IH. rewrite Nat.add_0_r in IH |- *. replace (S (length kept)) with (length kept + 1)%nat by lia.
        destruct (squeeze _ _ _ _ _) as [a n]. rewrite IH; try rewrite <- app_assoc; reflexivity.
      * cbn [app]. rewrite replace_app. specialize (IH (kept ++ [x]) (junk ++ [x])). rewrite !app_length in IH. cbn [length] in IH.
        rewrite <- !app_assoc in IH. cbn [app] in IH. cbn [length].
        replace (S (length kept + S (length junk)))%nat with (length kept + 1 + (length junk + 1))%nat by lia.
        replace (S (length kept)) with (length kept + 1)%nat by lia.
        destruct (squeeze _ _ _ _ _) as [a n]. rewrite IH; try rewrite <- app_assoc; reflexivity.
    + specialize (IH kept (junk ++ [x])). rewrite app_length in IH. cbn [length] in IH. rewrite <- app_assoc in IH. cbn [app] in IH.
      replace (S (length kept + length junk))%nat with (length kept + (length junk + 1))%nat by lia. exact IH.
Qed.
Lemma compact_filter {A} (ok : A -> bool) (arr : list A) : compact ok arr = filter ok arr.
Proof. unfold compact. pose proof (squeeze_spec ok arr [] []) as H. cbn [app length Nat.add] in H. destruct (squeeze _ _ _ _ _). exact H. Qed.

Lemma block_length {A} n (out : list A) : (length out <= n)%nat -> length (block n out) = n.
Proof. intros H. unfold block. rewrite app_length, map_length, repeat_length. lia. Qed.
Lemma nth_blocks {A} n : forall (outs : list (list A)) i j, (forall o, In o outs -> (length o <= n)%nat) -> (i < length outs)%nat -> (j < n)%nat ->
  nth (i * n + j) (flat_map (block n) outs) None = nth j (block n (nth i outs [])) None.
Proof.
  induction outs as [|o outs IH]; intros i j Hl Hi Hj; [cbn in Hi; lia|]. cbn [flat_map].
  assert (Lo : length (block n o) = n) by (apply block_length, Hl; left; reflexivity).
  destruct i as [|i].
  - cbn [Nat.mul Nat.add nth]. rewrite app_nth1 by lia. reflexivity.
  - rewrite app_nth2 by (rewrite Lo; nia). rewrite Lo. replace (S i * n + j - n)%nat with (i * n + j)%nat by nia. cbn [nth].
    apply IH; [intros o' Ho; apply Hl; right; exact Ho|cbn in Hi; lia|exact Hj].
Qed.
Lemma map_nth_seq {A B} (f : A -> B) (d : A) : forall (l : list A), map (fun j => f (nth j l d)) (seq 0 (length l)) = map f l.
Proof.
  intros l. induction l as [|x l IH]; [reflexivity|]. cbn [length seq map nth]. f_equal. rewrite <- seq_shift, map_map. exact IH.
Qed.
Lemma filter_flat_map {A B} (p : B -> bool) (f : A -> list B) l : filter p (flat_map f l) = flat_map (fun x => filter p (f x)) l.
Proof. induction l as [|x l IH]; [reflexivity|]. cbn. rewrite filter_app, IH. reflexivity. Qed.
Lemma flat_map_ext_in {A B} (f g : A -> list B) l : (forall x, In x l -> f x = g x) -> flat_map f l = flat_map g l.
Proof. intros H. rewrite !flat_map_concat_map. f_equal. apply map_ext_in. exact H. Qed.
(** the samples of a particle of mass m *)
Definition samplesOf {A} (n : nat) (p : R * list A) : list (option A * R) :=
  if Rlt_dec 0 (fst p) then map (fun x => (Some x, fst p / INR n)) (snd p) else [].
Lemma filter_block {A} n m (out : list A) : (0 < n)%nat ->
  filter goodSample (map (fun o => (o, m / INR n)) (block n out)) = samplesOf n (m, out).
Proof.
  intros Hn. assert (0 < INR n) by (apply lt_0_INR; exact Hn). unfold block, samplesOf. cbn [fst snd]. rewrite map_app, filter_app, map_map.
  assert (E2 : filter goodSample (map (fun o : option A => (o, m / INR n)) (repeat None (n - length out))) = []).
  { induction (n - length out)%nat as [|k IH]; [reflexivity|]. cbn. exact IH. }
  rewrite E2, app_nil_r. clear E2. destruct (Rlt_dec 0 m) as [L|L].
  - induction out as [|x out IH]; [reflexivity|]. cbn [map filter goodSample fst snd]. rewrite Rlt_b_t by (apply Rdiv_lt_0_compat; lra). f_equal. exact IH.
  - induction out as [|x out IH]; [reflexivity|]. cbn [map filter goodSample fst snd]. rewrite Rlt_b_f; [exact IH|].
    unfold Rdiv. rewrite <- (Rmult_0_l (/ INR n)). apply Rmult_le_compat_r; [|lra]. left. apply Rinv_0_lt_compat. lra.
Qed.
Lemma flat_map_combine {A B C} (f : A * B -> list C) da db : forall (l1 : list A) (l2 : list B), length l1 = length l2 ->
  flat_map (fun i => f (nth i l1 da, nth i l2 db)) (seq 0 (length l1)) = flat_map f (combine l1 l2).
Proof.
  induction l1 as [|x l1 IH]; intros [|y l2] H; try discriminate; [reflexivity|]. cbn [length seq flat_map combine nth]. f_equal.
  rewrite <- (IH l2) by (cbn in H; lia). rewrite <- seq_shift. rewrite !flat_map_concat_map, map_map. reflexivity.
Qed.
Lemma potentialSamples_spec {A} n masses (outs : list (list A)) : (0 < n)%nat -> length masses = length outs ->
  (forall o, In o outs -> (length o <= n)%nat) -> potentialSamples n masses outs = flat_map (samplesOf n) (combine masses outs).
Proof.
  intros Hn HL Ho. unfold potentialSamples. rewrite compact_filter. unfold setMasses. rewrite filter_flat_map.
  rewrite <- (flat_map_combine (samplesOf n) 0 []) by exact HL. apply flat_map_ext_in. intros i Hi. apply in_seq in Hi.
  rewrite <- filter_block by exact Hn. f_equal.
  assert (Hb : length (block n (nth i outs [])) = n) by (apply block_length, Ho, nth_In; lia).
  rewrite <- (map_nth_seq (fun o : option A => (o, nth i masses 0 / INR n)) None (block n (nth i outs []))).
  rewrite Hb. apply map_ext_in. intros j Hj. apply in_seq in Hj. f_equal. apply nth_blocks; [exact Ho|lia|lia].
Qed.
Lemma sumR_app l1 l2 : sumR (l1 ++ l2) = sumR l1 + sumR l2.
Proof. unfold sumR. induction l1 as [|x l1 IH]; cbn; [ring|]. rewrite IH. ring. Qed.
Lemma samples_mass {A} n : (0 < n)%nat -> forall masses (outs : list (list A)), (forall m, In m masses -> 0 <= m) -> length masses = length outs ->
  sumR (map snd (flat_map (samplesOf n) (combine masses outs))) = sumR (map (fun p => fst p * INR (length (snd p)) / INR n) (combine masses outs)).
Proof.
  intros Hn. assert (0 < INR n) by (apply lt_0_INR; exact Hn).
  induction masses as [|m masses IH]; intros [|o outs] Hm HL; try discriminate; [reflexivity|]. cbn [combine flat_map map].
  rewrite map_app, sumR_app. rewrite IH; [|intros; apply Hm; right; assumption|cbn in HL; lia]. cbn [fst snd]. unfold sumR at 3. cbn [fold_right]. fold (sumR (map (fun p : R * list A => fst p * INR (length (snd p)) / INR n) (combine masses outs))).
  f_equal. unfold samplesOf. cbn [fst snd]. destruct (Rlt_dec 0 m) as [L|L].
  - rewrite map_map. cbn [snd]. clear. induction o as [|x o IH]; [cbn; unfold Rdiv; ring|]. cbn [map length]. unfold sumR. cbn [fold_right]. fold (sumR (map (fun _ : A => m / INR n) o)). rewrite IH, S_INR. unfold Rdiv. ring.
  - assert (m = 0) by (pose proof (Hm m (or_introl eq_refl)); lra). subst. cbn. unfold Rdiv. ring.
Qed.

(** ** output schedule *)
Lemma out_some I p t : Rle (p + I * 0.999999) t -> outputAt I (Some p) t = (Some t, true).
Proof. intros H. unfold outputAt. rewrite Rle_b_t by exact H. reflexivity. Qed.
Lemma out_none I p t : t < p + I * 0.999999 -> outputAt I (Some p) t = (Some p, false).
Proof. intros H. unfold outputAt. rewrite Rle_b_f by exact H. reflexivity. Qed.
