(** C65: the Monte Carlo stellar-dynamical code Raga: sampling of trajectories for the potential update, output schedule, captures by
    black holes and their masses, evolution of a binary black hole, velocity kicks, energy accounting. *)
From Coq Require Import Reals Lra Lia Bool List Arith Psatz.
From Coquelicot Require Import Coquelicot.
From Verif Require Import RandReal PolyModel PolyProofs CoordModel DiskModel RagaModel RagaSpec RagaProofs RagaProofs2 RagaProofs3 RagaProofs4 RagaProofs5
  OdeModel FloatBase RagaFloat.
From Verif Require Import RagaModel RagaSpec.
Import ListNotations.
Local Open Scope R_scope.

(** ** samples of the trajectory *)
(** however the trajectory of an episode is divided into timesteps, the stored samples are its values at dt, 2 dt, ..., in this order, none is
    skipped, and the sampling stops before the n-th one only if the next one lies beyond the end of the trajectory *)
Theorem C65_sampling {A} (n : nat) (dt : R) (d : A) (steps : list (R * (R -> A))) : 0 < dt -> increasing 0 steps ->
  exists m, (m <= n)%nat /\ sampleRun n dt 0 steps [] = map (fun k => trajectory steps d (dt * INR (k + 1))) (seq 0 m) /\
    (forall k, (k < m)%nat -> dt * INR (k + 1) <= lastEnd 0 steps) /\ (m = n \/ lastEnd 0 steps < dt * INR (m + 1)).
Proof.
  intros Hd HI. destruct (sampleRun_spec n dt d Hd steps 0 [] HI) as (m & H1 & H2 & H3 & H4); [cbn; lia|right; cbn; lra|].
  cbn [length Nat.add app] in *. exists m. split; [exact H1|]. split; [exact H2|]. split; [|exact H4]. intros k Hk. apply H3. lia.
Qed.
(** in exact arithmetic a trajectory that covers the entire episode gives all samples: they are equally spaced and the last one is at the end *)
Theorem C65_sampling_complete {A} (n : nat) (len : R) (d : A) (steps : list (R * (R -> A))) : (1 <= n)%nat -> 0 < len -> increasing 0 steps -> lastEnd 0 steps = len ->
  sampleRun n (len / INR n) 0 steps [] = map (fun k => trajectory steps d (len * (INR (k + 1) / INR n))) (seq 0 n).
Proof.
  intros Hn Hl HI HE. assert (Hn' : 0 < INR n) by (apply lt_0_INR; lia).
  destruct (C65_sampling n (len / INR n) d steps) as (m & H1 & H2 & H3 & H4); [apply Rdiv_lt_0_compat; assumption|exact HI|].
  assert (m = n) as ->.
  { destruct H4 as [H4|H4]; [exact H4|]. rewrite HE in H4. destruct (Nat.eq_dec m n) as [E|N]; [exact E|]. exfalso.
    assert (L : INR (m + 1) <= INR n) by (apply le_INR; lia).
    assert (len / INR n * INR (m + 1) <= len / INR n * INR n) by (apply Rmult_le_compat_l; [left; apply Rdiv_lt_0_compat; assumption|exact L]).
    replace (len / INR n * INR n) with len in H by (field; lra). lra. }
  rewrite H2. apply map_ext. intros k. f_equal. field. lra.
Qed.
Example C65_sampling_nonvacuous : let steps := [(1, fun t => t); (4, fun t => 10 * t)] in
  increasing 0 steps /\ lastEnd 0 steps = 4 /\ sampleRun 4 1 0 steps [] = [1; 20; 30; 40].
Proof.
  cbv zeta. split; [cbn; lra|]. split; [reflexivity|].
  pose proof (C65_sampling_complete 4 4 0 [(1, fun t => t); (4, fun t => 10 * t)]) as H. replace (4 / INR 4) with 1 in H by (cbn; field).
  rewrite H; [|lia|lra|cbn; lra|reflexivity]. cbn [seq map trajectory]. cbn [Nat.add INR].
  destruct (Rle_dec _ _) as [_|N]; [|exfalso; lra]. do 3 (destruct (Rle_dec _ _) as [Q|_]; [exfalso; lra|]; destruct (Rle_dec _ _) as [_|N]; [|exfalso; lra]).
  f_equal; [field|f_equal; [field|f_equal; [field|f_equal; field]]].
Qed.
(** in binary64 arithmetic the last sample may be lost: with an episode of length 100 and 11 samples per episode, the time of the last sample
    (100/11)*11 is rounded to a number greater than 100, so that it is not stored whatever the timesteps within the episode are *)
Theorem C65_sampling_rounding_refuted : exists (len : double) (n : nat), is_finite len = true /\ B2R len = 100 /\ n = 11%nat /\
  forall t ends, (forall te, In te ends -> is_finite te = true /\ B2R te <= B2R len) ->
    (countRunF n (sampleInterval len n) t ends 0 < n)%nat.
Proof.
  destruct (fofZ_correct 100) as [E F]; [cbn; lia|]. exists (fofZ 100), 11%nat. split; [exact F|]. split; [exact E|]. split; [reflexivity|].
  intros t ends H. apply countRunF_late; [lia|]. intros te Ht. destruct (H te Ht). split; [assumption|]. rewrite E in *. assumption.
Qed.

(** ** the samples used for the new potential *)
(** the compaction in place keeps exactly the elements that satisfy the condition, in the order of the array *)
Theorem C65_selection {A} (ok : A -> bool) (arr : list A) : compact ok arr = filter ok arr.
Proof. exact (compact_filter ok arr). Qed.
(** the potential is built from exactly the samples of all particles of positive mass, each having the n-th part of the mass of its particle *)
Theorem C65_potential_samples {A} n masses (outs : list (list A)) : (0 < n)%nat -> length masses = length outs -> (forall o, In o outs -> (length o <= n)%nat) ->
  potentialSamples n masses outs =
  flat_map (fun p => if Rlt_dec 0 (fst p) then map (fun x => (Some x, fst p / INR n)) (snd p) else []) (combine masses outs).
Proof. exact (potentialSamples_spec n masses outs). Qed.
(** the total mass of the samples is that of the particles, if each particle has delivered all its samples *)
Theorem C65_potential_mass {A} n masses (outs : list (list A)) : (0 < n)%nat -> length masses = length outs -> (forall m, In m masses -> 0 <= m) ->
  (forall o, In o outs -> length o = n) -> sumR (map snd (potentialSamples n masses outs)) = sumR masses.
Proof.
  intros Hn HL Hm Ho. rewrite (potentialSamples_spec n masses outs Hn HL) by (intros o Hi; rewrite (Ho o Hi); lia).
  rewrite samples_mass by assumption. assert (Hn' : 0 < INR n) by (apply lt_0_INR; exact Hn).
  f_equal. transitivity (map fst (combine masses outs)); [|apply combine_fst; exact HL].
  apply map_ext_in. intros [m o] Hi. cbn [fst snd]. rewrite (Ho o) by (eapply in_combine_r; exact Hi). field. lra.
Qed.
(** and otherwise the mass of the missing samples is lost *)
Theorem C65_potential_mass_lost {A} n masses (outs : list (list A)) : (0 < n)%nat -> length masses = length outs -> (forall m, In m masses -> 0 <= m) ->
  (forall o, In o outs -> (length o <= n)%nat) ->
  sumR (map snd (potentialSamples n masses outs)) = sumR (map (fun p => fst p * INR (length (snd p)) / INR n) (combine masses outs)).
Proof. intros Hn HL Hm Ho. rewrite (potentialSamples_spec n masses outs Hn HL Ho). apply samples_mass; assumption. Qed.
Example C65_potential_nonvacuous : potentialSamples 2 [4; 0; 6] [[10; 11]; [12; 13]; [14]] = [(Some 10, 2); (Some 11, 2); (Some 14, 3)].
Proof.
  rewrite (C65_potential_samples 2 [4; 0; 6] [[10; 11]; [12; 13]; [14]]); [|lia|reflexivity|cbn; intros o [<-|[<-|[<-|[]]]]; cbn; lia].
  cbn [combine flat_map map fst snd app]. destruct (Rlt_dec 0 4); [|exfalso; lra]. destruct (Rlt_dec 0 0); [exfalso; lra|]. destruct (Rlt_dec 0 6); [|exfalso; lra].
  cbn [app]. replace (4 / INR 2) with 2 by (cbn; field). replace (6 / INR 2) with 3 by (cbn; field). reflexivity.
Qed.

(** ** output schedule *)
(** two consecutive snapshots are separated by at least the interval (up to the relative tolerance of 1e-6) *)
Theorem C65_output_gap I p calls l1 a b l2 : outputs I (Some p) calls = l1 ++ a :: b :: l2 -> a + I * 0.999999 <= b.
Proof. apply outputs_gap. Qed.
(** and at any moment when the task is called, the last snapshot is either just written or more recent than the interval *)
Theorem C65_output_cover I calls p : nondecr p calls -> forall t, In t calls ->
  exists s, (s = p \/ In s (outputs I (Some p) calls)) /\ s <= t /\ (s = t \/ t < s + I * 0.999999).
Proof. intros H. apply (outputs_cover I calls p p); [lra|exact H]. Qed.
(** if the interval is a multiple of the length of the episode, then snapshots are written exactly at the multiples of the interval: once each *)
Theorem C65_output_multiple (k : nat) L n t0 : 0 < L -> (1 <= k)%nat -> INR k < 1000000 -> (1 <= n)%nat ->
  outputs (INR k * L) None (episodeCalls n L t0) = map (fun j => t0 + INR (k * j) * L) (seq 0 (n / k + 1)).
Proof. exact (outputs_multiple k L n t0). Qed.
Example C65_output_nonvacuous : outputs 2 None (episodeCalls 5 1 10) = [10; 12; 14].
Proof.
  pose proof (C65_output_multiple 2 1 5 10) as H. replace (INR 2 * 1) with 2 in H by (cbn; ring). rewrite H; [|lra|lia|cbn; lra|lia].
  cbn. f_equal; [lra|f_equal; [lra|f_equal; lra]].
Qed.
(** the documentation says that the value 0 disables the output; but then a snapshot is written at the beginning and at the end of each episode *)
Theorem C65_output_zero_refuted n L t0 : 0 < L -> outputs 0 None (episodeCalls n L t0) = episodeCalls n L t0.
Proof. exact (outputs_zero n L t0). Qed.

(** ** captures *)
(** the capture radius of a single black hole is the larger of 8 G M / c^2 and the tidal disruption radius *)
Theorem C65_capture_radius_single bh c rs ms : bsma bh = 0 -> bq bh = 0 -> 0 <= bmass bh -> 0 < ms ->
  isCaptureRadius c (bmass bh) rs ms (fst (captureRadii bh c rs ms)) /\
  forall rc, isCaptureRadius c (bmass bh) rs ms rc -> rc = fst (captureRadii bh c rs ms).
Proof.
  intros H1 H2 H3 H4. pose proof (capture_single bh c rs ms H1 H2 H3 H4) as H. split; [exact H|]. intros rc Hr. eapply captureRadius_unique; eassumption.
Qed.
(** but for a binary the radius of the first black hole is computed from the mass of both, and that of the second one is zero *)
Theorem C65_capture_radius_binary_refuted bh c rs ms : 0 < bsma bh -> 0 < bq bh -> 0 < bmass bh -> 0 < ms -> 0 < rs ->
  isCaptureRadius c (bmass bh) rs ms (fst (captureRadii bh c rs ms)) /\ snd (captureRadii bh c rs ms) = 0 /\
  ~ isCaptureRadius c (mass2 (bmass bh) (bq bh)) rs ms (snd (captureRadii bh c rs ms)).
Proof.
  intros Hs Hq HM Hm Hr. destruct (capture_binary bh c rs ms Hs Hq HM Hm ltac:(lra)) as [H1 H2]. split; [exact H1|]. split; [exact H2|].
  rewrite H2. intros (y & [Y1 Y2] & E).
  assert (P : 0 < mass2 (bmass bh) (bq bh)) by (unfold mass2; apply Rdiv_lt_0_compat; [apply Rmult_lt_0_compat; assumption|lra]).
  assert (P2 : 0 < y ^ 3) by (rewrite Y2; apply Rdiv_lt_0_compat; assumption).
  assert (Py : 0 < y) by (destruct (Rle_lt_or_eq_dec 0 y Y1) as [L|L]; [exact L|subst y; rewrite pow_ne_zero in P2 by lia; lra]).
  pose proof (Rmax_r (match c with None => 0 | Some c => 8 * mass2 (bmass bh) (bq bh) / c ^ 2 end) (rs * y)). assert (0 < rs * y) by (apply Rmult_lt_0_compat; assumption). lra.
Qed.
(** a star is captured in the first timestep of its trajectory in which the distance to one of the black holes has a minimum (the radial velocity
    changes its sign from - to +) that does not exceed the capture radius, by the first such black hole; and is not captured if there is none *)
Theorem C65_capture_detection (pf : nat -> R -> R) (root : nat -> R -> R -> option R) (dist : nat -> R -> R) (rad : nat -> R) binary ends drdt : incr 0 ends ->
  match lossRun pf root dist rad binary 0 ends drdt with
  | None => noCapture pf root dist rad binary 0 ends
  | Some c => exists pre te post b, ends = pre ++ te :: post /\ noCapture pf root dist rad binary 0 pre /\ In b (holes binary) /\
      passage (pf b) (last pre 0) te /\ dist b (periTime root b (last pre 0) te) <= rad b /\
      c = mkCapt (periTime root b (last pre 0) te) (dist b (periTime root b (last pre 0) te)) (rad b) b /\
      (b = 1%nat -> ~ captureIn pf root dist rad 0 (last pre 0) te)
  end.
Proof.
  intros HI. pose proof (lossRun_spec pf root dist rad binary ends 0 drdt (Rle_refl 0) HI (fun b _ => or_introl eq_refl)) as H.
  destruct (lossRun pf root dist rad binary 0 ends drdt) as [c|]; [|exact H]. destruct H as (pre & te & post & b & E1 & E2 & E3 & [E4 E5] & E6 & E7).
  exists pre, te, post, b. repeat (split; [assumption|]). exact E7.
Qed.
Example C65_capture_nonvacuous : forall drdt,
  lossRun (fun _ t => t - 5) (fun _ _ _ => Some 5) (fun _ t => (t - 5) ^ 2 + 1) (fun _ => 2) false 0 [3; 4; 6; 9] drdt = Some (mkCapt 5 1 2 0).
Proof.
  intros drdt. cbn [lossRun]. unfold lossStep. cbn [lossLoop Nat.eqb].
  repeat first [rewrite Req_b_t by lra | rewrite Req_b_f by lra | rewrite Rle_b_t by lra | rewrite Rle_b_f by lra | rewrite Rlt_b_t by lra | rewrite Rlt_b_f by lra | progress cbn [andb negb Nat.eqb]].
  replace ((5 - 5) ^ 2 + 1) with 1 by ring. reflexivity.
Qed.
(** the coordinates of a captured star are documented as those at the moment of capture. The solver is restarted with them in the middle of its
    timestep, and then asked for the coordinates at the end of the timestep: the result is the extrapolation of the old solution to another moment
    of time beyond the end of the timestep. For a star moving as x=t in the timestep from 0 to 1 and captured at t=1/2, it is 2 rather than 1/2 *)
Theorem C65_captured_position_refuted : 
  (forall N rhs accAbs pw s captured tperi i, (i < N)%nat -> d_timePrev s < tperi < d_time s ->
    dopGetSol N (dop_init N rhs accAbs pw captured (Some tperi) s) (d_time s) i =
    dopGetSol N s (d_timePrev s + (d_time s - d_timePrev s) ^ 2 / (tperi - d_timePrev s)) i) /\
  exists s, d_timePrev s = 0 /\ d_time s = 1 /\ (forall t, dopGetSol 6 s t 0 = Some t) /\
    forall rhs accAbs pw captured, dopGetSol 6 (dop_init 6 rhs accAbs pw captured (Some (1 / 2)) s) (d_time s) 0 = Some 2.
Proof.
  split; [intros N rhs accAbs pw s captured tperi i; apply captured_position|]. exists uniformState. split; [reflexivity|]. split; [reflexivity|]. split; [exact uniformState_sol|].
  intros rhs accAbs pw captured. rewrite captured_position; [|lia|cbn; lra]. cbn [d_timePrev d_time uniformState].
  rewrite uniformState_sol. f_equal. field.
Qed.

(** ** masses *)
(** over any number of episodes, the mass of black holes grows by the given fraction of the mass lost by stars, and each star has either its
    original mass or zero *)
Theorem C65_mass_history f episodes bh masses : (forall e, In e episodes -> length e = length masses /\ validCaptures e) -> (forall m, In m masses -> 0 <= m) -> 0 <= f ->
  let '(bh', m') := lossHistory f bh masses episodes in
  bmass bh' - bmass bh = f * (sumR masses - sumR m') /\ bmass bh <= bmass bh' /\ length m' = length masses /\
  (forall i, nth i m' 0 = nth i masses 0 \/ nth i m' 0 = 0).
Proof.
  intros H1 H2 H3. pose proof (lossHistory_spec f episodes bh masses H1 H2 H3) as H. destruct (lossHistory f bh masses episodes) as [bh' m'].
  destruct H as (A & B & C). split; [rewrite A; ring|]. split; [exact B|exact C].
Qed.
(** when the captured mass is entirely accreted, the total mass of stars and black holes is conserved *)
Theorem C65_mass_conserved episodes bh masses : (forall e, In e episodes -> length e = length masses /\ validCaptures e) -> (forall m, In m masses -> 0 <= m) ->
  let '(bh', m') := lossHistory 1 bh masses episodes in bmass bh' + sumR m' = bmass bh + sumR masses.
Proof.
  intros H1 H2. pose proof (C65_mass_history 1 episodes bh masses H1 H2 ltac:(lra)) as H. destruct (lossHistory 1 bh masses episodes) as [bh' m'].
  destruct H as (A & _). lra.
Qed.
(** in a binary, each component receives the mass of stars captured by it *)
Theorem C65_binary_masses bh parts : 0 < bsma bh -> 0 < bmass bh -> 0 <= bq bh -> (forall p, In p parts -> 0 <= fst p) ->
  let '(bh', m') := lossFinish 1 bh parts in
  mass1 (bmass bh') (bq bh') = mass1 (bmass bh) (bq bh) + sumR (map (capturedBy 0) parts) /\
  mass2 (bmass bh') (bq bh') = mass2 (bmass bh) (bq bh) + sumR (map (capturedBy 1) parts).
Proof. intros A B C D. pose proof (lossFinish_binary bh parts A B C D) as H. destruct (lossFinish 1 bh parts). tauto. Qed.
Example C65_masses_nonvacuous : let '(bh', m') := lossFinish 1 (mkBH 3 (1 / 2) 1 0 0) [(1, Some 0%nat); (2, None); (4, Some 1%nat)] in
  mass1 (bmass bh') (bq bh') = 3 /\ mass2 (bmass bh') (bq bh') = 5 /\ m' = [0; 2; 0].
Proof.
  pose proof (C65_binary_masses (mkBH 3 (1 / 2) 1 0 0) [(1, Some 0%nat); (2, None); (4, Some 1%nat)]) as H.
  pose proof (lossFinish_masses 1 (mkBH 3 (1 / 2) 1 0 0) [(1, Some 0%nat); (2, None); (4, Some 1%nat)]) as H2.
  destruct (lossFinish 1 (mkBH 3 (1 / 2) 1 0 0) _) as [bh' m']. cbn [snd] in H2.
  destruct H as [A B]; [cbn; lra|cbn; lra|cbn; lra|intros p [<-|[<-|[<-|[]]]]; cbn; lra|]. rewrite A, B, H2. unfold sumR, capturedBy, isCaptured, mass1, mass2. cbn.
  rewrite !Req_b_f by lra. cbn. split; [field|]. split; [field|reflexivity].
Qed.
(** but when nothing of the captured mass is accreted, the masses of components of the binary change nevertheless *)
Theorem C65_fraction_refuted : exists bh parts, 0 < bsma bh /\ 0 < bmass bh /\ 0 < bq bh /\ (forall p, In p parts -> 0 <= fst p) /\
  let '(bh', m') := lossFinish 0 bh parts in
  bmass bh' = bmass bh /\ mass1 (bmass bh) (bq bh) < mass1 (bmass bh') (bq bh') /\ mass2 (bmass bh') (bq bh') < mass2 (bmass bh) (bq bh).
Proof.
  exists (mkBH 2 1 1 0 0), [(1, Some 0%nat)]. split; [cbn; lra|]. split; [cbn; lra|]. split; [cbn; lra|]. split; [intros p [<-|[]]; cbn; lra|].
  unfold lossFinish. cbn -[Rlt_b]. unfold isCaptured, capturedBy, mass1, mass2. cbn -[Rlt_b]. rewrite !Req_b_f by lra. cbn -[Rlt_b]. rewrite Rlt_b_t by lra. cbn.
  split; [ring|]. split.
  - replace (2 / (1 + 1)) with 1 by field. replace (2 + (1 + 0 + 0) * 0) with 2 by ring.
    replace ((2 * 1 + (0 + 0) * (1 + 1)) / (2 + (1 + 0) * (1 + 1))) with (1 / 2) by field. lra.
  - replace (2 + (1 + 0 + 0) * 0) with 2 by ring. replace ((2 * 1 + (0 + 0) * (1 + 1)) / (2 + (1 + 0) * (1 + 1))) with (1 / 2) by field. lra.
Qed.

(** ** evolution of a binary *)
(** the loop leaves a physically meaningful binary: either it has coalesced before the end of the episode due to gravitational waves, or has a positive
    semimajor axis and an eccentricity between 0 and 0.999; hardening is not slower than that caused by stars, and equal to it without gravitational waves *)
Theorem C65_binary_bounds c M q H K fuel sma ecc T sma' ecc' tp' T' : posC c -> 0 < M -> 0 <= q -> 0 < sma -> 0 <= ecc < 1 -> 0 < T ->
  evolveLoop fuel c M q H K (sma, ecc, 0, T) = Some (sma', ecc', tp', T') ->
  (sma' = 0 /\ ecc' = 0 /\ tp' = T' /\ 0 < T' < T /\ c <> None) \/
  (T' = T /\ 0 < sma' /\ 0 <= ecc' <= 0.999 /\ T * (1 - 1 / 10 ^ 10) <= tp' <= T /\ 1 / sma + H * tp' <= 1 / sma' /\ (c = None -> 1 / sma' = 1 / sma + H * tp')).
Proof.
  intros Hc HM Hq Hs He HT E. assert (G : goodState (sma, ecc, 0, T)) by (split; [exact Hs|split; [exact He|lra]]).
  destruct (evolveLoop_spec c M q H K Hc HM Hq fuel sma ecc 0 T sma' ecc' tp' T' G E) as [(A1 & A2 & A3 & A4 & A5)|(A1 & A2 & A3 & A4 & A5 & A6 & A7)].
  - left. tauto.
  - right. rewrite Rminus_0_r in *. unfold nearEnd in A4. unfold MAX_ECC in A3. replace (1 / 10 ^ 10) with (1 / 10000000000) by field. tauto.
Qed.
(** without gravitational waves the energy of the binary changes by minus the sum of the energy changes of all stars during encounters (times
    the fraction of the episode at which the loop stops, which is 1 with the accuracy of 1e-10) *)
Theorem C65_binary_energy fuel bh len parts sma' ecc' tp' T' : 0 < bq bh -> 0 < bmass bh -> 0 < len -> 0 < bsma bh -> 0 <= becc bh < 1 ->
  evolveLoop fuel None (bmass bh) (bq bh) (rateH bh len parts) (rateK bh len parts) (bsma bh, becc bh, 0, len) = Some (sma', ecc', tp', T') ->
  binaryEnergy (bmass bh) (bq bh) (1 / sma') - binaryEnergy (bmass bh) (bq bh) (1 / bsma bh) =
    - sumR (map (fun p => sumR (map (fun e => fst p * fst e) (snd p))) parts) * (tp' / len) /\ 1 - 1 / 10 ^ 10 <= tp' / len <= 1.
Proof.
  intros Hq HM Hl Hs He E.
  destruct (C65_binary_bounds None (bmass bh) (bq bh) _ _ fuel (bsma bh) (becc bh) len sma' ecc' tp' T' Logic.I HM ltac:(lra) Hs He Hl E)
    as [(_ & _ & _ & _ & A5)|(A1 & A2 & A3 & A4 & A5 & A6)]; [exfalso; apply A5; reflexivity|].
  split; [apply (energy_change bh len parts tp' (1 / sma') Hq HM Hl); apply A6; reflexivity|].
  replace tp' with (len * (tp' / len)) in A4 by (field; lra). split.
  - apply Rmult_le_reg_l with len; [exact Hl|]. apply A4.
  - apply Rmult_le_reg_l with len; [exact Hl|]. rewrite Rmult_1_r. apply A4.
Qed.
(** as long as the squared eccentricity stays in the allowed range, it grows linearly at the given rate *)
Theorem C65_binary_ecc M q H K fuel sma ecc T sma' ecc' tp' T' : 0 < M -> 0 <= q -> 0 < sma -> 0 <= ecc < 1 -> 0 < T ->
  (forall t, 0 <= t <= T -> 0 <= ecc ^ 2 + K * t <= 0.999 ^ 2) ->
  evolveLoop fuel None M q H K (sma, ecc, 0, T) = Some (sma', ecc', tp', T') -> ecc' ^ 2 = ecc ^ 2 + K * tp'.
Proof.
  intros HM Hq Hs He HT HK E. rewrite (evolveLoop_ecc M q H K HM Hq fuel sma ecc 0 T sma' ecc' tp' T'); [rewrite Rminus_0_r; reflexivity|split; [exact Hs|split; [exact He|lra]]| |exact E].
  intros t Ht. rewrite Rminus_0_r in Ht. apply HK. exact Ht.
Qed.
(** these rates correspond to the conservation of the angular momentum to the first order in the duration of the episode *)
Theorem C65_binary_momentum bh len parts : 0 < bq bh -> 0 < bmass bh -> 0 < len -> 0 < bsma bh -> 0 <= becc bh < 1 ->
  is_derive (fun t => binaryLz (bmass bh) (bq bh) (1 / bsma bh + rateH bh len parts * t) (becc bh ^ 2 + rateK bh len parts * t)) 0
    (- sumR (map (fun p => sumR (map (fun e => fst p * snd e) (snd p))) parts) / len).
Proof. exact (lz_rate bh len parts). Qed.
(** the loop terminates if the binary is not dissolved by the end of the episode *)
Theorem C65_binary_terminates M q H K sma ecc T : 0 < M -> 0 <= q -> 0 < sma -> 0 <= ecc < 1 -> 0 < T -> 0 < 1 / sma + H * T ->
  exists fuel r, evolveLoop fuel None M q H K (sma, ecc, 0, T) = Some r.
Proof.
  intros HM Hq Hs He HT HU.
  assert (Hu : 0 < 1 / sma) by (apply Rdiv_lt_0_compat; lra).
  set (umin := Rmin (1 / sma) (1 / sma + H * T)). set (amin := Rmin (1 / 1000) (1 - pow_2 ecc)).
  assert (Pu : 0 < umin) by (apply Rmin_glb_lt; assumption).
  assert (Pa : 0 < amin) by (apply Rmin_glb_lt; [lra|unfold pow_2; nra]).
  assert (Pm : amin <= 1 / 1000) by apply Rmin_l.
  set (d := Rmin (umin / 100) (amin / 100) / (1 + Rabs K + Rabs H)).
  assert (Pd : 0 < d) by (unfold d; pose proof (Rabs_pos K); pose proof (Rabs_pos H); apply Rdiv_lt_0_compat; [apply Rmin_glb_lt; lra|lra]).
  destruct (nfloor_ex (T / d)) as [n0 Hn0]; [left; apply Rdiv_lt_0_compat; assumption|].
  assert (Hf : T / d < INR (Datatypes.S n0)) by (rewrite S_INR; lra). exists (Datatypes.S n0).
  apply (evolveLoop_terminates M q H K HM Hq umin amin Pu Pa Pm); [unfold MAX_ECC; lra|split; [exact Hs|split; [exact He|lra]]|unfold amin; apply Rmin_r| |].
  - intros t Ht. rewrite Rminus_0_r in Ht. unfold umin. destruct (Rle_dec 0 H) as [L|L].
    + apply Rle_trans with (1 / sma); [apply Rmin_l|]. assert (0 <= H * t) by (apply Rmult_le_pos; lra). lra.
    + apply Rle_trans with (1 / sma + H * T); [apply Rmin_r|]. assert (H * T <= H * t) by (apply Rmult_le_compat_neg_l; lra). lra.
  - rewrite Rminus_0_r. fold d. replace T with (T / d * d) by (field; lra). apply Rmult_lt_compat_r; assumption.
Qed.
(** but if the stars transfer so much energy to the binary that it would be dissolved, then the loop makes ever smaller steps and never ends *)
Theorem C65_binary_diverges_refuted M q H K sma ecc T : 0 < M -> 0 <= q -> 0 < sma -> 0 <= ecc < 1 -> 0 < T -> H < 0 ->
  1 / sma + H * (T * (1 - 1 / 10 ^ 10)) <= 0 -> forall fuel, evolveLoop fuel None M q H K (sma, ecc, 0, T) = None.
Proof.
  intros HM Hq Hs He HT HH HU fuel. apply evolveLoop_diverges; try assumption; [split; [exact Hs|split; [exact He|lra]]|].
  replace (1 / 10 ^ 10) with (1 / 10000000000) in HU by field. rewrite Rminus_0_r. exact HU.
Qed.
Example C65_binary_nonvacuous : (exists fuel r, evolveLoop fuel None 1 1 (-1 / 2) 3 (1, 1 / 2, 0, 1) = Some r) /\
  (forall fuel, evolveLoop fuel None 1 1 (-2) 3 (1, 1 / 2, 0, 1) = None).
Proof. split; [apply C65_binary_terminates; lra|]. apply C65_binary_diverges_refuted; lra. Qed.

(** ** velocity kicks and energies *)
(** the perturbation changes the component of velocity along its direction by dpar, and the component along the given perpendicular direction by dper *)
Theorem C65_kick v u dpar dper : dot3 v v <> 0 -> dot3 u u = 1 -> dot3 u v = 0 ->
  dot3 (kick v u dpar dper) v / sqrt (dot3 v v) = sqrt (dot3 v v) + dpar /\
  dot3 (kick v u dpar dper) u = dper /\
  dot3 (kick v u dpar dper) (kick v u dpar dper) = (sqrt (dot3 v v) + dpar) ^ 2 + dper ^ 2.
Proof. exact (kick_spec v u dpar dper). Qed.
(** the quantities in the log are the kinetic energy and the potential energy of the system: half the sum of potentials (mutual interaction) plus the
    internal energy of the binary; phi0 is the potential of stars at origin, e the total potential for a star *)
Theorem C65_energies bh phi0 parts :
  let '(Ekin, Epot) := energies bh phi0 parts in
  Ekin = sumR (map (fun p => let '(m, v, e) := p in m * dot3 v v / 2) parts) /\
  Epot = (if Rlt_b 0 (bmass bh) then bmass bh * phi0 / 2 else 0) +
    (if Rlt_b 0 (bsma bh) then binaryEnergy (bmass bh) (bq bh) (1 / bsma bh) else 0) + sumR (map (fun p => let '(m, v, e) := p in m * e / 2) parts).
Proof. exact (energies_spec bh phi0 parts). Qed.

Print Assumptions C65_sampling.
Print Assumptions C65_sampling_complete.
Print Assumptions C65_sampling_rounding_refuted.
Print Assumptions C65_selection.
Print Assumptions C65_potential_samples.
Print Assumptions C65_potential_mass.
Print Assumptions C65_potential_mass_lost.
Print Assumptions C65_output_gap.
Print Assumptions C65_output_cover.
Print Assumptions C65_output_multiple.
Print Assumptions C65_output_zero_refuted.
Print Assumptions C65_capture_radius_single.
Print Assumptions C65_capture_radius_binary_refuted.
Print Assumptions C65_capture_detection.
Print Assumptions C65_captured_position_refuted.
Print Assumptions C65_mass_history.
Print Assumptions C65_mass_conserved.
Print Assumptions C65_binary_masses.
Print Assumptions C65_fraction_refuted.
Print Assumptions C65_binary_bounds.
Print Assumptions C65_binary_energy.
Print Assumptions C65_binary_ecc.
Print Assumptions C65_binary_momentum.
Print Assumptions C65_binary_terminates.
Print Assumptions C65_binary_diverges_refuted.
Print Assumptions C65_kick.
Print Assumptions C65_energies.
