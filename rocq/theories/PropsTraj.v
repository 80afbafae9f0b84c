(** Property C28: recording of trajectories. *)
From Coq Require Import Reals Lra Lia List Psatz ZArith.
From Verif Require Import PolyProofs TrajModel TrajProofs.
Local Open Scope R_scope.

(** spec: the trajectory contains the points t0 + sign*i*dt, i = 0..n-1, in this order, each evaluated within (a roundoff margin eps of) a timestep that was
    actually processed; and it extends as far as the total duration T: (n-1)*dt <= T+eps < n*dt *)
Definition regular (traj : list (option point)) (sign dt t0 T eps : R) (steps : list (R * R)) : Prop :=
  (1 <= length traj)%nat /\ dt * (INR (length traj) - 1) <= T + eps < dt * INR (length traj) /\
  forall i, (i < length traj)%nat -> exists tb te, In (tb, te) steps /\
    nth i traj None = Some {| ptime := t0 + sign * (dt * INR i); pstep := (tb, te) |} /\
    sign * tb - eps <= sign * (t0 + sign * (dt * INR i)) <= sign * te + eps.
(** the roundoff margin used by the code: 10 DBL_EPSILON times the largest time *)
Definition margin (t0 t1 : R) : R := 10 / 2 ^ 52 * Rmax (Rabs t1) (Rabs t0).

(** any unbroken chain of timesteps, forward (+1) or backward (-1), however the times fall with respect to the sampling interval *)
Theorem C28_regular_sampling sign dt t0 steps : sign = 1 \/ sign = -1 -> 0 < dt -> steps <> nil -> chain sign t0 steps ->
  margin t0 (lastTime t0 steps) < dt ->
  exists traj, processAll (Every dt) t0 nil steps = Some traj /\
    regular traj sign dt t0 (sign * (lastTime t0 steps - t0)) (margin t0 (lastTime t0 steps)) steps.
Proof.
  intros S Dt N C M. change (margin t0 (lastTime t0 steps)) with (dm t0 (lastTime t0 steps)) in *.
  destruct (processAll_ok sign dt t0 (dm t0 (lastTime t0 steps)) S Dt steps nil t0 nil C ltac:(lra) M ltac:(lra)) as [traj [E [I1 I2 I3 I4]]].
  - constructor; cbn [length]; try lia; try congruence. intros i _. replace (t0 - t0) with 0 by ring. rewrite Rmult_0_r. apply Rmult_le_pos; [lra|apply pos_INR].
  - exists traj. split; [exact E|]. cbn [app] in *. destruct (I4 N) as [L1 L2]. specialize (I3 L1). split; [lia|]. split; [lra|]. exact I1.
Qed.
(** integrateTraj: if the ODE solver advances beyond the end time within the allowed number of steps, whatever its internal timesteps *)
Theorem C28_integrate_trajectory dt maxSteps times t0 T : 0 < dt -> T <> 0 -> let sign := if Rlt_b 0 T then 1 else -1 in
  advancing sign t0 times -> (length times <= maxSteps)%nat -> (exists x, In x times /\ sign * (T + t0) <= sign * x) ->
  margin t0 (T + t0) < dt ->
  exists traj steps, integrateTraj (Every dt) maxSteps times t0 T = Some traj /\ chain sign t0 steps /\ regular traj sign dt t0 (Rabs T) (margin t0 (T + t0)) steps.
Proof.
  intros Dt NT sign Ad Ns Ex M. unfold integrateTraj, run. rewrite Req_b_f by exact NT. fold sign.
  assert (S : sign = 1 \/ sign = -1) by (unfold sign; destruct (Rlt_b 0 T); auto).
  assert (AT : sign * T = Rabs T) by (unfold sign; destruct (Rlt_dec 0 T); [rewrite Rlt_b_t, Rabs_right by lra; lra|rewrite Rlt_b_f, Rabs_left by lra; lra]).
  assert (PT : 0 < Rabs T) by (apply Rabs_pos_lt, NT).
  destruct (runLoop 0 maxSteps times t0 sign t0 (T + t0)) as [[steps st] rem] eqn:Rn.
  assert (L0 : sign * t0 < sign * (T + t0)) by lra.
  destruct (runLoop_chain maxSteps (T + t0) sign S times 0 t0 t0 steps st rem L0 eq_refl Rn) as [C1 _].
  destruct (runLoop_reaches maxSteps (T + t0) sign S times 0 t0 steps st rem L0 Ad Ns Ex Rn) as [R1 [R2 _]].
  destruct (C28_regular_sampling sign dt t0 steps S Dt R2 C1) as [traj [E Rg]]; [rewrite R1; exact M|]. exists traj, steps.
  rewrite R1 in Rg. replace (sign * (T + t0 - t0)) with (Rabs T) in Rg by (rewrite <- AT; ring).
  split; [|split; assumption]. destruct steps as [|[tb te] r]; [congruence|]. destruct C1 as [-> _]. exact E.
Qed.
Example C28_case : exists traj steps, integrateTraj (Every (1 / 4)) 10 (2 / 5 :: 3 / 2 :: nil) 0 1 = Some traj /\ chain 1 0 steps /\ regular traj 1 (1 / 4) 0 1 (margin 0 1) steps /\ length traj = 5%nat.
Proof.
  assert (Mg : 0 < margin 0 (1 + 0) < 1 / 1000). { unfold margin. replace (1 + 0) with 1 by ring. rewrite Rabs_R0, Rabs_R1, Rmax_left by lra. split; [apply Rmult_lt_0_compat; [apply Rdiv_lt_0_compat; [lra|apply pow_lt; lra]|lra]|]. apply Rmult_lt_reg_r with (2 ^ 52); [apply pow_lt; lra|]. unfold Rdiv. rewrite Rmult_1_r. rewrite Rmult_assoc, Rinv_l by (apply pow_nonzero; lra). cbn; lra. }
  destruct (C28_integrate_trajectory (1 / 4) 10 (2 / 5 :: 3 / 2 :: nil) 0 1) as [traj [steps [A [B C]]]]; rewrite ?(Rlt_b_t 0 1) in * by lra; try lra.
  - cbn. lra.
  - cbn. lia.
  - exists (3 / 2). split; [right; left; reflexivity|lra].
  - exists traj, steps. replace (1 + 0) with 1 in * by ring. rewrite Rabs_R1 in C. split; [exact A|]. split; [exact B|]. split; [exact C|]. destruct C as [_ [C _]].
    assert (4 <= INR (length traj) <= 5 + 1 / 250 /\ 4 < INR (length traj)) by lra. rewrite INR_IZR_INZ in H. assert (4 < Z.of_nat (length traj) < 6)%Z by (split; apply lt_IZR; lra). lia.
Qed.
(** zero sampling interval: the initial point and the end of every timestep; infinite interval: only the last state *)
Theorem C28_every_timestep t0 steps : steps <> nil -> (exists s, chain s t0 steps) ->
  exists traj, processAll EveryStep t0 nil steps = Some traj /\
    map (fun o => match o with Some p => Some (ptime p) | None => None end) traj = map Some (t0 :: map snd steps).
Proof.
  intros N [s C]. destruct steps as [|[tb te] r]; [congruence|]. destruct C as [-> _]. cbn [processAll processTimestep app].
  assert (G : forall r traj, traj <> nil -> exists traj', processAll EveryStep t0 traj r = Some traj' /\
     map (fun o => match o with Some p => Some (ptime p) | None => None end) traj' = map (fun o => match o with Some p => Some (ptime p) | None => None end) traj ++ map Some (map snd r)).
  { clear. induction r as [|[tb te] r IH]; intros traj Nn; [exists traj; split; [reflexivity|cbn; rewrite app_nil_r; reflexivity]|]. cbn [processAll processTimestep].
    destruct traj as [|a traj]; [congruence|]. destruct (IH ((a :: traj) ++ Some {| ptime := te; pstep := (tb, te) |} :: nil) ltac:(discriminate)) as [traj' [E1 E2]]. exists traj'. split; [exact E1|]. rewrite E2, map_app, <- app_assoc. reflexivity. }
  destruct (G r (Some {| ptime := t0; pstep := (t0, te) |} :: Some {| ptime := te; pstep := (t0, te) |} :: nil) ltac:(discriminate)) as [traj [E1 E2]]. exists traj. split; [exact E1|]. rewrite E2. reflexivity.
Qed.
Theorem C28_last_state_only t0 steps : steps <> nil -> exists p, processAll LastOnly t0 nil steps = Some (Some p :: nil) /\ ptime p = lastTime t0 steps.
Proof.
  intros N. destruct steps as [|[tb te] r]; [congruence|]. rewrite lastTime_cons. cbn [processAll processTimestep tl].
  assert (G : forall r te p, ptime p = te -> exists p', processAll LastOnly t0 (Some p :: nil) r = Some (Some p' :: nil) /\ ptime p' = lastTime te r).
  { clear. induction r as [|[tb te'] r IH]; intros te p E; [exists p; auto|]. cbn [processAll processTimestep tl]. destruct (IH te' {| ptime := te'; pstep := (tb, te') |} eq_refl) as [p' [A B]]. exists p'. split; [exact A|]. rewrite lastTime_cons. exact B. }
  apply G. reflexivity.
Qed.
(** without the assumption on roundoff: sampling interval comparable to the rounding error of the time stamps leads to a write before the start of the array *)
Theorem C28_large_times_refuted : exists t0 te, t0 < te /\ processAll (Every 1) t0 nil ((t0, te) :: nil) = None.
Proof.
  exists (2 ^ 52), (2 ^ 52 + 1). split; [lra|]. cbn [processAll processTimestep]. unfold processInterval.
  assert (P : 0 < 2 ^ 52) by (apply pow_lt; lra).
  assert (Big : 1000 < 2 ^ 52) by (cbn; lra).
  rewrite (dirsign_eq 1) by lra. rewrite (dtround_eq 1) by lra. unfold dm. rewrite !Rabs_right by lra. rewrite Rmax_left by lra. cbv zeta.
  set (dtr := ROUNDOFF * (2 ^ 52 + 1)). assert (D : 10 < dtr < 11). { unfold dtr, ROUNDOFF. replace (10 / 2 ^ 52 * (2 ^ 52 + 1)) with (10 + 10 * / 2 ^ 52) by (field; lra). assert (/ 2 ^ 52 < / 1000) by (apply Rinv_lt_contravar; nra). pose proof (Rinv_0_lt_compat _ P). lra. }
  replace ((1 * (2 ^ 52 - 2 ^ 52) - dtr) / 1) with (- dtr) by field. replace ((1 * (2 ^ 52 + 1 - 2 ^ 52) + dtr) / 1) with (1 + dtr) by field.
  assert (E1 : toInt (- dtr) = (-10)%Z). { unfold toInt. rewrite Rle_b_f by lra. rewrite Ropp_involutive. destruct (base_Int_part dtr). assert (9 < Int_part dtr < 11)%Z by (split; apply lt_IZR; lra). lia. }
  assert (E2 : toInt (1 + dtr) = 11%Z). { unfold toInt. rewrite Rle_b_t by lra. destruct (base_Int_part (1 + dtr)). assert (10 < Int_part (1 + dtr) < 12)%Z by (split; apply lt_IZR; lra). lia. }
  rewrite E1, E2. change (Z.ltb (11 + 1) 0) with false. change (Z.to_nat (11 + 1 - -10)) with 22%nat. change (Z.to_nat (11 + 1)) with 12%nat.
  cbn [recordLoop]. rewrite !Rle_b_t by lra. reflexivity.
Qed.
(** a second call of run() starts from the solver's internal time, which is beyond the end of the first run: the points in between are never assigned *)
Theorem C28_second_run_gap_refuted : exists dt times T1 T2,
  let '(steps1, st1, rest1) := run 100 times 0 T1 in let '(steps2, _, _) := run 100 rest1 st1 T2 in
  exists traj, processAll (Every dt) 0 nil (steps1 ++ steps2) = Some traj /\ (exists i, (i < length traj)%nat /\ nth i traj None = None).
Proof.
  exists (1 / 4), (3 / 2 :: 4 :: nil), 1, 1.
  assert (E1 : run 100 (3 / 2 :: 4 :: nil) 0 1 = ((0, 1) :: nil, 3 / 2, 4 :: nil)).
  { unfold run. rewrite Req_b_f by lra. rewrite Rlt_b_t by lra. cbn [runLoop]. rewrite Rlt_b_t by lra. cbv zeta. rewrite Rmin_right by lra. rewrite Rle_b_t by lra. cbn [orb]. replace ((1 + 0) * 1 * 1) with 1 by ring. reflexivity. }
  rewrite E1.
  assert (E2 : run 100 (4 :: nil) (3 / 2) 1 = ((3 / 2, 5 / 2) :: nil, 4, nil)).
  { unfold run. rewrite Req_b_f by lra. rewrite Rlt_b_t by lra. cbn [runLoop]. rewrite Rlt_b_t by lra. cbv zeta. rewrite Rmin_right by lra. rewrite Rle_b_t by lra. cbn [orb]. replace ((1 + 3 / 2) * 1 * 1) with (5 / 2) by field. reflexivity. }
  rewrite E2. cbn [app processAll processTimestep].
  assert (Mg : forall t, 1 <= t <= 5 / 2 -> 0 < dm 0 t < 1 / 1000). { intros t Ht. unfold dm, ROUNDOFF. rewrite Rabs_R0, (Rabs_right t) by lra. rewrite Rmax_left by lra. assert (B : 100000 < 2 ^ 52) by (cbn; lra). assert (/ 2 ^ 52 < / 100000) by (apply Rinv_lt_contravar; nra). pose proof (Rinv_0_lt_compat (2 ^ 52) ltac:(lra)). unfold Rdiv. nra. }
  destruct (process_step 1 (1 / 4) 0 (1 / 1000) nil 0 1 nil ltac:(auto) ltac:(lra) ltac:(lra) ltac:(lra)) as [traj [F1 [I1 I2 I3 I4]]].
  { pose proof (Mg 1 ltac:(lra)). lra. } { pose proof (Mg 1 ltac:(lra)). lra. }
  { constructor; cbn [length]; try lia; try congruence. intros i _. replace (0 - 0) with 0 by ring. rewrite Rmult_0_r. apply Rmult_le_pos; [lra|apply pos_INR]. }
  rewrite F1. destruct (I4 ltac:(discriminate)) as [L1 L2]. specialize (I3 L1).
  pose proof (Mg 1 ltac:(lra)) as M1. assert (Len : length traj = 5%nat). { rewrite INR_IZR_INZ in I3, L2. set (z := IZR (Z.of_nat (length traj))) in *. assert (4 < Z.of_nat (length traj) < 6)%Z by (split; apply lt_IZR; fold z; lra). lia. }
  unfold processInterval. rewrite (dirsign_eq 1) by lra. rewrite (dtround_eq 1) by lra. cbv zeta. pose proof (Mg (5 / 2) ltac:(lra)) as M2. set (dtr := dm 0 (5 / 2)) in *.
  assert (T1 : toInt ((1 * (3 / 2 - 0) - dtr) / (1 / 4)) = 5%Z). { replace ((1 * (3 / 2 - 0) - dtr) / (1 / 4)) with (6 - 4 * dtr) by field. unfold toInt. rewrite Rle_b_t by lra. destruct (base_Int_part (6 - 4 * dtr)). assert (4 < Int_part (6 - 4 * dtr) < 6)%Z by (split; apply lt_IZR; lra). lia. }
  assert (T2 : toInt ((1 * (5 / 2 - 0) + dtr) / (1 / 4)) = 10%Z). { replace ((1 * (5 / 2 - 0) + dtr) / (1 / 4)) with (10 + 4 * dtr) by field. unfold toInt. rewrite Rle_b_t by lra. destruct (base_Int_part (10 + 4 * dtr)). assert (9 < Int_part (10 + 4 * dtr) < 11)%Z by (split; apply lt_IZR; lra). lia. }
  rewrite T1, T2. change (Z.ltb (10 + 1) 0) with false. change (Z.to_nat (10 + 1 - 5)) with 6%nat. change (Z.to_nat (10 + 1)) with 11%nat.
  destruct (recordLoop_ok 1 (1 / 4) 0 (3 / 2) (5 / 2) dtr 6 5 (resize 11 traj)) as [traj2 [R1 [R2 R3]]]; [lia|rewrite resize_length; cbn; lia|]. rewrite R1. rewrite resize_length in R2.
  exists traj2. split; [reflexivity|]. exists 5%nat. split; [lia|]. rewrite R3. replace (stores 1 (1 / 4) 0 (3 / 2) (5 / 2) dtr (Z.of_nat 5)) with false; [|symmetry; unfold stores; rewrite Rle_b_f by (cbn; lra); reflexivity].
  rewrite !Bool.andb_false_r. rewrite resize_nth by lia. apply nth_overflow. lia.
Qed.
Print Assumptions C28_regular_sampling. Print Assumptions C28_integrate_trajectory. Print Assumptions C28_every_timestep. Print Assumptions C28_last_state_only. Print Assumptions C28_large_times_refuted. Print Assumptions C28_second_run_gap_refuted.
