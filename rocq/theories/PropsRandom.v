(** Properties C12-C17 and C40: pseudo-random and quasi-random numbers.
    [xoro_step]/[xoro_out]: one call of the thread-local generator; [xs64_step]/[xs64_out]: one call with a user-supplied state;
    [N.iter k f s]: k successive updates starting from the state s. *)
From Coq Require Import Permutation.
From Verif Require Import Words RandModel RandSpec RandLin Rand64 RandProofs RandProofs2 FloatBase RandFloat RandReal RandRealProofs.
Local Open Scope N_scope.

(** C12: the sequence of internal states repeats exactly with the period 2^128-1, whatever the (nonzero) initial state *)
Theorem C12_thread_generator_exact_period : forall s0 s1, s0 < 2 ^ 64 -> s1 < 2 ^ 64 -> (s0, s1) <> (0, 0) ->
  forall j k, N.iter j xoro_step (s0, s1) = N.iter k xoro_step (s0, s1) <-> j mod (2 ^ 128 - 1) = k mod (2 ^ 128 - 1).
Proof. intros s0 s1 H0 H1 Nz. apply (per_eq xoro_step (s0, s1) n128 ltac:(reflexivity) (xoro_period (s0, s1) (conj H0 H1) Nz)). Qed.
Print Assumptions C12_thread_generator_exact_period.
(** C12: and visits every nonzero 128-bit state within one period *)
Theorem C12_thread_generator_visits_all_states : forall s0 s1 t0 t1, s0 < 2 ^ 64 -> s1 < 2 ^ 64 -> (s0, s1) <> (0, 0) ->
  t0 < 2 ^ 64 -> t1 < 2 ^ 64 -> (t0, t1) <> (0, 0) -> exists k, k < 2 ^ 128 - 1 /\ N.iter k xoro_step (s0, s1) = (t0, t1).
Proof. intros s0 s1 t0 t1 H0 H1 Ns H2 H3 Nt. apply (xoro_reaches W (s0, s1) (t0, t1) eq_refl (conj H0 H1) Ns (conj H2 H3) Nt). Qed.
Print Assumptions C12_thread_generator_visits_all_states.
(** C12: the jump function used for seeding the threads is exactly 2^64 steps *)
Theorem C12_jump_is_2pow64_steps : forall s0 s1, s0 < 2 ^ 64 -> s1 < 2 ^ 64 -> xoro_jump (s0, s1) = N.iter (2 ^ 64) xoro_step (s0, s1).
Proof. intros s0 s1 H0 H1. apply xoro_jump_eq. split; assumption. Qed.
Print Assumptions C12_jump_is_2pow64_steps.
(** C12: randomize() with any seed gives each thread a nonzero state... *)
Theorem C12_seeding_never_zero : forall n seed time i s, nth_error (randomize n seed time) i = Some s ->
  fst s < 2 ^ 64 /\ snd s < 2 ^ 64 /\ s <> (0, 0).
Proof.
  intros n seed time i s E. assert (L : (i < n)%nat). { rewrite <- (rand_states_length n (seed_state (eff_seed seed time))). apply nth_error_Some. rewrite <- randomize_eq. congruence. }
  rewrite randomize_nth in E by exact L. apply some_inj in E. subst s.
  destruct (iter_stepW (2 ^ 64 * (N.of_nat i + 1)) _ (seed_in (eff_seed seed time))) as [_ [A B]]. split; [exact A|]. split; [exact B|].
  apply xoro_nonzero; [apply seed_in|apply seed_nonzero].
Qed.
Print Assumptions C12_seeding_never_zero.
(** C12: ... exactly one per thread, and the sequences of states of any two threads do not overlap within 2^64 numbers each *)
Theorem C12_thread_streams_do_not_overlap : forall n seed time i j si sj a b, N.of_nat n < 2 ^ 64 ->
  nth_error (randomize n seed time) i = Some si -> nth_error (randomize n seed time) j = Some sj -> i <> j ->
  a < 2 ^ 64 -> b < 2 ^ 64 -> N.iter a xoro_step si <> N.iter b xoro_step sj.
Proof. exact streams_disjoint. Qed.
Print Assumptions C12_thread_streams_do_not_overlap.
Theorem C12_one_state_per_thread : forall n seed time, length (randomize n seed time) = n.
Proof. intros. rewrite randomize_eq. apply rand_states_length. Qed.
(** C12: different seeds give different sequences (states of the 0th thread) *)
Theorem C12_different_seeds_differ : forall n seed seed' time time', (0 < n)%nat -> 0 < seed < 2 ^ 32 -> 0 < seed' < 2 ^ 32 ->
  nth_error (randomize n seed time) 0 = nth_error (randomize n seed' time') 0 -> seed = seed'.
Proof.
  intros n seed seed' time time' Hn H H' E. rewrite !randomize_nth in E by exact Hn. apply some_inj in E.
  unfold eff_seed in E. rewrite (proj2 (N.eqb_neq seed 0)), (proj2 (N.eqb_neq seed' 0)) in E by lia.
  set (k := 2 ^ 64 * (N.of_nat 0 + 1)) in E.
  assert (P : forall s, N.iter (k * n128 - k) xoro_step (N.iter k xoro_step (seed_state s)) = seed_state s).
  { intros s. rewrite <- N.iter_add. replace (k * n128 - k + k) with (k * n128) by (unfold n128; lia).
    apply (xoro_period _ (seed_in s) (seed_nonzero s)). exists k. reflexivity. }
  pose proof (P seed) as P1. rewrite E, P in P1. symmetry in P1.
  change (2 ^ 32) with 4294967296 in *. apply seed_inj in P1; [exact P1|unfold word, W; lia..].
Qed.
Print Assumptions C12_different_seeds_differ.
(** C12: the generator with a user-supplied nonzero state has the exact period 2^64-1 and visits all nonzero states *)
Theorem C12_user_generator_exact_period : forall s, s < 2 ^ 64 -> s <> 0 ->
  (forall j k, N.iter j xs64_step s = N.iter k xs64_step s <-> j mod (2 ^ 64 - 1) = k mod (2 ^ 64 - 1)) /\
  (forall t, t < 2 ^ 64 -> t <> 0 -> exists k, k < 2 ^ 64 - 1 /\ N.iter k xs64_step s = t).
Proof.
  intros s H Nz. split; [apply (per_eq xs64_step s n64 ltac:(reflexivity) (xs64_period s H Nz))|].
  intros t Ht Nt. apply (xs64_reaches W s t eq_refl H Nz Ht Nt).
Qed.
Print Assumptions C12_user_generator_exact_period.
(** C12 fails for the user-supplied state 0 (e.g. a zero hash value): all numbers are then zero, forever *)
Theorem C12_user_state_zero_refuted : forall k, N.iter k xs64_step 0 = 0 /\ xs64_out (N.iter k xs64_step 0) = 0.
Proof.
  intros k. assert (E : N.iter k xs64_step 0 = 0). { induction k as [|k IH] using N.peano_ind; [reflexivity|]. rewrite N.iter_succ, IH. reflexivity. }
  rewrite E. split; reflexivity.
Qed.
Example C12_nonvacuous : exists si sj, nth_error (randomize 2 42 0) 0 = Some si /\ nth_error (randomize 2 42 0) 1 = Some sj /\ si <> sj.
Proof.
  destruct (nth_error (randomize 2 42 0) 0) as [si|] eqn:E0; [|apply nth_error_None in E0; rewrite C12_one_state_per_thread in E0; lia].
  destruct (nth_error (randomize 2 42 0) 1) as [sj|] eqn:E1; [|apply nth_error_None in E1; rewrite C12_one_state_per_thread in E1; lia].
  exists si, sj. split; [reflexivity|]. split; [reflexivity|]. apply (C12_thread_streams_do_not_overlap 2 42 0 0 1 si sj 0 0 ltac:(reflexivity) E0 E1); [discriminate|reflexivity|reflexivity].
Qed.

(** C13: random() never accesses memory outside of the state array, in any thread and for any interleaving *)
Theorem C13_no_out_of_bounds : forall maxThreads sched mem, (1 <= maxThreads)%nat -> length mem = (2 * maxThreads)%nat ->
  exists log mem', run maxThreads sched mem = Ok (log, mem') /\ length mem' = (2 * maxThreads)%nat /\ map fst log = sched.
Proof. exact run_ok. Qed.
Print Assumptions C13_no_out_of_bounds.
(** C13, partial: the numbers obtained in one thread do not depend on what the other threads do, and form the generator's sequence,
    provided that no other active thread has an adjacent index (or shares the last slot) *)
Theorem C13_thread_private_if_not_adjacent_partial : forall maxThreads sched mem t s0 s1 log mem', (1 <= maxThreads)%nat -> length mem = (2 * maxThreads)%nat ->
  (forall t', t' = t \/ In t' sched -> (t' < maxThreads)%nat) ->
  (forall t', In t' sched -> t' <> t -> t' <> S t /\ t <> S t') ->
  nth_error mem t = Some s0 -> nth_error mem (t + 1) = Some s1 ->
  run maxThreads sched mem = Ok (log, mem') -> outputs_of t log = stream (s0, s1) (count_occ Nat.eq_dec sched t).
Proof.
  intros m sched mem t s0 s1 log mem' Hm HL Hmax Hap E0 E1 R. assert (St : slot m t = t) by (specialize (Hmax t (or_introl eq_refl)); unfold slot; lia).
  apply (run_private m sched mem t s0 s1 log mem' Hm HL); [rewrite St; exact E0|rewrite St; exact E1| |exact R].
  intros t' I N. specialize (Hap t' I N). specialize (Hmax t' (or_intror I)). unfold apart, slot in *. lia.
Qed.
Print Assumptions C13_thread_private_if_not_adjacent_partial.
(** C13 refuted in general: a number drawn in the thread 0 changes the next number drawn in the thread 1 (default seed, two threads) *)
Theorem C13_adjacent_threads_share_state_refuted : exists log1 mem1 log2 mem2,
  run 2 [1%nat] (flatten (randomize 2 42 0)) = Ok (log1, mem1) /\ run 2 [0; 1]%nat (flatten (randomize 2 42 0)) = Ok (log2, mem2) /\
  outputs_of 1 log1 <> outputs_of 1 log2.
Proof. vm_compute. do 4 eexists. split; [reflexivity|]. split; [reflexivity|]. discriminate. Qed.
Print Assumptions C13_adjacent_threads_share_state_refuted.
(** C13 refuted in general: the thread 1 does not use the state prepared for it by randomize() *)
Theorem C13_thread_uses_its_seeded_state_refuted : exists log mem s, run 2 [1%nat] (flatten (randomize 2 42 0)) = Ok (log, mem) /\
  nth_error (randomize 2 42 0) 1 = Some s /\ outputs_of 1 log <> stream s 1.
Proof. vm_compute. do 3 eexists. split; [reflexivity|]. split; [reflexivity|]. discriminate. Qed.
Print Assumptions C13_thread_uses_its_seeded_state_refuted.
(** C13: for any number of threads, the words from index maxThreads+1 on (the seeds of more than half of the threads) are never used *)
Theorem C13_upper_half_of_seeds_never_changes : forall maxThreads sched mem log mem' j, (1 <= maxThreads)%nat -> length mem = (2 * maxThreads)%nat ->
  run maxThreads sched mem = Ok (log, mem') -> (maxThreads + 1 <= j)%nat -> nth_error mem' j = nth_error mem j.
Proof. exact run_unused. Qed.
Example C13_nonvacuous : exists log mem', run 4 [0; 2; 0; 2]%nat [1; 2; 3; 4; 5; 6; 7; 8] = Ok (log, mem') /\ outputs_of 0 log = stream (1, 2) 2 /\ length (outputs_of 0 log) = 2%nat.
Proof. vm_compute. do 2 eexists. split; [reflexivity|]. split; reflexivity. Qed.

(** C14: every number is finite and lies in [0,1], equal to the 64-bit integer divided by 2^64 up to one relative rounding error *)
Theorem C14_random_in_closed_unit_interval : forall raw, (0 <= raw < 2 ^ 64)%Z ->
  is_finite (toUnit raw) = true /\ (0 <= B2R (toUnit raw) <= 1)%R /\
  (Rabs (B2R (toUnit raw) - IZR raw / IZR (2 ^ 64)) <= bpow radix2 (-53) * (IZR raw / IZR (2 ^ 64)))%R.
Proof. exact toUnit_range. Qed.
Print Assumptions C14_random_in_closed_unit_interval.
Theorem C14_random_is_one_iff : forall raw, (0 <= raw < 2 ^ 64)%Z -> (B2R (toUnit raw) = 1%R <-> (2 ^ 64 - 1024 <= raw)%Z).
Proof. exact toUnit_one. Qed.
(** C14 refuted as documented ("in the range [0,1)"): from every nonzero state, either generator eventually returns exactly 1 *)
Theorem C14_random_below_one_refuted :
  (forall s0 s1, s0 < 2 ^ 64 -> s1 < 2 ^ 64 -> (s0, s1) <> (0, 0) -> exists k, B2R (toUnit (Z.of_N (xoro_out (N.iter k xoro_step (s0, s1))))) = 1%R) /\
  (forall s, s < 2 ^ 64 -> s <> 0 -> exists k, B2R (toUnit (Z.of_N (xs64_out (N.iter k xs64_step s)))) = 1%R).
Proof.
  split.
  - intros s0 s1 H0 H1 Nz. destruct (C12_thread_generator_visits_all_states s0 s1 18446744073709551615 0 H0 H1 Nz) as (k & _ & E); [reflexivity|reflexivity|discriminate|].
    exists k. rewrite E. apply toUnit_one; [split; vm_compute; [discriminate|reflexivity]|vm_compute; discriminate].
  - intros s H Nz. destruct (C12_user_generator_exact_period s H Nz) as [_ V]. set (t := wmul 18446744073709551615 6415128727920758069).
    destruct (V t) as (k & _ & E); [vm_compute; reflexivity|vm_compute; discriminate|]. destruct k as [|k] using N.peano_ind.
    + (* the target is the initial state: it is reached again after a full period *)
      exists (n64 - 1). assert (P : N.iter n64 xs64_step s = s) by (apply xs64_period; [exact H|exact Nz|exists 1; reflexivity]).
      replace n64 with (N.succ (n64 - 1)) in P by reflexivity. rewrite N.iter_succ in P. unfold xs64_out. rewrite P. cbn [N.iter] in E. rewrite E.
      apply toUnit_one; vm_compute; [split; [discriminate|reflexivity]|discriminate].
    + exists k. rewrite N.iter_succ in E. unfold xs64_out. rewrite E. apply toUnit_one; vm_compute; [split; [discriminate|reflexivity]|discriminate].
Qed.
Print Assumptions C14_random_below_one_refuted.
Example C14_nonvacuous : B2R (toUnit 9223372036854775808) = (/ 2)%R.
Proof.
  destruct (toUnit_eq 9223372036854775808) as [-> _]; [split; vm_compute; discriminate|]. change (IZR 9223372036854775808) with (bpow radix2 63).
  rewrite rnd_fmt by (apply generic_format_bpow; vm_compute; discriminate). rewrite <- bpow_plus. cbn. lra.
Qed.

(** C15: whatever values random() returns and whatever the array held before, the output is a permutation of 0..count-1, without any out-of-bounds access *)
Theorem C15_output_is_a_permutation : forall js out0, length out0 = length js ->
  exists out, getRandomPermutation js out0 = Ok out /\ Permutation out (seq 0 (length js)).
Proof. exact shuffle_perm. Qed.
Print Assumptions C15_output_is_a_permutation.
(** C15: every permutation is produced by exactly one sequence of choices j_i in 0..i, hence all are equally likely if the choices are uniform and independent *)
Theorem C15_each_permutation_from_exactly_one_choice_sequence : forall n p out0, length out0 = n -> Permutation p (seq 0 n) ->
  exists js, choices n js /\ getRandomPermutation js out0 = Ok p /\ forall js', choices n js' -> getRandomPermutation js' out0 = Ok p -> js' = js.
Proof.
  intros n p out0 L P. destruct (shuffle_bijection n p P) as (js & C & F & U). exists js. split; [exact C|]. destruct C as [Lj Cj]. split.
  - rewrite getRandomPermutation_eq by congruence. rewrite F. reflexivity.
  - intros js' C' E. apply U; [exact C'|]. destruct C' as [Lj' _]. rewrite getRandomPermutation_eq in E by congruence. injection E as E. exact E.
Qed.
Print Assumptions C15_each_permutation_from_exactly_one_choice_sequence.
Example C15_nonvacuous : getRandomPermutation [0; 0; 2; 1]%nat [77; 88; 99; 11]%nat = Ok [1; 3; 2; 0]%nat. Proof. reflexivity. Qed.

(** C16: the value is the radical inverse: if the digits of the index in the given base are d0,d1,..., it is d0/base + d1/base^2 + ... *)
Theorem C16_halton_is_radical_inverse : forall base ds fuel, 2 <= base -> Forall (fun d => d < base) ds -> numval base ds < 2 ^ 64 -> (64 <= fuel)%nat ->
  quasiRandomHalton fuel (numval base ds) base = Ok (radval (IZR (Z.of_N base)) ds).
Proof.
  intros base ds fuel Hb F H Hf. apply halton_eq; [exact Hb|exact F|]. assert (N.size (numval base ds) <= 64); [|lia].
  destruct (N.eq_dec (numval base ds) 0) as [->|N0]; [cbn; lia|]. rewrite N.size_log2 by exact N0. apply N.le_succ_l. apply N.log2_lt_pow2; lia.
Qed.
Print Assumptions C16_halton_is_radical_inverse.
(** C16: so the loop finishes in at most 64 iterations, and the value lies in [0,1) *)
Theorem C16_halton_terminates_in_range : forall base ind, 2 <= base -> ind < 2 ^ 64 -> exists v, (forall fuel, (64 <= fuel)%nat -> quasiRandomHalton fuel ind base = Ok v) /\ (0 <= v < 1)%R.
Proof.
  intros base ind Hb H. exists (phi base ind). split; [|apply phi_range; exact Hb]. intros fuel Hf. apply halton_phi; [exact Hb|]. assert (N.size ind <= 64); [|lia].
  destruct (N.eq_dec ind 0) as [->|N0]; [cbn; lia|]. rewrite N.size_log2 by exact N0. apply N.le_succ_l. apply N.log2_lt_pow2; lia.
Qed.
Print Assumptions C16_halton_terminates_in_range.
(** C16: different indices give different values *)
Theorem C16_halton_injective : forall base i i' v, 2 <= base -> i < 2 ^ 64 -> i' < 2 ^ 64 -> quasiRandomHalton 64 i base = Ok v -> quasiRandomHalton 64 i' base = Ok v -> i = i'.
Proof.
  intros base i i' v Hb Hi Hi' E E'. assert (S : forall x, x < 2 ^ 64 -> (N.to_nat (N.size x) <= 64)%nat).
  { intros x Hx. assert (N.size x <= 64); [|lia]. destruct (N.eq_dec x 0) as [->|N0]; [cbn; lia|]. rewrite N.size_log2 by exact N0. apply N.le_succ_l. apply N.log2_lt_pow2; lia. }
  rewrite halton_phi in E, E' by (try apply S; assumption). apply (phi_inj base Hb). congruence.
Qed.
Print Assumptions C16_halton_injective.
(** C16: low discrepancy: among any base^k consecutive indices starting from a multiple of base^k, each of the base^k equal subintervals of [0,1)
    contains the value of exactly one *)
Theorem C16_halton_stratified : forall base k m j, 2 <= base -> j < base ^ k -> (m + 1) * base ^ k <= 2 ^ 64 ->
  exists i v, (m * base ^ k <= i < (m + 1) * base ^ k) /\ quasiRandomHalton 64 i base = Ok v /\
     (IZR (Z.of_N j) / IZR (Z.of_N (base ^ k)) <= v < (IZR (Z.of_N j) + 1) / IZR (Z.of_N (base ^ k)))%R /\
     forall i' v', (m * base ^ k <= i' < (m + 1) * base ^ k) -> quasiRandomHalton 64 i' base = Ok v' ->
       (IZR (Z.of_N j) / IZR (Z.of_N (base ^ k)) <= v' < (IZR (Z.of_N j) + 1) / IZR (Z.of_N (base ^ k)))%R -> i' = i.
Proof.
  intros base k m j Hb Hj Hm. destruct (strat base Hb k m j Hj) as (i & Hi & Hv & U). exists i, (phi base i).
  assert (S : forall x, x < 2 ^ 64 -> (N.to_nat (N.size x) <= 64)%nat).
  { intros x Hx. assert (N.size x <= 64); [|lia]. destruct (N.eq_dec x 0) as [->|N0]; [cbn; lia|]. rewrite N.size_log2 by exact N0. apply N.le_succ_l. apply N.log2_lt_pow2; lia. }
  assert (P0 : (0 < IZR (Z.of_N (base ^ k)))%R). { apply (IZR_lt 0). assert (base ^ k <> 0) by (apply N.pow_nonzero; lia). lia. }
  set (P := IZR (Z.of_N (base ^ k))) in *. set (J := IZR (Z.of_N j)) in *.
  assert (K : forall x, (J / P <= x < (J + 1) / P)%R <-> (J <= x * P < J + 1)%R).
  { intros x. assert (Q : forall a, (a / P * P = a)%R) by (intros; field; lra). split; intros [A B].
    - split; [rewrite <- (Q J); apply Rmult_le_compat_r; lra|]. rewrite <- (Q (J + 1)%R). apply Rmult_lt_compat_r; lra.
    - split; [apply Rmult_le_reg_r with P; [lra|]; rewrite Q; lra|]. apply Rmult_lt_reg_r with P; [lra|]. rewrite Q. lra. }
  split; [exact Hi|]. split; [apply halton_phi; [exact Hb|apply S; lia]|]. split; [apply K; exact Hv|].
  intros i' v' Hi' E' Hv'. rewrite halton_phi in E' by (try (apply S; lia); exact Hb). injection E' as <-. apply U; [exact Hi'|apply K; exact Hv'].
Qed.
Print Assumptions C16_halton_stratified.
(** C16 needs base >= 2: with base 1 the loop never ends, with base 0 it divides by zero *)
Theorem C16_halton_bad_base_refuted : forall ind, ind <> 0 -> (forall fuel, quasiRandomHalton fuel ind 1 = Fuel) /\ (forall fuel, quasiRandomHalton (S fuel) ind 0 = UB).
Proof.
  intros ind H. split; [intros; apply halton_base1; exact H|]. intros fuel. unfold quasiRandomHalton. cbn [halton_loop]. rewrite (proj2 (N.eqb_neq ind 0) H). reflexivity.
Qed.
Example C16_nonvacuous : quasiRandomHalton 64 6 2 = Ok (3 / 8)%R.
Proof. change 6 with (numval 2 [0; 1; 1]). rewrite C16_halton_is_radical_inverse; [|lia|repeat constructor|reflexivity|lia]. cbn. f_equal. lra. Qed.

Local Open Scope R_scope.
(** C17: with the numbers p_i returned by random() in [0,1], in exact arithmetic: *)
Theorem C17_unit_vector : forall p1 p2, 0 <= p1 <= 1 -> dot (getRandomUnitVector p1 p2) (getRandomUnitVector p1 p2) = 1.
Proof. exact unit_vector. Qed.
Print Assumptions C17_unit_vector.
(** every direction can be produced *)
Theorem C17_every_unit_vector_reachable : forall v, dot v v = 1 -> exists p1 p2, 0 <= p1 <= 1 /\ 0 <= p2 <= 1 /\ getRandomUnitVector p1 p2 = v.
Proof. exact unit_vector_surj. Qed.
Print Assumptions C17_every_unit_vector_reachable.
Theorem C17_perpendicular_vector : forall v p1 p2, 0 <= p2 <= 1 -> let '(w, m) := getRandomPerpendicularVector v p1 p2 in
  dot v w = 0 /\ dot w w = 1 /\ m = sqrt (dot v v).
Proof. exact perp_vector. Qed.
Print Assumptions C17_perpendicular_vector.
Theorem C17_rotation_matrix : forall p1 p2 p3, 0 <= p3 <= 1 -> let M := getRandomRotationMatrix p1 p2 p3 in
  orthonormal_rows M /\ orthonormal_rows (transp M) /\ det3 M = 1.
Proof. exact rotation_ok. Qed.
Print Assumptions C17_rotation_matrix.
(** the pair of normal numbers lies on the circle whose radius has the Rayleigh distribution with p1 as its survival probability *)
Theorem C17_normal_numbers : forall p1 p2, 0 < p1 <= 1 -> let '(a, b) := getNormalRandomNumbers p1 p2 in exp (- (a * a + b * b) / 2) = p1.
Proof. exact normal_numbers. Qed.
Print Assumptions C17_normal_numbers.
Example C17_nonvacuous : getRandomUnitVector 1 0 = (0, 0, 1).
Proof. unfold getRandomUnitVector, pow_2. cbv zeta. replace (1 - (1 * 2 - 1) * (1 * 2 - 1)) with 0 by ring. rewrite sqrt_0. f_equal; [f_equal|]; ring. Qed.

Local Open Scope N_scope.
(** C40: two arrays of the same length that differ in exactly one 8-byte word have different hashes *)
Theorem C40_hash_injective_in_each_word : forall pre post x y seed, seed < 2 ^ 32 -> x < 2 ^ 64 -> y < 2 ^ 64 ->
  x <> y -> hash (pre ++ x :: post) seed <> hash (pre ++ y :: post) seed.
Proof. intros pre post x y seed Hs Hx Hy N E. apply N. apply (hash_word_inj pre post x y seed Hs Hx Hy E). Qed.
Print Assumptions C40_hash_injective_in_each_word.
(** C40: and so do different seeds for the same data *)
Theorem C40_hash_injective_in_seed : forall data s s', s < 2 ^ 32 -> s' < 2 ^ 32 -> s <> s' -> hash data s <> hash data s'.
Proof. intros data s s' Hs Hs' N E. apply N. apply (hash_seed_inj data s s' Hs Hs' E). Qed.
Print Assumptions C40_hash_injective_in_seed.
Example C40_nonvacuous : hash [1; 2; 3] 5 <> hash [1; 7; 3] 5.
Proof. apply (C40_hash_injective_in_each_word [1] [3] 2 7 5); [reflexivity|reflexivity|reflexivity|discriminate]. Qed.
