(** Full-period orbits, non-overlapping thread streams, seeding, thread-private storage. *)
From Verif Require Import Words RandModel Order RandLin Rand64.
Local Open Scope N_scope.

Section Per.
  Context {X : Type}.
  Variables (f : X -> X) (s : X) (n : N).
  Hypothesis Hn : 0 < n.
  Hypothesis Hper : forall k, N.iter k f s = s <-> (n | k).
  Lemma per_le j k : j <= k -> (N.iter j f s = N.iter k f s <-> j mod n = k mod n).
  Proof.
    intros L. assert (N0 : n <> 0) by lia. split.
    - intros E. assert (A : N.iter (j * n - j) f (N.iter j f s) = s).
      { rewrite <- N.iter_add. replace (j * n - j + j) with (j * n) by nia. apply Hper. exists j. lia. }
      rewrite E, <- N.iter_add in A. apply Hper in A. destruct A as [c Hc].
      replace (j * n - j + k) with (j * n + (k - j)) in Hc by nia.
      assert (D : k = j + (c - j) * n). { assert (j <= c) by nia. rewrite N.mul_sub_distr_r. nia. }
      rewrite D. rewrite N.mod_add by exact N0. reflexivity.
    - intros E. pose proof (N.div_mod' j n) as Ej. pose proof (N.div_mod' k n) as Ek. rewrite <- E in Ek.
      assert (D : k = j + n * (k / n - j / n)). { assert (j / n <= k / n) by (apply N.div_le_mono; assumption). rewrite N.mul_sub_distr_l. nia. }
      rewrite D, N.iter_add. f_equal. symmetry. apply Hper. exists (k / n - j / n). lia.
  Qed.
  Lemma per_eq j k : N.iter j f s = N.iter k f s <-> j mod n = k mod n.
  Proof.
    destruct (N.le_ge_cases j k) as [L|L]; [apply per_le; exact L|].
    pose proof (per_le k j L) as [A B]. split; intros E; symmetry; [apply A|apply B]; symmetry; exact E.
  Qed.
  (** an orbit as large as a finite set containing it fills the set *)
  Lemma full_orbit (l : list X) : (forall k, In (N.iter k f s) l) -> (length l <= N.to_nat n)%nat -> forall x, In x l -> exists k, k < n /\ N.iter k f s = x.
  Proof.
    intros Hin Hlen x Hx. set (orb := map (fun i => N.iter (N.of_nat i) f s) (seq 0 (N.to_nat n))).
    assert (ND : NoDup orb).
    { apply NoDup_map_seq. intros i j Hi Hj E. apply per_eq in E. rewrite !N.mod_small in E by lia. lia. }
    assert (IN : incl orb l). { intros y Hy. apply in_map_iff in Hy. destruct Hy as (i & <- & _). apply Hin. }
    assert (LN : (length l <= length orb)%nat). { unfold orb. rewrite map_length, seq_length. exact Hlen. }
    pose proof (NoDup_length_incl ND LN IN x Hx) as Hy. apply in_map_iff in Hy. destruct Hy as (i & E & Hi). apply in_seq in Hi.
    exists (N.of_nat i). split; [lia|exact E].
  Qed.
End Per.

Lemma n128_pow : n128 = 2 ^ 128 - 1. Proof. reflexivity. Qed.
Lemma n64_pow : n64 = 2 ^ 64 - 1. Proof. reflexivity. Qed.

Lemma xoro_nonzero s k : inV2 s -> s <> z2 -> N.iter k xoro_step s <> z2.
Proof.
  intros H Nz E. apply Nz. assert (Z : forall j, N.iter j xoro_step z2 = z2).
  { intros j. induction j as [|j IH] using N.peano_ind; [reflexivity|]. rewrite N.iter_succ, IH. reflexivity. }
  pose proof (proj2 (xoro_period s H Nz (k * n128)) ltac:(exists k; reflexivity)) as P.
  replace (k * n128) with ((k * n128 - k) + k) in P by (unfold n128; lia).
  rewrite N.iter_add, E, Z in P. symmetry. exact P.
Qed.
Lemma xs64_nonzero s k : word s -> s <> 0 -> N.iter k xs64_step s <> 0.
Proof.
  intros H Nz E. apply Nz. assert (Z : forall j, N.iter j xs64_step 0 = 0).
  { intros j. induction j as [|j IH] using N.peano_ind; [reflexivity|]. rewrite N.iter_succ, IH. reflexivity. }
  pose proof (proj2 (xs64_period s H Nz (k * n64)) ltac:(exists k; reflexivity)) as P.
  replace (k * n64) with ((k * n64 - k) + k) in P by (unfold n64; lia).
  rewrite N.iter_add, E, Z in P. symmetry. exact P.
Qed.

(** lists of all words / all states, for an abstract bound so that nothing is ever evaluated *)
Definition upto (B : N) : list N := map N.of_nat (seq 0 (N.to_nat B)).
Lemma upto_in B x : In x (upto B) <-> x < B.
Proof.
  unfold upto. rewrite in_map_iff. split.
  - intros (i & <- & Hi). apply in_seq in Hi. lia.
  - intros H. exists (N.to_nat x). split; [apply N2Nat.id|]. apply in_seq. lia.
Qed.
Lemma upto_length B : length (upto B) = N.to_nat B. Proof. unfold upto. rewrite map_length, seq_length. reflexivity. Qed.
Lemma st2_dec (a b : st2) : {a = b} + {a <> b}. Proof. decide equality; apply N.eq_dec. Qed.
Lemma length_remove {A} (dec : forall a b : A, {a = b} + {a <> b}) x l : In x l -> (S (length (remove dec x l)) <= length l)%nat.
Proof. intros H. pose proof (remove_length_lt dec l x H). lia. Qed.
Lemma iter_inv {X} (f : X -> X) (P : X -> Prop) s : (forall x, P x -> P (f x)) -> P s -> forall k, P (N.iter k f s).
Proof. intros F H k. induction k as [|k IH] using N.peano_ind; [exact H|]. rewrite N.iter_succ. apply F, IH. Qed.

Lemma xoro_reaches B s t (HB : B = W) : inV2 s -> s <> z2 -> inV2 t -> t <> z2 -> exists k, k < n128 /\ N.iter k xoro_step s = t.
Proof.
  intros Hs Ns Ht Nt. set (l := remove st2_dec z2 (list_prod (upto B) (upto B))).
  assert (M : forall x, In x l <-> inV2 x /\ x <> z2).
  { intros x. unfold l. split.
    - intros I. apply in_remove in I. destruct I as [I N]. destruct x as [a b]. apply in_prod_iff in I. rewrite !upto_in, HB in I. split; [exact I|exact N].
    - intros [[I1 I2] N]. apply in_in_remove; [exact N|]. destruct x as [a b]. apply in_prod_iff. rewrite !upto_in, HB. split; assumption. }
  apply (full_orbit xoro_step s n128 ltac:(reflexivity) (xoro_period s Hs Ns) l).
  - intros k. apply M. split; [apply iter_stepW; exact Hs|apply xoro_nonzero; assumption].
  - assert (I : In z2 (list_prod (upto B) (upto B))). { apply in_prod_iff. rewrite !upto_in, HB. split; reflexivity. }
    pose proof (length_remove st2_dec z2 _ I) as L. fold l in L. assert (PL : @length st2 (list_prod (upto B) (upto B)) = (length (upto B) * length (upto B))%nat) by apply prod_length. rewrite PL, upto_length in L.
    assert (E : n128 = B * B - 1) by (rewrite HB; reflexivity). rewrite E. rewrite N2Nat.inj_sub, N2Nat.inj_mul. change (N.to_nat 1) with 1%nat. lia.
  - apply M. split; assumption.
Qed.
Lemma xs64_reaches B s t (HB : B = W) : word s -> s <> 0 -> word t -> t <> 0 -> exists k, k < n64 /\ N.iter k xs64_step s = t.
Proof.
  intros Hs Ns Ht Nt. set (l := remove N.eq_dec 0 (upto B)).
  assert (M : forall x, In x l <-> word x /\ x <> 0).
  { intros x. unfold l. split.
    - intros I. apply in_remove in I. destruct I as [I N]. rewrite upto_in, HB in I. split; [exact I|exact N].
    - intros [I1 N]. apply in_in_remove; [exact N|]. rewrite upto_in, HB. exact I1. }
  apply (full_orbit xs64_step s n64 ltac:(reflexivity) (xs64_period s Hs Ns) l).
  - intros k. apply M. split; [apply iter_inv; [exact xs64_in|exact Hs]|apply xs64_nonzero; assumption].
  - assert (I : In 0 (upto B)). { rewrite upto_in, HB. reflexivity. }
    pose proof (length_remove N.eq_dec 0 _ I) as L. fold l in L. rewrite upto_length in L.
    assert (E : n64 = B - 1) by (rewrite HB; reflexivity). rewrite E. rewrite N2Nat.inj_sub. change (N.to_nat 1) with 1%nat. lia.
  - apply M. split; assumption.
Qed.

(** ---- seeding ---- *)
Lemma sm_mix_word z : word z -> word (sm_mix z).
Proof. intros H. unfold sm_mix. cbv zeta. apply word_lxor; [apply wmul_word|apply word_shr; apply wmul_word]. Qed.
Lemma sm_mix_inj x y : word x -> word y -> sm_mix x = sm_mix y -> x = y.
Proof.
  intros Hx Hy E. unfold sm_mix, wshr in E. cbv zeta in E.
  apply (xorshift_inj 31) in E; [|reflexivity].
  apply (wmul_inj _ 3573116690164977347) in E; [|reflexivity|apply word_lxor; [apply wmul_word|apply word_shr, wmul_word]|apply word_lxor; [apply wmul_word|apply word_shr, wmul_word]].
  apply (xorshift_inj 27) in E; [|reflexivity].
  apply (wmul_inj _ 10871156337175269513) in E; [|reflexivity|apply word_lxor; [exact Hx|apply word_shr, Hx]|apply word_lxor; [exact Hy|apply word_shr, Hy]].
  apply (xorshift_inj 30) in E; [exact E|reflexivity].
Qed.
Definition seed_state (seed : N) : st2 := (fst (sm_next seed), fst (sm_next (snd (sm_next seed)))).
Lemma seed_in seed : inV2 (seed_state seed).
Proof. split; cbn [seed_state fst snd sm_next]; apply sm_mix_word, wadd_word. Qed.
Lemma seed_nonzero seed : seed_state seed <> z2.
Proof.
  intros E. unfold seed_state, z2, sm_next in E. cbn [fst snd] in E. assert (Z : sm_mix 0 = 0) by reflexivity. injection E as E1 E2. rewrite <- Z in E1 at 1. rewrite <- Z in E2 at 1.
  apply sm_mix_inj in E1; [|apply wadd_word|reflexivity]. apply sm_mix_inj in E2; [|apply wadd_word|reflexivity].
  rewrite E1 in E2. discriminate.
Qed.
Lemma seed_inj a b : word a -> word b -> seed_state a = seed_state b -> a = b.
Proof.
  intros Ha Hb E. unfold seed_state, sm_next in E. injection E as E _. cbn [fst] in E.
  apply sm_mix_inj in E; [|apply wadd_word|apply wadd_word]. apply wadd_inj in E; assumption.
Qed.
Lemma rand_states_nth n s i : inV2 s -> (i < n)%nat -> nth_error (rand_states n s) i = Some (N.iter (2 ^ 64 * (N.of_nat i + 1)) xoro_step s).
Proof.
  revert s i. induction n as [|n IH]; intros s i H L; [lia|]. cbn [rand_states]. cbv zeta. destruct i as [|i]; cbn [nth_error].
  - rewrite xoro_jump_eq by exact H. rewrite N.mul_1_r. reflexivity.
  - rewrite IH by (try apply jump_in; assumption || lia). rewrite xoro_jump_eq by exact H. rewrite <- N.iter_add. do 2 f_equal. lia.
Qed.
Lemma rand_states_length n s : length (rand_states n s) = n.
Proof. revert s. induction n; intros s; cbn [rand_states length]; cbv zeta; cbn [length]; [reflexivity|rewrite IHn; reflexivity]. Qed.
Definition eff_seed (seed time : N) : N := if seed =? 0 then time else seed.
Lemma randomize_eq n seed time : randomize n seed time = rand_states n (seed_state (eff_seed seed time)).
Proof. reflexivity. Qed.
Lemma randomize_nth n seed time i : (i < n)%nat ->
  nth_error (randomize n seed time) i = Some (N.iter (2 ^ 64 * (N.of_nat i + 1)) xoro_step (seed_state (eff_seed seed time))).
Proof. intros H. rewrite randomize_eq. apply rand_states_nth; [apply seed_in|exact H]. Qed.

Lemma some_inj {A} (a b : A) : Some a = Some b -> a = b. Proof. intros E. congruence. Qed.
Lemma streams_disjoint n seed time i j si sj a b : N.of_nat n < 2 ^ 64 ->
  nth_error (randomize n seed time) i = Some si -> nth_error (randomize n seed time) j = Some sj -> i <> j -> a < 2 ^ 64 -> b < 2 ^ 64 ->
  N.iter a xoro_step si <> N.iter b xoro_step sj.
Proof.
  intros Hn Ei Ej Nij Ha Hb E.
  assert (Li : (i < n)%nat). { rewrite <- (rand_states_length n (seed_state (eff_seed seed time))). apply nth_error_Some. rewrite <- randomize_eq. congruence. }
  assert (Lj : (j < n)%nat). { rewrite <- (rand_states_length n (seed_state (eff_seed seed time))). apply nth_error_Some. rewrite <- randomize_eq. congruence. }
  rewrite randomize_nth in Ei, Ej by assumption. apply some_inj in Ei, Ej. subst si sj.
  set (s := seed_state _) in *. rewrite <- !N.iter_add in E.
  pose proof (proj1 (per_eq xoro_step s n128 ltac:(reflexivity) (xoro_period s (seed_in _) (seed_nonzero _)) _ _) E) as E'. clear E. rename E' into E.
  assert (K : forall x k, (k < n)%nat -> x < 2 ^ 64 -> (x + 2 ^ 64 * (N.of_nat k + 1)) mod n128 = x + 2 ^ 64 * N.of_nat k + 2 ^ 64 \/ (x + 2 ^ 64 * N.of_nat k + 2 ^ 64 = n128)).
  { intros x k Hk Hx. change (2 ^ 64) with 18446744073709551616 in *. unfold n128. destruct (N.eq_dec (x + 18446744073709551616 * N.of_nat k + 18446744073709551616) 340282366920938463463374607431768211455) as [Q|Q]; [right; exact Q|left].
    replace (x + 18446744073709551616 * (N.of_nat k + 1)) with (x + 18446744073709551616 * N.of_nat k + 18446744073709551616) by lia. apply N.mod_small. lia. }
  pose proof (K a i Li Ha) as Ki. pose proof (K b j Lj Hb) as Kj.
  assert (NE : forall x y, a = x -> b = y -> a + 2 ^ 64 * N.of_nat i + 2 ^ 64 <> b + 2 ^ 64 * N.of_nat j + 2 ^ 64).
  { intros _ _ _ _ C. change (2 ^ 64) with 18446744073709551616 in *. lia. }
  assert (Z : forall x k, x + 2 ^ 64 * N.of_nat k + 2 ^ 64 = n128 -> (x + 2 ^ 64 * (N.of_nat k + 1)) mod n128 = 0).
  { intros x k Q. replace (x + 2 ^ 64 * (N.of_nat k + 1)) with (x + 2 ^ 64 * N.of_nat k + 2 ^ 64) by lia. rewrite Q. apply N.mod_same. discriminate. }
  destruct Ki as [Ki|Ki], Kj as [Kj|Kj].
  - rewrite Ki, Kj in E. apply (NE a b eq_refl eq_refl E).
  - rewrite (Z b j Kj), Ki in E. change (2 ^ 64) with 18446744073709551616 in *. lia.
  - rewrite (Z a i Ki), Kj in E. change (2 ^ 64) with 18446744073709551616 in *. lia.
  - apply (NE a b eq_refl eq_refl). rewrite Ki, Kj. reflexivity.
Qed.
