(** Banach's theorem for maps of tuples (auxiliary) *)
From Coq Require Import Reals Lra Lia List Arith.
From Coquelicot Require Import Coquelicot.
Local Open Scope R_scope.

Definition near (M : nat) (c c' : nat -> R) (E : R) : Prop := forall i, (i < M)%nat -> Rabs (c i - c' i) <= E.

Lemma near_ex : forall M c c', exists E, 0 <= E /\ near M c c' E.
Proof.
  induction M; intros c c'; [exists 0; split; [lra|intros i Hi; lia]|].
  destruct (IHM c c') as (E & H0 & H). exists (Rmax E (Rabs (c M - c' M))). split; [eapply Rle_trans; [exact H0|apply Rmax_l]|].
  intros i Hi. destruct (Nat.eq_dec i M) as [->|Hne]; [apply Rmax_r|]. eapply Rle_trans; [apply H; lia|apply Rmax_l].
Qed.
Lemma near_sym : forall M c c' E, near M c c' E -> near M c' c E.
Proof. intros M c c' E H i Hi. rewrite Rabs_minus_sym. auto. Qed.
Lemma near_trans : forall M a b c E F, near M a b E -> near M b c F -> near M a c (E + F).
Proof. intros M a b c E F H G i Hi. replace (a i - c i) with ((a i - b i) + (b i - c i)) by ring. eapply Rle_trans; [apply Rabs_triang|]. specialize (H i Hi). specialize (G i Hi). lra. Qed.

Section Banach.
Variable M : nat.
Variable T : (nat -> R) -> (nat -> R).
Variable k : R.
Hypothesis Hk : 0 <= k < 1.
Hypothesis HT : forall c c' E, 0 <= E -> near M c c' E -> near M (T c) (T c') (k * E).

Definition it (n : nat) : nat -> R := Nat.iter n T (fun _ => 0).

Lemma it_step : forall E, 0 <= E -> near M (it 1) (it 0) E -> forall n, near M (it (S n)) (it n) (k ^ n * E).
Proof.
  intros E HE H1. induction n.
  - intros i Hi. rewrite pow_O, Rmult_1_l. exact (H1 i Hi).
  - simpl pow. rewrite Rmult_assoc. apply (HT (it (S n)) (it n)); [|exact IHn]. apply Rmult_le_pos; [apply pow_le; lra|exact HE].
Qed.
Lemma it_far : forall E, 0 <= E -> near M (it 1) (it 0) E -> forall n m, near M (it (m + n)) (it n) (k ^ n * E * ((1 - k ^ m) / (1 - k))).
Proof.
  intros E HE H1 n m. induction m.
  - intros i Hi. rewrite Nat.add_0_l, Rminus_eq_0, Rabs_R0. simpl. unfold Rdiv. rewrite Rminus_eq_0. lra.
  - replace (k ^ n * E * ((1 - k ^ S m) / (1 - k))) with (k ^ (m + n) * E + k ^ n * E * ((1 - k ^ m) / (1 - k))) by (rewrite pow_add; simpl; field; lra).
    apply near_trans with (it (m + n)); [|exact IHm]. exact (it_step E HE H1 (m + n)).
Qed.
Lemma it_far2 : forall E, 0 <= E -> near M (it 1) (it 0) E -> forall n m, near M (it (m + n)) (it n) (k ^ n * (E / (1 - k))).
Proof.
  intros E HE H1 n m i Hi. eapply Rle_trans; [apply (it_far E HE H1 n m i Hi)|].
  rewrite Rmult_assoc. apply Rmult_le_compat_l; [apply pow_le; lra|]. unfold Rdiv. apply Rmult_le_compat_l; [exact HE|].
  rewrite <- (Rmult_1_l (/ (1 - k))) at 2. apply Rmult_le_compat_r; [left; apply Rinv_0_lt_compat; lra|].
  assert (0 <= k ^ m) by (apply pow_le; lra). lra.
Qed.
Lemma geo_small : forall B eps, 0 <= B -> 0 < eps -> exists n, k ^ n * B < eps.
Proof.
  intros B eps HB He.
  assert (L : is_lim_seq (fun n => k ^ n * B) 0).
  { replace (Finite 0) with (Rbar_mult (Finite 0) (Finite B)) by (simpl; f_equal; ring). apply is_lim_seq_scal_r. apply is_lim_seq_geom. rewrite Rabs_pos_eq; lra. }
  apply is_lim_seq_spec in L. destruct (L (mkposreal eps He)) as (n & Hn). exists n. specialize (Hn n (le_n _)). simpl in Hn. rewrite Rminus_0_r in Hn.
  apply Rabs_lt_between in Hn. lra.
Qed.
Theorem banach : exists c, near M (T c) c 0.
Proof.
  destruct (near_ex M (it 1) (it 0)) as (E & HE & H1). set (B := E / (1 - k)).
  assert (HB : 0 <= B). { unfold B, Rdiv. apply Rmult_le_pos; [exact HE|]. left; apply Rinv_0_lt_compat; lra. }
  assert (CV : forall i, (i < M)%nat -> ex_finite_lim_seq (fun n => it n i)).
  { intros i Hi. apply ex_lim_seq_cauchy_corr. intros eps. destruct (geo_small B (eps / 2) HB ltac:(destruct eps; simpl; lra)) as (n & Hn).
    exists n. intros p q Hp Hq.
    pose proof (it_far2 E HE H1 n (p - n) i Hi) as A1. pose proof (it_far2 E HE H1 n (q - n) i Hi) as A2.
    replace (p - n + n)%nat with p in A1 by lia. replace (q - n + n)%nat with q in A2 by lia.
    replace (it p i - it q i) with ((it p i - it n i) + - (it q i - it n i)) by ring. eapply Rle_lt_trans; [apply Rabs_triang|]. rewrite Rabs_Ropp. fold B in A1, A2. lra. }
  exists (fun i => real (Lim_seq (fun n => it n i))). set (l := fun i => real (Lim_seq (fun n => it n i))).
  assert (NL : forall n, near M l (it n) (k ^ n * B)).
  { intros n i Hi. assert (LL : is_lim_seq (fun m => it m i) (l i)) by (apply Lim_seq_correct'; auto).
    apply Rabs_le.
    assert (L2 : is_lim_seq (fun m => it (m + n) i - it n i) (l i - it n i)).
    { apply is_lim_seq_minus' with (l1 := l i) (l2 := it n i); [|apply is_lim_seq_const]. now apply is_lim_seq_incr_n with (u := fun m => it m i). }
    split.
    - apply (is_lim_seq_le (fun _ => - (k ^ n * B)) (fun m => it (m + n) i - it n i) (- (k ^ n * B)) (l i - it n i)); [|apply is_lim_seq_const|exact L2].
      intros m. pose proof (it_far2 E HE H1 n m i Hi) as A. apply Rabs_le_between in A. fold B in A. lra.
    - apply (is_lim_seq_le (fun m => it (m + n) i - it n i) (fun _ => k ^ n * B) (l i - it n i) (k ^ n * B)); [|exact L2|apply is_lim_seq_const].
      intros m. pose proof (it_far2 E HE H1 n m i Hi) as A. apply Rabs_le_between in A. fold B in A. lra. }
  intros i Hi. destruct (Rle_or_lt (Rabs (T l i - l i)) 0) as [H|H]; [exact H|exfalso].
  destruct (geo_small B (Rabs (T l i - l i) / 2) HB ltac:(lra)) as (n & Hn).
  assert (PB : 0 <= k ^ n * B) by (apply Rmult_le_pos; [apply pow_le; lra|exact HB]).
  pose proof (HT l (it n) _ PB (NL n) i Hi) as A1. pose proof (NL (S n) i Hi) as A2. change (T (it n)) with (it (S n)) in A1.
  simpl pow in A2. rewrite Rmult_assoc in A2.
  assert (A3 : Rabs (T l i - l i) <= Rabs (T l i - it (S n) i) + Rabs (l i - it (S n) i)).
  { replace (T l i - l i) with ((T l i - it (S n) i) + - (l i - it (S n) i)) by ring. eapply Rle_trans; [apply Rabs_triang|]. rewrite Rabs_Ropp. lra. }
  assert (k * (k ^ n * B) <= k ^ n * B) by nra. lra.
Qed.
End Banach.
