(** Thread-private storage, permutations, hash. *)
From Coq Require Import Permutation.
From Verif Require Import Words RandModel RandSpec Order RandLin RandProofs.
Local Open Scope N_scope.

Lemma store_length l i v : (i < length l)%nat -> length (store l i v) = length l.
Proof. intros H. unfold store. rewrite app_length. cbn [length]. rewrite firstn_length, skipn_length. lia. Qed.
Lemma store_nth l i v j : (i < length l)%nat -> nth_error (store l i v) j = if Nat.eqb j i then Some v else nth_error l j.
Proof.
  intros H. unfold store. destruct (Nat.eqb_spec j i) as [->|N].
  - rewrite nth_error_app2; rewrite firstn_length, Nat.min_l by lia; [|lia]. rewrite Nat.sub_diag. reflexivity.
  - destruct (Nat.lt_ge_cases j i) as [L|L].
    + rewrite nth_error_app1 by (rewrite firstn_length; lia). revert l j H L N. induction i as [|i IH]; intros l j H L N; [lia|].
      destruct l as [|x l]; [cbn in H; lia|]. destruct j as [|j]; [reflexivity|]. cbn [firstn nth_error]. cbn in H. apply IH; lia.
    + rewrite nth_error_app2; rewrite firstn_length, Nat.min_l by lia; [|lia]. destruct (j - i)%nat as [|k] eqn:E; [lia|]. cbn [nth_error].
      assert (Ej : j = (S i + k)%nat) by lia. rewrite Ej. clear. revert l. generalize (S i). intros m. induction m as [|m IH]; intros l; [reflexivity|].
      destruct l as [|x l]; [destruct k; reflexivity|]. cbn [skipn]. apply IH.
Qed.
Lemma slot_lt m t : (1 <= m)%nat -> (slot m t + 1 < 2 * m)%nat \/ (m = 1%nat /\ slot m t = 0%nat).
Proof. unfold slot. lia. Qed.
Lemma draw_ok m t mem : (1 <= m)%nat -> length mem = (2 * m)%nat -> exists s0 s1 mem', nth_error mem (slot m t) = Some s0 /\ nth_error mem (slot m t + 1) = Some s1 /\
  draw m t mem = Ok (xoro_out (s0, s1), mem') /\ length mem' = (2 * m)%nat /\
  nth_error mem' (slot m t) = Some (fst (xoro_step (s0, s1))) /\ nth_error mem' (slot m t + 1) = Some (snd (xoro_step (s0, s1))) /\
  (forall j, j <> slot m t -> j <> (slot m t + 1)%nat -> nth_error mem' j = nth_error mem j).
Proof.
  intros Hm HL. assert (S1 : (slot m t + 1 < length mem)%nat) by (unfold slot; lia).
  destruct (nth_error mem (slot m t)) as [s0|] eqn:E0; [|apply nth_error_None in E0; lia].
  destruct (nth_error mem (slot m t + 1)) as [s1|] eqn:E1; [|apply nth_error_None in E1; lia].
  exists s0, s1. unfold draw. rewrite E0, E1. cbv zeta. set (s' := xoro_step (s0, s1)). set (m1 := store mem (slot m t) (fst s')).
  assert (L1 : length m1 = length mem) by (apply store_length; lia).
  exists (store m1 (slot m t + 1) (snd s')). split; [reflexivity|]. split; [reflexivity|]. split; [reflexivity|].
  split; [rewrite store_length by lia; lia|]. split; [|split].
  - rewrite store_nth by lia. rewrite (proj2 (Nat.eqb_neq _ _)) by lia. unfold m1. rewrite store_nth by lia. rewrite Nat.eqb_refl. reflexivity.
  - rewrite store_nth by lia. rewrite Nat.eqb_refl. reflexivity.
  - intros j N0 N1. rewrite store_nth by lia. rewrite (proj2 (Nat.eqb_neq _ _)) by lia. unfold m1. rewrite store_nth by lia. rewrite (proj2 (Nat.eqb_neq _ _)) by lia. reflexivity.
Qed.
Lemma run_ok m sched mem : (1 <= m)%nat -> length mem = (2 * m)%nat -> exists log mem', run m sched mem = Ok (log, mem') /\ length mem' = (2 * m)%nat /\ map fst log = sched.
Proof.
  intros Hm. revert mem. induction sched as [|t sched IH]; intros mem HL; [exists [], mem; repeat split; exact HL|].
  destruct (draw_ok m t mem Hm HL) as (s0 & s1 & mem1 & _ & _ & E & L1 & _). destruct (IH mem1 L1) as (log & mem2 & E2 & L2 & Ef).
  cbn [run]. rewrite E. cbn [bind snd fst]. rewrite E2. cbn [bind fst snd]. exists ((t, xoro_out (s0, s1)) :: log), mem2. repeat split; [exact L2|]. cbn. rewrite Ef. reflexivity.
Qed.
Definition apart (m t t' : nat) : Prop := (slot m t + 2 <= slot m t' \/ slot m t' + 2 <= slot m t)%nat.
Lemma stream_S s n : stream s (S n) = xoro_out s :: stream (xoro_step s) n.
Proof.
  unfold stream. cbn [seq map]. f_equal. rewrite <- seq_shift, map_map. apply map_ext. intros k. rewrite Nat2N.inj_succ.
  rewrite N.iter_succ_r. reflexivity.
Qed.
Lemma run_private m sched mem t s0 s1 log mem' : (1 <= m)%nat -> length mem = (2 * m)%nat ->
  nth_error mem (slot m t) = Some s0 -> nth_error mem (slot m t + 1) = Some s1 ->
  (forall t', In t' sched -> t' <> t -> apart m t t') ->
  run m sched mem = Ok (log, mem') -> outputs_of t log = stream (s0, s1) (count_occ Nat.eq_dec sched t).
Proof.
  intros Hm. revert mem s0 s1 log mem'. induction sched as [|u sched IH]; intros mem s0 s1 log mem' HL E0 E1 Ap R.
  - cbn in R. injection R as <- <-. reflexivity.
  - destruct (draw_ok m u mem Hm HL) as (a0 & a1 & mem1 & A0 & A1 & E & L1 & B0 & B1 & B2).
    destruct (run_ok m sched mem1 Hm L1) as (log1 & mem2 & R1 & _). cbn [run] in R. rewrite E in R. cbn [bind snd fst] in R. rewrite R1 in R. cbn [bind snd fst] in R.
    injection R as <- <-. cbn [count_occ]. unfold outputs_of. cbn [filter fst]. destruct (Nat.eqb_spec u t) as [->|N].
    + destruct (Nat.eq_dec t t) as [_|C]; [|lia]. cbn [map snd]. rewrite stream_S. rewrite A0 in E0. rewrite A1 in E1. injection E0 as ->. injection E1 as ->. f_equal.
      rewrite (surjective_pairing (xoro_step (s0, s1))). apply (IH mem1 _ _ log1 mem2 L1 B0 B1); [|exact R1]. intros t' I; apply Ap; right; exact I.
    + destruct (Nat.eq_dec u t) as [C|_]; [lia|]. pose proof (Ap u (or_introl eq_refl) N) as [D|D];
      (apply (IH mem1 s0 s1 log1 mem2 L1); [rewrite B2 by lia; exact E0|rewrite B2 by lia; exact E1|intros t' I; apply Ap; right; exact I|exact R1]).
Qed.
Lemma run_unused m sched mem log mem' j : (1 <= m)%nat -> length mem = (2 * m)%nat -> run m sched mem = Ok (log, mem') -> (m + 1 <= j)%nat -> nth_error mem' j = nth_error mem j.
Proof.
  intros Hm. revert mem log mem'. induction sched as [|u sched IH]; intros mem log mem' HL R Hj.
  - cbn in R. injection R as <- <-. reflexivity.
  - destruct (draw_ok m u mem Hm HL) as (a0 & a1 & mem1 & A0 & A1 & E & L1 & B0 & B1 & B2).
    destruct (run_ok m sched mem1 Hm L1) as (log1 & mem2 & R1 & _). cbn [run] in R. rewrite E in R. cbn [bind snd fst] in R. rewrite R1 in R. cbn [bind snd fst] in R.
    injection R as <- <-. rewrite (IH mem1 log1 mem2 L1 R1 Hj). apply B2; unfold slot; lia.
Qed.

(** ---- permutations ---- *)
Local Open Scope nat_scope.
Definition upd {A} (l : list A) (i : nat) (v : A) : list A := firstn i l ++ v :: skipn (S i) l.
Definition pstep (a : list nat) (j : nat) : list nat :=
  match nth_error a j with Some v => upd a j (length a) ++ [v] | None => a ++ [length a] end.
Lemma perm_step_ok a b0 b j : perm_step (a ++ b0 :: b) (length a) j = Ok (pstep a j ++ b).
Proof.
  unfold perm_step. cbv zeta. rewrite nth_error_app2, Nat.sub_diag by lia. cbn [nth_error].
  assert (F : forall v, firstn (length a) (a ++ b0 :: b) ++ v :: skipn (S (length a)) (a ++ b0 :: b) = a ++ v :: b).
  { intros v. rewrite firstn_app, firstn_all, Nat.sub_diag. cbn [firstn]. rewrite app_nil_r. f_equal. f_equal.
    rewrite skipn_app, skipn_all2 by lia. replace (S (length a) - length a) with 1 by lia. reflexivity. }
  destruct (Nat.lt_ge_cases j (length a)) as [L|L].
  - rewrite Nat.min_l by lia. rewrite nth_error_app1 by exact L. unfold pstep. destruct (nth_error a j) as [v|] eqn:E; [|apply nth_error_None in E; lia].
    f_equal. rewrite F. unfold upd. rewrite firstn_app. replace (j - length a) with 0 by lia. cbn [firstn]. rewrite app_nil_r.
    rewrite skipn_app. replace (S j - length a) with 0 by lia. cbn [skipn]. repeat (rewrite <- app_assoc; cbn [app]). reflexivity.
  - rewrite Nat.min_r by lia. rewrite nth_error_app2, Nat.sub_diag by lia. cbn [nth_error]. unfold pstep. rewrite (proj2 (nth_error_None a j) L).
    f_equal. rewrite F. rewrite firstn_app, firstn_all, Nat.sub_diag. cbn [firstn]. rewrite app_nil_r, skipn_app, skipn_all2 by lia.
    replace (S (length a) - length a) with 1 by lia. cbn [skipn app]. rewrite <- app_assoc. reflexivity.
Qed.
Lemma upd_length {A} (l : list A) i v : i < length l -> length (upd l i v) = length l.
Proof. intros H. unfold upd. rewrite app_length. cbn [length]. rewrite firstn_length, skipn_length. lia. Qed.
Lemma pstep_length a j : length (pstep a j) = S (length a).
Proof.
  unfold pstep. destruct (nth_error a j) eqn:E; rewrite app_length; cbn [length]; [|lia]. rewrite upd_length; [lia|].
  apply nth_error_Some. congruence.
Qed.
Lemma perm_loop_ok js a b : length b = length js -> perm_loop js (length a) (a ++ b) = Ok (fold_left pstep js a).
Proof.
  revert a b. induction js as [|j js IH]; intros a b H; destruct b as [|b0 b]; try discriminate; cbn [perm_loop fold_left].
  - rewrite app_nil_r. reflexivity.
  - rewrite perm_step_ok. cbn [bind]. rewrite <- (pstep_length a j). apply IH. cbn in H. lia.
Qed.
Lemma split_nth {A} (l : list A) j v : nth_error l j = Some v -> l = firstn j l ++ v :: skipn (S j) l.
Proof.
  revert l. induction j as [|j IH]; intros [|x l] H; try discriminate; cbn [nth_error firstn skipn app] in *; [injection H as ->; reflexivity|].
  f_equal. apply IH. exact H.
Qed.
Lemma pstep_perm a j n : length a = n -> Permutation a (seq 0 n) -> Permutation (pstep a j) (seq 0 (S n)).
Proof.
  intros L P. rewrite seq_S. cbn [Nat.add]. unfold pstep. rewrite L. destruct (nth_error a j) as [v|] eqn:E.
  - transitivity (a ++ [n]); [|apply Permutation_app_tail; exact P]. unfold upd. rewrite (split_nth a j v E) at 3.
    rewrite <- !app_assoc. apply Permutation_app_head. cbn [app]. transitivity ((n :: skipn (S j) a) ++ [v]); [reflexivity|].
    rewrite Permutation_app_comm. cbn [app]. apply perm_skip. apply Permutation_cons_append.
  - apply Permutation_app_tail. exact P.
Qed.
Lemma fold_pstep_perm js a n : length a = n -> Permutation a (seq 0 n) -> Permutation (fold_left pstep js a) (seq 0 (n + length js)) /\ length (fold_left pstep js a) = n + length js.
Proof.
  revert a n. induction js as [|j js IH]; intros a n L P; cbn [fold_left length]; [rewrite Nat.add_0_r; split; assumption|].
  rewrite Nat.add_succ_r, <- Nat.add_succ_l. apply IH; [rewrite pstep_length; lia|apply pstep_perm; assumption].
Qed.
Lemma shuffle_perm js out0 : length out0 = length js -> exists out, getRandomPermutation js out0 = Ok out /\ Permutation out (seq 0 (length js)).
Proof.
  intros H. exists (fold_left pstep js []). split.
  - unfold getRandomPermutation. change 0 with (length (@nil nat)) at 1. change out0 with ([] ++ out0). apply perm_loop_ok. exact H.
  - apply (fold_pstep_perm js [] 0 eq_refl). constructor.
Qed.
(** every permutation comes from exactly one choice sequence *)
Lemma nth_upd {A} (l : list A) i v k : i < length l -> nth_error (upd l i v) k = if Nat.eqb k i then Some v else nth_error l k.
Proof.
  intros H. unfold upd. destruct (Nat.eqb_spec k i) as [->|N].
  - rewrite nth_error_app2; rewrite firstn_length, Nat.min_l by lia; [|lia]. rewrite Nat.sub_diag. reflexivity.
  - revert l k H N. induction i as [|i IH]; intros l k H N.
    + destruct l as [|x l]; [cbn in H; lia|]. destruct k; [lia|]. reflexivity.
    + destruct l as [|x l]; [cbn in H; lia|]. destruct k as [|k]; [reflexivity|]. cbn [firstn app nth_error skipn]. cbn in H. apply IH; lia.
Qed.
Lemma nth_ext_error {A} (l l' : list A) : (forall i, nth_error l i = nth_error l' i) -> l = l'.
Proof.
  revert l'. induction l as [|x l IH]; intros [|y l'] H; [reflexivity|specialize (H 0); discriminate|specialize (H 0); discriminate|].
  f_equal; [specialize (H 0); injection H as ->; reflexivity|]. apply IH. intros i. apply (H (S i)).
Qed.
Lemma nth_pstep a j k : j <= length a -> (forall v, In v a -> v < length a) ->
  nth_error (pstep a j) k = if Nat.eqb k j then Some (length a) else if Nat.eqb k (length a) then nth_error a j else nth_error a k.
Proof.
  intros Hj _. unfold pstep. destruct (nth_error a j) as [v|] eqn:E.
  - assert (Lj : j < length a) by (apply nth_error_Some; congruence).
    destruct (Nat.eqb_spec k j) as [->|N1].
    + rewrite nth_error_app1 by (rewrite upd_length; lia). rewrite nth_upd, Nat.eqb_refl by exact Lj. reflexivity.
    + destruct (Nat.eqb_spec k (length a)) as [->|N2].
      * rewrite nth_error_app2; rewrite upd_length by lia; [|lia]. rewrite Nat.sub_diag. reflexivity.
      * destruct (Nat.lt_ge_cases k (length a)) as [L|L].
        -- rewrite nth_error_app1 by (rewrite upd_length; lia). rewrite nth_upd by exact Lj. rewrite (proj2 (Nat.eqb_neq _ _)) by exact N1. reflexivity.
        -- rewrite (proj2 (nth_error_None a k)) by lia. apply nth_error_None. rewrite app_length, upd_length by lia. cbn. lia.
  - apply nth_error_None in E. assert (j = length a) by lia. subst j. destruct (Nat.eqb_spec k (length a)) as [->|N].
    + rewrite nth_error_app2, Nat.sub_diag by lia. reflexivity.
    + destruct (Nat.lt_ge_cases k (length a)) as [L|L]; [rewrite nth_error_app1 by lia; reflexivity|].
      rewrite (proj2 (nth_error_None a k)) by lia. apply nth_error_None. rewrite app_length. cbn. lia.
Qed.
Lemma pstep_inj a a' j j' : length a = length a' -> j <= length a -> j' <= length a' -> (forall v, In v a -> v < length a) -> (forall v, In v a' -> v < length a') ->
  pstep a j = pstep a' j' -> j = j' /\ a = a'.
Proof.
  intros L Hj Hj' B B' E. assert (K : forall k, nth_error (pstep a j) k = nth_error (pstep a' j') k) by (intros; rewrite E; reflexivity).
  setoid_rewrite nth_pstep in K; [|assumption..]. rewrite <- L in *.
  assert (J : j = j').
  { specialize (K j). rewrite Nat.eqb_refl in K. destruct (Nat.eqb_spec j j') as [|N]; [assumption|exfalso].
    destruct (Nat.eqb_spec j (length a)) as [Ej|Ej].
    - symmetry in K. apply nth_error_In in K. specialize (B' _ K). lia.
    - symmetry in K. apply nth_error_In in K. specialize (B' _ K). lia. }
  split; [exact J|]. subst j'. apply nth_ext_error. intros k. destruct (Nat.eqb_spec k (length a)) as [->|N].
  - rewrite !(proj2 (nth_error_None _ _)) by lia. reflexivity.
  - destruct (Nat.eqb_spec k j) as [->|Nj].
    + specialize (K (length a)). rewrite (proj2 (Nat.eqb_neq (length a) j)), Nat.eqb_refl in K by lia. exact K.
    + specialize (K k). rewrite (proj2 (Nat.eqb_neq k j)), (proj2 (Nat.eqb_neq k (length a))) in K by assumption. exact K.
Qed.
Lemma perm_bound a : Permutation a (seq 0 (length a)) -> forall v, In v a -> v < length a.
Proof. intros P v I. apply (Permutation_in _ P) in I. apply in_seq in I. lia. Qed.
Lemma choices_snoc n js j : choices (S n) (js ++ [j]) <-> choices n js /\ j <= n.
Proof.
  unfold choices. rewrite app_length. cbn [length]. split.
  - intros [L H]. assert (length js = n) by lia. split; [split; [assumption|]|].
    + intros i k E. apply H. rewrite nth_error_app1; [exact E|]. apply nth_error_Some. congruence.
    + apply (H n j). rewrite nth_error_app2, H0, Nat.sub_diag by lia. reflexivity.
  - intros [[L H] Hj]. split; [lia|]. intros i k E. destruct (Nat.lt_ge_cases i (length js)) as [G|G].
    + rewrite nth_error_app1 in E by exact G. apply H. exact E.
    + rewrite nth_error_app2 in E by exact G. destruct (i - length js) as [|m] eqn:Em; [|destruct m; discriminate]. cbn in E. injection E as <-. lia.
Qed.
Lemma choices_snoc_ex n js : choices (S n) js -> exists js' j, js = js' ++ [j].
Proof. intros [L _]. destruct js as [|x l] using rev_ind; [discriminate|eauto]. Qed.
Lemma unstep p n : Permutation p (seq 0 (S n)) -> exists a j, j <= n /\ length a = n /\ Permutation a (seq 0 n) /\ pstep a j = p.
Proof.
  intros P. assert (Lp : length p = S n) by (rewrite (Permutation_length P), seq_length; reflexivity).
  assert (I : In n p) by (apply (Permutation_in n (Permutation_sym P)), in_seq; lia).
  apply In_nth_error in I. destruct I as [j Ej]. assert (Lj : j < S n) by (rewrite <- Lp; apply nth_error_Some; congruence).
  destruct (exists_last (l := p)) as (a0 & v & Ep); [destruct p; [discriminate|discriminate]|].
  assert (La : length a0 = n) by (rewrite Ep, app_length in Lp; cbn in Lp; lia).
  rewrite seq_S in P. cbn [Nat.add] in P.
  destruct (Nat.eq_dec j n) as [->|Nj].
  - rewrite Ep, nth_error_app2, La, Nat.sub_diag in Ej by lia. cbn in Ej. injection Ej as ->.
    exists a0, n. split; [lia|]. split; [exact La|]. split.
    + rewrite Ep in P. apply Permutation_app_inv_r in P. exact P.
    + unfold pstep. rewrite (proj2 (nth_error_None a0 n)) by lia. rewrite La. symmetry. exact Ep.
  - assert (Ej' : nth_error a0 j = Some n) by (rewrite Ep, nth_error_app1 in Ej by lia; exact Ej).
    exists (upd a0 j v), j. split; [lia|]. split; [rewrite upd_length; lia|]. split.
    + apply (Permutation_app_inv_r [n]). rewrite <- P, Ep. unfold upd. rewrite (split_nth a0 j n Ej') at 3.
      rewrite <- !app_assoc. apply Permutation_app_head. cbn [app].
      transitivity ((v :: skipn (S j) a0) ++ [n]); [reflexivity|]. transitivity (n :: v :: skipn (S j) a0); [symmetry; apply Permutation_cons_append|].
      apply perm_skip. apply Permutation_cons_append.
    + unfold pstep. rewrite nth_upd, Nat.eqb_refl by lia. rewrite upd_length by lia. rewrite La. rewrite Ep. f_equal.
      unfold upd. rewrite (split_nth a0 j n Ej') at 5. f_equal; [|f_equal].
      * rewrite firstn_app, firstn_firstn, Nat.min_id, firstn_length, Nat.min_l by lia. rewrite Nat.sub_diag. cbn [firstn]. apply app_nil_r.
      * rewrite skipn_app, firstn_length, Nat.min_l by lia. rewrite skipn_all2 by (rewrite firstn_length; lia). replace (S j - j) with 1 by lia. reflexivity.
Qed.
Lemma shuffle_bijection n p : Permutation p (seq 0 n) -> exists js, choices n js /\ fold_left pstep js [] = p /\ forall js', choices n js' -> fold_left pstep js' [] = p -> js' = js.
Proof.
  revert p. induction n as [|n IH]; intros p P.
  - apply Permutation_sym, Permutation_nil in P. subst p. exists []. split; [split; [reflexivity|intros [|] ? E; discriminate]|]. split; [reflexivity|].
    intros js' [L _] _. destruct js'; [reflexivity|discriminate].
  - destruct (unstep p n P) as (a & j & Hj & La & Pa & E). destruct (IH a Pa) as (js & C & F & U). exists (js ++ [j]). split; [apply choices_snoc; split; assumption|].
    split; [rewrite fold_left_app, F; exact E|]. intros js' C' F'. destruct (choices_snoc_ex n js' C') as (js1 & j1 & ->). apply choices_snoc in C'. destruct C' as [C1 J1].
    rewrite fold_left_app in F'. cbn [fold_left] in F'.
    assert (P1 : Permutation (fold_left pstep js1 []) (seq 0 n) /\ length (fold_left pstep js1 []) = n).
    { pose proof (fold_pstep_perm js1 [] 0 eq_refl (Permutation_refl _)) as K. destruct C1 as [L1 _]. rewrite L1 in K. exact K. }
    destruct P1 as [P1 L1]. rewrite <- E in F'. apply pstep_inj in F'.
    + destruct F' as [-> F']. f_equal. apply U; [exact C1|exact F'].
    + lia.
    + lia.
    + lia.
    + apply perm_bound. rewrite L1. exact P1.
    + apply perm_bound. rewrite La. exact Pa.
Qed.
Lemma getRandomPermutation_eq js out0 : length out0 = length js -> getRandomPermutation js out0 = Ok (fold_left pstep js []).
Proof. intros H. unfold getRandomPermutation. change 0 with (length (@nil nat)) at 1. change out0 with ([] ++ out0). apply perm_loop_ok. exact H. Qed.

(** ---- hash ---- *)
Local Open Scope N_scope.
Definition HMi : N := 6879827495036328381.
Lemma HM_inv : wmul HM HMi = 1. Proof. reflexivity. Qed.
Lemma hash_round_word h k : word (hash_round h k). Proof. apply wmul_word. Qed.
Lemma mixk_word k : word (wmul (N.lxor (wmul k HM) (wshr (wmul k HM) 47)) HM). Proof. apply wmul_word. Qed.
Lemma hash_round_inj_k h k k' : word h -> word k -> word k' -> hash_round h k = hash_round h k' -> k = k'.
Proof.
  intros Hh Hk Hk' E. unfold hash_round, wshr in E. cbv zeta in E.
  apply (wmul_inj HM HMi) in E; [|exact HM_inv|apply word_lxor; [exact Hh|apply wmul_word]..]. apply lxor_inj_l in E.
  apply (wmul_inj HM HMi) in E; [|exact HM_inv|apply word_lxor; [apply wmul_word|apply word_shr, wmul_word]..].
  apply (xorshift_inj 47) in E; [|reflexivity]. apply (wmul_inj HM HMi) in E; [exact E|exact HM_inv|assumption..].
Qed.
Lemma hash_round_inj_h h h' k : word h -> word h' -> hash_round h k = hash_round h' k -> h = h'.
Proof.
  intros Hh Hh' E. unfold hash_round in E. cbv zeta in E. apply (wmul_inj HM HMi) in E; [|exact HM_inv|apply word_lxor; [assumption|apply wmul_word]..].
  apply lxor_inj_r in E. exact E.
Qed.
Lemma fold_hash_word l h : word h -> word (fold_left hash_round l h).
Proof. revert h. induction l as [|k l IH]; intros h H; cbn [fold_left]; [exact H|]. apply IH, hash_round_word. Qed.
Lemma fold_hash_inj l h h' : word h -> word h' -> fold_left hash_round l h = fold_left hash_round l h' -> h = h'.
Proof.
  revert h h'. induction l as [|k l IH]; intros h h' H H' E; cbn [fold_left] in E; [exact E|].
  apply IH in E; [|apply hash_round_word..]. apply hash_round_inj_h in E; assumption.
Qed.
Definition hash0 (n : nat) (seed : N) : N := N.lxor (wadd (N.of_nat n) HM) seed.
Lemma hash0_word n seed : seed < 2 ^ 32 -> word (hash0 n seed).
Proof. intros H. apply word_lxor; [apply wadd_word|]. unfold word, W. change (2 ^ 32) with 4294967296 in H. lia. Qed.
Definition hfin (h : N) : N := let h := N.lxor h (wshr h 47) in let h := wmul h HM in N.lxor h (wshr h 47).
Lemma hash_eq data seed : hash data seed = hfin (fold_left hash_round data (hash0 (length data) seed)). Proof. reflexivity. Qed.
Lemma hfin_inj h h' : word h -> word h' -> hfin h = hfin h' -> h = h'.
Proof.
  intros H H' E. unfold hfin, wshr in E. cbv zeta in E. apply (xorshift_inj 47) in E; [|reflexivity].
  apply (wmul_inj HM HMi) in E; [|exact HM_inv|apply word_lxor; [assumption|apply word_shr; assumption]..]. apply (xorshift_inj 47) in E; [exact E|reflexivity].
Qed.
Lemma hash_word_inj pre post x y seed : seed < 2 ^ 32 -> word x -> word y -> hash (pre ++ x :: post) seed = hash (pre ++ y :: post) seed -> x = y.
Proof.
  intros Hs Hx Hy E. rewrite !hash_eq in E. rewrite !app_length in E. cbn [length] in E. set (h0 := hash0 _ seed) in E.
  assert (H0 : word h0) by (apply hash0_word; exact Hs). apply hfin_inj in E; [|apply fold_hash_word; exact H0..].
  rewrite !fold_left_app in E. cbn [fold_left] in E. apply fold_hash_inj in E; [|apply hash_round_word..].
  apply hash_round_inj_k in E; [exact E|apply fold_hash_word; exact H0|exact Hx|exact Hy].
Qed.
Lemma hash_seed_inj data s s' : s < 2 ^ 32 -> s' < 2 ^ 32 -> hash data s = hash data s' -> s = s'.
Proof.
  intros Hs Hs' E. rewrite !hash_eq in E. apply hfin_inj in E; [|apply fold_hash_word, hash0_word; assumption..].
  apply fold_hash_inj in E; [|apply hash0_word; assumption..]. unfold hash0 in E. apply lxor_inj_l in E. exact E.
Qed.
