(** Proofs about grids. *)
From Coq Require Import Reals Lra Lia ZArith List Psatz.
From Verif Require Import Arr PolyProofs RootModel RootProofs GridModel GridSpec SplineSpec.
Local Open Scope R_scope.

Lemma Zlt_f a b : (b <= a)%Z -> (a <? b)%Z = false. Proof. intros. apply Z.ltb_ge. lia. Qed.
Lemma inc_steps (g : arr R) : (forall i, (0 <= i < alen g - 1)%Z -> afn g i < afn g (i + 1)%Z) -> increasing g.
Proof.
  intros H i j Hi Hj. assert (G : forall k : nat, (i + 1 + Z.of_nat k < alen g)%Z -> afn g i < afn g (i + 1 + Z.of_nat k)%Z).
  { induction k as [|k IH]; intros Hk; [replace (i + 1 + Z.of_nat 0)%Z with (i + 1)%Z by lia; apply H; lia|].
    apply Rlt_trans with (afn g (i + 1 + Z.of_nat k)%Z); [apply IH; lia|]. replace (i + 1 + Z.of_nat (S k))%Z with (i + 1 + Z.of_nat k + 1)%Z by lia. apply H. lia. }
  specialize (G (Z.to_nat (j - i - 1))). replace (i + 1 + Z.of_nat (Z.to_nat (j - i - 1)))%Z with j in G by lia. apply G. lia.
Qed.

(** ---- filling an array ---- *)
Lemma fill {A} (lo hi d : Z) (v : Z -> A) (g : arr A) : (lo <= hi)%Z -> (0 <= lo + d)%Z -> (hi + d <= alen g)%Z ->
  exists g', for_ lo hi (fun i g => aset g (i + d) (v i)) g = Ok g' /\ alen g' = alen g /\
    (forall i, (lo <= i < hi)%Z -> afn g' (i + d)%Z = v i) /\ (forall i, (i < lo + d \/ hi + d <= i)%Z -> afn g' i = afn g i).
Proof.
  intros H0 H1 H2.
  destruct (for_total (fun k g' => alen g' = alen g /\ (forall i, (lo <= i < k)%Z -> afn g' (i + d)%Z = v i) /\ (forall i, (i < lo + d \/ k + d <= i)%Z -> afn g' i = afn g i))
    lo hi (fun i g => aset g (i + d) (v i)) g) as (g' & E & L & V & O).
  - exact H0.
  - split; [reflexivity|]. split; [intros; lia|auto].
  - intros k g' Hk (L & V & O). rewrite aset_ok by lia. eexists. split; [reflexivity|]. cbn [alen afn]. split; [exact L|]. split.
    + intros i Hi. destruct (Z.eq_dec i k) as [-> | N]; [apply upd_same|]. rewrite upd_other by lia. apply V. lia.
    + intros i Hi. rewrite upd_other by lia. apply O. lia.
  - exists g'. auto.
Qed.
Lemma fill0 {A} (lo hi : Z) (v : Z -> A) (g : arr A) : (lo <= hi)%Z -> (0 <= lo)%Z -> (hi <= alen g)%Z ->
  exists g', for_ lo hi (fun i g => aset g i (v i)) g = Ok g' /\ alen g' = alen g /\
    (forall i, (lo <= i < hi)%Z -> afn g' i = v i) /\ (forall i, (i < lo \/ hi <= i)%Z -> afn g' i = afn g i).
Proof.
  intros H0 H1 H2.
  destruct (for_total (fun k g' => alen g' = alen g /\ (forall i, (lo <= i < k)%Z -> afn g' i = v i) /\ (forall i, (i < lo \/ k <= i)%Z -> afn g' i = afn g i))
    lo hi (fun i g => aset g i (v i)) g) as (g' & E & L & V & O).
  - exact H0.
  - split; [reflexivity|]. split; [intros; lia|auto].
  - intros k g' Hk (L & V & O). rewrite aset_ok by lia. eexists. split; [reflexivity|]. cbn [alen afn]. split; [exact L|]. split.
    + intros i Hi. destruct (Z.eq_dec i k) as [-> | N]; [apply upd_same|]. rewrite upd_other by lia. apply V. lia.
    + intros i Hi. rewrite upd_other by lia. apply O. lia.
  - exists g'. auto.
Qed.

Lemma uniform_ok n a b : (2 <= n)%Z -> a < b ->
  exists g, createUniformGrid n a b = Ok g /\ alen g = n /\ forall i, (0 <= i < n)%Z -> afn g i = a + (b - a) * IZR i / IZR (n - 1).
Proof.
  intros Hn Hab. unfold createUniformGrid. rewrite Zlt_f, Rle_b_f by (lra || lia). cbn [orb].
  assert (P : 0 < IZR (n - 1)) by (apply IZR_lt; lia).
  destruct (fill0 1 (n - 1) (fun k => (a * IZR (n - 1 - k) + b * IZR k) / IZR (n - 1)) (anew n 0)) as (g & -> & L & V & O); [lia..|cbn; lia|]. cbn [bind]. cbn [alen anew] in L.
  rewrite aset_ok by lia. cbn [bind]. rewrite aset_ok by (cbn; lia). eexists. split; [reflexivity|]. cbn [alen afn]. split; [exact L|]. intros i Hi.
  destruct (Z.eq_dec i (n - 1)) as [-> | N]; [rewrite upd_same; field; lra|]. rewrite upd_other by lia. destruct (Z.eq_dec i 0) as [-> | N0]; [rewrite upd_same; field; lra|].
  rewrite upd_other, V by lia. replace (n - 1 - i)%Z with (n - 1 + - i)%Z by lia. rewrite plus_IZR, opp_IZR. field. lra.
Qed.
Lemma exp_ok n a b : (2 <= n)%Z -> 0 < a -> a < b ->
  exists g, createExpGrid n a b = Ok g /\ alen g = n /\ afn g 0%Z = a /\ afn g (n - 1)%Z = b /\ forall i, (0 <= i < n)%Z -> afn g i = exp (ln a + IZR i * (ln b - ln a) / IZR (n - 1)).
Proof.
  intros Hn Ha Hab. unfold createExpGrid. rewrite Zlt_f, !Rle_b_f by (lra || lia). cbn [orb].
  assert (P : 0 < IZR (n - 1)) by (apply IZR_lt; lia).
  rewrite aset_ok by (cbn; lia). cbn [bind]. rewrite aset_ok by (cbn; lia). cbn [bind].
  edestruct (fill0 1 (n - 1) (fun k => exp (ln a + IZR k * (ln b - ln a) / IZR (n - 1)))) as (g & E & L & V & O); [lia | lia | | rewrite E ]; [cbn; lia|]. cbn [alen anew] in L.
  exists g. split; [reflexivity|]. split; [exact L|].
  assert (G0 : afn g 0%Z = a). { rewrite O by lia. cbn [afn]. rewrite upd_other by lia. apply upd_same. }
  assert (G1 : afn g (n - 1)%Z = b). { rewrite O by lia. cbn [afn]. apply upd_same. }
  split; [exact G0|]. split; [exact G1|]. intros i Hi.
  destruct (Z.eq_dec i (n - 1)) as [-> | N]; [rewrite G1; replace (ln a + IZR (n - 1) * (ln b - ln a) / IZR (n - 1)) with (ln b) by (field; lra); symmetry; apply exp_ln; lra|].
  destruct (Z.eq_dec i 0) as [-> | N0]; [rewrite G0; replace (ln a + 0 * (ln b - ln a) / IZR (n - 1)) with (ln a) by (field; lra); symmetry; apply exp_ln; lra|]. apply V. lia.
Qed.

(** ---- sums of geometric progressions: GS m A = 1 + e^A + ... + e^(A(m-1)) ---- *)
Fixpoint GS (m : nat) (A : R) : R := match m with O => 0 | S m => GS m A + exp (A * INR m) end.
Lemma GS_formula m A : GS m A * (exp A - 1) = exp (A * INR m) - 1.
Proof.
  induction m as [|m IH]; [cbn [GS INR]; rewrite Rmult_0_r, exp_0; ring|]. cbn [GS]. rewrite Rmult_plus_distr_r, IH, S_INR, Rmult_plus_distr_l, exp_plus, Rmult_1_r. ring.
Qed.
Lemma GS_pos m A : 0 <= GS m A.
Proof. induction m as [|m IH]; cbn [GS]; [lra|]. pose proof (exp_pos (A * INR m)). lra. Qed.
Lemma exp_le x y : x <= y -> exp x <= exp y.
Proof. intros [H| ->]; [left; apply exp_increasing; exact H|right; reflexivity]. Qed.
Lemma GS_mono m A B : A <= B -> GS m A <= GS m B.
Proof. intros H. induction m as [|m IH]; cbn [GS]; [lra|]. apply Rplus_le_compat; [exact IH|]. apply exp_le. apply Rmult_le_compat_r; [apply pos_INR|exact H]. Qed.
(** the sum grows at most as fast as the last term *)
Lemma GS_shift m A d : 0 <= d -> GS (S m) (A + d) <= exp (INR m * d) * GS (S m) A.
Proof.
  intros Hd. assert (G : forall k, (k <= S m)%nat -> GS k (A + d) <= exp (INR m * d) * GS k A).
  { induction k as [|k IH]; intros Hk; cbn [GS]; [lra|]. rewrite Rmult_plus_distr_l. apply Rplus_le_compat; [apply IH; lia|].
    rewrite <- exp_plus. apply exp_le. assert (INR k <= INR m) by (apply le_INR; lia). nra. }
  apply G. lia.
Qed.
Lemma GS_last m A : 0 <= A -> GS m A <= INR m * exp (A * (INR m - 1)).
Proof.
  intros HA. assert (G : forall k, (k <= m)%nat -> GS k A <= INR k * exp (A * (INR m - 1))).
  { induction k as [|k IH]; intros Hk; cbn [GS]; [cbn; lra|]. rewrite S_INR. assert (exp (A * INR k) <= exp (A * (INR m - 1))). { apply exp_le. apply Rmult_le_compat_l; [exact HA|]. assert (INR (k + 1) <= INR m) by (apply le_INR; lia). rewrite plus_INR in H. cbn in H. lra. }
    specialize (IH ltac:(lia)). lra. }
  apply G. lia.
Qed.
Lemma GS_neg m A : A <= 0 -> GS m A <= INR m.
Proof.
  intros HA. induction m as [|m IH]; [cbn; lra|]. cbn [GS]. rewrite S_INR. assert (exp (A * INR m) <= 1); [|lra]. rewrite <- exp_0. apply exp_le. pose proof (pos_INR m). nra.
Qed.
Lemma exp_ge1 x : 1 + x <= exp x.
Proof. destruct (Req_dec x 0) as [-> | N]; [rewrite exp_0; lra|]. left. apply exp_ineq1. exact N. Qed.
Lemma exp_le2 x : x <= 1 / 2 -> exp x <= 1 + x + 2 * x ^ 2.
Proof.
  intros L. pose proof (exp_ge1 (- x)) as G. pose proof (exp_pos x) as P. assert (E : exp x * exp (- x) = 1) by (rewrite <- exp_plus; replace (x + - x) with 0 by ring; apply exp_0).
  assert (exp x * (1 - x) <= 1) by nra. assert (0 <= x ^ 2 * (1 - 2 * x)) by (apply Rmult_le_pos; [apply pow2_ge_0|lra]).
  apply (Rmult_le_reg_r (1 - x)); [lra|]. nra.
Qed.
Lemma GS_taylor_lo m A : INR m + 1 / 2 * A * INR m * (INR m - 1) <= GS m A.
Proof. induction m as [|m IH]; [cbn; lra|]. cbn [GS]. rewrite S_INR. pose proof (exp_ge1 (A * INR m)). lra. Qed.
Lemma GS_taylor_hi m A : Rabs A * INR m <= 1 / 2 -> GS m A <= INR m + 1 / 2 * A * INR m * (INR m - 1) + 2 * A ^ 2 * INR m ^ 3.
Proof.
  induction m as [|m IH]; intros H; [cbn; lra|]. pose proof (pos_INR m) as P. pose proof (Rabs_pos A) as PA. rewrite S_INR in H. specialize (IH ltac:(nra)). cbn [GS]. rewrite S_INR.
  assert (E : A * INR m <= 1 / 2) by (pose proof (Rle_abs A); nra). pose proof (exp_le2 _ E) as X.
  assert (0 <= 2 * A ^ 2 * (2 * INR m ^ 2 + 3 * INR m + 1)). { apply Rmult_le_pos; [pose proof (pow2_ge_0 A); lra|nra]. }
  replace ((A * INR m) ^ 2) with (A ^ 2 * INR m ^ 2) in X by ring. lra.
Qed.

(** ---- the root finder ---- *)
Lemma exact_is_b F tol : forall n s l r pts x b c, rootLoop F tol n s l = (r, pts) -> r = Some (x, Exact, b, c) -> x = b.
Proof.
  induction n as [|n IH]; intros s l r pts x b c L E; cbn [rootLoop] in L; cbv zeta in L; [injection L as <- <-; discriminate|].
  destruct (_ || _)%bool in L; [injection L as <- <-; injection E; congruence|]. destruct (chooseStep _ _ _) in L. destruct (F _) as [[fbn|] dbn] in L; [|injection L as <- <-; discriminate].
  destruct (Rle_b _ _) in L; [injection L as <- <-; discriminate|]. destruct (match db _ with DNan | _ => _ end) in L; [injection L as <- <-; discriminate|]. apply (IH _ _ _ _ _ _ _ L E).
Qed.
Lemma maxiter_pts F tol : forall n s l r pts x b c, rootLoop F tol n s l = (r, pts) -> r = Some (x, MaxIter, b, c) -> length pts = (n + length l)%nat.
Proof.
  induction n as [|n IH]; intros s l r pts x b c L E; cbn [rootLoop] in L; cbv zeta in L; [injection L as <- <-; reflexivity|].
  destruct (_ || _)%bool in L; [injection L as <- <-; discriminate|]. destruct (chooseStep _ _ _) in L. destruct (F _) as [[fbn|] dbn] in L; [|injection L as <- <-; discriminate].
  destruct (Rle_b _ _) in L; [injection L as <- <-; discriminate|]. destruct (match db _ with DNan | _ => _ end) in L; [injection L as <- <-; discriminate|]. rewrite (IH _ _ _ _ _ _ _ L E). cbn [length]. lia.
Qed.
(** a function without derivatives that changes sign: the result lies between two points at most tol apart where the function has opposite signs *)
Lemma find_bracket g x1 x2 rel : x1 < x2 -> g x1 < 0 -> 0 < g x2 -> 0 < rel ->
  exists x why b c, fst (findRoot (fun x => (Some (g x), DNan)) x1 x2 rel) = Some (x, why, b, c) /\ x1 <= x <= x2 /\ (length (snd (findRoot (fun x => (Some (g x), DNan)) x1 x2 rel)) = 66%nat \/
   exists u v, x1 <= u <= x2 /\ x1 <= v <= x2 /\ g u <= 0 /\ 0 <= g v /\ (u <= x <= v \/ v <= x <= u) /\ Rabs (u - v) <= rel * (x2 - x1) + DBL_EPSILON * Rmax (Rabs x1) (Rabs x2)).
Proof.
  intros H12 G1 G2 Hr. set (F := fun x => (Some (g x), DNan)).
  assert (P : forall x, In x (x2 :: x1 :: nil) -> x1 <= x <= x2) by (intros x [<-|[<-|[]]]; lra).
  unfold findRoot. unfold F at 1 2 4 5. cbv beta iota.
  rewrite (Rlt_b_t (g x1) 0 G1), (Rlt_b_f (g x2) 0) by lra. rewrite (Rlt_b_f 0 (g x1)) by lra. cbn [andb orb]. rewrite (Req_b_f (g x1) 0), (Req_b_f (g x2) 0) by lra.
  set (s0 := swapBC _). destruct (rootLoop F (Rabs (x1 - x2) * rel) MAXITER s0 (x2 :: x1 :: nil)) as [r pts] eqn:L.
  assert (I : inv F x1 x2 s0). { unfold s0. apply swap_inv; cbn [sb sc fb fc db dc]; try reflexivity; try lra. nra. }
  destruct (rootLoop_ok F _ _ _ MAXITER _ _ _ _ I P L) as (G3 & G4 & G5 & G6).
  destruct r as [[[[x why] b] c]|]; [|exfalso; apply G6; [discriminate|reflexivity]].
  exists x, why, b, c. split; [reflexivity|]. destruct G3 as (A1 & A2 & A3 & fb0 & fc0 & A4 & A5 & A6 & A7). unfold F in A4, A5. cbn [fst] in A4, A5. injection A4 as <-. injection A5 as <-.
  split; [apply (between_within _ _ _ _ _ A1 A2 A3)|].
  assert (EP : 0 < DBL_EPSILON) by (apply Rinv_0_lt_compat, pow_lt; lra). assert (MB : Rabs b <= Rmax (Rabs x1) (Rabs x2)).
  { pose proof (Rmax_l (Rabs x1) (Rabs x2)). pose proof (Rmax_r (Rabs x1) (Rabs x2)). revert H H0. unfold Rabs at 3 7. unfold Rabs. destruct (Rcase_abs x1), (Rcase_abs x2), (Rcase_abs b); lra. }
  assert (M0 : 0 <= DBL_EPSILON * Rmax (Rabs x1) (Rabs x2)) by (pose proof (Rabs_pos b); nra). assert (D0 : 0 <= rel * (x2 - x1)) by nra.
  assert (FIN : Rabs (b - c) <= rel * (x2 - x1) + DBL_EPSILON * Rmax (Rabs x1) (Rabs x2) ->
     exists u v, x1 <= u <= x2 /\ x1 <= v <= x2 /\ g u <= 0 /\ 0 <= g v /\ (u <= x <= v \/ v <= x <= u) /\ Rabs (u - v) <= rel * (x2 - x1) + DBL_EPSILON * Rmax (Rabs x1) (Rabs x2)).
  { intros D. apply between_iff in A3. assert (B : b <= x <= c \/ c <= x <= b) by (destruct A3; lra). destruct (Rle_dec (g b) 0) as [K|K].
    - destruct (Rle_dec 0 (g c)) as [K2|K2]; [exists b, c; repeat split; try tauto; lra|]. assert (g b = 0) by nra. exists c, b. rewrite Rabs_minus_sym. repeat split; try tauto; lra.
    - assert (g c <= 0) by nra. exists c, b. rewrite Rabs_minus_sym. repeat split; try tauto; lra. }
  destruct why.
  - right. pose proof (exact_is_b _ _ _ _ _ _ _ _ _ _ L eq_refl) as ->. destruct A7 as [A7|[_ A7]].
    + exists b, b. replace (b - b) with 0 by ring. rewrite Rabs_R0. repeat split; try lra; tauto.
    + apply FIN. rewrite Rabs_minus_sym. nra.
  - right. apply FIN. rewrite Rabs_minus_sym in A7 at 1. rewrite Rabs_minus_sym. rewrite (Rabs_minus_sym x1 x2), (Rabs_right (x2 - x1)) in A7 by lra. lra.
  - destruct A7 as (_ & d & A7 & _). discriminate A7.
  - left. cbn [snd]. rewrite (maxiter_pts _ _ _ _ _ _ _ _ _ _ L eq_refl). reflexivity.
Qed.
