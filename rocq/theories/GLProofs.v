(** The moments of the tabulated quadrature rules. *)
From Coquelicot Require Import Coquelicot.
From Verif Require Import Arr SplIntModel SplIntSpec SplIntProofs SplIntProofs2 GLModel.
Local Open Scope Z_scope.

(** a fixed-point computation of the moments of a rule: state (q, p, w) per point, q being p^k rounded down to a multiple of 2^-64 *)
Definition mstep (l : list (Z * Z * Z)) : list (Z * Z * Z) := map (fun t => let '(q, p, w) := t in (Z.shiftr (q * p) 64, p, w)) l.
Definition msum (l : list (Z * Z * Z)) : Z := fold_right (fun t s => let '(q, _, w) := t in w * q + s) 0 l.
Definition mok (E W : Z) (k : Z) (s : Z) : bool := Z.abs ((k + 1) * s - 2 ^ 128) <=? (k + 1) * (E - k * W).
Fixpoint mloop (fuel : nat) (E W k : Z) (l : list (Z * Z * Z)) : bool :=
  match fuel with O => true | S f => mok E W k (msum l) && mloop f E W (k + 1) (mstep l) end.
Definition wsum (l : list (Z * Z)) : Z := fold_right (fun t s => snd t + s) 0 l.
Definition in01 (l : list (Z * Z)) : bool := forallb (fun t => (0 <? fst t) && (fst t <? 2 ^ 64) && (0 <? snd t)) l.
Fixpoint incr (l : list (Z * Z)) : bool := match l with a :: (b :: _) as r => (fst a <? fst b) && incr r | _ => true end.
Definition mcheck (E : Z) (n : nat) (l : list (Z * Z)) : bool :=
  (length l =? n)%nat && in01 l && incr l && mloop (2 * n) E (wsum l) 0 (map (fun t => (2 ^ 64, fst t, snd t)) l).
(** 2.5e-16 *)
Definition Eps : Z := 2 ^ 128 / (4 * 10 ^ 15).
Definition orders : list nat := [1;2;3;4;5;6;7;8;9;10;11;12;13;14;15;16;17;18;19;20;25;32;40]%nat.
(** the rule written by prepareIntegrationTableGL: the point j comes from the point j of the table, or from the mirrored point n-1-j *)
Definition direct (n j : nat) : bool := ((j <=? n / 2) && ((n / 2 <? n - 1 - j) || (n - 1 - j <? j)))%nat.
Definition symEntry (n : nat) (l : list (Z * Z)) (j : nat) : Z * Z :=
  if direct n j then nth j l (0, 0) else let (p, w) := nth (n - 1 - j) l (0, 0) in (2 ^ 64 - p, w).
Definition symRule (n : nat) (l : list (Z * Z)) : list (Z * Z) := map (symEntry n l) (seq 0 n).
Lemma tables_ok : forallb (fun n => match glRule (Z.of_nat n) with Some l => mcheck Eps n l && mcheck Eps n (symRule n l) | None => false end) orders = true.
Proof. vm_compute. reflexivity. Qed.

Local Open Scope R_scope.
Definition rsum (l : list (Z * Z)) (k : nat) : R := fold_right (fun t s => frac64 (snd t) * frac64 (fst t) ^ k + s) 0 l.
Lemma p64 : 2 ^ 64 = IZR (2 ^ 64). Proof. exact (pow_IZR 2 64). Qed.
Lemma p128 : 2 ^ 128 = IZR (2 ^ 128). Proof. exact (pow_IZR 2 128). Qed.
Lemma p64p : 0 < 2 ^ 64. Proof. apply pow_lt. lra. Qed.
Lemma p128p : 0 < 2 ^ 128. Proof. apply pow_lt. lra. Qed.
Lemma p128_64 : 2 ^ 128 = 2 ^ 64 * 2 ^ 64. Proof. rewrite <- pow_add. reflexivity. Qed.
Definition good (t : Z * Z) : Prop := 0 < frac64 (fst t) < 1 /\ 0 < frac64 (snd t).
Lemma in01_good l : in01 l = true -> Forall good l.
Proof.
  intros H. apply Forall_forall. intros [p w] Ht. unfold in01 in H. rewrite forallb_forall in H. specialize (H _ Ht). cbn [fst snd] in *.
  rewrite !Bool.andb_true_iff, !Z.ltb_lt in H. destruct H as [[A B] C]. unfold good, frac64. cbn [fst snd]. pose proof p64p. rewrite p64 in *.
  apply IZR_lt in A, B, C. repeat split; try (apply Rdiv_lt_0_compat; assumption). apply Rmult_lt_reg_r with (IZR (2 ^ 64)); [assumption|].
  unfold Rdiv. rewrite Rmult_assoc, Rinv_l by lra. lra.
Qed.
Definition mrel (k : nat) (t : Z * Z) (u : Z * Z * Z) : Prop :=
  let '(q, p, w) := u in p = fst t /\ w = snd t /\ 0 <= frac64 p ^ k - IZR q / 2 ^ 64 <= INR k / 2 ^ 64.
Lemma mrel0 l : Forall2 (mrel 0) l (map (fun t => (2 ^ 64, fst t, snd t)%Z) l).
Proof. induction l as [|t l IH]; cbn [map]; constructor; [|exact IH]. unfold mrel. split; [reflexivity|]. split; [reflexivity|]. rewrite <- p64. pose proof p64p. cbn [pow INR]. unfold Rdiv. rewrite Rinv_r by lra. lra. Qed.
Lemma mrel_step k l u : Forall good l -> Forall2 (mrel k) l u -> Forall2 (mrel (S k)) l (mstep u).
Proof.
  intros G H. induction H as [|t [[q p] w] l u Hr Hl IH]; cbn [mstep map]; [constructor|]. inversion G as [|? ? G1 G2]; subst. constructor; [|apply IH; exact G2].
  destruct Hr as (-> & -> & [B1 B2]). unfold mrel. split; [reflexivity|]. split; [reflexivity|]. destruct G1 as ([P1 P2] & _). set (p := fst t) in *. set (f := frac64 p) in *.
  rewrite Z.shiftr_div_pow2 by lia. pose proof p64p as K. pose proof (Z.div_mod (q * p) (2 ^ 64) ltac:(lia)) as D. pose proof (Z.mod_pos_bound (q * p) (2 ^ 64) ltac:(lia)) as M.
  set (d := (q * p / 2 ^ 64)%Z) in *. set (m := ((q * p) mod 2 ^ 64)%Z) in *.
  assert (Ef : IZR p = f * 2 ^ 64) by (unfold f, frac64; field; lra).
  assert (Ed : IZR d / 2 ^ 64 = IZR q / 2 ^ 64 * f - IZR m / 2 ^ 64 / 2 ^ 64).
  { apply (f_equal IZR) in D. rewrite mult_IZR, plus_IZR, mult_IZR, <- p64, Ef in D. replace (IZR d) with ((IZR q * (f * 2 ^ 64) - IZR m) / 2 ^ 64) by (rewrite D; field; lra). field. }
  rewrite Ed. assert (M1 : 0 <= IZR m) by (apply IZR_le; lia). assert (M2 : IZR m <= 2 ^ 64) by (rewrite p64; apply IZR_le; lia).
  assert (M3 : 0 <= IZR m / 2 ^ 64 <= 1). { split; [apply Rdiv_le_0_compat; lra|]. apply Rmult_le_reg_r with (2 ^ 64); [lra|]. unfold Rdiv. rewrite Rmult_assoc, Rinv_l by lra. lra. }
  assert (M4 : 0 <= IZR m / 2 ^ 64 / 2 ^ 64 <= 1 / 2 ^ 64). { unfold Rdiv at 1 3 4. assert (0 < / 2 ^ 64) by (apply Rinv_0_lt_compat; lra). split; [apply Rmult_le_pos; lra|]. apply Rmult_le_compat_r; lra. }
  replace (f ^ S k - (IZR q / 2 ^ 64 * f - IZR m / 2 ^ 64 / 2 ^ 64)) with (f * (f ^ k - IZR q / 2 ^ 64) + IZR m / 2 ^ 64 / 2 ^ 64) by (cbn [pow]; ring).
  set (z := f ^ k - IZR q / 2 ^ 64) in *. assert (0 <= f * z <= z) by (split; [apply Rmult_le_pos; lra|]; rewrite <- (Rmult_1_l z) at 2; apply Rmult_le_compat_r; lra).
  rewrite S_INR. replace ((INR k + 1) / 2 ^ 64) with (INR k / 2 ^ 64 + 1 / 2 ^ 64) by (field; lra). lra.
Qed.
Lemma mrel_sum k l u : Forall good l -> Forall2 (mrel k) l u ->
  0 <= rsum l k - IZR (msum u) / 2 ^ 128 <= INR k * IZR (wsum l) / 2 ^ 128.
Proof.
  pose proof p64p as K. pose proof p128p as K2.
  intros G H. induction H as [|t [[q p] w] l u Hr Hl IH].
  - cbn [rsum msum wsum fold_right]. unfold Rdiv. rewrite !Rmult_0_l, Rmult_0_r. lra.
  - inversion G as [|? ? G1 G2]; subst. specialize (IH G2). destruct Hr as (-> & -> & [B1 B2]). destruct G1 as (_ & W).
    cbn [rsum msum wsum fold_right]. fold (rsum l k) (msum u) (wsum l). rewrite !plus_IZR, mult_IZR.
    set (z := frac64 (fst t) ^ k - IZR q / 2 ^ 64) in *. assert (Ew : IZR (snd t) = frac64 (snd t) * 2 ^ 64) by (unfold frac64; field; lra).
    replace (frac64 (snd t) * frac64 (fst t) ^ k + rsum l k - (IZR (snd t) * IZR q + IZR (msum u)) / 2 ^ 128)
      with (frac64 (snd t) * z + (rsum l k - IZR (msum u) / 2 ^ 128)) by (unfold z; rewrite Ew, p128_64; field; lra).
    replace (INR k * (IZR (snd t) + IZR (wsum l)) / 2 ^ 128) with (frac64 (snd t) * (INR k / 2 ^ 64) + INR k * IZR (wsum l) / 2 ^ 128) by (rewrite Ew, p128_64; field; lra).
    assert (0 <= frac64 (snd t) * z) by (apply Rmult_le_pos; lra). assert (frac64 (snd t) * z <= frac64 (snd t) * (INR k / 2 ^ 64)) by (apply Rmult_le_compat_l; lra). lra.
Qed.
Lemma mloop_ok E l : Forall good l -> forall fuel k u, Forall2 (mrel k) l u -> mloop fuel E (wsum l) (Z.of_nat k) u = true ->
  forall j, (k <= j < k + fuel)%nat -> Rabs (rsum l j - 1 / INR (j + 1)) <= IZR E / 2 ^ 128.
Proof.
  intros G. induction fuel as [|f IH]; intros k u Hu Hm j Hj; [lia|]. cbn [mloop] in Hm. apply Bool.andb_true_iff in Hm. destruct Hm as [H1 H2].
  destruct (Nat.eq_dec j k) as [->|NE].
  - pose proof (mrel_sum k l u G Hu) as B. unfold mok in H1. apply Z.leb_le in H1. pose proof p128p as K.
    assert (Hk : 0 < INR (k + 1)) by (apply lt_0_INR; lia). assert (Ek : IZR (Z.of_nat k + 1) = INR (k + 1)) by (rewrite INR_IZR_INZ; f_equal; lia).
    apply IZR_le in H1. rewrite abs_IZR, minus_IZR, !mult_IZR, minus_IZR, mult_IZR, Ek, <- p128, <- INR_IZR_INZ in H1.
    set (s := IZR (msum u)) in *. set (W := IZR (wsum l)) in *.
    assert (A : Rabs (s / 2 ^ 128 - 1 / INR (k + 1)) <= (IZR E - INR k * W) / 2 ^ 128).
    { replace (s / 2 ^ 128 - 1 / INR (k + 1)) with ((INR (k + 1) * s - 2 ^ 128) / (INR (k + 1) * 2 ^ 128)) by (field; lra).
      unfold Rdiv at 1. rewrite Rabs_mult. rewrite (Rabs_pos_eq (/ _)) by (apply Rlt_le, Rinv_0_lt_compat, Rmult_lt_0_compat; lra).
      replace ((IZR E - INR k * W) / 2 ^ 128) with (INR (k + 1) * (IZR E - INR k * W) * / (INR (k + 1) * 2 ^ 128)) by (field; lra).
      apply Rmult_le_compat_r; [apply Rlt_le, Rinv_0_lt_compat, Rmult_lt_0_compat; lra|exact H1]. }
    replace (IZR E / 2 ^ 128) with ((IZR E - INR k * W) / 2 ^ 128 + INR k * W / 2 ^ 128) by (field; lra).
    apply Rabs_le_between in A. apply Rabs_le_between. lra.
  - apply (IH (S k) (mstep u)); [apply mrel_step; assumption| |lia]. replace (Z.of_nat (S k)) with (Z.of_nat k + 1)%Z by lia. exact H2.
Qed.
Lemma incr_nth l : incr l = true -> forall i j, (i < j < length l)%nat -> frac64 (fst (nth i l (0, 0)%Z)) < frac64 (fst (nth j l (0, 0)%Z)).
Proof.
  intros H. assert (S1 : forall j, (S j < length l)%nat -> frac64 (fst (nth j l (0, 0)%Z)) < frac64 (fst (nth (S j) l (0, 0)%Z))).
  { revert H. induction l as [|a [|b r] IH]; intros H j Hj; [cbn in Hj; lia|cbn in Hj; lia|]. cbn [incr] in H. apply Bool.andb_true_iff in H. destruct H as [H1 H2].
    destruct j as [|j].
    - cbn [nth]. apply Z.ltb_lt, IZR_lt in H1. unfold frac64, Rdiv. apply Rmult_lt_compat_r; [apply Rinv_0_lt_compat, p64p|exact H1].
    - apply (IH H2 j). cbn [length] in *. lia. }
  intros i j. induction j as [|j IH]; intros [A B]; [lia|]. destruct (Nat.eq_dec i j) as [->|NE]; [apply S1; exact B|]. eapply Rlt_trans; [apply IH; lia|apply S1; exact B].
Qed.
Lemma rsum_zsum l k : rsum l k = zsum 0 (Z.of_nat (length l)) (fun j => frac64 (snd (nth (Z.to_nat j) l (0, 0)%Z)) * frac64 (fst (nth (Z.to_nat j) l (0, 0)%Z)) ^ k).
Proof.
  induction l as [|t l IH]; [reflexivity|]. cbn [length rsum fold_right]. fold (rsum l k). rewrite IH. rewrite (zsum_first 0 (Z.of_nat (S (length l)))) by lia. f_equal.
  unfold zsum. replace (Z.to_nat (Z.of_nat (S (length l)) - (0 + 1))) with (Z.to_nat (Z.of_nat (length l) - 0)) by lia. generalize (Z.to_nat (Z.of_nat (length l) - 0)) as m. intros m.
  assert (Q : forall m i, (0 <= i)%Z -> zsumn m i (fun j => frac64 (snd (nth (Z.to_nat j) l (0, 0)%Z)) * frac64 (fst (nth (Z.to_nat j) l (0, 0)%Z)) ^ k) =
     zsumn m (i + 1) (fun j => frac64 (snd (nth (Z.to_nat j) (t :: l) (0, 0)%Z)) * frac64 (fst (nth (Z.to_nat j) (t :: l) (0, 0)%Z)) ^ k)).
  { clear. induction m as [|m IH]; intros i Hi; [reflexivity|]. cbn [zsumn]. rewrite IH by lia. f_equal. replace (Z.to_nat (i + 1)) with (S (Z.to_nat i)) by lia. reflexivity. }
  apply Q. lia.
Qed.
Definition eps_gl : R := 25 / 10 ^ 17.
Lemma Eps_le : IZR Eps / 2 ^ 128 <= eps_gl.
Proof.
  pose proof p128p. pose proof (Z.mul_div_le (2 ^ 128) (4 * 10 ^ 15) ltac:(lia)) as A. fold Eps in A. apply IZR_le in A. rewrite mult_IZR, <- p128 in A.
  apply Rmult_le_reg_r with (2 ^ 128); [assumption|]. unfold Rdiv at 1. rewrite Rmult_assoc, Rinv_l by lra. unfold eps_gl.
  replace (IZR (4 * 10 ^ 15)) with (4 * 10 ^ 15) in A by (rewrite mult_IZR, (pow_IZR 10 15); reflexivity). replace (25 / 10 ^ 17) with (/ (4 * 10 ^ 15)) by field.
  apply Rmult_le_reg_l with (4 * 10 ^ 15); [lra|]. rewrite <- (Rmult_assoc _ (/ _)), Rinv_r, Rmult_1_l by lra. rewrite Rmult_1_r. exact A.
Qed.
(** what is true of each rule found correct by the computation *)
Lemma mcheck_ok n l : mcheck Eps n l = true -> length l = n /\
  (forall j, (j < n)%nat -> 0 < frac64 (fst (nth j l (0, 0)%Z)) < 1 /\ 0 < frac64 (snd (nth j l (0, 0)%Z))) /\
  (forall i j, (i < j < n)%nat -> frac64 (fst (nth i l (0, 0)%Z)) < frac64 (fst (nth j l (0, 0)%Z))) /\
  (forall k, (k < 2 * n)%nat -> Rabs (zsum 0 (Z.of_nat n) (fun j => frac64 (snd (nth (Z.to_nat j) l (0, 0)%Z)) * frac64 (fst (nth (Z.to_nat j) l (0, 0)%Z)) ^ k) - 1 / INR (k + 1)) <= eps_gl).
Proof.
  intros H. unfold mcheck in H. rewrite !Bool.andb_true_iff in H. destruct H as [[[L G] I] M]. apply Nat.eqb_eq in L. apply in01_good in G. subst n.
  split; [reflexivity|]. split; [|split].
  - intros j Hj. rewrite Forall_forall in G. exact (G _ (nth_In l (0, 0)%Z Hj)).
  - intros i j Hij. apply incr_nth; assumption.
  - intros k Hk. rewrite <- rsum_zsum. eapply Rle_trans; [|apply Eps_le]. apply (mloop_ok Eps l G (2 * length l) 0 _ (mrel0 l) M). lia.
Qed.
