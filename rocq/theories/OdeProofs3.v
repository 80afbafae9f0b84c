From Coq Require Import Reals Lra Lia ZArith QArith Qreals List Bool FunctionalExtensionality.
From Coquelicot Require Import Coquelicot.
From Verif Require Import RandReal PolyModel PolyProofs OdeModel OdeProofs OdeProofs2 OdeSpec.
Import ListNotations.
Local Open Scope R_scope.

Lemma vsum_S n f : vsum (S n) f = f O + vsum n (fun m => f (S m)).
Proof. induction n; [simpl; ring|]. change (vsum (S (S n)) f) with (vsum (S n) f + f (S n)). rewrite IHn. simpl. ring. Qed.
Lemma vsum_zero n : vsum n (fun _ => 0) = 0. Proof. induction n; simpl; [reflexivity|]. rewrite IHn. ring. Qed.
Lemma rep_vsum l : forall n e h i, (length l <= n)%nat -> rep l e h i = vsum n (fun m => IZR (nth m l 0%Z) * h ^ m * e m i).
Proof.
  induction l as [|z l IH]; intros n e h i Hn.
  - cbn [rep]. rewrite (vsum_ext n _ (fun _ => 0)). { symmetry. apply vsum_zero. } intros m _. destruct m; simpl; ring.
  - destruct n; [simpl in Hn; lia|]. cbn [rep]. rewrite vsum_S. cbn [nth pow]. rewrite (IH n) by (simpl in Hn; lia). rewrite <- vsum_scal.
    rewrite (vsum_ext n (fun m => IZR (nth m l 0%Z) * (h * h ^ m) * e (S m) i) (fun m => h * (IZR (nth m l 0%Z) * h ^ m * e (S m) i))) by (intros; ring). ring.
Qed.

(** integer checks: z / S^(m+1) is close to 1/F *)
Definition zclose (tol : Z) (F z : Z) (m : nat) : bool := (Z.abs (F * z - SC ^ Z.of_nat (S m)) * tol <=? F * SC ^ Z.of_nat (S m))%Z.
Lemma SC_pow m : IZR (SC ^ Z.of_nat m) = SR ^ m. Proof. unfold SR. rewrite pow_IZR. reflexivity. Qed.
Lemma zclose_ok tol F z m : (0 < tol)%Z -> (0 < F)%Z -> zclose tol F z m = true -> Rabs (IZR z / SR ^ S m - / IZR F) <= / IZR tol.
Proof.
  intros Ht HF H. apply Z.leb_le, IZR_le in H. apply IZR_lt in Ht, HF. rewrite !mult_IZR, abs_IZR, minus_IZR, mult_IZR, SC_pow in H.
  assert (P : 0 < SR ^ S m) by (apply pow_lt, SR_pos). set (X := SR ^ S m) in *.
  replace (IZR z / X - / IZR F) with ((IZR F * IZR z - X) / (IZR F * X)) by (field; lra).
  unfold Rdiv. rewrite Rabs_mult, (Rabs_right (/ _)). 2:{ apply Rle_ge. left. apply Rinv_0_lt_compat. nra. }
  change (?a * / ?b) with (a / b). apply div_le. { nra. } apply Rmult_le_reg_r with (IZR tol); [lra|].
  replace (/ IZR tol * (IZR F * X) * IZR tol) with (IZR F * X) by (field; lra). lra.
Qed.
Definition zsmall (tol : Z) (z : Z) (m : nat) : bool := (Z.abs z * tol <=? SC ^ Z.of_nat (S m))%Z.
Lemma zsmall_ok tol z m : (0 < tol)%Z -> zsmall tol z m = true -> Rabs (IZR z / SR ^ S m) <= / IZR tol.
Proof.
  intros Ht H. apply Z.leb_le, IZR_le in H. apply IZR_lt in Ht. rewrite !mult_IZR, abs_IZR, SC_pow in H.
  assert (P : 0 < SR ^ S m) by (apply pow_lt, SR_pos). set (X := SR ^ S m) in *.
  unfold Rdiv. rewrite Rabs_mult, (Rabs_right (/ _)). 2:{ apply Rle_ge. left. apply Rinv_0_lt_compat. lra. }
  change (?a * / ?b) with (a / b). apply div_le; [lra|]. apply Rmult_le_reg_r with (IZR tol); [lra|].
  replace (/ IZR tol * X * IZR tol) with X by (field; lra). lra.
Qed.

(** the interpolating polynomial in powers of p *)
Lemma hn_mono a1 a2 a3 a4 a5 a6 a7 p : hn a1 a2 a3 a4 a5 a6 a7 p =
  (a1 + a2) * p + (- a2 + a3 + a4) * p ^ 2 + (- a3 - 2 * a4 + a5 + a6) * p ^ 3 + (a4 - 2 * a5 - 3 * a6 + a7) * p ^ 4
  + (a5 + 3 * a6 - 3 * a7) * p ^ 5 + (- a6 + 3 * a7) * p ^ 6 + (- a7) * p ^ 7.
Proof. unfold hn. ring. Qed.
Definition zmono (a1 a2 a3 a4 a5 a6 a7 : Z) : list Z :=
  [a1 + a2; - a2 + a3 + a4; - a3 - 2 * a4 + a5 + a6; a4 - 2 * a5 - 3 * a6 + a7; a5 + 3 * a6 - 3 * a7; - a6 + 3 * a7; - a7]%Z.
Definition zhn (a1 a2 a3 a4 a5 a6 a7 : Z) : R -> R := hn (IZR a1) (IZR a2) (IZR a3) (IZR a4) (IZR a5) (IZR a6) (IZR a7).
Lemma zhn_sum a1 a2 a3 a4 a5 a6 a7 p : zhn a1 a2 a3 a4 a5 a6 a7 p = vsum 7 (fun j => IZR (nth j (zmono a1 a2 a3 a4 a5 a6 a7) 0%Z) * p ^ S j).
Proof.
  unfold zhn. rewrite hn_mono. cbn [vsum nth zmono]. rewrite ?plus_IZR, ?minus_IZR, ?plus_IZR, ?mult_IZR, ?opp_IZR.
  repeat rewrite ?plus_IZR, ?minus_IZR, ?mult_IZR, ?opp_IZR. ring.
Qed.
Definition zclose_poly (tol F : Z) (l : list Z) (m : nat) : bool :=
  (fold_right Z.add 0 (map (fun j => Z.abs (F * nth j l 0 - (if Nat.eqb j m then SC ^ Z.of_nat (S m) else 0))) (seq 0 7)) * tol <=? F * SC ^ Z.of_nat (S m))%Z.
Lemma fold_seq_vsum (f : nat -> Z) n : forall a, IZR (fold_right Z.add 0%Z (map f (seq a n))) = vsum n (fun j => IZR (f (a + j)%nat)).
Proof.
  induction n; intros a; [reflexivity|]. rewrite vsum_S. cbn [seq map fold_right]. rewrite plus_IZR, IHn, Nat.add_0_r. f_equal. apply vsum_ext. intros. do 2 f_equal. lia.
Qed.
Lemma zclose_poly_ok tol F a1 a2 a3 a4 a5 a6 a7 m p : (0 < tol)%Z -> (0 < F)%Z -> (m < 7)%nat -> 0 <= p <= 1 ->
  zclose_poly tol F (zmono a1 a2 a3 a4 a5 a6 a7) m = true -> Rabs (zhn a1 a2 a3 a4 a5 a6 a7 p / SR ^ S m - p ^ S m / IZR F) <= / IZR tol.
Proof.
  intros Ht HF Hm Hp H. rewrite zhn_sum. set (l := zmono a1 a2 a3 a4 a5 a6 a7) in *. unfold zclose_poly in H. apply Z.leb_le, IZR_le in H.
  rewrite mult_IZR, fold_seq_vsum, mult_IZR, SC_pow in H. apply IZR_lt in Ht, HF. cbn [Nat.add] in H.
  assert (P : 0 < SR ^ S m) by (apply pow_lt, SR_pos).
  set (X := SR ^ S m) in *. 
  assert (E : vsum 7 (fun j => (IZR F * IZR (nth j l 0%Z) - (if Nat.eqb j m then X else 0)) * p ^ S j) = IZR F * vsum 7 (fun j => IZR (nth j l 0%Z) * p ^ S j) - X * p ^ S m).
  { clear H. cbn [vsum]. do 7 (destruct m as [|m]; [cbn [Nat.eqb]; ring|]). exfalso. lia. }
  replace (vsum 7 (fun j => IZR (nth j l 0%Z) * p ^ S j) / X - p ^ S m / IZR F) with ((IZR F * vsum 7 (fun j => IZR (nth j l 0%Z) * p ^ S j) - X * p ^ S m) / (IZR F * X)) by (field; lra).
  rewrite <- E. unfold Rdiv at 1. rewrite Rabs_mult, (Rabs_right (/ _)). 2:{ apply Rle_ge. left. apply Rinv_0_lt_compat. nra. }
  change (?a * / ?b) with (a / b). apply div_le. { nra. }
  apply Rle_trans with (vsum 7 (fun j => IZR (Z.abs (F * nth j l 0%Z - (if Nat.eqb j m then SC ^ Z.of_nat (S m) else 0)))%Z)).
  - eapply Rle_trans; [apply vsum_abs|]. apply vsum_le. intros j _. rewrite abs_IZR, minus_IZR, mult_IZR.
    replace (IZR (if Nat.eqb j m then (SC ^ Z.of_nat (S m))%Z else 0%Z)) with (if Nat.eqb j m then X else 0).
    2:{ destruct (Nat.eqb j m); [symmetry; apply SC_pow|reflexivity]. }
    rewrite Rabs_mult. assert (0 <= p ^ S j <= 1). { split; [apply pow_le; lra|]. rewrite <- (pow1 (S j)). apply pow_incr. lra. }
    rewrite (Rabs_right (p ^ S j)) by lra. match goal with |- ?A * _ <= ?A => assert (0 <= A) by apply Rabs_pos end. nra.
  - apply Rmult_le_reg_r with (IZR tol); [lra|]. replace (/ IZR tol * (IZR F * X) * IZR tol) with (IZR F * X) by (field; lra). exact H.
Qed.

Lemma hn_vsum n f1 f2 f3 f4 f5 f6 f7 p : hn (vsum n f1) (vsum n f2) (vsum n f3) (vsum n f4) (vsum n f5) (vsum n f6) (vsum n f7) p =
  vsum n (fun m => hn (f1 m) (f2 m) (f3 m) (f4 m) (f5 m) (f6 m) (f7 m) p).
Proof. induction n; cbn [vsum]. { unfold hn. ring. } rewrite <- IHn. unfold hn. ring. Qed.
Lemma hn_scal c a1 a2 a3 a4 a5 a6 a7 p : hn (c * a1) (c * a2) (c * a3) (c * a4) (c * a5) (c * a6) (c * a7) p = c * hn a1 a2 a3 a4 a5 a6 a7 p.
Proof. unfold hn. ring. Qed.

(** conclusions for a right-hand side with known stages *)
Section Stages.
Variables (rhs : R -> vec -> vec) (t0 h : R) (x : vec) (e : nat -> vec) (zstage : Z -> list (Z * list Z) -> list Z) (l1 l13 : list Z) (n : nat).
Let h' := h / SR.
Hypothesis Hstage : forall c l k, zok c = true -> (forall i, SR * lc l i = rep (zlc k) e h' i) ->
  rhs (t0 + Q2R c * h) (fun i => x i + h * lc l i) = rep (zstage (zs c) k) e h'.
Hypothesis H13 : forall y, (forall i, y i = x i + h' * rep (zb (ztable zstage l1)) e h' i) -> rhs (t0 + h) y = rep l13 e h'.
Hypothesis H1 : rhs t0 x = rep l1 e h'.
Definition zwidth : nat := list_max (map (@length Z) [zr2 zstage l1; zr3 zstage l1; zr4 zstage l1 l13; zr5 zstage l1 l13; zr6 zstage l1 l13; zr7 zstage l1 l13; zr8 zstage l1 l13; zerr5 zstage l1; zerr3 zstage l1]).
Hypothesis Hn : (zwidth <= n)%nat.
Definition beta (m : nat) : R := IZR (nth m (zr2 zstage l1) 0%Z) / SR ^ S m.
Definition zgam (m : nat) : R -> R := zhn (nth m (zr2 zstage l1) 0%Z) (nth m (zr3 zstage l1) 0%Z) (nth m (zr4 zstage l1 l13) 0%Z)
  (nth m (zr5 zstage l1 l13) 0%Z) (nth m (zr6 zstage l1 l13) 0%Z) (nth m (zr7 zstage l1 l13) 0%Z) (nth m (zr8 zstage l1 l13) 0%Z).
Definition gam (m : nat) (p : R) : R := zgam m p / SR ^ S m.

Lemma len l : In l [zr2 zstage l1; zr3 zstage l1; zr4 zstage l1 l13; zr5 zstage l1 l13; zr6 zstage l1 l13; zr7 zstage l1 l13; zr8 zstage l1 l13; zerr5 zstage l1; zerr3 zstage l1] -> (length l <= n)%nat.
Proof.
  intros H. eapply Nat.le_trans; [|exact Hn]. unfold zwidth.
  match goal with |- (_ <= list_max ?q)%nat => pose proof (proj1 (list_max_le q (list_max q)) (Nat.le_refl _)) as K end.
  rewrite Forall_forall in K. apply K. apply (in_map (@length Z)). exact H.
Qed.
Lemma step_vsum i : s_xt (rkStages rhs t0 x (rhs t0 x) h) i = x i + vsum n (fun m => beta m * h ^ S m * e m i).
Proof.
  rewrite H1. pose proof (step_rep rhs t0 h x e zstage l1 Hstage i) as X. cbv zeta in X. fold h' in X. rewrite X. f_equal. fold (zr2 zstage l1).
  rewrite (rep_vsum _ n) by (apply len; simpl; tauto). rewrite <- vsum_scal. apply vsum_ext. intros m _. unfold beta, h', Rdiv.
  cbn [pow]. rewrite Rpow_mult_distr, <- Rinv_pow by apply SR_nz. field. split; [apply pow_nonzero|]; apply SR_nz.
Qed.
Lemma err_vsum i : errVec5 (rkStages rhs t0 x (rhs t0 x) h) i = vsum n (fun m => IZR (nth m (zerr5 zstage l1) 0%Z) / SR ^ S m * h ^ m * e m i) /\
  errVec3 (rkStages rhs t0 x (rhs t0 x) h) i = vsum n (fun m => IZR (nth m (zerr3 zstage l1) 0%Z) / SR ^ S m * h ^ m * e m i).
Proof.
  rewrite H1. destruct (err_rep rhs t0 h x e zstage l1 Hstage i) as [A B]. fold h' in A, B. cbv zeta in A, B. rewrite (rep_vsum _ n) in A by (apply len; simpl; tauto). rewrite (rep_vsum _ n) in B by (apply len; simpl; tauto).
  assert (K : forall a f, SR * a = vsum n f -> a = vsum n (fun m => / SR * f m)).
  { intros a f E. rewrite vsum_scal, <- E. field. apply SR_nz. }
  rewrite (K _ _ A), (K _ _ B). split; apply vsum_ext; intros m _; unfold h', Rdiv; cbn [pow]; rewrite Rpow_mult_distr, <- Rinv_pow by apply SR_nz; field; (split; [apply pow_nonzero|]; apply SR_nz).
Qed.
Lemma dense_vsum s next i t : h <> 0 -> d_time s = t0 -> d_x s = x -> consistent rhs s ->
  dpoly (dopFinish rhs s h next) i t = x i + vsum n (fun m => gam m ((t - t0) / h) * h ^ S m * e m i).
Proof.
  intros Hh Ht Hx Hc. unfold consistent in Hc. rewrite Ht, Hx, H1 in Hc.
  destruct (dense_rep rhs t0 h x e zstage l1 Hstage l13 H13 s next i Ht Hx Hc) as (A2 & A3 & A4 & A5 & A6 & A7 & A8).
  unfold dpoly. rewrite A2, A3, A4, A5, A6, A7, A8. clear A2 A3 A4 A5 A6 A7 A8. fold h'.
  destruct (finish_fields rhs s h next) as (A & B & _ & _ & _ & E & _). rewrite E, A, B, Hx, Ht. f_equal.
  replace (t0 + h - t0) with h by ring. set (p := (t - t0) / h). rewrite hn_scal.
  rewrite !(rep_vsum _ n) by (apply len; simpl; tauto). rewrite hn_vsum, <- vsum_scal. apply vsum_ext. intros m _.
  unfold gam, zgam, zhn.
  replace (h ^ S m) with (h' ^ S m * SR ^ S m). 2:{ rewrite <- Rpow_mult_distr. f_equal. unfold h'. field. apply SR_nz. }
  cbn [pow]. set (u := h' ^ m). set (E0 := e m i).
  match goal with |- h' * hn (?b1 * u * E0) (?b2 * u * E0) (?b3 * u * E0) (?b4 * u * E0) (?b5 * u * E0) (?b6 * u * E0) (?b7 * u * E0) p = _ =>
    replace (hn (b1 * u * E0) (b2 * u * E0) (b3 * u * E0) (b4 * u * E0) (b5 * u * E0) (b6 * u * E0) (b7 * u * E0) p)
      with (u * E0 * hn b1 b2 b3 b4 b5 b6 b7 p) by (unfold hn; ring) end.
  field. split; [apply pow_nonzero|]; apply SR_nz.
Qed.
End Stages.
