From Coq Require Import Reals Lra Lia ZArith QArith Qreals List Bool FunctionalExtensionality.
From Coquelicot Require Import Coquelicot.
From Verif Require Import RandReal PolyModel PolyProofs OdeModel OdeProofs OdeProofs2 OdeProofs3 OdeSpec.
Import ListNotations.
Local Open Scope R_scope.

Fixpoint zfact (n : nat) : Z := match n with O => 1%Z | S n => (Z.of_nat (S n) * zfact n)%Z end.
Lemma zfact_ok n : IZR (zfact n) = INR (fact n).
Proof. induction n; [reflexivity|]. cbn [zfact fact]. rewrite mult_IZR, IHn, <- INR_IZR_INZ, <- mult_INR. reflexivity. Qed.
Lemma zfact_pos n : (0 < zfact n)%Z.
Proof. induction n; [reflexivity|]. cbn [zfact]. lia. Qed.


(** the tables, computed once *)
Definition ztabs (z : Z -> list (Z * list Z) -> list Z) (l1 l13 : list Z) : list (list Z) :=
  [zr2 z l1; zr3 z l1; zr4 z l1 l13; zr5 z l1 l13; zr6 z l1 l13; zr7 z l1 l13; zr8 z l1 l13; zerr5 z l1; zerr3 z l1].
Definition ztabs' (tb : ztab) (l1 l13 : list Z) : list (list Z) :=
  let zd (ds : list Q) : list Z := zlc (zcomb ds [l1; z6 tb; z7 tb; z8 tb; z9 tb; z10 tb; z11 tb; z12 tb; l13]) in
  let r3 := zadd (zscal SC l1) (zscal (-1) (zb tb)) in
  [zb tb; r3; zadd (zadd (zb tb) (zscal (- SC) l13)) (zscal (-1) r3);
   zd [d41; d46; d47; d48; d49; d410; d411; d412; d413]; zd [d51; d56; d57; d58; d59; d510; d511; d512; d513];
   zd [d61; d66; d67; d68; d69; d610; d611; d612; d613]; zd [d71; d76; d77; d78; d79; d710; d711; d712; d713];
   zlc (zcomb [er1; er6; er7; er8; er9; er10; er11; er12] [l1; z6 tb; z7 tb; z8 tb; z9 tb; z10 tb; z11 tb; z12 tb]);
   zadd (zb tb) (zscal (-1) (zlc (zcomb [bhh1; bhh2; bhh3] [l1; z9 tb; z12 tb])))].
Lemma ztabs_share z l1 l13 tb T : ztable z l1 = tb -> ztabs' tb l1 l13 = T -> ztabs z l1 l13 = T.
Proof. intros <- <-. unfold ztabs, ztabs', zr2, zr3, zr4, zr5, zr6, zr7, zr8, zerr5, zerr3, zd. reflexivity. Qed.
Lemma ztabs_all z l1 l13 T : ztabs z l1 l13 = T -> zr2 z l1 = nth 0 T [] /\ zr3 z l1 = nth 1 T [] /\ zr4 z l1 l13 = nth 2 T [] /\ zr5 z l1 l13 = nth 3 T [] /\ zr6 z l1 l13 = nth 4 T [] /\ zr7 z l1 l13 = nth 5 T [] /\ zr8 z l1 l13 = nth 6 T [] /\ zerr5 z l1 = nth 7 T [] /\ zerr3 z l1 = nth 8 T [].
Proof. intros <-. repeat split. Qed.
Lemma zwidth_tabs z l1 l13 T : ztabs z l1 l13 = T -> zwidth z l1 l13 = list_max (map (@length Z) T).
Proof. intros <-. reflexivity. Qed.

(** ** linear systems *)
Definition zstL (c : Z) (k : list (Z * list Z)) : list Z := 1%Z :: zlc k.
Definition l13L : list Z := 1%Z :: zb (ztable zstL [1%Z]).
Section Linear.
Variables (rhs : R -> vec -> vec) (L : vec -> vec) (x : vec) (t0 h : R).
Hypothesis HL : linear_map L.
Hypothesis Hrhs : forall t y, rhs t y = L y.
Let e (m : nat) : vec := power L (S m) x.
Let h' := h / SR.
Lemma HstageL c l k : zok c = true -> (forall i, SR * lc l i = rep (zlc k) e h' i) -> rhs (t0 + Q2R c * h) (fun i => x i + h * lc l i) = rep (zstL (zs c) k) e h'.
Proof. intros _ H. rewrite Hrhs. apply (L_stage L x h HL l (zlc k)). exact H. Qed.
Lemma H1L : rhs t0 x = rep [1%Z] e h'.
Proof. rewrite Hrhs. apply functional_extensionality. intros i. cbn [rep]. unfold e. cbn [power]. ring. Qed.
Lemma H13L y : (forall i, y i = x i + h' * rep (zb (ztable zstL [1%Z])) e h' i) -> rhs (t0 + h) y = rep l13L e h'.
Proof.
  intros H. rewrite Hrhs. apply functional_extensionality. intros i.
  replace y with (fun i => x i + (fun j => h' * rep (zb (ztable zstL [1%Z])) e h' j) i) by (apply functional_extensionality; intros j; symmetry; apply H).
  destruct HL as [A B]. rewrite A, B. pose proof (L_rep L h HL (zb (ztable zstL [1%Z])) e i) as K. fold h' in K. rewrite K. unfold l13L. cbn [rep]. unfold e. cbn [power]. ring.
Qed.
End Linear.
Definition wL : nat := 13.
Definition tbL : ztab := Eval vm_compute in ztable zstL [1%Z].
Lemma tbL_ok : ztable zstL [1%Z] = tbL. Proof. vm_compute. reflexivity. Qed.
Definition tL : list (list Z) := Eval vm_compute in ztabs' tbL [1%Z] (1%Z :: zb tbL).
Lemma tL_ok : ztabs zstL [1%Z] l13L = tL. Proof. apply (ztabs_share _ _ _ tbL). { apply tbL_ok. } unfold l13L. rewrite tbL_ok. vm_compute. reflexivity. Qed.
Lemma widthL : (zwidth zstL [1%Z] l13L <= wL)%nat. Proof. rewrite (zwidth_tabs _ _ _ _ tL_ok). apply Nat.leb_le. vm_compute. reflexivity. Qed.

Definition betaL (k : nat) : R := match k with O => 1 | S m => beta zstL [1%Z] m end.
Definition gamL (k : nat) (p : R) : R := match k with O => 1 | S m => gam zstL [1%Z] l13L m p end.
Definition err5L (m : nat) : R := IZR (nth m (zerr5 zstL [1%Z]) 0%Z) / SR ^ S m.
Definition err3L (m : nat) : R := IZR (nth m (zerr3 zstL [1%Z]) 0%Z) / SR ^ S m.

Lemma forallb_seq f n m : forallb f (seq 0 n) = true -> (m < n)%nat -> f m = true.
Proof. intros H Hm. rewrite forallb_forall in H. apply H. apply in_seq. lia. Qed.

Lemma betaL_close k : (k <= 8)%nat -> Rabs (betaL k - / INR (fact k)) <= / 10 ^ 21.
Proof.
  intros Hk. destruct k as [|m].
  - simpl betaL. replace (1 - / INR (fact 0)) with 0 by (simpl; lra). rewrite Rabs_R0. left. apply Rinv_0_lt_compat, pow_lt. lra.
  - unfold betaL, beta. rewrite <- zfact_ok. replace (10 ^ 21) with (IZR (10 ^ 21)) by (symmetry; exact (pow_IZR 10 21)).
    apply zclose_ok; [reflexivity|apply zfact_pos|].
    destruct (ztabs_all _ _ _ _ tL_ok) as (E2 & E3 & E4 & E5 & E6 & E7 & E8 & E9 & E10). rewrite E2.
    apply (forallb_seq (fun m => zclose (10 ^ 21) (zfact (S m)) (nth m (nth 0 tL []) 0%Z) m) 8); [vm_compute; reflexivity|lia].
Qed.
Lemma gamL_close k p : (k <= 6)%nat -> 0 <= p <= 1 -> Rabs (gamL k p - p ^ k / INR (fact k)) <= / 10 ^ 18.
Proof.
  intros Hk Hp. destruct k as [|m].
  - simpl. replace (1 - 1 / 1) with 0 by field. rewrite Rabs_R0. left. apply Rinv_0_lt_compat. pose proof (pow_lt 10 18 ltac:(lra)). simpl in *. lra.
  - unfold gamL, gam, zgam. rewrite <- zfact_ok. replace (10 ^ 18) with (IZR (10 ^ 18)) by (symmetry; exact (pow_IZR 10 18)).
    apply zclose_poly_ok; [reflexivity|apply zfact_pos|lia|exact Hp|].
    destruct (ztabs_all _ _ _ _ tL_ok) as (E2 & E3 & E4 & E5 & E6 & E7 & E8 & E9 & E10). rewrite E2, E3, E4, E5, E6, E7, E8.
    apply (forallb_seq (fun m => zclose_poly (10 ^ 18) (zfact (S m)) (zmono (nth m (nth 0 tL []) 0%Z) (nth m (nth 1 tL []) 0%Z) (nth m (nth 2 tL []) 0%Z) (nth m (nth 3 tL []) 0%Z) (nth m (nth 4 tL []) 0%Z) (nth m (nth 5 tL []) 0%Z) (nth m (nth 6 tL []) 0%Z)) m) 6); [vm_compute; reflexivity|lia].
Qed.
Lemma err5L_small m : (m < 5)%nat -> Rabs (err5L m) <= / 10 ^ 22.
Proof.
  intros Hm. unfold err5L. replace (10 ^ 22) with (IZR (10 ^ 22)) by (symmetry; exact (pow_IZR 10 22)). apply zsmall_ok; [reflexivity|].
  destruct (ztabs_all _ _ _ _ tL_ok) as (E2 & E3 & E4 & E5 & E6 & E7 & E8 & E9 & E10). rewrite E9.
  apply (forallb_seq (fun m => zsmall (10 ^ 22) (nth m (nth 7 tL []) 0%Z) m) 5); [vm_compute; reflexivity|lia].
Qed.
Lemma err3L_small m : (m < 3)%nat -> Rabs (err3L m) <= / 10 ^ 22.
Proof.
  intros Hm. unfold err3L. replace (10 ^ 22) with (IZR (10 ^ 22)) by (symmetry; exact (pow_IZR 10 22)). apply zsmall_ok; [reflexivity|].
  destruct (ztabs_all _ _ _ _ tL_ok) as (E2 & E3 & E4 & E5 & E6 & E7 & E8 & E9 & E10). rewrite E10.
  apply (forallb_seq (fun m => zsmall (10 ^ 22) (nth m (nth 8 tL []) 0%Z) m) 3); [vm_compute; reflexivity|lia].
Qed.

Lemma vsum_power n L x (b : nat -> R) h i : b O = 1 -> x i + vsum n (fun m => b (S m) * h ^ S m * power L (S m) x i) = vsum (S n) (fun k => b k * h ^ k * power L k x i).
Proof. intros Hb. rewrite vsum_S, Hb. cbn [pow power]. ring. Qed.

Lemma linear_step_ok rhs L s h i : linear_map L -> (forall t y, rhs t y = L y) -> consistent rhs s ->
  s_xt (rkStages rhs (d_time s) (d_x s) (d_k1 s) h) i = vsum 14 (fun k => betaL k * h ^ k * power L k (d_x s) i).
Proof.
  intros HL Hr Hc. unfold consistent in Hc. rewrite Hc.
  rewrite (step_vsum rhs (d_time s) h (d_x s) (fun m => power L (S m) (d_x s)) zstL [1%Z] l13L wL).
  - apply (vsum_power 13 L (d_x s) betaL). reflexivity.
  - intros. apply HstageL; assumption.
  - apply H1L; assumption.
  - apply widthL.
Qed.
Lemma linear_err_ok rhs L s h i : linear_map L -> (forall t y, rhs t y = L y) -> consistent rhs s ->
  errVec5 (rkStages rhs (d_time s) (d_x s) (d_k1 s) h) i = vsum 13 (fun k => err5L k * h ^ k * power L (S k) (d_x s) i) /\
  errVec3 (rkStages rhs (d_time s) (d_x s) (d_k1 s) h) i = vsum 13 (fun k => err3L k * h ^ k * power L (S k) (d_x s) i).
Proof.
  intros HL Hr Hc. unfold consistent in Hc. rewrite Hc.
  apply (err_vsum rhs (d_time s) h (d_x s) (fun m => power L (S m) (d_x s)) zstL [1%Z] l13L wL).
  - intros. apply HstageL; assumption.
  - apply H1L; assumption.
  - apply widthL.
Qed.
Lemma linear_dense_ok rhs L s h next i t : linear_map L -> (forall t y, rhs t y = L y) -> consistent rhs s -> h <> 0 ->
  dpoly (dopFinish rhs s h next) i t = vsum 14 (fun k => gamL k ((t - d_time s) / h) * h ^ k * power L k (d_x s) i).
Proof.
  intros HL Hr Hc Hh.
  rewrite (dense_vsum rhs (d_time s) h (d_x s) (fun m => power L (S m) (d_x s)) zstL [1%Z] l13L wL); try assumption; try (apply eq_refl).
  - apply (vsum_power 13 L (d_x s) (fun k => gamL k ((t - d_time s) / h))). reflexivity.
  - intros. apply HstageL; assumption.
  - intros. apply H13L; assumption.
  - apply H1L; assumption.
  - apply widthL.
Qed.

(** ** quadratures *)
Fixpoint zpows (c p : Z) (n : nat) : list Z := match n with O => [] | S n => p :: zpows c (p * c) n end.
Lemma zpows_nth c n : forall p m, (m < n)%nat -> nth m (zpows c p n) 0%Z = (p * c ^ Z.of_nat m)%Z.
Proof.
  induction n; intros p m Hm; [lia|]. destruct m; cbn [zpows nth]. { simpl. ring. } rewrite IHn by lia. rewrite Nat2Z.inj_succ, Z.pow_succ_r by lia. ring.
Qed.
Lemma zpows_length c n : forall p, length (zpows c p n) = n.
Proof. induction n; intros p; cbn [zpows length]; [reflexivity|]. rewrite IHn. reflexivity. Qed.
Definition zstP (n : nat) (c : Z) (k : list (Z * list Z)) : list Z := zpows c 1 n.
Section Quad.
Variables (rhs : R -> vec -> vec) (n : nat) (G : nat -> nat -> R) (x : vec) (t0 h : R).
Hypothesis Hrhs : forall t y i, rhs t y i = poly n (G i) t0 t.
Let e (m : nat) : vec := fun i => G i m.
Let h' := h / SR.
Lemma poly_rep c y : (forall q, q = IZR c / SR -> rhs (t0 + q * h) y = rep (zpows c 1 n) e h').
Proof.
  intros q ->. apply functional_extensionality. intros i. rewrite Hrhs, (rep_vsum _ n) by (rewrite zpows_length; lia). apply vsum_ext. intros m Hm.
  rewrite zpows_nth, Z.mul_1_l by exact Hm. rewrite <- pow_IZR. replace (t0 + IZR c / SR * h - t0) with (IZR c * h') by (unfold h'; field; apply SR_nz).
  rewrite Rpow_mult_distr. unfold e. ring.
Qed.
Lemma HstageP c l k : zok c = true -> (forall i, SR * lc l i = rep (zlc k) e h' i) -> rhs (t0 + Q2R c * h) (fun i => x i + h * lc l i) = rep (zstP n (zs c) k) e h'.
Proof. intros Hc _. unfold zstP. apply poly_rep. apply zs_ok. exact Hc. Qed.
Lemma H1P : rhs t0 x = rep (zpows 0 1 n) e h'.
Proof. replace t0 with (t0 + 0 * h) at 1 by ring. apply poly_rep. unfold Rdiv. ring. Qed.
Lemma H13P y : rhs (t0 + h) y = rep (zpows SC 1 n) e h'.
Proof. replace h with (1 * h) by ring. replace (rep (zpows SC 1 n) e h') with (rep (zpows SC 1 n) e h') by reflexivity. apply poly_rep. unfold SR. field. apply SR_nz. Qed.
End Quad.
Definition betaP (n m : nat) : R := beta (zstP n) (zpows 0 1 n) m.
Definition gamP (n m : nat) (p : R) : R := gam (zstP n) (zpows 0 1 n) (zpows SC 1 n) m p.
Definition tbP8 : ztab := Eval vm_compute in ztable (zstP 8) (zpows 0 1 8).
Lemma tbP8_ok : ztable (zstP 8) (zpows 0 1 8) = tbP8. Proof. vm_compute. reflexivity. Qed.
Definition tP8 : list (list Z) := Eval vm_compute in ztabs' tbP8 (zpows 0 1 8) (zpows SC 1 8).
Lemma tP8_ok : ztabs (zstP 8) (zpows 0 1 8) (zpows SC 1 8) = tP8. Proof. apply (ztabs_share _ _ _ tbP8). { apply tbP8_ok. } vm_compute. reflexivity. Qed.
Lemma widthP8 : (zwidth (zstP 8) (zpows 0 1 8) (zpows SC 1 8) <= 8)%nat. Proof. rewrite (zwidth_tabs _ _ _ _ tP8_ok). apply Nat.leb_le. vm_compute. reflexivity. Qed.
Definition tbP7 : ztab := Eval vm_compute in ztable (zstP 7) (zpows 0 1 7).
Lemma tbP7_ok : ztable (zstP 7) (zpows 0 1 7) = tbP7. Proof. vm_compute. reflexivity. Qed.
Definition tP7 : list (list Z) := Eval vm_compute in ztabs' tbP7 (zpows 0 1 7) (zpows SC 1 7).
Lemma tP7_ok : ztabs (zstP 7) (zpows 0 1 7) (zpows SC 1 7) = tP7. Proof. apply (ztabs_share _ _ _ tbP7). { apply tbP7_ok. } vm_compute. reflexivity. Qed.
Lemma widthP7 : (zwidth (zstP 7) (zpows 0 1 7) (zpows SC 1 7) <= 7)%nat. Proof. rewrite (zwidth_tabs _ _ _ _ tP7_ok). apply Nat.leb_le. vm_compute. reflexivity. Qed.
Lemma betaP_close m : (m < 8)%nat -> Rabs (betaP 8 m - / INR (S m)) <= / 10 ^ 22.
Proof.
  intros Hm. unfold betaP, beta. rewrite INR_IZR_INZ. replace (10 ^ 22) with (IZR (10 ^ 22)) by (symmetry; exact (pow_IZR 10 22)).
  apply zclose_ok; [reflexivity|lia|].
  destruct (ztabs_all _ _ _ _ tP8_ok) as (E2 & E3 & E4 & E5 & E6 & E7 & E8 & E9 & E10). rewrite E2.
  apply (forallb_seq (fun m => zclose (10 ^ 22) (Z.of_nat (S m)) (nth m (nth 0 tP8 []) 0%Z) m) 8); [vm_compute; reflexivity|lia].
Qed.
Lemma gamP_close m p : (m < 7)%nat -> 0 <= p <= 1 -> Rabs (gamP 7 m p - p ^ S m / INR (S m)) <= / 10 ^ 18.
Proof.
  intros Hm Hp. unfold gamP, gam, zgam. rewrite (INR_IZR_INZ (S m)). replace (10 ^ 18) with (IZR (10 ^ 18)) by (symmetry; exact (pow_IZR 10 18)).
  apply zclose_poly_ok; [reflexivity|lia|lia|exact Hp|].
  destruct (ztabs_all _ _ _ _ tP7_ok) as (E2 & E3 & E4 & E5 & E6 & E7 & E8 & E9 & E10). rewrite E2, E3, E4, E5, E6, E7, E8.
  apply (forallb_seq (fun m => zclose_poly (10 ^ 18) (Z.of_nat (S m)) (zmono (nth m (nth 0 tP7 []) 0%Z) (nth m (nth 1 tP7 []) 0%Z) (nth m (nth 2 tP7 []) 0%Z) (nth m (nth 3 tP7 []) 0%Z) (nth m (nth 4 tP7 []) 0%Z) (nth m (nth 5 tP7 []) 0%Z) (nth m (nth 6 tP7 []) 0%Z)) m) 7); [vm_compute; reflexivity|lia].
Qed.
Lemma quad_step_ok rhs G s h i : (forall t y i, rhs t y i = poly 8 (G i) (d_time s) t) -> consistent rhs s ->
  Rabs (s_xt (rkStages rhs (d_time s) (d_x s) (d_k1 s) h) i - (d_x s i + poly_int 8 (G i) (d_time s) (d_time s + h))) <= / 10 ^ 22 * vsum 8 (fun m => Rabs (G i m * h ^ S m)).
Proof.
  intros Hr Hc. unfold consistent in Hc. rewrite Hc.
  rewrite (step_vsum rhs (d_time s) h (d_x s) (fun m i => G i m) (zstP 8) (zpows 0 1 8) (zpows SC 1 8) 8).
  - match goal with |- Rabs (?a + ?b - (?a + ?c)) <= _ => replace (a + b - (a + c)) with (b + -1 * c) by ring end.
    unfold poly_int. rewrite <- vsum_scal, <- vsum_plus, <- vsum_scal. eapply Rle_trans; [apply vsum_abs|]. apply vsum_le. intros m Hm.
    replace (d_time s + h - d_time s) with h by ring. fold (betaP 8 m).
    replace (betaP 8 m * h ^ S m * G i m + -1 * (G i m * h ^ S m / INR (S m))) with ((betaP 8 m - / INR (S m)) * (G i m * h ^ S m)) by (unfold Rdiv; ring).
    rewrite Rabs_mult. apply Rmult_le_compat_r; [apply Rabs_pos|]. apply betaP_close. exact Hm.
  - intros. apply HstageP; assumption.
  - apply H1P; assumption.
  - apply widthP8.
Qed.
Lemma quad_dense_ok rhs G s h next i p : (forall t y i, rhs t y i = poly 7 (G i) (d_time s) t) -> consistent rhs s -> h <> 0 -> 0 <= p <= 1 ->
  Rabs (dpoly (dopFinish rhs s h next) i (d_time s + p * h) - (d_x s i + poly_int 7 (G i) (d_time s) (d_time s + p * h))) <= / 10 ^ 18 * vsum 7 (fun m => Rabs (G i m * h ^ S m)).
Proof.
  intros Hr Hc Hh Hp.
  rewrite (dense_vsum rhs (d_time s) h (d_x s) (fun m i => G i m) (zstP 7) (zpows 0 1 7) (zpows SC 1 7) 7); try assumption; try (apply eq_refl).
  - match goal with |- Rabs (?a + ?b - (?a + ?c)) <= _ => replace (a + b - (a + c)) with (b + -1 * c) by ring end.
    unfold poly_int. rewrite <- vsum_scal, <- vsum_plus, <- vsum_scal. eapply Rle_trans; [apply vsum_abs|]. apply vsum_le. intros m Hm.
    replace (d_time s + p * h - d_time s) with (p * h) by ring. replace (p * h / h) with p by (field; exact Hh). fold (gamP 7 m p).
    replace (gamP 7 m p * h ^ S m * G i m + -1 * (G i m * (p * h) ^ S m / INR (S m))) with ((gamP 7 m p - p ^ S m / INR (S m)) * (G i m * h ^ S m)).
    2:{ rewrite Rpow_mult_distr. field. apply not_0_INR. lia. }
    rewrite Rabs_mult. apply Rmult_le_compat_r; [apply Rabs_pos|]. apply gamP_close; assumption.
  - intros. apply HstageP; assumption.
  - intros. apply H13P; assumption.
  - apply H1P; assumption.
  - apply widthP7.
Qed.

(** ** the error of the interpolation is not smaller than h^7 *)
Definition shift (x : vec) : vec := fun i => if Nat.ltb i 7 then x (S i) else 0.
Lemma shift_linear : linear_map shift.
Proof. split; intros; unfold shift; destruct (Nat.ltb i 7); ring. Qed.
Definition top : vec := fun i => if Nat.eqb i 7 then 1 else 0.
Lemma shift_power k i : (i <= 7)%nat -> power shift k top i = if Nat.eqb (i + k) 7 then 1 else 0.
Proof.
  revert i. induction k; intros i Hi; cbn [power]. { rewrite Nat.add_0_r. reflexivity. }
  unfold shift at 1. destruct (Nat.ltb i 7) eqn:E.
  - apply Nat.ltb_lt in E. rewrite IHk by lia. replace (S i + k)%nat with (i + S k)%nat by lia. reflexivity.
  - apply Nat.ltb_ge in E. destruct (Nat.eqb (i + S k) 7) eqn:E2; [apply Nat.eqb_eq in E2; lia|reflexivity].
Qed.
Definition c7 : R := gamL 7 (/ 2) - (/ 2) ^ 7 / INR (fact 7).
Lemma c7_pos : / 10 ^ 7 <= c7.
Proof.
  unfold c7, gamL, gam, zgam. rewrite zhn_sum. rewrite <- zfact_ok.
  destruct (ztabs_all _ _ _ _ tL_ok) as (E2 & E3 & E4 & E5 & E6 & E7 & E8 & E9 & E10). rewrite E2, E3, E4, E5, E6, E7, E8. clear E2 E3 E4 E5 E6 E7 E8 E9 E10. set (l := zmono _ _ _ _ _ _ _).
  assert (Hl : l = (zmono (nth 6 (nth 0 tL []) 0%Z) (nth 6 (nth 1 tL []) 0%Z) (nth 6 (nth 2 tL []) 0%Z) (nth 6 (nth 3 tL []) 0%Z) (nth 6 (nth 4 tL []) 0%Z) (nth 6 (nth 5 tL []) 0%Z) (nth 6 (nth 6 tL []) 0%Z))) by reflexivity.
  clearbody l. pose (zv := (64 * nth 0 l 0 + 32 * nth 1 l 0 + 16 * nth 2 l 0 + 8 * nth 3 l 0 + 4 * nth 4 l 0 + 2 * nth 5 l 0 + nth 6 l 0)%Z).
  assert (E : vsum 7 (fun j => IZR (nth j l 0%Z) * (/ 2) ^ S j) = IZR zv / 128).
  { unfold zv. rewrite !plus_IZR, !mult_IZR. cbn [vsum pow]. field. }
  rewrite E. assert (C : (128 * 5040 * SC ^ 7 <= 10 ^ 7 * (5040 * zv - SC ^ 7))%Z). { unfold zv. rewrite Hl. apply Z.leb_le. vm_compute. reflexivity. }
  clearbody zv. clear E Hl l. replace (IZR (zfact 7)) with 5040 by (apply (f_equal IZR); reflexivity).
  apply IZR_le in C. rewrite !mult_IZR, minus_IZR, mult_IZR in C. change (SC ^ 7)%Z with (SC ^ Z.of_nat 7)%Z in C. rewrite (SC_pow 7) in C.
  assert (P : 0 < SR ^ 7) by (apply pow_lt, SR_pos). set (X := SR ^ 7) in *. replace (IZR (10 ^ 7)) with (10 ^ 7) in C by exact (pow_IZR 10 7).
  assert (T : 0 < 10 ^ 7) by (apply pow_lt; lra). set (Y := 10 ^ 7) in *.
  replace (IZR zv / 128 / X - (/ 2) ^ 7 / 5040) with ((5040 * IZR zv - X) / (128 * 5040 * X)) by (field; lra).
  apply le_div. { nra. } apply Rmult_le_reg_l with Y; [lra|]. replace (Y * (/ Y * (128 * 5040 * X))) with (128 * 5040 * X) by (field; lra). lra.
Qed.
Lemma sharp_ok s h next : d_x s = top -> consistent (fun _ => shift) s -> h <> 0 ->
  dpoly (dopFinish (fun _ => shift) s h next) 0 (d_time s + h / 2) - (h / 2) ^ 7 / INR (fact 7) = c7 * h ^ 7.
Proof.
  intros Hx Hc Hh. rewrite (linear_dense_ok (fun _ => shift) shift s h next 0 _ shift_linear (fun _ _ => eq_refl) Hc Hh). rewrite Hx.
  replace ((d_time s + h / 2 - d_time s) / h) with (/ 2) by (field; exact Hh).
  rewrite (vsum_ext 14 _ (fun k => if Nat.eqb k 7 then gamL 7 (/ 2) * h ^ 7 else 0)).
  2:{ intros k _. rewrite shift_power by lia. cbn [Nat.add]. destruct (Nat.eqb k 7) eqn:E; [apply Nat.eqb_eq in E; subst k|]; ring. }
  cbn [vsum Nat.eqb]. unfold c7. replace ((h / 2) ^ 7) with (h ^ 7 * (/ 2) ^ 7) by (unfold Rdiv; rewrite Rpow_mult_distr; reflexivity). unfold Rdiv. ring.
Qed.
