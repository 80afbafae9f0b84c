(** Lemmas on Gauss-Hermite expansions: orthonormality, sums, symmetric quadrature. *)
From Verif Require Import Base GaussHermModel GaussHermProofs.
From Coq Require Import Reals Lra Lia List Psatz.
From Coquelicot Require Import Coquelicot.
Import ListNotations.
Local Open Scope R_scope.
Ltac toR := match goal with |- ?l = ?r => change (@eq R l r) end.
Definition g2 (x : R) : R := exp (- (x * x)).
Lemma g2_gs : forall x, g2 x = gs x * gs x.
Proof. intros. unfold g2, gs. rewrite <- exp_plus. f_equal. field. Qed.
Lemma g2_diff : forall y, is_derive g2 y (- (2 * y) * g2 y).
Proof. intros. unfold g2. auto_derive; [exact Logic.I|]. ring. Qed.
Lemma gs_le1 : forall y, 0 < gs y <= 1.
Proof. intros. split; [apply exp_pos|]. rewrite <- exp_0. destruct (Req_dec y 0) as [->|N]; [unfold gs; right; f_equal; ring|]. left. apply exp_increasing. pose proof (Rsqr_pos_lt y N). unfold Rsqr in *. lra. Qed.
Lemma hh_tends0 : forall n m, tends0 (fun x => h n x * (h m x * g2 x)).
Proof.
  intros n m. pose proof (vanishing_tends0 _ (growth_vanishing _ _ (growth_mult _ _ _ _ (proj1 (h_growth n)) (proj1 (h_growth m))))) as T. intros eps He. destruct (T eps He) as [A HA]. exists A. intros x Hx. specialize (HA x Hx). fold (gs x) in HA.
  rewrite g2_gs. replace (h n x * (h m x * (gs x * gs x))) with (h n x * h m x * gs x * gs x) by ring. rewrite Rabs_mult. destruct (gs_le1 x). rewrite (Rabs_right (gs x)) at 1 by lra. pose proof (Rabs_pos (h n x * h m x * gs x)).
  nra.
Qed.
(** (h(m) exp(-x^2))' = - sqrt(2(m+1)) h(m+1) exp(-x^2) *)
Lemma hg2_diff : forall m x, is_derive (fun t => h m t * g2 t) x (- (sqrt 2 * sqrt (INR m + 1)) * (h (S m) x * g2 x)).
Proof.
  intros m x. pose proof sq2_pos as C. pose proof sq2 as E2.
  destruct m as [|m].
  - apply (is_derive_ext g2); [intros; rewrite h_0; symmetry; apply Rmult_1_l|]. rewrite h_1. replace (sqrt (INR 0 + 1)) with 1 by (simpl; rewrite Rplus_0_l, sqrt_1; reflexivity).
    replace (- (sqrt 2 * 1) * (sqrt 2 * x * g2 x)) with (- ((sqrt 2 * sqrt 2) * x) * g2 x) by ring. rewrite E2. apply g2_diff.
  - pose proof (is_derive_mult (h (S m)) g2 x _ _ (h_diff m x) (g2_diff x) Rmult_comm) as D. 
    match type of D with is_derive _ _ ?e => replace (- (sqrt 2 * sqrt (INR (S m) + 1)) * (h (S (S m)) x * g2 x)) with e; [exact D|] end.
    transitivity (sqrt 2 * sqrt (INR m + 1) * h m x * g2 x + h (S m) x * (- (2 * x) * g2 x)); [reflexivity|].
    replace (- (sqrt 2 * sqrt (INR (S m) + 1)) * (h (S (S m)) x * g2 x)) with (- sqrt 2 * (sqrt (INR (S m) + 1) * h (S (S m)) x) * g2 x) by ring. rewrite h_rec.
    replace (2 * x) with (sqrt 2 * sqrt 2 * x) by (rewrite E2; reflexivity). toR; ring.
Qed.
Definition delta (n m : nat) : R := if Nat.eqb n m then 1 else 0.
Lemma ortho : forall n m, exists P, tends0 P /\ forall x, is_derive P x ((h n x * h m x - delta n m) * g2 x).
Proof.
  pose proof sq2_pos as C.
  assert (Z1 : forall m, exists P, tends0 P /\ forall x, is_derive P x (h (S m) x * g2 x)).
  { intros m. pose proof (sqn_pos m) as A. exists (fun x => - / (sqrt 2 * sqrt (INR m + 1)) * (h 0 x * (h m x * g2 x))). split; [apply tends0_scal, hh_tends0|]. intros x.
    replace (h (S m) x * g2 x) with (- / (sqrt 2 * sqrt (INR m + 1)) * (- (sqrt 2 * sqrt (INR m + 1)) * (h (S m) x * g2 x))) by (field; lra).
    apply (is_derive_scal (fun t => h 0 t * (h m t * g2 t)) x). apply (is_derive_ext (fun t => h m t * g2 t)); [intros; rewrite h_0; symmetry; apply Rmult_1_l|apply hg2_diff]. }
  induction n as [|n IH]; intros [|m].
  - exists (fun _ => 0). split; [exact tends0_0|]. intros x. rewrite h_0. unfold delta. simpl Nat.eqb. cbv iota. replace ((1 * 1 - 1) * g2 x) with 0 by ring. exact (is_derive_const 0 x).
  - destruct (Z1 m) as (P & T & D). exists P. split; [exact T|]. intros x. unfold delta. simpl Nat.eqb. cbv iota. rewrite h_0. replace ((1 * h (S m) x - 0) * g2 x) with (h (S m) x * g2 x) by ring. apply D.
  - destruct (Z1 n) as (P & T & D). exists P. split; [exact T|]. intros x. unfold delta. simpl Nat.eqb. cbv iota. rewrite h_0. replace ((h (S n) x * 1 - 0) * g2 x) with (h (S n) x * g2 x) by ring. apply D.
  - destruct (IH m) as (P & T & D). pose proof (sqn_pos m) as A. pose proof (sqn_pos n) as B. set (c := sqrt (INR n + 1) / sqrt (INR m + 1)).
    exists (fun x => c * P x + (- / (sqrt 2 * sqrt (INR m + 1))) * (h (S n) x * (h m x * g2 x))). split; [apply tends0_plus; apply tends0_scal; [exact T|apply hh_tends0]|]. intros x.
    pose proof (is_derive_plus _ _ x _ _ (is_derive_scal P x c _ (D x)) (is_derive_scal _ x (- / (sqrt 2 * sqrt (INR m + 1))) _ (is_derive_mult (h (S n)) (fun t => h m t * g2 t) x _ _ (h_diff n x) (hg2_diff m x) Rmult_comm))) as Q.
    match type of Q with is_derive _ _ ?e => replace ((h (S n) x * h (S m) x - delta (S n) (S m)) * g2 x) with e; [exact Q|] end.
    transitivity (c * ((h n x * h m x - delta n m) * g2 x) + - / (sqrt 2 * sqrt (INR m + 1)) * (sqrt 2 * sqrt (INR n + 1) * h n x * (h m x * g2 x) + h (S n) x * (- (sqrt 2 * sqrt (INR m + 1)) * (h (S m) x * g2 x)))); [reflexivity|].
    change (delta (S n) (S m)) with (delta n m). assert (CD : c * delta n m = delta n m).
    { unfold delta. destruct (Nat.eqb_spec n m) as [->|_]; [unfold c; field; lra|ring]. }
    transitivity ((h (S n) x * h (S m) x - c * delta n m) * g2 x); [toR; unfold c; field; lra|rewrite CD; reflexivity].
Qed.
(** ** sums *)
Fixpoint dotp (a b : list R) : R := match a, b with x :: t, y :: u => x * y + dotp t u | _, _ => 0 end.
Lemma sumProd_dotp : forall a b, sumProd a b = dotp a b.
Proof.
  intros a b. unfold sumProd. assert (G : forall a b acc, fold_left (fun acc e => acc + fst e * snd e) (combine a b) acc = acc + dotp a b).
  { clear. induction a as [|x a IH]; intros [|y b] acc; simpl; try ring. rewrite IH. ring. }
  rewrite G. ring.
Qed.
Lemma sum_integral : forall M k, exists P, tends0 P /\ forall y, is_derive P y ((dotp M (map (fun i => h i y) (seq k (length M))) - dotp M (map normn (seq k (length M)))) * gs y).
Proof.
  induction M as [|a M IH]; intros k.
  - exists (fun _ => 0). split; [exact tends0_0|]. intros y. simpl. replace ((0 - 0) * gs y) with 0 by ring. exact (is_derive_const 0 y).
  - destruct (IH (S k)) as (P & T & D). destruct (single k) as (Q & TQ & DQ). exists (fun y => a * Q y + P y). split; [apply tends0_plus; [apply tends0_scal; exact TQ|exact T]|]. intros y.
    pose proof (is_derive_plus _ _ y _ _ (is_derive_scal Q y a _ (DQ y)) (D y)) as E.
    match type of E with is_derive _ _ ?e => match goal with |- is_derive _ _ ?g => replace g with e; [exact E|] end end.
    cbn [length seq map dotp]. set (u := dotp M (map (fun i => h i y) _)). set (v := dotp M (map normn _)).
    transitivity (a * ((h k y - normn k) * gs y) + (u - v) * gs y); [reflexivity|toR; ring].
Qed.
