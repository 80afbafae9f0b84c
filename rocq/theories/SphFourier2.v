(** band-limited functions: the transform returns the coefficients and the integrals *)
From Coq Require Import Reals Lra Lia Psatz Arith List Bool.
From Coquelicot Require Import Coquelicot.
From Verif Require Import RandReal RootModel Base SphModel SphSpec SphLegendre SphArray SphFourier.
Local Open Scope R_scope.

Definition trigpoly (a b : nat -> R) (M : nat) (x : R) : R := bsum (M + 1) (fun j => a j * cos (INR j * x) + b j * sin (INR j * x)).
Lemma quad_tp_cos a b M m N : (m <= M)%nat -> (M + M < N)%nat -> quad N (fun x => trigpoly a b M x * cos (INR m * x)) = (if Nat.eqb m 0 then 2 * PI else PI) * a m.
Proof.
  intros H HN. unfold trigpoly. rewrite (quad_ext N _ (fun x => bsum (M + 1) (fun j => a j * (cos (INR j * x) * cos (INR m * x)) + b j * (sin (INR j * x) * cos (INR m * x))))).
  2: { intros x. rewrite Rmult_comm, <- bsum_scal. apply bsum_ext. intros. ring. }
  rewrite quad_sum. rewrite (bsum_ext _ _ (fun j => a j * (if Nat.eqb j m then (if Nat.eqb m 0 then 2 * PI else PI) else 0))).
  2: { intros j Hj. rewrite quad_plus, !quad_scal, quad_cc, quad_sc by lia. ring. }
  rewrite (bsum_single _ _ m) by (lia || (intros k _ N0; rewrite (proj2 (Nat.eqb_neq _ _)) by exact N0; ring)). rewrite Nat.eqb_refl. ring.
Qed.
Lemma quad_tp_sin a b M m N : (1 <= m <= M)%nat -> (M + M < N)%nat -> quad N (fun x => trigpoly a b M x * sin (INR m * x)) = PI * b m.
Proof.
  intros H HN. unfold trigpoly. rewrite (quad_ext N _ (fun x => bsum (M + 1) (fun j => a j * (cos (INR j * x) * sin (INR m * x)) + b j * (sin (INR j * x) * sin (INR m * x))))).
  2: { intros x. rewrite Rmult_comm, <- bsum_scal. apply bsum_ext. intros. ring. }
  rewrite quad_sum. rewrite (bsum_ext _ _ (fun j => b j * (if Nat.eqb j m then PI else 0))).
  2: { intros j Hj. rewrite quad_plus, !quad_scal, quad_ss, quad_cs by lia. rewrite (proj2 (Nat.eqb_neq m 0)) by lia. ring. }
  rewrite (bsum_single _ _ m) by (lia || (intros k _ N0; rewrite (proj2 (Nat.eqb_neq _ _)) by exact N0; ring)). rewrite Nat.eqb_refl. ring.
Qed.
(** quadrature = integral *)
Definition exact_on (N : nat) (g : R -> R) : Prop := is_RInt g 0 (2 * PI) (quad N g).
Lemma ex_plus N f g : exact_on N f -> exact_on N g -> exact_on N (fun x => f x + g x).
Proof. unfold exact_on. intros A B. rewrite quad_plus. exact (is_RInt_plus f g 0 (2 * PI) _ _ A B). Qed.
Lemma ex_scal N c f : exact_on N f -> exact_on N (fun x => c * f x).
Proof. unfold exact_on. intros A. rewrite quad_scal. exact (is_RInt_scal f 0 (2 * PI) c _ A). Qed.
Lemma ex_ext N f g : (forall x, f x = g x) -> exact_on N f -> exact_on N g.
Proof. unfold exact_on. intros E A. rewrite <- (quad_ext N f g E). apply (is_RInt_ext f); [intros; apply E|exact A]. Qed.
Lemma is_RInt_c (c : R) : is_RInt (fun _ : R => c) 0 (2 * PI) (2 * PI * c).
Proof. replace (2 * PI * c) with ((2 * PI - 0) * c) by ring. exact (is_RInt_const 0 (2 * PI) c). Qed.
Lemma ex_zero N : exact_on N (fun _ => 0).
Proof. unfold exact_on, quad. rewrite bsum_const. replace (2 * PI / INR N * (INR N * 0)) with (2 * PI * 0) by ring. apply is_RInt_c. Qed.
Lemma ex_sum N p (f : nat -> R -> R) : (forall i, (i < p)%nat -> exact_on N (f i)) -> exact_on N (fun x => bsum p (fun i => f i x)).
Proof.
  induction p as [|p IH]; intros H; cbn [bsum].
  - apply ex_zero.
  - apply ex_plus; [apply IH; intros; apply H; lia|apply H; lia].
Qed.
Lemma d_sinn n x : is_derive (fun x => sin (INR n * x)) x (INR n * cos (INR n * x)).
Proof. eapply d_eq; [apply (d_comp sin (fun x => INR n * x)); [apply d_sin|apply d_scal, d_id]|ring]. Qed.
Lemma d_cosn n x : is_derive (fun x => cos (INR n * x)) x (- INR n * sin (INR n * x)).
Proof. eapply d_eq; [apply (d_comp cos (fun x => INR n * x)); [apply d_cos|apply d_scal, d_id]|ring]. Qed.
Lemma cont_der (f : R -> R) (g : R -> R) x : (forall x, is_derive f x (g x)) -> continuous f x.
Proof. intros H. apply (ex_derive_continuous f x). exists (g x). apply H. Qed.
Lemma ftc (F f : R -> R) a b v : (forall x, is_derive F x (f x)) -> (forall x, continuous f x) -> F b - F a = v -> is_RInt f a b v.
Proof. intros D C <-. apply (is_RInt_derive F f a b); intros; [apply D|apply C]. Qed.
Lemma ex_cosn N n : (n < N)%nat -> exact_on N (fun x => cos (INR n * x)).
Proof.
  intros H. unfold exact_on. rewrite quad_cos by exact H. destruct n as [|n].
  - cbn [Nat.eqb]. apply (is_RInt_ext (fun _ => 1)); [intros; change (INR 0) with 0; rewrite Rmult_0_l, cos_0; reflexivity|]. generalize (is_RInt_c 1). rewrite Rmult_1_r. trivial.
  - cbn [Nat.eqb]. assert (P : 0 < INR (S n)) by (apply lt_0_INR; lia). destruct (full_turn (S n)) as (_ & S0).
    apply (ftc (fun x => / INR (S n) * sin (INR (S n) * x))); [| |rewrite S0, (Rmult_0_r (INR (S n))), sin_0; ring].
    + intros x. eapply d_eq; [apply d_scal, d_sinn|field; lra].
    + intros x. apply (cont_der _ (fun x => - INR (S n) * sin (INR (S n) * x))). intros; apply d_cosn.
Qed.
Lemma ex_sinn N n : (n < N)%nat -> exact_on N (fun x => sin (INR n * x)).
Proof.
  intros H. unfold exact_on. rewrite quad_sin by exact H. destruct n as [|n].
  - apply (is_RInt_ext (fun _ => 0)); [intros; change (INR 0) with 0; rewrite Rmult_0_l, sin_0; reflexivity|]. generalize (is_RInt_c 0). rewrite Rmult_0_r. trivial.
  - assert (P : 0 < INR (S n)) by (apply lt_0_INR; lia). destruct (full_turn (S n)) as (C0 & _).
    apply (ftc (fun x => - / INR (S n) * cos (INR (S n) * x))); [| |rewrite C0, (Rmult_0_r (INR (S n))), cos_0; ring].
    + intros x. eapply d_eq; [apply d_scal, d_cosn|field; lra].
    + intros x. apply (cont_der _ (fun x => INR (S n) * cos (INR (S n) * x))). intros; apply d_sinn.
Qed.
Lemma ex_cc N j m : (j + m < N)%nat -> exact_on N (fun x => cos (INR j * x) * cos (INR m * x)).
Proof. intros H. apply (ex_ext N _ _ (fun x => eq_sym (cc j m x))). apply ex_plus; apply ex_scal; apply ex_cosn; lia. Qed.
Lemma ex_ss N j m : (j + m < N)%nat -> exact_on N (fun x => sin (INR j * x) * sin (INR m * x)).
Proof. intros H. apply (ex_ext N _ _ (fun x => eq_sym (ss j m x))). apply ex_plus; apply ex_scal; apply ex_cosn; lia. Qed.
Lemma ex_sc N j m : (j + m < N)%nat -> exact_on N (fun x => sin (INR j * x) * cos (INR m * x)).
Proof. intros H. apply (ex_ext N _ _ (fun x => eq_sym (scx j m x))). apply ex_plus; apply ex_scal; apply ex_sinn; lia. Qed.
Lemma ex_tp_cos a b M m N : (m <= M)%nat -> (M + M < N)%nat -> exact_on N (fun x => trigpoly a b M x * cos (INR m * x)).
Proof.
  intros H HN. apply (ex_ext N (fun x => bsum (M + 1) (fun j => a j * (cos (INR j * x) * cos (INR m * x)) + b j * (sin (INR j * x) * cos (INR m * x))))).
  - intros x. unfold trigpoly. rewrite (Rmult_comm _ (cos _)), <- bsum_scal. apply bsum_ext. intros. ring.
  - apply ex_sum. intros j Hj. apply ex_plus; apply ex_scal; [apply ex_cc|apply ex_sc]; lia.
Qed.
Lemma ex_tp_sin a b M m N : (m <= M)%nat -> (M + M < N)%nat -> exact_on N (fun x => trigpoly a b M x * sin (INR m * x)).
Proof.
  intros H HN. apply (ex_ext N (fun x => bsum (M + 1) (fun j => a j * (sin (INR m * x) * cos (INR j * x)) + b j * (sin (INR j * x) * sin (INR m * x))))).
  - intros x. unfold trigpoly. rewrite (Rmult_comm _ (sin _)), <- bsum_scal. apply bsum_ext. intros. ring.
  - apply ex_sum. intros j Hj. apply ex_plus; apply ex_scal; [apply ex_sc|apply ex_ss]; lia.
Qed.
