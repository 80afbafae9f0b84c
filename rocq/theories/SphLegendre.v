(** Legendre functions from the formula of Rodrigues: recurrences, differential equation, values at +-1 *)
From Coq Require Import Reals Lra Lia Psatz Arith.
From Coquelicot Require Import Coquelicot.
From Verif Require Import SphSpec.
Local Open Scope R_scope.

(* derivatives of real functions *)
Lemma d_plus (f g : R -> R) (x a b : R) : is_derive f x a -> is_derive g x b -> is_derive (fun y => f y + g y) x (a + b).
Proof. intros A B. exact (is_derive_plus f g x a b A B). Qed.
Lemma d_mult (f g : R -> R) (x a b : R) : is_derive f x a -> is_derive g x b -> is_derive (fun y => f y * g y) x (a * g x + f x * b).
Proof. intros A B. exact (is_derive_mult f g x a b A B Rmult_comm). Qed.
Lemma d_scal (f : R -> R) (x a k : R) : is_derive f x a -> is_derive (fun y => k * f y) x (k * a).
Proof. intros A. exact (is_derive_scal f x k a A). Qed.
Lemma d_id (x : R) : is_derive (fun y : R => y) x 1. Proof. exact (is_derive_id x). Qed.
Lemma d_const (k x : R) : is_derive (fun _ : R => k) x 0. Proof. exact (is_derive_const k x). Qed.
Lemma d_pow (f : R -> R) (x a : R) n : is_derive f x a -> is_derive (fun y => f y ^ n) x (INR n * a * f x ^ pred n).
Proof. intros A. exact (is_derive_pow f n x a A). Qed.
Lemma d_comp (f g : R -> R) (x a b : R) : is_derive f (g x) a -> is_derive g x b -> is_derive (fun y => f (g y)) x (b * a).
Proof. intros A B. exact (is_derive_comp f g x a b A B). Qed.
Lemma d_eq (f : R -> R) (x a b : R) : is_derive f x a -> a = b -> is_derive f x b. Proof. intros A <-. exact A. Qed.
Lemma d_uniq (f : R -> R) (x a b : R) : is_derive f x a -> is_derive f x b -> a = b.
Proof. intros A B. exact (eq_trans (eq_sym (is_derive_unique _ _ _ A)) (is_derive_unique _ _ _ B)). Qed.

(** goal l = r from A : l1 = r1 and B : l2 = r2, by l - r = k1 (l1 - r1) + k2 (l2 - r2) *)
Ltac lc2 k1 A k2 B := apply Rminus_diag_uniq; match type of A with ?l1 = ?r1 => match type of B with ?l2 = ?r2 =>
  transitivity (k1 * (l1 - r1) + k2 * (l2 - r2)); [ring | rewrite (Rminus_diag_eq _ _ A), (Rminus_diag_eq _ _ B); ring] end end.
Ltac lc1 k1 A := apply Rminus_diag_uniq; match type of A with ?l1 = ?r1 => transitivity (k1 * (l1 - r1)); [ring | rewrite (Rminus_diag_eq _ _ A); ring] end.
(** n-th derivative of (x^2-1)^l / (2^l l!) *)
Fixpoint W (l n : nat) (x : R) {struct l} : R :=
  match l, n with
  | O, O => 1
  | O, S _ => 0
  | S l', O => (x * x - 1) ^ l / (2 ^ l * INR (fact l))
  | S l', S n' => x * W l' n' x + INR n' * W l' (pred n') x
  end.
Lemma W0 l x : W l 0 x = (x * x - 1) ^ l / (2 ^ l * INR (fact l)).
Proof. destruct l; cbn [W]; [|reflexivity]. cbn. field. Qed.
Lemma WS l n x : W (S l) (S n) x = x * W l n x + INR n * W l (pred n) x. Proof. reflexivity. Qed.
Lemma fact_pos n : 0 < INR (fact n). Proof. apply INR_fact_lt_0. Qed.
Lemma w_next l x : (x * x - 1) * W l 0 x = 2 * (INR l + 1) * W (S l) 0 x.
Proof.
  rewrite !W0. rewrite fact_simpl, mult_INR, S_INR. cbn [pow]. pose proof (fact_pos l). pose proof (pos_INR l). assert (0 < 2 ^ l) by (apply pow_lt; lra). field. repeat split; lra.
Qed.
Lemma w_der l x : is_derive (W (S l) 0) x (x * W l 0 x).
Proof.
  rewrite W0. apply (is_derive_ext (fun y => (y * y - 1) ^ (S l) / (2 ^ (S l) * INR (fact (S l))))); [intros; symmetry; apply W0|].
  assert (KE : 2 ^ S l * INR (fact (S l)) = 2 * (INR l + 1) * (2 ^ l * INR (fact l))) by (rewrite fact_simpl, mult_INR, S_INR; cbn [pow]; ring).
  pose proof (fact_pos l). pose proof (pos_INR l). assert (0 < 2 ^ l) by (apply pow_lt; lra). assert (0 < 2 ^ l * INR (fact l)) by (apply Rmult_lt_0_compat; lra).
  set (K := 2 ^ S l * INR (fact (S l))) in *. clearbody K.
  apply (is_derive_ext (fun y => / K * (y * y - 1) ^ S l)); [intros; unfold Rdiv; apply Rmult_comm|].
  eapply d_eq; [apply d_scal, d_pow, d_plus; [apply d_mult; apply d_id|apply d_const]|]. rewrite S_INR, KE. cbn [Nat.pred]. replace (x * x + - (1)) with (x * x - 1) by ring. field. repeat split; lra.
Qed.
Lemma W_der l : forall n x, is_derive (W l n) x (W l (S n) x).
Proof.
  induction l as [|l IH]; intros n x.
  - destruct n; [apply (is_derive_const 1)|apply (is_derive_const 0)].
  - destruct n as [|n].
    + rewrite WS. change (INR 0) with 0. cbn [pred]. replace (x * W l 0 x + 0 * W l 0 x) with (x * W l 0 x) by ring. apply w_der.
    + rewrite WS. cbn [pred]. apply (is_derive_ext (fun y => y * W l n y + INR n * W l (pred n) y)); [intros; reflexivity|].
      eapply d_eq; [apply d_plus; [apply d_mult; [apply d_id|apply IH]|apply d_scal, IH]|]. destruct n as [|n]; [cbn; ring|]. cbn [pred]. rewrite !S_INR. ring.
Qed.
Lemma Derive_n_W l n x : Derive_n (fun y => (y * y - 1) ^ l) n x = 2 ^ l * INR (fact l) * W l n x.
Proof.
  revert x. induction n as [|n IH]; intros x.
  - cbn [Derive_n]. rewrite W0. pose proof (fact_pos l). assert (0 < 2 ^ l) by (apply pow_lt; lra). field. split; lra.
  - cbn [Derive_n]. rewrite (Derive_ext _ _ _ IH). apply is_derive_unique. apply d_scal. apply W_der.
Qed.
Lemma LegendreP_W l x : LegendreP l x = W l l x.
Proof. unfold LegendreP. rewrite Derive_n_W. pose proof (fact_pos l). assert (0 < 2 ^ l) by (apply pow_lt; lra). field. split; lra. Qed.
Lemma Derive_n_P l m x : Derive_n (LegendreP l) m x = W l (l + m) x.
Proof.
  revert x. induction m as [|m IH]; intros x; [rewrite Nat.add_0_r; apply LegendreP_W|]. cbn [Derive_n]. rewrite (Derive_ext _ _ _ IH). rewrite Nat.add_succ_r. apply is_derive_unique, W_der.
Qed.
(** w'' = (2l+3) w_{l+1} + w_l for w = w_{l+2} *)
Lemma W_B l n x : W (S (S l)) (S (S n)) x = (2 * INR l + 3) * W (S l) n x + W l n x.
Proof.
  revert x. induction n as [|n IH]; intros x.
  - rewrite !WS. cbn [pred]. change (INR 0) with 0. change (INR 1) with 1. pose proof (w_next l x). replace (x * (x * W l 0 x + 0 * W l 0 x) + 1 * W (S l) 0 x) with ((x * x - 1) * W l 0 x + W l 0 x + W (S l) 0 x) by ring. rewrite H. ring.
  - pose proof (W_der (S (S l)) (S (S n)) x) as A. assert (B : is_derive (W (S (S l)) (S (S n))) x ((2 * INR l + 3) * W (S l) (S n) x + W l (S n) x)).
    { apply (is_derive_ext (fun y => (2 * INR l + 3) * W (S l) n y + W l n y)); [intros; symmetry; apply IH|]. apply d_plus; [apply d_scal, W_der|apply W_der]. }
    exact (eq_trans (eq_sym (is_derive_unique _ _ _ A)) (is_derive_unique _ _ _ B)).
Qed.
Lemma W_zero l : forall n x, (2 * l < n)%nat -> W l n x = 0.
Proof.
  induction l as [|l IH]; intros n x H; destruct n as [|n]; try lia; [reflexivity|]. rewrite WS, IH by lia. destruct n as [|n]; [lia|]. cbn [pred]. destruct (Nat.eq_dec n (2 * l)) as [E|E]; [lia|]. rewrite IH by lia. ring.
Qed.
(** Q l m = d^m P_l / dx^m *)
Definition Q (l m : nat) (x : R) : R := W l (l + m) x.
Lemma Q_der l m x : is_derive (Q l m) x (Q l (S m) x).
Proof. unfold Q. rewrite Nat.add_succ_r. apply W_der. Qed.
Lemma Q_zero l m x : (l < m)%nat -> Q l m x = 0. Proof. intros. apply W_zero. lia. Qed.
Lemma Q_00 x : Q 0 0 x = 1. Proof. reflexivity. Qed.
(** (i) *)
Lemma Q_A l m x : Q (S l) (S m) x = x * Q l (S m) x + (INR l + INR m + 1) * Q l m x.
Proof. unfold Q. replace (S l + S m)%nat with (S (l + S m)) by lia. rewrite WS. f_equal. replace (pred (l + S m)) with (l + m)%nat by lia. rewrite !plus_INR, S_INR. ring. Qed.
Lemma Q_rec l m x : (INR l + 2 - INR m) * Q (S (S l)) m x = (2 * INR l + 3) * x * Q (S l) m x - (INR l + 1 + INR m) * Q l m x.
Proof.
  unfold Q. replace (S (S l) + m)%nat with (S (S (l + m))) by lia. replace (S l + m)%nat with (S (l + m)) by lia.
  pose proof (W_B l (l + m) x) as B. pose proof (WS (S l) (S (l + m)) x) as A. cbn [pred] in A. rewrite S_INR, plus_INR in A. lc2 (2 * INR l + 3) A (- (INR l + INR m + 1)) B.
Qed.
(** (ii) *)
Lemma Q_C l m x : Q l (S m) x = x * Q (S l) (S m) x - (INR l + 1 - INR m) * Q (S l) m x.
Proof.
  unfold Q. pose proof (W_B l (l + S m) x) as B. pose proof (WS (S l) (S l + S m) x) as A. replace (pred (S l + S m)) with (S l + m)%nat in A by lia. replace (S (S (l + S m))) with (S (S l + S m)) in B by lia.
  replace (S l + m)%nat with (l + S m)%nat in * by lia. rewrite A in B. rewrite plus_INR, !S_INR in B. lc2 (-1) B 0 A.
Qed.
Lemma Q_D l m x : (1 - x * x) * Q (S l) (S m) x = - (INR l + 1 - INR m) * x * Q (S l) m x + (INR l + 1 + INR m) * Q l m x.
Proof. pose proof (Q_A l m x) as A. pose proof (Q_C l m x) as B. lc2 1 A x B. Qed.
(** Legendre's equation for Q *)
Lemma Q_ode l m x : (1 - x * x) * Q l (S (S m)) x = 2 * (INR m + 1) * x * Q l (S m) x - (INR l - INR m) * (INR l + INR m + 1) * Q l m x.
Proof.
  destruct l as [|l].
  - rewrite !(Q_zero 0) by lia. destruct m; [change (INR 0) with 0; ring|rewrite Q_zero by lia; ring].
  - pose proof (Q_A l (S m) x) as A. pose proof (Q_C l (S m) x) as C. pose proof (Q_C l m x) as C'. rewrite !S_INR in *. rewrite C in A. rewrite C' in A. lc2 1 A 0 C.
Qed.
Lemma Q_mm m x : Q m m x = match m with O => 1 | S m' => (2 * INR m' + 1) * Q m' m' x end.
Proof. destruct m; [reflexivity|]. rewrite Q_A. rewrite Q_zero by lia. ring. Qed.
Lemma Q_next m x : Q (S m) m x = (2 * INR m + 1) * x * Q m m x.
Proof.
  destruct m as [|m]; [unfold Q; cbn; ring|]. pose proof (Q_rec m (S m) x). rewrite !S_INR in *. rewrite (Q_zero m (S m)) in H by lia. replace ((INR m + 2 - (INR m + 1))) with 1 in H by ring. lra.
Qed.
(** parity and values at the ends *)
Lemma W_parity l : forall n x, W l n (- x) = (-1) ^ n * W l n x.
Proof.
  induction l as [|l IH]; intros n x.
  - destruct n; cbn [W pow]; ring.
  - destruct n as [|n]; [rewrite !W0; cbn [pow]; replace (- x * - x - 1) with (x * x - 1) by ring; ring|]. rewrite !WS, !IH. destruct n as [|n]; cbn [pred pow]; [change (INR 0) with 0; ring|ring].
Qed.
Lemma Q_1 l : Q l 0 1 = 1.
Proof.
  assert (G : Q l 0 1 = 1 /\ Q (S l) 0 1 = 1); [|tauto]. induction l as [|l (A & B)]; [split; unfold Q; cbn; ring|]. split; [exact B|]. pose proof (Q_rec l 0 1) as R. rewrite A, B in R. change (INR 0) with 0 in R. pose proof (pos_INR l).
  apply (Rmult_eq_reg_l (INR l + 2)); lra.
Qed.
Lemma Q_end l m : 2 * (INR m + 1) * Q l (S m) 1 = (INR l - INR m) * (INR l + INR m + 1) * Q l m 1.
Proof. pose proof (Q_ode l m 1) as A. replace (1 - 1 * 1) with 0 in A by ring. lra. Qed.
Lemma Q1_1 l : Q l 1 1 = INR l * (INR l + 1) / 2.
Proof. pose proof (Q_end l 0) as E. rewrite Q_1 in E. change (INR 0) with 0 in E. lra. Qed.
Lemma Q2_1 l : Q l 2 1 = (INR l - 1) * INR l * (INR l + 1) * (INR l + 2) / 8.
Proof. pose proof (Q_end l 1) as E. rewrite Q1_1 in E. change (INR 1) with 1 in E. lra. Qed.
Lemma Q_parity l m x : Q l m (- x) = (-1) ^ (l + m) * Q l m x. Proof. apply W_parity. Qed.
