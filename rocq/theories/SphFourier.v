(** trigMultiAngle and the Fourier transform *)
From Coq Require Import Reals Lra Lia Psatz Arith List Bool.
From Coquelicot Require Import Coquelicot.
From Verif Require Import RandReal RootModel Base SphModel SphSpec SphLegendre.
Import ListNotations.
Local Open Scope R_scope.

(* ---------- multiples of an angle ---------- *)
Lemma trigLoop_spec phi n : forall k, let '(c, s) := trigLoop n (sin (phi / 2) * (sin (phi / 2) * 2)) (sin phi) (cos (INR k * phi)) (sin (INR k * phi)) in
  c = map (fun i => cos (INR (k + S i) * phi)) (seq 0 n) /\ s = map (fun i => sin (INR (k + S i) * phi)) (seq 0 n).
Proof.
  assert (A : sin (phi / 2) * (sin (phi / 2) * 2) = 1 - cos phi). { replace phi with (2 * (phi / 2)) at 3 by field. rewrite cos_2a_sin. ring. }
  rewrite A. induction n as [|n IH]; intros k; cbn [trigLoop]; [split; reflexivity|].
  assert (C : cos (INR k * phi) - ((1 - cos phi) * cos (INR k * phi) + sin phi * sin (INR k * phi)) = cos (INR (S k) * phi)) by (rewrite S_INR, Rmult_plus_distr_r, Rmult_1_l, cos_plus; ring).
  assert (D : sin (INR k * phi) - ((1 - cos phi) * sin (INR k * phi) - sin phi * cos (INR k * phi)) = sin (INR (S k) * phi)) by (rewrite S_INR, Rmult_plus_distr_r, Rmult_1_l, sin_plus; ring).
  rewrite C, D. specialize (IH (S k)). destruct (trigLoop n (1 - cos phi) (sin phi) (cos (INR (S k) * phi)) (sin (INR (S k) * phi))) as (c, s). destruct IH as (-> & ->). cbn [seq map]. rewrite <- seq_shift, !map_map.
  split; (f_equal; [rewrite Nat.add_1_r; reflexivity|apply map_ext; intros i; do 3 f_equal; lia]).
Qed.
Lemma trig_eq phi m ns : trigMultiAngle phi m ns = map (fun i => cos (INR (S i) * phi)) (seq 0 m) ++ (if ns then map (fun i => sin (INR (S i) * phi)) (seq 0 m) else []).
Proof.
  unfold trigMultiAngle. pose proof (trigLoop_spec phi m 0) as H. change (INR 0) with 0 in H. rewrite Rmult_0_l, cos_0, sin_0 in H. destruct (trigLoop m _ _ 1 0) as (c, s). destruct H as (-> & ->). destruct ns; [reflexivity|rewrite app_nil_r; reflexivity].
Qed.
Lemma trig_len phi m ns : length (trigMultiAngle phi m ns) = if ns then (2 * m)%nat else m.
Proof. rewrite trig_eq, app_length. destruct ns; rewrite ?map_length, ?seq_length; cbn; lia. Qed.
Lemma trig_cos phi m ns k : (1 <= k <= m)%nat -> nth (k - 1) (trigMultiAngle phi m ns) 0 = cos (INR k * phi).
Proof.
  intros H. rewrite trig_eq, app_nth1 by (rewrite map_length, seq_length; lia). rewrite (nth_indep _ 0 (cos (INR 1 * phi))) by (rewrite map_length, seq_length; lia).
  rewrite (map_nth (fun i => cos (INR (S i) * phi)) (seq 0 m) 0%nat). rewrite seq_nth by lia. replace (S (0 + (k - 1))) with k by lia. reflexivity.
Qed.
Lemma trig_sin phi m k : (1 <= k <= m)%nat -> nth (m + (k - 1)) (trigMultiAngle phi m true) 0 = sin (INR k * phi).
Proof.
  intros H. rewrite trig_eq, app_nth2 by (rewrite map_length, seq_length; lia). rewrite map_length, seq_length. replace (m + (k - 1) - m)%nat with (k - 1)%nat by lia.
  rewrite (nth_indep _ 0 (sin (INR 1 * phi))) by (rewrite map_length, seq_length; lia).
  rewrite (map_nth (fun i => sin (INR (S i) * phi)) (seq 0 m) 0%nat). rewrite seq_nth by lia. replace (S (0 + (k - 1))) with k by lia. reflexivity.
Qed.

(* ---------- finite sums ---------- *)
Lemma bsum_ext n f g : (forall k, (k < n)%nat -> f k = g k) -> bsum n f = bsum n g.
Proof. induction n as [|n IH]; intros H; cbn [bsum]; [reflexivity|]. rewrite IH by (intros; apply H; lia). rewrite H by lia. reflexivity. Qed.
Lemma bsum_plus n f g : bsum n (fun k => f k + g k) = bsum n f + bsum n g.
Proof. induction n as [|n IH]; cbn [bsum]; [ring|]. rewrite IH. ring. Qed.
Lemma bsum_scal n c f : bsum n (fun k => c * f k) = c * bsum n f.
Proof. induction n as [|n IH]; cbn [bsum]; [ring|]. rewrite IH. ring. Qed.
Lemma bsum_const n c : bsum n (fun _ => c) = INR n * c.
Proof. induction n as [|n IH]; cbn [bsum]; [cbn; ring|]. rewrite IH, S_INR. ring. Qed.
Lemma bsum_app n p f : bsum (n + p) f = bsum n f + bsum p (fun k => f (n + k)%nat).
Proof. induction p as [|p IH]; [rewrite Nat.add_0_r; cbn; ring|]. rewrite Nat.add_succ_r. cbn [bsum]. rewrite IH. ring. Qed.
Lemma bsum_rev n f : bsum n (fun k => f (n - 1 - k)%nat) = bsum n f.
Proof.
  revert f. induction n as [|n IH]; intros f; [reflexivity|]. replace (S n) with (1 + n)%nat at 1 by lia. rewrite bsum_app. cbn [bsum]. rewrite Nat.sub_0_r, Rplus_0_l.
  rewrite (bsum_ext n _ (fun k => f (n - 1 - k)%nat)) by (intros; f_equal; lia). rewrite IH. replace (S n - 1)%nat with n by lia. ring.
Qed.
Lemma bsum_swap n p (f : nat -> nat -> R) : bsum n (fun i => bsum p (fun j => f i j)) = bsum p (fun j => bsum n (fun i => f i j)).
Proof. induction n as [|n IH]; cbn [bsum]; [rewrite (bsum_const p 0); ring|]. rewrite IH, <- bsum_plus. reflexivity. Qed.
Lemma bsum_single n f i : (i < n)%nat -> (forall k, (k < n)%nat -> k <> i -> f k = 0) -> bsum n f = f i.
Proof.
  intros Hi H. induction n as [|n IH]; [lia|]. cbn [bsum]. destruct (Nat.eq_dec i n) as [->|N].
  - rewrite (bsum_ext n f (fun _ => 0)) by (intros; apply H; lia). rewrite bsum_const. ring.
  - rewrite IH by (lia || (intros; apply H; lia)). rewrite (H n) by lia. ring.
Qed.
Lemma bsum_zero n f : (forall k, (k < n)%nat -> f k = 0) -> bsum n f = 0.
Proof. intros H. rewrite (bsum_ext n f (fun _ => 0)) by exact H. rewrite bsum_const. ring. Qed.

(* ---------- discrete orthogonality ---------- *)
Lemma tele_cos (a : R) N : 2 * sin (a / 2) * bsum N (fun k => cos (INR k * a)) = sin (INR N * a - a / 2) + sin (a / 2).
Proof.
  induction N as [|N IH]; [cbn [bsum]; change (INR 0) with 0; rewrite Rmult_0_l; unfold Rminus; rewrite Rplus_0_l, sin_neg; ring|]. cbn [bsum]. rewrite Rmult_plus_distr_l, IH, S_INR.
  replace ((INR N + 1) * a - a / 2) with (INR N * a + a / 2) by field. unfold Rminus. rewrite !sin_plus, sin_neg, cos_neg. ring.
Qed.
Lemma tele_sin (a : R) N : 2 * sin (a / 2) * bsum N (fun k => sin (INR k * a)) = cos (a / 2) - cos (INR N * a - a / 2).
Proof.
  induction N as [|N IH]; [cbn [bsum]; change (INR 0) with 0; rewrite Rmult_0_l; unfold Rminus; rewrite Rplus_0_l, cos_neg; ring|]. cbn [bsum]. rewrite Rmult_plus_distr_l, IH, S_INR.
  replace ((INR N + 1) * a - a / 2) with (INR N * a + a / 2) by field. unfold Rminus. rewrite !cos_plus, sin_neg, cos_neg. ring.
Qed.
Definition node (N k : nat) : R := INR k * (2 * PI / INR N).
Lemma full_turn n : cos (INR n * (2 * PI)) = 1 /\ sin (INR n * (2 * PI)) = 0.
Proof.
  split; [rewrite <- cos_0|rewrite <- sin_0]; rewrite Rmult_comm; replace (2 * PI * INR n) with (0 + 2 * INR n * PI) by ring; [apply cos_period|apply sin_period].
Qed.
Lemma orth N n : (1 <= n < N)%nat -> bsum N (fun k => cos (INR n * node N k)) = 0 /\ bsum N (fun k => sin (INR n * node N k)) = 0.
Proof.
  intros H. set (a := INR n * (2 * PI / INR N)). assert (HN : 0 < INR N) by (apply lt_0_INR; lia). assert (Hn : 0 < INR n) by (apply lt_0_INR; lia). assert (Hl : INR n < INR N) by (apply lt_INR; lia). pose proof PI_RGT_0.
  assert (S0 : sin (a / 2) <> 0).
  { assert (0 < sin (a / 2)); [|lra]. replace (a / 2) with (PI * (INR n / INR N)) by (unfold a; field; lra). assert (0 < INR n / INR N < 1) as (A & B). { split; [apply Rdiv_lt_0_compat; lra|]. apply (Rmult_lt_reg_r (INR N)); [lra|]. replace (INR n / INR N * INR N) with (INR n) by (field; lra). lra. } apply sin_gt_0; nra. }
  assert (E : INR N * a - a / 2 = - (a / 2) + INR n * (2 * PI)) by (unfold a; field; lra).
  destruct (full_turn n) as (C1 & C2).
  assert (P : forall f : R -> R, bsum N (fun k => f (INR n * node N k)) = bsum N (fun k => f (INR k * a))). { intros f. apply bsum_ext. intros k _. f_equal. unfold node, a. ring. }
  rewrite !P. split.
  - apply (Rmult_eq_reg_l (2 * sin (a / 2))); [|lra]. rewrite tele_cos, E, sin_plus, C1, C2, sin_neg. ring.
  - apply (Rmult_eq_reg_l (2 * sin (a / 2))); [|lra]. rewrite tele_sin, E, cos_plus, C1, C2, sin_neg, cos_neg. ring.
Qed.
(** mean over the nodes *)
Definition quad (N : nat) (g : R -> R) : R := 2 * PI / INR N * bsum N (fun k => g (node N k)).
Lemma quad_ext N f g : (forall x, f x = g x) -> quad N f = quad N g.
Proof. intros H. unfold quad. f_equal. apply bsum_ext. intros; apply H. Qed.
Lemma quad_plus N f g : quad N (fun x => f x + g x) = quad N f + quad N g.
Proof. unfold quad. rewrite bsum_plus. ring. Qed.
Lemma quad_scal N c f : quad N (fun x => c * f x) = c * quad N f.
Proof. unfold quad. rewrite bsum_scal. ring. Qed.
Lemma quad_sum N p (f : nat -> R -> R) : quad N (fun x => bsum p (fun i => f i x)) = bsum p (fun i => quad N (f i)).
Proof. unfold quad. rewrite bsum_swap, <- bsum_scal. reflexivity. Qed.
Lemma quad_cos N n : (n < N)%nat -> quad N (fun x => cos (INR n * x)) = if Nat.eqb n 0 then 2 * PI else 0.
Proof.
  intros H. unfold quad. destruct n as [|n].
  - rewrite (bsum_ext N _ (fun _ => 1)) by (intros; change (INR 0) with 0; rewrite Rmult_0_l; apply cos_0). rewrite bsum_const. cbn [Nat.eqb]. assert (0 < INR N) by (apply lt_0_INR; lia). field. lra.
  - rewrite (proj1 (orth N (S n) ltac:(lia))). cbn [Nat.eqb]. ring.
Qed.
Lemma quad_sin N n : (n < N)%nat -> quad N (fun x => sin (INR n * x)) = 0.
Proof.
  intros H. unfold quad. destruct n as [|n]; [|rewrite (proj2 (orth N (S n) ltac:(lia))); ring].
  rewrite (bsum_ext N _ (fun _ => 0)) by (intros; change (INR 0) with 0; rewrite Rmult_0_l; apply sin_0). rewrite bsum_const. ring.
Qed.
(** differences of harmonic numbers *)
Lemma cos_diff j m x : cos (INR j * x - INR m * x) = cos (INR (j - m + (m - j)) * x).
Proof.
  destruct (Nat.le_ge_cases m j) as [H|H].
  - replace (m - j)%nat with 0%nat by lia. rewrite Nat.add_0_r, minus_INR by exact H. f_equal. ring.
  - replace (j - m)%nat with 0%nat by lia. cbn [Nat.add]. rewrite minus_INR by exact H. rewrite <- cos_neg. f_equal. ring.
Qed.
Lemma cc j m x : cos (INR j * x) * cos (INR m * x) = / 2 * cos (INR (j - m + (m - j)) * x) + / 2 * cos (INR (j + m) * x).
Proof. rewrite <- cos_diff, plus_INR, Rmult_plus_distr_r, cos_minus, cos_plus. field. Qed.
Lemma ss j m x : sin (INR j * x) * sin (INR m * x) = / 2 * cos (INR (j - m + (m - j)) * x) + (- / 2) * cos (INR (j + m) * x).
Proof. rewrite <- cos_diff, plus_INR, Rmult_plus_distr_r, cos_minus, cos_plus. field. Qed.
Lemma scx j m x : sin (INR j * x) * cos (INR m * x) = / 2 * sin (INR (j + m) * x) + (if Nat.leb m j then / 2 else - / 2) * sin (INR (j - m + (m - j)) * x).
Proof.
  destruct (Nat.leb_spec m j) as [H|H].
  - replace (m - j)%nat with 0%nat by lia. rewrite Nat.add_0_r, minus_INR, plus_INR by exact H. rewrite Rmult_minus_distr_r, Rmult_plus_distr_r, sin_minus, sin_plus. field.
  - replace (j - m)%nat with 0%nat by lia. cbn [Nat.add]. rewrite minus_INR, plus_INR by lia. rewrite Rmult_minus_distr_r, Rmult_plus_distr_r, sin_minus, sin_plus. field.
Qed.
Lemma diff0 j m : Nat.eqb (j - m + (m - j)) 0 = Nat.eqb j m.
Proof. destruct (Nat.eqb_spec (j - m + (m - j)) 0), (Nat.eqb_spec j m); lia || reflexivity. Qed.
Lemma quad_cc N j m : (j + m < N)%nat -> quad N (fun x => cos (INR j * x) * cos (INR m * x)) = if Nat.eqb j m then (if Nat.eqb m 0 then 2 * PI else PI) else 0.
Proof.
  intros H. rewrite (quad_ext N _ _ (fun x => cc j m x)), quad_plus, !quad_scal, !quad_cos, diff0 by lia.
  destruct (Nat.eqb_spec j m), (Nat.eqb_spec (j + m) 0), (Nat.eqb_spec m 0); try lia; field.
Qed.
Lemma quad_ss N j m : (j + m < N)%nat -> quad N (fun x => sin (INR j * x) * sin (INR m * x)) = if Nat.eqb j m then (if Nat.eqb m 0 then 0 else PI) else 0.
Proof.
  intros H. rewrite (quad_ext N _ _ (fun x => ss j m x)), quad_plus, !quad_scal, !quad_cos, diff0 by lia.
  destruct (Nat.eqb_spec j m), (Nat.eqb_spec (j + m) 0), (Nat.eqb_spec m 0); try lia; field.
Qed.
Lemma quad_sc N j m : (j + m < N)%nat -> quad N (fun x => sin (INR j * x) * cos (INR m * x)) = 0.
Proof. intros H. rewrite (quad_ext N _ _ (fun x => scx j m x)), quad_plus, !quad_scal, !quad_sin by lia. ring. Qed.
Lemma quad_cs N j m : (j + m < N)%nat -> quad N (fun x => cos (INR j * x) * sin (INR m * x)) = 0.
Proof. intros H. rewrite (quad_ext N _ (fun x => sin (INR m * x) * cos (INR j * x))) by (intros; ring). apply quad_sc. lia. Qed.

(* ---------- the transform ---------- *)
Lemma fphi_node M k : fphi M k = node (2 * M + 1) k.
Proof. unfold fphi, node. rewrite plus_INR, mult_INR. change (INR 2) with 2. change (INR 1) with 1. pose proof (pos_INR M). field. lra. Qed.
Lemma weight_eq M : PI / (INR M + / 2) = 2 * PI / INR (2 * M + 1).
Proof. rewrite plus_INR, mult_INR. change (INR 2) with 2. change (INR 1) with 1. pose proof (pos_INR M). field. lra. Qed.
Lemma trigFnc_cos M us k m : (m <= M)%nat -> trigFnc M us (k * fsize M us + m) = cos (INR m * fphi M k) * (2 * PI / INR (2 * M + 1) * (if us then 1 else if Nat.eqb k 0 then 1 else 2)).
Proof.
  intros H. unfold trigFnc. assert (F : (m < fsize M us)%nat) by (unfold fsize; destruct us; lia). rewrite Nat.div_add_l, Nat.div_small, Nat.add_0_r by lia. rewrite Nat.add_comm, Nat.mod_add, Nat.mod_small by lia. rewrite weight_eq. f_equal.
  destruct m as [|m]; [change (INR 0) with 0; rewrite Rmult_0_l, cos_0; reflexivity|]. pose proof (trig_cos (fphi M k) M us (S m) ltac:(lia)) as E. replace (S m - 1)%nat with m in E by lia. exact E.
Qed.
Lemma trigFnc_sin M k m : (1 <= m <= M)%nat -> trigFnc M true (k * fsize M true + (M + m)) = sin (INR m * fphi M k) * (2 * PI / INR (2 * M + 1)).
Proof.
  intros H. unfold trigFnc. assert (F : (M + m < fsize M true)%nat) by (unfold fsize; lia). rewrite Nat.div_add_l, Nat.div_small, Nat.add_0_r by lia. rewrite (Nat.add_comm _ (M + m)), Nat.mod_add, Nat.mod_small by lia. rewrite weight_eq, Rmult_1_r. f_equal.
  pose proof (trig_sin (fphi M k) M m H) as E. replace (M + m)%nat with (S (M + (m - 1))) by lia. exact E.
Qed.
Lemma refl_cos N m k : (1 <= k <= N)%nat -> cos (INR m * node N (N - k)) = cos (INR m * node N k) /\ sin (INR m * node N (N - k)) = - sin (INR m * node N k).
Proof.
  intros H. assert (0 < INR N) by (apply lt_0_INR; lia). assert (E : INR m * node N (N - k) = - (INR m * node N k) + INR m * (2 * PI)) by (unfold node; rewrite minus_INR by lia; field; lra).
  rewrite E. destruct (full_turn m) as (A & B). rewrite cos_plus, sin_plus, A, B, cos_neg, sin_neg. split; ring.
Qed.
Lemma fourier_cos M f m : (m <= M)%nat -> fourier M true (fun k => f (fphi M k)) (M + m) = quad (2 * M + 1) (fun x => f x * cos (INR m * x)).
Proof.
  intros H. unfold fourier, quad. cbn [andb]. rewrite <- bsum_scal. replace (fsize M true) with (2 * M + 1)%nat at 1 by (unfold fsize; lia). apply bsum_ext. intros k Hk.
  rewrite (proj2 (Nat.ltb_ge (M + m) M)) by lia. replace (M + m - M)%nat with m by lia. cbn [andb]. rewrite trigFnc_cos by exact H. rewrite Rmult_1_r, !fphi_node.
  destruct (Nat.leb_spec k M); [ring|]. destruct (refl_cos (2 * M + 1) m k ltac:(lia)) as (-> & _). ring.
Qed.
Lemma fourier_sin M f m : (1 <= m <= M)%nat -> fourier M true (fun k => f (fphi M k)) (M - m) = quad (2 * M + 1) (fun x => f x * sin (INR m * x)).
Proof.
  intros H. unfold fourier, quad. rewrite <- bsum_scal. replace (fsize M true) with (2 * M + 1)%nat at 1 by (unfold fsize; lia). apply bsum_ext. intros k Hk.
  rewrite (proj2 (Nat.ltb_lt (M - m) M)) by lia. replace (M + (M - (M - m)))%nat with (M + m)%nat by lia. cbn [andb]. rewrite trigFnc_sin by exact H. rewrite !fphi_node.
  destruct (Nat.leb_spec k M); cbn [negb]; [ring|]. destruct (refl_cos (2 * M + 1) m k ltac:(lia)) as (_ & ->). ring.
Qed.
Lemma fourier_even M f m : (m <= M)%nat -> (forall x, f (- x) = f x) -> (forall x, f (x + 2 * PI) = f x) -> fourier M false (fun k => f (fphi M k)) m = quad (2 * M + 1) (fun x => f x * cos (INR m * x)).
Proof.
  intros H Ev Pe. unfold fourier, quad. cbn [andb]. change (fsize M false) with (M + 1)%nat.
  set (N := (2 * M + 1)%nat). set (w := 2 * PI / INR N). set (g := fun k => f (node N k) * cos (INR m * node N k)).
  rewrite (bsum_ext (M + 1) _ (fun k => w * ((if Nat.eqb k 0 then 1 else 2) * g k))).
  2: { intros k Hk. rewrite (proj2 (Nat.leb_le k M)) by lia. change (M + 1)%nat with (fsize M false). rewrite trigFnc_cos by exact H. rewrite !fphi_node. unfold w, g, N. ring. }
  rewrite bsum_scal. f_equal. replace N with (1 + M + M)%nat at 1 by (unfold N; lia). rewrite (Nat.add_comm M 1), (bsum_app (1 + M) M), !(bsum_app 1 M). cbn [bsum Nat.eqb Nat.add].
  assert (G : bsum M (fun k => g (S (M + k))) = bsum M (fun k => g (S k))).
  { rewrite <- (bsum_rev M (fun k => g (S k))). apply bsum_ext. intros k Hk. unfold g. replace (S (M + k))%nat with (N - S (M - 1 - k))%nat by (unfold N; lia). destruct (refl_cos N m (S (M - 1 - k))) as (-> & _); [unfold N; lia|]. f_equal.
    assert (0 < INR N) by (apply lt_0_INR; unfold N; lia). assert (E : node N (N - S (M - 1 - k)) = - node N (S (M - 1 - k)) + 2 * PI) by (unfold node; rewrite minus_INR by (unfold N; lia); field; lra). rewrite E, Pe, Ev. reflexivity. }
  fold (g 0%nat). change (bsum M (fun k => f (node N (S (M + k))) * cos (INR m * node N (S (M + k))))) with (bsum M (fun k => g (S (M + k)))). rewrite G. change (bsum M (fun k => f (node N (S k)) * cos (INR m * node N (S k)))) with (bsum M (fun k => g (S k))).
  rewrite bsum_scal. ring.
Qed.
