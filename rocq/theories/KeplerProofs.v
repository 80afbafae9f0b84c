(** Kepler's equation: existence and uniqueness of the root, accuracy and termination of the solver *)
From Coq Require Import Reals Lra Psatz Bool ZArith List.
From Coquelicot Require Import Coquelicot.
From Flocq Require Import Core.Raux.
From Verif Require Import RandReal RandRealProofs PolyModel PolyProofs Base RootProofs CoordModel PotModel AnalyticProofs2 KeplerModel KeplerSpec.
Import ListNotations.
Local Open Scope R_scope.

(* ------------------------------------------------------------------ bounds on sine and cosine *)
Ltac dpos := intros; auto_derive; trivial; try ring.
Lemma cos_lo0 x : 0 <= x -> 1 - x ^ 2 / 2 <= cos x.
Proof.
  intros H. enough (cos 0 - 1 + 0 ^ 2 / 2 <= cos x - 1 + x ^ 2 / 2) by (rewrite cos_0 in *; lra).
  apply (deriv_nonneg (fun t => cos t - 1 + t ^ 2 / 2) (fun t => t - sin t)); [exact H| |].
  - intros t Ht. auto_derive; trivial. simpl. field.
  - intros t Ht. destruct (Req_dec t 0) as [->|N]; [rewrite sin_0; lra|]. pose proof (sin_lt_x t). lra.
Qed.
Lemma sin_lo0 x : 0 <= x -> x - x ^ 3 / 6 <= sin x.
Proof.
  intros H. enough (sin 0 - 0 + 0 ^ 3 / 6 <= sin x - x + x ^ 3 / 6) by (rewrite sin_0 in *; lra).
  apply (deriv_nonneg (fun t => sin t - t + t ^ 3 / 6) (fun t => cos t - 1 + t ^ 2 / 2)); [exact H| |].
  - intros t Ht. auto_derive; trivial. simpl. field.
  - intros t Ht. pose proof (cos_lo0 t Ht). lra.
Qed.
Lemma cos_hi0 x : 0 <= x -> cos x <= 1 - x ^ 2 / 2 + x ^ 4 / 24.
Proof.
  intros H. enough (1 - 0 ^ 2 / 2 + 0 ^ 4 / 24 - cos 0 <= 1 - x ^ 2 / 2 + x ^ 4 / 24 - cos x) by (rewrite cos_0 in *; lra).
  apply (deriv_nonneg (fun t => 1 - t ^ 2 / 2 + t ^ 4 / 24 - cos t) (fun t => sin t - t + t ^ 3 / 6)); [exact H| |].
  - intros t Ht. auto_derive; trivial. simpl. field.
  - intros t Ht. pose proof (sin_lo0 t Ht). lra.
Qed.
Lemma sin_hi0 x : 0 <= x -> sin x <= x.
Proof. intros H. destruct (Req_dec x 0) as [->|N]; [rewrite sin_0; lra|]. pose proof (sin_lt_x x). lra. Qed.
Lemma cos_abs x : cos (Rabs x) = cos x.
Proof. unfold Rabs. destruct (Rcase_abs x); [apply cos_neg|reflexivity]. Qed.
Lemma sin_near x : Rabs (sin x - x) <= Rabs x ^ 3 / 6.
Proof.
  unfold Rabs at 2. destruct (Rcase_abs x) as [N|N].
  - pose proof (sin_hi0 (- x)) as A. pose proof (sin_lo0 (- x)) as B. rewrite sin_neg in A, B. apply Rabs_le. lra.
  - pose proof (sin_hi0 x) as A. pose proof (sin_lo0 x) as B. apply Rabs_le. lra.
Qed.
Lemma cos_near x : Rabs (cos x - 1 + x ^ 2 / 2) <= Rabs x ^ 4 / 24.
Proof.
  pose proof (Rabs_pos x) as P. pose proof (cos_lo0 _ P) as A. pose proof (cos_hi0 _ P) as B. rewrite cos_abs in A, B.
  assert (E : Rabs x ^ 2 = x ^ 2) by (rewrite RPow_abs; apply Rabs_pos_eq; nra). rewrite E in A, B. apply Rabs_le. lra.
Qed.
Lemma Rabs_le1 x a : - a <= x <= a -> Rabs x <= a. Proof. apply Rabs_le. Qed.
Lemma Rabs_mul_le a b x y : Rabs a <= x -> Rabs b <= y -> Rabs (a * b) <= x * y.
Proof. intros H1 H2. rewrite Rabs_mult. apply Rmult_le_compat; auto using Rabs_pos. Qed.
Lemma sin_step n d : Rabs (sin (n + d) - sin n - d * cos n + d ^ 2 / 2 * sin n) <= Rabs d ^ 3 / 6 + Rabs d ^ 4 / 24.
Proof.
  rewrite sin_plus. replace (sin n * cos d + cos n * sin d - sin n - d * cos n + d ^ 2 / 2 * sin n) with (cos n * (sin d - d) + sin n * (cos d - 1 + d ^ 2 / 2)) by field.
  eapply Rle_trans; [apply Rabs_triang|]. apply Rplus_le_compat.
  - replace (Rabs d ^ 3 / 6) with (1 * (Rabs d ^ 3 / 6)) by ring. apply Rabs_mul_le; [|apply sin_near]. apply Rabs_le. pose proof (COS_bound n). lra.
  - replace (Rabs d ^ 4 / 24) with (1 * (Rabs d ^ 4 / 24)) by ring. apply Rabs_mul_le; [|apply cos_near]. apply Rabs_le. pose proof (SIN_bound n). lra.
Qed.

(* ------------------------------------------------------------------ the root *)
Section K.
Variable e : R.
Hypothesis He : 0 <= e < 1.
Let F (x : R) := x - e * sin x.
Lemma kF_derive x : is_derive F x (1 - e * cos x).
Proof. unfold F. auto_derive; trivial. ring. Qed.
Lemma kF_slope x : 1 - e <= 1 - e * cos x <= 1 + e.
Proof. pose proof (COS_bound x). nra. Qed.
Lemma kF_expand x y : (1 - e) * Rabs (x - y) <= Rabs (F x - F y).
Proof.
  assert (G : forall x y, y <= x -> (1 - e) * (x - y) <= F x - F y).
  { intros u v H. enough (F v - (1 - e) * v <= F u - (1 - e) * u) by lra.
    replace v with (v + 0) at 1 2 by ring. replace u with (v + (u - v)) by ring.
    apply (deriv_nonneg (fun t => F (v + t) - (1 - e) * (v + t)) (fun t => (1 - e * cos (v + t)) - (1 - e))); [lra| |].
    - intros t Ht. unfold F. auto_derive; trivial. ring.
    - intros t Ht. pose proof (kF_slope (v + t)). lra. }
  destruct (Rle_dec y x) as [H|H].
  - pose proof (G _ _ H). rewrite (Rabs_pos_eq (x - y)) by lra. eapply Rle_trans; [eassumption|apply Rle_abs].
  - assert (H' : x <= y) by lra. pose proof (G _ _ H'). rewrite (Rabs_minus_sym x y), (Rabs_minus_sym (F x)), (Rabs_pos_eq (y - x)) by lra. eapply Rle_trans; [eassumption|apply Rle_abs].
Qed.
Lemma kF_inj x y : F x = F y -> x = y.
Proof.
  intros E. pose proof (kF_expand x y) as H. rewrite E in H. replace (F y - F y) with 0 in H by ring. rewrite Rabs_R0 in H. pose proof (Rabs_pos (x - y)).
  assert (Z0 : Rabs (x - y) = 0) by nra. destruct (Req_dec (x - y) 0); [lra|]. pose proof (Rabs_pos_lt _ H1). lra.
Qed.
Lemma kF_root M : { x | F x = M }.
Proof.
  assert (C : continuity (fun x => F x - M)). { intros x. apply derivable_continuous_pt. unfold F. reg. }
  assert (HL : F (M - 2) - M < 0) by (unfold F; pose proof (SIN_bound (M - 2)); nra).
  assert (HU : 0 < F (M + 2) - M) by (unfold F; pose proof (SIN_bound (M + 2)); nra).
  destruct (IVT (fun x => F x - M) (M - 2) (M + 2) C ltac:(lra) HL HU) as (z & _ & Hz). exists z. lra.
Qed.

(* ------------------------------------------------------------------ one step of Halley's method *)
Variable ph : R.
Let f (x : R) := x - e * sin x - ph.
Let df (x : R) := 1 - e * cos x.
Let d2f (x : R) := e * sin x.
Lemma k_curv x : d2f x ^ 2 <= 2 * df x.
Proof.
  unfold d2f, df. pose proof (sin2_cos2 x) as S2. unfold Rsqr in S2. assert ((e * sin x) ^ 2 = e ^ 2 - (e * cos x) ^ 2) by nra. pose proof (pow2_ge_0 (1 - e * cos x)). nra.
Qed.
Lemma k_df_pos x : 0 < df x. Proof. pose proof (kF_slope x). unfold df. lra. Qed.
(** the residual after the step, in terms of the step: general formula *)
Lemma k_step x d : d * (df x * df x - 1 / 2 * f x * d2f x) = - f x * df x ->
  Rabs (f (x + d) * (df x - 1 / 2 * d * d2f x) + 1 / 4 * d2f x ^ 2 * d ^ 3) <= Rabs (df x - 1 / 2 * d * d2f x) * (e * (Rabs d ^ 3 / 6 + Rabs d ^ 4 / 24)).
Proof.
  intros E. pose proof (k_df_pos x) as DP.
  set (r := sin (x + d) - sin x - d * cos x + d ^ 2 / 2 * sin x). pose proof (sin_step x d) as B. fold r in B.
  assert (Ef : f (x + d) = f x + df x * d + 1 / 2 * d2f x * d ^ 2 - e * r) by (unfold f, df, d2f, r; field).
  assert (E2 : f x * (df x - 1 / 2 * d * d2f x) = - d * df x ^ 2) by nra.
  assert (E3 : (f (x + d) + e * r) * (df x - 1 / 2 * d * d2f x) + 1 / 4 * d2f x ^ 2 * d ^ 3 = 0).
  { rewrite Ef. replace ((f x + df x * d + 1 / 2 * d2f x * d ^ 2 - e * r + e * r) * (df x - 1 / 2 * d * d2f x)) with (f x * (df x - 1 / 2 * d * d2f x) + (df x * d + 1 / 2 * d2f x * d ^ 2) * (df x - 1 / 2 * d * d2f x)) by ring. rewrite E2. field. }
  replace (f (x + d) * (df x - 1 / 2 * d * d2f x) + 1 / 4 * d2f x ^ 2 * d ^ 3) with ((df x - 1 / 2 * d * d2f x) * (- (e * r))) by lra.
  rewrite Rabs_mult. apply Rmult_le_compat_l; [apply Rabs_pos|]. rewrite Rabs_Ropp, Rabs_mult, (Rabs_pos_eq e) by lra. apply Rmult_le_compat_l; lra.
Qed.
(** accuracy at termination *)
Lemma k_accuracy x d : e <= 1 - 1 / 10 ^ 10 -> d * (df x * df x - 1 / 2 * f x * d2f x) = - f x * df x -> Rabs d <= 1 / 100000 ->
  Rabs (f (x + d)) <= 2 / 10 ^ 15.
Proof.
  intros He' E D. pose proof (k_df_pos x) as DP. pose proof (k_curv x) as CV. pose proof (k_step x d E) as ST.
  assert (DL : 1 / 10 ^ 10 <= df x) by (pose proof (kF_slope x); unfold df in *; lra).
  set (g := df x) in *. set (c := d2f x) in *. set (w := g - 1 / 2 * d * c) in *. clearbody g c.
  assert (HC : Rabs (d * c) <= 142 / 100 * g).
  { assert (Q : (d * c) ^ 2 <= (142 / 100 * g) ^ 2).
    { assert (d ^ 2 <= 1 / 10 ^ 10). { replace (d ^ 2) with (Rabs d ^ 2) by (rewrite RPow_abs; apply Rabs_pos_eq; nra). pose proof (Rabs_pos d). replace (1 / 10 ^ 10) with ((1 / 100000) ^ 2) by field. apply pow_incr. lra. }
      replace ((d * c) ^ 2) with (d ^ 2 * c ^ 2) by ring. apply Rle_trans with (1 / 10 ^ 10 * (2 * g)); [apply Rmult_le_compat; nra|]. nra. }
    replace ((d * c) ^ 2) with (Rsqr (d * c)) in Q by (unfold Rsqr; ring). replace ((142 / 100 * g) ^ 2) with (Rsqr (142 / 100 * g)) in Q by (unfold Rsqr; ring). apply Rsqr_le_abs_0 in Q. rewrite (Rabs_pos_eq (142 / 100 * g)) in Q by lra. exact Q. }
  assert (HW : 29 / 100 * g <= w). { unfold w. apply Rabs_def2b in HC || (apply Rabs_le_inv in HC || apply Rabs_le_between in HC). nra. }
  set (A := Rabs d) in *. assert (AP : 0 <= A) by apply Rabs_pos.
  assert (A3 : A ^ 3 <= 1 / 10 ^ 15) by (replace (1 / 10 ^ 15) with ((1 / 100000) ^ 3) by field; apply pow_incr; lra).
  assert (A4 : A ^ 4 <= 1 / 10 ^ 20) by (replace (1 / 10 ^ 20) with ((1 / 100000) ^ 4) by field; apply pow_incr; lra).
  rewrite (Rabs_pos_eq w) in ST by lra.
  assert (T : Rabs (1 / 4 * c ^ 2 * d ^ 3) <= 1 / 2 * g * (1 / 10 ^ 15)).
  { rewrite Rabs_mult, (Rabs_pos_eq (1 / 4 * c ^ 2)) by nra. rewrite <- RPow_abs. fold A. apply Rmult_le_compat; [nra|apply pow_le; exact AP|nra|exact A3]. }
  assert (KK : Rabs (f (x + d)) * w <= 1 / 2 * g * (1 / 10 ^ 15) + w * (2 / 10 ^ 16)).
  { rewrite <- (Rabs_pos_eq w) at 1 by lra. rewrite <- Rabs_mult. replace (f (x + d) * w) with ((f (x + d) * w + 1 / 4 * c ^ 2 * d ^ 3) - 1 / 4 * c ^ 2 * d ^ 3) by ring.
    eapply Rle_trans; [apply Rabs_triang|]. rewrite Rabs_Ropp. rewrite Rplus_comm. apply Rplus_le_compat; [exact T|]. eapply Rle_trans; [exact ST|].
    apply Rmult_le_compat_l; [lra|]. assert (e * (A ^ 3 / 6 + A ^ 4 / 24) <= 1 * (A ^ 3 / 6 + A ^ 4 / 24)) by (apply Rmult_le_compat_r; [pose proof (pow_le A 3 AP); pose proof (pow_le A 4 AP); lra|lra]). lra. }
  assert (gw : 29 / 100 * g <= w) by lra. nra.
Qed.

(* ------------------------------------------------------------------ convergence for e <= 0.7 *)
Hypothesis He7 : e <= 7 / 10.
Lemma k_curv7 x : Rabs (d2f x) <= df x.
Proof.
  pose proof (k_df_pos x) as DP. apply Rsqr_incr_0_var; [|lra]. rewrite <- Rsqr_abs. unfold Rsqr, d2f, df in *. pose proof (sin2_cos2 x) as S2. unfold Rsqr in S2. set (u := e * cos x) in *.
  replace (e * sin x * (e * sin x)) with (e * e * (sin x * sin x)) by ring. replace (sin x * sin x) with (1 - cos x * cos x) by lra. replace (e * e * (1 - cos x * cos x)) with (e * e - u * u) by (unfold u; ring). pose proof (pow2_ge_0 (u - 1 / 2)). nra.
Qed.
Lemma k_step7 x : Rabs (f x) <= 56 / 1000 ->
  let den := df x * df x - 1 / 2 * f x * d2f x in 0 < den /\
  let d := - f x * df x / den in Rabs d <= 37 / 10 * Rabs (f x) /\
  Rabs (f (x + d)) <= 1 / 4 * Rabs d ^ 2 * Rabs (f x) + 7 / 10 * (Rabs d ^ 3 / 6 + Rabs d ^ 4 / 24).
Proof.
  intros B den. pose proof (k_df_pos x) as DP. pose proof (k_curv7 x) as CV.
  assert (DL : 3 / 10 <= df x) by (pose proof (kF_slope x); unfold df in *; lra).
  pose proof (Rabs_pos (f x)) as FP.
  assert (HFC : Rabs (f x * d2f x) <= Rabs (f x) * df x) by (rewrite Rabs_mult; apply Rmult_le_compat_l; lra).
  assert (HD : df x * (df x - 1 / 2 * Rabs (f x)) <= den) by (unfold den; apply Rabs_le_between in HFC; nra).
  assert (HD2 : 0 < df x * (df x - 1 / 2 * Rabs (f x))) by (apply Rmult_lt_0_compat; lra).
  split; [lra|]. intros d.
  assert (Ed : Rabs d * den = Rabs (f x) * df x).
  { unfold d, Rdiv. rewrite !Rabs_mult, Rabs_Ropp, (Rabs_pos_eq (df x)), (Rabs_pos_eq (/ den)) by (try apply Rlt_le, Rinv_0_lt_compat; lra). field. lra. }
  assert (Hd : Rabs d <= 37 / 10 * Rabs (f x)).
  { apply Rmult_le_reg_r with (df x * (df x - 1 / 2 * Rabs (f x))); [exact HD2|]. apply Rle_trans with (Rabs (f x) * df x); [rewrite <- Ed; apply Rmult_le_compat_l; [apply Rabs_pos|exact HD]|].
    replace (37 / 10 * Rabs (f x) * (df x * (df x - 1 / 2 * Rabs (f x)))) with (Rabs (f x) * df x * (37 / 10 * (df x - 1 / 2 * Rabs (f x)))) by ring.
    rewrite <- (Rmult_1_r (Rabs (f x) * df x)) at 1. apply Rmult_le_compat_l; [apply Rmult_le_pos; lra|]. lra. }
  split; [exact Hd|].
  assert (E : d * den = - f x * df x) by (unfold d; field; lra).
  set (r := sin (x + d) - sin x - d * cos x + d ^ 2 / 2 * sin x). pose proof (sin_step x d) as Bs. fold r in Bs.
  assert (Ef : f (x + d) = f x + df x * d + 1 / 2 * d2f x * d ^ 2 - e * r) by (unfold f, df, d2f, r; field).
  assert (E1 : (f x + df x * d) * df x = 1 / 2 * d * f x * d2f x) by (unfold den in E; lra).
  assert (E2 : f (x + d) = 1 / 4 * (d2f x / df x) ^ 2 * d ^ 2 * f x - e * r).
  { rewrite Ef. assert (X : (f x + df x * d + 1 / 2 * d2f x * d ^ 2) * df x ^ 2 = 1 / 4 * d2f x ^ 2 * d ^ 2 * f x); [|apply Rmult_eq_reg_r with (df x ^ 2); [|apply pow_nonzero; lra]; field_simplify_eq; [nra|lra]].
    replace ((f x + df x * d + 1 / 2 * d2f x * d ^ 2) * df x ^ 2) with ((f x + df x * d) * df x * df x + 1 / 2 * d2f x * d * (df x * d) * df x) by ring.
    rewrite E1. replace (1 / 2 * d * f x * d2f x * df x + 1 / 2 * d2f x * d * (df x * d) * df x) with (1 / 2 * d * d2f x * ((f x + df x * d) * df x)) by ring. rewrite E1. field. }
  rewrite E2. eapply Rle_trans; [apply Rabs_triang|]. apply Rplus_le_compat.
  - rewrite !Rabs_mult, <- !RPow_abs. apply Rmult_le_compat_r; [exact FP|]. apply Rmult_le_compat_r; [apply pow_le, Rabs_pos|].
    rewrite (Rabs_pos_eq (1 / 4)) by lra. rewrite <- (Rmult_1_r (1 / 4)) at 2. apply Rmult_le_compat_l; [lra|].
    assert (Q : Rabs (d2f x / df x) <= 1). { unfold Rdiv. rewrite Rabs_mult, (Rabs_pos_eq (/ df x)) by (apply Rlt_le, Rinv_0_lt_compat; lra). apply Rmult_le_reg_r with (df x); [lra|]. rewrite Rmult_assoc, Rinv_l by lra. lra. }
    pose proof (Rabs_pos (d2f x / df x)). nra.
  - rewrite Rabs_Ropp, Rabs_mult, (Rabs_pos_eq e) by lra. apply Rmult_le_compat; [lra|apply Rabs_pos|lra|exact Bs].
Qed.
(** initial approximation *)
Lemma k_init7 : Rabs (f (ph + e * sin ph / sqrt (1 - e * (2 * cos ph - e)))) <= 56 / 1000.
Proof.
  set (D := sqrt (1 - e * (2 * cos ph - e))). pose proof (COS_bound ph) as CB. pose proof (sin2_cos2 ph) as S2. unfold Rsqr in S2.
  assert (Dp : 0 < 1 - e * (2 * cos ph - e)) by nra. assert (D0 : 0 < D) by (apply sqrt_lt_R0; exact Dp). assert (D2 : D * D = 1 - e * (2 * cos ph - e)) by (apply sqrt_sqrt; lra).
  set (s := e * sin ph / D). assert (sD : s * D = e * sin ph) by (unfold s; field; lra).
  assert (s2 : s * s <= e * e). { apply Rmult_le_reg_r with (D * D); [nra|]. replace (s * s * (D * D)) with (s * D * (s * D)) by ring. rewrite sD, D2. pose proof (pow2_ge_0 (cos ph - e)). nra. }
  assert (sb : - e <= s <= e) by (split; nra).
  set (C := (1 - e * cos ph) / D). assert (CD : C * D = 1 - e * cos ph) by (unfold C; field; lra).
  assert (C0 : 0 < C) by (apply Rdiv_lt_0_compat; [nra|exact D0]).
  assert (C2 : C * C = 1 - s * s). { apply Rmult_eq_reg_r with (D * D); [|nra]. replace (C * C * (D * D)) with (C * D * (C * D)) by ring. replace ((1 - s * s) * (D * D)) with (D * D - s * D * (s * D)) by ring. rewrite CD, sD, D2. nra. }
  set (p := asin s). assert (Sp : sin p = s) by (apply sin_asin; lra). assert (Cp : cos p = C). { unfold p. rewrite cos_asin by lra. unfold Rsqr. rewrite <- C2. apply sqrt_square. lra. }
  pose proof (asin_bound s) as PB. fold p in PB.
  assert (E : e * sin (ph + p) = s). { rewrite sin_plus, Sp, Cp. apply Rmult_eq_reg_r with D; [|lra]. replace (e * (sin ph * C + cos ph * s) * D) with (e * sin ph * (C * D) + e * cos ph * (s * D)) by ring. rewrite CD, sD. ring. }
  assert (P78 : 7 / 10 < sin (78 / 100)) by (pose proof (sin_lo0 (78 / 100)); lra).
  assert (PI3 : 3 < PI) by (pose proof PI2_3_2; lra).
  assert (Pb : Rabs p <= 78 / 100).
  { apply Rabs_le. split; apply Rnot_lt_le; intros K.
    - assert (sin p < sin (- (78 / 100))) by (apply sin_increasing_1; lra). rewrite sin_neg in H. lra.
    - assert (sin (78 / 100) < sin p) by (apply sin_increasing_1; lra). lra. }
  fold s. assert (Ef : f (ph + s) = e * (sin (ph + p) - sin (ph + s))) by (unfold f; rewrite <- E at 1; ring).
  rewrite Ef, Rabs_mult, (Rabs_pos_eq e) by lra.
  assert (L : forall a b : R, Rabs (sin a - sin b) <= Rabs (a - b)).
  { intros a b. rewrite form4. replace (2 * cos ((a + b) / 2) * sin ((a - b) / 2)) with (cos ((a + b) / 2) * (2 * sin ((a - b) / 2))) by ring. replace (Rabs (a - b)) with (1 * (2 * Rabs ((a - b) / 2))).
    - apply Rabs_mul_le; [apply Rabs_le; pose proof (COS_bound ((a + b) / 2)); lra|]. rewrite Rabs_mult, (Rabs_pos_eq 2) by lra. apply Rmult_le_compat_l; [lra|].
      set (z := (a - b) / 2). unfold Rabs. destruct (Rcase_abs z), (Rcase_abs (sin z)).
      + pose proof (sin_hi0 (- z)) as Q. rewrite sin_neg in Q. lra.
      + pose proof (sin_near z) as Q. unfold Rabs in Q. destruct (Rle_dec (- z) 1) as [W|W].
        * assert (0 < sin (- z)) by (apply sin_gt_0; lra). rewrite sin_neg in H. lra.
        * pose proof (SIN_bound z). lra.
      + destruct (Rle_dec z 1) as [W|W]; [|pose proof (SIN_bound z); lra]. destruct (Req_dec z 0) as [->|]; [rewrite sin_0 in *; lra|]. assert (0 < sin z) by (apply sin_gt_0; lra). lra.
      + apply sin_hi0. lra.
    - unfold Rdiv. rewrite Rabs_mult, (Rabs_pos_eq (/ 2)) by lra. field. }
  assert (Q : Rabs (sin (ph + p) - sin (ph + s)) <= Rabs p ^ 3 / 6).
  { eapply Rle_trans; [apply L|]. replace (ph + p - (ph + s)) with (- (sin p - p)) by (rewrite Sp; ring). rewrite Rabs_Ropp. apply sin_near. }
  assert (P3 : Rabs p ^ 3 <= (78 / 100) ^ 3) by (apply pow_incr; split; [apply Rabs_pos|exact Pb]).
  apply Rle_trans with (7 / 10 * ((78 / 100) ^ 3 / 6)); [|lra]. apply Rmult_le_compat; [lra|apply Rabs_pos|lra|lra].
Qed.
Lemma k_terminates7 : let x := ph + e * sin ph / sqrt (1 - e * (2 * cos ph - e)) in exists r, keplerLoop 3 e ph x = Ok r.
Proof.
  intros x. pose proof k_init7 as B0. fold x in B0.
  assert (P : forall A : R, 0 <= A -> forall B, A <= B -> A ^ 2 <= B ^ 2 /\ A ^ 3 <= B ^ 3 /\ A ^ 4 <= B ^ 4) by (intros A HA B HB; repeat split; apply pow_incr; lra).
  assert (ST : forall n y, keplerLoop (S n) e ph y = (let den := df y * df y - 1 / 2 * f y * d2f y in if Req_b den 0 then Throw else let d := - f y * df y / den in if Rlt_b (1 / 100000) (Rabs d) then keplerLoop n e ph (y + d) else Ok (y + d))) by reflexivity.
  destruct (k_step7 x B0) as (D1 & S1 & F1). rewrite ST. cbv zeta. rewrite Req_b_f by lra.
  set (d1 := - f x * df x / (df x * df x - 1 / 2 * f x * d2f x)) in *. set (x1 := x + d1) in *.
  destruct (Rlt_b (1 / 100000) (Rabs d1)); [|eexists; reflexivity].
  assert (B1 : Rabs (f x1) <= 17 / 10000). { destruct (P _ (Rabs_pos d1) (2072 / 10000) ltac:(lra)) as (Q2 & Q3 & Q4). eapply Rle_trans; [exact F1|]. pose proof (Rabs_pos d1). pose proof (Rabs_pos (f x)).
    assert (Rabs d1 ^ 2 * Rabs (f x) <= (2072 / 10000) ^ 2 * (56 / 1000)) by (apply Rmult_le_compat; try lra; apply pow_le; lra). lra. }
  destruct (k_step7 x1 ltac:(lra)) as (D2 & S2 & F2). rewrite ST. cbv zeta. rewrite Req_b_f by lra.
  set (d2 := - f x1 * df x1 / (df x1 * df x1 - 1 / 2 * f x1 * d2f x1)) in *. set (x2 := x1 + d2) in *.
  destruct (Rlt_b (1 / 100000) (Rabs d2)); [|eexists; reflexivity].
  assert (B2 : Rabs (f x2) <= 1 / 1000000). { destruct (P _ (Rabs_pos d2) (63 / 10000) ltac:(lra)) as (Q2 & Q3 & Q4). eapply Rle_trans; [exact F2|]. pose proof (Rabs_pos d2). pose proof (Rabs_pos (f x1)).
    assert (Rabs d2 ^ 2 * Rabs (f x1) <= (63 / 10000) ^ 2 * (17 / 10000)) by (apply Rmult_le_compat; try lra; apply pow_le; lra). lra. }
  destruct (k_step7 x2 ltac:(lra)) as (D3 & S3 & F3). rewrite ST. cbv zeta. rewrite Req_b_f by lra.
  set (d3 := - f x2 * df x2 / (df x2 * df x2 - 1 / 2 * f x2 * d2f x2)) in *. rewrite Rlt_b_f by lra. eexists. reflexivity.
Qed.
End K.

(* ------------------------------------------------------------------ the solver *)
Lemma keplerPhase_spec M : 0 <= keplerPhase M < 2 * PI /\ exists k : Z, keplerPhase M = M - 2 * PI * IZR k.
Proof.
  pose proof PI_RGT_0 as PP. split; [|exists (Zfloor (1 / (2 * PI) * M)); reflexivity].
  unfold keplerPhase. pose proof (Zfloor_lb (1 / (2 * PI) * M)) as A. pose proof (Zfloor_ub (1 / (2 * PI) * M)) as B. set (z := IZR (Zfloor (1 / (2 * PI) * M))) in *.
  assert (E : 2 * PI * (1 / (2 * PI) * M) = M) by (field; lra). split.
  - enough (2 * PI * z <= M) by lra. rewrite <- E. apply Rmult_le_compat_l; lra.
  - enough (M < 2 * PI * (z + 1)) by lra. rewrite <- E at 1. apply Rmult_lt_compat_l; lra.
Qed.
Lemma keplerLoop_accuracy fuel e ph : 0 <= e <= 1 - 1 / 10 ^ 10 -> forall x r, keplerLoop fuel e ph x = Ok r -> Rabs (r - e * sin r - ph) <= 2 / 10 ^ 15.
Proof.
  intros He. assert (He1 : 0 <= e < 1) by lra. induction fuel as [|n IH]; intros x r H; [discriminate|]. cbn [keplerLoop] in H.
  set (den := (1 - e * cos x) * (1 - e * cos x) - 1 / 2 * (x - e * sin x - ph) * (e * sin x)) in *.
  destruct (Req_EM_T den 0) as [Z0|Z0]; [rewrite Req_b_t in H by exact Z0; discriminate|]. rewrite Req_b_f in H by exact Z0.
  set (d := - (x - e * sin x - ph) * (1 - e * cos x) / den) in *.
  destruct (Rlt_dec (1 / 100000) (Rabs d)) as [L|L].
  - rewrite Rlt_b_t in H by exact L. apply IH in H. exact H.
  - rewrite Rlt_b_f in H by lra. injection H as <-. apply (k_accuracy e He1 ph x d); [lra| |lra]. fold den. unfold d. field. exact Z0.
Qed.
Lemma solveKepler_accuracy fuel e M r : 0 <= e <= 1 - 1 / 10 ^ 10 -> solveKepler fuel e M = Ok r ->
  exists k : Z, 0 <= M - 2 * PI * IZR k < 2 * PI /\ Rabs (r - e * sin r - (M - 2 * PI * IZR k)) <= 2 / 10 ^ 15.
Proof.
  intros He H. destruct (keplerPhase_spec M) as (B & k & E). exists k. rewrite <- E. split; [exact B|]. unfold solveKepler in H. cbv zeta in H.
  destruct (Req_EM_T (keplerPhase M) 0) as [Z0|Z0].
  - rewrite Req_b_t in H by exact Z0. cbn [orb] in H. injection H as <-. rewrite Z0, sin_0. replace (0 - e * 0 - 0) with 0 by ring. rewrite Rabs_R0. lra.
  - rewrite Req_b_f in H by exact Z0. cbn [orb] in H. destruct (Req_EM_T (keplerPhase M) PI) as [Z1|Z1].
    + rewrite Req_b_t in H by exact Z1. injection H as <-. rewrite Z1, sin_PI. replace (PI - e * 0 - PI) with 0 by ring. rewrite Rabs_R0. lra.
    + rewrite Req_b_f in H by exact Z1. apply keplerLoop_accuracy in H; assumption.
Qed.
Lemma solveKepler_terminates e M : 0 <= e <= 7 / 10 -> exists r, solveKepler 3 e M = Ok r.
Proof.
  intros He. unfold solveKepler. cbv zeta. destruct (Req_b (keplerPhase M) 0 || Req_b (keplerPhase M) PI); [eexists; reflexivity|].
  unfold keplerInit. rewrite Rlt_b_f by lra. cbn [andb]. apply k_terminates7; lra.
Qed.
