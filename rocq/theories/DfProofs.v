(** Logarithmic derivatives; the q-exponential; the Exponential distribution function *)
From Coq Require Import Reals Lra Psatz Bool ZArith.
From Coquelicot Require Import Coquelicot.
From Verif Require Import RandReal RandRealProofs PolyModel PolyProofs CoordModel CoordSpec CoordCalc RootProofs DiskModel DiskProofs2 DfModel DfSpec.
Local Open Scope R_scope.

Lemma qexp_qE q a : qok q -> 0 < 1 + q * a -> qexp (- a) (- q) = qE q a.
Proof.
  intros [E|K] H; unfold qexp, qE.
  - subst q. rewrite Ropp_0, Rabs_R0, (Rlt_b_f 0.0000001 0) by lra. rewrite (Req_b_t 0 0 eq_refl). cbn [negb]. destruct (Req_EM_T 0 0); [ring|contradiction].
  - rewrite Rabs_Ropp, Rabs_right, Rlt_b_t by lra. destruct (Req_EM_T q 0); [lra|]. rewrite mpow_pos by nra. f_equal; [ring|field; lra].
Qed.
Lemma qE_pos q a : 0 < qE q a.
Proof. unfold qE. destruct (Req_EM_T q 0); [apply exp_pos|apply exp_pos]. Qed.

(** f has the logarithmic derivative d at t *)
Definition ld (f : R -> R) (t d : R) : Prop := is_derive f t (f t * d).
Lemma ld_const k t : ld (fun _ => k) t 0.
Proof. unfold ld. rewrite Rmult_0_r. apply (is_derive_const k t). Qed.
Lemma ld_mult f g t d e : ld f t d -> ld g t e -> ld (fun s => f s * g s) t (d + e).
Proof.
  intros A B. unfold ld in *. pose proof (is_derive_mult f g t _ _ A B (fun n m => Rmult_comm n m)) as C.
  replace (f t * g t * (d + e)) with (plus (mult (f t * d) (g t)) (mult (f t) (g t * e))); [exact C|]. unfold plus, mult. cbn. ring.
Qed.
Lemma ld_of f t d : is_derive f t d -> f t <> 0 -> ld f t (d / f t).
Proof. intros A B. unfold ld. assert (E : f t * (d / f t) = d) by (field; exact B). rewrite E. exact A. Qed.
Lemma ld_inv f t d : ld f t d -> f t <> 0 -> ld (fun s => / f s) t (- d).
Proof. intros A B. unfold ld in *. pose proof (is_derive_inv f t _ A B) as C. assert (E : / f t * - d = - (f t * d) / f t ^ 2) by (field; exact B). rewrite E. exact C. Qed.
Lemma ld_exp f t d : is_derive f t d -> ld (fun s => exp (f s)) t d.
Proof. intros A. unfold ld. pose proof (is_derive_comp exp f t _ _ (is_derive_exp (f t)) A) as C. rewrite Rmult_comm. exact C. Qed.
Lemma ld_Rpower f t d n : is_derive f t d -> 0 < f t -> ld (fun s => Rpower (f s) n) t (n * (d / f t)).
Proof.
  intros A K. unfold Rpower. apply (ld_exp (fun s => n * ln (f s))).
  pose proof (is_derive_comp ln f t _ _ (is_derive_ln (f t) K) A) as C.
  apply (is_derive_scal _ _ n) in C. replace (n * (d / f t)) with (n * scal d (/ f t)); [exact C|]. unfold scal; cbn; unfold mult; cbn. unfold Rdiv. ring.
Qed.
Lemma ld_qE q a t d : is_derive a t d -> 0 < 1 + q * a t -> ld (fun s => qE q (a s)) t (- (d / (1 + q * a t))).
Proof.
  intros A K. unfold qE. destruct (Req_EM_T q 0) as [E|E].
  - replace (- (d / (1 + q * a t))) with (- d) by (rewrite E; field). apply (ld_exp (fun s => - a s)). apply (is_derive_opp a t d A).
  - assert (B : is_derive (fun s => 1 + q * a s) t (q * d)).
    { replace (q * d) with (plus 0 (q * d)) by (unfold plus; cbn; ring). apply (is_derive_plus (fun _ => 1) (fun s => q * a s) t 0 (q * d)); [apply (is_derive_const 1)|apply (is_derive_scal a t q d A)]. }
    pose proof (ld_Rpower _ t _ (- (1 / q)) B K) as C. cbv beta in C. replace (- (d / (1 + q * a t))) with (- (1 / q) * (q * d / (1 + q * a t))); [exact C|]. field. split; [lra|exact E].
Qed.
Lemma ld_eq f t d e : ld f t d -> d = e -> ld f t e.
Proof. intros A <-. exact A. Qed.

(** absolute value and positive part of Jphi near a nonzero Jphi *)
Lemma loc_sign (c : R -> R) t u : is_derive c t u -> c t <> 0 -> locally t (fun s => 0 < c s * c t).
Proof.
  intros A K. assert (C : continuous c t) by (apply (ex_derive_continuous c t); exists u; exact A).
  assert (E : continuous (fun s => c s * c t) t) by (apply (continuous_mult c (fun _ => c t) t C), continuous_const).
  apply (E (fun y => 0 < y)). apply (open_gt 0). nra.
Qed.
Lemma sgn_derive c t u : is_derive c t u -> c t <> 0 -> is_derive (fun s => Rabs (c s)) t ((if Rle_b 0 (c t) then 1 else -1) * u).
Proof.
  intros A K. apply (is_derive_ext_loc (fun s => (if Rle_b 0 (c t) then 1 else -1) * c s)).
  - apply (filter_imp (fun s => 0 < c s * c t)); [|apply (loc_sign c t u A K)]. intros s Q. destruct (Rle_lt_dec 0 (c t)) as [L|L]; [rewrite (Rle_b_t _ _ L)|rewrite (Rle_b_f 0 (c t)) by lra].
    + rewrite Rabs_right by nra. apply Rmult_1_l.
    + rewrite Rabs_left by nra. change (-1 * c s = - c s). ring.
  - apply (is_derive_scal c t _ u A).
Qed.
Lemma neg_derive c t u : is_derive c t u -> c t <> 0 -> is_derive (fun s => Rmax 0 (- c s)) t (if Rle_b 0 (c t) then 0 else - u).
Proof.
  intros A K. destruct (Rle_lt_dec 0 (c t)) as [L|L]; [rewrite (Rle_b_t _ _ L)|rewrite (Rle_b_f 0 (c t)) by lra].
  - apply (is_derive_ext_loc (fun _ => 0)); [|apply (is_derive_const 0 t)]. apply (filter_imp (fun s => 0 < c s * c t)); [|apply (loc_sign c t u A K)]. intros s Q. rewrite Rmax_left by nra. reflexivity.
  - apply (is_derive_ext_loc (fun s => - c s)); [|apply (is_derive_opp c t u A)]. apply (filter_imp (fun s => 0 < c s * c t)); [|apply (loc_sign c t u A K)]. intros s Q. rewrite Rmax_right by nra. reflexivity.
Qed.
Lemma Rabs_sgn x : (if Rle_b 0 x then 1 else -1) * x = Rabs x.
Proof. destruct (Rle_lt_dec 0 x) as [L|L]; [rewrite (Rle_b_t _ _ L), Rabs_right by lra|rewrite (Rle_b_f 0 x), Rabs_left by lra]; ring. Qed.

Ltac der f H := match type of H with is_derive _ ?t ?d => let E := fresh in assert (E : Derive (fun x : R => f x) t = d) by (apply is_derive_unique; exact H); rewrite ?E; clear E end.
(** sqrt(S^2+a^2) *)
Lemma hyp_derive (S0 : R -> R) (a t d : R) : is_derive S0 t d -> 0 < S0 t ^ 2 + a ^ 2 ->
  is_derive (fun s => sqrt (S0 s ^ 2 + a ^ 2)) t (S0 t * d / sqrt (S0 t ^ 2 + a ^ 2)).
Proof.
  intros A K. assert (Q : 0 < sqrt (S0 t ^ 2 + a ^ 2)) by (apply sqrt_lt_R0, K).
  auto_derive.
  - repeat split; [exists d; exact A|]. cbn in K |- *. lra.
  - der S0 A. replace (S0 t * (S0 t * 1) + a * (a * 1)) with (S0 t ^ 2 + a ^ 2) by ring.  field. lra.
Qed.

Lemma prod_derive (a b : R -> R) (k t da db : R) : is_derive a t da -> is_derive b t db -> is_derive (fun s => a s * b s / k) t ((da * b t + a t * db) / k).
Proof.
  intros A B. unfold Rdiv. auto_derive; [repeat split; [exists da; exact A|exists db; exact B]|]. der a A. der b B. ring.
Qed.
(** ** Exponential *)
Lemma expConstruct_valid P : expConstruct P = true <-> expValid P.
Proof.
  unfold expConstruct, expValid. rewrite !andb_true_iff. 
  assert (L : forall a b, Rlt_b a b = true <-> a < b). { intros a b. destruct (Rlt_le_dec a b) as [K|K]; [rewrite Rlt_b_t by exact K|rewrite Rlt_b_f by lra]; split; intros; try lra; try reflexivity; try discriminate. }
  assert (M : forall a b, Rle_b a b = true <-> a <= b). { intros a b. destruct (Rle_lt_dec a b) as [K|K]; [rewrite Rle_b_t by exact K|rewrite Rle_b_f by lra]; split; intros; try lra; try reflexivity; try discriminate. }
  rewrite !L, !M. tauto.
Qed.

Section Exp.
Variable P : expPar.
Hypothesis V : expValid P.
Let Js (J : actions) := let '(Jr, Jz, Jphi) := J in Rabs Jphi + eCoefJr P * Jr + eCoefJz P * Jz.
Lemma Js_nonneg J : physical J -> 0 <= Js J.
Proof. destruct J as [[Jr Jz] Jp]. intros (A & B). destruct V as (_ & _ & _ & _ & _ & _ & C & D & _). unfold Js. pose proof (Rabs_pos Jp). pose proof (Rmult_le_pos _ _ C A). pose proof (Rmult_le_pos _ _ D B). lra. Qed.
Lemma one_plus q a : 0 <= q -> 0 <= a -> 0 < 1 + q * a. Proof. intros A B. pose proof (Rmult_le_pos _ _ A B). lra. Qed.
Lemma negJ x : (if Rle_b 0 x then 0 else x) = - Rmax 0 (- x).
Proof. destruct (Rle_lt_dec 0 x) as [L|L]; [rewrite (Rle_b_t _ _ L), Rmax_left by lra|rewrite (Rle_b_f 0 x), Rmax_right by lra]; ring. Qed.

Lemma exp_value J : qok (eQJr P) -> qok (eQJz P) -> qok (eQJphi P) -> physical J -> fst (expEval P J) = expDF P J.
Proof.
  intros Q1 Q2 Q3 F. pose proof (Js_nonneg J F) as K. destruct J as [[Jr Jz] Jp]. destruct F as (F1 & F2). destruct V as (V1 & V2 & V3 & V4 & V5 & V6 & V7 & V8 & V9 & V10 & V11).
  unfold expEval, expDF. cbv zeta. cbn [fst]. rewrite Rabs_sgn, negJ. unfold pow_2.
  set (Jsum := Rabs Jp + eCoefJr P * Jr + eCoefJz P * Jz) in *. change (0 <= Jsum) in K. clearbody Jsum.
  replace (Jsum * Jsum + eAddJden P * eAddJden P) with (Jsum ^ 2 + eAddJden P ^ 2) by ring. replace (Jsum * Jsum + eAddJvel P * eAddJvel P) with (Jsum ^ 2 + eAddJvel P ^ 2) by ring.
  pose proof (sqrt_pos (Jsum ^ 2 + eAddJden P ^ 2)) as Kd. pose proof (sqrt_pos (Jsum ^ 2 + eAddJvel P ^ 2)) as Kv.
  set (Jd := sqrt (Jsum ^ 2 + eAddJden P ^ 2)) in *. set (Jv := sqrt (Jsum ^ 2 + eAddJvel P ^ 2)) in *. clearbody Jd Jv.
  pose proof (Rmax_l 0 (- Jp)) as Kn. set (n := Rmax 0 (- Jp)) in *. clearbody n.
  assert (I1 : 0 <= Jd / eJphi0 P) by (apply Rmult_le_pos; [lra|left; apply Rinv_0_lt_compat; lra]).
  assert (I2 : 0 <= (Jr + n) * Jv / eJr0 P ^ 2) by (apply Rmult_le_pos; [apply Rmult_le_pos; lra|left; apply Rinv_0_lt_compat; nra]).
  assert (I3 : 0 <= Jz * Jv / eJz0 P ^ 2) by (apply Rmult_le_pos; [apply Rmult_le_pos; lra|left; apply Rinv_0_lt_compat; nra]).
  replace (Jv * (Jr - - n) / (eJr0 P * eJr0 P)) with ((Jr + n) * Jv / eJr0 P ^ 2) by (field; lra).
  replace (Jv * Jz / (eJz0 P * eJz0 P)) with (Jz * Jv / eJz0 P ^ 2) by (field; lra).
  rewrite !qexp_qE by (try assumption; apply one_plus; lra).
  set (q1 := qE _ _). set (q2 := qE _ _). set (q3 := qE _ _). clearbody q1 q2 q3. pose proof PI_RGT_0 as HP. field. lra.
Qed.
Lemma exp_pos_value J : 0 <= expDF P J /\ (physical J -> 0 < Js J \/ (0 < eAddJden P /\ 0 < eAddJvel P) -> 0 < expDF P J).
Proof.
  destruct V as (V1 & V2 & V3 & V4 & V5 & V6 & V7 & V8 & V9 & V10 & V11). pose proof PI_RGT_0 as HP.
  assert (HP3 : 0 < (2 * PI) ^ 3) by (apply pow_lt; lra).
  destruct J as [[Jr Jz] Jp]. unfold expDF. cbv zeta. set (Jsum := Rabs Jp + eCoefJr P * Jr + eCoefJz P * Jz) in *.
  pose proof (qE_pos (eQJphi P) (sqrt (Jsum ^ 2 + eAddJden P ^ 2) / eJphi0 P)) as Q1. pose proof (qE_pos (eQJr P) ((Jr + Rmax 0 (- Jp)) * sqrt (Jsum ^ 2 + eAddJvel P ^ 2) / eJr0 P ^ 2)) as Q2.
  pose proof (qE_pos (eQJz P) (Jz * sqrt (Jsum ^ 2 + eAddJvel P ^ 2) / eJz0 P ^ 2)) as Q3.
  set (q1 := qE _ _) in *. set (q2 := qE _ _) in *. set (q3 := qE _ _) in *. clearbody q1 q2 q3.
  assert (A : forall a, 0 < a -> 0 < / a ^ 2) by (intros a Ka; apply Rinv_0_lt_compat, pow_lt, Ka).
  pose proof (A _ V2) as A2. pose proof (A _ V3) as A3. pose proof (A _ V4) as A4. pose proof (Rinv_0_lt_compat _ HP3) as A5.
  pose proof (sqrt_pos (Jsum ^ 2 + eAddJden P ^ 2)) as Kd. pose proof (sqrt_pos (Jsum ^ 2 + eAddJvel P ^ 2)) as Kv.
  split.
  - unfold Rdiv. repeat apply Rmult_le_pos; lra.
  - intros F W. assert (W1 : 0 < Jsum ^ 2 + eAddJden P ^ 2 /\ 0 < Jsum ^ 2 + eAddJvel P ^ 2).
    { unfold Js in W. fold Jsum in W. clearbody Jsum. clear - W. destruct W as [W|(W & W')]; [pose proof (pow2_ge_0 (eAddJden P)); pose proof (pow2_ge_0 (eAddJvel P)); split; nra|pose proof (pow2_ge_0 Jsum); split; nra]. }
    destruct W1 as (W1 & W2). pose proof (sqrt_lt_R0 _ W1) as L1. pose proof (sqrt_lt_R0 _ W2) as L2.
    unfold Rdiv. repeat apply Rmult_lt_0_compat; lra.
Qed.
(** the reported derivatives are the gradient of the documented function *)
Lemma exp_grad J : qok (eQJr P) -> qok (eQJz P) -> qok (eQJphi P) -> physical J -> v3 J <> 0 -> is_grad (expDF P) J (snd (expEval P J)).
Proof.
  intros Q1 Q2 Q3 F N. pose proof (exp_value J Q1 Q2 Q3 F) as EV. pose proof (Js_nonneg J F) as K. destruct J as [[Jr Jz] Jp]. cbn in N. destruct F as (F1 & F2). pose proof V as (V1 & V2 & V3 & V4 & V5 & V6 & V7 & V8 & V9 & V10 & V11).
  intros c1 c2 c3 t u1 u2 u3 E D1 D2 D3. injection E as E1 E2 E3.
  set (dS := (if Rle_b 0 Jp then 1 else -1) * u3 + eCoefJr P * u1 + eCoefJz P * u2).
  assert (DS : is_derive (fun s => Rabs (c3 s) + eCoefJr P * c1 s + eCoefJz P * c2 s) t dS).
  { unfold dS. rewrite <- E3 in *. apply (is_derive_plus (fun s => Rabs (c3 s) + eCoefJr P * c1 s) (fun s => eCoefJz P * c2 s)); [apply (is_derive_plus (fun s => Rabs (c3 s)) (fun s => eCoefJr P * c1 s))|]; [apply sgn_derive; assumption|apply (is_derive_scal c1 t _ _ D1)|apply (is_derive_scal c2 t _ _ D2)]. }
  assert (KS : 0 < Rabs Jp + eCoefJr P * Jr + eCoefJz P * Jz).
  { pose proof (Rabs_pos_lt _ N). pose proof (Rmult_le_pos _ _ V7 F1). pose proof (Rmult_le_pos _ _ V8 F2). lra. }
  set (S0 := fun s => Rabs (c3 s) + eCoefJr P * c1 s + eCoefJz P * c2 s) in *.
  assert (ES : S0 t = Rabs Jp + eCoefJr P * Jr + eCoefJz P * Jz) by (unfold S0; rewrite E1, E2, E3; reflexivity).
  assert (PD : forall a, 0 < S0 t ^ 2 + a ^ 2) by (intros a; rewrite ES; pose proof (pow2_ge_0 a); nra).
  pose proof (hyp_derive S0 (eAddJden P) t dS DS (PD _)) as DD. pose proof (hyp_derive S0 (eAddJvel P) t dS DS (PD _)) as DV.
  set (Jd := fun s => sqrt (S0 s ^ 2 + eAddJden P ^ 2)) in *. set (Jv := fun s => sqrt (S0 s ^ 2 + eAddJvel P ^ 2)) in *.
  assert (Kd : 0 < Jd t) by (apply sqrt_lt_R0, PD). assert (Kv : 0 < Jv t) by (apply sqrt_lt_R0, PD).
  change (sqrt (S0 t ^ 2 + eAddJden P ^ 2)) with (Jd t) in DD. change (sqrt (S0 t ^ 2 + eAddJvel P ^ 2)) with (Jv t) in DV.
  set (N0 := fun s => Rmax 0 (- c3 s)).
  assert (DN : is_derive N0 t (if Rle_b 0 Jp then 0 else - u3)) by (rewrite <- E3 in *; apply neg_derive; assumption).
  assert (KN : 0 <= N0 t) by apply Rmax_l.
  set (dN := if Rle_b 0 Jp then 0 else - u3) in *.
  assert (A1 : is_derive (fun s => Jd s / eJphi0 P) t (S0 t * dS / Jd t / eJphi0 P)).
  { pose proof (is_derive_scal Jd t (/ eJphi0 P) _ DD) as C. apply (is_derive_ext (fun s => / eJphi0 P * Jd s)); [intros s; change (@eq R (/ eJphi0 P * Jd s) (Jd s / eJphi0 P)); unfold Rdiv; ring|]. replace (S0 t * dS / Jd t / eJphi0 P) with (/ eJphi0 P * (S0 t * dS / Jd t)) by (unfold Rdiv; ring). exact C. }
  assert (A2 : is_derive (fun s => (c1 s + N0 s) * Jv s / eJr0 P ^ 2) t (((u1 + dN) * Jv t + (Jr + N0 t) * (S0 t * dS / Jv t)) / eJr0 P ^ 2)).
  { rewrite <- E1. apply (prod_derive (fun s => c1 s + N0 s) Jv (eJr0 P ^ 2) t (u1 + dN)); [apply (is_derive_plus c1 N0); assumption|exact DV]. }
  assert (A3 : is_derive (fun s => c2 s * Jv s / eJz0 P ^ 2) t ((u2 * Jv t + Jz * (S0 t * dS / Jv t)) / eJz0 P ^ 2)).
  { rewrite <- E2. apply (prod_derive c2 Jv (eJz0 P ^ 2) t u2); assumption. }
  set (x1 := Jd t / eJphi0 P). set (x2 := (c1 t + N0 t) * Jv t / eJr0 P ^ 2). set (x3 := c2 t * Jv t / eJz0 P ^ 2).
  assert (I1 : 0 < 1 + eQJphi P * x1) by (apply one_plus; [lra|unfold x1; left; apply Rdiv_lt_0_compat; lra]).
  assert (I2 : 0 < 1 + eQJr P * x2).
  { apply one_plus; [lra|]. unfold x2. rewrite E1. apply Rmult_le_pos; [apply Rmult_le_pos; [|left; exact Kv]|left; apply Rinv_0_lt_compat, pow_lt; lra]. clear - F1 KN. lra. }
  assert (I3 : 0 < 1 + eQJz P * x3).
  { apply one_plus; [lra|]. unfold x3. rewrite E2. apply Rmult_le_pos; [apply Rmult_le_pos; [exact F2|left; exact Kv]|left; apply Rinv_0_lt_compat, pow_lt; lra]. }
  pose proof (ld_qE (eQJphi P) _ t _ A1 I1) as B1. pose proof (ld_qE (eQJr P) _ t _ A2 I2) as B2. pose proof (ld_qE (eQJz P) _ t _ A3 I3) as B3.
  fold x1 in B1. fold x2 in B2. fold x3 in B3. cbv beta in B1, B2, B3. fold x1 in B1. fold x2 in B2. fold x3 in B3.
  pose proof (ld_of Jd t _ DD (Rgt_not_eq _ _ Kd)) as B4. pose proof (ld_of Jv t _ DV (Rgt_not_eq _ _ Kv)) as B5.
  pose proof (ld_mult _ _ t _ _ (ld_mult _ _ t _ _ (ld_mult _ _ t _ _ (ld_mult _ _ t _ _ (ld_const (eNorm P / (2 * PI) ^ 3 / eJphi0 P ^ 2 / eJr0 P ^ 2 / eJz0 P ^ 2) t) B4) B1) (ld_mult _ _ t _ _ B5 B2)) (ld_mult _ _ t _ _ B5 B3)) as B.
  unfold ld in B. cbv beta in B.
  assert (EX : forall s, eNorm P / (2 * PI) ^ 3 / eJphi0 P ^ 2 / eJr0 P ^ 2 / eJz0 P ^ 2 * Jd s * qE (eQJphi P) (Jd s / eJphi0 P) * (Jv s * qE (eQJr P) ((c1 s + N0 s) * Jv s / eJr0 P ^ 2)) * (Jv s * qE (eQJz P) (c2 s * Jv s / eJz0 P ^ 2)) = expDF P (c1 s, c2 s, c3 s)).
  { intros s. unfold expDF. cbv zeta. fold (S0 s). fold (Jd s) (Jv s) (N0 s). unfold Rdiv. ring. }
  apply (is_derive_ext _ _ _ _ EX).
  rewrite (EX t) in B. fold x1 x2 x3 in B.
  rewrite E1, E2, E3 in B. 
  match type of B with is_derive _ _ ?x => match goal with |- is_derive _ _ ?y => replace y with x; [exact B|] end end.
  unfold expEval. cbv zeta. cbn [snd v1 v2 v3 fst]. unfold expEval in EV. cbv zeta in EV. cbn [fst] in EV. rewrite !EV. clear EV EX B B1 B2 B3 B4 B5.
  rewrite Rabs_sgn, negJ. unfold pow_2.
  assert (EN0 : N0 t = Rmax 0 (- Jp)) by (unfold N0; rewrite E3; reflexivity). rewrite <- EN0, <- ES.
  replace (S0 t * S0 t + eAddJden P * eAddJden P) with (S0 t ^ 2 + eAddJden P ^ 2) by ring. replace (S0 t * S0 t + eAddJvel P * eAddJvel P) with (S0 t ^ 2 + eAddJvel P ^ 2) by ring.
  fold (Jd t) (Jv t). fold x1. 
  replace (Jv t * (Jr - - N0 t) / (eJr0 P * eJr0 P)) with x2 by (unfold x2; rewrite E1; field; lra).
  replace (Jv t * Jz / (eJz0 P * eJz0 P)) with x3 by (unfold x3; rewrite E2; field; lra).
  set (v := expDF P (Jr, Jz, Jp)). 
  assert (X1 : Jd t = x1 * eJphi0 P) by (unfold x1; field; lra).
  assert (X2 : Jr + N0 t = x2 * eJr0 P ^ 2 / Jv t) by (unfold x2; rewrite E1; field; split; lra).
  assert (X3 : Jz = x3 * eJz0 P ^ 2 / Jv t) by (unfold x3; rewrite E2; field; split; lra).
  rewrite X2. rewrite X3 at 1. 
  assert (NZ : (if negb (Req_b (- N0 t) 0) then v * Jv t / (eJr0 P * eJr0 P) / (1 + eQJr P * x2) else 0) * u3 = - dN * (v * Jv t / (eJr0 P * eJr0 P) / (1 + eQJr P * x2))).
  { unfold dN. destruct (Rle_lt_dec 0 Jp) as [L|L].
    - rewrite (Rle_b_t _ _ L), EN0, Rmax_left, (Req_b_t (- 0) 0) by lra. cbn [negb]. ring.
    - rewrite (Rle_b_f 0 Jp), EN0, Rmax_right, (Req_b_f (- - Jp) 0) by lra. cbn [negb]. ring. }
  rewrite Rmult_plus_distr_r with (r3 := u3). rewrite NZ. unfold dS.
  clear - X1 I1 I2 I3 Kd Kv V2 V3 V4.
  set (sg := if Rle_b 0 Jp then 1 else -1). set (A := S0 t) in *. set (d := Jd t) in *. set (w := Jv t) in *. clearbody sg A d w v dN x1 x2 x3.
  assert (X1' : eJphi0 P = d / x1).
  { rewrite X1. field. intros E. rewrite E in X1. lra. }
  assert (x1 <> 0) by (intros E; rewrite E in X1; lra).
  rewrite X1'. field. repeat split; lra.
Qed.
End Exp.
