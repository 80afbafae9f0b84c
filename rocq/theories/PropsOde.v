(** C59: solvers of ordinary differential equations (DOP853 and Hermite) *)
From Coq Require Import Reals Lra Lia List Bool FunctionalExtensionality.
From Coquelicot Require Import Coquelicot.
From Verif Require Import RandReal PolyModel PolyProofs OdeModel OdeProofs OdeProofs2 OdeProofs3 OdeProofs4 OdeProofs5 OdeProofs6 OdeSpec.
Import ListNotations.
Local Open Scope R_scope.

Lemma taylor_derive t0 k t : is_derive (fun t => (t - t0) ^ S k / INR (fact (S k))) t ((t - t0) ^ k / INR (fact k)).
Proof.
  apply (is_derive_ext (fun t => / INR (fact (S k)) * (t - t0) ^ S k)). { intros. apply Rmult_comm. }
  replace ((t - t0) ^ k / INR (fact k)) with (scal (/ INR (fact (S k))) (INR (S k) * 1 * (t - t0) ^ k)).
  - apply (is_derive_scal (fun t => (t - t0) ^ S k) t (/ INR (fact (S k))) (INR (S k) * 1 * (t - t0) ^ k)).
    apply (is_derive_pow (fun t => t - t0) (S k) t 1). auto_derive; [exact Logic.I|ring].
  - change (/ INR (fact (S k)) * (INR (S k) * 1 * (t - t0) ^ k) = (t - t0) ^ k / INR (fact k)). rewrite fact_simpl, mult_INR. field. split; apply not_0_INR; [apply fact_neq_0|lia].
Qed.

Lemma pow_int_derive t0 k c t : is_derive (fun t => c * (t - t0) ^ S k / INR (S k)) t (c * (t - t0) ^ k).
Proof.
  apply (is_derive_ext (fun t => c / INR (S k) * (t - t0) ^ S k)). { intros u. change (c / INR (S k) * (u - t0) ^ S k = c * (u - t0) ^ S k / INR (S k)). field. apply not_0_INR. lia. }
  replace (c * (t - t0) ^ k) with (scal (c / INR (S k)) (INR (S k) * 1 * (t - t0) ^ k)).
  - apply (is_derive_scal (fun t => (t - t0) ^ S k) t (c / INR (S k)) (INR (S k) * 1 * (t - t0) ^ k)).
    apply (is_derive_pow (fun t => t - t0) (S k) t 1). auto_derive; [exact Logic.I|ring].
  - change (c / INR (S k) * (INR (S k) * 1 * (t - t0) ^ k) = c * (t - t0) ^ k). field. apply not_0_INR. lia.
Qed.

(** ** DOP853 *)
(** after init the solution at the current time is the given state, the derivative is consistent, and the first timestep is between 1e-12 and 1e12 whatever the ODE system is *)
Theorem C59_init N rhs accAbs pw x t i : let s := dop_init N rhs accAbs pw x (Some t) dop_new in
  d_time s = t /\ consistent rhs s /\ / 10 ^ 12 <= d_next s <= 10 ^ 12 /\ ((i < N)%nat -> dopGetSol N s t i = Some (x i)).
Proof.
  cbv zeta. unfold dop_init. cbn [d_time d_next d_x d_k1]. split; [reflexivity|]. split; [reflexivity|]. split.
  - rewrite (Req_b_t (d_next dop_new) 0) by reflexivity. pose proof (initTimeStep_range N rhs t x accAbs pw) as H. unfold HMIN, HMAX in H. simpl. lra.
  - intros Hi. unfold dopGetSol. cbn [d_time d_x]. rewrite (proj2 (Nat.leb_gt N i) Hi), (Req_b_t t t eq_refl). reflexivity.
Qed.
(** an index which is not below the number of variables is an error *)
Theorem C59_index N s t i : dopGetSol N s t i = None -> (N <= i)%nat.
Proof. unfold dopGetSol. destruct (Nat.leb N i) eqn:E; [intros _; apply Nat.leb_le; exact E|]. destruct (Req_b t _); [discriminate|]. destruct (Req_b t _); discriminate. Qed.
Theorem C59_index_error N s t i : (N <= i)%nat -> dopGetSol N s t i = None.
Proof. intros H. unfold dopGetSol. rewrite (proj2 (Nat.leb_le N i) H). reflexivity. Qed.

(** a timestep of a given length is always taken, with exactly this length *)
Theorem C59_step_given fuel N rhs accFac accRel accAbs dt s : dt <> 0 -> exists s',
  dopStep (S fuel) N rhs accFac accRel accAbs (Given dt) s = Some (dt, s') /\ d_time s' = d_time s + dt /\ 0 < d_next s' <= 6 * Rabs dt /\ consistent rhs s'.
Proof.
  intros H. unfold dopStep. cbn [dopLoop]. rewrite (Req_b_f dt 0 H). cbn [orb]. eexists. split; [reflexivity|].
  match goal with |- context [dopFinish rhs s dt ?n] => destruct (finish_fields rhs s dt n) as (A & _ & C & _ & E & _); rewrite A, C end.
  split; [reflexivity|]. split; [|unfold consistent; rewrite A; rewrite A in E; exact E].
  match goal with |- context [grow ?f] => pose proof (grow_range f (root8_nonneg _)) end. pose proof (Rabs_pos_lt dt H). nra.
Qed.
(** an automatic timestep has the right sign and is not longer than getTimeStep; it is accepted if the error estimate is within the tolerance,
    or if the estimate did not become twice smaller in four successive reductions of the timestep; the next timestep is between 0.9 and 6 times this one *)
Theorem C59_step_auto fuel N rhs accFac accRel accAbs backward s h s' : 0 < d_next s -> dopStep fuel N rhs accFac accRel accAbs (Auto backward) s = Some (h, s') ->
  d_time s' = d_time s + h /\ 0 < Rabs h <= d_next s /\ (if backward then h < 0 else 0 < h) /\ 0.9 * Rabs h <= d_next s' <= 6 * Rabs h /\ consistent rhs s' /\
  let err := estimate N rhs accFac accRel accAbs s in
  (err h <= 1 \/ 1 < err h /\ d_next s' = Rabs h /\
    exists h1 h2 h3 h4, Rabs h < Rabs h1 /\ Rabs h1 < Rabs h2 /\ Rabs h2 < Rabs h3 /\ Rabs h3 < Rabs h4 /\
      err h1 < 2 * err h /\ err h2 < 2 * err h1 /\ err h3 < 2 * err h2 /\ err h4 < 2 * err h3).
Proof.
  intros Hn. unfold dopStep. set (h0 := d_next s * (if backward then -1 else 1)).
  match goal with |- context [dopLoop fuel ?e false 0 None h0] => set (err := e) end.
  assert (Hh0 : h0 <> 0) by (unfold h0; destruct backward; lra).
  pose proof (loop_auto err (fun h => errEst_nonneg _ _ _ _ _ _ _ _) fuel 0 None h0 Hh0 (le_S _ _ (le_S _ _ (le_S _ _ (le_n 0)))) eq_refl) as L.
  destruct (dopLoop fuel err false 0 None h0) as [h' next| |] eqn:E; [| |discriminate]; [|contradiction].
  intros H. inversion H; subst h' s'; clear H. destruct L as (A & B & C & D & F).
  destruct (finish_fields rhs s h next) as (G1 & _ & G2 & _ & G3 & _). rewrite G1, G2.
  assert (RH : Rabs h0 = d_next s). { unfold h0. rewrite Rabs_mult, (Rabs_right (d_next s)) by lra. destruct backward; [rewrite Rabs_left by lra|rewrite Rabs_right by lra]; lra. }
  split; [reflexivity|]. split. { split; [apply Rabs_pos_lt; exact A|lra]. }
  split. { unfold h0 in B. destruct backward; nra. }
  split; [exact D|]. split; [unfold consistent; rewrite G1; rewrite G1 in G3; exact G3|].
  cbv zeta. change (estimate N rhs accFac accRel accAbs s) with err. destruct F as [[F1 _]|(F1 & F2 & F3)]; [left; exact F1|right]. split; [exact F1|]. split; [exact F2|exact F3].
Qed.
(** the choice of the timestep always ends (if the right-hand side is bounded near the current point and the tolerances are not zero) *)
Theorem C59_step_ends N rhs accFac accRel accAbs af0 backward s : consistent rhs s -> locally_bounded N rhs (d_time s) (d_x s) ->
  0 < af0 -> (forall t y, af0 <= accFac t y) -> 0 <= accRel -> (forall i, (i < N)%nat -> 0 < accAbs + accRel * Rabs (d_x s i)) ->
  exists fuel, dopStep fuel N rhs accFac accRel accAbs (Auto backward) s <> None.
Proof. apply step_ends. Qed.

(** dense output: after a step, getSol gives the old and the new solution at both ends, it is differentiable everywhere,
    and its derivatives at both ends are the right-hand sides of the ODE: successive steps join with a continuous derivative *)
Theorem C59_dense fuel N rhs accFac accRel accAbs dt s h s' i : h <> 0 -> consistent rhs s -> (i < N)%nat -> dopStep fuel N rhs accFac accRel accAbs dt s = Some (h, s') ->
  exists f : R -> R, (forall t, dopGetSol N s' t i = Some (f t)) /\
    dopGetSol N s' (d_time s) i = Some (d_x s i) /\ dopGetSol N s' (d_time s') i = Some (d_x s' i) /\
    (forall t, ex_derive f t) /\ is_derive f (d_time s) (rhs (d_time s) (d_x s) i) /\ is_derive f (d_time s') (rhs (d_time s') (d_x s') i).
Proof.
  intros Hh Hc Hi. unfold dopStep. destruct (dopLoop _ _ _ _ _ _) as [h' next| |]; [| |discriminate]; intros H; inversion H; subst; try contradiction. clear H.
  exists (dpoly (dopFinish rhs s h next) i). destruct (finish_derive rhs s h next i Hh) as (D1 & D2 & D3). destruct (finish_fields rhs s h next) as (A & B & _ & _ & E & F & _).
  split; [intros t; apply finish_dense; assumption|]. split.
  { unfold dopGetSol. rewrite (proj2 (Nat.leb_gt N i) Hi), A, B. rewrite (Req_b_f (d_time s)) by lra. rewrite (Req_b_t (d_time s) (d_time s) eq_refl), F. reflexivity. }
  split. { unfold dopGetSol. rewrite (proj2 (Nat.leb_gt N i) Hi). rewrite Req_b_t by reflexivity. reflexivity. }
  split; [exact D3|]. split; [rewrite <- Hc; exact D1|]. rewrite <- E. exact D2.
Qed.

(** order 8: for every linear autonomous system x' = L x of any dimension, the solution after a step is the Taylor series of exp(h L) x up to h^8, up to 1e-21 in the coefficients *)
Theorem C59_linear_order : exists b : nat -> R, (forall k, (k <= 8)%nat -> Rabs (b k - / INR (fact k)) <= / 10 ^ 21) /\
  forall fuel N L accFac accRel accAbs dt s h s' i, linear_map L -> consistent (fun _ => L) s -> h <> 0 ->
    dopStep fuel N (fun _ => L) accFac accRel accAbs dt s = Some (h, s') -> d_x s' i = vsum 14 (fun k => b k * h ^ k * power L k (d_x s) i).
Proof.
  exists betaL. split; [apply betaL_close|]. intros fuel N L accFac accRel accAbs dt s h s' i HL Hc Hh. unfold dopStep.
  destruct (dopLoop _ _ _ _ _ _) as [h' next| |]; [| |discriminate]; intros H; inversion H; subst; try contradiction.
  apply (linear_step_ok (fun _ => L) L s h i HL (fun _ _ => eq_refl) Hc).
Qed.
(** the interpolated solution is the Taylor series of exp(p h L) x up to h^6, 0 <= p <= 1 *)
Theorem C59_linear_dense : exists g : nat -> R -> R, (forall k p, (k <= 6)%nat -> 0 <= p <= 1 -> Rabs (g k p - p ^ k / INR (fact k)) <= / 10 ^ 18) /\
  forall fuel N L accFac accRel accAbs dt s h s' i p, linear_map L -> consistent (fun _ => L) s -> h <> 0 -> (i < N)%nat ->
    dopStep fuel N (fun _ => L) accFac accRel accAbs dt s = Some (h, s') -> dopGetSol N s' (d_time s + p * h) i = Some (vsum 14 (fun k => g k p * h ^ k * power L k (d_x s) i)).
Proof.
  exists gamL. split; [intros; apply gamL_close; assumption|]. intros fuel N L accFac accRel accAbs dt s h s' i p HL Hc Hh Hi. unfold dopStep.
  destruct (dopLoop _ _ _ _ _ _) as [h' next| |]; [| |discriminate]; intros H; inversion H; subst; try contradiction.
  rewrite (finish_dense N _ s h next i _ Hi Hh). f_equal. rewrite (linear_dense_ok (fun _ => L) L s h next i _ HL (fun _ _ => eq_refl) Hc Hh).
  apply vsum_ext. intros k _. replace ((d_time s + p * h - d_time s) / h) with p by (field; exact Hh). reflexivity.
Qed.
(** ... and not better: for a linear system of 8 variables whose solution is a polynomial of degree 7, the error in the middle of the step is exactly c h^7 with c >= 1e-7
    (and the step itself has no such term) *)
Theorem C59_dense_sharp : exists (L : vec -> vec) (c : R), / 10 ^ 7 <= c /\ linear_map L /\ forall t0, exists X : R -> vec,
  (forall t i, (i < 8)%nat -> is_derive (fun t => X t i) t (L (X t) i)) /\
  forall fuel accFac accRel accAbs dt s h s', d_time s = t0 -> d_x s = X t0 -> consistent (fun _ => L) s -> h <> 0 ->
    dopStep fuel 8 (fun _ => L) accFac accRel accAbs dt s = Some (h, s') ->
    exists v, dopGetSol 8 s' (t0 + h / 2) 0 = Some v /\ v - X (t0 + h / 2) 0%nat = c * h ^ 7.
Proof.
  exists shift, OdeProofs4.c7. split; [apply c7_pos|]. split; [apply shift_linear|]. intros t0.
  exists (fun t i => if Nat.leb i 7 then (t - t0) ^ (7 - i) / INR (fact (7 - i)) else 0). split.
  - intros t i Hi. unfold shift. destruct (Nat.ltb i 7) eqn:E.
    + apply Nat.ltb_lt in E. rewrite (proj2 (Nat.leb_le i 7)) by lia. rewrite (proj2 (Nat.leb_le (S i) 7)) by lia.
      replace (7 - i)%nat with (S (7 - S i)) by lia. apply taylor_derive.
    + apply Nat.ltb_ge in E. assert (i = 7%nat) as -> by lia. simpl. apply (is_derive_ext (fun _ => 1)). { intros. change (@eq R 1 (1 / 1)). field. } apply @is_derive_const.
  - intros fuel accFac accRel accAbs dt s h s' Ht Hx Hc Hh. unfold dopStep.
    destruct (dopLoop _ _ _ _ _ _) as [h' next| |]; [| |discriminate]; intros H; inversion H; subst; try contradiction. clear H.
    eexists. split. { apply finish_dense; [lia|exact Hh]. }
    replace (d_time s + h / 2 - d_time s) with (h / 2) by ring. cbn [Nat.leb]. rewrite Nat.sub_0_r. apply sharp_ok; [|exact Hc|exact Hh].
    rewrite Hx. apply functional_extensionality. intros i. unfold top. rewrite Rminus_eq_0.
    do 7 (destruct i as [|i]; [cbn [Nat.leb Nat.eqb Nat.sub]; rewrite pow_i by lia; unfold Rdiv; ring|]). destruct i as [|i]; [simpl; field|reflexivity].
Qed.
(** the two error estimates of a linear system start from h^5 and h^3 *)
Theorem C59_linear_error : exists e5 e3 : nat -> R, (forall k, (k < 5)%nat -> Rabs (e5 k) <= / 10 ^ 22) /\ (forall k, (k < 3)%nat -> Rabs (e3 k) <= / 10 ^ 22) /\
  forall L s h i, linear_map L -> consistent (fun _ => L) s -> let st := rkStages (fun _ => L) (d_time s) (d_x s) (d_k1 s) h in
    errVec5 st i = vsum 13 (fun k => e5 k * h ^ k * power L (S k) (d_x s) i) /\ errVec3 st i = vsum 13 (fun k => e3 k * h ^ k * power L (S k) (d_x s) i).
Proof.
  exists err5L, err3L. split; [apply err5L_small|]. split; [apply err3L_small|]. intros L s h i HL Hc. cbv zeta. apply (linear_err_ok (fun _ => L) L s h i HL (fun _ _ => eq_refl) Hc).
Qed.
(** order 8 for quadratures: a right-hand side which is a polynomial of degree <= 7 of the time is integrated exactly, up to 1e-22; the interpolation is exact for degree <= 6 *)
Theorem C59_quadrature fuel N rhs G accFac accRel accAbs dt s h s' i : (forall t y i, rhs t y i = poly 8 (G i) (d_time s) t) -> consistent rhs s -> h <> 0 ->
  dopStep fuel N rhs accFac accRel accAbs dt s = Some (h, s') ->
  Rabs (d_x s' i - (d_x s i + poly_int 8 (G i) (d_time s) (d_time s + h))) <= / 10 ^ 22 * vsum 8 (fun m => Rabs (G i m * h ^ S m)).
Proof.
  intros Hr Hc Hh. unfold dopStep. destruct (dopLoop _ _ _ _ _ _) as [h' next| |]; [| |discriminate]; intros H; inversion H; subst; try contradiction.
  apply quad_step_ok; assumption.
Qed.
Theorem C59_quadrature_dense fuel N rhs G accFac accRel accAbs dt s h s' i p : (forall t y i, rhs t y i = poly 7 (G i) (d_time s) t) -> consistent rhs s -> h <> 0 -> (i < N)%nat -> 0 <= p <= 1 ->
  dopStep fuel N rhs accFac accRel accAbs dt s = Some (h, s') -> exists v, dopGetSol N s' (d_time s + p * h) i = Some v /\
  Rabs (v - (d_x s i + poly_int 7 (G i) (d_time s) (d_time s + p * h))) <= / 10 ^ 18 * vsum 7 (fun m => Rabs (G i m * h ^ S m)).
Proof.
  intros Hr Hc Hh Hi Hp. unfold dopStep. destruct (dopLoop _ _ _ _ _ _) as [h' next| |]; [| |discriminate]; intros H; inversion H; subst; try contradiction.
  eexists. split; [apply finish_dense; assumption|]. apply quad_dense_ok; assumption.
Qed.
(** poly_int is the integral *)
Theorem C59_poly_int n G t0 t : is_derive (poly_int n G t0) t (poly n G t0 t) /\ poly_int n G t0 t0 = 0.
Proof.
  unfold poly_int, poly. split.
  - induction n; cbn [vsum]. { apply @is_derive_const. }
    apply (@is_derive_plus R_AbsRing R_NormedModule (fun t => vsum n (fun m => G m * (t - t0) ^ S m / INR (S m))) (fun t => G n * (t - t0) ^ S n / INR (S n))). { exact IHn. }
    apply pow_int_derive.
  - rewrite Rminus_eq_0. rewrite (vsum_ext n _ (fun _ => 0)). { apply vsum_zero. } intros m _. rewrite pow_ne_zero by lia. unfold Rdiv. ring.
Qed.

(** ** Hermite *)
(** time accounting; a given timestep is taken exactly, an automatic one is the predicted one or less than its half *)
Theorem C59_hermite_step n eval accRel s : (forall dt, dt <> 0 -> exists s', hermiteStep n eval accRel (Given dt) s = Some (dt, s')) /\
  (forall dt r s', hermiteStep n eval accRel dt s = Some (r, s') -> r <> 0 /\ h_time s' = h_time s + r) /\
  (forall r0 r s', 0 <= accRel -> h_next s = Fin r0 -> 0 < r0 -> hermiteStep n eval accRel (Auto false) s = Some (r, s') -> 0 < r /\ (r = r0 \/ r < r0 / 2)).
Proof.
  split; [|split].
  - intros dt H. apply hermite_given. exact H.
  - intros dt r s' H. destruct (hermite_step_inv _ _ _ _ _ _ _ H) as (t & A & _ & B & _). split; assumption.
  - intros. eapply hermite_auto; eassumption.
Qed.
(** dense output: the interpolated velocity is the derivative of the interpolated position, the interpolation starts from the previous position and velocity,
    its second derivative at the beginning is the acceleration there; the velocity at the end is the new one *)
Theorem C59_hermite_dense n eval accRel dt s r s' i : (i < n)%nat -> hermiteStep n eval accRel dt s = Some (r, s') ->
  (forall t, is_derive (fun t => hermiteGetSol n s' t i) t (hermiteGetSol n s' t (n + i))) /\
  hermiteGetSol n s' (h_time s) i = h_newpos s i /\ hermiteGetSol n s' (h_time s) (n + i) = h_newvel s i /\ hermiteGetSol n s' (h_time s') (n + i) = h_newvel s' i /\
  is_derive (fun t => hermiteGetSol n s' t (n + i)) (h_time s) (fst (eval (h_time s) (h_newpos s) (h_newvel s)) i).
Proof.
  intros Hi H. assert (GV : forall t, hermiteGetSol n s' t (n + i) = hvel s' i t). { intros t. replace (n + i)%nat with (1 * n + i)%nat by lia. apply getSol_vel; lia. }
  destruct (hermite_end n eval accRel dt s r s' i H) as (A & _ & B & C & D & _). destruct (hermite_step_inv _ _ _ _ _ _ _ H) as (t & _ & _ & _ & E & _).
  rewrite E in B, C, D. split; [|split; [|split; [|split]]].
  - intros t1. rewrite GV. apply (is_derive_ext (hpos s' i)). { intros. symmetry. apply getSol_pos. exact Hi. } apply hpos_derive.
  - rewrite getSol_pos by exact Hi. exact B.
  - rewrite GV. exact C.
  - rewrite GV. exact A.
  - apply (is_derive_ext (hvel s' i)). { intros. symmetry. apply GV. } exact D.
Qed.
(** accelerations which are cubic polynomials of the time: exact velocity; the position is exact up to the quadratic ones *)
Theorem C59_hermite_polynomial n (A B C D : vec) accRel dt s : dt <> 0 -> let t0 := h_time s in
  exists s', hermiteStep n (fun t _ _ => (fun i => A i + B i * (t - t0) + C i * (t - t0) ^ 2 + D i * (t - t0) ^ 3, fun i => B i + 2 * C i * (t - t0) + 3 * D i * (t - t0) ^ 2)) accRel (Given dt) s = Some (dt, s') /\
  forall i, h_newvel s' i = h_newvel s i + A i * dt + B i * dt ^ 2 / 2 + C i * dt ^ 3 / 3 + D i * dt ^ 4 / 4 /\
    (D i = 0 -> h_newpos s' i = h_newpos s i + h_newvel s i * dt + A i * dt ^ 2 / 2 + B i * dt ^ 3 / 6 + C i * dt ^ 4 / 12).
Proof.
  intros Hd t0. destruct (hermite_given n (fun t _ _ => (fun i => A i + B i * (t - t0) + C i * (t - t0) ^ 2 + D i * (t - t0) ^ 3, fun i => B i + 2 * C i * (t - t0) + 3 * D i * (t - t0) ^ 2)) accRel dt s Hd) as [s' E].
  exists s'. split; [exact E|]. intros i. destruct (hermite_cubic n A B C D accRel dt s s' E i) as [V P]. split; [exact V|]. intros HD. rewrite P, HD. field.
Qed.
(** the interpolated position at the end of the step is not the new position: it differs by r^5/720 times the estimated fifth derivative *)
Theorem C59_hermite_continuity_refuted : (forall n eval accRel dt s r s' i, (i < n)%nat -> hermiteStep n eval accRel dt s = Some (r, s') ->
    hermiteGetSol n s' (h_time s') i = h_newpos s' i + r ^ 5 / 720 * h_crackle s' i) /\
  exists eval s s', hermiteStep 1 eval 1 (Given 1) s = Some (1, s') /\ hermiteGetSol 1 s' (h_time s') 0 <> h_newpos s' 0%nat.
Proof.
  split.
  - intros n eval accRel dt s r s' i Hi H. rewrite getSol_pos by exact Hi. destruct (hermite_end n eval accRel dt s r s' i H) as (_ & A & _). exact A.
  - set (ev := fun (t : R) (_ _ : vec) => ((fun _ : nat => t ^ 3), (fun _ : nat => 3 * t ^ 2))). exists ev, hermite_new.
    destruct (hermite_given 1 ev 1 1 hermite_new ltac:(lra)) as [s' E]. exists s'. split; [exact E|].
    rewrite (getSol_pos 1 s' _ 0) by lia. destruct (hermite_end 1 ev 1 (Given 1) hermite_new 1 s' 0 E) as (_ & A & _). rewrite A.
    destruct (hermite_step_inv _ _ _ _ _ _ _ E) as (t & _ & Et & _ & _ & _ & _ & _ & _ & _ & _ & _ & _ & E10 & _). rewrite E10, Et. unfold hermiteTrial, ev. cbn. lra.
Qed.
(** a step backward in time is never repeated with a shorter timestep *)
Theorem C59_hermite_backward_refuted n eval accRel s r0 : 0 <= accRel -> h_next s = Fin r0 -> 0 < r0 -> exists s', hermiteStep n eval accRel (Auto true) s = Some (- r0, s').
Proof. apply hermite_backward. Qed.
(** uniform acceleration: the solution is exact, but the next timestep is NaN, so an automatic step after it fails *)
Theorem C59_hermite_uniform_refuted n (g : vec) accRel dt s : dt <> 0 -> exists s', hermiteStep n (fun _ _ _ => (g, zerov)) accRel (Given dt) s = Some (dt, s') /\
  h_next s' = NaN /\ (forall i, h_newvel s' i = h_newvel s i + dt * g i) /\ (forall i, h_newpos s' i = h_newpos s i + dt * h_newvel s i + dt * dt / 2 * g i) /\
  forall b, hermiteStep n (fun _ _ _ => (g, zerov)) accRel (Auto b) s' = None.
Proof. apply hermite_uniform. Qed.
(** an index out of range is not an error: 2n+i gives the same as n+i; and getSol right after init does not give the state *)
Theorem C59_hermite_index_refuted n s t i : (i < n)%nat -> hermiteGetSol n s t (2 * n + i) = hermiteGetSol n s t (n + i).
Proof. intros H. rewrite (getSol_vel n s t i 2) by lia. replace (n + i)%nat with (1 * n + i)%nat by lia. rewrite getSol_vel by lia. reflexivity. Qed.
Theorem C59_hermite_init_refuted ini pos vel t : hermiteGetSol 1 (hermite_init ini pos vel (Some t) hermite_new) t 0 = 0.
Proof. unfold hermiteGetSol, hermite_init. cbn. unfold zerov. field. Qed.

(** ** the hypotheses are met *)
(** a harmonic oscillator: x0' = x1, x1' = -x0, from (1, 0), one automatic step *)
Definition osc (x : vec) : vec := fun i => match i with O => x 1%nat | 1%nat => - x 0%nat | _ => 0 end.
Lemma osc_linear : linear_map osc. Proof. split; intros; destruct i as [|[|i]]; simpl; ring. Qed.
Definition osc0 : dop := dop_init 2 (fun _ => osc) 1 1 (fun i => match i with O => 1 | _ => 0 end) (Some 0) dop_new.
Example C59_oscillator : exists fuel h s', dopStep fuel 2 (fun _ => osc) (fun _ _ => 1) 1 1 (Auto false) osc0 = Some (h, s') /\ 0 < h /\ linear_map osc /\ consistent (fun _ => osc) osc0.
Proof.
  destruct (C59_init 2 (fun _ => osc) 1 1 (fun i => match i with O => 1 | _ => 0 end) 0 0) as (T & Cc & Nn & _). fold osc0 in T, Cc, Nn.
  assert (Pn : 0 < d_next osc0). { pose proof (Rinv_0_lt_compat (10 ^ 12) (pow_lt 10 12 ltac:(lra))). lra. }
  destruct (C59_step_ends 2 (fun _ => osc) (fun _ _ => 1) 1 1 1 false osc0) as [fuel Hf]; try lra.
  - exact Cc.
  - exists 1, 2. split; [lra|]. intros t x _ Hx i Hi. assert (A := Hx 0%nat ltac:(lia)). assert (B := Hx 1%nat ltac:(lia)). simpl in A, B.
    apply Rabs_le_between in A, B. destruct i as [|[|i]]; simpl; [| |rewrite Rabs_R0; lra]; apply Rabs_le; lra.
  - intros. lra.
  - intros i _. pose proof (Rabs_pos (d_x osc0 i)). lra.
  - destruct (dopStep fuel 2 (fun _ => osc) (fun _ _ => 1) 1 1 (Auto false) osc0) as [[h s']|] eqn:E; [|congruence].
    exists fuel, h, s'. split; [exact E|]. destruct (C59_step_auto _ _ _ _ _ _ _ _ _ _ Pn E) as (_ & _ & S1 & _). split; [exact S1|]. split; [apply osc_linear|exact Cc].
Qed.
(** a quadratic right-hand side *)
Example C59_quadrature_case : exists s' : dop, dopStep 1 1 (fun t _ _ => poly 8 (fun m => if Nat.eqb m 2 then 3 else 0) 0 t) (fun _ _ => 1) 1 1 (Given 2)
  (dop_init 1 (fun t _ _ => poly 8 (fun m => if Nat.eqb m 2 then 3 else 0) 0 t) 1 1 zerov (Some 0) dop_new) = Some (2, s') /\ Rabs (d_x s' 0%nat - 8) <= / 10 ^ 22 * 24.
Proof.
  set (rhs := fun (t : R) (_ : vec) (_ : nat) => poly 8 (fun m => if Nat.eqb m 2 then 3 else 0) 0 t). set (s := dop_init 1 rhs 1 1 zerov (Some 0) dop_new).
  destruct (C59_step_given 0 1 rhs (fun _ _ => 1) 1 1 2 s ltac:(lra)) as (s' & E & _). exists s'. split; [exact E|].
  pose proof (C59_quadrature 1 1 rhs (fun _ m => if Nat.eqb m 2 then 3 else 0) (fun _ _ => 1) 1 1 (Given 2) s 2 s' 0 (fun _ _ _ => eq_refl) eq_refl ltac:(lra) E) as Q.
  change (d_x s 0%nat) with 0 in Q. change (d_time s) with 0 in Q. unfold poly_int in Q. cbn [vsum Nat.eqb] in Q.
  match type of Q with Rabs (_ - ?a) <= _ * ?b => replace a with 8 in Q by (simpl; field); replace b with 24 in Q end. { exact Q. }
  rewrite !Rmult_0_l, Rabs_R0, Rabs_right by (simpl; lra). simpl. ring.
Qed.
Example C59_hermite_case : exists s', hermiteStep 1 (fun _ x v => (fun i => - x i, fun i => - v i)) 1 (Given 1) (hermite_init (fun _ => 1) (fun _ => 1) zerov (Some 0) hermite_new) = Some (1, s') /\ h_time s' = 1.
Proof.
  destruct (hermite_given 1 (fun _ x v => (fun i => - x i, fun i => - v i)) 1 1 (hermite_init (fun _ => 1) (fun _ => 1) zerov (Some 0) hermite_new) ltac:(lra)) as [s' E].
  exists s'. split; [exact E|]. destruct (hermite_step_inv _ _ _ _ _ _ _ E) as (t & _ & _ & A & _). rewrite A. unfold hermite_init. cbn [h_time]. ring.
Qed.

Print Assumptions C59_linear_order.
Print Assumptions C59_linear_dense.
Print Assumptions C59_step_ends.
Print Assumptions C59_dense_sharp.
Print Assumptions C59_hermite_continuity_refuted.
