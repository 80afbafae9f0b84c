(** Properties C33, C35-C37, C41-C43: elementary functions of math_core, over exact real numbers (and wrapAngle also in IEEE doubles). *)
From Coq Require Import Reals Lra Lia ZArith List Psatz.
From Coquelicot Require Import Coquelicot.
From Verif Require Import FloatBase.
From Verif Require Import MathModel MathProofs MathInt ScaleModel ScaleProofs ScaleAcc AngleFloat PolyProofs.
Local Open Scope R_scope.

(* ------------------------------------------------------------------ C33: powers *)
(** pow(x,n) for every int except INT_MIN terminates in at most 31 iterations with x^n *)
Theorem C33_integer_power x n : (- 2 ^ 31 < n < 2 ^ 31)%Z -> (x <> 0 \/ (0 <= n)%Z) -> pow_int 31 x n = Some (powerRZ x n).
Proof. apply pow_int_ok. Qed.
Example C33_case : pow_int 31 2 10 = Some 1024 /\ pow_int 31 2 (-2) = Some (/ 4).
Proof. rewrite !C33_integer_power by (try lia; left; lra). split; f_equal; [change 10%Z with (Z.of_nat 10); rewrite <- pow_powerRZ; cbn [pow]; ring|change (/ (2 ^ 2) = / 4); f_equal; cbn [pow]; ring]. Qed.
(** [-n] overflows for INT_MIN; with the wrap-around result of two's complement hardware (n stays negative) the loop would never end *)
Theorem C33_minimum_int_refuted x fuel : pow_int fuel x (- 2 ^ 31) = None /\ powLoop fuel 1 (1 / x) (- 2 ^ 31) = None.
Proof.
  split; [reflexivity|].
  assert (G : forall fuel r x n, (n < 0)%Z -> powLoop fuel r x n = None).
  { clear. induction fuel as [|f IH]; intros r x n H; [reflexivity|]. cbn [powLoop]. 
    assert (S : (Z.shiftr n 1 < 0)%Z) by (apply Z.shiftr_neg; exact H). destruct (Z.eqb_spec (Z.shiftr n 1) 0); [lia|]. apply IH, S. }
  apply G. reflexivity.
Qed.
(** pow(x,y) with a real exponent is the power function, whatever shortcut is taken *)
Theorem C33_real_power x n : 0 < x -> pow_real x n = Rpower x n.
Proof. apply pow_real_ok. Qed.

(* ------------------------------------------------------------------ C35: streaming averages *)
(** spec: sum, mean and sum of squared deviations of a list *)
Definition list_sum (l : list R) : R := fold_right Rplus 0 l.
Definition list_mean (l : list R) : R := list_sum l / INR (length l).
Definition list_sumsq (l : list R) : R := list_sum (map (fun x => (x - list_mean l) ^ 2) l).
Definition averager (l : list R) : avg_state := fold_left avg_add l avg_init.
Theorem C35_average l : l <> nil ->
  avg_mean (averager l) = list_mean l /\ avg_count (averager l) = length l /\
  ((2 <= length l)%nat -> avg_disp (averager l) = list_sumsq l / (INR (length l) - 1)).
Proof.
  intros H. unfold averager. rewrite avg_fold by exact H. split; [reflexivity|]. split; [reflexivity|]. intros L. unfold avg_disp.
  replace (Nat.ltb 1 (length l)) with true by (symmetry; apply Nat.ltb_lt; lia). reflexivity.
Qed.
(** the mean does not depend on the order of the values and a shift of all values shifts it *)
Theorem C35_average_shift l c : l <> nil -> avg_mean (averager (map (fun x => x + c) l)) = avg_mean (averager l) + c /\ avg_disp (averager (map (fun x => x + c) l)) = avg_disp (averager l).
Proof.
  intros H. assert (H' : map (fun x => x + c) l <> nil) by (destruct l; [congruence|discriminate]).
  assert (S : forall l', list_sum (map (fun x => x + c) l') = list_sum l' + INR (length l') * c).
  { induction l' as [|a l' IH]; [cbn; ring|]. cbn [map list_sum fold_right length]. fold (list_sum (map (fun x => x + c) l')) (list_sum l'). rewrite IH, S_INR. ring. }
  assert (Np : 0 < INR (length l)) by (apply (lt_INR 0); destruct l; [congruence|cbn; lia]).
  assert (M : list_mean (map (fun x => x + c) l) = list_mean l + c) by (unfold list_mean; rewrite S, map_length; field; lra).
  unfold averager. rewrite !avg_fold by assumption. cbn [avg_mean fst]. split; [exact M|].
  unfold avg_disp. rewrite map_length. assert (Q : ssqR (map (fun x => x + c) l) = ssqR l); [|rewrite Q; reflexivity].
  unfold ssqR. change (meanR (map (fun x => x + c) l)) with (list_mean (map (fun x => x + c) l)). rewrite M, map_map. f_equal. apply map_ext. intros x. change (list_mean l) with (meanR l). ring.
Qed.
(** documented as 1/N sum (x-mean)^2; actually the unbiased estimate with 1/(N-1) *)
Theorem C35_dispersion_documented_refuted : ~ forall l, l <> nil -> avg_disp (averager l) = list_sumsq l / INR (length l).
Proof.
  intros H. specialize (H (0 :: 2 :: nil) ltac:(discriminate)).
  destruct (C35_average (0 :: 2 :: nil) ltac:(discriminate)) as [_ [_ D]]. rewrite D in H by (cbn; lia). unfold list_sumsq, list_mean, list_sum in H. cbn in H. lra.
Qed.

(* ------------------------------------------------------------------ C36: angles *)
(** exact arithmetic, any period P>0: in [0,P), congruent to x, hence the unique such number *)
Theorem C36_wrap P x : 0 < P ->
  0 <= wrapAngle P x < P /\ (exists k : Z, wrapAngle P x = x - P * IZR k) /\
  (forall y (k : Z), 0 <= y < P -> y = x - P * IZR k -> y = wrapAngle P x).
Proof.
  intros H. destruct (wrapAngle_ok P x H) as [A [k B]]. split; [exact A|]. split; [eauto|]. intros y j Y E. apply (mod_unique P y (wrapAngle P x) (k - j)); try assumption. rewrite B, E, minus_IZR. ring.
Qed.
(** binary64: every double including NaN and infinities gives a number in [0,2pi) *)
Theorem C36_wrap_double_range x : is_finite (wrapAngleF x) = true /\ 0 <= B2R (wrapAngleF x) < B2R TWOPI.
Proof. apply wrapF_range. Qed.
(** numbers already in the range are unchanged; so wrapping twice = wrapping once *)
Theorem C36_wrap_double_identity x : is_finite x = true -> 0 <= B2R x < B2R TWOPI -> B2R (wrapAngleF x) = B2R x.
Proof. apply wrapF_id. Qed.
Theorem C36_wrap_double_idempotent x : B2R (wrapAngleF (wrapAngleF x)) = B2R (wrapAngleF x).
Proof. destruct (wrapF_range x) as [F Rg]. apply wrapF_id; assumption. Qed.
(** the result is congruent to x modulo the double nearest to 2pi, to within rounding errors of the argument *)
Theorem C36_wrap_double_accuracy x : is_finite x = true -> Rabs (B2R x) <= bpow radix2 1000 ->
  exists k : Z, Rabs (B2R (wrapAngleF x) - (B2R x - B2R TWOPI * IZR k)) <= bpow radix2 (-53) * (3 * Rabs (B2R x) + 17).
Proof. apply wrapF_accuracy. Qed.
Example C36_case : B2R TWOPI = 884279719003555 / IZR (2 ^ 47) /\ B2R (wrapAngleF (fofZ 3)) = 3.
Proof.
  split; [apply TWOPI_val|]. destruct (fofZ_correct 3 ltac:(cbn; lia)) as [A B]. transitivity (B2R (fofZ 3)); [|exact A]. apply wrapF_id; [exact B|]. rewrite A, (proj1 TWOPI_val). unfold tp. cbn. lra.
Qed.
(** unwrapAngle: congruent to x and within half a period of the previous value; no other congruent number is closer *)
Theorem C36_unwrap P x xprev : 0 < P ->
  (exists k : Z, unwrapAngle P x xprev = x - P * IZR k) /\ Rabs (unwrapAngle P x xprev - xprev) <= P / 2 /\
  (forall k : Z, Rabs (unwrapAngle P x xprev - xprev) <= Rabs (x - P * IZR k - xprev)).
Proof.
  intros H. destruct (unwrapAngle_ok P x xprev H) as [A [k B]]. split; [eauto|]. split; [exact A|]. intros j.
  destruct (Z.eq_dec j k) as [->|N]; [rewrite B; lra|].
  assert (D : P <= Rabs (P * IZR (k - j))). { rewrite Rabs_mult, (Rabs_right P) by lra. rewrite <- abs_IZR. assert (1 <= IZR (Z.abs (k - j))) by (apply IZR_le; lia). nra. }
  pose proof (Rabs_triang (x - P * IZR j - xprev) (- (unwrapAngle P x xprev - xprev))) as T. rewrite Rabs_Ropp in T.
  replace (x - P * IZR j - xprev + - (unwrapAngle P x xprev - xprev)) with (P * IZR (k - j)) in T by (rewrite B, minus_IZR; ring). lra.
Qed.
(** a whole sequence unwrapped element by element never jumps by more than half a period *)
Theorem C36_unwrap_sequence P xprev l : 0 < P -> length (unwrapSeq P xprev l) = length l /\ forall i, (i < length l)%nat ->
  (exists k : Z, nth i (unwrapSeq P xprev l) 0 = nth i l 0 - P * IZR k) /\
  Rabs (nth i (unwrapSeq P xprev l) 0 - nth i (xprev :: unwrapSeq P xprev l) 0) <= P / 2.
Proof. intros H. split; [apply unwrapSeq_length|]. intros i L. apply unwrapSeq_ok; assumption. Qed.

(* ------------------------------------------------------------------ C37: scaling transformations *)
(** scale(unscale(s)) = s on the whole range of the scaled variable, for all transformations with a closed-form inverse *)
Theorem C37_scale_of_unscale sc s : invertible sc -> srange sc s -> urange sc (unscale sc s) /\ scale sc (unscale sc s) = Some s.
Proof. intros I S. split; [apply unscale_in_urange; [exact S|left; exact I]|apply scale_unscale; assumption]. Qed.
(** unscale(scale(u)) = u on the whole range of the original variable *)
Theorem C37_unscale_of_scale sc u : invertible sc -> urange sc u -> exists s, scale sc u = Some s /\ srange sc s /\ unscale sc s = u.
Proof. apply unscale_scale. Qed.
(** the returned derivative is the derivative (s=1/2 of ScalingDoubleInf is treated separately below) *)
Theorem C37_derivative sc s : srange sc s -> (match sc with ScalingDoubleInf _ => s <> 1 / 2 | _ => True end) -> is_derive (unscale sc) s (duds sc s).
Proof. apply unscale_derive. Qed.
(** cubic and quintic transformations: strictly increasing, endpoints map to endpoints; hence a bijection of [0,1] onto [uleft,uright] *)
Theorem C37_cubic_quintic_bijection sc ul ur : ul < ur -> sc = ScalingCub ul ur \/ sc = ScalingQui ul ur ->
  unscale sc 0 = ul /\ unscale sc 1 = ur /\
  (forall s t, 0 <= s -> s < t -> t <= 1 -> unscale sc s < unscale sc t) /\
  (forall u, ul <= u <= ur -> exists s, 0 <= s <= 1 /\ unscale sc s = u).
Proof.
  intros U E.
  assert (E0 : unscale sc 0 = ul) by (destruct E as [-> | ->]; cbn [unscale]; unfold pow_2, pow_3; ring).
  assert (E1 : unscale sc 1 = ur) by (destruct E as [-> | ->]; cbn [unscale]; unfold pow_2, pow_3; ring).
  split; [exact E0|]. split; [exact E1|]. split.
  - intros s t A B C. destruct E as [-> | ->]; [apply cub_mono|apply qui_mono]; assumption.
  - intros u Hu. 
    assert (C : continuity (fun s => unscale sc s - u)). { intros s. apply continuity_pt_filterlim. apply (continuous_minus (unscale sc) (fun _ => u)); [|apply continuous_const].
      destruct E as [-> | ->]; apply ex_derive_continuous; unfold unscale; cbv beta iota zeta; unfold pow_2, pow_3; auto_derive; exact Logic.I. }
    destruct (Req_dec u ul) as [->|N0]; [exists 0; split; [lra|exact E0]|]. destruct (Req_dec u ur) as [->|N1]; [exists 1; split; [lra|exact E1]|].
    destruct (IVT (fun s => unscale sc s - u) 0 1 C ltac:(lra) ltac:(lra) ltac:(lra)) as [s [S1 S2]]. exists s. split; [exact S1|lra].
Qed.
(** scale(ScalingCub): exact at both ends and in the middle; elsewhere two Newton iterations whose only stationary point is the exact inverse *)
Theorem C37_cubic_scale_partial ul ur : ul < ur ->
  scale (ScalingCub ul ur) ul = Some 0 /\ scale (ScalingCub ul ur) ur = Some 1 /\ scale (ScalingCub ul ur) (1 / 2 * (ul + ur)) = Some (1 / 2) /\
  forall s, 0 < s < 1 -> forall u, unscale (ScalingCub ul ur) s = u <-> cubNewton ((u - ul) / (ur - ul)) s = s.
Proof.
  intros U. repeat split.
  - cbn [scale]. rewrite Req_b_t by reflexivity. reflexivity.
  - cbn [scale]. rewrite Req_b_f by lra. rewrite Req_b_t by reflexivity. reflexivity.
  - cbn [scale]. rewrite !Req_b_f by lra. rewrite Req_b_t by reflexivity. reflexivity.
  - intros E. apply cubNewton_fix; [exact H|]. rewrite <- E. cbn [unscale]. unfold pow_2. field. lra.
  - intros E. apply cubNewton_fix in E; [|exact H]. assert (E' : u = ul + (ur - ul) * (s * s * (3 - 2 * s))) by (rewrite E; field; lra). rewrite E'. cbn [unscale]. unfold pow_2. ring.
Qed.
(** scale(ScalingCub) inverts unscale over the whole interval up to a relative error of 2e-13, measured from the nearer end (exact arithmetic) *)
Theorem C37_cubic_scale_accuracy ul ur x : ul < ur -> 0 <= x <= 1 ->
  exists s, scale (ScalingCub ul ur) (unscale (ScalingCub ul ur) x) = Some s /\ Rabs (s - x) <= 2 / 10 ^ 13 * Rmin x (1 - x).
Proof. apply cub_accuracy. Qed.
(** ScaledFnc: chain rule; ScaledIntegrand: change of the integration variable *)
Theorem C37_scaled_function sc f df s : srange sc s -> (match sc with ScalingDoubleInf _ => s <> 1 / 2 | _ => True end) ->
  is_derive f (unscale sc s) (df (unscale sc s)) -> is_derive (scaledFnc_val sc f) s (scaledFnc_der sc df s).
Proof.
  intros S X D. unfold scaledFnc_val, scaledFnc_der.
  evar_last; [apply (is_derive_comp f (unscale sc) s); [exact D|apply unscale_derive; assumption]|]. unfold scal; cbn; unfold mult; cbn. ring.
Qed.
Theorem C37_scaled_integral sc f s1 s2 : (forall s, Rmin s1 s2 <= s <= Rmax s1 s2 -> srange sc s /\ match sc with ScalingDoubleInf _ => s <> 1 / 2 | _ => True end) ->
  (forall s, Rmin s1 s2 <= s <= Rmax s1 s2 -> continuous f (unscale sc s)) ->
  is_RInt (scaledIntegrand sc f) s1 s2 (RInt f (unscale sc s1) (unscale sc s2)).
Proof. intros S C. apply scaled_integral; try assumption. intros s Hs. destruct (S s Hs). apply duds_cont; assumption. Qed.
Example C37_case : scale (ScalingSemiInf 2) (unscale (ScalingSemiInf 2) (1 / 3)) = Some (1 / 3) /\ scale ScalingInf 0 = Some (1 / 2).
Proof.
  split; [apply C37_scale_of_unscale; cbn; lra|]. destruct (C37_scale_of_unscale ScalingInf (1 / 2) Logic.I ltac:(cbn; lra)) as [_ E]. rewrite <- E. f_equal. cbn [unscale]. unfold unscaleInf. field.
Qed.

(* ------------------------------------------------------------------ C41: function objects *)
(** spec: the object's reported derivatives are the derivatives of its value *)
Definition consistent (f : fnc) (x : R) : Prop := is_derive (fv f) x (fd f x) /\ is_derive (fd f) x (fd2 f x).
Theorem C41_product f g x : consistent f x -> consistent g x -> consistent (fncProduct f g) x /\ fv (fncProduct f g) x = fv f x * fv g x.
Proof. intros F G. split; [apply product_ok; assumption|reflexivity]. Qed.
Theorem C41_shifted f dx dy x : consistent f (x - dx) -> consistent (fncShifted f dx dy) x /\ fv (fncShifted f dx dy) x = f.(fv) (x - dx) - dy.
Proof. intros F. split; [apply shifted_ok; exact F|reflexivity]. Qed.
Theorem C41_monomial m x : (x <> 0 \/ (0 <= m)%Z) -> consistent (monomial m) x.
Proof. apply monomial_ok. Qed.
Theorem C41_gaussian sigma x : sigma <> 0 -> consistent (gaussian sigma) x.
Proof. apply gaussian_ok. Qed.
(** log-log scaled function: value and first derivative always; second derivative unless the shortcut for tiny numbers is taken *)
Theorem C41_loglog_partial f u : 0 < fv f (exp u) -> consistent f (exp u) ->
  exp (fv (fncLogLog f) u) = fv f (exp u) /\ is_derive (fv (fncLogLog f)) u (fd (fncLogLog f) u) /\
  (dbl_min <= Rabs (fd2 f (exp u)) -> dbl_min <= Rabs (fd f (exp u) * (fd (fncLogLog f) u - 1)) -> is_derive (fd (fncLogLog f)) u (fd2 (fncLogLog f) u)).
Proof.
  intros P C. split; [cbn [fv fncLogLog]; apply exp_ln, P|]. split; [apply loglog_d1; assumption|]. intros A B.
  evar_last; [apply loglog_d2; assumption|]. cbn [fd2 fncLogLog fd] in *. cbv zeta. rewrite !Rlt_b_f by assumption. reflexivity.
Qed.
(** f(x) = 1+x has a log-log second derivative x/(1+x)^2, but the object returns zero (f''=0 triggers the shortcut) *)
Theorem C41_loglog_second_derivative_refuted : exists f, (forall x, consistent f x) /\ 0 < fv f (exp 0) /\ ~ is_derive (fd (fncLogLog f)) 0 (fd2 (fncLogLog f) 0).
Proof.
  exists {| fv := fun x => 1 + x; fd := fun _ => 1; fd2 := fun _ => 0 |}.
  assert (C : forall x, consistent {| fv := fun x => 1 + x; fd := fun _ => 1; fd2 := fun _ => 0 |} x) by (intros x; split; cbn [fv fd fd2]; auto_derive; auto; ring).
  split; [exact C|]. split; [cbn [fv]; rewrite exp_0; lra|]. intros D.
  pose proof (fun P => loglog_d2 _ 0 P (C (exp 0))) as T. specialize (T ltac:(cbn [fv]; rewrite exp_0; lra)). cbn [fv fd fd2] in T.
  apply is_derive_unique in T. apply is_derive_unique in D. rewrite T in D. revert D. cbn [fd2 fncLogLog fv fd]. cbv zeta. rewrite exp_0.
  assert (Dm : 0 < dbl_min) by (apply Rinv_0_lt_compat, pow_lt; lra).
  rewrite (Rlt_b_t (Rabs 0) dbl_min) by (rewrite Rabs_R0; exact Dm). rewrite Bool.orb_true_r. intros D. assert (X : (0 * 1 - 1 * (1 * 1 / (1 + 1) - 1)) * 1 / (1 + 1) = 1 / 4) by field. lra.
Qed.

(* ------------------------------------------------------------------ C42: analytic integrals *)
Theorem C42_monomial_integral m n x1 x2 : ((0 <= m)%Z /\ (0 <= n)%Z \/ 0 < x1 /\ 0 < x2 \/ x1 < 0 /\ x2 < 0) ->
  is_RInt (fun x => powerRZ x m * powerRZ x n) x1 x2 (monomial_integrate m x1 x2 n).
Proof. apply monomial_integral. Qed.
(** [Phi] is any antiderivative of exp(-y^2/2), such as sqrt(pi/2) erf(y/sqrt 2) *)
Theorem C42_gaussian_integral_partial Phi sigma x1 x2 n : sigma <> 0 -> (n <= 7)%nat -> (forall y, is_derive Phi y (exp (- (1 / 2) * y * y))) ->
  is_RInt (fun x => fv (gaussian sigma) x * x ^ n) x1 x2 (gaussian_integrate Phi sigma x1 x2 n).
Proof. apply gaussian_integral. Qed.
Example C42_case : is_RInt (fun x => powerRZ x 2 * powerRZ x (-3)) 1 (exp 1) 1 /\ exists Phi, forall y, is_derive Phi y (exp (- (1 / 2) * y * y)).
Proof.
  split.
  - pose proof (C42_monomial_integral 2 (-3) 1 (exp 1) ltac:(right; left; split; [lra|apply exp_pos])) as H. unfold monomial_integrate in H. cbn [Z.add Z.eqb] in H.
    replace (Z.eqb (2 + -3 + 1) 0) with true in H by reflexivity. replace (exp 1 / 1) with (exp 1) in H by field. rewrite ln_exp in H. exact H.
  - exists (fun y => RInt (fun t => exp (- (1 / 2) * t * t)) 0 y). intros y.
    apply (is_derive_RInt (fun t => exp (- (1 / 2) * t * t)) (fun y => RInt (fun t => exp (- (1 / 2) * t * t)) 0 y) 0 y).
    + apply filter_forall. intros b. apply (RInt_correct (fun t => exp (- (1 / 2) * t * t))). apply (ex_RInt_continuous (fun t => exp (- (1 / 2) * t * t))). intros z _. apply (ex_derive_continuous (fun t => exp (- (1 / 2) * t * t))). auto_derive. exact Logic.I.
    + apply (ex_derive_continuous (fun t => exp (- (1 / 2) * t * t))). auto_derive. exact Logic.I.
Qed.

(* ------------------------------------------------------------------ C43: local interpolation *)
(** linear interpolation: the unique straight line through two points *)
Theorem C43_linear a b x x1 x2 : x1 <> x2 -> linearInterp x x1 x2 (a + b * x1) (a + b * x2) = a + b * x.
Proof. intros N. unfold linearInterp. field. lra. Qed.
Theorem C43_linear_nodes x1 x2 y1 y2 : x1 <> x2 -> linearInterp x1 x1 x2 y1 y2 = y1 /\ linearInterp x2 x1 x2 y1 y2 = y2.
Proof. intros N. unfold linearInterp. split; field; lra. Qed.
(** cubic Hermite interpolation: the given values and derivatives at both nodes; reproduces every cubic polynomial *)
Theorem C43_hermite_nodes x1 x2 y1 y2 d1 d2 : x1 <> x2 ->
  let f x := hermiteInterp x x1 x2 y1 y2 d1 d2 in
  f x1 = y1 /\ f x2 = y2 /\ is_derive f x1 d1 /\ is_derive f x2 d2.
Proof.
  intros N f. unfold f. split; [unfold hermiteInterp, pow_2; field; lra|]. split; [unfold hermiteInterp, pow_2; field; lra|].
  split; (evar_last; [apply hermite_derive; exact N|cbv zeta; field; lra]).
Qed.
Theorem C43_hermite_cubic c0 c1 c2 c3 x x1 x2 : x1 <> x2 ->
  let p t := c0 + c1 * t + c2 * t ^ 2 + c3 * t ^ 3 in let p' t := c1 + 2 * c2 * t + 3 * c3 * t ^ 2 in
  hermiteInterp x x1 x2 (p x1) (p x2) (p' x1) (p' x2) = p x.
Proof. intros N p p'. unfold p, p', hermiteInterp, pow_2. cbv zeta. field. lra. Qed.
(** hermiteDerivs: exact second to fifth derivatives at the middle of three points for every polynomial of fifth degree, on a non-uniform grid *)
Definition quintic (c0 c1 c2 c3 c4 c5 x1 x : R) : R := c0 + c1 * (x - x1) + c2 * (x - x1) ^ 2 + c3 * (x - x1) ^ 3 + c4 * (x - x1) ^ 4 + c5 * (x - x1) ^ 5.
Theorem C43_hermite_derivatives_partial c0 c1 c2 c3 c4 c5 x0 x1 x2 : x0 <> x1 -> x1 <> x2 -> x0 <> x2 -> x2 - x1 <> x1 - x0 ->
  let p := quintic c0 c1 c2 c3 c4 c5 x1 in
  hermiteDerivs x0 x1 x2 (p x0) (p x1) (p x2) (Derive p x0) (Derive p x1) (Derive p x2) =
  (Derive_n p 2 x1, Some (Derive_n p 3 x1), Derive_n p 4 x1, Derive_n p 5 x1).
Proof.
  intros N1 N2 N3 N4 p.
  assert (D1 : forall x, is_derive p x (dpoly5 c1 c2 c3 c4 c5 x1 x)) by (intros; apply (poly5_derive c0)).
  assert (E1 : forall x, Derive p x = dpoly5 c1 c2 c3 c4 c5 x1 x) by (intros; apply is_derive_unique, D1).
  rewrite !E1. pose proof (hermiteDerivs_poly c0 c1 c2 c3 c4 c5 x0 x1 x2 N1 N2 N3) as H. cbv zeta in H. change (poly5 c0 c1 c2 c3 c4 c5 x1) with p in H. rewrite H. rewrite Req_b_f by lra.
  assert (E2 : forall x, Derive_n p 2 x = 2 * c2 + 6 * c3 * (x - x1) + 12 * c4 * (x - x1) ^ 2 + 20 * c5 * (x - x1) ^ 3).
  { intros x. cbn [Derive_n]. rewrite (Derive_ext _ (dpoly5 c1 c2 c3 c4 c5 x1)) by exact E1. apply is_derive_unique. unfold dpoly5. auto_derive; [exact Logic.I|]. ring. }
  assert (E3 : forall x, Derive_n p 3 x = 6 * c3 + 24 * c4 * (x - x1) + 60 * c5 * (x - x1) ^ 2).
  { intros x. change (Derive_n p 3 x) with (Derive (Derive_n p 2) x). rewrite (Derive_ext _ _ x E2). apply is_derive_unique. auto_derive; [exact Logic.I|]. ring. }
  assert (E4 : forall x, Derive_n p 4 x = 24 * c4 + 120 * c5 * (x - x1)).
  { intros x. change (Derive_n p 4 x) with (Derive (Derive_n p 3) x). rewrite (Derive_ext _ _ x E3). apply is_derive_unique. auto_derive; [exact Logic.I|]. ring. }
  assert (E5 : forall x, Derive_n p 5 x = 120 * c5).
  { intros x. change (Derive_n p 5 x) with (Derive (Derive_n p 4) x). rewrite (Derive_ext _ _ x E4). apply is_derive_unique. auto_derive; [exact Logic.I|]. ring. }
  rewrite E2, E3, E4, E5. f_equal; f_equal; [f_equal; [ring|f_equal; ring]|ring].
Qed.
(** on a uniform grid the third derivative comes out as NaN (0*(x/0)) *)
Theorem C43_hermite_third_derivative_refuted : exists x0 x1 x2, x0 < x1 < x2 /\ forall f0 f1 f2 d0 d1 d2, snd (fst (fst (hermiteDerivs x0 x1 x2 f0 f1 f2 d0 d1 d2))) = None.
Proof. exists 0, 1, 2. split; [lra|]. intros. unfold hermiteDerivs. cbv zeta. cbn [fst snd]. rewrite Req_b_t by ring. reflexivity. Qed.
(** PointNeighborhood: finite-difference derivatives are exact for cubic (value and derivative at both points) or quadratic functions *)
Theorem C43_finite_differences c0 c1 c2 c3 delta : delta <> 0 ->
  (let p d := c0 + c1 * d + c2 * d ^ 2 + c3 * d ^ 3 in pnFder2_both (p 0) c1 (p delta) (c1 + 2 * c2 * delta + 3 * c3 * delta ^ 2) delta = 2 * c2) /\
  (let p d := c0 + c1 * d + c2 * d ^ 2 in pn_one (p 0) (p delta) (c1 + 2 * c2 * delta) delta = (c1, 2 * c2)) /\
  (let p d := c0 + c1 * d + c2 * d ^ 2 in pn_none (p 0) (p delta) (p (- delta)) delta = (c1, 2 * c2)).
Proof. intros N. unfold pnFder2_both, pn_one, pn_none. split; [|split]; cbv zeta; [field; lra| |]; f_equal; field; lra. Qed.
(** dxToNearestRoot: exact root of the local quadratic, and no other root is nearer, when the roots lie on both sides *)
Theorem C43_nearest_root f0 f1 f2 : f0 * f2 < 0 -> let dx := dxToNearestRoot f0 f1 f2 in
  f0 + f1 * dx + f2 * dx ^ 2 / 2 = 0 /\ forall d, f0 + f1 * d + f2 * d ^ 2 / 2 = 0 -> Rabs dx <= Rabs d.
Proof.
  intros H. cbv zeta. unfold dxToNearestRoot. assert (N0 : f0 <> 0) by (intros ->; lra). assert (N2 : f2 <> 0) by (intros ->; lra).
  rewrite Req_b_f by exact N0. rewrite Rlt_b_t by exact H. set (s := sqrt (f1 * f1 - 2 * f0 * f2)).
  assert (S2 : s * s = f1 * f1 - 2 * f0 * f2) by (apply sqrt_sqrt; nra). assert (S0 : 0 <= s) by apply sqrt_pos. 
  assert (Sp : 0 < s) by nra.
  assert (SA : Rabs f1 < s) by (apply Rabs_def1; nra). apply Rabs_def2 in SA.
  assert (G : forall q, q <> 0 -> q * q + 2 * f1 * q + 2 * f0 * f2 = 0 -> s <= Rabs q ->
     f0 + f1 * (2 * f0 / q) + f2 * (2 * f0 / q) ^ 2 / 2 = 0 /\ forall d, f0 + f1 * d + f2 * d ^ 2 / 2 = 0 -> Rabs (2 * f0 / q) <= Rabs d).
  { intros q Nq Q A. split.
    - replace (f0 + f1 * (2 * f0 / q) + f2 * (2 * f0 / q) ^ 2 / 2) with (f0 * (q * q + 2 * f1 * q + 2 * f0 * f2) / (q * q)) by (field; exact Nq). rewrite Q. field. exact Nq.
    - intros d D. assert (Nd : d <> 0) by (intros ->; lra).
      (* p = 2 f0/d is also a root of the reciprocal equation; the roots are -f1 +- s *)
      assert (P : (f2 * d + f1) * (f2 * d + f1) = s * s) by (rewrite S2; nra).

      assert (Q2 : (q + f1) * (q + f1) = s * s) by (rewrite S2; nra).
      (* |dx| = 2|f0|/|q|; |f2 d| >= s - |f1| ; |f0 f2| 2 = s^2 - f1^2 = |q| |q'| with |q| = s + |f1| *)
      assert (Qa : Rabs q = s + Rabs f1).
      { assert (E : (q + f1 - s) * (q + f1 + s) = 0) by nra. apply Rmult_integral in E. destruct E as [E|E].
        - assert (q = s - f1) by lra. subst q. rewrite (Rabs_right (s - f1)) in * by lra. rewrite Rabs_left1 by lra. lra.
        - assert (q = - s - f1) by lra. subst q. rewrite (Rabs_left (- s - f1)) in * by lra. rewrite Rabs_right by lra. lra. }
      assert (Da : s - Rabs f1 <= Rabs (f2 * d)).
      { assert (E : (f2 * d + f1 - s) * (f2 * d + f1 + s) = 0) by nra. pose proof (Rabs_triang (f2 * d) f1) as T. apply Rmult_integral in E. destruct E as [E|E].
        - replace (f2 * d + f1) with s in T by lra. rewrite (Rabs_right s) in T by lra. lra.
        - replace (f2 * d + f1) with (- s) in T by lra. rewrite Rabs_Ropp, (Rabs_right s) in T by lra. lra. }
      rewrite Rabs_mult in Da. unfold Rdiv. rewrite !Rabs_mult, Rabs_inv. rewrite (Rabs_right 2) by lra.
      pose proof (Rabs_pos_lt f2 N2) as F2. pose proof (Rabs_pos_lt q Nq) as Qp.
      assert (FF : 2 * Rabs f0 * Rabs f2 = (s - Rabs f1) * (s + Rabs f1)).
      { rewrite Rmult_assoc, <- Rabs_mult, (Rabs_left (f0 * f2)) by exact H. assert (Rabs f1 * Rabs f1 = f1 * f1) by (rewrite <- Rabs_mult; apply Rabs_right; nra). nra. }
      apply Rmult_le_reg_r with (Rabs q * Rabs f2); [apply Rmult_lt_0_compat; assumption|].
      replace (2 * Rabs f0 * / Rabs q * (Rabs q * Rabs f2)) with (2 * Rabs f0 * Rabs f2) by (field; lra). rewrite FF, Qa. 
      assert (0 < s + Rabs f1) by lra. apply Rle_trans with (Rabs f2 * Rabs d * (s + Rabs f1)); [apply Rmult_le_compat_r; lra|right; ring]. }
  destruct (Rlt_le_dec f1 0) as [L|L]; [rewrite Rlt_b_t by exact L|rewrite Rlt_b_f by exact L].
  - apply G; [lra|transitivity (s * s - f1 * f1 + 2 * f0 * f2); [ring|lra]|rewrite Rabs_right by lra; lra].
  - apply G; [lra|transitivity (s * s - f1 * f1 + 2 * f0 * f2); [ring|lra]|rewrite Rabs_left by lra; lra].
Qed.
(** dxBetweenRoots: documented as the distance between the two roots, returns half of it *)
Theorem C43_between_roots_refuted : exists f0 f1 f2 d1 d2, d1 <> d2 /\ f0 + f1 * d1 + f2 * d1 ^ 2 / 2 = 0 /\ f0 + f1 * d2 + f2 * d2 ^ 2 / 2 = 0 /\ 2 * dxBetweenRoots f0 f1 f2 = Rabs (d1 - d2).
Proof.
  exists (-1), 0, 2, 1, (-1). repeat split; try lra. unfold dxBetweenRoots. rewrite (Req_b_f (-1) 0) by lra. cbn [andb]. replace (0 * 0 - 2 * -1 * 2) with (2 * 2) by ring. rewrite sqrt_square by lra. rewrite !Rabs_right by lra. lra.
Qed.

Print Assumptions C33_integer_power. Print Assumptions C33_minimum_int_refuted. Print Assumptions C33_real_power.
Print Assumptions C35_average. Print Assumptions C35_average_shift. Print Assumptions C35_dispersion_documented_refuted.
Print Assumptions C36_wrap. Print Assumptions C36_wrap_double_range. Print Assumptions C36_wrap_double_identity. Print Assumptions C36_wrap_double_idempotent. Print Assumptions C36_wrap_double_accuracy. Print Assumptions C36_unwrap. Print Assumptions C36_unwrap_sequence.
Print Assumptions C37_scale_of_unscale. Print Assumptions C37_unscale_of_scale. Print Assumptions C37_derivative. Print Assumptions C37_cubic_quintic_bijection. Print Assumptions C37_cubic_scale_partial. Print Assumptions C37_cubic_scale_accuracy. Print Assumptions C37_scaled_function. Print Assumptions C37_scaled_integral.
Print Assumptions C41_product. Print Assumptions C41_shifted. Print Assumptions C41_monomial. Print Assumptions C41_gaussian. Print Assumptions C41_loglog_partial. Print Assumptions C41_loglog_second_derivative_refuted.
Print Assumptions C42_monomial_integral. Print Assumptions C42_gaussian_integral_partial.
Print Assumptions C43_linear. Print Assumptions C43_linear_nodes. Print Assumptions C43_hermite_nodes. Print Assumptions C43_hermite_cubic. Print Assumptions C43_hermite_derivatives_partial. Print Assumptions C43_hermite_third_derivative_refuted. Print Assumptions C43_finite_differences. Print Assumptions C43_nearest_root. Print Assumptions C43_between_roots_refuted.
