(** Isochrone, NFW; masses seen from afar *)
From Coq Require Import Reals Lra Psatz Lia Bool ZArith List.
From Coquelicot Require Import Coquelicot.
From Verif Require Import RandReal RandRealProofs PolyModel PolyProofs CoordModel CoordSpec CoordCalc CoordAtan CoordMaps CoordMaps2 CoordProofs CoordSph OrientModel OrientSpec OrientProofs PotModel PotSpec PotProofs PotProofs2 PotProofs3 LapProofs RootProofs AnalyticModel AnalyticSpec AnalyticProofs.
Import ListNotations.
Local Open Scope R_scope.

(* ------------------------------------------------------------------ Isochrone *)
Section Isochrone.
Variables M b : R.
Hypothesis Hb : 0 <= b.
Let w (r : R) := sqrt (r ^ 2 + b ^ 2).
Let V (r : R) := - M / (b + w r).
Let V1 (r : R) := M * r / (w r * (b + w r) ^ 2).
Let V2 (r : R) := - M / (b + w r) * (2 * (r / (w r * (b + w r))) ^ 2 - (b / (w r * (b + w r))) ^ 2 * (1 + b / w r)).
Lemma is_w r : 0 < r ^ 2 + b ^ 2 -> 0 < w r /\ w r * w r = r ^ 2 + b ^ 2.
Proof. intros H. split; [apply sqrt_lt_R0, H|apply sqrt_sqrt; lra]. Qed.
Lemma is_eval r : 0 < r ^ 2 + b ^ 2 -> Isochrone_evalDeriv M b r = (V r, V1 r, V2 r).
Proof.
  intros H. destruct (is_w r H) as (W & W2). unfold Isochrone_evalDeriv, V, V1, V2, pow_2. replace (r * r + b * b) with (r ^ 2 + b ^ 2) by ring. fold (w r).
  f_equal; [f_equal|]; field; lra.
Qed.
Lemma is_d0 r : 0 < r ^ 2 + b ^ 2 -> is_derive V r (V1 r).
Proof.
  intros H. destruct (is_w r H) as (W & W2). unfold V, V1, w in *. auto_derive; [repeat split; try lra; apply Rgt_not_eq; simpl; simpl in W; lra|].
  replace (r * (r * 1) + b * (b * 1)) with (r ^ 2 + b ^ 2) by ring. set (v := sqrt (r ^ 2 + b ^ 2)) in *. field. lra.
Qed.
Lemma is_d1 r : 0 < r ^ 2 + b ^ 2 -> is_derive V1 r (V2 r).
Proof.
  intros H. destruct (is_w r H) as (W & W2). unfold V1, V2, w in *.
  auto_derive; replace (r * (r * 1) + b * (b * 1)) with (r ^ 2 + b ^ 2) by ring; set (v := sqrt (r ^ 2 + b ^ 2)) in *; clearbody v.
  - repeat split; try lra. apply Rgt_not_eq. apply Rmult_lt_0_compat; [exact W|]. apply Rmult_lt_0_compat; lra.
  - assert (R2 : r ^ 2 = v * v - b ^ 2) by lra. field_simplify_eq; [|lra]. ring [R2].
Qed.
Lemma is_loc r : 0 < r ^ 2 + b ^ 2 -> locally r (fun s => is_derive V s (V1 s)).
Proof.
  intros H. assert (L : locally r (fun s => 0 < s ^ 2 + b ^ 2)).
  { apply (locally_pos (fun s => s ^ 2 + b ^ 2)); [|exact H]. apply (ex_derive_continuous (fun s => s ^ 2 + b ^ 2)). auto_derive. exact Logic.I. }
  revert L. apply filter_imp. apply is_d0.
Qed.
Lemma isochrone_represents e t s p : (s = Sph -> 0 <= v1 p) -> 0 < radius (cart s p) ^ 2 + b ^ 2 -> represents (Isochrone M b e) (Isochrone_Phi M b) t s p.
Proof.
  intros Hs H. apply (sph_represents _ _ _ _ V V1 V2); [exact Hs|apply is_eval; exact H|apply is_loc; exact H|apply is_d1; exact H|].
  intros E. split; [unfold V1, Rdiv; ring|]. intros r. unfold V, w. replace ((- r) ^ 2) with (r ^ 2) by ring. reflexivity.
Qed.
Let D (r : R) := Isochrone_density M b (r, 0, 0).
Lemma is_dens_val r : 0 < r ^ 2 + b ^ 2 -> D r = M * b * (3 * b * (b + w r) + 2 * r ^ 2) / (4 * PI * (w r * (b + w r)) ^ 3).
Proof.
  intros H. destruct (is_w r H) as (W & W2). unfold D, Isochrone_density, CoordModel.v1, pow_2, pow_3; cbn [fst]. replace (r * r + b * b) with (r ^ 2 + b ^ 2) by ring. fold (w r). pose proof PI_RGT_0. field. repeat split; lra.
Qed.
Lemma isochrone_density e t s p : (s = Sph -> 0 <= CoordModel.v1 p) -> d_density (p_dens (Isochrone M b e)) s t p = D (radius (cart s p)).
Proof. intros Hs. exact (sph_density (Isochrone_evalDeriv M b) D M e s t p Hs). Qed.
Lemma isochrone_poisson t x : 0 < radius x ^ 2 + b ^ 2 -> poisson (Isochrone_Phi M b t) (fun y => D (radius y)) x.
Proof.
  intros H. destruct (is_w _ H) as (W & W2). pose proof PI_RGT_0 as HP.
  apply (sph_poisson V V1 V2 D); [apply is_loc; exact H|apply is_d1; exact H|unfold V1, Rdiv; intros; ring| |].
  - intros N. rewrite is_dens_val by exact H. unfold V2, V1. set (v := w (radius x)) in *. set (r := radius x) in *. clearbody v r.
    assert (R2 : r ^ 2 = v * v - b ^ 2) by lra. field_simplify_eq; [|repeat split; lra]. ring [R2].
  - intros E. rewrite E in H. rewrite is_dens_val by exact H. rewrite E in W, W2. unfold V2. assert (Eb : w 0 = b) by (unfold w; replace (0 ^ 2 + b ^ 2) with (b * b) by ring; apply sqrt_square; exact Hb). rewrite Eb in *. clear Eb. field. split; lra.
Qed.
End Isochrone.

(* ------------------------------------------------------------------ NFW *)
Section NFW.
Variables M a : R.
Hypothesis Ha : 0 < a.
Let V (r : R) := - M * ln (1 + r / a) / r.
Let V1 (r : R) := M * (ln (1 + r / a) / r - 1 / (r + a)) / r.
Let V2 (r : R) := - M * (2 * (ln (1 + r / a) / r) - (2 * a + 3 * r) / (a + r) ^ 2) / r ^ 2.
Lemma nfw_pos r : 0 < r -> 0 < 1 + r / a.
Proof. intros H. assert (0 < r / a) by (apply Rdiv_lt_0_compat; lra). lra. Qed.
Lemma nfw_eval r : 7 / 10000 * a < r -> NFW_evalDeriv M a r = (V r, V1 r, V2 r).
Proof.
  intros H. assert (L : 7 / 10000 < r / a) by (apply Rmult_lt_reg_r with a; [exact Ha|]; unfold Rdiv at 2; rewrite Rmult_assoc, Rinv_l by lra; lra).
  unfold NFW_evalDeriv. rewrite Rlt_b_t by exact L. unfold V, V1, V2, pow_2. assert (0 < r) by nra. f_equal; [f_equal|]; field; lra.
Qed.
Lemma nfw_d0 r : 0 < r -> is_derive V r (V1 r).
Proof.
  intros H. pose proof (nfw_pos r H) as P. unfold V, V1. auto_derive; [repeat split; try lra; exact P|]. change (r * / a) with (r / a). set (l := ln (1 + r / a)). clearbody l. field. repeat split; try lra.
Qed.
Lemma nfw_d1 r : 0 < r -> is_derive V1 r (V2 r).
Proof.
  intros H. pose proof (nfw_pos r H) as P. unfold V1, V2. auto_derive; [repeat split; try lra; exact P|]. change (r * / a) with (r / a). set (l := ln (1 + r / a)). clearbody l. field. repeat split; try lra.
Qed.
Lemma nfw_loc r : 0 < r -> locally r (fun s => is_derive V s (V1 s)).
Proof.
  intros H. assert (L : locally r (fun s => 0 < s)) by (apply (locally_pos (fun s => s)); [apply continuous_id|exact H]).
  revert L. apply filter_imp. apply nfw_d0.
Qed.
Lemma nfw_V x : radius x <> 0 -> NFW_Phi M a 0 x = V (radius x).
Proof. intros H. unfold NFW_Phi. destruct (Req_EM_T (radius x) 0); [tauto|reflexivity]. Qed.
Lemma is_hess_Phi (f f' : vec3 -> R) (s : cs) p g h : (forall x, radius x <> 0 -> f x = f' x) -> radius (cart s p) <> 0 -> is_hess (fun q => f (cart s q)) p g h -> is_hess (fun q => f' (cart s q)) p g h.
Proof.
  intros E N. apply is_hess_ext_loc. 
  assert (C : continuous (fun q : vec3 => v1 (cart s q) ^ 2 + v2 (cart s q) ^ 2 + v3 (cart s q) ^ 2) p).
  { unfold pow. apply continuous_ext with (fun q => match s with
      | Car => v1 q * (v1 q * 1) + v2 q * (v2 q * 1) + v3 q * (v3 q * 1)
      | Cyl => v1 q * cos (v3 q) * (v1 q * cos (v3 q) * 1) + v1 q * sin (v3 q) * (v1 q * sin (v3 q) * 1) + v2 q * (v2 q * 1)
      | Sph => v1 q * (sin (v2 q) * cos (v3 q)) * (v1 q * (sin (v2 q) * cos (v3 q)) * 1) + v1 q * (sin (v2 q) * sin (v3 q)) * (v1 q * (sin (v2 q) * sin (v3 q)) * 1) + v1 q * cos (v2 q) * (v1 q * cos (v2 q) * 1) end).
    - intros [[x y] z]. destruct s; reflexivity.
    - destruct s; cont. }
  assert (P : 0 < v1 (cart s p) ^ 2 + v2 (cart s p) ^ 2 + v3 (cart s p) ^ 2).
  { rewrite <- radius_sq. pose proof (radius_nn (cart s p)). nra. }
  generalize (locally_pos_U _ p C P). apply filter_imp. intros q Hq. apply E. intros Z. rewrite <- radius_sq, Z in Hq. lra.
Qed.
Lemma nfw_represents m e t s p : (s = Sph -> 0 <= v1 p) -> 7 / 10000 * a < radius (cart s p) -> represents (NFW M a m e) (NFW_Phi M a) t s p.
Proof.
  intros Hs H. assert (Hr : 0 < radius (cart s p)) by nra.
  assert (K : represents (NFW M a m e) (fun _ x => V (radius x)) t s p).
  { apply (sph_represents _ _ _ _ V V1 V2); [exact Hs|apply nfw_eval; exact H|apply nfw_loc; exact Hr|apply nfw_d1; exact Hr|]. intros E. lra. }
  destruct K as (g & h & RET & HH). exists g, h. split.
  - unfold returns in *. intros fl. rewrite RET. change (NFW_Phi M a t (cart s p)) with (NFW_Phi M a 0 (cart s p)). rewrite nfw_V by lra. reflexivity.
  - revert HH. apply (is_hess_Phi (fun x => V (radius x)) (NFW_Phi M a t)); [|lra]. intros x Hx. symmetry. apply nfw_V, Hx.
Qed.
Lemma nfw_density m e t s p : (s = Sph -> 0 <= v1 p) -> radius (cart s p) <> 0 -> dens_represents (p_dens (NFW M a m e)) (NFW_rho M a) t s p.
Proof.
  intros Hs N. unfold dens_represents. transitivity (NFW_density M a (radius (cart s p), 0, 0)).
  - exact (sph_density (NFW_evalDeriv M a) (fun r => NFW_density M a (r, 0, 0)) m e s t p Hs).
  - unfold NFW_density, NFW_rho, pow_2, CoordModel.v1; cbn [fst]. pose proof PI_RGT_0. pose proof (radius_nn (cart s p)). field. repeat split; lra.
Qed.
Lemma nfw_poisson t x : radius x <> 0 -> poisson (NFW_Phi M a t) (NFW_rho M a t) x.
Proof.
  intros N. assert (Hr : 0 < radius x) by (pose proof (radius_nn x); lra). pose proof PI_RGT_0 as HP.
  destruct (sph_poisson V V1 V2 (fun r => M / (4 * PI * r * (r + a) ^ 2)) x) as (g & h & HH & E).
  - apply nfw_loc; exact Hr.
  - apply nfw_d1; exact Hr.
  - intros; lra.
  - intros _. unfold V2, V1. set (l := ln (1 + radius x / a)). field. repeat split; lra.
  - intros; lra.
  - exists g, h. split; [|exact E]. rewrite <- (cart_Car x) in HH |- *. 
    apply is_hess_ext with (fun q => NFW_Phi M a t (cart Car q)); [intros q; rewrite cart_Car; reflexivity|].
    rewrite cart_Car in HH |- *.
    apply (is_hess_Phi (fun x => V (radius x)) (NFW_Phi M a t)); [|rewrite cart_Car; exact N|].
    + intros y Hy. symmetry. apply nfw_V, Hy.
    + revert HH. apply is_hess_ext. intros q. rewrite cart_Car. reflexivity.
Qed.

Lemma le_div1 c u x : 0 < x -> c * x <= u -> c <= u / x.
Proof. intros H K. apply (Rmult_le_reg_r x _ _ H). unfold Rdiv. rewrite Rmult_assoc, Rinv_l by lra. lra. Qed.
Lemma le_div2 c u x : 0 < x -> u <= c * x -> u / x <= c.
Proof. intros H K. apply (Rmult_le_reg_r x _ _ H). unfold Rdiv. rewrite Rmult_assoc, Rinv_l by lra. lra. Qed.
(** in the centre: series; t = r/a <= 7e-4 *)
Lemma deriv_nonneg (f g : R -> R) x : 0 <= x -> (forall t, 0 <= t -> is_derive f t (g t)) -> (forall t, 0 <= t -> 0 <= g t) -> f 0 <= f x.
Proof.
  intros Hx D P. destruct (Req_EM_T x 0) as [->|N]; [lra|]. 
  destruct (MVT_gen f 0 x g) as (c & Hc & E).
  - intros t Ht. apply D. rewrite Rmin_left in Ht by lra. lra.
  - intros t Ht. apply continuity_pt_filterlim. apply (ex_derive_continuous f). exists (g t). apply D. rewrite Rmin_left in Ht by lra. lra.
  - rewrite Rmin_left in Hc by lra. assert (0 <= g c) by (apply P; lra). nra.
Qed.
Lemma ln_lower x : 0 <= x -> x - x ^ 2 / 2 + x ^ 3 / 3 - x ^ 4 / 4 <= ln (1 + x).
Proof.
  intros Hx. pose proof (deriv_nonneg (fun x => ln (1 + x) - (x - x ^ 2 / 2 + x ^ 3 / 3 - x ^ 4 / 4)) (fun x => x ^ 4 / (1 + x)) x Hx) as K.
  assert (E : ln (1 + 0) - (0 - 0 ^ 2 / 2 + 0 ^ 3 / 3 - 0 ^ 4 / 4) <= ln (1 + x) - (x - x ^ 2 / 2 + x ^ 3 / 3 - x ^ 4 / 4)).
  - apply K.
    + intros t Ht. auto_derive; [lra|]. field. lra.
    + intros t Ht. apply Rmult_le_pos; [apply pow_le; exact Ht|apply Rlt_le, Rinv_0_lt_compat; lra].
  - rewrite Rplus_0_r, ln_1 in E. lra.
Qed.
Lemma ln_upper x : 0 <= x -> ln (1 + x) <= x - x ^ 2 / 2 + x ^ 3 / 3 - x ^ 4 / 4 + x ^ 5 / 5.
Proof.
  intros Hx. pose proof (deriv_nonneg (fun x => (x - x ^ 2 / 2 + x ^ 3 / 3 - x ^ 4 / 4 + x ^ 5 / 5) - ln (1 + x)) (fun x => x ^ 5 / (1 + x)) x Hx) as K.
  assert (E : (0 - 0 ^ 2 / 2 + 0 ^ 3 / 3 - 0 ^ 4 / 4 + 0 ^ 5 / 5) - ln (1 + 0) <= (x - x ^ 2 / 2 + x ^ 3 / 3 - x ^ 4 / 4 + x ^ 5 / 5) - ln (1 + x)).
  - apply K.
    + intros t Ht. auto_derive; [lra|]. field. lra.
    + intros t Ht. apply Rmult_le_pos; [apply pow_le; exact Ht|apply Rlt_le, Rinv_0_lt_compat; lra].
  - rewrite Rplus_0_r, ln_1 in E. lra.
Qed.
Lemma ln_over x : 0 < x -> 1 - x / 2 + x ^ 2 / 3 - x ^ 3 / 4 <= ln (1 + x) / x <= 1 - x / 2 + x ^ 2 / 3 - x ^ 3 / 4 + x ^ 4 / 5.
Proof.
  intros H. pose proof (ln_lower x ltac:(lra)) as A. pose proof (ln_upper x ltac:(lra)) as B.
  split; apply (Rmult_le_reg_r x _ _ H); unfold Rdiv; rewrite (Rmult_assoc _ (/ x) x), Rinv_l, Rmult_1_r by lra; lra.
Qed.
Lemma nfw_small r : 0 < r <= 7 / 10000 * a -> let '(v, d, d2) := NFW_evalDeriv M a r in let x := r / a in
  Rabs (v - V r) <= Rabs M / a * (x ^ 4 / 5) /\ Rabs (d - V1 r) <= Rabs M / a ^ 2 * x ^ 3 /\ Rabs (d2 - V2 r) <= Rabs M / a ^ 3 * (12 / 5 * x ^ 2).
Proof.
  intros (H0 & H1). assert (X0 : 0 < r / a) by (apply Rdiv_lt_0_compat; lra).
  assert (X1 : r / a <= 7 / 10000) by (apply Rmult_le_reg_r with a; [exact Ha|]; unfold Rdiv at 1; rewrite Rmult_assoc, Rinv_l by lra; lra).
  unfold NFW_evalDeriv. rewrite Rlt_b_f by lra. cbv zeta beta. set (x := r / a) in *.
  assert (Er : r = x * a) by (unfold x; field; lra). pose proof (ln_over x X0) as (L1 & L2). unfold V, V1, V2. fold x. set (l := ln (1 + x)) in *.
  clearbody x l. subst r. set (q := l / x) in *. assert (El : l = q * x) by (unfold q; field; lra). clearbody q. subst l.
  assert (I1 : 1 / (1 + x) <= 1 - x + x ^ 2 - x ^ 3 + x ^ 4) by (apply Rmult_le_reg_r with (1 + x); [lra|]; unfold Rdiv; rewrite Rmult_assoc, Rinv_l by lra; assert (0 < x ^ 5) by (apply pow_lt; lra); nra).
  assert (I2 : 1 - x + x ^ 2 - x ^ 3 <= 1 / (1 + x)) by (apply Rmult_le_reg_r with (1 + x); [lra|]; unfold Rdiv; rewrite Rmult_assoc, Rinv_l by lra; assert (0 < x ^ 4) by (apply pow_lt; lra); nra).
  assert (AM : forall c u bnd, 0 <= c -> Rabs u <= bnd -> forall y, y = M * (c * u) -> Rabs y <= Rabs M * c * bnd).
  { intros c u bnd Hc Hu y ->. rewrite !Rabs_mult. rewrite (Rabs_pos_eq c Hc). rewrite Rmult_assoc. apply Rmult_le_compat_l; [apply Rabs_pos|]. apply Rmult_le_compat_l; assumption. }
  assert (X3 : 0 < x ^ 3) by (apply pow_lt; lra). assert (X4 : 0 < x ^ 4) by (apply pow_lt; lra). assert (X2 : 0 < x ^ 2) by (apply pow_lt; lra).
  split; [|split].
  - apply (AM (/ a) (q - (1 - x / 2 + x ^ 2 / 3 - x ^ 3 / 4)) (x ^ 4 / 5)).
    + apply Rlt_le, Rinv_0_lt_compat, Ha.
    + apply Rabs_le; lra.
    + field. lra.
  - apply (AM (/ a ^ 2) ((1 / 2 - 2 / 3 * x + 3 / 4 * x ^ 2) - (q - 1 / (1 + x)) / x) (x ^ 3)).
    + apply Rlt_le, Rinv_0_lt_compat, pow_lt, Ha.
    + assert (B : 1 / 2 - 2 / 3 * x + 3 / 4 * x ^ 2 - x ^ 3 <= (q - 1 / (1 + x)) / x <= 1 / 2 - 2 / 3 * x + 3 / 4 * x ^ 2 + x ^ 3 / 5).
      { split; [apply le_div1|apply le_div2]; try exact X0; lra. }
      apply Rabs_le. lra.
    + unfold pow_2; field. split; lra.
  - apply (AM (/ a ^ 3) ((2 * q - (2 + 3 * x) / (1 + x) ^ 2) / x ^ 2 - (2 / 3 - x * 3 / 2)) (12 / 5 * x ^ 2)).
    + apply Rlt_le, Rinv_0_lt_compat, pow_lt, Ha.
    + assert (Y : 0 < (1 + x) ^ 2) by (apply pow_lt; lra). assert (X5 : 0 < x ^ 5) by (apply pow_lt; lra). assert (X6 : 0 < x ^ 6) by (apply pow_lt; lra).
      assert (J1 : (2 + 3 * x) / (1 + x) ^ 2 <= 2 - x + x ^ 3) by (apply le_div2; [exact Y|]; nra).
      assert (J2 : 2 - x + x ^ 3 - 2 * x ^ 4 <= (2 + 3 * x) / (1 + x) ^ 2) by (apply le_div1; [exact Y|]; nra).
      assert (B : 2 / 3 - x * 3 / 2 <= (2 * q - (2 + 3 * x) / (1 + x) ^ 2) / x ^ 2 <= 2 / 3 - x * 3 / 2 + 12 / 5 * x ^ 2).
      { split; [apply le_div1|apply le_div2]; try exact X2; lra. }
      apply Rabs_le. lra.
    + unfold pow_3. field. repeat split; lra.
Qed.
Lemma nfw_center : NFW_evalDeriv M a 0 = (- M / a, M * (1 / 2) / a ^ 2, - M * (2 / 3) / a ^ 3).
Proof. unfold NFW_evalDeriv. replace (0 / a) with 0 by (unfold Rdiv; ring). rewrite Rlt_b_f by lra. unfold pow_2, pow_3. f_equal; [f_equal|]; field; lra. Qed.
End NFW.

(* ------------------------------------------------------------------ masses seen from afar *)
Lemma lim_inv (f h : R -> R) : continuous h 0 -> (forall k, 0 < k -> f k = h (/ k)) -> is_lim f p_infty (h 0).
Proof.
  intros C E. apply is_lim_ext_loc with (fun k => h (/ k)).
  - exists 0. intros k Hk. symmetry. apply E, Hk.
  - apply is_lim_comp_continuous; [|exact C]. replace (Finite 0) with (Rbar_inv p_infty) by reflexivity. apply is_lim_inv; [apply is_lim_id|discriminate].
Qed.
Lemma radius_scale k x : 0 <= k -> radius (k * v1 x, k * v2 x, k * v3 x) = k * radius x.
Proof.
  intros H. unfold radius, v1, v2, v3; cbn [fst snd]. replace ((k * fst (fst x)) ^ 2 + (k * snd (fst x)) ^ 2 + (k * snd x) ^ 2) with (k * k * (fst (fst x) ^ 2 + snd (fst x) ^ 2 + snd x ^ 2)) by ring.
  rewrite sqrt_mult_alt by nra. rewrite sqrt_square by exact H. reflexivity.
Qed.
Lemma cont_inv' (f : R -> R) t : continuous f t -> f t <> 0 -> continuous (fun s => / f s) t.
Proof. intros C N. apply (continuous_comp f Rinv); [exact C|]. apply continuous_Rinv. exact N. Qed.
Lemma sqrt_scale k u : 0 < k -> sqrt u = k * sqrt (u * (/ k * / k)).
Proof.
  intros H. destruct (Rle_dec 0 u) as [P|N].
  - rewrite sqrt_mult_alt by exact P. rewrite sqrt_square by (apply Rlt_le, Rinv_0_lt_compat, H). field. lra.
  - assert (0 < / k) by (apply Rinv_0_lt_compat, H). rewrite !sqrt_neg_0; [ring| |lra]. assert (0 < / k * / k) by (apply Rmult_lt_0_compat; assumption). nra.
Qed.
Lemma plummer_far M b : far_mass (Plummer_Phi M b 0) M.
Proof.
  intros x N. assert (Hr : 0 < radius x) by (pose proof (radius_nn x); lra).
  set (h := fun y => M * radius x * / sqrt (radius x * radius x + b * b * (y * y))).
  assert (H0 : 0 < sqrt (radius x * radius x)) by (apply sqrt_lt_R0; nra).
  assert (E0 : h 0 = M); [|replace (Finite M) with (Finite (h 0)) by (rewrite E0; reflexivity); apply (lim_inv _ h)].
  - unfold h. rewrite Rmult_0_l, Rmult_0_r, Rplus_0_r. rewrite sqrt_square by lra. field. lra.
  - unfold h. apply cont_mult; [cont|]. apply cont_inv'.
    + apply cont_sqrt. apply cont_plus; [cont|]. apply cont_mult; [cont|]. apply cont_mult; apply continuous_id.
    + rewrite Rmult_0_l, Rmult_0_r, Rplus_0_r. lra.
  - intros k Hk. unfold h, Plummer_Phi. rewrite radius_scale by lra. rewrite (sqrt_scale k _ Hk).
    replace (((k * radius x) ^ 2 + b ^ 2) * (/ k * / k)) with (radius x * radius x + b * b * (/ k * / k)) by (field; lra).
    assert (0 < sqrt (radius x * radius x + b * b * (/ k * / k))); [apply sqrt_lt_R0; assert (0 <= (b * / k) * (b * / k)) by nra; nra|]. field. lra.
Qed.
Lemma isochrone_far M b : 0 <= b -> far_mass (Isochrone_Phi M b 0) M.
Proof.
  intros Hb x N. assert (Hr : 0 < radius x) by (pose proof (radius_nn x); lra).
  set (h := fun y => M * radius x * / (b * y + sqrt (radius x * radius x + b * b * (y * y)))).
  assert (H0 : 0 < sqrt (radius x * radius x)) by (apply sqrt_lt_R0; nra).
  assert (E0 : h 0 = M); [|replace (Finite M) with (Finite (h 0)) by (rewrite E0; reflexivity); apply (lim_inv _ h)].
  - unfold h. rewrite Rmult_0_l, !Rmult_0_r, Rplus_0_r, Rplus_0_l. rewrite sqrt_square by lra. field. lra.
  - unfold h. apply cont_mult; [cont|]. apply cont_inv'.
    + apply cont_plus; [apply cont_mult; [cont|apply continuous_id]|]. apply cont_sqrt. apply cont_plus; [cont|]. apply cont_mult; [cont|]. apply cont_mult; apply continuous_id.
    + rewrite Rmult_0_l, !Rmult_0_r, Rplus_0_r. lra.
  - intros k Hk. unfold h, Isochrone_Phi. rewrite radius_scale by lra. rewrite (sqrt_scale k _ Hk).
    replace (((k * radius x) ^ 2 + b ^ 2) * (/ k * / k)) with (radius x * radius x + b * b * (/ k * / k)) by (field; lra).
    assert (0 < sqrt (radius x * radius x + b * b * (/ k * / k))); [apply sqrt_lt_R0; assert (0 <= (b * / k) * (b * / k)) by nra; nra|].
    set (u := sqrt _) in *. assert (0 < / k) by (apply Rinv_0_lt_compat; lra). assert (0 < k * u) by (apply Rmult_lt_0_compat; assumption). field. repeat split; nra.
Qed.
