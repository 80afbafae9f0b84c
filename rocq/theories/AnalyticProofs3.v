(** Miyamoto-Nagai, logarithmic and harmonic potentials *)
From Coq Require Import Reals Lra Psatz Lia Bool ZArith List.
From Coquelicot Require Import Coquelicot.
From Verif Require Import RandReal RandRealProofs PolyModel PolyProofs CoordModel CoordSpec CoordCalc CoordAtan CoordMaps CoordMaps2 CoordProofs CoordVel CoordSph OrientModel OrientSpec OrientProofs PotModel PotSpec PotProofs PotProofs2 PotProofs3 LapProofs RootProofs AnalyticModel AnalyticSpec AnalyticProofs AnalyticProofs2.
Import ListNotations.
Local Open Scope R_scope.

Section MN.
Variables M A B : R.
Let w (z : R) := sqrt (z * z + B * B).
(** Cartesian *)
Let D (q : vec3) := sqrt (v1 q * v1 q + v2 q * v2 q + (A + w (v3 q)) * (A + w (v3 q))).
Let F (q : vec3) := - M / D q.
Let G (q : vec3) : vec3 := (M * v1 q / (D q * D q * D q), M * v2 q / (D q * D q * D q), M * v3 q * (A + w (v3 q)) / (w (v3 q) * (D q * D q * D q))).
Let Dom (q : vec3) := 0 < v3 q * v3 q + B * B /\ 0 < v1 q * v1 q + v2 q * v2 q + (A + w (v3 q)) * (A + w (v3 q)).
Let HC (q : vec3) : hess6 := let x := v1 q in let y := v2 q in let z := v3 q in let d := D q in let v := w z in let a := A + v in
  mkH (M * (1 / d ^ 3 - 3 * x ^ 2 / d ^ 5)) (M * (1 / d ^ 3 - 3 * y ^ 2 / d ^ 5)) (M * (a / (v * d ^ 3) + z ^ 2 / (v ^ 2 * d ^ 3) - z ^ 2 * a / (v ^ 3 * d ^ 3) - 3 * z ^ 2 * a ^ 2 / (v ^ 2 * d ^ 5)))
      (- 3 * M * x * y / d ^ 5) (- 3 * M * y * z * a / (v * d ^ 5)) (- 3 * M * x * z * a / (v * d ^ 5)).
Lemma mn_dom q : Dom q -> 0 < w (v3 q) /\ w (v3 q) * w (v3 q) = v3 q * v3 q + B * B /\ 0 < D q /\ D q * D q = v1 q * v1 q + v2 q * v2 q + (A + w (v3 q)) * (A + w (v3 q)).
Proof. intros (H1 & H2). repeat split; [apply sqrt_lt_R0; exact H1|apply sqrt_sqrt; lra|apply sqrt_lt_R0; exact H2|apply sqrt_sqrt; lra]. Qed.
Lemma mn_open p : Dom p -> locally p Dom.
Proof.
  intros (H1 & H2). apply filter_and.
  - apply (locally_pos_U (fun q : vec3 => v3 q * v3 q + B * B)); [cont|exact H1].
  - apply (locally_pos_U (fun q : vec3 => v1 q * v1 q + v2 q * v2 q + (A + w (v3 q)) * (A + w (v3 q)))); [unfold w; cont|exact H2].
Qed.
Ltac mncurve H :=
  gcurve; destruct (mn_dom _ H) as (W & W2 & N0 & N2); destruct H as (P1 & P2); unfold F, G, HC, D, w, CoordModel.v1, v2, v3 in *; cbn [fst snd h11 h12 h13 h22 h23 h33] in *.
Lemma mn_grad q : Dom q -> is_grad F q (G q).
Proof.
  destruct q as [[x y] z]. intros H. mncurve H. auto_derive.
  - repeat split; try assumption. apply Rgt_not_eq. exact N0.
  - gfin. set (d := sqrt (_ + (A + _) * (A + _))) in *. set (v := sqrt (_ + B * B)) in *. clearbody d v. field. lra.
Qed.
Lemma mn_hess q : Dom q -> is_hess_with F G q (HC q).
Proof.
  destruct q as [[x y] z]. intros H. apply (hess_open Dom); [apply mn_open, H|apply mn_grad| | |]; mncurve H.
  all: assert (N3 : 0 < sqrt (c1 t * c1 t + c2 t * c2 t + (A + sqrt (c3 t * c3 t + B * B)) * (A + sqrt (c3 t * c3 t + B * B))) * sqrt (c1 t * c1 t + c2 t * c2 t + (A + sqrt (c3 t * c3 t + B * B)) * (A + sqrt (c3 t * c3 t + B * B))) * sqrt (c1 t * c1 t + c2 t * c2 t + (A + sqrt (c3 t * c3 t + B * B)) * (A + sqrt (c3 t * c3 t + B * B)))) by (repeat apply Rmult_lt_0_compat; exact N0).
  all: auto_derive; [repeat split; try assumption; apply Rgt_not_eq; first [exact N3|apply Rmult_lt_0_compat; [exact W|exact N3]]|].
  all: gfin; set (d := sqrt (_ + (A + _) * (A + _))) in *; set (v := sqrt (_ + B * B)) in *; clearbody d v.
  all: assert (XX : c1 t ^ 2 = d * d - c2 t ^ 2 - (A + v) * (A + v)) by lra.
  all: field; lra.
Qed.
Lemma mn_Phi t q : MN_Phi M A B t q = F q.
Proof. unfold MN_Phi, F, D, w. do 2 f_equal. simpl. rewrite !Rmult_1_r. reflexivity. Qed.
Lemma mn_hess_car t q : Dom q -> is_hess (MN_Phi M A B t) q (G q) (HC q).
Proof. intros H. apply is_hess_ext with F; [intros x; symmetry; apply mn_Phi|]. exists G. split; [reflexivity|apply mn_hess, H]. Qed.
(** cylindrical *)
Lemma mn_dom_cyl p : Dom (cart Cyl p) -> 0 < v2 p * v2 p + B * B /\ 0 < v1 p * v1 p + (A + w (v2 p)) * (A + w (v2 p)).
Proof.
  destruct p as [[r z] phi]. unfold Dom, cart, v1, v2, v3; cbn [fst snd]. intros (H1 & H2). split; [exact H1|].
  replace (r * cos phi * (r * cos phi) + r * sin phi * (r * sin phi)) with (r * r) in H2; [exact H2|].
  pose proof (sin2_cos2 phi) as S2. unfold Rsqr in S2. replace (r * cos phi * (r * cos phi) + r * sin phi * (r * sin phi)) with (r * r * (sin phi * sin phi + cos phi * cos phi)) by ring. rewrite S2. ring.
Qed.
Lemma mn_hess_cyl t p : Dom (cart Cyl p) -> exists g h, MN_evalCyl M A B p = (MN_Phi M A B t (cart Cyl p), g, h) /\ is_hess (fun q => MN_Phi M A B t (cart Cyl q)) p g h.
Proof.
  intros H. pose proof (hess_toCar _ Cyl p _ _ (mn_hess_car t _ H)) as K. eexists _, _. split; [|exact K].
  destruct (mn_dom _ H) as (W & W2 & D0 & D2). destruct (mn_dom_cyl p H) as (P1 & P2). rewrite mn_Phi.
  assert (ED : D (cart Cyl p) = sqrt (v1 p * v1 p + (A + w (v2 p)) * (A + w (v2 p)))).
  { unfold D. f_equal. destruct p as [[r z] phi]. unfold cart, v1, v2, v3; cbn [fst snd]. pose proof (sin2_cos2 phi) as S2. unfold Rsqr in S2.
    replace (r * cos phi * (r * cos phi) + r * sin phi * (r * sin phi)) with (r * r * (sin phi * sin phi + cos phi * cos phi)) by ring. rewrite S2. ring. }
  assert (D2' : D (cart Cyl p) * D (cart Cyl p) = v1 p * v1 p + (A + w (v2 p)) * (A + w (v2 p))) by (rewrite ED; apply sqrt_sqrt; lra).
  destruct p as [[r z] phi]. unfold MN_evalCyl, pow_2. fold (w z). unfold F, v1, v2 in *; cbn [fst snd] in *. rewrite <- D2'.
  replace (sqrt (1 / (D (cart Cyl (r, z, phi)) * D (cart Cyl (r, z, phi))))) with (/ D (cart Cyl (r, z, phi))).
  2:{ rewrite sqrt_div_alt by nra. rewrite sqrt_1, sqrt_square by lra. unfold Rdiv; ring. }
  unfold gradG, hessG, toGrad_YC, toHess_YC, deriv_YC, deriv2_YC. rewrite !mul_fun. unfold G, HC. cbn [dxdR_YC dydR_YC dxdphi_YC dydphi_YC d2xdRdphi_YC d2ydRdphi_YC d2xdphi2_YC d2ydphi2_YC h11 h22 h33 h12 h13 h23 fst snd].
  unfold v1, v2, v3 in *; cbn [fst snd] in *. set (d := D (cart Cyl (r, z, phi))) in *. unfold cart in *. cbn [fst snd] in *. set (v := w z) in *.
  pose proof (sin2_cos2 phi) as S2. unfold Rsqr in S2. set (c := cos phi) in *. set (s := sin phi) in *. clearbody d v c s.
  assert (C2 : c * c = 1 - s * s) by lra. assert (R2 : r * r = d * d - (A + v) * (A + v)) by lra. assert (B2 : B * B = v * v - z * z) by lra. assert (C2' : c ^ 2 = 1 - s * s) by lra.
  apply (f_equal2 pair); [apply (f_equal2 pair)|].
  - unfold Rdiv; ring.
  - apply v_eq.
    + field_simplify_eq; [|lra]. ring [C2].
    + field. lra.
    + field. lra.
  - apply hess6_eq; cbn [h11 h22 h33 h12 h13 h23].
    + field_simplify_eq; [|lra]. ring [C2' R2].
    + field_simplify_eq; [|lra]. ring [B2 R2].
    + field_simplify_eq; [|lra]. ring [C2'].
    + field_simplify_eq; [|lra]. ring [C2'].
    + field_simplify_eq; [|lra]. ring [C2'].
    + field_simplify_eq; [|lra]. ring [C2'].
Qed.

Lemma cart_SY p : cart Cyl (toPos_SY p) = cart Sph p.
Proof. destruct p as [[r th] phi]. unfold toPos_SY, cart. rewrite !mul_fun. apply v_eq; ring. Qed.
Lemma cart_CY p : cart Cyl (toPos_CY p) = p.
Proof.
  destruct p as [[x y] z]. unfold toPos_CY, cart. destruct (atan2_polar y x) as (E1 & E2). apply v_eq; [exact E1|exact E2|reflexivity].
Qed.
Lemma cos_2PI_shift c : cos (c + 2 * PI) = cos c. Proof. rewrite cos_plus, cos_2PI, sin_2PI. ring. Qed.
Lemma sin_2PI_shift c : sin (c + 2 * PI) = sin c. Proof. rewrite sin_plus, cos_2PI, sin_2PI. ring. Qed.
(** the object represents the documented formula; on the z axis only in cylindrical and spherical coordinates *)
Lemma mn_represents e t s p : (s = Car -> 0 < v1 p * v1 p + v2 p * v2 p) ->
  0 < v3 (cart s p) * v3 (cart s p) + B * B ->
  0 < v1 (cart s p) * v1 (cart s p) + v2 (cart s p) * v2 (cart s p) + (A + w (v3 (cart s p))) * (A + w (v3 (cart s p))) ->
  represents (MiyamotoNagai M A B e) (MN_Phi M A B) t s p.
Proof.
  intros HR H1 H2. assert (H : Dom (cart s p)) by (split; assumption). clear H1 H2.
  destruct s.
  - specialize (HR eq_refl). rewrite cart_Car in H. rewrite <- (cart_CY p) in H. destruct (mn_hess_cyl t _ H) as (g & h & E & K).
    apply hess_CY in K; [|exact HR|right; intros a b c; unfold cart; rewrite cos_2PI_shift, sin_2PI_shift; reflexivity].
    eexists _, _. split.
    + intros [[wp wg] wh]. cbn [MiyamotoNagai basePot p_eval]. unfold base_eval. cbn [cs_eqb]. rewrite convert_pos. cbn [toPosG]. unfold maskres. rewrite E. rewrite (cart_CY p), cart_Car. cbn [gradG hessG]. destruct wp, wg, wh; reflexivity.
    + revert K. apply is_hess_ext_loc. generalize (R2pos_open p HR). apply filter_imp. intros q Hq. rewrite (cart_CY q), cart_Car. reflexivity.
  - destruct (mn_hess_cyl t _ H) as (g & h & E & K). exists g, h. split; [|exact K].
    intros fl. cbn [MiyamotoNagai basePot p_eval]. unfold base_eval. cbn [cs_eqb]. rewrite E. destruct fl as [[wp wg] wh]. reflexivity.
  - rewrite <- cart_SY in H. destruct (mn_hess_cyl t _ H) as (g & h & E & K). apply hess_SY in K. eexists _, _. split.
    + intros [[wp wg] wh]. cbn [MiyamotoNagai basePot p_eval]. unfold base_eval. cbn [cs_eqb]. rewrite convert_pos. cbn [toPosG]. unfold maskres. rewrite E, cart_SY. cbn [gradG hessG]. destruct wp, wg, wh; reflexivity.
    + revert K. apply is_hess_ext. intros q. rewrite cart_SY. reflexivity.
Qed.
Lemma mn_proper e : proper (MiyamotoNagai M A B e).
Proof.
  apply (base_proper Cyl). intros t p. destruct (MN_evalCyl M A B p) as [[v g] h] eqn:E. exists v, g, h. intros [[wp wg] wh]. reflexivity.
Qed.
Let rho (x : vec3) := MN_density M A B (sqrt (v1 x * v1 x + v2 x * v2 x), v3 x, 0).
Lemma mn_density e t s p : (s = Car -> True) -> d_density (p_dens (MiyamotoNagai M A B e)) s t p = rho (cart s p).
Proof.
  intros _. unfold rho. destruct p as [[a b] c]. destruct s; cbn [MiyamotoNagai basePot p_dens d_density]; unfold base_density; cbn [toPosG].
  - unfold toPos_CY, cart, MN_density, v1, v2, v3, pow_2; cbn [fst snd]. reflexivity.
  - unfold cart, MN_density, v1, v2, v3, pow_2; cbn [fst snd]. pose proof (sin2_cos2 c) as S2. unfold Rsqr in S2.
    assert (Q : sqrt (a * cos c * (a * cos c) + a * sin c * (a * sin c)) * sqrt (a * cos c * (a * cos c) + a * sin c * (a * sin c)) = a * a) by (rewrite sqrt_sqrt by nra; replace (a * cos c * (a * cos c) + a * sin c * (a * sin c)) with (a * a * (sin c * sin c + cos c * cos c)) by ring; rewrite S2; ring).
    rewrite Q. reflexivity.
  - unfold toPos_SY, cart, MN_density, v1, v2, v3, pow_2; cbn [fst snd]. rewrite !mul_fun. pose proof (sin2_cos2 c) as S2. unfold Rsqr in S2.
    assert (Q : sqrt (a * (sin b * cos c) * (a * (sin b * cos c)) + a * (sin b * sin c) * (a * (sin b * sin c))) * sqrt (a * (sin b * cos c) * (a * (sin b * cos c)) + a * (sin b * sin c) * (a * (sin b * sin c))) = (a * sin b) * (a * sin b)).
    { rewrite sqrt_sqrt by nra. replace (a * (sin b * cos c) * (a * (sin b * cos c)) + a * (sin b * sin c) * (a * (sin b * sin c))) with ((a * sin b) * (a * sin b) * (sin c * sin c + cos c * cos c)) by ring. rewrite S2. ring. }
    rewrite Q. reflexivity.
Qed.
Lemma mn_poisson t x : 0 < v3 x * v3 x + B * B -> 0 < v1 x * v1 x + v2 x * v2 x + (A + w (v3 x)) * (A + w (v3 x)) -> poisson (MN_Phi M A B t) rho x.
Proof.
  intros H1 H2. assert (H : Dom x) by (split; assumption). exists (G x), (HC x). split; [apply mn_hess_car, H|].
  destruct (mn_dom _ H) as (W & W2 & D0 & D2). unfold rho, MN_density, trace, HC. cbn [h11 h22 h33]. unfold pow_2, pow_3. fold (w (v3 x)). rewrite sqrt_sqrt by nra. fold (D x). rewrite <- D2.
  set (d := D x) in *. set (v := w (v3 x)) in *. destruct x as [[a b] c]. unfold v1, v2, v3 in *; cbn [fst snd] in *. clearbody d v. pose proof PI_RGT_0.
  assert (A2 : a * a = d * d - b * b - (A + v) * (A + v)) by lra. assert (B2 : B * B = v * v - c * c) by lra. assert (AA : a ^ 2 = d * d - b * b - (A + v) * (A + v)) by lra.
  field_simplify_eq; [|repeat split; lra]. ring [A2 B2].
Qed.
Lemma mn_far : far_mass (MN_Phi M A B 0) M.
Proof.
  intros x N. assert (Hr : 0 < radius x) by (pose proof (radius_nn x); lra). pose proof (radius_sq x) as SQ.
  set (a := v1 x) in *. set (b := v2 x) in *. set (c := v3 x) in *.
  set (h := fun y => M * radius x * / sqrt (a * a + b * b + (A * y + sqrt (c * c + B * B * (y * y))) * (A * y + sqrt (c * c + B * B * (y * y))))).
  assert (E0 : sqrt (a * a + b * b + (A * 0 + sqrt (c * c + B * B * (0 * 0))) * (A * 0 + sqrt (c * c + B * B * (0 * 0)))) = radius x).
  { replace (A * 0 + sqrt (c * c + B * B * (0 * 0))) with (sqrt (c * c)) by (rewrite !Rmult_0_r, Rplus_0_r; ring). rewrite sqrt_sqrt by nra. replace (a * a + b * b + c * c) with (radius x * radius x) by lra. apply sqrt_square; lra. }
  assert (E : h 0 = M) by (unfold h; rewrite E0; field; lra). replace (Finite M) with (Finite (h 0)) by (rewrite E; reflexivity). apply (lim_inv _ h).
  - unfold h. apply cont_mult; [cont|]. apply cont_inv'.
    + assert (CI : continuous (fun y : R => y) 0) by apply continuous_id.
      assert (C1 : continuous (fun y : R => A * y + sqrt (c * c + B * B * (y * y))) 0) by (apply cont_plus; [apply cont_mult; [cont|exact CI]|]; apply cont_sqrt; apply cont_plus; [cont|]; apply cont_mult; [cont|]; apply cont_mult; exact CI).
      apply cont_sqrt. apply cont_plus; [cont|]. apply cont_mult; exact C1.
    + rewrite E0. lra.
  - intros k Hk. unfold h, MN_Phi. unfold v1, v2, v3; cbn [fst snd]. fold a b c.
    assert (I : 0 < / k) by (apply Rinv_0_lt_compat; lra).
    replace (sqrt ((k * c) ^ 2 + B ^ 2)) with (k * sqrt (c * c + B * B * (/ k * / k))).
    2:{ rewrite (sqrt_scale k ((k * c) ^ 2 + B ^ 2) Hk). do 2 f_equal. field. lra. }
    rewrite (sqrt_scale k (_ + _ + _ ^ 2) Hk). set (s := sqrt (c * c + B * B * (/ k * / k))).
    replace (((k * a) ^ 2 + (k * b) ^ 2 + (A + k * s) ^ 2) * (/ k * / k)) with (a * a + b * b + (A * / k + s) * (A * / k + s)) by (field; lra).
    set (u := sqrt (a * a + b * b + (A * / k + s) * (A * / k + s))). destruct (Req_EM_T u 0) as [Z|NZ].
    + rewrite Z, Rmult_0_r. unfold Rdiv. rewrite Rinv_0. ring.
    + field. split; [exact NZ|lra].
Qed.
End MN.

(* ------------------------------------------------------------------ Logarithmic *)
Section Log.
Variables v0 rc p q L : R.
Hypotheses (Hp : p <> 0) (Hq : q <> 0) (HL : L <> 0).
Let m2 (x : vec3) := rc ^ 2 + v1 x ^ 2 + (v2 x / p) ^ 2 + (v3 x / q) ^ 2.
Let Dom (x : vec3) := 0 < m2 x.
Let G (x : vec3) : vec3 := (v1 x * v0 ^ 2 / m2 x, v2 x * v0 ^ 2 / m2 x / p ^ 2, v3 x * v0 ^ 2 / m2 x / q ^ 2).
Let HC (x : vec3) : hess6 :=
  mkH (v0 ^ 2 * (1 / m2 x - 2 * (v1 x / m2 x) ^ 2)) (v0 ^ 2 * (1 / m2 x / p ^ 2 - 2 * (v2 x / (m2 x * p ^ 2)) ^ 2)) (v0 ^ 2 * (1 / m2 x / q ^ 2 - 2 * (v3 x / (m2 x * q ^ 2)) ^ 2))
      (- v0 ^ 2 * v1 x * v2 x * 2 / (m2 x ^ 2 * p ^ 2)) (- v0 ^ 2 * v2 x * v3 x * 2 / (m2 x ^ 2 * p ^ 2 * q ^ 2)) (- v0 ^ 2 * v3 x * v1 x * 2 / (m2 x ^ 2 * q ^ 2)).
Lemma log_open x : Dom x -> locally x Dom.
Proof. intros H. apply (locally_pos_U m2); [unfold m2, pow, Rdiv; cont|exact H]. Qed.
Lemma log_grad t x : Dom x -> is_grad (Log_Phi v0 rc p q L t) x (G x).
Proof.
  destruct x as [[x y] z]. intros H. gcurve. unfold Dom, G, Log_Phi in *; unfold m2 in *. unfold v1, v2, v3 in *; cbn [fst snd] in *.
  assert (L2 : 0 < L ^ 2) by (assert (L ^ 2 = L * L) by ring; nra).
  auto_derive.
  - repeat split; try assumption. unfold Rdiv in *. apply Rmult_lt_0_compat; [simpl in *; lra|]. apply Rinv_0_lt_compat. simpl in L2. exact L2.
  - gfin. unfold Rdiv in *. simpl in *. set (m := rc * (rc * 1) + c1 t0 * (c1 t0 * 1) + c2 t0 * / p * (c2 t0 * / p * 1) + c3 t0 * / q * (c3 t0 * / q * 1)) in *. clearbody m. field. repeat split; try assumption; lra.
Qed.
Lemma log_hess t x : Dom x -> is_hess (Log_Phi v0 rc p q L t) x (G x) (HC x).
Proof.
  intros H. exists G. split; [reflexivity|]. apply (hess_open Dom); [apply log_open, H|apply log_grad| | |].
  all: destruct x as [[x y] z]; gcurve; unfold Dom, G, HC in *; unfold m2 in *; unfold v1, v2, v3 in *; cbn [fst snd h11 h22 h33 h12 h13 h23] in *.
  all: auto_derive; [repeat split; try assumption; simpl in *; lra|].
  all: gfin; unfold Rdiv in *; simpl in *; set (m := rc * (rc * 1) + c1 t0 * (c1 t0 * 1) + c2 t0 * / p * (c2 t0 * / p * 1) + c3 t0 * / q * (c3 t0 * / q * 1)) in *; clearbody m; field; repeat split; try assumption; lra.
Qed.
Lemma log_eval t x : Dom x -> Log_evalCar (pow_2 v0) (pow_2 rc) (pow_2 p) (pow_2 q) (pow_2 L) x = (Log_Phi v0 rc p q L t x, G x, HC x).
Proof.
  intros H. unfold Dom in H. destruct x as [[x y] z]. unfold Log_evalCar, Log_Phi, G, HC.
  assert (E : pow_2 rc + pow_2 x + pow_2 y / pow_2 p + pow_2 z / pow_2 q = m2 (x, y, z)) by (unfold m2, pow_2, v1, v2, v3; cbn [fst snd]; field; split; assumption).
  rewrite E. fold (m2 (x, y, z)). set (m := m2 (x, y, z)) in *. clearbody m. unfold pow_2, v1, v2, v3; cbn [fst snd].
  apply (f_equal2 pair); [apply (f_equal2 pair)|].
  - replace (L ^ 2) with (L * L) by ring. unfold Rdiv. ring.
  - apply v_eq; field; repeat split; try assumption; lra.
  - apply hess6_eq; cbn [h11 h22 h33 h12 h13 h23]; field; repeat split; try assumption; lra.
Qed.
Lemma log_represents inf e t s x : Dom (cart s x) -> represents (Logarithmic v0 rc p q L inf e) (Log_Phi v0 rc p q L) t s x.
Proof.
  intros H. apply (base_car_represents _ _ _ _ _ _ (G (cart s x)) (HC (cart s x))); [|apply log_hess, H].
  intros [[wp wg] wh]. unfold maskres. rewrite (log_eval t _ H). reflexivity.
Qed.
Lemma log_density inf e t s x : Dom (cart s x) -> poisson (Log_Phi v0 rc p q L t) (fun y => d_density (p_dens (Logarithmic v0 rc p q L inf e)) Car t y) (cart s x) /\
  d_density (p_dens (Logarithmic v0 rc p q L inf e)) s t x = d_density (p_dens (Logarithmic v0 rc p q L inf e)) Car t (cart s x).
Proof.
  intros H. split.
  - exists (G (cart s x)), (HC (cart s x)). split; [apply log_hess, H|]. cbn [Logarithmic basePot p_dens d_density]. unfold base_density. cbn [toPosG]. unfold lapCar, maskres. rewrite (log_eval t _ H). cbn [hof]. unfold trace, Rdiv. ring.
  - cbn [Logarithmic basePot p_dens d_density]. unfold base_density. change (toPosG s Car x) with (toPosCar s x). rewrite cart_toPosCar. reflexivity.
Qed.
End Log.
(* ------------------------------------------------------------------ Harmonic *)
Section Harm.
Variables Om p q : R.
Hypotheses (Hp : p <> 0) (Hq : q <> 0).
Lemma harm_hess t x : is_hess (Harm_Phi Om p q t) x (v1 x * Om ^ 2, v2 x * Om ^ 2 / p ^ 2, v3 x * Om ^ 2 / q ^ 2) (mkH (Om ^ 2) (Om ^ 2 / p ^ 2) (Om ^ 2 / q ^ 2) 0 0 0).
Proof.
  exists (fun x => (v1 x * Om ^ 2, v2 x * Om ^ 2 / p ^ 2, v3 x * Om ^ 2 / q ^ 2)). split; [reflexivity|]. apply (hess_open (fun _ => True)); [apply filter_forall; auto| | | |].
  - intros [[a b] c] _. gcurve. unfold Harm_Phi, v1, v2, v3; cbn [fst snd]. auto_derive; [repeat split; assumption|]. gfin. simpl. field. split; assumption.
  - destruct x as [[a b] c]. gcurve. auto_derive; [repeat split; assumption|]. gfin. cbn [h11 h22 h33 h12 h23 h13]. unfold Rdiv. simpl. ring.
  - destruct x as [[a b] c]. gcurve. auto_derive; [repeat split; assumption|]. gfin. cbn [h11 h22 h33 h12 h23 h13]. unfold Rdiv. simpl. ring.
  - destruct x as [[a b] c]. gcurve. auto_derive; [repeat split; assumption|]. gfin. cbn [h11 h22 h33 h12 h23 h13]. unfold Rdiv. simpl. ring.
Qed.
Lemma harm_eval t x : Harm_evalCar (pow_2 Om) (pow_2 p) (pow_2 q) x = (Harm_Phi Om p q t x, (v1 x * Om ^ 2, v2 x * Om ^ 2 / p ^ 2, v3 x * Om ^ 2 / q ^ 2), mkH (Om ^ 2) (Om ^ 2 / p ^ 2) (Om ^ 2 / q ^ 2) 0 0 0).
Proof.
  destruct x as [[x y] z]. unfold Harm_evalCar, Harm_Phi, pow_2, v1, v2, v3; cbn [fst snd].
  apply (f_equal2 pair); [apply (f_equal2 pair)|].
  - field. split; assumption.
  - apply v_eq; field; assumption.
  - apply hess6_eq; cbn [h11 h22 h33 h12 h13 h23]; field; assumption.
Qed.
Lemma harm_represents inf e t s x : represents (Harmonic Om p q inf e) (Harm_Phi Om p q) t s x.
Proof.
  eapply base_car_represents; [|apply harm_hess]. intros [[wp wg] wh]. unfold maskres. rewrite (harm_eval t). reflexivity.
Qed.
Lemma harm_density inf e t s x : poisson (Harm_Phi Om p q t) (fun y => d_density (p_dens (Harmonic Om p q inf e)) Car t y) (cart s x) /\
  d_density (p_dens (Harmonic Om p q inf e)) s t x = d_density (p_dens (Harmonic Om p q inf e)) Car t (cart s x).
Proof.
  split.
  - eexists _, _. split; [apply harm_hess|]. cbn [Harmonic basePot p_dens d_density]. unfold base_density. cbn [toPosG]. unfold lapCar, maskres. rewrite (harm_eval t). cbn [hof h11 h22 h33]. unfold trace, Rdiv. cbn [h11 h22 h33]. ring.
  - cbn [Harmonic basePot p_dens d_density]. unfold base_density. change (toPosG s Car x) with (toPosCar s x). rewrite cart_toPosCar. reflexivity.
Qed.
End Harm.
(* ------------------------------------------------------------------ symmetry *)
(** a function of rc^2 + x^2 + (y/p)^2 + (z/q)^2 *)
Lemma axes_sym_ok (f : R -> R) p q : has_sym (axes_sym (pow_2 p) (pow_2 q)) (fun x => f (v1 x ^ 2 + (v2 x / p) ^ 2 + (v3 x / q) ^ 2)).
Proof.
  unfold axes_sym. destruct (Req_EM_T (pow_2 p) 1) as [P|P].
  - rewrite Req_b_t by exact P. assert (Pi : / p * / p = 1) by (rewrite <- Rinv_mult; unfold pow_2 in P; rewrite P; apply Rinv_1).
    assert (EP : forall y, (y / p) ^ 2 = y ^ 2) by (intros y; unfold Rdiv; replace ((y * / p) ^ 2) with (y ^ 2 * (/ p * / p)) by ring; rewrite Pi; ring).
    destruct (Req_EM_T (pow_2 q) 1) as [Q|Q].
    + rewrite Req_b_t by exact Q. assert (Qi : / q * / q = 1) by (rewrite <- Rinv_mult; unfold pow_2 in Q; rewrite Q; apply Rinv_1).
      assert (EQ : forall y, (y / q) ^ 2 = y ^ 2) by (intros y; unfold Rdiv; replace ((y * / q) ^ 2) with (y ^ 2 * (/ q * / q)) by ring; rewrite Qi; ring).
      apply has_sym_ext with (fun x => f (radius x ^ 2)); [intros x; rewrite radius_sq, EP, EQ; reflexivity|]. apply (radius_sym _ (fun r => f (r ^ 2))).
    + rewrite Req_b_f by exact Q. apply has_sym_ext with (fun x => f (v1 x ^ 2 + v2 x ^ 2 + (v3 x / q) ^ 2)); [intros x; rewrite EP; reflexivity|].
      intros _. split; [|split; [|split; [|split; [|split]]]].
      1-4: intros _ x; f_equal; unfold v1, v2, v3, Rdiv; cbn [fst snd]; ring.
      * intros _ a x. f_equal. unfold rotZ, v1, v2, v3; cbn [fst snd]. pose proof (sin2_cos2 a) as S2. unfold Rsqr in S2. set (c := cos a) in *. set (s := sin a) in *. assert (C2 : c * c = 1 - s * s) by lra. assert (C3 : c ^ 2 = 1 - s * s) by lra. ring [C2].
      * vm_compute. discriminate.
  - rewrite Req_b_f by exact P. intros _. split; [|split; [|split; [|split; [|split]]]].
    1-4: intros _ x; f_equal; unfold v1, v2, v3, Rdiv; cbn [fst snd]; ring.
    all: vm_compute; discriminate.
Qed.
Lemma mn_dep M A B t x y : v1 x ^ 2 + v2 x ^ 2 = v1 y ^ 2 + v2 y ^ 2 -> v3 x ^ 2 = v3 y ^ 2 -> MN_Phi M A B t x = MN_Phi M A B t y.
Proof. intros E1 E2. unfold MN_Phi. rewrite E1, E2. reflexivity. Qed.
Lemma mn_sym M A B t : has_sym ST_AXISYMMETRIC (MN_Phi M A B t).
Proof.
  intros _. split; [|split; [|split; [|split; [|split]]]].
  1-4: intros _ x; apply mn_dep; unfold v1, v2, v3; cbn [fst snd]; ring.
  - intros _ a x. apply mn_dep; unfold rotZ, v1, v2, v3; cbn [fst snd]; [|reflexivity]. pose proof (sin2_cos2 a) as S2. unfold Rsqr in S2. set (c := cos a) in *. set (s := sin a) in *. assert (C2 : c * c = 1 - s * s) by lra. ring [C2].
  - vm_compute. discriminate.
Qed.
