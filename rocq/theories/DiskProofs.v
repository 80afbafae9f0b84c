(** Disk models: the ansatz potential, its derivatives and density, for any radial and vertical function *)
From Coq Require Import Reals Lra Psatz Lia Bool ZArith List.
From Coquelicot Require Import Coquelicot.
From Verif Require Import RandReal RandRealProofs PolyModel PolyProofs CoordModel CoordSpec CoordCalc CoordAtan CoordMaps CoordMaps2 CoordProofs CoordVel CoordSph OrientModel OrientSpec OrientProofs PotModel PotSpec PotProofs PotProofs2 PotProofs3 LapProofs RootProofs AnalyticModel AnalyticSpec AnalyticProofs AnalyticProofs2 DiskModel DiskSpec.
Import ListNotations.
Local Open Scope R_scope.

Section Ansatz.
Variables f f1 f2 H H1 H2 : R -> R.
Variable dz : R -> Prop.
Hypothesis dz_open : forall z, dz z -> locally z dz.
Hypothesis Hf : forall r, 0 < r -> is_derive f r (f1 r) /\ is_derive f1 r (f2 r).
Hypothesis HH : forall z, dz z -> is_derive H z (H1 z) /\ is_derive H1 z (H2 z).
Let D (q : vec3) := sqrt (v1 q * v1 q + v2 q * v2 q + v3 q * v3 q).
Let F (q : vec3) := 4 * PI * f (D q) * H (v3 q).
Let G (q : vec3) : vec3 := (4 * PI * (f1 (D q) * (v1 q / D q)) * H (v3 q), 4 * PI * (f1 (D q) * (v2 q / D q)) * H (v3 q), 4 * PI * (f1 (D q) * (v3 q / D q) * H (v3 q) + f (D q) * H1 (v3 q))).
Let Dom (q : vec3) := 0 < v1 q * v1 q + v2 q * v2 q + v3 q * v3 q /\ dz (v3 q).
Let HC (q : vec3) : hess6 := let x := v1 q in let y := v2 q in let z := v3 q in let d := D q in
  let a := f1 d in let b := f2 d in
  mkH (4 * PI * H z * (b * (x / d) ^ 2 + a * (1 / d - x ^ 2 / d ^ 3))) (4 * PI * H z * (b * (y / d) ^ 2 + a * (1 / d - y ^ 2 / d ^ 3)))
      (4 * PI * (H z * (b * (z / d) ^ 2 + a * (1 / d - z ^ 2 / d ^ 3)) + 2 * a * (z / d) * H1 z + f d * H2 z))
      (4 * PI * H z * (b * (x * y / d ^ 2) - a * (x * y / d ^ 3)))
      (4 * PI * (H z * (b * (y * z / d ^ 2) - a * (y * z / d ^ 3)) + a * (y / d) * H1 z))
      (4 * PI * (H z * (b * (x * z / d ^ 2) - a * (x * z / d ^ 3)) + a * (x / d) * H1 z)).
Lemma an_dom q : Dom q -> 0 < D q /\ D q * D q = v1 q * v1 q + v2 q * v2 q + v3 q * v3 q.
Proof. intros (K1 & K2). split; [apply sqrt_lt_R0; exact K1|apply sqrt_sqrt; lra]. Qed.
Lemma an_open p : Dom p -> locally p Dom.
Proof.
  intros (K1 & K2). apply filter_and.
  - apply (locally_pos_U (fun q : vec3 => v1 q * v1 q + v2 q * v2 q + v3 q * v3 q)); [cont|exact K1].
  - assert (C : continuous (fun q : vec3 => v3 q) p) by cont. apply C. apply dz_open, K2.
Qed.
Ltac ancurve K :=
  gcurve; destruct (an_dom _ K) as (N0 & N2); destruct K as (P1 & P2); unfold F, G, HC, D, CoordModel.v1, v2, v3 in *; cbn [fst snd h11 h12 h13 h22 h23 h33] in *;
  destruct (Hf _ N0) as (Df & Df1); destruct (HH _ P2) as (DH & DH1);
  match type of Df with is_derive f ?d _ => 
    assert (U1 : Derive (fun s : R => f s) d = f1 d) by (apply is_derive_unique; exact Df); assert (U2 : Derive (fun s : R => f1 s) d = f2 d) by (apply is_derive_unique; exact Df1);
    assert (V1 : ex_derive (fun s : R => f s) d) by (eexists; exact Df); assert (V2 : ex_derive (fun s : R => f1 s) d) by (eexists; exact Df1) end;
  match type of DH with is_derive H ?z _ => 
    assert (U3 : Derive (fun s : R => H s) z = H1 z) by (apply is_derive_unique; exact DH); assert (U4 : Derive (fun s : R => H1 s) z = H2 z) by (apply is_derive_unique; exact DH1);
    assert (V3 : ex_derive (fun s : R => H s) z) by (eexists; exact DH); assert (V4 : ex_derive (fun s : R => H1 s) z) by (eexists; exact DH1) end.
Lemma an_grad q : Dom q -> is_grad F q (G q).
Proof.
  destruct q as [[x y] z]. intros K. ancurve K. auto_derive.
  - repeat split; try assumption.
  - gfin. set (d := sqrt (_ + _)) in *. clearbody d. field. lra.
Qed.
Lemma an_hess q : Dom q -> is_hess_with F G q (HC q).
Proof.
  destruct q as [[x y] z]. intros K. apply (hess_open Dom); [apply an_open, K|apply an_grad| | |]; ancurve K.
  all: auto_derive; [repeat split; try assumption; apply Rgt_not_eq; exact N0|].
  all: gfin; set (d := sqrt (_ + _)) in *; clearbody d.
  all: assert (XX : c1 t ^ 2 = d * d - c2 t ^ 2 - c3 t ^ 2) by lra.
  all: field; lra.
Qed.
Lemma an_Phi q : Ansatz f H q = F q.
Proof. unfold Ansatz, F, D, radius. simpl. rewrite !Rmult_1_r. reflexivity. Qed.
Lemma an_hess_car q : Dom q -> is_hess (Ansatz f H) q (G q) (HC q).
Proof. intros K. apply is_hess_ext with F; [intros x; symmetry; apply an_Phi|]. exists G. split; [reflexivity|apply an_hess, K]. Qed.

(** the two function objects compute these functions *)
Variables rad vert : fnc.
Hypothesis Crad : forall r, 0 < r -> rad r = (Fin (f r), Fin (f1 r), Fin (f2 r)).
Hypothesis Cvert : forall z, dz z -> vert z = (Fin (H z), Fin (H1 z), Fin (H2 z)).
Lemma an_D_cyl r z phi : D (cart Cyl (r, z, phi)) = sqrt (r * r + z * z).
Proof.
  unfold D. f_equal. unfold cart, v1, v2, v3; cbn [fst snd]. pose proof (sin2_cos2 phi) as S2. unfold Rsqr in S2.
  replace (r * cos phi * (r * cos phi) + r * sin phi * (r * sin phi)) with (r * r * (sin phi * sin phi + cos phi * cos phi)) by ring. rewrite S2. ring.
Qed.
Lemma an_eval r z phi : 0 < r * r + z * z -> dz z ->
  exists gR gz hRR hzz hRz,
    ansatzEval rad vert (r, z, phi) = (Fin (Ansatz f H (cart Cyl (r, z, phi))), (Fin gR, Fin gz), (Fin hRR, Fin hzz, Fin hRz)) /\
    is_hess (fun q => Ansatz f H (cart Cyl q)) (r, z, phi) (gR, gz, 0) (mkH hRR hzz 0 hRz 0 0).
Proof.
  intros K1 K2. set (p := (r, z, phi)).
  assert (K : Dom (cart Cyl p)).
  { split; [|exact K2]. unfold p, cart, v1, v2, v3; cbn [fst snd]. pose proof (sin2_cos2 phi) as S2. unfold Rsqr in S2.
    replace (r * cos phi * (r * cos phi) + r * sin phi * (r * sin phi) + z * z) with (r * r * (sin phi * sin phi + cos phi * cos phi) + z * z) by ring. rewrite S2. lra. }
  pose proof (hess_toCar _ Cyl p _ _ (an_hess_car _ K)) as L.
  destruct (an_dom _ K) as (D0 & _). pose proof (an_D_cyl r z phi) as ED. fold p in ED.
  assert (D2 : D (cart Cyl p) * D (cart Cyl p) = r * r + z * z) by (rewrite ED; apply sqrt_sqrt; lra).
  set (d := D (cart Cyl p)) in *.
  exists (4 * PI * f1 d * (r / d) * H z), (4 * PI * (f1 d * (z / d) * H z + f d * H1 z)),
    (4 * PI * H z * (f2 d * (r / d) ^ 2 + f1 d * (1 / d) * (z / d) ^ 2)),
    (4 * PI * (H z * (f2 d * (z / d) ^ 2 + f1 d * (1 / d) * (r / d) ^ 2) + 2 * f1 d * H1 z * (z / d) + f d * H2 z)),
    (4 * PI * (H z * (r / d) * (z / d) * (f2 d - f1 d * (1 / d)) + f1 d * H1 z * (r / d))).
  split.
  - rewrite an_Phi. unfold ansatzEval, p, pow_2. fold p. rewrite <- ED. fold d. rewrite (Cvert _ K2), (Crad _ D0). cbv zeta. rewrite (Rlt_b_t _ _ D0).
    unfold F. fold d. replace (v3 (cart Cyl p)) with z by reflexivity. unfold is_zero, nadd, nsub, nmul, nopp, nadd.
    apply (f_equal2 pair); [apply (f_equal2 pair)|].
    + destruct (Req_EM_T (f d * (4 * PI)) 0) as [Z0|Z0]; [rewrite (Req_b_t _ _ Z0)|rewrite (Req_b_f _ _ Z0)]; f_equal; [|ring]. replace (4 * PI * f d * H z) with (f d * (4 * PI) * H z) by ring. rewrite Z0. ring.
    + apply (f_equal2 pair); f_equal; unfold Rdiv; ring.
    + apply (f_equal2 pair); [apply (f_equal2 pair)|]; f_equal; unfold Rdiv; ring.
  - match goal with |- is_hess _ _ ?a ?b => match type of L with is_hess _ _ ?c ?e => replace a with c; [replace b with e; [exact L|]|] end end.
    + unfold hessG, toHess_YC, deriv_YC, deriv2_YC. unfold p. rewrite !mul_fun. fold p. unfold G, HC. fold d. cbn [dxdR_YC dydR_YC dxdphi_YC dydphi_YC d2xdRdphi_YC d2ydRdphi_YC d2xdphi2_YC d2ydphi2_YC h11 h22 h33 h12 h13 h23 fst snd].
      unfold p, cart, v1, v2, v3 in *; cbn [fst snd] in *. pose proof (sin2_cos2 phi) as S2. unfold Rsqr in S2. set (c := cos phi) in *. set (s := sin phi) in *. clearbody d c s.
      assert (C2 : c * c = 1 - s * s) by lra. assert (R2 : r * r = d * d - z * z) by lra. assert (C2' : c ^ 2 = 1 - s * s) by lra. assert (R2' : r ^ 2 = d * d - z * z) by lra.
      apply hess6_eq; cbn [h11 h22 h33 h12 h13 h23].
      * field_simplify_eq; [|lra]. ring [C2' R2'].
      * field_simplify_eq; [|lra]. ring [R2'].
      * field_simplify_eq; [|lra]. ring [C2'].
      * field_simplify_eq; [|lra]. ring [C2'].
      * field_simplify_eq; [|lra]. ring [C2'].
      * field_simplify_eq; [|lra]. ring [C2'].
    + unfold gradG, toGrad_YC, deriv_YC. unfold p. rewrite !mul_fun. fold p. unfold G. fold d. cbn [dxdR_YC dydR_YC dxdphi_YC dydphi_YC fst snd].
      unfold p, cart, v1, v2, v3 in *; cbn [fst snd] in *. pose proof (sin2_cos2 phi) as S2. unfold Rsqr in S2. set (c := cos phi) in *. set (s := sin phi) in *. clearbody d c s.
      assert (C2' : c ^ 2 = 1 - s * s) by lra.
      apply v_eq; [field_simplify_eq; [|lra]; ring [C2']|field; lra|field; lra].
Qed.
Lemma an_poisson r z phi : 0 < r * r + z * z -> dz z -> (z = 0 -> H z = 0) ->
  exists rho : vec3 -> R, poisson (Ansatz f H) rho (cart Cyl (r, z, phi)) /\ ansatzDensity rad vert (r, z, phi) = Fin (rho (cart Cyl (r, z, phi))).
Proof.
  intros K1 K2 K0. set (p := (r, z, phi)).
  assert (K : Dom (cart Cyl p)).
  { split; [|exact K2]. unfold p, cart, v1, v2, v3; cbn [fst snd]. pose proof (sin2_cos2 phi) as S2. unfold Rsqr in S2.
    replace (r * cos phi * (r * cos phi) + r * sin phi * (r * sin phi) + z * z) with (r * r * (sin phi * sin phi + cos phi * cos phi) + z * z) by ring. rewrite S2. lra. }
  exists (fun q => trace (HC q) / (4 * PI)). split; [exists (G (cart Cyl p)), (HC (cart Cyl p)); split; [apply an_hess_car, K|reflexivity]|].
  destruct (an_dom _ K) as (D0 & D2'). pose proof (an_D_cyl r z phi) as ED. fold p in ED.
  unfold ansatzDensity, p, pow_2. fold p. rewrite <- ED. set (d := D (cart Cyl p)) in *. rewrite (Cvert _ K2), (Crad _ D0). unfold ninv. rewrite (Req_b_f d 0) by lra.
  unfold trace, HC. fold d. cbn [h11 h22 h33]. replace (v3 (cart Cyl p)) with z in * by reflexivity. set (x := v1 (cart Cyl p)) in *. set (y := v2 (cart Cyl p)) in *. clearbody d x y. pose proof PI_RGT_0.
  assert (X2 : x ^ 2 = d * d - y * y - z * z) by lra.
  destruct (Req_EM_T z 0) as [Z0|Z0]; [rewrite (Req_b_t _ _ Z0)|rewrite (Req_b_f _ _ Z0)]; unfold negb, nadd, nmul; f_equal.
  - rewrite (K0 Z0). subst z. field_simplify_eq; [|lra]. ring.
  - field_simplify_eq; [|lra]. ring [X2].
Qed.
Lemma an_residual r z phi : 0 < r -> dz z -> (z = 0 -> H z = 0) ->
  exists a b, diskDensity rad vert (r, z, phi) = Fin a /\ ansatzDensity rad vert (r, z, phi) = Fin b /\ a - b = residual f f1 f2 H H1 H2 r z.
Proof.
  intros K1 K2 K0. assert (D0 : 0 < sqrt (r * r + z * z)) by (apply sqrt_lt_R0; nra).
  unfold diskDensity, ansatzDensity, pow_2. rewrite (Cvert _ K2), (Crad _ K1), (Crad _ D0). unfold ninv. rewrite (Req_b_f (sqrt _) 0) by lra.
  exists (f r * H2 z), (f (sqrt (r * r + z * z)) * H2 z + 2 * f1 (sqrt (r * r + z * z)) * (H z + z * H1 z) / sqrt (r * r + z * z) + f2 (sqrt (r * r + z * z)) * H z).
  split; [reflexivity|]. split.
  - destruct (Req_EM_T z 0) as [Z0|Z0]; [rewrite (Req_b_t _ _ Z0)|rewrite (Req_b_f _ _ Z0)]; unfold negb, nadd, nmul; f_equal; [rewrite (K0 Z0), Z0|]; unfold Rdiv; ring.
  - unfold residual. replace (r ^ 2 + z ^ 2) with (r * r + z * z) by ring. cbv zeta. unfold Rdiv. ring.
Qed.
End Ansatz.
