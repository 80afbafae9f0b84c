(** Integrals of motion, Hermite jerk, counterexamples *)
From Coq Require Import Reals Lra Psatz Bool ZArith Lia.
From Coquelicot Require Import Coquelicot.
From Verif Require Import RandReal RandRealProofs PolyModel PolyProofs MathModel MathProofs CoordModel CoordSpec CoordCalc CoordAtan CoordMaps CoordMaps2 CoordProofs CoordVel OrientModel OrientSpec PotModel PotSpec OrbitModel OrbitSpec OrbitProofs OrbitProofs2 RootProofs.
Local Open Scope R_scope.

Lemma jacobi_inertial F Om (X V : R -> vec3) s : jacobi F Om (rotZ (Om * s) (X s), rotZ (Om * s) (V s)) =
  1 / 2 * (v1 (V s) * v1 (V s) + v2 (V s) * v2 (V s) + v3 (V s) * v3 (V s)) + F (rotZ (Om * s) (X s)) - Om * (v1 (X s) * v2 (V s) - v2 (X s) * v1 (V s)).
Proof.
  unfold jacobi. cbn [fst snd]. set (F0 := F _). clearbody F0. destruct (X s) as [[x y] z], (V s) as [[a b] c]. unfold rotZ. unv. pose proof (cs1 (Om * s)) as CS. csgen (Om * s). ring [CS].
Qed.
Lemma out_inertial Om out s : out s = (rotZ (Om * s) (fst (inertial Om out) s), rotZ (Om * s) (snd (inertial Om out) s)).
Proof. cbn [inertial fst snd]. rewrite !rotZ_inv'. destruct (out s). reflexivity. Qed.
Lemma rotZ_add a b v : rotZ a (rotZ b v) = rotZ (a + b) v.
Proof. destruct v as [[x y] z]. unfold rotZ. rewrite cos_plus, sin_plus. unv. apply v_eq; ring. Qed.
Lemma jacobi_scalar (F : vec3 -> R) Om (x1 x2 x3 w1 w2 w3 : R -> R) (t g1 g2 g3 : R) :
  is_derive x1 t (w1 t) -> is_derive x2 t (w2 t) -> is_derive x3 t (w3 t) ->
  is_derive w1 t (- g1) -> is_derive w2 t (- g2) -> is_derive w3 t (- g3) ->
  is_grad (fun x => F (rotZ (Om * t) x)) (x1 t, x2 t, x3 t) (g1, g2, g3) ->
  is_derive (fun s => 1 / 2 * (w1 s * w1 s + w2 s * w2 s + w3 s * w3 s) + F (rotZ (Om * s) (x1 s, x2 s, x3 s)) - Om * (x1 s * w2 s - x2 s * w1 s)) t 0.
Proof.
  intros A1 A2 A3 B1 B2 B3 G.
  assert (K : is_derive (fun s => F (rotZ (Om * s) (x1 s, x2 s, x3 s))) t (g1 * (w1 t + Om * x2 t) + g2 * (w2 t - Om * x1 t) + g3 * w3 t)).
  { assert (K : is_derive (fun s => (fun x => F (rotZ (Om * t) x)) (cos (Om * (s - t)) * x1 s + sin (Om * (s - t)) * x2 s, - sin (Om * (s - t)) * x1 s + cos (Om * (s - t)) * x2 s, x3 s)) t (g1 * (w1 t + Om * x2 t) + g2 * (w2 t - Om * x1 t) + g3 * w3 t)).
    { apply (G (fun s => cos (Om * (s - t)) * x1 s + sin (Om * (s - t)) * x2 s) (fun s => - sin (Om * (s - t)) * x1 s + cos (Om * (s - t)) * x2 s) x3 t).
      - replace (Om * (t - t)) with 0 by ring. rewrite cos_0, sin_0. apply v_eq; ring.
      - clear G. dcurve. der. replace (Om * (t + - t)) with 0 by ring. rewrite cos_0, sin_0. ring.
      - clear G. dcurve. der. replace (Om * (t + - t)) with 0 by ring. rewrite cos_0, sin_0. ring.
      - exact A3. }
    revert K. apply is_derive_ext. intros s. cbv beta. f_equal.
    transitivity (rotZ (Om * t) (rotZ (Om * (s - t)) (x1 s, x2 s, x3 s))); [reflexivity|]. rewrite rotZ_add. f_equal. ring. }
  clear G. set (f := fun s : R => F (rotZ (Om * s) (x1 s, x2 s, x3 s))) in *. change (is_derive f t (g1 * (w1 t + Om * x2 t) + g2 * (w2 t - Om * x1 t) + g3 * w3 t)) in K.
  apply (is_derive_ext (fun s => 1 / 2 * (w1 s * w1 s + w2 s * w2 s + w3 s * w3 s) + f s - Om * (x1 s * w2 s - x2 s * w1 s))); [reflexivity|]. clearbody f. set (d := g1 * (w1 t + Om * x2 t) + g2 * (w2 t - Om * x1 t) + g3 * w3 t) in *. assert (Ed : d = g1 * (w1 t + Om * x2 t) + g2 * (w2 t - Om * x1 t) + g3 * w3 t) by reflexivity. clearbody d. assert (Xf : ex_derive (fun x : R => f x) t) by (eexists; exact K). assert (Df : Derive (fun x : R => f x) t = d) by (apply is_derive_unique; exact K). clear K. dcurve. auto_derive; [gside|]. rewrite Df. gfin. rewrite Ed. field.
Qed.
Lemma jacobi_derive F Om out t : newton (fun _ => F) Om out t -> is_derive (fun s => jacobi F Om (out s)) t 0.
Proof.
  intros ((A1 & A2 & A3) & g & G & B1 & B2 & B3). set (X := fst (inertial Om out)) in *. set (V := snd (inertial Om out)) in *.
  apply (is_derive_ext (fun s => jacobi F Om (rotZ (Om * s) (X s), rotZ (Om * s) (V s)))); [intros s; rewrite (out_inertial Om out s); reflexivity|].
  eapply is_derive_ext; [intros s; symmetry; apply jacobi_inertial|]. clearbody X V.
  destruct g as [[g1 g2] g3].
  assert (E : forall s, (v1 (X s), v2 (X s), v3 (X s)) = X s) by (intros s; destruct (X s) as [[a b] c]; reflexivity).
  generalize (jacobi_scalar F Om (fun s => v1 (X s)) (fun s => v2 (X s)) (fun s => v3 (X s)) (fun s => v1 (V s)) (fun s => v2 (V s)) (fun s => v3 (V s)) t g1 g2 g3 A1 A2 A3 B1 B2 B3). cbv beta.
  rewrite E. intros K. generalize (K G). apply is_derive_ext. intros s. rewrite E. reflexivity.
Qed.
Lemma Lz_derive Phi Om out t : (forall a x, Phi t (rotZ a x) = Phi t x) -> newton Phi Om out t -> is_derive (fun s => Lz_C (out s)) t 0.
Proof.
  intros Ax ((A1 & A2 & A3) & g & G & B1 & B2 & B3). set (X := fst (inertial Om out)) in *. set (V := snd (inertial Om out)) in *.
  assert (T : v2 g * v1 (X t) - v1 g * v2 (X t) = 0).
  { set (u := X t) in *. assert (K : is_derive (fun s => Phi t (rotZ (Om * t) (cos s * v1 u + sin s * v2 u, - sin s * v1 u + cos s * v2 u, v3 u))) 0 (v1 g * v2 u + v2 g * (- v1 u) + v3 g * 0)).
    { apply (G (fun s => cos s * v1 u + sin s * v2 u) (fun s => - sin s * v1 u + cos s * v2 u) (fun s => v3 u) 0).
      - rewrite cos_0, sin_0. destruct u as [[a b] c]. unv. apply v_eq; ring.
      - auto_derive; [exact Logic.I|]. rewrite cos_0, sin_0. ring.
      - auto_derive; [exact Logic.I|]. rewrite cos_0, sin_0. ring.
      - apply (is_derive_const (v3 u) 0). }
    assert (K0 : is_derive (fun s : R => Phi t (rotZ (Om * t) (cos s * v1 u + sin s * v2 u, - sin s * v1 u + cos s * v2 u, v3 u))) 0 0).
    { apply (is_derive_ext (fun s : R => Phi t u)); [|apply (is_derive_const (Phi t u) 0)]. intros s. rewrite Ax. symmetry. exact (Ax s u). }
    assert (K1 := is_derive_unique _ _ _ K). assert (K2 := is_derive_unique _ _ _ K0). assert (K3 := eq_trans (eq_sym K1) K2). lra. }
  apply (is_derive_ext (fun s => v1 (X s) * v2 (V s) - v2 (X s) * v1 (V s))).
  { intros s. rewrite (out_inertial Om out s). fold X V. unfold Lz_C. destruct (X s) as [[a b] c], (V s) as [[d e] f]. unfold rotZ. unv. pose proof (cs1 (Om * s)) as CS. csgen (Om * s). match goal with |- @eq _ ?a ?b => change (@eq R a b) end. ring [CS]. }
  clear G. assert (B : forall (x1 x2 w1 w2 : R -> R) (a b : R), is_derive x1 t (w1 t) -> is_derive x2 t (w2 t) -> is_derive w1 t (- a) -> is_derive w2 t (- b) -> b * x1 t - a * x2 t = 0 -> is_derive (fun s => x1 s * w2 s - x2 s * w1 s) t 0).
  { clear. intros x1 x2 w1 w2 a b A1 A2 B1 B2 T. dcurve. der. lra. }
  apply (B (fun s => v1 (X s)) (fun s => v2 (X s)) (fun s => v1 (V s)) (fun s => v2 (V s)) (v1 g) (v2 g)); assumption.
Qed.
Lemma const_of_derive f a b : a < b -> (forall t, a <= t <= b -> is_derive f t 0) -> f b = f a.
Proof. intros L H. symmetry. apply (eq_is_derive f a b); [exact H|exact L]. Qed.
(** Hermite *)
Lemma jerk_ok c F t xv x v : fst xv = x -> snd xv = v ->
  (forall s p, represents c (fun _ => F) s Car p) ->
  exists acc jerk, evalHermite_Car c 0 t xv = Some (acc, jerk) /\ is_grad F x (- v1 acc, - v2 acc, - v3 acc) /\
  forall (y : R -> posvel), y t = xv -> is_derive3 (fun s => fst (y s)) t v ->
    is_derive3 (fun s => match evalHermite_Car c 0 s (y s) with Some (a, _) => a | None => (0, 0, 0) end) t jerk.
Proof.
  intros Ex Ev H.
  assert (HG : forall s p, is_grad F p (gof (p_eval c Car (false, true, true) s p))).
  { intros s p. destruct (H s p) as (g & h & Rt & (G & <- & L & _)). rewrite (Rt (false, true, true)). cbn [gof outputs]. generalize (locally_singleton _ _ L). apply is_grad_ext. intros [[a b] d]. reflexivity. }
  destruct xv as [[[x0 y0] z0] [[vx vy] vz]]. cbn [fst snd] in Ex, Ev. subst x v.
  unfold evalHermite_Car at 1. rewrite Req_b_t by reflexivity. do 2 eexists. split; [reflexivity|]. split.
  - unfold v1, v2, v3; cbn [fst snd]. generalize (HG t (x0, y0, z0)). destruct (gof _) as [[a b] d]. cbn [fst snd]. rewrite !Ropp_involutive. tauto.
  - intros y Ey (D1 & D2 & D3). destruct (H t (x0, y0, z0)) as (g & h & Rt & (G & EG & L & H1 & H2 & H3)). rewrite (Rt (false, true, true)). cbn [gof hof outputs].
    assert (EG' : locally (x0, y0, z0) (fun q : vec3 => G q = gof (p_eval c Car (false, true, true) t q))).
    { revert L. apply filter_imp. intros q X. apply (is_grad_unique F q); [|apply HG]. revert X. apply is_grad_ext. intros [[a b] d]. reflexivity. }
    assert (EG2 : forall s p, gof (p_eval c Car (false, true, true) s p) = gof (p_eval c Car (false, true, true) t p)) by (intros s p; apply (is_grad_unique F p); apply HG).
    set (ga := fun q => gof (p_eval c Car (false, true, true) t q)) in *.
    assert (H1' : is_grad (fun q => v1 (ga q)) (x0, y0, z0) (h11 h, h12 h, h13 h)) by (revert H1; apply is_grad_ext_loc; revert EG'; apply filter_imp; intros q ->; reflexivity).
    assert (H2' : is_grad (fun q => v2 (ga q)) (x0, y0, z0) (h12 h, h22 h, h23 h)) by (revert H2; apply is_grad_ext_loc; revert EG'; apply filter_imp; intros q ->; reflexivity).
    assert (H3' : is_grad (fun q => v3 (ga q)) (x0, y0, z0) (h13 h, h23 h, h33 h)) by (revert H3; apply is_grad_ext_loc; revert EG'; apply filter_imp; intros q ->; reflexivity).
    clear H1 H2 H3 L EG EG'.
    apply (is_derive3_ext (fun s => (- v1 (ga (fst (y s))), - v2 (ga (fst (y s))), - v3 (ga (fst (y s)))))).
    { intros s. unfold evalHermite_Car. rewrite Req_b_t by reflexivity. destruct (y s) as [[[xa xb] xc] [[xd xe] xf]]. cbn [fst]. rewrite EG2. reflexivity. }
    assert (EY : (v1 (fst (y t)), v2 (fst (y t)), v3 (fst (y t))) = (x0, y0, z0)) by (rewrite Ey; reflexivity).
    pose proof (H1' _ _ _ _ _ _ _ EY D1 D2 D3) as K1. pose proof (H2' _ _ _ _ _ _ _ EY D1 D2 D3) as K2. pose proof (H3' _ _ _ _ _ _ _ EY D1 D2 D3) as K3.
    unfold v1, v2, v3 in K1, K2, K3; cbn [fst snd] in K1, K2, K3.
    assert (ET : forall s, (fst (fst (fst (y s))), snd (fst (fst (y s))), snd (fst (y s))) = fst (y s)) by (intros s; destruct (y s) as [[[xa xb] xc] w]; reflexivity).
    unfold is_derive3, v1, v2, v3; cbn [fst snd]. split; [|split].
    + apply is_derive_opp in K1. match type of K1 with is_derive _ _ ?l => match goal with |- is_derive _ _ ?r => replace r with l; [|unfold opp; cbn; ring] end end. revert K1. apply is_derive_ext. intros s. rewrite ET. reflexivity.
    + apply is_derive_opp in K2. match type of K2 with is_derive _ _ ?l => match goal with |- is_derive _ _ ?r => replace r with l; [|unfold opp; cbn; ring] end end. revert K2. apply is_derive_ext. intros s. rewrite ET. reflexivity.
    + apply is_derive_opp in K3. match type of K3 with is_derive _ _ ?l => match goal with |- is_derive _ _ ?r => replace r with l; [|unfold opp; cbn; ring] end end. revert K3. apply is_derive_ext. intros s. rewrite ET. reflexivity.
Qed.
