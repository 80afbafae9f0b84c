(** Generic calculus: chain rules for gradients and hessians. *)
From Coq Require Import Reals Lra Bool.
From Coquelicot Require Import Coquelicot.
From Verif Require Import RandReal CoordModel CoordSpec.
Local Open Scope R_scope.

Lemma vec_eta (p : vec3) : (v1 p, v2 p, v3 p) = p.
Proof. destruct p as [[a b] c]. reflexivity. Qed.
Lemma is_grad_partial f p g : is_grad f p g ->
  is_derive (fun s => f (s, v2 p, v3 p)) (v1 p) (v1 g) /\ is_derive (fun s => f (v1 p, s, v3 p)) (v2 p) (v2 g) /\ is_derive (fun s => f (v1 p, v2 p, s)) (v3 p) (v3 g).
Proof.
  intros H. destruct p as [[a b] c]. unfold v1, v2, v3; cbn.
  assert (K : forall k t, is_derive (fun _ : R => (k : R)) t 0) by (intros; apply @is_derive_const).
  assert (L : forall t, is_derive (fun s : R => s) t 1) by (intros; apply @is_derive_id).
  split; [|split].
  - generalize (H (fun s => s) (fun _ => b) (fun _ => c) a 1 0 0 eq_refl (L a) (K b a) (K c a)). replace (v1 g * 1 + v2 g * 0 + v3 g * 0) with (fst (fst g)) by (unfold v1; ring). tauto.
  - generalize (H (fun _ => a) (fun s => s) (fun _ => c) b 0 1 0 eq_refl (K a b) (L b) (K c b)). replace (v1 g * 0 + v2 g * 1 + v3 g * 0) with (snd (fst g)) by (unfold v2; ring). tauto.
  - generalize (H (fun _ => a) (fun _ => b) (fun s => s) c 0 0 1 eq_refl (K a c) (K b c) (L c)). replace (v1 g * 0 + v2 g * 0 + v3 g * 1) with (snd g) by (unfold v3; ring). tauto.
Qed.
(** hence the gradient and hessian are unique *)
Lemma is_grad_unique f p g g' : is_grad f p g -> is_grad f p g' -> g = g'.
Proof.
  intros A B. apply is_grad_partial in A. apply is_grad_partial in B. destruct A as (A1 & A2 & A3), B as (B1 & B2 & B3).
  apply is_derive_unique in A1, A2, A3, B1, B2, B3. rewrite <- (vec_eta g), <- (vec_eta g'). rewrite <- A1, <- A2, <- A3, B1, B2, B3. reflexivity.
Qed.
Lemma is_grad_ext f f' p g : (forall q, f q = f' q) -> is_grad f p g -> is_grad f' p g.
Proof. intros E H c1 c2 c3 t u1 u2 u3 Ep D1 D2 D3. apply is_derive_ext with (fun s => f (c1 s, c2 s, c3 s)). intros s; apply E. apply H; assumption. Qed.
Lemma triple_continuous {U : UniformSpace} (c1 c2 c3 : U -> R) (t : U) : continuous c1 t -> continuous c2 t -> continuous c3 t ->
  continuous (fun s => (c1 s, c2 s, c3 s) : vec3) t.
Proof.
  intros D1 D2 D3 P [eps HP].
  assert (L1 : locally t (fun s => ball (c1 t) eps (c1 s))) by (apply D1; apply locally_ball).
  assert (L2 : locally t (fun s => ball (c2 t) eps (c2 s))) by (apply D2; apply locally_ball).
  assert (L3 : locally t (fun s => ball (c3 t) eps (c3 s))) by (apply D3; apply locally_ball).
  unfold filtermap. generalize (filter_and _ _ L1 (filter_and _ _ L2 L3)). apply filter_imp. intros s (B1 & B2 & B3). apply HP. split; [split|]; assumption.
Qed.
Lemma curve_continuous (c1 c2 c3 : R -> R) (t u1 u2 u3 : R) : is_derive c1 t u1 -> is_derive c2 t u2 -> is_derive c3 t u3 ->
  continuous (fun s => (c1 s, c2 s, c3 s) : vec3) t.
Proof.
  intros D1 D2 D3. apply triple_continuous; apply (ex_derive_continuous (V := R_NormedModule)); eexists; eassumption.
Qed.
Lemma is_grad_ext_loc f f' p g : locally p (fun q => f q = f' q) -> is_grad f p g -> is_grad f' p g.
Proof.
  intros E H c1 c2 c3 t u1 u2 u3 Ep D1 D2 D3.
  apply is_derive_ext_loc with (fun s => f (c1 s, c2 s, c3 s)); [|apply H; assumption].
  pose proof (curve_continuous c1 c2 c3 t u1 u2 u3 D1 D2 D3) as C. rewrite <- Ep in E. exact (C _ E).
Qed.
Lemma is_grad_const k p : is_grad (fun _ => k) p (0, 0, 0).
Proof. intros c1 c2 c3 t u1 u2 u3 _ _ _ _. unfold v1, v2, v3; cbn. replace (0 * u1 + 0 * u2 + 0 * u3) with 0 by ring. apply @is_derive_const. Qed.
Lemma is_grad_eq f p g g' : g = g' -> is_grad f p g -> is_grad f p g'.
Proof. intros <-; auto. Qed.
Lemma is_grad_plus f f' p g g' : is_grad f p g -> is_grad f' p g' -> is_grad (fun q => f q + f' q) p (v1 g + v1 g', v2 g + v2 g', v3 g + v3 g').
Proof.
  intros H H' c1 c2 c3 t u1 u2 u3 Ep D1 D2 D3. unfold v1, v2, v3; cbn.
  replace ((fst (fst g) + fst (fst g')) * u1 + (snd (fst g) + snd (fst g')) * u2 + (snd g + snd g') * u3) with (plus (v1 g * u1 + v2 g * u2 + v3 g * u3) (v1 g' * u1 + v2 g' * u2 + v3 g' * u3)) by (unfold v1, v2, v3, plus; cbn; ring).
  apply @is_derive_plus; [apply H|apply H']; assumption.
Qed.
Lemma is_grad_mult f f' p g g' : is_grad f p g -> is_grad f' p g' ->
  is_grad (fun q => f q * f' q) p (v1 g * f' p + f p * v1 g', v2 g * f' p + f p * v2 g', v3 g * f' p + f p * v3 g').
Proof.
  intros H H' c1 c2 c3 t u1 u2 u3 Ep D1 D2 D3.
  generalize (H _ _ _ _ _ _ _ Ep D1 D2 D3) (H' _ _ _ _ _ _ _ Ep D1 D2 D3). intros E E'.
  generalize (is_derive_mult (K := R_AbsRing) (fun s => f (c1 s, c2 s, c3 s)) (fun s => f' (c1 s, c2 s, c3 s)) t _ _ E E' Rmult_comm).
  cbv beta. rewrite Ep. unfold plus, mult; cbn.
  match goal with |- is_derive _ _ ?l -> is_derive _ _ ?r => replace r with l; [tauto|] end. unfold v1, v2, v3; cbn [fst snd]. ring.
Qed.
Lemma is_grad_mult' f f' p g g' k : is_grad f p g -> is_grad f' p g' ->
  k = (v1 g * f' p + f p * v1 g', v2 g * f' p + f p * v2 g', v3 g * f' p + f p * v3 g') -> is_grad (fun q => f q * f' q) p k.
Proof. intros A B ->. apply is_grad_mult; assumption. Qed.

(** composition with a coordinate map *)
Lemma is_grad_comp f phi p g J : is_grad f (phi p) g -> is_map1 phi p J ->
  is_grad (fun q => f (phi q)) p
    (v1 g * v1 (fst (fst J)) + v2 g * v1 (snd (fst J)) + v3 g * v1 (snd J),
     v1 g * v2 (fst (fst J)) + v2 g * v2 (snd (fst J)) + v3 g * v2 (snd J),
     v1 g * v3 (fst (fst J)) + v2 g * v3 (snd (fst J)) + v3 g * v3 (snd J)).
Proof.
  intros H (M1 & M2 & M3) c1 c2 c3 t u1 u2 u3 Ep D1 D2 D3.
  generalize (M1 _ _ _ _ _ _ _ Ep D1 D2 D3) (M2 _ _ _ _ _ _ _ Ep D1 D2 D3) (M3 _ _ _ _ _ _ _ Ep D1 D2 D3). intros E1 E2 E3.
  assert (Ep' : (v1 (phi (c1 t, c2 t, c3 t)), v2 (phi (c1 t, c2 t, c3 t)), v3 (phi (c1 t, c2 t, c3 t))) = phi p) by (rewrite vec_eta, Ep; reflexivity).
  generalize (H _ _ _ _ _ _ _ Ep' E1 E2 E3). intros E.
  apply is_derive_ext with (fun s => f (v1 (phi (c1 s, c2 s, c3 s)), v2 (phi (c1 s, c2 s, c3 s)), v3 (phi (c1 s, c2 s, c3 s)))); [intros s; rewrite vec_eta; reflexivity|].
  match goal with |- is_derive _ _ ?r => match type of E with is_derive _ _ ?l => replace r with l; [exact E|] end end.
  unfold v1, v2, v3; cbn [fst snd]. ring.
Qed.
Lemma is_hess_comp f phi J p K g h : is_hess f (phi p) g h -> is_map2 phi J p K -> continuous phi p ->
  let '(a1, a2, a3) := J p in let '(k1, k2, k3) := K in
  let q (b c : vec3) := (h11 h * v1 b + h12 h * v2 b + h13 h * v3 b) * v1 c + (h12 h * v1 b + h22 h * v2 b + h23 h * v3 b) * v2 c + (h13 h * v1 b + h23 h * v2 b + h33 h * v3 b) * v3 c in
  let col1 := (v1 a1, v1 a2, v1 a3) in let col2 := (v2 a1, v2 a2, v2 a3) in let col3 := (v3 a1, v3 a2, v3 a3) in
  let s (k : hess6 -> R) := v1 g * k k1 + v2 g * k k2 + v3 g * k k3 in
  is_hess (fun x => f (phi x)) p
    (v1 g * v1 a1 + v2 g * v1 a2 + v3 g * v1 a3, v1 g * v2 a1 + v2 g * v2 a2 + v3 g * v2 a3, v1 g * v3 a1 + v2 g * v3 a2 + v3 g * v3 a3)
    {| h11 := q col1 col1 + s h11; h22 := q col2 col2 + s h22; h33 := q col3 col3 + s h33;
       h12 := q col1 col2 + s h12; h23 := q col2 col3 + s h23; h13 := q col1 col3 + s h13 |}.
Proof.
  intros (G & Gp & LG & G1 & G2 & G3) ((L1 & A1 & A2 & A3) & (L2 & B1 & B2 & B3) & (L3 & C1 & C2 & C3)) Cont.
  destruct (J p) as [[a1 a2] a3] eqn:EJ. destruct K as [[k1 k2] k3]. cbn [fst snd] in *. cbv zeta.
  assert (M1 : is_map1 phi p (a1, a2, a3)). { rewrite <- EJ. split; [|split]; cbn [fst snd]; [apply locally_singleton in L1; exact L1|apply locally_singleton in L2; exact L2|apply locally_singleton in L3; exact L3]. }
  exists (fun x => let '(b1, b2, b3) := J x in let g := G (phi x) in
     (v1 g * v1 b1 + v2 g * v1 b2 + v3 g * v1 b3, v1 g * v2 b1 + v2 g * v2 b2 + v3 g * v2 b3, v1 g * v3 b1 + v2 g * v3 b2 + v3 g * v3 b3)).
  split; [rewrite EJ, Gp; reflexivity|].
  generalize (is_grad_comp _ _ _ _ _ G1 M1) (is_grad_comp _ _ _ _ _ G2 M1) (is_grad_comp _ _ _ _ _ G3 M1). intros P1 P2 P3.
  split; [|split; [|split]].
  - generalize (filter_and _ _ L1 (filter_and _ _ L2 (filter_and _ _ L3 (Cont _ LG)))). apply filter_imp.
    intros x (X1 & X2 & X3 & X4). generalize (is_grad_comp f phi x (G (phi x)) (J x) X4 (conj X1 (conj X2 X3))). destruct (J x) as [[b1 b2] b3]. cbn [fst snd]. tauto.
  - eapply is_grad_ext; cycle 1; [eapply is_grad_eq; [|apply is_grad_plus; [apply is_grad_plus; [apply is_grad_mult; [exact P1|exact A1]|apply is_grad_mult; [exact P2|exact B1]]|apply is_grad_mult; [exact P3|exact C1]]]|]; cycle 1.
    + intros x; cbv beta. destruct (J x) as [[b1 b2] b3]. reflexivity.
    + cbn [h11 h22 h33 h12 h23 h13]. rewrite EJ, Gp. unfold v1, v2, v3; cbn [fst snd]. f_equal; [f_equal|]; ring.
  - eapply is_grad_ext; cycle 1; [eapply is_grad_eq; [|apply is_grad_plus; [apply is_grad_plus; [apply is_grad_mult; [exact P1|exact A2]|apply is_grad_mult; [exact P2|exact B2]]|apply is_grad_mult; [exact P3|exact C2]]]|]; cycle 1.
    + intros x; cbv beta. destruct (J x) as [[b1 b2] b3]. reflexivity.
    + cbn [h11 h22 h33 h12 h23 h13]. rewrite EJ, Gp. unfold v1, v2, v3; cbn [fst snd]. f_equal; [f_equal|]; ring.
  - eapply is_grad_ext; cycle 1; [eapply is_grad_eq; [|apply is_grad_plus; [apply is_grad_plus; [apply is_grad_mult; [exact P1|exact A3]|apply is_grad_mult; [exact P2|exact B3]]|apply is_grad_mult; [exact P3|exact C3]]]|]; cycle 1.
    + intros x; cbv beta. destruct (J x) as [[b1 b2] b3]. reflexivity.
    + cbn [h11 h22 h33 h12 h23 h13]. rewrite EJ, Gp. unfold v1, v2, v3; cbn [fst snd]. f_equal; [f_equal|]; ring.
Qed.

(** any Frechet-differentiable function (Coquelicot's filterdiff) has a gradient in this sense *)
Lemma is_grad_frechet (f : vec3 -> R) (p g : vec3) :
  filterdiff (U := prod_NormedModule R_AbsRing (prod_NormedModule R_AbsRing R_NormedModule R_NormedModule) R_NormedModule) (V := R_NormedModule)
    f (locally p) (fun u : vec3 => v1 g * v1 u + v2 g * v2 u + v3 g * v3 u) -> is_grad f p g.
Proof.
  intros H c1 c2 c3 t u1 u2 u3 Ep D1 D2 D3. rewrite <- Ep in H.
  assert (Hp : forall (U V : NormedModule R_AbsRing) (x : U * V), filterdiff (U := prod_NormedModule R_AbsRing U V) (V := prod_NormedModule R_AbsRing U V) (fun t => (fst t, snd t)) (locally x) (fun t => (fst t, snd t))).
  { intros U V x. apply filterdiff_ext with (fun t => t). intros [? ?]; reflexivity. apply filterdiff_ext_lin with (fun t => t); [apply filterdiff_id|intros [? ?]; reflexivity]. }
  generalize (filterdiff_comp'_2 c1 c2 (fun a b => (a, b)) t _ _ _ D1 D2 (Hp _ _ _)). intros D12.
  generalize (filterdiff_comp'_2 (fun s => (c1 s, c2 s)) c3 (fun a b => (a, b)) t _ _ _ D12 D3 (Hp _ _ _)). intros D123.
  generalize (filterdiff_comp' (fun s => (c1 s, c2 s, c3 s)) f t _ _ D123 H). intros D. cbv beta in D. cbn [fst snd] in D.
  eapply filterdiff_ext_lin; [exact D|]. intros y. unfold v1, v2, v3, scal; cbn. unfold mult; cbn. ring.
Qed.
