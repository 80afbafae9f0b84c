(** The tables of first and second derivatives of the coordinate transformations are the true ones. *)
From Coq Require Import Reals Lra Psatz Bool.
From Coquelicot Require Import Coquelicot.
From Verif Require Import RandReal PolyModel PolyProofs RootProofs CoordModel CoordSpec CoordCalc CoordAtan.
Local Open Scope R_scope.

(** evaluate a gradient along a curve *)
Ltac gcurve :=
  let c1 := fresh "c1" in let c2 := fresh "c2" in let c3 := fresh "c3" in let t := fresh "t" in let Q1 := fresh "Q1" in let Q2 := fresh "Q2" in let Q3 := fresh "Q3" in
  intros c1 c2 c3 t u1 u2 u3 Ep D1 D2 D3;
  assert (E1 : Derive (fun s : R => c1 s) t = u1) by (apply is_derive_unique; exact D1);
  assert (E2 : Derive (fun s : R => c2 s) t = u2) by (apply is_derive_unique; exact D2);
  assert (E3 : Derive (fun s : R => c3 s) t = u3) by (apply is_derive_unique; exact D3);
  assert (X1 : ex_derive (fun s : R => c1 s) t) by (eexists; exact D1);
  assert (X2 : ex_derive (fun s : R => c2 s) t) by (eexists; exact D2);
  assert (X3 : ex_derive (fun s : R => c3 s) t) by (eexists; exact D3);
  injection Ep as Q1 Q2 Q3; match type of Q1 with _ = ?x => subst x end; match type of Q2 with _ = ?x => subst x end; match type of Q3 with _ = ?x => subst x end; unfold v1, v2, v3 in *; cbn [fst snd] in *.
Ltac gfin := repeat match goal with E : Derive ?f ?t = _ |- context [Derive ?f ?t] => rewrite E end.
Ltac gside := repeat split; try assumption; try (eexists; eassumption).

Lemma continuous_v1 (p : vec3) : continuous (fun q : vec3 => v1 q) p.
Proof. unfold v1. apply (continuous_comp (fun q : vec3 => fst q) fst); apply continuous_fst. Qed.
Lemma continuous_v2 (p : vec3) : continuous (fun q : vec3 => v2 q) p.
Proof. unfold v2. apply (continuous_comp (fun q : vec3 => fst q) snd); [apply continuous_fst|apply continuous_snd]. Qed.
Lemma continuous_v3 (p : vec3) : continuous (fun q : vec3 => v3 q) p.
Proof. unfold v3. apply continuous_snd. Qed.
Lemma cont_mult {U : UniformSpace} (f g : U -> R) t : continuous f t -> continuous g t -> continuous (fun s => f s * g s) t.
Proof. apply (continuous_mult (K := R_AbsRing)). Qed.
Lemma cont_plus {U : UniformSpace} (f g : U -> R) t : continuous f t -> continuous g t -> continuous (fun s => f s + g s) t.
Proof. apply (continuous_plus (V := R_NormedModule)). Qed.
Lemma cont_opp {U : UniformSpace} (f : U -> R) t : continuous f t -> continuous (fun s => - f s) t.
Proof. apply (continuous_opp (V := R_NormedModule)). Qed.
Lemma cont_const {U : UniformSpace} (k : R) (t : U) : continuous (fun _ => k) t.
Proof. apply continuous_const. Qed.
Lemma cont_sqrt {U : UniformSpace} (f : U -> R) t : continuous f t -> continuous (fun s => sqrt (f s)) t.
Proof. intros H. apply (continuous_comp f sqrt); [exact H|apply continuous_sqrt]. Qed.
Lemma cont_sin {U : UniformSpace} (f : U -> R) t : continuous f t -> continuous (fun s => sin (f s)) t.
Proof. intros H. apply (continuous_comp f sin); [exact H|apply continuous_sin]. Qed.
Lemma cont_cos {U : UniformSpace} (f : U -> R) t : continuous f t -> continuous (fun s => cos (f s)) t.
Proof. intros H. apply (continuous_comp f cos); [exact H|apply continuous_cos]. Qed.
Ltac cont := repeat (lazymatch goal with
  | |- continuous (fun _ => _ + _) _ => apply cont_plus | |- continuous (fun _ => _ * _) _ => apply cont_mult | |- continuous (fun _ => - _) _ => apply cont_opp
  | |- continuous (fun _ => sqrt _) _ => apply cont_sqrt | |- continuous (fun _ => sin _) _ => apply cont_sin | |- continuous (fun _ => cos _) _ => apply cont_cos
  | |- continuous (fun q => v1 q) _ => apply continuous_v1 | |- continuous (fun q => v2 q) _ => apply continuous_v2 | |- continuous (fun q => v3 q) _ => apply continuous_v3
  | |- continuous v1 _ => apply continuous_v1 | |- continuous v2 _ => apply continuous_v2 | |- continuous v3 _ => apply continuous_v3
  | |- continuous (fun _ => ?k) _ => apply cont_const end).

Lemma hess_open (Dom : vec3 -> Prop) f G p h : locally p Dom -> (forall q, Dom q -> is_grad f q (G q)) ->
  is_grad (fun q => v1 (G q)) p (h11 h, h12 h, h13 h) -> is_grad (fun q => v2 (G q)) p (h12 h, h22 h, h23 h) -> is_grad (fun q => v3 (G q)) p (h13 h, h23 h, h33 h) ->
  is_hess_with f G p h.
Proof. intros L H A B C. split; [|tauto]. revert L. apply filter_imp. exact H. Qed.

Definition R2pos (q : vec3) : Prop := 0 < v1 q * v1 q + v2 q * v2 q.
Lemma R2pos_open p : R2pos p -> locally p R2pos.
Proof. intros H. unfold R2pos in *. apply (locally_pos_U (fun q : vec3 => v1 q * v1 q + v2 q * v2 q)); [cont|exact H]. Qed.
Definition offcut (q : vec3) : Prop := 0 < v1 q \/ v2 q <> 0.
Lemma offcut_open p : offcut p -> locally p offcut.
Proof.
  intros H. assert (K : 0 < v1 p \/ 0 < v2 p \/ v2 p < 0). { destruct H as [H|H]; [tauto|]. destruct (Rtotal_order (v2 p) 0) as [?|[?|?]]; [tauto|contradiction|tauto]. }
  unfold offcut. destruct K as [K|[K|K]].
  - generalize (locally_pos_U (fun q : vec3 => v1 q) p (continuous_v1 p) K). apply filter_imp. tauto.
  - generalize (locally_pos_U (fun q : vec3 => v2 q) p (continuous_v2 p) K). apply filter_imp. intros; right; lra.
  - generalize (locally_neg_U (fun q : vec3 => v2 q) p (continuous_v2 p) K). apply filter_imp. intros; right; lra.
Qed.
Lemma offcut_R2pos q : offcut q -> R2pos q.
Proof. unfold offcut, R2pos. intros [H|H]; nra. Qed.
(** the other branch of the azimuthal angle, continuous across the half-plane y=0, x<0 *)
Definition ang' (q : vec3) : R := PI + atan2 (- v2 q) (- v1 q).
Definition offcut' (q : vec3) : Prop := v1 q < 0 \/ v2 q <> 0.
Lemma offcut'_open p : offcut' p -> locally p offcut'.
Proof.
  intros H. assert (K : v1 p < 0 \/ 0 < v2 p \/ v2 p < 0). { destruct H as [H|H]; [tauto|]. destruct (Rtotal_order (v2 p) 0) as [?|[?|?]]; [tauto|contradiction|tauto]. }
  unfold offcut'. destruct K as [K|[K|K]].
  - generalize (locally_neg_U (fun q : vec3 => v1 q) p (continuous_v1 p) K). apply filter_imp. tauto.
  - generalize (locally_pos_U (fun q : vec3 => v2 q) p (continuous_v2 p) K). apply filter_imp. intros; right; lra.
  - generalize (locally_neg_U (fun q : vec3 => v2 q) p (continuous_v2 p) K). apply filter_imp. intros; right; lra.
Qed.
Lemma ang'_mod q : R2pos q -> ang' q = atan2 (v2 q) (v1 q) \/ ang' q = atan2 (v2 q) (v1 q) + 2 * PI.
Proof.
  unfold R2pos, ang'. intros H. destruct (Rtotal_order (v2 q) 0) as [L|[E|G]].
  - right. rewrite atan2_ypos by lra. rewrite atan2_yneg by lra. replace (- v1 q / - v2 q) with (v1 q / v2 q) by (field; lra). lra.
  - rewrite E in *. destruct (Rtotal_order (v1 q) 0) as [L|[E1|G]].
    + left. rewrite (atan2_xpos (- 0)) by lra. rewrite atan2_xneg by lra. replace (-0 / - v1 q) with 0 by (field; lra). rewrite atan_0. lra.
    + rewrite E1 in H. lra.
    + right. replace (- 0) with 0 by ring. rewrite (atan2_xneg (- v1 q)) by lra. rewrite atan2_xpos by lra. replace (0 / v1 q) with 0 by (field; lra). rewrite atan_0. lra.
  - left. rewrite atan2_yneg by lra. rewrite atan2_ypos by lra. replace (- v1 q / - v2 q) with (v1 q / v2 q) by (field; lra). lra.
Qed.
(** gradient of the azimuth, both branches *)
Lemma grad_ang q : offcut q -> is_grad (fun q => atan2 (v2 q) (v1 q)) q (- v2 q / (v1 q * v1 q + v2 q * v2 q), v1 q / (v1 q * v1 q + v2 q * v2 q), 0).
Proof.
  destruct q as [[x y] z]. unfold offcut. intros H. gcurve.
  generalize (atan2_derive c2 c1 t u2 u1 H D2 D1). match goal with |- is_derive _ _ ?l -> is_derive _ _ ?r => replace r with l; [tauto|] end.
  field. destruct H; nra.
Qed.
Lemma grad_ang' q : offcut' q -> is_grad ang' q (- v2 q / (v1 q * v1 q + v2 q * v2 q), v1 q / (v1 q * v1 q + v2 q * v2 q), 0).
Proof.
  destruct q as [[x y] z]. unfold offcut'. intros H. gcurve.
  assert (N1 : is_derive (fun s => - c1 s) t (- u1)) by (apply (is_derive_opp (V := R_NormedModule)); exact D1).
  assert (N2 : is_derive (fun s => - c2 s) t (- u2)) by (apply (is_derive_opp (V := R_NormedModule)); exact D2).
  assert (H' : 0 < - c1 t \/ - c2 t <> 0) by (destruct H; [left; lra|right; lra]).
  generalize (atan2_derive (fun s => - c2 s) (fun s => - c1 s) t (- u2) (- u1) H' N2 N1). intros D.
  unfold ang', v1, v2; cbn [fst snd]. generalize (is_derive_plus (V := R_NormedModule) (fun _ => PI) (fun s => atan2 (- c2 s) (- c1 s)) t 0 _ (is_derive_const (V := R_NormedModule) PI t) D).
  unfold plus; cbn. match goal with |- is_derive _ _ ?l -> is_derive _ _ ?r => replace r with l; [tauto|] end.
  field. destruct H; nra.
Qed.

Lemma sq2 q : R2pos q -> 0 < sqrt (pow_2 (v1 q) + pow_2 (v2 q)).
Proof. intros H. apply sqrt_lt_R0. exact H. Qed.
Lemma deriv_CY_val q : R2pos q -> deriv_CY q = let Rc := sqrt (v1 q * v1 q + v2 q * v2 q) in
  {| dRdx_CY := v1 q / Rc; dRdy_CY := v2 q / Rc; dphidx_CY := - (v2 q / Rc) / Rc; dphidy_CY := v1 q / Rc / Rc |}.
Proof.
  intros H. pose proof (sq2 q H) as P. destruct q as [[x y] z]. unfold deriv_CY. unfold v1, v2 in *; cbn [fst snd] in *.
  rewrite Req_b_f by lra. reflexivity.
Qed.
Lemma deriv2_CY_val q : R2pos q -> let Rc := sqrt (v1 q * v1 q + v2 q * v2 q) in let R2 := v1 q * v1 q + v2 q * v2 q in
  let cosphi := v1 q / Rc in let sinphi := v2 q / Rc in
  deriv2_CY q = {| d2Rdx2_CY := pow_2 sinphi / Rc; d2Rdy2_CY := pow_2 cosphi / Rc; d2Rdxdy_CY := - sinphi * cosphi / Rc;
     d2phidx2_CY := 2 * sinphi * cosphi / R2; d2phidy2_CY := - (2 * sinphi * cosphi / R2); d2phidxdy_CY := (pow_2 sinphi - pow_2 cosphi) / R2 |}.
Proof.
  intros H. pose proof (sq2 q H) as P. destruct q as [[x y] z]. unfold deriv2_CY. unfold v1, v2 in *; cbn [fst snd] in *.
  rewrite Req_b_f by lra. reflexivity.
Qed.
Lemma map2_CY_ang (ang : vec3 -> R) (Dom : vec3 -> Prop) p : locally p Dom -> (forall q, Dom q -> R2pos q) ->
  (forall q, Dom q -> is_grad ang q (- v2 q / (v1 q * v1 q + v2 q * v2 q), v1 q / (v1 q * v1 q + v2 q * v2 q), 0)) ->
  is_map2 (fun q => (sqrt (pow_2 (v1 q) + pow_2 (v2 q)), v3 q, ang q)) (fun q => rows_CY (deriv_CY q)) p (second_CY (deriv2_CY p)).
Proof.
  intros LD DR GA. assert (Dp : Dom p) by (apply locally_singleton in LD; exact LD). pose proof (DR p Dp) as Hp.
  assert (LR : locally p R2pos) by (apply R2pos_open; exact Hp).
  assert (EL : forall (F G : vec3 -> R), (forall q, R2pos q -> F q = G q) -> locally p (fun q => F q = G q)) by (intros F G H; revert LR; apply filter_imp; exact H).
  assert (S2 : forall q, R2pos q -> sqrt (v1 q * v1 q + v2 q * v2 q) * sqrt (v1 q * v1 q + v2 q * v2 q) = v1 q * v1 q + v2 q * v2 q) by (intros q H; apply sqrt_sqrt; unfold R2pos in H; lra).
  assert (S1 : forall q, R2pos q -> 0 < sqrt (v1 q * v1 q + v2 q * v2 q)) by (intros q H; apply sqrt_lt_R0; exact H).
  rewrite (deriv2_CY_val p Hp). cbv zeta. unfold second_CY; cbn [d2Rdx2_CY d2Rdy2_CY d2Rdxdy_CY d2phidx2_CY d2phidy2_CY d2phidxdy_CY].
  split; [|split]; cbn [fst snd].
  - apply (hess_open R2pos); [exact LR| | | |]; cbn [h11 h22 h33 h12 h23 h13].
    + intros q H. rewrite deriv_CY_val by exact H. cbv zeta. unfold rows_CY; cbn [fst snd dRdx_CY dRdy_CY]. specialize (S1 q H). destruct q as [[x y] z]. unfold R2pos in H. gcurve.
      unfold pow_2. auto_derive; [gside|]. gfin. field. lra.
    + apply is_grad_ext_loc with (fun q => v1 q / sqrt (v1 q * v1 q + v2 q * v2 q)).
      { apply EL. intros q H. rewrite deriv_CY_val by exact H. reflexivity. }
      specialize (S1 p Hp). specialize (S2 p Hp). destruct p as [[x y] z]. unfold R2pos in Hp. clear LD DR GA Dp LR EL. gcurve.
      auto_derive; [gside; lra|]. gfin. unfold pow_2. set (w := sqrt _) in *. field [S2]. lra.
    + apply is_grad_ext_loc with (fun q => v2 q / sqrt (v1 q * v1 q + v2 q * v2 q)).
      { apply EL. intros q H. rewrite deriv_CY_val by exact H. reflexivity. }
      specialize (S1 p Hp). specialize (S2 p Hp). destruct p as [[x y] z]. unfold R2pos in Hp. clear LD DR GA Dp LR EL. gcurve.
      auto_derive; [gside; lra|]. gfin. unfold pow_2. set (w := sqrt _) in *. field [S2]. lra.
    + first [exact (is_grad_const 0 _) | exact (is_grad_const 1 _)].
  - apply (hess_open (fun _ => True)); [apply filter_true| | | |]; cbn [h11 h22 h33 h12 h23 h13 h0].
    + intros q _. destruct q as [[x y] z]. unfold rows_CY; cbn [fst snd]. gcurve. match goal with |- is_derive _ _ ?r => replace r with u3 by ring end. exact D3.
    + first [exact (is_grad_const 0 _) | exact (is_grad_const 1 _)].
    + first [exact (is_grad_const 0 _) | exact (is_grad_const 1 _)].
    + first [exact (is_grad_const 0 _) | exact (is_grad_const 1 _)].
  - apply (hess_open Dom); [exact LD| | | |]; cbn [h11 h22 h33 h12 h23 h13].
    + intros q H. rewrite deriv_CY_val by (apply DR; exact H). cbv zeta. unfold rows_CY; cbn [fst snd dphidx_CY dphidy_CY].
      eapply is_grad_eq; [|apply GA; exact H]. specialize (S1 q (DR q H)). specialize (S2 q (DR q H)). pose proof (DR q H) as P. unfold R2pos in P. set (w := sqrt _) in *. rewrite <- S2. f_equal; f_equal; field; lra.
    + apply is_grad_ext_loc with (fun q => - v2 q / (v1 q * v1 q + v2 q * v2 q)).
      { apply EL. intros q H. rewrite deriv_CY_val by exact H. unfold rows_CY, v1, v2; cbn [fst snd dphidx_CY dphidy_CY]. specialize (S1 q H). specialize (S2 q H). unfold v1, v2 in S1, S2. set (w := sqrt _) in *. rewrite <- S2. field. lra. }
      specialize (S1 p Hp). specialize (S2 p Hp). destruct p as [[x y] z]. unfold R2pos in Hp. clear LD DR GA Dp LR EL. gcurve.
      auto_derive; [gside; lra|]. gfin. unfold pow_2. set (w := sqrt _) in *. rewrite <- !S2. field [S2]. lra.
    + apply is_grad_ext_loc with (fun q => v1 q / (v1 q * v1 q + v2 q * v2 q)).
      { apply EL. intros q H. rewrite deriv_CY_val by exact H. unfold rows_CY, v1, v2; cbn [fst snd dphidx_CY dphidy_CY]. specialize (S1 q H). specialize (S2 q H). unfold v1, v2 in S1, S2. set (w := sqrt _) in *. rewrite <- S2. field. lra. }
      specialize (S1 p Hp). specialize (S2 p Hp). destruct p as [[x y] z]. unfold R2pos in Hp. clear LD DR GA Dp LR EL. gcurve.
      auto_derive; [gside; lra|]. gfin. unfold pow_2. set (w := sqrt _) in *. rewrite <- !S2. field [S2]. lra.
    + first [exact (is_grad_const 0 _) | exact (is_grad_const 1 _)].
Qed.
