(** Gradients and hessians converted between coordinate systems are those of the same function in the new coordinates. *)
From Coq Require Import Reals Lra Psatz Bool.
From Coquelicot Require Import Coquelicot.
From Verif Require Import RandReal PolyModel PolyProofs RootProofs CoordModel CoordSpec CoordCalc CoordAtan CoordMaps CoordMaps2.
Local Open Scope R_scope.

Lemma hess6_eq a b : h11 a = h11 b -> h22 a = h22 b -> h33 a = h33 b -> h12 a = h12 b -> h23 a = h23 b -> h13 a = h13 b -> a = b.
Proof. destruct a, b; cbn. intros; subst; reflexivity. Qed.
Lemma is_hess_eq f p g h g' h' : is_hess f p g h -> g = g' -> h = h' -> is_hess f p g' h'.
Proof. intros H <- <-. exact H. Qed.
Lemma is_hess_ext_loc f f' p g h : locally p (fun q => f q = f' q) -> is_hess f p g h -> is_hess f' p g h.
Proof.
  intros L (G & E & (A & B)). exists G; split; [exact E|]. split; [|exact B].
  pose proof (locally_locally _ _ L) as LL. generalize (filter_and _ _ A LL). apply filter_imp. intros q (Hq & Lq). exact (is_grad_ext_loc _ _ _ _ Lq Hq).
Qed.
Lemma is_hess_grad f p g h : is_hess f p g h -> is_grad f p g.
Proof. intros (G & <- & (A & _)). exact (locally_singleton _ _ A). Qed.
Lemma is_map2_map1 phi J p K : is_map2 phi J p K -> is_map1 phi p (J p).
Proof. intros (A & B & C). split; [|split]; [exact (locally_singleton _ _ (proj1 A))|exact (locally_singleton _ _ (proj1 B))|exact (locally_singleton _ _ (proj1 C))]. Qed.

Lemma cont_YC p : continuous toPos_YC p.
Proof.
  apply (continuous_ext (fun q : vec3 => (v1 q * cos (v3 q), v1 q * sin (v3 q), v2 q) : vec3)).
  { intros [[a b] c]. unfold toPos_YC. rewrite mul_fun. reflexivity. }
  apply triple_continuous; cont.
Qed.
Lemma cont_SC p : continuous toPos_SC p.
Proof.
  apply (continuous_ext (fun q : vec3 => (v1 q * (sin (v2 q) * cos (v3 q)), v1 q * (sin (v2 q) * sin (v3 q)), v1 q * cos (v2 q)) : vec3)).
  { intros [[a b] c]. unfold toPos_SC. rewrite mul_fun. reflexivity. }
  apply triple_continuous; cont.
Qed.
Lemma cont_SY p : continuous toPos_SY p.
Proof.
  apply (continuous_ext (fun q : vec3 => (v1 q * sin (v2 q), v1 q * cos (v2 q), v3 q) : vec3)).
  { intros [[a b] c]. unfold toPos_SY. rewrite mul_fun. reflexivity. }
  apply triple_continuous; cont.
Qed.
Lemma cont_YS p : offcut_YS p -> continuous toPos_YS p.
Proof.
  intros H. apply (continuous_ext (fun q : vec3 => (sqrt (v1 q * v1 q + v2 q * v2 q), atan2 (v1 q) (v2 q), v3 q) : vec3)).
  { intros [[a b] c]. reflexivity. }
  apply triple_continuous; [cont| |cont]. apply atan2_continuous; [exact H|cont|cont].
Qed.

Ltac hfin := apply hess6_eq; cbn [h11 h22 h33 h12 h23 h13]; unfold v1, v2, v3; cbn [fst snd]; ring.
Lemma hess_YC f p g h : is_hess f (toPos_YC p) g h -> is_hess (fun q => f (toPos_YC q)) p (toGrad_YC g (deriv_YC p)) (toHess_YC g h (deriv_YC p) (deriv2_YC p)).
Proof.
  intros H. generalize (is_hess_comp f toPos_YC _ p _ g h H (map2_YC p) (cont_YC p)). unfold rows_YC, second_YC, h0. cbv beta iota zeta. intros K. eapply is_hess_eq; [exact K| |].
  - unfold toGrad_YC, v1, v2, v3; cbn [fst snd]. apply f_equal2; [apply f_equal2|]; ring.
  - unfold toHess_YC. hfin.
Qed.
Lemma hess_SC f p g h : is_hess f (toPos_SC p) g h -> is_hess (fun q => f (toPos_SC q)) p (toGrad_SC g (deriv_SC p)) (toHess_SC g h (deriv_SC p) (deriv2_SC p)).
Proof.
  intros H. generalize (is_hess_comp f toPos_SC _ p _ g h H (map2_SC p) (cont_SC p)). unfold rows_SC, second_SC, h0. cbv beta iota zeta. intros K. eapply is_hess_eq; [exact K| |].
  - unfold toGrad_SC, v1, v2, v3; cbn [fst snd]. apply f_equal2; [apply f_equal2|]; ring.
  - unfold toHess_SC. hfin.
Qed.
Lemma hess_SY f p g h : is_hess f (toPos_SY p) g h -> is_hess (fun q => f (toPos_SY q)) p (toGrad_SY g (deriv_SY p)) (toHess_SY g h (deriv_SY p) (deriv2_SY p)).
Proof.
  intros H. generalize (is_hess_comp f toPos_SY _ p _ g h H (map2_SY p) (cont_SY p)). unfold rows_SY, second_SY, h0. cbv beta iota zeta. intros K. eapply is_hess_eq; [exact K| |].
  - unfold toGrad_SY, v1, v2, v3; cbn [fst snd]. apply f_equal2; [apply f_equal2|]; ring.
  - unfold toHess_SY. hfin.
Qed.
Lemma hess_YS f p g h : offcut_YS p -> is_hess f (toPos_YS p) g h -> is_hess (fun q => f (toPos_YS q)) p (toGrad_YS g (deriv_YS p)) (toHess_YS g h (deriv_YS p) (deriv2_YS p)).
Proof.
  intros D H. generalize (is_hess_comp f toPos_YS _ p _ g h H (map2_YS p D) (cont_YS p D)). unfold rows_YS, second_YS, h0. cbv beta iota zeta. intros K. eapply is_hess_eq; [exact K| |].
  - unfold toGrad_YS, v1, v2, v3; cbn [fst snd]. apply f_equal2; [apply f_equal2|]; ring.
  - unfold toHess_YS. hfin.
Qed.
(** Cartesian to cylindrical and spherical: on the half-plane where the azimuth jumps, use the other branch *)
Lemma periodic_ang' f a b q : periodic3 f -> R2pos q -> f (a, b, ang' q) = f (a, b, atan2 (v2 q) (v1 q)).
Proof. intros P H. destruct (ang'_mod q H) as [-> | ->]; [reflexivity|apply P]. Qed.
Lemma hess_CY_ang ang (Dom : vec3 -> Prop) f p g h : locally p Dom -> (forall q, Dom q -> R2pos q) ->
  (forall q, Dom q -> is_grad ang q (- v2 q / (v1 q * v1 q + v2 q * v2 q), v1 q / (v1 q * v1 q + v2 q * v2 q), 0)) -> continuous ang p ->
  let phi q := (sqrt (pow_2 (v1 q) + pow_2 (v2 q)), v3 q, ang q) : vec3 in
  is_hess f (phi p) g h -> is_hess (fun q => f (phi q)) p (toGrad_CY g (deriv_CY p)) (toHess_CY g h (deriv_CY p) (deriv2_CY p)).
Proof.
  intros L DR GA CA phi H. assert (C : continuous phi p). { unfold phi, pow_2. apply triple_continuous; [cont|cont|exact CA]. }
  generalize (is_hess_comp f phi _ p _ g h H (map2_CY_ang ang Dom p L DR GA) C). unfold rows_CY, second_CY, h0. cbv beta iota zeta. intros K. eapply is_hess_eq; [exact K| |].
  - unfold toGrad_CY, v1, v2, v3; cbn [fst snd]. apply f_equal2; [apply f_equal2|]; ring.
  - unfold toHess_CY. hfin.
Qed.
Lemma hess_CS_ang ang (Dom : vec3 -> Prop) f p g h : locally p Dom -> (forall q, Dom q -> R2pos q) ->
  (forall q, Dom q -> is_grad ang q (- v2 q / (v1 q * v1 q + v2 q * v2 q), v1 q / (v1 q * v1 q + v2 q * v2 q), 0)) -> continuous ang p ->
  let phi q := (sqrt (pow_2 (v1 q) + pow_2 (v2 q) + pow_2 (v3 q)), atan2 (sqrt (pow_2 (v1 q) + pow_2 (v2 q))) (v3 q), ang q) : vec3 in
  is_hess f (phi p) g h -> is_hess (fun q => f (phi q)) p (toGrad_CS g (deriv_CS p)) (toHess_CS g h (deriv_CS p) (deriv2_CS p)).
Proof.
  intros L DR GA CA phi H. assert (Hp : R2pos p) by (apply DR; exact (locally_singleton _ _ L)).
  assert (C : continuous phi p). { unfold phi, pow_2. apply triple_continuous; [cont| |exact CA]. apply atan2_continuous; [|cont|cont]. right. apply Rgt_not_eq, sqrt_lt_R0, Hp. }
  generalize (is_hess_comp f phi _ p _ g h H (map2_CS_ang ang Dom p L DR GA) C). unfold rows_CS, second_CS, h0. cbv beta iota zeta. intros K. eapply is_hess_eq; [exact K| |].
  - unfold toGrad_CS, v1, v2, v3; cbn [fst snd]. apply f_equal2; [apply f_equal2|]; ring.
  - unfold toHess_CS. hfin.
Qed.
Lemma is_hess_shift f a b c g h : periodic3 f -> is_hess f (a, b, c) g h -> is_hess f (a, b, c + 2 * PI) g h.
Proof.
  intros P (G & E & (A & B1 & B2 & B3)).
  assert (SG : forall (k : vec3 -> R) q1 q2 q3 u, is_grad k (q1, q2, q3) u -> is_grad (fun q => k (v1 q, v2 q, v3 q - 2 * PI)) (q1, q2, q3 + 2 * PI) u).
  { intros k q1 q2 q3 u K c1 c2 c3 t u1 u2 u3 Ep D1 D2 D3. injection Ep as E1 E2 E3. unfold v1, v2, v3; cbn [fst snd].
    apply (K c1 c2 (fun s => c3 s - 2 * PI) t u1 u2 u3); [rewrite E1, E2, E3; f_equal; ring|exact D1|exact D2|].
    replace u3 with (minus u3 0) by (unfold minus, plus, opp; cbn; ring). apply (is_derive_minus (V := R_NormedModule) c3 (fun _ => 2 * PI)); [exact D3|apply @is_derive_const]. }
  assert (PM : forall q, f (v1 q, v2 q, v3 q - 2 * PI) = f q). { intros q. rewrite <- (P _ _ (v3 q - 2 * PI)). f_equal. rewrite <- (vec_eta q) at 4. f_equal. ring. }
  exists (fun q => G (v1 q, v2 q, v3 q - 2 * PI)). split. { rewrite <- E. f_equal. unfold v1, v2, v3; cbn [fst snd]. f_equal. ring. }
  split; [|split; [|split]].
  - assert (C : continuous (fun q : vec3 => (v1 q, v2 q, v3 q - 2 * PI) : vec3) (a, b, c + 2 * PI)) by (apply triple_continuous; unfold Rminus; cont).
    assert (A' : locally ((v1 (a, b, c + 2 * PI), v2 (a, b, c + 2 * PI), v3 (a, b, c + 2 * PI) - 2 * PI) : vec3) (fun q => is_grad f q (G q))).
    { unfold v1, v2, v3; cbn [fst snd]. replace (c + 2 * PI - 2 * PI) with c by ring. exact A. }
    generalize (C _ A'). unfold filtermap. apply filter_imp. intros q Hq. generalize (SG f _ _ _ _ Hq). intros K. apply (is_grad_ext _ f _ _ PM) in K. replace (v3 q - 2 * PI + 2 * PI) with (v3 q) in K by ring. rewrite vec_eta in K. exact K.
  - exact (SG _ _ _ _ _ B1).
  - exact (SG _ _ _ _ _ B2).
  - exact (SG _ _ _ _ _ B3).
Qed.
Lemma not_cut_offcut p : ~ on_cut p -> offcut p.
Proof. unfold on_cut, offcut. intros H. destruct (Rlt_le_dec 0 (v1 p)) as [?|L]; [tauto|]. right. intros E. tauto. Qed.
Lemma offcut'_R2pos q : offcut' q -> R2pos q.
Proof. unfold offcut', R2pos. intros [H|H]; nra. Qed.
Lemma cont_ang p : offcut p -> continuous (fun q : vec3 => atan2 (v2 q) (v1 q)) p.
Proof. intros H. apply atan2_continuous; [exact H|cont|cont]. Qed.
Lemma cont_ang' p : offcut' p -> continuous ang' p.
Proof. intros H. unfold ang'. apply cont_plus; [cont|]. apply (atan2_continuous (fun q : vec3 => - v2 q) (fun q : vec3 => - v1 q)); [unfold offcut' in H; destruct H; [left; lra|right; lra]|cont|cont]. Qed.
Lemma R2pos_cases p : R2pos p -> ~ on_cut p \/ offcut' p.
Proof. unfold R2pos, on_cut, offcut'. intros H. destruct (Req_dec (v2 p) 0) as [E|N]; [|tauto]. destruct (Rlt_le_dec (v1 p) 0) as [?|L]; [tauto|]. left. intros (A & _). assert (v1 p = 0) by lra. rewrite H0, E in H. lra. Qed.

Lemma hess_CY f p g h : R2pos p -> ~ on_cut p \/ periodic3 f -> is_hess f (toPos_CY p) g h ->
  is_hess (fun q => f (toPos_CY q)) p (toGrad_CY g (deriv_CY p)) (toHess_CY g h (deriv_CY p) (deriv2_CY p)).
Proof.
  intros Hp Hc H. assert (T : forall q, toPos_CY q = (sqrt (pow_2 (v1 q) + pow_2 (v2 q)), v3 q, atan2 (v2 q) (v1 q))) by (intros [[x y] z]; reflexivity).
  destruct (R2pos_cases p Hp) as [NC|OC].
  - apply not_cut_offcut in NC. apply is_hess_ext_loc with (fun q => f (sqrt (pow_2 (v1 q) + pow_2 (v2 q)), v3 q, atan2 (v2 q) (v1 q))).
    { apply filter_forall. intros q. rewrite T. reflexivity. }
    apply (hess_CY_ang (fun q => atan2 (v2 q) (v1 q)) offcut); [apply offcut_open, NC|exact offcut_R2pos|exact grad_ang|apply cont_ang, NC|]. rewrite <- T. exact H.
  - destruct Hc as [NC|P].
    { apply not_cut_offcut in NC. apply is_hess_ext_loc with (fun q => f (sqrt (pow_2 (v1 q) + pow_2 (v2 q)), v3 q, atan2 (v2 q) (v1 q))).
    { apply filter_forall. intros q. rewrite T. reflexivity. }
    apply (hess_CY_ang (fun q => atan2 (v2 q) (v1 q)) offcut); [apply offcut_open, NC|exact offcut_R2pos|exact grad_ang|apply cont_ang, NC|]. rewrite <- T. exact H. }
    apply is_hess_ext_loc with (fun q => f (sqrt (pow_2 (v1 q) + pow_2 (v2 q)), v3 q, ang' q)).
    { generalize (R2pos_open p Hp). apply filter_imp. intros q Hq. rewrite T. apply periodic_ang'; assumption. }
    apply (hess_CY_ang ang' offcut'); [apply offcut'_open, OC|exact offcut'_R2pos|exact grad_ang'|apply cont_ang', OC|].
    rewrite T in H. destruct (ang'_mod p Hp) as [-> | ->]; [exact H|]. apply is_hess_shift; assumption.
Qed.
Lemma hess_CS f p g h : R2pos p -> ~ on_cut p \/ periodic3 f -> is_hess f (toPos_CS p) g h ->
  is_hess (fun q => f (toPos_CS q)) p (toGrad_CS g (deriv_CS p)) (toHess_CS g h (deriv_CS p) (deriv2_CS p)).
Proof.
  intros Hp Hc H. assert (T : forall q, toPos_CS q = (sqrt (pow_2 (v1 q) + pow_2 (v2 q) + pow_2 (v3 q)), atan2 (sqrt (pow_2 (v1 q) + pow_2 (v2 q))) (v3 q), atan2 (v2 q) (v1 q))) by (intros [[x y] z]; reflexivity).
  assert (NCC : ~ on_cut p -> is_hess (fun q => f (toPos_CS q)) p (toGrad_CS g (deriv_CS p)) (toHess_CS g h (deriv_CS p) (deriv2_CS p))).
  { intros NC. apply not_cut_offcut in NC. apply is_hess_ext_loc with (fun q => f (sqrt (pow_2 (v1 q) + pow_2 (v2 q) + pow_2 (v3 q)), atan2 (sqrt (pow_2 (v1 q) + pow_2 (v2 q))) (v3 q), atan2 (v2 q) (v1 q))).
    { apply filter_forall. intros q. rewrite T. reflexivity. }
    apply (hess_CS_ang (fun q => atan2 (v2 q) (v1 q)) offcut); [apply offcut_open, NC|exact offcut_R2pos|exact grad_ang|apply cont_ang, NC|]. rewrite <- T. exact H. }
  destruct (R2pos_cases p Hp) as [NC|OC]; [exact (NCC NC)|]. destruct Hc as [NC|P]; [exact (NCC NC)|].
  apply is_hess_ext_loc with (fun q => f (sqrt (pow_2 (v1 q) + pow_2 (v2 q) + pow_2 (v3 q)), atan2 (sqrt (pow_2 (v1 q) + pow_2 (v2 q))) (v3 q), ang' q)).
  { generalize (R2pos_open p Hp). apply filter_imp. intros q Hq. rewrite T. apply periodic_ang'; assumption. }
  apply (hess_CS_ang ang' offcut'); [apply offcut'_open, OC|exact offcut'_R2pos|exact grad_ang'|apply cont_ang', OC|].
  rewrite T in H. destruct (ang'_mod p Hp) as [-> | ->]; [exact H|]. apply is_hess_shift; assumption.
Qed.

(** the position used with and without derivatives is the same *)
Lemma posD_CY_eq p : posD_CY p = toPos_CY p.
Proof.
  destruct p as [[x y] z]. unfold posD_CY, toPos_CY. cbv zeta. destruct (Req_EM_T (sqrt (pow_2 x + pow_2 y)) 0) as [E|N].
  - rewrite Req_b_t by exact E. rewrite E. apply sqrt_eq_0 in E; [|unfold pow_2; nra]. unfold pow_2 in E. assert (x = 0) by nra. assert (y = 0) by nra. subst. rewrite atan2_00. reflexivity.
  - rewrite Req_b_f by exact N. reflexivity.
Qed.
Lemma posD_CS_eq p : posD_CS p = toPos_CS p.
Proof. destruct p as [[x y] z]. reflexivity. Qed.
Lemma posD_YC_eq p : posD_YC p = toPos_YC p.
Proof. destruct p as [[x y] z]. reflexivity. Qed.
Lemma posD_YS_eq p : posD_YS p = toPos_YS p.
Proof. destruct p as [[x y] z]. reflexivity. Qed.
Lemma posD_SY_eq p : posD_SY p = toPos_SY p.
Proof. destruct p as [[x y] z]. reflexivity. Qed.
Lemma posD_SC_eq p : posD_SC p = toPos_SC p.
Proof. destruct p as [[x y] z]. unfold posD_SC, toPos_SC. rewrite mul_fun. f_equal; f_equal; ring. Qed.
