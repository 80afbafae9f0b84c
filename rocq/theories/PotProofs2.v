(** Derivatives, densities, symmetries of composite, evolving and modified objects *)
From Coq Require Import Reals Lra Psatz Lia Bool ZArith List.
From Coquelicot Require Import Coquelicot.
From Verif Require Import RandReal RandRealProofs PolyModel PolyProofs Base BinSearchModel CoordModel CoordSpec CoordCalc CoordAtan CoordMaps CoordMaps2 CoordProofs CoordVel CoordSph OrientModel OrientSpec OrientProofs PotModel PotSpec PotProofs RootProofs.
Import ListNotations.
Local Open Scope R_scope.

(** ---- linear combinations of functions with Hessians ---- *)
Lemma is_grad_lin a b f f' p g g' : is_grad f p g -> is_grad f' p g' -> is_grad (fun q => a * f q + b * f' q) p (combineG a b g g').
Proof.
  intros H H'. generalize (is_grad_plus _ _ _ _ _ (is_grad_mult _ _ _ _ _ (is_grad_const a p) H) (is_grad_mult _ _ _ _ _ (is_grad_const b p) H')).
  apply is_grad_eq. unfold combineG. apply v_eq; unfold v1, v2, v3; cbn [fst snd]; ring.
Qed.
Lemma is_hess_lin a b f f' p g g' h h' : is_hess f p g h -> is_hess f' p g' h' -> is_hess (fun q => a * f q + b * f' q) p (combineG a b g g') (combineH a b h h').
Proof.
  intros (G & E & L & A1 & A2 & A3) (G' & E' & L' & B1 & B2 & B3). exists (fun q => combineG a b (G q) (G' q)). split; [rewrite E, E'; reflexivity|].
  split; [|split; [|split]].
  - generalize (filter_and _ _ L L'). apply filter_imp. intros q (X & Y). apply is_grad_lin; assumption.
  - apply (is_grad_lin a b _ _ _ _ _ A1 B1).
  - apply (is_grad_lin a b _ _ _ _ _ A2 B2).
  - apply (is_grad_lin a b _ _ _ _ _ A3 B3).
Qed.
Lemma is_hess_const k p : is_hess (fun _ => k) p zero3 zeroH.
Proof. exists (fun _ => zero3). split; [reflexivity|]. split; [apply filter_forall; intros q; apply is_grad_const|]. split; [|split]; apply (is_grad_const 0). Qed.
Lemma is_hess_ext f f' p g h : (forall q, f q = f' q) -> is_hess f p g h -> is_hess f' p g h.
Proof. intros E. apply is_hess_ext_loc. apply filter_forall. exact E. Qed.
Lemma is_hess_scal a f p g h : is_hess f p g h -> is_hess (fun q => a * f q) p (a * v1 g, a * v2 g, a * v3 g) (mkH (a * h11 h) (a * h22 h) (a * h33 h) (a * h12 h) (a * h23 h) (a * h13 h)).
Proof.
  intros H. generalize (is_hess_lin a 0 _ _ _ _ _ _ _ H (is_hess_const 0 p)). intros K.
  apply (is_hess_ext _ (fun q => a * f q)) in K; [|intros q; ring]. eapply is_hess_eq; [exact K| |].
  - unfold combineG, zero3; apply v_eq; unfold v1, v2, v3; cbn [fst snd]; ring.
  - apply hess6_eq; cbn; ring.
Qed.
Lemma is_hess_sum {A} (l : list A) (f : A -> vec3 -> R) g h p : (forall c, In c l -> is_hess (f c) p (g c) (h c)) ->
  is_hess (fun q => Rsum (map (fun c => f c q) l)) p (Vsum (map g l)) (Hsum (map h l)).
Proof.
  induction l as [|c l IH]; intros H.
  - apply (is_hess_const 0).
  - cbn [map]. rewrite Vsum_cons, Hsum_cons.
    generalize (is_hess_lin 1 1 _ _ _ _ _ _ _ (H c (or_introl eq_refl)) (IH (fun c' I => H c' (or_intror I)))).
    apply is_hess_ext. intros q. unfold Rsum; cbn [map fold_right]. ring.
Qed.
Lemma is_hess_pt f p p' g h : is_hess f p g h -> p = p' -> is_hess f p' g h.
Proof. intros H <-. exact H. Qed.
(** affine changes of each coordinate *)
Lemma hess_affine k1 k2 k3 b1 b2 b3 f p g h :
  is_hess f (k1 * v1 p + b1, k2 * v2 p + b2, k3 * v3 p + b3) g h ->
  is_hess (fun q => f (k1 * v1 q + b1, k2 * v2 q + b2, k3 * v3 q + b3)) p (k1 * v1 g, k2 * v2 g, k3 * v3 g)
    (mkH (k1 * k1 * h11 h) (k2 * k2 * h22 h) (k3 * k3 * h33 h) (k1 * k2 * h12 h) (k2 * k3 * h23 h) (k1 * k3 * h13 h)).
Proof.
  intros H. set (phi := fun q : vec3 => (k1 * v1 q + b1, k2 * v2 q + b2, k3 * v3 q + b3) : vec3).
  assert (M : is_map2 phi (fun _ => ((k1, 0, 0), (0, k2, 0), (0, 0, k3))) p (h0, h0, h0)).
  { assert (X : forall a b c d, is_hess_with (fun q => a * v1 q + b * v2 q + c * v3 q + d) (fun _ => (a, b, c)) p h0).
    { intros a b c d. split; [|split; [|split]; exact (is_grad_const _ _)]. apply filter_forall. intros q.
      eapply is_grad_eq; [|apply is_grad_plus; [apply lin_grad|apply (is_grad_const d)]]. unfold v1, v2, v3; cbn [fst snd]; apply v_eq; ring. }
    assert (Y : forall a b c d (f' : vec3 -> R), (forall q, a * v1 q + b * v2 q + c * v3 q + d = f' q) -> is_hess_with f' (fun _ => (a, b, c)) p h0).
    { intros a b c d f' E. destruct (X a b c d) as (L & R). split; [|exact R]. revert L. apply filter_imp. intros q. apply is_grad_ext. exact E. }
    split; [|split]; cbn [fst snd phi].
    - apply (Y _ _ _ b1). intros q. unfold phi, v1, v2, v3; cbn [fst snd]. ring.
    - apply (Y _ _ _ b2). intros q. unfold phi, v1, v2, v3; cbn [fst snd]. ring.
    - apply (Y _ _ _ b3). intros q. unfold phi, v1, v2, v3; cbn [fst snd]. ring. }
  assert (C : continuous phi p) by (unfold phi; apply triple_continuous; cont).
  generalize (is_hess_comp f phi _ p _ g h H M C). cbv beta iota zeta. intros K. eapply is_hess_eq; [exact K| |].
  - unfold v1, v2, v3; cbn [fst snd]. apply v_eq; ring.
  - unfold h0. apply hess6_eq; cbn [h11 h22 h33 h12 h23 h13]; unfold v1, v2, v3; cbn [fst snd]; ring.
Qed.

(** ---- objects evaluated natively in Cartesian coordinates ---- *)
Lemma cs_dec (a b : cs) : {a = b} + {a <> b}.
Proof. decide equality. Qed.
Lemma cs_eqb_refl a : cs_eqb a a = true. Proof. destruct a; reflexivity. Qed.
Lemma cs_eqb_neq a b : a <> b -> cs_eqb a b = false. Proof. destruct a, b; cbn; congruence. Qed.
Lemma hess_toCar f s p g h : is_hess f (cart s p) g h -> is_hess (fun q => f (cart s q)) p (gradG s Car p g) (hessG s Car p g h).
Proof.
  intros H. rewrite <- cart_toPosCar in H. apply (is_hess_ext (fun q => f (toPosCar s q))); [intros q; rewrite cart_toPosCar; reflexivity|].
  destruct s; unfold toPosCar in *; cbn [toPosG gradG hessG] in *; [exact H|apply hess_YC; exact H|apply hess_SC; exact H].
Qed.
(** a native-Cartesian object whose Cartesian evaluation is correct at the point is correct in all three systems *)
Lemma base_car_represents (native : flags -> R -> vec3 -> eres) d Phi t s p g h :
  (forall fl, native fl t (cart s p) = outputs fl (Phi t (cart s p)) g h) -> is_hess (Phi t) (cart s p) g h ->
  represents (mkPot d (Some Car) (base_eval Car native)) Phi t s p.
Proof.
  intros N H. exists (gradG s Car p g), (hessG s Car p g h). split; [|apply hess_toCar; exact H].
  intros [[wp wg] wh]. cbn [p_eval]. unfold base_eval. destruct (cs_eqb s Car) eqn:E.
  - destruct s; try discriminate. cbn [gradG hessG]. replace (cart Car p) with p in N by (destruct p as [[a b] c]; reflexivity). rewrite N. 
    replace (cart Car p) with p by (destruct p as [[a b] c]; reflexivity). reflexivity.
  - rewrite convert_pos. change (toPosG s Car p) with (toPosCar s p). rewrite cart_toPosCar, N. destruct wp, wg, wh; reflexivity.
Qed.
Lemma base_proper k native d : (forall t p, exists v g h, forall fl, native fl t p = outputs fl v g h) -> proper (mkPot d (Some k) (base_eval k native)).
Proof.
  intros N. split.
  - intros s t p. apply returns_of'. destruct (cs_dec s k) as [->|Ne].
    + destruct (N t p) as (v & g & h & E). exists v, g, h. intros fl. cbn [p_eval]. unfold base_eval. rewrite cs_eqb_refl. apply E.
    + destruct (N t (toPosG s k p)) as (v & g & h & E). exists v, (gradG s k p g), (hessG s k p g h). intros [[wp wg] wh]. cbn [p_eval]. unfold base_eval.
      rewrite cs_eqb_neq by exact Ne. rewrite convert_pos, E. destruct wp, wg, wh; reflexivity.
  - intros k' E s Ne fl t p. cbn in E. injection E as <-. cbn [p_eval]. unfold base_eval. rewrite (cs_eqb_neq _ _ Ne), cs_eqb_refl. reflexivity.
Qed.
Lemma cart_Car p : cart Car p = p. Proof. destruct p as [[a b] c]; reflexivity. Qed.

(** ---- Shifted ---- *)
Lemma shifted_represents c cx cy cz e Phi t s p :
  represents c Phi t Car (shiftPos cx cy cz t (cart s p)) ->
  represents (Shifted c cx cy cz e) (fun t x => Phi t (v1 x - cx t, v2 x - cy t, v3 x - cz t)) t s p.
Proof.
  intros (g & h & Rt & H). rewrite cart_Car in Rt. apply (base_car_represents _ _ _ _ _ _ g h).
  - intros fl. exact (Rt fl).
  - apply (is_hess_ext _ (Phi t)) in H; [|intros q; rewrite cart_Car; reflexivity].
    unfold shiftPos in H.
    assert (H' : is_hess (Phi t) (1 * v1 (cart s p) + - cx t, 1 * v2 (cart s p) + - cy t, 1 * v3 (cart s p) + - cz t) g h) by (eapply is_hess_pt; [exact H|apply v_eq; ring]).
    apply hess_affine in H'. eapply is_hess_eq; [eapply is_hess_ext; [|exact H']| |].
    + intros q. cbv beta. f_equal. apply v_eq; ring.
    + destruct g as [[a b] d]. unfold v1, v2, v3; cbn [fst snd]; apply v_eq; ring.
    + destruct h. apply hess6_eq; cbn; ring.
Qed.
Lemma shifted_proper c cx cy cz e : proper c -> proper (Shifted c cx cy cz e).
Proof. intros (P & _). apply base_proper. intros t p. exact (ex_intro _ _ (ex_intro _ _ (ex_intro _ _ (P Car t (shiftPos cx cy cz t p))))). Qed.

(** ---- Tilted ---- *)
Lemma tilted_represents c a b gm Phi t s p : let m := Orientation a b gm in
  represents c Phi t Car (toRotated m (cart s p)) -> represents (Tilted c a b gm) (fun t x => Phi t (toRotated m x)) t s p.
Proof.
  intros m (g & h & Rt & H). rewrite cart_Car in Rt. apply (base_car_represents _ _ _ _ _ _ (fromRotated m g) (fromRotatedH m h)).
  - intros [[wp wg] wh]. cbv beta. fold m. rewrite (Rt (wp, wg, wh)). cbn [outputs]. destruct wp, wg, wh; reflexivity.
  - apply hess_toRotated. apply (is_hess_ext _ (Phi t)) in H; [exact H|]. intros q; rewrite cart_Car; reflexivity.
Qed.
Lemma tilted_proper c a b gm : proper c -> proper (Tilted c a b gm).
Proof.
  intros (P & _). apply base_proper. intros t p. eexists _, (fromRotated _ _), (fromRotatedH _ _). intros [[wp wg] wh].
  rewrite (P Car t _ (wp, wg, wh)). cbn [outputs]. destruct wp, wg, wh; reflexivity.
Qed.

(** ---- Rotating ---- *)
Definition rotM (a : R) : mat3 := ((cos a, sin a, 0), (- sin a, cos a, 0), (0, 0, 1)).
Lemma rotPos_Car a p : rotPos Car a p = toRotated (rotM a) p.
Proof. unfold rotPos, rotM, toRotated. apply v_eq; ring. Qed.
Lemma rotZ_rotM a p : rotZ a p = toRotated (rotM a) p.
Proof. unfold rotZ, rotM, toRotated. apply v_eq; ring. Qed.
Lemma rotGrad_eq a g : rotGrad (cos a) (sin a) g = fromRotated (rotM a) g.
Proof. unfold rotGrad, rotM, fromRotated. apply v_eq; ring. Qed.
Lemma rotHess_eq a h : rotHess (cos a) (sin a) h = fromRotatedH (rotM a) h.
Proof. unfold rotHess, rotM, fromRotatedH, fromRotated. apply hess6_eq; cbn [h11 h22 h33 h12 h23 h13]; unfold v1, v2, v3; cbn [fst snd]; ring. Qed.
Lemma cart_rotPos s a p : cart s (rotPos s a p) = rotZ a (cart s p).
Proof.
  destruct p as [[x y] z]. destruct s; unfold rotPos, cart, rotZ, v1, v2, v3; cbn [fst snd]; rewrite ?cos_minus, ?sin_minus; apply v_eq; ring.
Qed.
Lemma hess_phi f a b c k g h : is_hess f (a, b, c - k) g h -> is_hess (fun q => f (v1 q, v2 q, v3 q - k)) (a, b, c) g h.
Proof.
  intros H. assert (H' : is_hess f (1 * v1 (a, b, c) + 0, 1 * v2 (a, b, c) + 0, 1 * v3 (a, b, c) + - k) g h) by (eapply is_hess_pt; [exact H|unfold v1, v2, v3; cbn [fst snd]; apply v_eq; ring]).
  apply hess_affine in H'. eapply is_hess_eq; [eapply is_hess_ext; [|exact H']| |].
  + intros q. cbv beta. f_equal. apply v_eq; ring.
  + destruct g as [[? ?] ?]. unfold v1, v2, v3; cbn [fst snd]; apply v_eq; ring.
  + destruct h. apply hess6_eq; cbn; ring.
Qed.
Lemma rotating_represents c angle Phi t s p :
  represents c Phi t s (rotPos s (angle t) p) -> represents (Rotating c angle) (fun t x => Phi t (rotZ (angle t) x)) t s p.
Proof.
  intros (g & h & Rt & H). rewrite cart_rotPos in Rt. destruct s.
  - exists (rotGrad (cos (angle t)) (sin (angle t)) g), (rotHess (cos (angle t)) (sin (angle t)) h). split.
    + intros [[wp wg] wh]. cbn [p_eval Rotating]. rewrite (Rt (wp, wg, wh)). cbn [outputs]. destruct wp, wg, wh; reflexivity.
    + rewrite rotGrad_eq, rotHess_eq. apply (is_hess_ext _ (Phi t)) in H; [|intros q; rewrite cart_Car; reflexivity].
      rewrite rotPos_Car in H. apply hess_toRotated in H. revert H. apply is_hess_ext. intros q. rewrite cart_Car, rotZ_rotM. reflexivity.
  - exists g, h. split; [exact Rt|]. destruct p as [[a b] d]. cbn [rotPos] in H. unfold v1, v2, v3 in H; cbn [fst snd] in H. apply hess_phi in H. revert H. apply is_hess_ext.
    intros q. rewrite <- (cart_rotPos Cyl). reflexivity.
  - exists g, h. split; [exact Rt|]. destruct p as [[a b] d]. cbn [rotPos] in H. unfold v1, v2, v3 in H; cbn [fst snd] in H. apply hess_phi in H. revert H. apply is_hess_ext.
    intros q. rewrite <- (cart_rotPos Sph). reflexivity.
Qed.
Lemma rotating_proper c angle : proper c -> proper (Rotating c angle).
Proof.
  intros (P & _). split; [|discriminate]. intros s t p. apply returns_of'. destruct s.
  - eexists _, (rotGrad _ _ _), (rotHess _ _ _). intros [[wp wg] wh]. cbn [p_eval Rotating]. rewrite (P Car t _ (wp, wg, wh)). cbn [outputs]. destruct wp, wg, wh; reflexivity.
  - eexists _, _, _. exact (P Cyl t _).
  - eexists _, _, _. exact (P Sph t _).
Qed.

(** ---- Scaled ---- *)
Lemma cart_scalePos s k p : cart s (scalePos s k p) = (v1 (cart s p) * k, v2 (cart s p) * k, v3 (cart s p) * k).
Proof. destruct p as [[x y] z]. destruct s; unfold scalePos, cart, v1, v2, v3; cbn [fst snd]; apply v_eq; ring. Qed.
Lemma scaled_represents c ampl scale Phi t s p :
  represents c Phi t s (scalePos s (1 / scale t) p) ->
  represents (Scaled c ampl scale) (fun t x => ampl t / scale t * Phi t (v1 x / scale t, v2 x / scale t, v3 x / scale t)) t s p.
Proof.
  intros (g & h & Rt & H). set (k := 1 / scale t) in *. rewrite cart_scalePos in Rt.
  assert (Ev : forall x, (v1 x * k, v2 x * k, v3 x * k) = (v1 x / scale t, v2 x / scale t, v3 x / scale t) :> vec3) by (intros x; unfold k; apply v_eq; unfold Rdiv; ring).
  exists (scaleGrad s (ampl t * k) (ampl t * k * k) g), (scaleHess s (ampl t * k) (ampl t * k * k) (ampl t * k * k * k) h). split.
  - intros [[wp wg] wh]. cbn [p_eval Scaled]. fold k. rewrite (Rt (wp, wg, wh)). cbn [outputs]. rewrite Ev.
    assert (Em : forall y, y * (ampl t * k) = ampl t / scale t * y) by (intros y; unfold k, Rdiv; ring).
    destruct wp, wg, wh; cbn [omap]; rewrite ?Em; reflexivity.
  - set (F := fun q => Phi t (cart s q)) in *.
    assert (Ek : forall q, (fun x => ampl t / scale t * Phi t (v1 x / scale t, v2 x / scale t, v3 x / scale t)) (cart s q) = ampl t * k * F (scalePos s k q)).
    { intros q. unfold F. rewrite cart_scalePos, Ev. unfold k. cbv beta. unfold Rdiv. ring. }
    apply (is_hess_ext (fun q => ampl t * k * F (scalePos s k q))); [intros q; symmetry; apply Ek|].
    set (k2 := match s with Sph => 1 | _ => k end). set (k3 := match s with Car => k | _ => 1 end).
    assert (Es : forall q, scalePos s k q = (k * v1 q + 0, k2 * v2 q + 0, k3 * v3 q + 0)) by (intros q; unfold k2, k3; destruct s; unfold scalePos; apply v_eq; ring).
    rewrite Es in H. apply hess_affine in H. apply (is_hess_scal (ampl t * k)) in H.
    eapply is_hess_eq; [eapply is_hess_ext; [|exact H]| |].
    + intros q. cbv beta. rewrite Es. reflexivity.
    + unfold k2, k3. destruct s; unfold scaleGrad, v1, v2, v3; cbn [fst snd]; apply v_eq; ring.
    + unfold k2, k3. destruct s; apply hess6_eq; cbn [h11 h22 h33 h12 h23 h13 scaleHess]; ring.
Qed.
Lemma scaled_proper c ampl scale : proper c -> proper (Scaled c ampl scale).
Proof.
  intros (P & _). split; [|discriminate]. intros s t p. apply returns_of'. eexists (_ * _), (scaleGrad _ _ _ _), (scaleHess _ _ _ _ _).
  intros [[wp wg] wh]. cbn [p_eval Scaled]. rewrite (P s t _ (wp, wg, wh)). cbn [outputs]. destruct wp, wg, wh; reflexivity.
Qed.

(** ---- UniformAcceleration ---- *)
Lemma uniform_represents ax ay az m e t s p : represents (UniformAcceleration ax ay az m e) (fun t x => - (ax t * v1 x + ay t * v2 x + az t * v3 x)) t s p.
Proof.
  apply (base_car_represents _ _ _ _ _ _ (- ax t, - ay t, - az t) zeroH).
  - intros [[wp wg] wh]. cbn [maskres outputs]. replace (v1 (cart s p) * - ax t + v2 (cart s p) * - ay t + v3 (cart s p) * - az t) with (- (ax t * v1 (cart s p) + ay t * v2 (cart s p) + az t * v3 (cart s p))) by ring. reflexivity.
  - exists (fun _ => (- ax t, - ay t, - az t)). split; [reflexivity|]. destruct (lin_hess (- ax t) (- ay t) (- az t) (cart s p)) as (L & Rr). split; [|exact Rr].
    revert L. apply filter_imp. intros q. apply is_grad_ext. intros x. ring.
Qed.
Lemma uniform_proper ax ay az m e : proper (UniformAcceleration ax ay az m e).
Proof. apply base_proper. intros t p. eexists _, _, _. intros [[wp wg] wh]. reflexivity. Qed.

(** ---- Composite ---- *)
Lemma composite_represents l encl P (Phi : pot -> R -> vec3 -> R) t s p : Composite l encl = Some P -> (forall c, In c l -> proper c) ->
  (forall c, In c l -> represents c (Phi c) t s p) -> represents P (fun t x => Rsum (map (fun c => Phi c t x) l)) t s p.
Proof.
  intros E Pl Rl. exists (Vsum (map (fun c => grad_of c s t p) l)), (Hsum (map (fun c => hess_of c s t p) l)). split.
  - replace (Rsum (map (fun c => Phi c t (cart s p)) l)) with (Rsum (map (fun c => value_of c s t p) l)); [exact (composite_eval l encl P E Pl s t p)|].
    f_equal. apply map_ext_in. intros c I. destruct (Rl c I) as (g & h & Rt & _). apply returns_of in Rt. tauto.
  - apply (is_hess_sum l (fun c q => Phi c t (cart s q))). intros c I. destruct (Rl c I) as (g & h & Rt & H). apply returns_of in Rt. destruct Rt as (_ & -> & ->). exact H.
Qed.
