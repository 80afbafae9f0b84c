(** The potential of a binary black hole *)
From Coq Require Import Reals Lra Psatz Lia Bool ZArith List.
From Coquelicot Require Import Coquelicot.
From Verif Require Import RandReal RandRealProofs PolyModel PolyProofs Base CoordModel CoordSpec CoordCalc CoordAtan CoordMaps CoordMaps2 CoordProofs CoordVel CoordSph OrientModel OrientSpec OrientProofs PotModel PotSpec PotProofs PotProofs2 PotProofs3 LapProofs RootProofs AnalyticSpec AnalyticProofs AnalyticProofs2 KeplerModel KeplerSpec KeplerProofs KeplerProofs2.
Import ListNotations.
Local Open Scope R_scope.

Section Point.
Variables m cx cy : R.
Let d2 (q : vec3) := (v1 q - cx) * (v1 q - cx) + (v2 q - cy) * (v2 q - cy) + v3 q * v3 q.
Let D (q : vec3) := sqrt (d2 q).
Let Dom (q : vec3) := 0 < d2 q.
Let F (q : vec3) := - m / D q.
Definition ptG (q : vec3) : vec3 := (m * (v1 q - cx) / (D q * D q * D q), m * (v2 q - cy) / (D q * D q * D q), m * v3 q / (D q * D q * D q)).
Definition ptH (q : vec3) : hess6 :=
  let i3 := m / (D q * D q * D q) in let i2 := / (D q * D q) in let x := v1 q - cx in let y := v2 q - cy in let z := v3 q in
  mkH (i3 * (1 - 3 * (x * x) * i2)) (i3 * (1 - 3 * (y * y) * i2)) (i3 * (1 - 3 * (z * z) * i2)) (- 3 * i3 * i2 * x * y) (- 3 * i3 * i2 * y * z) (- 3 * i3 * i2 * x * z).
Lemma pt_dom q : Dom q -> 0 < D q /\ D q * D q = d2 q.
Proof. intros H. split; [apply sqrt_lt_R0; exact H|apply sqrt_sqrt; unfold Dom in H; lra]. Qed.
Lemma pt_open p : Dom p -> locally p Dom.
Proof. intros H. apply (locally_pos_U d2); [unfold d2, Rminus; cont; apply continuous_const|exact H]. Qed.
Ltac ptcurve H :=
  gcurve; destruct (pt_dom _ H) as (N0 & N2); unfold Dom in H; unfold F, ptG, ptH, D in *; unfold d2 in *; unfold CoordModel.v1, v2, v3 in *; cbn [fst snd h11 h12 h13 h22 h23 h33] in *.
Lemma pt_grad q : Dom q -> is_grad F q (ptG q).
Proof.
  destruct q as [[x y] z]. intros H. ptcurve H. auto_derive.
  - repeat split; try assumption. apply Rgt_not_eq. exact N0.
  - gfin. set (d := sqrt _) in *. clearbody d. field. lra.
Qed.
Lemma pt_hess_with q : Dom q -> is_hess_with F ptG q (ptH q).
Proof.
  destruct q as [[x y] z]. intros H. apply (hess_open Dom); [apply pt_open, H|apply pt_grad| | |]; ptcurve H.
  all: set (dd := (c1 t - cx) * (c1 t - cx) + (c2 t - cy) * (c2 t - cy) + c3 t * c3 t) in *.
  all: assert (N3 : 0 < sqrt dd * sqrt dd * sqrt dd) by (repeat apply Rmult_lt_0_compat; exact N0).
  all: auto_derive; [repeat split; try assumption; apply Rgt_not_eq; exact N3|].
  all: gfin; change ((c1 t + - cx) * (c1 t + - cx) + (c2 t + - cy) * (c2 t + - cy) + c3 t * c3 t) with dd; set (d := sqrt dd) in *; clearbody d.
  all: field; lra.
Qed.
End Point.
Lemma dist3_d2 x c : dist3 x c = sqrt ((v1 x - fst c) * (v1 x - fst c) + (v2 x - snd c) * (v2 x - snd c) + v3 x * v3 x).
Proof. unfold dist3. f_equal. simpl. ring. Qed.
Lemma pt_hess m c x : 0 < dist3 x c -> is_hess (fun q => - m / dist3 q c) x (ptG m (fst c) (snd c) x) (ptH m (fst c) (snd c) x).
Proof.
  intros H. apply is_hess_ext with (fun q => - m / sqrt ((v1 q - fst c) * (v1 q - fst c) + (v2 q - snd c) * (v2 q - snd c) + v3 q * v3 q)); [intros q; rewrite dist3_d2; reflexivity|].
  exists (ptG m (fst c) (snd c)). split; [reflexivity|]. apply pt_hess_with. rewrite dist3_d2 in H. apply Rnot_le_lt. intros K. rewrite sqrt_neg_0 in H by exact K. lra.
Qed.
Lemma points_cons m c l q : points_Phi ((m, c) :: l) q = - m / dist3 q c + points_Phi l q. Proof. reflexivity. Qed.
Definition gplus (a b : vec3) : vec3 := (v1 a + v1 b, v2 a + v2 b, v3 a + v3 b).
Definition hminus (a b : hess6) : hess6 := mkH (h11 a - h11 b) (h22 a - h22 b) (h33 a - h33 b) (h12 a - h12 b) (h23 a - h23 b) (h13 a - h13 b).
Lemma addBH_eq x m c v g h : 0 < dist3 x c -> addBH x m (fst c) (snd c) (v, g, h) = (v + - m / dist3 x c, gplus g (ptG m (fst c) (snd c) x), hminus h (ptH m (fst c) (snd c) x)).
Proof.
  intros H. unfold addBH, ptG, ptH, pow_2. rewrite <- dist3_d2. rewrite dist3_d2 in H.
  set (dd := (v1 x - fst c) * (v1 x - fst c) + (v2 x - snd c) * (v2 x - snd c) + v3 x * v3 x) in *. assert (D2 : dist3 x c * dist3 x c = dd). { rewrite dist3_d2. fold dd. apply sqrt_sqrt. apply Rlt_le, Rnot_le_lt. intros K. rewrite sqrt_neg_0 in H by exact K. lra. }
  assert (P : 0 < dist3 x c) by (rewrite dist3_d2; exact H). set (d := dist3 x c) in *. clearbody d.
  assert (Q : sqrt (1 / dd) = / d). { rewrite <- D2. replace (1 / (d * d)) with (/ d * / d) by (field; lra). apply sqrt_square. left. apply Rinv_0_lt_compat. exact P. }
  rewrite Q, <- D2. destruct x as [[a b] z]. unfold gplus, hminus, v1, v2, v3; cbn [fst snd h11 h22 h33 h12 h23 h13].
  apply (f_equal2 pair); [apply (f_equal2 pair)|].
  - field. lra.
  - apply v_eq; field; lra.
  - apply hess6_eq; cbn [h11 h22 h33 h12 h23 h13]; field; lra.
Qed.
Lemma fold_points x l : away l x -> exists g h, is_hess (points_Phi l) x g h /\
  forall v g0 h0, fold_left (fun acc mc => addBH x (fst mc) (fst (snd mc)) (snd (snd mc)) acc) l (v, g0, h0) = (v + points_Phi l x, gplus g0 g, hminus h0 h).
Proof.
  induction l as [|[m c] l IH]; intros A.
  - exists zero3, zeroH. split; [apply is_hess_const|]. intros v g0 h0. cbn. apply (f_equal2 pair); [apply (f_equal2 pair)|].
    + ring.
    + destruct g0 as [[a b] z]. apply v_eq; unfold gplus, zero3, v1, v2, v3; cbn [fst snd]; ring.
    + apply hess6_eq; cbn; ring.
  - destruct IH as (g & h & H & E); [intros m' c' I; apply (A m' c'); right; exact I|]. assert (A0 : 0 < dist3 x c) by (apply (A m c); left; reflexivity).
    eexists _, _. split.
    + apply is_hess_ext with (fun q => 1 * (- m / dist3 q c) + 1 * points_Phi l q); [intros q; rewrite points_cons; ring|]. apply is_hess_lin; [apply pt_hess, A0|exact H].
    + intros v g0 h0. cbn [fold_left fst snd]. rewrite addBH_eq by exact A0. rewrite E. apply (f_equal2 pair); [apply (f_equal2 pair)|].
      * rewrite points_cons. ring.
      * apply v_eq; unfold gplus, combineG, v1, v2, v3; cbn [fst snd]; ring.
      * apply hess6_eq; cbn; ring.
Qed.
(** masses and positions of the black holes at time t *)
Definition bh_points (kep : R -> R -> R) (b : binary) (t : R) : list (R * (R * R)) := map (fun i => (Mbh b i, bhPos kep b i t)) (seq 0 (numbh b)).
Lemma binary_eval kep b t x : away (bh_points kep b t) x -> exists g h, is_hess (points_Phi (bh_points kep b t)) x g h /\
  binary_evalCar kep b t x = (points_Phi (bh_points kep b t) x, g, hneg h).
Proof.
  intros A. destruct (fold_points x _ A) as (g & h & H & E). exists g, h. split; [exact H|].
  assert (Q : binary_evalCar kep b t x = fold_left (fun acc mc => addBH x (fst mc) (fst (snd mc)) (snd (snd mc)) acc) (bh_points kep b t) (0, (0, 0, 0), mkH 0 0 0 0 0 0)).
  { unfold binary_evalCar, bh_points. generalize (0, (0, 0, 0), mkH 0 0 0 0 0 0). induction (seq 0 (numbh b)) as [|i l IH]; intros acc; [reflexivity|]. cbn [map fold_left fst snd]. rewrite <- IH. destruct (bhPos kep b i t); reflexivity. }
  rewrite Q, E. apply (f_equal2 pair); [apply (f_equal2 pair)|].
  - ring.
  - destruct g as [[g1 g2] g3]. apply v_eq; unfold gplus, v1, v2, v3; cbn [fst snd]; ring.
  - apply hess6_eq; cbn; ring.
Qed.
Lemma binary_pot_val kep b t x : away (bh_points kep b t) x -> binary_potential kep b x t = points_Phi (bh_points kep b t) x.
Proof.
  intros A. unfold binary_potential, bh_points in *. enough (G : forall l v, away (map (fun i => (Mbh b i, bhPos kep b i t)) l) x -> fold_left (fun result i => let '(bx, by_) := bhPos kep b i t in let x0 := v1 x - bx in let y := v2 x - by_ in let z := v3 x in let invr2 := 1 / (pow_2 x0 + pow_2 y + pow_2 z) in result - Mbh b i * sqrt invr2) l v = v + points_Phi (map (fun i => (Mbh b i, bhPos kep b i t)) l) x) by (rewrite G by exact A; ring).
  clear A. induction l as [|i l IH]; intros v A; [cbn; ring|]. cbn [fold_left map points_Phi fold_right fst snd]. assert (A0 : 0 < dist3 x (bhPos kep b i t)) by (apply (A (Mbh b i)); left; reflexivity). rewrite IH by (intros m' c' I; apply (A m' c'); right; exact I). fold (points_Phi (map (fun i => (Mbh b i, bhPos kep b i t)) l) x).
  pose proof (addBH_eq x (Mbh b i) (bhPos kep b i t) v zero3 zeroH A0) as E. apply (f_equal (fun z => fst (fst z))) in E. unfold addBH in E. cbn [fst snd zero3] in E. destruct (bhPos kep b i t) as (bx, by_). cbn [fst snd] in *. cbv zeta. rewrite E. ring.
Qed.
Lemma binary_returns kep b t s p : away (bh_points kep b t) (cart s p) -> exists g h, is_hess (points_Phi (bh_points kep b t)) (cart s p) g h /\
  returns (KeplerBinary kep b) s t p (points_Phi (bh_points kep b t) (cart s p)) (gradG s Car p g) (hessG s Car p g (hneg h)).
Proof.
  intros A. destruct (binary_eval kep b t _ A) as (g & h & H & E). exists g, h. split; [exact H|].
  intros [[wp wg] wh]. cbn [KeplerBinary basePot p_eval]. unfold base_eval. destruct (cs_eqb s Car) eqn:ES.
  - destruct s; try discriminate. cbn [gradG hessG]. rewrite cart_Car in *. unfold maskres. rewrite E. reflexivity.
  - rewrite convert_pos. change (toPosG s Car p) with (toPosCar s p). rewrite cart_toPosCar. unfold maskres. rewrite E. destruct wp, wg, wh; reflexivity.
Qed.
Lemma hess_grad f p g h : is_hess f p g h -> is_grad f p g.
Proof. intros (G & <- & L & _). apply locally_singleton in L. exact L. Qed.
Lemma binary_value_grad kep b t s p : away (bh_points kep b t) (cart s p) -> exists g h',
  returns (KeplerBinary kep b) s t p (points_Phi (bh_points kep b t) (cart s p)) g h' /\ is_grad (fun q => points_Phi (bh_points kep b t) (cart s q)) p g.
Proof.
  intros A. destruct (binary_returns kep b t s p A) as (g & h & H & E). eexists _, _. split; [exact E|]. eapply hess_grad. apply hess_toCar. exact H.
Qed.
Lemma pts_laplace l x g h : away l x -> is_hess (points_Phi l) x g h -> trace h = 0.
Proof.
  intros A H. enough (G : exists g' h', is_hess (points_Phi l) x g' h' /\ trace h' = 0). { destruct G as (g' & h' & H' & T). destruct (is_hess_unique _ _ _ _ _ _ H H') as (_ & ->). exact T. }
  clear H g h. induction l as [|[m c] l IH].
  - exists zero3, zeroH. split; [apply is_hess_const|unfold trace; cbn; ring].
  - destruct IH as (g & h & H & T); [intros m' c' I; apply (A m' c'); right; exact I|]. assert (A0 : 0 < dist3 x c) by (apply (A m c); left; reflexivity). eexists _, _. split.
    + apply is_hess_ext with (fun q => 1 * (- m / dist3 q c) + 1 * points_Phi l q); [intros q; rewrite points_cons; ring|]. apply is_hess_lin; [apply pt_hess, A0|exact H].
    + unfold trace in *. unfold combineH, ptH. cbn [h11 h22 h33]. rewrite <- dist3_d2. pose proof (dist3_d2 x c) as E. assert (D2 : dist3 x c * dist3 x c = (v1 x - fst c) * (v1 x - fst c) + (v2 x - snd c) * (v2 x - snd c) + v3 x * v3 x).
      { rewrite E. apply sqrt_sqrt. pose proof (Rle_0_sqr (v1 x - fst c)). pose proof (Rle_0_sqr (v2 x - snd c)). pose proof (Rle_0_sqr (v3 x)). unfold Rsqr in *. lra. }
      set (d := dist3 x c) in *. clearbody d. set (i3 := m / (d * d * d)).
      replace (1 * (i3 * (1 - 3 * ((v1 x - fst c) * (v1 x - fst c)) * / (d * d))) + 1 * h11 h + (1 * (i3 * (1 - 3 * ((v2 x - snd c) * (v2 x - snd c)) * / (d * d))) + 1 * h22 h) + (1 * (i3 * (1 - 3 * (v3 x * v3 x) * / (d * d))) + 1 * h33 h)) with
        (i3 * (3 - 3 * (((v1 x - fst c) * (v1 x - fst c) + (v2 x - snd c) * (v2 x - snd c) + v3 x * v3 x) * / (d * d))) + (h11 h + h22 h + h33 h)) by ring.
      rewrite <- D2, T. field. lra.
Qed.
Lemma binary_poisson kep b t s p : away (bh_points kep b t) (cart s p) -> poisson (points_Phi (bh_points kep b t)) (fun _ => d_density (p_dens (KeplerBinary kep b)) s t p) (cart s p).
Proof.
  intros A. destruct (binary_eval kep b t _ A) as (g & h & H & E). exists g, h. split; [exact H|]. rewrite (pts_laplace _ _ _ _ A H). cbn. unfold base_density. unfold Rdiv. ring.
Qed.
Lemma single_points kep b t : b_sma b = 0 \/ b_q b = 0 -> bh_points kep b t = [(b_mass b, (0, 0))].
Proof.
  intros H. assert (N : numbh b = 1%nat) by (unfold numbh; destruct H as [H|H]; rewrite (Req_b_t _ _ H); cbn; rewrite ?andb_false_r; reflexivity).
  unfold bh_points. rewrite N. cbn [seq map]. unfold Mbh. rewrite N. cbn [Nat.eqb]. do 2 f_equal. unfold bhPos, keplerOrbit. destruct (Req_EM_T (b_sma b) 0) as [E|E].
  - rewrite Req_b_t by exact E. reflexivity.
  - rewrite Req_b_f by exact E. destruct H as [H|H]; [contradiction|]. cbn [negb fst snd]. rewrite H. apply f_equal2; ring.
Qed.
Lemma dist3_0 x : dist3 x (0, 0) = radius x.
Proof. unfold dist3, radius. cbn [fst snd]. rewrite !Rminus_0_r. reflexivity. Qed.
Lemma binary_has_sym kep b t : has_sym (d_sym (p_dens (KeplerBinary kep b))) (points_Phi (bh_points kep b t)).
Proof.
  cbn [KeplerBinary basePot p_dens d_sym]. unfold binary_sym. destruct (Req_EM_T (b_sma b) 0) as [E|E]; [|destruct (Req_EM_T (b_q b) 0) as [E'|E']].
  - rewrite Req_b_t by exact E. cbn [orb]. rewrite single_points by (left; exact E). apply has_sym_ext with (fun x => (fun r => - b_mass b / r + 0) (radius x)); [intros x; cbn; rewrite dist3_0; reflexivity|]. apply (radius_sym _ (fun r => - b_mass b / r + 0)).
  - rewrite Req_b_f by exact E. rewrite Req_b_t by exact E'. cbn [orb]. rewrite single_points by (right; exact E'). apply has_sym_ext with (fun x => (fun r => - b_mass b / r + 0) (radius x)); [intros x; cbn; rewrite dist3_0; reflexivity|]. apply (radius_sym _ (fun r => - b_mass b / r + 0)).
  - rewrite Req_b_f by exact E. rewrite Req_b_f by exact E'. cbn [orb]. intros _. repeat split; vm_compute; discriminate.
Qed.
