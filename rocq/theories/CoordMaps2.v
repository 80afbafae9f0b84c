(** Tables of derivatives, continued: Cyl->Car, Cyl->Sph, Sph->Car, Sph->Cyl, Car->Sph *)
From Coq Require Import Reals Lra Psatz Bool.
From Coquelicot Require Import Coquelicot.
From Verif Require Import RandReal PolyModel PolyProofs RootProofs CoordModel CoordSpec CoordCalc CoordAtan CoordMaps.
Local Open Scope R_scope.

Ltac proj := cbn [fst snd
  dxdR_YC dxdphi_YC dydR_YC dydphi_YC d2xdRdphi_YC d2xdphi2_YC d2ydRdphi_YC d2ydphi2_YC
  drdR_YS drdz_YS dthetadR_YS dthetadz_YS d2rdR2_YS d2rdRdz_YS d2rdz2_YS d2thetadR2_YS d2thetadRdz_YS d2thetadz2_YS
  dxdr_SC dxdtheta_SC dxdphi_SC dydr_SC dydtheta_SC dydphi_SC dzdr_SC dzdtheta_SC
  d2xdrdtheta_SC d2xdrdphi_SC d2xdtheta2_SC d2xdthetadphi_SC d2xdphi2_SC d2ydrdtheta_SC d2ydrdphi_SC d2ydtheta2_SC d2ydthetadphi_SC d2ydphi2_SC d2zdrdtheta_SC d2zdtheta2_SC
  dRdr_SY dRdtheta_SY dzdr_SY dzdtheta_SY d2Rdrdtheta_SY d2Rdtheta2_SY d2zdrdtheta_SY d2zdtheta2_SY
  drdx_CS drdy_CS drdz_CS dthetadx_CS dthetady_CS dthetadz_CS dphidx_CS dphidy_CS
  d2rdx2_CS d2rdxdy_CS d2rdxdz_CS d2rdy2_CS d2rdydz_CS d2rdz2_CS d2thetadx2_CS d2thetadxdy_CS d2thetadxdz_CS d2thetady2_CS d2thetadydz_CS d2thetadz2_CS d2phidx2_CS d2phidxdy_CS d2phidy2_CS
  h11 h22 h33 h12 h23 h13 h0].
Lemma mul_fun : mul = Rmult.
Proof. apply FunctionalExtensionality.functional_extensionality; intros x. apply FunctionalExtensionality.functional_extensionality; intros y. apply mul_eq. Qed.
Ltac gtab := unfold rows_YC, rows_YS, rows_SC, rows_SY, rows_CS, second_YC, second_YS, second_SC, second_SY, second_CS,
   deriv_YC, deriv_YS, deriv_SC, deriv_SY, deriv_CS, deriv2_YC, deriv2_YS, deriv2_SC, deriv2_SY, deriv2_CS,
   toPos_YC, toPos_SC, toPos_SY, toPos_YS, toPos_CS; rewrite ?mul_fun; cbv zeta; unfold v1, v2, v3, pow_2; proj.
Ltac gtrig := match goal with p : vec3 |- is_grad _ ?p _ => destruct p as [[? ?] ?] end; gcurve; gtab; auto_derive; [gside; trivial|]; gfin; ring.

Lemma map2_YC p : is_map2 toPos_YC (fun q => rows_YC (deriv_YC q)) p (second_YC (deriv2_YC p)).
Proof. split; [|split]; (apply (hess_open (fun _ => True)); [apply filter_true|intros q _| | |]); gtrig. Qed.
Lemma map2_SC p : is_map2 toPos_SC (fun q => rows_SC (deriv_SC q)) p (second_SC (deriv2_SC p)).
Proof. split; [|split]; (apply (hess_open (fun _ => True)); [apply filter_true|intros q _| | |]); gtrig. Qed.
Lemma map2_SY p : is_map2 toPos_SY (fun q => rows_SY (deriv_SY q)) p (second_SY (deriv2_SY p)).
Proof. split; [|split]; (apply (hess_open (fun _ => True)); [apply filter_true|intros q _| | |]); gtrig. Qed.

(** Cyl -> Sph away from the half-plane R=0, z<=0 *)
Definition offcut_YS (q : vec3) : Prop := 0 < v2 q \/ v1 q <> 0.
Lemma offcut_YS_open p : offcut_YS p -> locally p offcut_YS.
Proof.
  intros H. assert (K : 0 < v2 p \/ 0 < v1 p \/ v1 p < 0). { destruct H as [H|H]; [tauto|]. destruct (Rtotal_order (v1 p) 0) as [?|[?|?]]; [tauto|contradiction|tauto]. }
  unfold offcut_YS. destruct K as [K|[K|K]].
  - generalize (locally_pos_U (fun q : vec3 => v2 q) p (continuous_v2 p) K). apply filter_imp. tauto.
  - generalize (locally_pos_U (fun q : vec3 => v1 q) p (continuous_v1 p) K). apply filter_imp. intros; right; lra.
  - generalize (locally_neg_U (fun q : vec3 => v1 q) p (continuous_v1 p) K). apply filter_imp. intros; right; lra.
Qed.
Lemma offcut_YS_pos q : offcut_YS q -> R2pos q.
Proof. unfold offcut_YS, R2pos. intros [H|H]; nra. Qed.
Lemma map2_YS p : offcut_YS p -> is_map2 toPos_YS (fun q => rows_YS (deriv_YS q)) p (second_YS (deriv2_YS p)).
Proof.
  intros Hp. pose proof (offcut_YS_open p Hp) as LD.
  assert (S2 : forall q, offcut_YS q -> sqrt (v1 q * v1 q + v2 q * v2 q) * sqrt (v1 q * v1 q + v2 q * v2 q) = v1 q * v1 q + v2 q * v2 q) by (intros q H; apply offcut_YS_pos in H; apply sqrt_sqrt; unfold R2pos in H; lra).
  assert (S1 : forall q, offcut_YS q -> 0 < sqrt (v1 q * v1 q + v2 q * v2 q)) by (intros q H; apply offcut_YS_pos in H; apply sqrt_lt_R0; exact H).
  split; [|split].
  - apply (hess_open offcut_YS); [exact LD|intros q H| | |].
    + specialize (S1 q H). specialize (S2 q H). apply offcut_YS_pos in H. destruct q as [[x y] z]. unfold R2pos in H. clear LD. gcurve. gtab. auto_derive; [gside|]. gfin. set (w := sqrt _) in *. field. lra.
    + specialize (S1 p Hp). specialize (S2 p Hp). apply offcut_YS_pos in Hp. destruct p as [[x y] z]. unfold R2pos in Hp. clear LD. gcurve. gtab. auto_derive; [gside; lra|]. gfin. set (w := sqrt _) in *. field [S2]. lra.
    + specialize (S1 p Hp). specialize (S2 p Hp). apply offcut_YS_pos in Hp. destruct p as [[x y] z]. unfold R2pos in Hp. clear LD. gcurve. gtab. auto_derive; [gside; lra|]. gfin. set (w := sqrt _) in *. field [S2]. lra.
    + exact (is_grad_const 0 _).
  - apply (hess_open offcut_YS); [exact LD|intros q H| | |].
    + specialize (S1 q H). specialize (S2 q H). destruct q as [[x y] z]. unfold offcut_YS in H. clear LD. gcurve. gtab.
      generalize (atan2_derive c1 c2 t u1 u2 H D1 D2). match goal with |- is_derive _ _ ?l -> is_derive _ _ ?r => replace r with l; [tauto|] end.
      set (w := sqrt _) in *. assert (0 < c2 t * c2 t + c1 t * c1 t) by (destruct H; nra). field [S2]. lra.
    + specialize (S1 p Hp). specialize (S2 p Hp). apply offcut_YS_pos in Hp. destruct p as [[x y] z]. unfold R2pos in Hp. clear LD. gcurve. gtab. auto_derive; [gside; lra|]. gfin. set (w := sqrt _) in *. field [S2]. lra.
    + specialize (S1 p Hp). specialize (S2 p Hp). apply offcut_YS_pos in Hp. destruct p as [[x y] z]. unfold R2pos in Hp. clear LD. gcurve. gtab. auto_derive; [gside; lra|]. gfin. set (w := sqrt _) in *. field [S2]. lra.
    + exact (is_grad_const 0 _).
  - apply (hess_open (fun _ => True)); [apply filter_true|intros q _| | |]; gtrig.
Qed.

(** Car -> Sph away from the axis x=y=0, for any differentiable branch of the azimuth *)
Lemma map2_CS_ang (ang : vec3 -> R) (Dom : vec3 -> Prop) p : locally p Dom -> (forall q, Dom q -> R2pos q) ->
  (forall q, Dom q -> is_grad ang q (- v2 q / (v1 q * v1 q + v2 q * v2 q), v1 q / (v1 q * v1 q + v2 q * v2 q), 0)) ->
  is_map2 (fun q => (sqrt (pow_2 (v1 q) + pow_2 (v2 q) + pow_2 (v3 q)), atan2 (sqrt (pow_2 (v1 q) + pow_2 (v2 q))) (v3 q), ang q)) (fun q => rows_CS (deriv_CS q)) p (second_CS (deriv2_CS p)).
Proof.
  intros LD DR GA. assert (Dp : Dom p) by (apply locally_singleton in LD; exact LD). pose proof (DR p Dp) as Hp.
  assert (LR : locally p R2pos) by (apply R2pos_open; exact Hp).
  assert (S1 : forall q, R2pos q -> 0 < sqrt (v1 q * v1 q + v2 q * v2 q)) by (intros q H; apply sqrt_lt_R0; exact H).
  assert (S2 : forall q, R2pos q -> sqrt (v1 q * v1 q + v2 q * v2 q) * sqrt (v1 q * v1 q + v2 q * v2 q) = v1 q * v1 q + v2 q * v2 q) by (intros q H; apply sqrt_sqrt; unfold R2pos in H; lra).
  assert (S3 : forall q, R2pos q -> 0 < sqrt (v1 q * v1 q + v2 q * v2 q + v3 q * v3 q)) by (intros q H; apply sqrt_lt_R0; unfold R2pos in H; nra).
  assert (S4 : forall q, R2pos q -> sqrt (v1 q * v1 q + v2 q * v2 q + v3 q * v3 q) * sqrt (v1 q * v1 q + v2 q * v2 q + v3 q * v3 q) = v1 q * v1 q + v2 q * v2 q + v3 q * v3 q) by (intros q H; apply sqrt_sqrt; unfold R2pos in H; nra).
  assert (P0 : forall q, R2pos q -> 0 < v1 q * v1 q + v2 q * v2 q + v3 q * v3 q) by (intros q H; unfold R2pos in H; nra).
  split; [|split].
  - apply (hess_open R2pos); [exact LR|intros q H| | |].
    + specialize (S1 q H). specialize (S2 q H). specialize (S3 q H). specialize (S4 q H). specialize (P0 q H). destruct q as [[x y] z]. unfold R2pos in H. clear LD LR DR GA. gcurve. gtab. auto_derive; [gside|]. gfin. set (w := sqrt (_ + _ + _)) in *. field. lra.
    + specialize (S1 p Hp). specialize (S2 p Hp). specialize (S3 p Hp). specialize (S4 p Hp). specialize (P0 p Hp). destruct p as [[x y] z]. unfold R2pos in Hp. clear LD LR DR GA Dp. gcurve. gtab. auto_derive; [gside; lra|]. gfin. set (w := sqrt (_ + _ + _)) in *. rewrite <- ?S4. field [S4]. lra.
    + specialize (S1 p Hp). specialize (S2 p Hp). specialize (S3 p Hp). specialize (S4 p Hp). specialize (P0 p Hp). destruct p as [[x y] z]. unfold R2pos in Hp. clear LD LR DR GA Dp. gcurve. gtab. auto_derive; [gside; lra|]. gfin. set (w := sqrt (_ + _ + _)) in *. rewrite <- ?S4. field [S4]. lra.
    + specialize (S1 p Hp). specialize (S2 p Hp). specialize (S3 p Hp). specialize (S4 p Hp). specialize (P0 p Hp). destruct p as [[x y] z]. unfold R2pos in Hp. clear LD LR DR GA Dp. gcurve. gtab. auto_derive; [gside; lra|]. gfin. set (w := sqrt (_ + _ + _)) in *. rewrite <- ?S4. field [S4]. lra.
  - apply (hess_open R2pos); [exact LR|intros q H| | |].
    + specialize (S1 q H). specialize (S2 q H). specialize (S3 q H). specialize (S4 q H). specialize (P0 q H). destruct q as [[x y] z]. unfold R2pos in H. clear LD LR DR GA. gcurve. gtab.
      assert (DRc : is_derive (fun s : R => sqrt (c1 s * c1 s + c2 s * c2 s)) t ((c1 t * u1 + c2 t * u2) / sqrt (c1 t * c1 t + c2 t * c2 t))).
      { auto_derive; [gside|]. gfin. field. lra. }
      generalize (atan2_derive (fun s : R => sqrt (c1 s * c1 s + c2 s * c2 s)) c3 t _ u3 (or_intror (Rgt_not_eq _ _ S1)) DRc D3). match goal with |- is_derive _ _ ?l -> is_derive _ _ ?r => replace r with l; [tauto|] end.
      clear DRc. set (w := sqrt (c1 t * c1 t + c2 t * c2 t)) in *. rewrite S2. field [S2]. split; lra.
    + specialize (S1 p Hp). specialize (S2 p Hp). specialize (S3 p Hp). specialize (S4 p Hp). specialize (P0 p Hp). destruct p as [[x y] z]. unfold R2pos in Hp. clear LD LR DR GA Dp. gcurve. gtab. auto_derive; [gside; try nra|]. gfin. set (w := sqrt (c1 t * c1 t + c2 t * c2 t)) in *. rewrite <- ?S2. field [S2]. nra.
    + specialize (S1 p Hp). specialize (S2 p Hp). specialize (S3 p Hp). specialize (S4 p Hp). specialize (P0 p Hp). destruct p as [[x y] z]. unfold R2pos in Hp. clear LD LR DR GA Dp. gcurve. gtab. auto_derive; [gside; try nra|]. gfin. set (w := sqrt (c1 t * c1 t + c2 t * c2 t)) in *. rewrite <- ?S2. field [S2]. nra.
    + specialize (S1 p Hp). specialize (S2 p Hp). specialize (S3 p Hp). specialize (S4 p Hp). specialize (P0 p Hp). destruct p as [[x y] z]. unfold R2pos in Hp. clear LD LR DR GA Dp. gcurve. gtab. auto_derive; [gside; try nra|]. gfin. set (w := sqrt (c1 t * c1 t + c2 t * c2 t)) in *. rewrite <- ?S2. field [S2]. nra.
  - apply (hess_open Dom); [exact LD|intros q H| | |].
    + eapply is_grad_eq; [|apply GA; exact H]. destruct q as [[x y] z]. gtab. reflexivity.
    + destruct p as [[x y] z]. unfold R2pos in Hp. clear LD LR DR GA Dp S1 S2 S3 S4 P0. gcurve. gtab. auto_derive; [gside; lra|]. gfin. field. lra.
    + destruct p as [[x y] z]. unfold R2pos in Hp. clear LD LR DR GA Dp S1 S2 S3 S4 P0. gcurve. gtab. auto_derive; [gside; lra|]. gfin. field. lra.
    + exact (is_grad_const 0 _).
Qed.
