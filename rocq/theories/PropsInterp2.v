(** C61: two-dimensional interpolators (linear and cubic). *)
From Coquelicot Require Import Coquelicot.
From Verif Require Import Arr SplineModel Interp2Model SplineSpec SplineBand SplineCons SplineQui SplineGlue SplineProofs SplineProofs2 SplineReg PropsSpline Interp2Spec Interp2Proofs Interp2Cons Interp2Nat Interp2Nat2 Interp2Lin.
Local Open Scope R_scope.

(** the constructors accept exactly the grids with at least two strictly increasing nodes in each coordinate, and matrices of the same size *)
Theorem C61_construct : forall xs ys f reg dx0 dx1 dy0 dy1, matrix f ->
  (grid xs /\ grid ys /\ table xs ys f -> (exists s, linear2dNew xs ys f = Ok s) /\ (exists s, cubic2dNew xs ys f reg dx0 dx1 dy0 dy1 = Ok s)) /\
  (~ (grid xs /\ grid ys /\ table xs ys f) -> linear2dNew xs ys f = Throw /\ cubic2dNew xs ys f reg dx0 dx1 dy0 dy1 = Throw /\ forall fx fy m, quintic2dNew xs ys f fx fy m = Throw).
Proof.
  intros xs ys f reg dx0 dx1 dy0 dy1 M. split.
  - intros (Gx & Gy & T). split; [destruct (linear2d_eval xs ys f Gx Gy T) as (s & E & _); exists s; exact E|].
    destruct (cubic2d_ok xs ys f reg dx0 dx1 dy0 dy1 Gx Gy T) as (fx & fy & fxy & E & _). eexists. exact E.
  - intros N. assert (E : check2d xs ys f = Throw) by (apply check2d_bad; intros (Gx & Gy & A & B); apply N; repeat split; try apply Gx; try apply Gy; try assumption; apply M).
    unfold linear2dNew, cubic2dNew, quintic2dNew. rewrite E. repeat split; reflexivity.
Qed.

(** LinearInterpolator2d: the bilinear function in each cell of the grid, which passes through all given points; the reported first derivatives are
    the true ones off the grid lines in the direction of differentiation; the value and the first derivatives are NaN outside the definition region *)
Theorem C61_linear : forall xs ys f, grid xs -> grid ys -> table xs ys f ->
  exists s F Fx Fy, linear2dNew xs ys f = Ok s /\
    (forall x y, inside xs ys x y -> linear2dEval s x y = Ok (Some (F x y, Fx x y, Fy x y), Some (0, 0, 0))) /\
    (forall x y, ~ inside xs ys x y -> linear2dEval s x y = Ok (None, Some (0, 0, 0))) /\
    sampled xs ys f F /\
    (forall i j x y, (0 <= i < alen xs - 1)%Z -> (0 <= j < alen ys - 1)%Z -> let xl := afn xs i in let xu := afn xs (i + 1)%Z in let yl := afn ys j in let yu := afn ys (j + 1)%Z in
       xl <= x <= xu -> yl <= y <= yu ->
       F x y * ((xu - xl) * (yu - yl)) = (xu - x) * (yu - y) * at2 f i j + (xu - x) * (y - yl) * at2 f i (j + 1) + (x - xl) * (yu - y) * at2 f (i + 1) j + (x - xl) * (y - yl) * at2 f (i + 1) (j + 1)) /\
    (forall x y, inside xs ys x y -> ~ is_node xs x -> partial_x F x y (Fx x y)) /\
    (forall x y, inside xs ys x y -> ~ is_node ys y -> partial_y F x y (Fy x y)).
Proof.
  intros xs ys f Gx Gy T. destruct (linear2d_eval xs ys f Gx Gy T) as (s & E & A & B). exists s, (lF xs ys f), (lFx xs ys f), (lFy xs ys f).
  split; [exact E|]. split; [exact A|]. split; [exact B|]. split; [intros i j Hi Hj; symmetry; apply lF_node; assumption|]. split; [|split].
  - intros i j x y Hi Hj. cbv zeta. intros Bx By. rewrite (lF_cell xs ys f Gx Gy i j x y Hi Hj Bx By). unfold lin1.
    pose proof (x_ne xs (proj1 Gx) i Hi). pose proof (x_ne ys (proj1 Gy) j Hj). cbv zeta. field. lra.
  - intros x y [Ix Iy] N. destruct (between_strict xs x Gx Ix N) as (i & Hi & Bi). destruct (between ys y Gy Iy) as (j & Hj & Bj). apply (lFx_cell xs ys f Gx Gy i j); assumption.
  - intros x y [Ix Iy] N. destruct (between_strict ys y Gy Iy N) as (j & Hj & Bj). destruct (between xs x Gx Ix) as (i & Hi & Bi). apply (lFy_cell xs ys f Gx Gy i j); assumption.
Qed.
(** The mixed second derivative of the linear interpolator is reported as zero, although it is not: for the values of f(x,y)=xy the interpolator
    is exact, its reported first derivatives are y and x, but the reported mixed derivative is 0 and not 1. *)
Theorem C61_linear_mixed_refuted : forall xs ys f, grid xs -> grid ys -> table xs ys f -> sampled xs ys f (fun x y => x * y) ->
  exists s, linear2dNew xs ys f = Ok s /\ forall x y, inside xs ys x y -> linear2dEval s x y = Ok (Some (x * y, y, x), Some (0, 0, 0)).
Proof.
  intros xs ys f Gx Gy T Sm. destruct (linear2d_eval xs ys f Gx Gy T) as (s & E & A & _). exists s. split; [exact E|]. intros x y I. rewrite (A x y I). destruct I as [Ix Iy].
  destruct (seg_bounds xs x Gx Ix) as [Kx _]. destruct (seg_bounds ys y Gy Iy) as [Ky _]. pose proof (x_ne xs (proj1 Gx) _ Kx). pose proof (x_ne ys (proj1 Gy) _ Ky).
  assert (E1 : lF xs ys f x y = x * y) by (unfold lF, lin1; rewrite !Sm by lia; cbv zeta; field; lra).
  assert (E2 : lFx xs ys f x y = y) by (unfold lFx, slo1, lin1; rewrite !Sm by lia; cbv zeta; field; lra).
  assert (E3 : lFy xs ys f x y = x) by (unfold lFy, slo1, lin1; rewrite !Sm by lia; cbv zeta; field; lra).
  rewrite E1, E2, E3. reflexivity.
Qed.

Lemma cubic2d_wf xs ys f reg dx0 dx1 dy0 dy1 : grid xs -> grid ys -> table xs ys f -> exists fx fy fxy, cubic2dNew xs ys f reg dx0 dx1 dy0 dy1 = Ok (mkCub2 xs ys (m_data f) fx fy fxy) /\
  wf2 (mkCub2 xs ys (m_data f) fx fy fxy) /\
  (forall i j, (0 <= i < alen xs)%Z -> (0 <= j < alen ys)%Z -> afn fy (i * alen ys + j)%Z = afn (slp reg ys (rowof (m_data f) (alen ys) i) dy0 dy1) j) /\
  (forall i j, (0 <= i < alen xs)%Z -> (0 <= j < alen ys)%Z -> afn fx (i * alen ys + j)%Z = afn (slp reg xs (colof (m_data f) (alen xs) (alen ys) j) dx0 dx1) i).
Proof.
  intros Gx Gy T. destruct (cubic2d_ok xs ys f reg dx0 dx1 dy0 dy1 Gx Gy T) as (fx & fy & fxy & E & L1 & L2 & L3 & Vy & Vx & _). exists fx, fy, fxy. split; [exact E|].
  split; [|split; assumption]. destruct T as ((_ & _ & L) & R1 & R2). constructor; cbn; try assumption. rewrite <- R1, <- R2. exact L.
Qed.
(** CubicSpline2d, for any boundary conditions and with or without regularization: the function passes through all given points, and all reported
    derivatives are the true derivatives: the first and the mixed second ones everywhere inside the grid, including the grid lines,
    and the second derivatives by x (y) everywhere except the lines x=x_i (y=y_j); everything is NaN outside the definition region. *)
Theorem C61_cubic : forall xs ys f reg dx0 dx1 dy0 dy1, grid xs -> grid ys -> table xs ys f ->
  exists s F Fx Fy Fxx Fxy Fyy, cubic2dNew xs ys f reg dx0 dx1 dy0 dy1 = Ok s /\ evaluates2 xs ys (cubic2dEval s) F Fx Fy Fxx Fxy Fyy /\ sampled xs ys f F /\
    (forall x y, interior xs ys x y -> partial_x F x y (Fx x y) /\ partial_y F x y (Fy x y) /\ partial_y Fx x y (Fxy x y) /\ partial_x Fy x y (Fxy x y)) /\
    (forall x y, interior xs ys x y -> ~ is_node xs x -> partial_x Fx x y (Fxx x y)) /\
    (forall x y, interior xs ys x y -> ~ is_node ys y -> partial_y Fy x y (Fyy x y)).
Proof.
  intros xs ys f reg dx0 dx1 dy0 dy1 Gx Gy T. destruct (cubic2d_wf xs ys f reg dx0 dx1 dy0 dy1 Gx Gy T) as (fx & fy & fxy & E & W & _).
  set (C := C2 xs ys (m_data f) fx fy fxy). eexists. exists (C v_f v_f), (C v_d v_f), (C v_f v_d), (C v_d2 v_f), (C v_d v_d), (C v_f v_d2). split; [exact E|].
  split; [exact (cub2d_eval _ W)|]. split; [|split; [|split]].
  - intros i j Hi Hj. symmetry. unfold C. rewrite (proj1 (C2_xline xs ys (m_data f) fx fy fxy Gx v_f (afn ys j) i Hi)). rewrite (proj1 (rowF_node ys (m_data f) fy Gy j i Hj)).
    unfold at2. destruct T as (_ & _ & ->). reflexivity.
  - intros x y _. split; [apply C2_px; assumption|]. split; [apply C2_py; [assumption|assumption|left; reflexivity]|]. split; [apply C2_py; [assumption|assumption|right; left; reflexivity]|]. apply C2_px; assumption.
  - intros x y _ N. apply C2_pxx; assumption.
  - intros x y _ N. apply C2_pyy; [assumption|assumption|left; reflexivity|exact N].
Qed.
(** On the grid lines the interpolator coincides with the one-dimensional spline for the given row or column of the table, with the same boundary conditions
    and regularization. *)
Theorem C61_cubic_lines : forall xs ys f reg dx0 dx1 dy0 dy1, grid xs -> grid ys -> table xs ys f ->
  exists s, cubic2dNew xs ys f reg dx0 dx1 dy0 dy1 = Ok s /\
    (forall i, (0 <= i < alen xs)%Z -> exists r G G1 G2 G3, cubicNew ys (row ys f i) reg dy0 dy1 = Ok r /\ evaluates (cubicEval r) G G1 G2 G3 /\
       forall y, x_first ys <= y <= x_last ys -> exists zx zxx zxy, cubic2dEval s (afn xs i) y = Ok (Some (G y, zx, G1 y), Some (zxx, zxy, G2 y))) /\
    (forall j, (0 <= j < alen ys)%Z -> exists c G G1 G2 G3, cubicNew xs (column xs f j) reg dx0 dx1 = Ok c /\ evaluates (cubicEval c) G G1 G2 G3 /\
       forall x, x_first xs <= x <= x_last xs -> exists zy zxy zyy, cubic2dEval s x (afn ys j) = Ok (Some (G x, G1 x, zy), Some (G2 x, zxy, zyy))).
Proof.
  intros xs ys f reg dx0 dx1 dy0 dy1 Gx Gy T. destruct (cubic2d_wf xs ys f reg dx0 dx1 dy0 dy1 Gx Gy T) as (fx & fy & fxy & E & W & Vy & Vx).
  eexists. split; [exact E|]. pose proof (proj1 (cub2d_eval _ W)) as Ev. cbn [c2_x c2_y] in Ev.
  assert (M : m_cols f = alen ys) by apply T.
  assert (Nd : forall x k, grid x -> (0 <= k < alen x)%Z -> x_first x <= afn x k <= x_last x).
  { intros x k [Hx Hn] Hk. unfold x_first, x_last. split; apply inc_le; auto; lia. }
  split.
  - intros i Hi. set (g := row ys f i). set (d := slp reg ys g dy0 dy1). assert (Ld : alen d = alen ys) by (apply (slopes_ok reg ys g dy0 dy1 Gy eq_refl)).
    exists (mkCub ys g d), (cF ys g d), (cF1 ys g d), (cF2 ys g d), (cF3 ys g d). split; [apply (cubicNew_slp reg ys g dy0 dy1 Gy eq_refl)|].
    split; [apply (cub_evaluates ys g d (proj1 Gy) (grid_len ys Gy) eq_refl Ld)|]. intros y Hy. do 3 eexists. rewrite (Ev (afn xs i) y (conj (Nd xs i Gx Hi) Hy)).
    unfold Cs. cbn [c2_x c2_y c2_f c2_fx c2_fy c2_fxy].
    assert (Q : forall pr, C2 xs ys (m_data f) fx fy fxy v_f pr (afn xs i) y = Fp ys (cpiece ys g d) pr y).
    { intros pr. rewrite (proj1 (C2_xline xs ys (m_data f) fx fy fxy Gx pr y i Hi)). unfold rowF.
      refine (C2_ext ys xs Gy pr (rowof (m_data f) (alen ys) i) (g, d) y _ Logic.I (rowof fy (alen ys) i) _); intros j Hj; cbn [fst snd g row rowof afn]; [unfold at2; rewrite M; reflexivity|].
      rewrite Vy by assumption. unfold d, g, row, rowof, at2. rewrite M. reflexivity. }
    rewrite !Q. reflexivity.
  - intros j Hj. set (g := column xs f j). set (d := slp reg xs g dx0 dx1). assert (Ld : alen d = alen xs) by (apply (slopes_ok reg xs g dx0 dx1 Gx eq_refl)).
    exists (mkCub xs g d), (cF xs g d), (cF1 xs g d), (cF2 xs g d), (cF3 xs g d). split; [apply (cubicNew_slp reg xs g dx0 dx1 Gx eq_refl)|].
    split; [apply (cub_evaluates xs g d (proj1 Gx) (grid_len xs Gx) eq_refl Ld)|]. intros x Hx. do 3 eexists. rewrite (Ev x (afn ys j) (conj Hx (Nd ys j Gy Hj))).
    unfold Cs. cbn [c2_x c2_y c2_f c2_fx c2_fy c2_fxy].
    assert (Q : forall pr, C2 xs ys (m_data f) fx fy fxy pr v_f x (afn ys j) = Fp xs (cpiece xs g d) pr x).
    { intros pr. rewrite (proj1 (C2_yline xs ys (m_data f) fx fy fxy Gx Gy pr x j Hj)).
      refine (C2_ext xs ys Gx pr (colof (m_data f) (alen xs) (alen ys) j) (g, d) x _ Logic.I (colof fx (alen xs) (alen ys) j) _); intros i Hi; cbn [fst snd g column colof afn]; [unfold at2; rewrite M; reflexivity|].
      rewrite Vx by assumption. unfold d, g, column, colof, at2. rewrite M. reflexivity. }
    rewrite !Q. reflexivity.
Qed.
(** Without regularization, and with natural boundary conditions or a grid which is not symmetric about zero: the interpolator is twice continuously
    differentiable, i.e. the reported second derivatives are the true ones everywhere inside the grid; on each side of the rectangle either the
    prescribed normal derivative is attained along the whole side, or the second normal derivative is zero. *)
Theorem C61_cubic_spline : forall xs ys f dx0 dx1 dy0 dy1, grid xs -> grid ys -> table xs ys f ->
  dx0 = None /\ dx1 = None \/ ~ symmetric_grid xs -> dy0 = None /\ dy1 = None \/ ~ symmetric_grid ys ->
  exists s F Fx Fy Fxx Fxy Fyy, cubic2dNew xs ys f false dx0 dx1 dy0 dy1 = Ok s /\ evaluates2 xs ys (cubic2dEval s) F Fx Fy Fxx Fxy Fyy /\ sampled xs ys f F /\
    (forall x y, interior xs ys x y -> partial_x F x y (Fx x y) /\ partial_y F x y (Fy x y) /\ partial_x Fx x y (Fxx x y) /\ partial_y Fx x y (Fxy x y) /\ partial_x Fy x y (Fxy x y) /\ partial_y Fy x y (Fyy x y)) /\
    (forall x y, inside xs ys x y ->
       match dx0 with Some a => Fx (x_first xs) y = a | None => Fxx (x_first xs) y = 0 end /\ match dx1 with Some a => Fx (x_last xs) y = a | None => Fxx (x_last xs) y = 0 end /\
       match dy0 with Some a => Fy x (x_first ys) = a | None => Fyy x (x_first ys) = 0 end /\ match dy1 with Some a => Fy x (x_last ys) = a | None => Fyy x (x_last ys) = 0 end).
Proof.
  intros xs ys f dx0 dx1 dy0 dy1 Gx Gy T Px Py. destruct (cons_rows2 xs ys f dx0 dx1 dy0 dy1 Gx Gy T Px Py) as (fx & fy & fxy & E & W & Hr).
  set (C := C2 xs ys (m_data f) fx fy fxy). eexists. exists (C v_f v_f), (C v_d v_f), (C v_f v_d), (C v_d2 v_f), (C v_d v_d), (C v_f v_d2). split; [exact E|].
  split; [exact (cub2d_eval _ W)|]. split; [|split].
  - intros i j Hi Hj. symmetry. unfold C. rewrite (proj1 (C2_xline xs ys (m_data f) fx fy fxy Gx v_f (afn ys j) i Hi)). rewrite (proj1 (rowF_node ys (m_data f) fy Gy j i Hj)).
    unfold at2. destruct T as (_ & _ & ->). reflexivity.
  - intros x y [Ix Iy]. split; [apply C2_px; assumption|]. split; [apply C2_py; [assumption|assumption|left; reflexivity]|].
    split; [exact (C2_pxx_all xs ys _ _ _ _ _ _ _ _ Gx Gy Hr v_f x y (or_introl eq_refl) Ix ltac:(lra))|]. split; [apply C2_py; [assumption|assumption|right; left; reflexivity]|].
    split; [apply C2_px; assumption|]. exact (C2_pyy_all xs ys _ _ _ _ _ _ _ _ Gx Gy Hr v_f x y (or_introl eq_refl) Iy).
  - intros x y [Ix Iy]. split; [|split; [|split]].
    + destruct dx0 as [a|] eqn:Ed; [exact (side_x0 _ _ _ _ _ _ _ _ _ _ Gx Gy Hr y a eq_refl)|exact (nat_x0 _ _ _ _ _ _ _ _ _ _ Gx Gy Hr y eq_refl Iy)].
    + destruct dx1 as [a|] eqn:Ed; [exact (side_x1 _ _ _ _ _ _ _ _ _ _ Gx Gy Hr y a eq_refl)|exact (nat_x1 _ _ _ _ _ _ _ _ _ _ Gx Gy Hr y eq_refl Iy)].
    + destruct dy0 as [a|] eqn:Ed; [exact (side_y0 _ _ _ _ _ _ _ _ _ _ Gx Gy Hr x a eq_refl)|exact (nat_y0 _ _ _ _ _ _ _ _ _ _ Gx Gy Hr x eq_refl Ix)].
    + destruct dy1 as [a|] eqn:Ed; [exact (side_y1 _ _ _ _ _ _ _ _ _ _ Gx Gy Hr x a eq_refl)|exact (nat_y1 _ _ _ _ _ _ _ _ _ _ Gx Gy Hr x eq_refl Ix)].
Qed.
(** On a grid in x which is symmetric about zero, with values symmetric as well, the derivative prescribed at the lower side is ignored (as in the one-dimensional
    case, C39): at every node of this side the derivative is minus the one prescribed at the upper side. *)
Theorem C61_clamped_symmetric_refuted : forall xs ys f a b dy0 dy1, grid xs -> grid ys -> table xs ys f ->
  (forall j, (0 <= j < alen ys)%Z -> symmetric_data xs (column xs f j)) ->
  exists s, cubic2dNew xs ys f false (Some a) (Some b) dy0 dy1 = Ok s /\
    forall j, (0 <= j < alen ys)%Z -> exists z zy w, cubic2dEval s (x_first xs) (afn ys j) = Ok (Some (z, - b, zy), w).
Proof.
  intros xs ys f a b dy0 dy1 Gx Gy T Sy. destruct (C61_cubic_lines xs ys f false (Some a) (Some b) dy0 dy1 Gx Gy T) as (s & E & _ & Hc). exists s. split; [exact E|].
  intros j Hj. destruct (Hc j Hj) as (c & G & G1 & G2 & G3 & Ec & Ev & V).
  destruct (C39_clamped_symmetric_refuted xs (column xs f j) a b (proj1 Gx) (proj2 Gx) eq_refl (Sy j Hj)) as (c' & v & Ec' & Ev' & Vd). rewrite Ec in Ec'. injection Ec' as <-.
  rewrite Ev in Ev'. injection Ev' as <-. cbn [v_d] in Vd. destruct (V (x_first xs)) as (zy & zxy & zyy & ->); [split; [lra|apply inc_le; [apply Gx| | |]; destruct Gx; lia]|].
  rewrite Vd. eauto.
Qed.
(** The roles of the two coordinates can be exchanged: the spline for the transposed table, with the boundary conditions exchanged, is the transposed spline
    (although the construction treats x and y differently). *)
Theorem C61_cubic_transpose : forall xs ys f g dx0 dx1 dy0 dy1, grid xs -> grid ys -> table xs ys f -> table ys xs g ->
  (forall i j, (0 <= i < alen xs)%Z -> (0 <= j < alen ys)%Z -> at2 g j i = at2 f i j) ->
  dx0 = None /\ dx1 = None \/ ~ symmetric_grid xs -> dy0 = None /\ dy1 = None \/ ~ symmetric_grid ys ->
  exists s t, cubic2dNew xs ys f false dx0 dx1 dy0 dy1 = Ok s /\ cubic2dNew ys xs g false dy0 dy1 dx0 dx1 = Ok t /\
    forall x y, exists v, cubic2dEval s x y = Ok v /\ cubic2dEval t y x = Ok (flip v).
Proof.
  intros xs ys f g dx0 dx1 dy0 dy1 Gx Gy T T' F Px Py. destruct (cons_rows2 xs ys f dx0 dx1 dy0 dy1 Gx Gy T Px Py) as (fx & fy & fxy & E & W & Hr).
  destruct (cons_rows2 ys xs g dy0 dy1 dx0 dx1 Gy Gx T' Py Px) as (gx & gy & gxy & E' & W' & Hr').
  eexists. eexists. split; [exact E|]. split; [exact E'|]. pose proof (cub2d_eval _ W) as [A B]. pose proof (cub2d_eval _ W') as [A' B']. cbn [c2_x c2_y] in *.
  intros x y. destruct (inside_dec xs ys x y) as [I|N].
  - eexists. split; [exact (A x y I)|]. rewrite (A' y x (conj (proj2 I) (proj1 I))). unfold flip; cbn [fst snd]. unfold Cs; cbn [c2_x c2_y c2_f c2_fx c2_fy c2_fxy].
    assert (F' : forall i j, (0 <= i < alen xs)%Z -> (0 <= j < alen ys)%Z -> afn (m_data g) (j * alen xs + i)%Z = afn (m_data f) (i * alen ys + j)%Z).
    { intros i j Hi Hj. specialize (F i j Hi Hj). unfold at2 in F. destruct T as (_ & _ & Tc). destruct T' as (_ & _ & Tc'). rewrite Tc, Tc' in F. exact F. }
    pose proof (rows2_swap xs ys _ fx fy fxy _ gx gy gxy _ _ _ _ Gx Gy F' Hr Hr') as Q.
    assert (P : forall p q, pr3 p -> pr3 q -> C2 ys xs (m_data g) gx gy gxy q p y x = C2 xs ys (m_data f) fx fy fxy p q x y) by (intros p q Hp Hq; symmetry; apply C2_swap; assumption).
    rewrite !P by (unfold pr3; auto). reflexivity.
  - eexists. split; [exact (B x y N)|]. rewrite (B' y x); [reflexivity|]. intros [I1 I2]. apply N. split; assumption.
Qed.
(** The natural spline depends linearly on the data. *)
Theorem C61_cubic_superposition : forall xs ys f g h a b, grid xs -> grid ys -> table xs ys f -> table xs ys g -> table xs ys h ->
  (forall i j, (0 <= i < alen xs)%Z -> (0 <= j < alen ys)%Z -> at2 h i j = a * at2 f i j + b * at2 g i j) ->
  exists s t u F Fx Fy Fxx Fxy Fyy G Gx Gy Gxx Gxy Gyy,
    cubic2dNew xs ys f false None None None None = Ok s /\ cubic2dNew xs ys g false None None None None = Ok t /\ cubic2dNew xs ys h false None None None None = Ok u /\
    evaluates2 xs ys (cubic2dEval s) F Fx Fy Fxx Fxy Fyy /\ evaluates2 xs ys (cubic2dEval t) G Gx Gy Gxx Gxy Gyy /\
    evaluates2 xs ys (cubic2dEval u) (fun x y => a * F x y + b * G x y) (fun x y => a * Fx x y + b * Gx x y) (fun x y => a * Fy x y + b * Gy x y)
      (fun x y => a * Fxx x y + b * Gxx x y) (fun x y => a * Fxy x y + b * Gxy x y) (fun x y => a * Fyy x y + b * Gyy x y).
Proof.
  intros xs ys f g h a b Gx Gy T1 T2 T3 H. assert (Px : plain xs None None) by (left; auto). assert (Py : plain ys None None) by (left; auto).
  destruct (cons_rows2 xs ys f _ _ _ _ Gx Gy T1 Px Py) as (fx & fy & fxy & E1 & W1 & R1). destruct (cons_rows2 xs ys g _ _ _ _ Gx Gy T2 Px Py) as (gx & gy & gxy & E2 & W2 & R2).
  destruct (cons_rows2 xs ys h _ _ _ _ Gx Gy T3 Px Py) as (hx & hy & hxy & E3 & W3 & R3).
  do 15 eexists. split; [exact E1|]. split; [exact E2|]. split; [exact E3|]. split; [exact (cub2d_eval _ W1)|]. split; [exact (cub2d_eval _ W2)|].
  destruct (cub2d_eval _ W3) as [A B]. cbn [c2_x c2_y] in *. split; [|exact B]. intros x y I. rewrite (A x y I).
  assert (H' : forall i j, (0 <= i < alen xs)%Z -> (0 <= j < alen ys)%Z -> afn (m_data h) (i * alen ys + j)%Z = a * afn (m_data f) (i * alen ys + j)%Z + b * afn (m_data g) (i * alen ys + j)%Z).
  { intros i j Hi Hj. specialize (H i j Hi Hj). unfold at2 in H. destruct T1 as (_ & _ & C1). destruct T2 as (_ & _ & C2). destruct T3 as (_ & _ & C3). rewrite C1, C2, C3 in H. exact H. }
  pose proof (rows2_comb xs ys _ fx fy fxy _ gx gy gxy _ hx hy hxy a b Gx Gy H' R1 R2 R3) as Q.
  assert (P : forall p q, pr3 p -> pr3 q -> C2 xs ys (m_data h) hx hy hxy p q x y = a * C2 xs ys (m_data f) fx fy fxy p q x y + b * C2 xs ys (m_data g) gx gy gxy p q x y).
  { intros p q Hp Hq. apply C2_comb; auto. }
  unfold Cs; cbn [c2_x c2_y c2_f c2_fx c2_fy c2_fxy]. rewrite !P by (unfold pr3; auto). reflexivity.
Qed.
(** The natural spline reproduces bilinear functions, with all derivatives. *)
Theorem C61_cubic_bilinear : forall xs ys f a b c d, grid xs -> grid ys -> table xs ys f -> sampled xs ys f (fun x y => a + b * x + c * y + d * x * y) ->
  exists s, cubic2dNew xs ys f false None None None None = Ok s /\
    evaluates2 xs ys (cubic2dEval s) (fun x y => a + b * x + c * y + d * x * y) (fun x y => b + d * y) (fun x y => c + d * x) (fun _ _ => 0) (fun _ _ => d) (fun _ _ => 0).
Proof.
  intros xs ys f a b c d Gx Gy T Sm. destruct (cons_rows2 xs ys f None None None None Gx Gy T (or_introl (conj eq_refl eq_refl)) (or_introl (conj eq_refl eq_refl))) as (fx & fy & fxy & E & W & Hr).
  eexists. split; [exact E|]. destruct (cub2d_eval _ W) as [A B]. cbn [c2_x c2_y] in *. split; [|exact B]. intros x y I. rewrite (A x y I). unfold Cs; cbn [c2_x c2_y c2_f c2_fx c2_fy c2_fxy].
  destruct (bilin_exact xs ys (m_data f) fx fy fxy a b c d x y Gx Gy Hr) as (-> & -> & -> & -> & -> & ->); [|exact I|reflexivity].
  intros i j Hi Hj. specialize (Sm i j Hi Hj). unfold at2 in Sm. destruct T as (_ & _ & Tc). rewrite Tc in Sm. exact Sm.
Qed.

(** concrete grids and tables *)
Definition ex2_x : arr R := mkArr 3 (fun i => if (i =? 0)%Z then 0 else if (i =? 1)%Z then 1 else 3).
Definition ex2_y : arr R := mkArr 2 (fun i => if (i =? 0)%Z then -1 else 2).
Definition ex2_f : mat := mkMat 3 2 (mkArr 6 (fun k => afn ex2_x (k / 2)%Z * afn ex2_y (k mod 2)%Z)).
Example C61_ex : grid ex2_x /\ grid ex2_y /\ matrix ex2_f /\ table ex2_x ex2_y ex2_f /\ sampled ex2_x ex2_y ex2_f (fun x y => x * y) /\ ~ symmetric_grid ex2_x /\ ~ symmetric_grid ex2_y /\ interior ex2_x ex2_y 1 0 /\ is_node ex2_x 1.
Proof.
  assert (A : grid ex2_x). { split; [|cbn; lia]. intros i j Hi Hj. cbn in *. assert (i = 0 \/ i = 1)%Z as [-> | ->] by lia; assert (j = 1 \/ j = 2)%Z as [-> | ->] by lia; cbn; try lra; lia. }
  assert (B : grid ex2_y). { split; [|cbn; lia]. intros i j Hi Hj. cbn in *. assert (i = 0 /\ j = 1)%Z as [-> ->] by lia. cbn. lra. }
  split; [exact A|]. split; [exact B|]. assert (M : matrix ex2_f) by (repeat split; cbn; lia). split; [exact M|]. split; [split; [exact M|split; reflexivity]|].
  split. { intros i j Hi Hj. cbn [alen ex2_x ex2_y] in *. unfold at2. cbn [m_cols m_data ex2_f afn]. rewrite idx_div, idx_mod by lia. reflexivity. }
  split. { intros Q. specialize (Q 0%Z ltac:(cbn; lia)). cbn in Q. lra. } split. { intros Q. specialize (Q 0%Z ltac:(cbn; lia)). cbn in Q. lra. }
  split; [unfold interior, x_first, x_last; cbn; lra|]. exists 1%Z. split; [cbn; lia|reflexivity].
Qed.
(** a symmetric grid with symmetric columns *)
Definition ex2_s : mat := mkMat 2 2 (mkArr 4 (fun k => afn ex2_y (k mod 2)%Z)).
Example C61_symmetric_ex : grid ex_xs /\ grid ex2_y /\ table ex_xs ex2_y ex2_s /\ forall j, (0 <= j < alen ex2_y)%Z -> symmetric_data ex_xs (column ex_xs ex2_s j).
Proof.
  split; [split; apply C39_symmetric_ex|]. split; [apply C61_ex|]. split; [repeat split; cbn; lia|]. intros j Hj i Hi. destruct (proj2 (proj2 (proj2 C39_symmetric_ex)) i Hi) as [-> _]. split; [reflexivity|].
  unfold column, at2. cbn [afn m_cols m_data ex2_s alen ex_xs ex2_y] in *. rewrite !idx_mod by lia. reflexivity.
Qed.
(** a transposed table, and a linear combination *)
Definition ex2_t : mat := mkMat 2 3 (mkArr 6 (fun k => afn ex2_y (k / 3)%Z * afn ex2_x (k mod 3)%Z)).
Definition ex2_h : mat := mkMat 3 2 (mkArr 6 (fun k => 5 * (afn ex2_x (k / 2)%Z * afn ex2_y (k mod 2)%Z))).
Example C61_transpose_ex : table ex2_y ex2_x ex2_t /\ (forall i j, (0 <= i < alen ex2_x)%Z -> (0 <= j < alen ex2_y)%Z -> at2 ex2_t j i = at2 ex2_f i j) /\
  table ex2_x ex2_y ex2_h /\ (forall i j, (0 <= i < alen ex2_x)%Z -> (0 <= j < alen ex2_y)%Z -> at2 ex2_h i j = 2 * at2 ex2_f i j + 3 * at2 ex2_f i j).
Proof.
  split; [repeat split; cbn; lia|]. split; [|split; [repeat split; cbn; lia|]]; intros i j Hi Hj; cbn [alen ex2_x ex2_y] in *; unfold at2; cbn [m_cols m_data ex2_f ex2_t ex2_h afn]; rewrite !idx_div, !idx_mod by lia; ring.
Qed.
Print Assumptions C61_construct.
Print Assumptions C61_linear.
Print Assumptions C61_linear_mixed_refuted.
Print Assumptions C61_cubic.
Print Assumptions C61_cubic_lines.
Print Assumptions C61_cubic_spline.
Print Assumptions C61_clamped_symmetric_refuted.
Print Assumptions C61_cubic_transpose.
Print Assumptions C61_cubic_superposition.
Print Assumptions C61_cubic_bilinear.
