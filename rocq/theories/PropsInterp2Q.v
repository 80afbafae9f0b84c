(** C61, continued: two-dimensional quintic splines. *)
From Coquelicot Require Import Coquelicot.
From Verif Require Import Arr SplineModel Interp2Model SplineSpec SplineBand SplineCons SplineQui SplineGlue SplineProofs SplineProofs2 SplineReg PropsSpline Interp2Spec Interp2QSpec Interp2Proofs Interp2Cons Interp2Nat Interp2Nat2 Interp2Quin Interp2QCons Interp2QProofs PropsInterp2.
Local Open Scope R_scope.

Lemma sizes_ok xs ys m : table xs ys m -> checkSizes2d m (alen xs) (alen ys) = Ok tt.
Proof. intros (_ & A & B). unfold checkSizes2d. rewrite A, B, !Z.eqb_refl. reflexivity. Qed.
Lemma sizes_bad xs ys m : matrix m -> ~ table xs ys m -> checkSizes2d m (alen xs) (alen ys) = Throw.
Proof.
  intros M N. unfold checkSizes2d. destruct (Z.eqb_spec (m_rows m) (alen xs)) as [A|A]; [|reflexivity]. cbn [negb]. destruct (Z.eqb_spec (m_cols m) (alen ys)) as [B|B]; [|reflexivity]. exfalso. apply N. split; auto.
Qed.
Lemma table_len xs ys m : table xs ys m -> alen (m_data m) = (alen xs * alen ys)%Z.
Proof. intros ((_ & _ & L) & A & B). rewrite L, A, B. reflexivity. Qed.
Lemma table_at xs ys m i j : table xs ys m -> at2 m i j = afn (m_data m) (i * alen ys + j)%Z.
Proof. intros (_ & _ & B). unfold at2. rewrite B. reflexivity. Qed.
Lemma node_in x k : grid x -> (0 <= k < alen x)%Z -> x_first x <= afn x k <= x_last x.
Proof. intros [Hx Hn] Hk. unfold x_first, x_last. split; apply inc_le; auto; lia. Qed.

(** the object constructed from valid input *)
Record built (xs ys : arr R) (f fx fy : mat) (s : qui2d) : Prop := mkBuilt {
  b_x : q2_x s = xs; b_y : q2_y s = ys; b_f : q2_f s = m_data f; b_fx : q2_fx s = m_data fx; b_fy : q2_fy s = m_data fy;
  b_len : forall a, List.In a (q2_f s :: q2_fx s :: q2_fy s :: q2_fxx s :: q2_fxy s :: q2_fyy s :: q2_fxxy s :: q2_fxyy s :: q2_fxxyy s :: nil) -> alen a = (alen xs * alen ys)%Z;
  b_xx : forall i j, (0 <= i < alen xs)%Z -> (0 <= j < alen ys)%Z -> afn (q2_fxx s) (i * alen ys + j)%Z = afn (qsl xs (colof (m_data f) (alen xs) (alen ys) j) (colof (m_data fx) (alen xs) (alen ys) j)) i;
  b_yy : forall i j, (0 <= i < alen xs)%Z -> (0 <= j < alen ys)%Z -> afn (q2_fyy s) (i * alen ys + j)%Z = afn (qsl ys (rowof (m_data f) (alen ys) i) (rowof (m_data fy) (alen ys) i)) j }.
Record built_mixed (xs ys : arr R) (f fx fy m : mat) (s : qui2d) : Prop := mkBuiltM {
  m_built : built xs ys f fx fy s; m_xy : q2_fxy s = m_data m;
  m_xxy : forall i j, (0 <= i < alen xs)%Z -> (0 <= j < alen ys)%Z -> afn (q2_fxxy s) (i * alen ys + j)%Z = afn (qsl xs (colof (m_data fy) (alen xs) (alen ys) j) (colof (m_data m) (alen xs) (alen ys) j)) i;
  m_xyy : forall i j, (0 <= i < alen xs)%Z -> (0 <= j < alen ys)%Z -> afn (q2_fxyy s) (i * alen ys + j)%Z = afn (qsl ys (rowof (m_data fx) (alen ys) i) (rowof (m_data m) (alen ys) i)) j;
  m_xxyy : forall i j, (0 <= i < alen xs)%Z -> (0 <= j < alen ys)%Z -> afn (q2_fxxyy s) (i * alen ys + j)%Z = afn (qsl ys (rowof (q2_fxx s) (alen ys) i) (rowof (q2_fxxy s) (alen ys) i)) j }.
Record built_wout (xs ys : arr R) (f fx fy : mat) (s : qui2d) : Prop := mkBuiltW {
  w_built : built xs ys f fx fy s;
  w_mixed : forall i j, (0 <= i < alen xs)%Z -> (0 <= j < alen ys)%Z ->
    afn (q2_fxy s) (i * alen ys + j)%Z = wxy xs ys (m_data fx) (m_data fy) i j /\ afn (q2_fxxy s) (i * alen ys + j)%Z = wxxy xs ys (m_data f) (m_data fx) (m_data fy) i j /\
    afn (q2_fxyy s) (i * alen ys + j)%Z = wxyy xs ys (m_data f) (m_data fx) (m_data fy) i j /\ afn (q2_fxxyy s) (i * alen ys + j)%Z = wxxyy xs ys (m_data f) (m_data fx) (m_data fy) i j }.
Lemma in9 (P : arr R -> Prop) a b c d e f g h k : P a -> P b -> P c -> P d -> P e -> P f -> P g -> P h -> P k -> forall z, List.In z (a :: b :: c :: d :: e :: f :: g :: h :: k :: nil) -> P z.
Proof. intros. cbn [List.In] in *. repeat match goal with H : _ \/ _ |- _ => destruct H as [<-|H]; [assumption|] end. contradiction. Qed.
Lemma quintic_mixed_built xs ys f fx fy m : grid xs -> grid ys -> table xs ys f -> table xs ys fx -> table xs ys fy -> table xs ys m ->
  exists s, quintic2dNew xs ys f fx fy (Some m) = Ok s /\ built_mixed xs ys f fx fy m s.
Proof.
  intros Gx Gy T Tx Ty Tm. unfold quintic2dNew. rewrite (check2d_ok xs ys f Gx Gy T). cbn [bind]. rewrite (sizes_ok xs ys fx Tx). cbn [bind]. rewrite (sizes_ok xs ys fy Ty). cbn [bind]. rewrite (sizes_ok xs ys m Tm). cbn [bind].
  destruct (mixed_ok xs ys (m_data f) (m_data fx) (m_data fy) (m_data m) Gx Gy (table_len _ _ _ Tx)) as (fxx & fyy & fxxy & fxyy & fxxyy & -> & L1 & L2 & L3 & L4 & L5 & V).
  eexists. split; [reflexivity|]. constructor; cbn [q2_x q2_y q2_f q2_fx q2_fy q2_fxx q2_fxy q2_fyy q2_fxxy q2_fxyy q2_fxxyy]; try reflexivity; try (intros i j Hi Hj; apply V; assumption).
  constructor; cbn [q2_x q2_y q2_f q2_fx q2_fy q2_fxx q2_fxy q2_fyy q2_fxxy q2_fxyy q2_fxxyy]; try reflexivity; try (intros i j Hi Hj; apply V; assumption).
  apply (in9 (fun a => alen a = (alen xs * alen ys)%Z)); try assumption; apply table_len; assumption.
Qed.
Lemma quintic_wout_built xs ys f fx fy : grid xs -> grid ys -> table xs ys f -> table xs ys fx -> table xs ys fy ->
  exists s, quintic2dNew xs ys f fx fy None = Ok s /\ built_wout xs ys f fx fy s.
Proof.
  intros Gx Gy T Tx Ty. unfold quintic2dNew. rewrite (check2d_ok xs ys f Gx Gy T). cbn [bind]. rewrite (sizes_ok xs ys fx Tx). cbn [bind]. rewrite (sizes_ok xs ys fy Ty). cbn [bind].
  destruct (wout_ok xs ys (m_data f) (m_data fx) (m_data fy) Gx Gy (table_len _ _ _ Tx)) as (fxx & fxy & fyy & fxxy & fxyy & fxxyy & -> & L1 & L2 & L3 & L4 & L5 & L6 & V).
  eexists. split; [reflexivity|]. constructor; cbn [q2_x q2_y q2_f q2_fx q2_fy q2_fxx q2_fxy q2_fyy q2_fxxy q2_fxyy q2_fxxyy].
  - constructor; cbn [q2_x q2_y q2_f q2_fx q2_fy q2_fxx q2_fxy q2_fyy q2_fxxy q2_fxyy q2_fxxyy]; try reflexivity; try (intros i j Hi Hj; apply V; assumption).
    apply (in9 (fun a => alen a = (alen xs * alen ys)%Z)); try assumption; apply table_len; assumption.
  - intros i j Hi Hj. destruct (V i j Hi Hj) as (_ & ? & _ & ? & ? & ?). auto.
Qed.
(** properties of a table of the mixed derivative, if it is given *)
Definition optional (mixed : option mat) (P : mat -> Prop) : Prop := match mixed with Some m => P m | None => True end.
Lemma quintic_built xs ys f fx fy mixed : grid xs -> grid ys -> table xs ys f -> table xs ys fx -> table xs ys fy -> optional mixed (table xs ys) ->
  exists s, quintic2dNew xs ys f fx fy mixed = Ok s /\ built xs ys f fx fy s /\ optional mixed (fun m => built_mixed xs ys f fx fy m s) /\ (mixed = None -> built_wout xs ys f fx fy s).
Proof.
  intros Gx Gy T Tx Ty Tm. destruct mixed as [m|].
  - destruct (quintic_mixed_built xs ys f fx fy m Gx Gy T Tx Ty Tm) as (s & E & B). exists s. split; [exact E|]. split; [apply B|]. split; [exact B|discriminate].
  - destruct (quintic_wout_built xs ys f fx fy Gx Gy T Tx Ty) as (s & E & B). exists s. split; [exact E|]. split; [apply B|]. split; [exact Logic.I|]. intros _. exact B.
Qed.
Lemma quintic_evaluates xs ys f fx fy s : grid xs -> grid ys -> built xs ys f fx fy s ->
  evaluates2 xs ys (quintic2dEval s) (Q2 s v_f v_f) (Q2 s v_d v_f) (Q2 s v_f v_d) (Q2 s v_d2 v_f) (Q2 s v_d v_d) (Q2 s v_f v_d2).
Proof. intros Gx Gy B. destruct B as [<- <- _ _ _ L _ _]. apply qui2d_eval; assumption. Qed.

(** QuinticSpline2d accepts exactly the grids with at least two strictly increasing nodes in each coordinate, and tables of values, first derivatives
    and (if given) mixed derivatives of the same size *)
Theorem C61_quintic_construct : forall xs ys f fx fy mixed, matrix f -> matrix fx -> matrix fy -> optional mixed matrix ->
  let valid := grid xs /\ grid ys /\ table xs ys f /\ table xs ys fx /\ table xs ys fy /\ optional mixed (table xs ys) in
  (valid -> exists s, quintic2dNew xs ys f fx fy mixed = Ok s) /\ (~ valid -> quintic2dNew xs ys f fx fy mixed = Throw).
Proof.
  intros xs ys f fx fy mixed M Mx My Mm. cbv zeta. split.
  - intros (Gx & Gy & T & Tx & Ty & Tm). destruct (quintic_built xs ys f fx fy mixed Gx Gy T Tx Ty Tm) as (s & E & _). exists s. exact E.
  - intros N. destruct (Classical_Prop.classic (grid xs /\ grid ys /\ table xs ys f)) as [(Gx & Gy & T)|N1].
    2:{ exact (proj2 (proj2 (proj2 (C61_construct xs ys f false None None None None M) N1)) fx fy mixed). }
    unfold quintic2dNew. rewrite (check2d_ok xs ys f Gx Gy T). cbn [bind].
    destruct (Classical_Prop.classic (table xs ys fx)) as [Tx|Nx]; [rewrite (sizes_ok _ _ _ Tx)|rewrite (sizes_bad _ _ _ Mx Nx); reflexivity]. cbn [bind].
    destruct (Classical_Prop.classic (table xs ys fy)) as [Ty|Ny]; [rewrite (sizes_ok _ _ _ Ty)|rewrite (sizes_bad _ _ _ My Ny); reflexivity]. cbn [bind].
    destruct mixed as [m|]; [|exfalso; apply N; cbn; auto 10]. rewrite (sizes_bad xs ys m Mm); [reflexivity|]. intros Tm. apply N. cbn. auto 10.
Qed.
(** QuinticSpline2d, with or without a table of the mixed derivative: the function has the given values and first derivatives (and the mixed ones,
    if they are given) at all nodes of the grid; all reported derivatives up to the second are the true ones everywhere inside the grid, including
    the grid lines; everything is NaN outside the definition region. *)
Theorem C61_quintic : forall xs ys f fx fy mixed, grid xs -> grid ys -> table xs ys f -> table xs ys fx -> table xs ys fy -> optional mixed (table xs ys) ->
  exists s F Fx Fy Fxx Fxy Fyy, quintic2dNew xs ys f fx fy mixed = Ok s /\ evaluates2 xs ys (quintic2dEval s) F Fx Fy Fxx Fxy Fyy /\
    sampled xs ys f F /\ sampled xs ys fx Fx /\ sampled xs ys fy Fy /\ optional mixed (fun m => sampled xs ys m Fxy) /\
    forall x y, interior xs ys x y -> partial_x F x y (Fx x y) /\ partial_y F x y (Fy x y) /\ partial_x Fx x y (Fxx x y) /\ partial_y Fx x y (Fxy x y) /\ partial_x Fy x y (Fxy x y) /\ partial_y Fy x y (Fyy x y).
Proof.
  intros xs ys f fx fy mixed Gx Gy T Tx Ty Tm. destruct (quintic_built xs ys f fx fy mixed Gx Gy T Tx Ty Tm) as (s & E & B & Bm & _).
  exists s. do 6 eexists. split; [exact E|]. split; [exact (quintic_evaluates xs ys f fx fy s Gx Gy B)|].
  destruct B as [Ex Ey Ef Efx Efy _ _ _]. assert (Hx : grid (q2_x s)) by (rewrite Ex; exact Gx). assert (Hy : grid (q2_y s)) by (rewrite Ey; exact Gy).
  assert (Nd : forall pry i j, (0 <= i < alen xs)%Z -> Q2 s v_f pry (afn xs i) (afn ys j) = r0 s pry (afn ys j) i /\ Q2 s v_d pry (afn xs i) (afn ys j) = r1 s pry (afn ys j) i).
  { intros pry i j Hi. rewrite <- Ex. apply Q2_xline; [exact Hx|rewrite Ex; exact Hi]. }
  assert (Rn : forall a b c i j, (0 <= j < alen ys)%Z -> rowQ (q2_y s) a b c v_f (afn ys j) i = afn a (i * alen ys + j)%Z /\ rowQ (q2_y s) a b c v_d (afn ys j) i = afn b (i * alen ys + j)%Z).
  { intros a b c i j Hj. rewrite <- Ey. apply rowQ_node; [exact Hy|rewrite Ey; exact Hj]. }
  split; [|split; [|split; [|split]]].
  - intros i j Hi Hj. rewrite (proj1 (Nd v_f i j Hi)). unfold r0. rewrite (proj1 (Rn _ _ _ i j Hj)), Ef. exact (table_at xs ys f i j T).
  - intros i j Hi Hj. rewrite (proj2 (Nd v_f i j Hi)). unfold r1. rewrite (proj1 (Rn _ _ _ i j Hj)), Efx. exact (table_at xs ys fx i j Tx).
  - intros i j Hi Hj. rewrite (proj1 (Nd v_d i j Hi)). unfold r0. rewrite (proj2 (Rn _ _ _ i j Hj)), Efy. exact (table_at xs ys fy i j Ty).
  - destruct mixed as [m|]; [|exact Logic.I]. cbn [optional] in *. intros i j Hi Hj. rewrite (proj2 (Nd v_d i j Hi)). unfold r1. rewrite (proj2 (Rn _ _ _ i j Hj)), (m_xy _ _ _ _ _ _ _ Bm). exact (table_at xs ys m i j Tm).
  - intros x y I. rewrite <- Ex, <- Ey in I. destruct I as [Ix Iy]. assert (Jx : x_first (q2_x s) <= x <= x_last (q2_x s)) by lra.
    unfold partial_x, partial_y. split; [apply Q2_px; exact Hx|]. split; [apply Q2_py; auto; left; reflexivity|]. split; [apply Q2_pxx; [exact Hx|exact Ix]|].
    split; [apply Q2_py; auto; right; left; reflexivity|]. split; [apply Q2_px; exact Hx|]. apply Q2_pyy; auto; left; reflexivity.
Qed.
(** On the grid lines the interpolator coincides with the one-dimensional quintic spline for the given row or column of the values and the derivatives
    along the line; and if the mixed derivatives are given, then the derivative across the line is the one-dimensional quintic spline for
    the given row or column of this derivative and the mixed one. *)
Theorem C61_quintic_lines : forall xs ys f fx fy mixed, grid xs -> grid ys -> table xs ys f -> table xs ys fx -> table xs ys fy -> optional mixed (table xs ys) ->
  exists s, quintic2dNew xs ys f fx fy mixed = Ok s /\
    (forall i, (0 <= i < alen xs)%Z -> exists r G G1 G2 G3 H H1, quinticNew ys (row ys f i) (row ys fy i) = Ok r /\ evaluates (quinticEval r) G G1 G2 G3 /\
       optional mixed (fun m => exists q H2 H3, quinticNew ys (row ys fx i) (row ys m i) = Ok q /\ evaluates (quinticEval q) H H1 H2 H3) /\
       forall y, x_first ys <= y <= x_last ys -> exists zxx, quintic2dEval s (afn xs i) y = Ok (Some (G y, H y, G1 y), Some (zxx, H1 y, G2 y))) /\
    (forall j, (0 <= j < alen ys)%Z -> exists c G G1 G2 G3 H H1, quinticNew xs (column xs f j) (column xs fx j) = Ok c /\ evaluates (quinticEval c) G G1 G2 G3 /\
       optional mixed (fun m => exists q H2 H3, quinticNew xs (column xs fy j) (column xs m j) = Ok q /\ evaluates (quinticEval q) H H1 H2 H3) /\
       forall x, x_first xs <= x <= x_last xs -> exists zyy, quintic2dEval s x (afn ys j) = Ok (Some (G x, G1 x, H x), Some (G2 x, H1 x, zyy))).
Proof.
  intros xs ys f fx fy mixed Gx Gy T Tx Ty Tm. destruct (quintic_built xs ys f fx fy mixed Gx Gy T Tx Ty Tm) as (s & E & B & Bm & _).
  exists s. split; [exact E|]. pose proof (proj1 (quintic_evaluates xs ys f fx fy s Gx Gy B)) as Ev.
  destruct B as [Ex Ey Ef Efx Efy _ Vxx Vyy]. assert (Hx : grid (q2_x s)) by (rewrite Ex; exact Gx). assert (Hy : grid (q2_y s)) by (rewrite Ey; exact Gy).
  assert (Qe : forall x a b, grid x -> alen a = alen x -> alen b = alen x -> quinticNew x a b = Ok (mkQui x a b (qsl x a b)) /\
    evaluates (quinticEval (mkQui x a b (qsl x a b))) (Fp x (qpiece x a b (qsl x a b)) v_f) (Fp x (qpiece x a b (qsl x a b)) v_d) (Fp x (qpiece x a b (qsl x a b)) v_d2) (Fp x (qpiece x a b (qsl x a b)) v_d3)).
  { intros x a b G La Lb. split; [apply quinticNew_qsl; assumption|]. apply (qui_evaluates x a b (qsl x a b) (proj1 G) (grid_len x G)); try assumption. apply qsl_ok; assumption. }
  assert (Rw : forall m i, table xs ys m -> row ys m i = rowof (m_data m) (alen ys) i).
  { intros m i (_ & _ & C). unfold row, rowof, at2. rewrite C. reflexivity. }
  assert (Cw : forall m j, table xs ys m -> column xs m j = colof (m_data m) (alen xs) (alen ys) j).
  { intros m i (_ & _ & C). unfold column, colof, at2. rewrite C. reflexivity. }
  split.
  - intros i Hi. rewrite (Rw f i T), (Rw fy i Ty), (Rw fx i Tx). destruct (Qe ys (rowof (m_data f) (alen ys) i) (rowof (m_data fy) (alen ys) i) Gy eq_refl eq_refl) as [Q1 Q1'].
    eexists. do 4 eexists. exists (fun y => r1 s v_f y i), (fun y => r1 s v_d y i). split; [exact Q1|]. split; [exact Q1'|]. split.
    + destruct mixed as [m|]; [|exact Logic.I]. cbn [optional] in *. rewrite (Rw m i Tm). destruct (Qe ys (rowof (m_data fx) (alen ys) i) (rowof (m_data m) (alen ys) i) Gy eq_refl eq_refl) as [Q2a Q2b].
      exists (mkQui ys (rowof (m_data fx) (alen ys) i) (rowof (m_data m) (alen ys) i) (qsl ys (rowof (m_data fx) (alen ys) i) (rowof (m_data m) (alen ys) i))). do 2 eexists. split; [exact Q2a|].
      assert (Eq : forall pr t, r1 s pr t i = Fp ys (qpiece ys (rowof (m_data fx) (alen ys) i) (rowof (m_data m) (alen ys) i) (qsl ys (rowof (m_data fx) (alen ys) i) (rowof (m_data m) (alen ys) i))) pr t).
      { intros pr t. unfold r1, rowQ. rewrite Ey, Efx, (m_xy _ _ _ _ _ _ _ Bm). apply (qF_ext ys _ _ _ _ _ _ pr t Gy); intros j Hj; try reflexivity. cbn [rowof afn]. apply (m_xyy _ _ _ _ _ _ _ Bm); assumption. }
      intros t. rewrite !Eq. apply Q2b.
    + intros y Hy'. rewrite (Ev (afn xs i) y (conj (node_in xs i Gx Hi) Hy')). eexists.
      assert (Eq : forall pr, Q2 s v_f pr (afn xs i) y = Fp ys (qpiece ys (rowof (m_data f) (alen ys) i) (rowof (m_data fy) (alen ys) i) (qsl ys (rowof (m_data f) (alen ys) i) (rowof (m_data fy) (alen ys) i))) pr y /\ Q2 s v_d pr (afn xs i) y = r1 s pr y i).
      { intros pr. destruct (Q2_xline s Hx pr y i ltac:(rewrite Ex; exact Hi)) as [X1 X2]. rewrite Ex in X1, X2. rewrite X1, X2. split; [|reflexivity]. unfold r0, rowQ. rewrite Ey, Ef, Efy.
        apply (qF_ext ys _ _ _ _ _ _ pr y Gy); intros j Hj; try reflexivity. cbn [rowof afn]. apply Vyy; assumption. }
      rewrite !(proj1 (Eq _)), !(proj2 (Eq _)). reflexivity.
  - intros j Hj. rewrite (Cw f j T), (Cw fy j Ty), (Cw fx j Tx). destruct (Qe xs (colof (m_data f) (alen xs) (alen ys) j) (colof (m_data fx) (alen xs) (alen ys) j) Gx eq_refl eq_refl) as [Q1 Q1'].
    eexists. do 4 eexists. exists (fun x => Q2 s v_f v_d x (afn ys j)), (fun x => Q2 s v_d v_d x (afn ys j)). split; [exact Q1|]. split; [exact Q1'|].
    assert (Hj' : (0 <= j < alen (q2_y s))%Z) by (rewrite Ey; exact Hj). pose proof (fun pr x => Q2_yline s Hx Hy pr x j Hj') as Yl. cbv zeta in Yl. rewrite Ex, Ey, Ef, Efx, Efy in Yl. split.
    + destruct mixed as [m|]; [|exact Logic.I]. cbn [optional] in *. rewrite (Cw m j Tm). destruct (Qe xs (colof (m_data fy) (alen xs) (alen ys) j) (colof (m_data m) (alen xs) (alen ys) j) Gx eq_refl eq_refl) as [Q2a Q2b].
      exists (mkQui xs (colof (m_data fy) (alen xs) (alen ys) j) (colof (m_data m) (alen xs) (alen ys) j) (qsl xs (colof (m_data fy) (alen xs) (alen ys) j) (colof (m_data m) (alen xs) (alen ys) j))). do 2 eexists. split; [exact Q2a|].
      assert (Eq : forall pr t, Q2 s pr v_d t (afn ys j) = Fp xs (qpiece xs (colof (m_data fy) (alen xs) (alen ys) j) (colof (m_data m) (alen xs) (alen ys) j) (qsl xs (colof (m_data fy) (alen xs) (alen ys) j) (colof (m_data m) (alen xs) (alen ys) j))) pr t).
      { intros pr t. rewrite (proj2 (Yl pr t)), (m_xy _ _ _ _ _ _ _ Bm). apply (qF_ext xs _ _ _ _ _ _ pr t Gx); intros i Hi; try reflexivity. cbn [colof afn]. apply (m_xxy _ _ _ _ _ _ _ Bm); assumption. }
      intros t. rewrite !Eq. apply Q2b.
    + intros x Hx'. rewrite (Ev x (afn ys j) (conj Hx' (node_in ys j Gy Hj))). eexists.
      assert (Eq : forall pr, Q2 s pr v_f x (afn ys j) = Fp xs (qpiece xs (colof (m_data f) (alen xs) (alen ys) j) (colof (m_data fx) (alen xs) (alen ys) j) (qsl xs (colof (m_data f) (alen xs) (alen ys) j) (colof (m_data fx) (alen xs) (alen ys) j))) pr x).
      { intros pr. rewrite (proj1 (Yl pr x)). apply (qF_ext xs _ _ _ _ _ _ pr x Gx); intros i Hi; try reflexivity. cbn [colof afn]. apply Vxx; assumption. }
      rewrite !Eq. reflexivity.
Qed.
(** The interpolator with given mixed derivatives is exact for polynomials of degree three in each variable, with all derivatives. *)
Theorem C61_quintic_bicubic : forall xs ys f fx fy m c, grid xs -> grid ys -> table xs ys f -> table xs ys fx -> table xs ys fy -> table xs ys m ->
  sampled xs ys f (fun x y => poly3 (fun k => poly3 (c k) y) x) -> sampled xs ys fx (fun x y => dpoly3 (fun k => poly3 (c k) y) x) ->
  sampled xs ys fy (fun x y => poly3 (fun k => dpoly3 (c k) y) x) -> sampled xs ys m (fun x y => dpoly3 (fun k => dpoly3 (c k) y) x) ->
  exists s, quintic2dNew xs ys f fx fy (Some m) = Ok s /\ forall x y, inside xs ys x y ->
    quintic2dEval s x y = Ok (Some (poly3 (fun k => poly3 (c k) y) x, dpoly3 (fun k => poly3 (c k) y) x, poly3 (fun k => dpoly3 (c k) y) x),
                              Some (ddpoly3 (fun k => poly3 (c k) y) x, dpoly3 (fun k => dpoly3 (c k) y) x, poly3 (fun k => ddpoly3 (c k) y) x)).
Proof.
  intros xs ys f fx fy m c Gx Gy T Tx Ty Tm S0 S1 S2 S3. destruct (quintic_mixed_built xs ys f fx fy m Gx Gy T Tx Ty Tm) as (s & E & B). exists s. split; [exact E|].
  destruct B as [B Exy Vxxy Vxyy Vxxyy]. pose proof (quintic_evaluates xs ys f fx fy s Gx Gy B) as [Ev _]. destruct B as [Ex Ey Ef Efx Efy _ Vxx Vyy].
  intros x y I. rewrite (Ev x y I). assert (Hx : grid (q2_x s)) by (rewrite Ex; exact Gx). assert (Hy : grid (q2_y s)) by (rewrite Ey; exact Gy). rewrite <- Ex, <- Ey in I.
  assert (A00 : forall i j, (0 <= i < alen xs)%Z -> (0 <= j < alen ys)%Z -> afn (m_data f) (i * alen ys + j)%Z = poly3 (fun k => poly3 (c k) (afn ys j)) (afn xs i)) by (intros i j Hi Hj; rewrite <- (table_at xs ys f i j T); apply S0; assumption).
  assert (A10 : forall i j, (0 <= i < alen xs)%Z -> (0 <= j < alen ys)%Z -> afn (m_data fx) (i * alen ys + j)%Z = dpoly3 (fun k => poly3 (c k) (afn ys j)) (afn xs i)) by (intros i j Hi Hj; rewrite <- (table_at xs ys fx i j Tx); apply S1; assumption).
  assert (A01 : forall i j, (0 <= i < alen xs)%Z -> (0 <= j < alen ys)%Z -> afn (m_data fy) (i * alen ys + j)%Z = poly3 (fun k => dpoly3 (c k) (afn ys j)) (afn xs i)) by (intros i j Hi Hj; rewrite <- (table_at xs ys fy i j Ty); apply S2; assumption).
  assert (A11 : forall i j, (0 <= i < alen xs)%Z -> (0 <= j < alen ys)%Z -> afn (m_data m) (i * alen ys + j)%Z = dpoly3 (fun k => dpoly3 (c k) (afn ys j)) (afn xs i)) by (intros i j Hi Hj; rewrite <- (table_at xs ys m i j Tm); apply S3; assumption).
  assert (A20 : forall i j, (0 <= i < alen xs)%Z -> (0 <= j < alen ys)%Z -> afn (q2_fxx s) (i * alen ys + j)%Z = ddpoly3 (fun k => poly3 (c k) (afn ys j)) (afn xs i)).
  { intros i j Hi Hj. rewrite Vxx by assumption. apply (qsl_cubic xs (colof (m_data f) (alen xs) (alen ys) j) (colof (m_data fx) (alen xs) (alen ys) j) _ Gx eq_refl eq_refl); [| |exact Hi]; intros k Hk; cbn [colof afn]; auto. }
  assert (A21 : forall i j, (0 <= i < alen xs)%Z -> (0 <= j < alen ys)%Z -> afn (q2_fxxy s) (i * alen ys + j)%Z = ddpoly3 (fun k => dpoly3 (c k) (afn ys j)) (afn xs i)).
  { intros i j Hi Hj. rewrite Vxxy by assumption. apply (qsl_cubic xs (colof (m_data fy) (alen xs) (alen ys) j) (colof (m_data m) (alen xs) (alen ys) j) _ Gx eq_refl eq_refl); [| |exact Hi]; intros k Hk; cbn [colof afn]; auto. }
  assert (Cm : forall pr1 op1 pr2 op2 u v, pop pr1 op1 -> pop pr2 op2 -> op1 (fun k => op2 (c k) v) u = op2 (fun l => op1 (fun k => c k l) u) v) by (intros; eapply commute; eassumption).
  assert (A02 : forall i j, (0 <= i < alen xs)%Z -> (0 <= j < alen ys)%Z -> afn (q2_fyy s) (i * alen ys + j)%Z = poly3 (fun k => ddpoly3 (c k) (afn ys j)) (afn xs i)).
  { intros i j Hi Hj. rewrite Vyy by assumption. rewrite (Cm _ _ _ _ _ _ pop_f pop_d2). apply (qsl_cubic ys (rowof (m_data f) (alen ys) i) (rowof (m_data fy) (alen ys) i) _ Gy eq_refl eq_refl); [| |exact Hj]; intros k Hk; cbn [rowof afn]; rewrite ?A00, ?A01 by assumption.
    - apply (Cm _ _ _ _ _ _ pop_f pop_f). - apply (Cm _ _ _ _ _ _ pop_f pop_d). }
  assert (A12 : forall i j, (0 <= i < alen xs)%Z -> (0 <= j < alen ys)%Z -> afn (q2_fxyy s) (i * alen ys + j)%Z = dpoly3 (fun k => ddpoly3 (c k) (afn ys j)) (afn xs i)).
  { intros i j Hi Hj. rewrite Vxyy by assumption. rewrite (Cm _ _ _ _ _ _ pop_d pop_d2). apply (qsl_cubic ys (rowof (m_data fx) (alen ys) i) (rowof (m_data m) (alen ys) i) _ Gy eq_refl eq_refl); [| |exact Hj]; intros k Hk; cbn [rowof afn]; rewrite ?A10, ?A11 by assumption.
    - apply (Cm _ _ _ _ _ _ pop_d pop_f). - apply (Cm _ _ _ _ _ _ pop_d pop_d). }
  assert (A22 : forall i j, (0 <= i < alen xs)%Z -> (0 <= j < alen ys)%Z -> afn (q2_fxxyy s) (i * alen ys + j)%Z = ddpoly3 (fun k => ddpoly3 (c k) (afn ys j)) (afn xs i)).
  { intros i j Hi Hj. rewrite Vxxyy by assumption. rewrite (Cm _ _ _ _ _ _ pop_d2 pop_d2). apply (qsl_cubic ys (rowof (q2_fxx s) (alen ys) i) (rowof (q2_fxxy s) (alen ys) i) _ Gy eq_refl eq_refl); [| |exact Hj]; intros k Hk; cbn [rowof afn]; rewrite ?A20, ?A21 by assumption.
    - apply (Cm _ _ _ _ _ _ pop_d2 pop_f). - apply (Cm _ _ _ _ _ _ pop_d2 pop_d). }
  rewrite <- Ex, <- Ey in A00, A10, A01, A11, A20, A21, A02, A12, A22. rewrite <- Ef in A00. rewrite <- Efx in A10. rewrite <- Efy in A01. rewrite <- Exy in A11.
  pose proof (fun prx ox pry oy => Q2_bic s c Hx Hy A00 A10 A01 A20 A11 A02 A21 A12 A22 prx ox pry oy x y) as Q.
  rewrite !(fun pr op P => Q _ _ pr op P) || idtac.
  rewrite (Q v_f poly3 v_f poly3 pop_f pop_f I), (Q v_d dpoly3 v_f poly3 pop_d pop_f I), (Q v_f poly3 v_d dpoly3 pop_f pop_d I), (Q v_d2 ddpoly3 v_f poly3 pop_d2 pop_f I), (Q v_d dpoly3 v_d dpoly3 pop_d pop_d I), (Q v_f poly3 v_d2 ddpoly3 pop_f pop_d2 I). reflexivity.
Qed.
(** Without the table of mixed derivatives, the interpolator is exact for a sum of polynomials of degree three in each variable and the product of the coordinates. *)
Theorem C61_quintic_separable : forall xs ys f fx fy p q k, grid xs -> grid ys -> table xs ys f -> table xs ys fx -> table xs ys fy ->
  sampled xs ys f (fun x y => poly3 p x + poly3 q y + k * x * y) -> sampled xs ys fx (fun x y => dpoly3 p x + k * y) -> sampled xs ys fy (fun x y => dpoly3 q y + k * x) ->
  exists s, quintic2dNew xs ys f fx fy None = Ok s /\ forall x y, inside xs ys x y ->
    quintic2dEval s x y = Ok (Some (poly3 p x + poly3 q y + k * x * y, dpoly3 p x + k * y, dpoly3 q y + k * x), Some (ddpoly3 p x, k, ddpoly3 q y)).
Proof.
  intros xs ys f fx fy p q k Gx Gy T Tx Ty S0 S1 S2. destruct (quintic_wout_built xs ys f fx fy Gx Gy T Tx Ty) as (s & E & B). exists s. split; [exact E|].
  destruct B as [B V]. pose proof (quintic_evaluates xs ys f fx fy s Gx Gy B) as [Ev _]. destruct B as [Ex Ey Ef Efx Efy _ Vxx Vyy].
  intros x y I. rewrite (Ev x y I). assert (Hx : grid (q2_x s)) by (rewrite Ex; exact Gx). assert (Hy : grid (q2_y s)) by (rewrite Ey; exact Gy). rewrite <- Ex, <- Ey in I.
  assert (A0 : forall i j, (0 <= i < alen xs)%Z -> (0 <= j < alen ys)%Z -> afn (m_data f) (i * alen ys + j)%Z = poly3 p (afn xs i) + poly3 q (afn ys j) + k * afn xs i * afn ys j) by (intros i j Hi Hj; rewrite <- (table_at xs ys f i j T); apply S0; assumption).
  assert (A1 : forall i j, (0 <= i < alen xs)%Z -> (0 <= j < alen ys)%Z -> afn (m_data fx) (i * alen ys + j)%Z = dpoly3 p (afn xs i) + k * afn ys j) by (intros i j Hi Hj; rewrite <- (table_at xs ys fx i j Tx); apply S1; assumption).
  assert (A2 : forall i j, (0 <= i < alen xs)%Z -> (0 <= j < alen ys)%Z -> afn (m_data fy) (i * alen ys + j)%Z = dpoly3 q (afn ys j) + k * afn xs i) by (intros i j Hi Hj; rewrite <- (table_at xs ys fy i j Ty); apply S2; assumption).
  set (c := fun a b : Z => (if (b =? 0)%Z then p a else 0) + (if (a =? 0)%Z then q b else 0) + (if ((a =? 1) && (b =? 1))%Z%bool then k else 0)).
  assert (Ex0 : forall u v, poly3 (fun a => poly3 (c a) v) u = poly3 p u + poly3 q v + k * u * v) by (intros; unfold c, poly3; cbn; ring).
  assert (Ex1 : forall u v, dpoly3 (fun a => poly3 (c a) v) u = dpoly3 p u + k * v) by (intros; unfold c, poly3, dpoly3; cbn; ring).
  assert (Ex2 : forall u v, poly3 (fun a => dpoly3 (c a) v) u = dpoly3 q v + k * u) by (intros; unfold c, poly3, dpoly3; cbn; ring).
  assert (Ex3 : forall u v, ddpoly3 (fun a => poly3 (c a) v) u = ddpoly3 p u) by (intros; unfold c, poly3, ddpoly3; cbn; ring).
  assert (Ex4 : forall u v, dpoly3 (fun a => dpoly3 (c a) v) u = k) by (intros; unfold c, dpoly3; cbn; ring).
  assert (Ex5 : forall u v, poly3 (fun a => ddpoly3 (c a) v) u = ddpoly3 q v) by (intros; unfold c, poly3, ddpoly3; cbn; ring).
  assert (Ex6 : forall u v, ddpoly3 (fun a => dpoly3 (c a) v) u = 0) by (intros; unfold c, dpoly3, ddpoly3; cbn; ring).
  assert (Ex7 : forall u v, dpoly3 (fun a => ddpoly3 (c a) v) u = 0) by (intros; unfold c, dpoly3, ddpoly3; cbn; ring).
  assert (Ex8 : forall u v, ddpoly3 (fun a => ddpoly3 (c a) v) u = 0) by (intros; unfold c, ddpoly3; cbn; ring).
  pose proof (sum_wxx xs ys (m_data f) (m_data fx) Gx p q k A0 A1) as Wx. pose proof (sum_wyy xs ys (m_data f) (m_data fy) Gy p q k A0 A2) as Wy. pose proof (sum_mixed xs ys (m_data f) (m_data fx) (m_data fy) Gx Gy p q k A0 A1 A2) as Wm.
  assert (Q : forall prx ox pry oy, pop prx ox -> pop pry oy -> Q2 s prx pry x y = ox (fun a => oy (c a) y) x).
  { intros prx ox pry oy Px Py. apply (Q2_bic s c Hx Hy); try assumption; rewrite ?Ex, ?Ey, ?Ef, ?Efx, ?Efy; intros i j Hi Hj; cbv beta; rewrite ?Ex0, ?Ex1, ?Ex2, ?Ex3, ?Ex4, ?Ex5, ?Ex6, ?Ex7, ?Ex8; auto;
      destruct (V i j Hi Hj) as (V1 & V2 & V3 & V4); destruct (Wm i j Hi Hj) as (W1 & W2 & W3 & W4); try congruence; try (rewrite Vxx by assumption; apply Wx; assumption); rewrite Vyy by assumption; apply Wy; assumption. }
  rewrite (Q v_f poly3 v_f poly3 pop_f pop_f), (Q v_d dpoly3 v_f poly3 pop_d pop_f), (Q v_f poly3 v_d dpoly3 pop_f pop_d), (Q v_d2 ddpoly3 v_f poly3 pop_d2 pop_f), (Q v_d dpoly3 v_d dpoly3 pop_d pop_d), (Q v_f poly3 v_d2 ddpoly3 pop_f pop_d2).
  rewrite Ex0, Ex1, Ex2, Ex3, Ex4, Ex5. reflexivity.
Qed.
(** Without the table of mixed derivatives: if df/dy is zero at all nodes of a line y=y_j, then it is zero along the entire line; and the same
    for df/dx along the two sides x=const of the rectangle. *)
Theorem C61_quintic_flat : forall xs ys f fx fy, grid xs -> grid ys -> table xs ys f -> table xs ys fx -> table xs ys fy ->
  exists s F Fx Fy Fxx Fxy Fyy, quintic2dNew xs ys f fx fy None = Ok s /\ evaluates2 xs ys (quintic2dEval s) F Fx Fy Fxx Fxy Fyy /\
    (forall j, (0 <= j < alen ys)%Z -> (forall i, (0 <= i < alen xs)%Z -> at2 fy i j = 0) -> forall x, x_first xs <= x <= x_last xs -> Fy x (afn ys j) = 0) /\
    (forall i, i = 0%Z \/ i = (alen xs - 1)%Z -> (forall j, (0 <= j < alen ys)%Z -> at2 fx i j = 0) -> forall y, x_first ys <= y <= x_last ys -> Fx (afn xs i) y = 0).
Proof.
  intros xs ys f fx fy Gx Gy T Tx Ty. destruct (quintic_wout_built xs ys f fx fy Gx Gy T Tx Ty) as (s & E & B). exists s. do 6 eexists. split; [exact E|].
  destruct B as [B V]. split; [exact (quintic_evaluates xs ys f fx fy s Gx Gy B)|]. destruct B as [Ex Ey Ef Efx Efy _ Vxx Vyy].
  assert (Hx : grid (q2_x s)) by (rewrite Ex; exact Gx). assert (Hy : grid (q2_y s)) by (rewrite Ey; exact Gy).
  assert (Zr : forall x a b d pr op t, grid x -> pop pr op -> x_first x <= t <= x_last x -> (forall i, (0 <= i < alen x)%Z -> afn a i = 0 /\ afn b i = 0 /\ afn d i = 0) -> Fp x (qpiece x a b d) pr t = 0).
  { intros x a b d pr op t G P Ht A. rewrite (qF_cubic x a b d (fun _ => 0) pr op t G P Ht); [destruct P as [[_ ->]|[[_ ->]|[_ ->]]]; unfold poly3, dpoly3, ddpoly3; ring|].
    intros i Hi. destruct (A i Hi) as (-> & -> & ->). unfold poly3, dpoly3, ddpoly3. repeat split; ring. }
  split.
  - intros j Hj Z0 x Ix. assert (Hj' : (0 <= j < alen (q2_y s))%Z) by (rewrite Ey; exact Hj). pose proof (proj2 (Q2_yline s Hx Hy v_f x j Hj')) as Yl. cbv zeta in Yl. rewrite Ex, Ey, Efy in Yl. rewrite Yl.
    apply (Zr xs _ _ _ v_f poly3 x Gx pop_f Ix). intros i Hi. cbn [colof afn]. destruct (V i j Hi Hj) as (-> & -> & _).
    assert (Zy : forall k, (0 <= k < alen xs)%Z -> afn (m_data fy) (k * alen ys + j)%Z = 0) by (intros k Hk; rewrite <- (table_at xs ys fy k j Ty); apply Z0; exact Hk).
    split; [apply Zy; exact Hi|]. apply flat_y; assumption.
  - intros i Ei Z0 y Iy. assert (Hi : (0 <= i < alen xs)%Z) by (pose proof (proj2 Gx); lia). pose proof (proj2 (Q2_xline s Hx v_f y i ltac:(rewrite Ex; exact Hi))) as Xl. rewrite Ex in Xl. rewrite Xl. unfold r1, rowQ. rewrite Ey, Efx.
    apply (Zr ys _ _ _ v_f poly3 y Gy pop_f Iy). intros j Hj. cbn [rowof afn]. destruct (V i j Hi Hj) as (-> & _ & -> & _).
    assert (Zx : forall k, (0 <= k < alen ys)%Z -> afn (m_data fx) (i * alen ys + k)%Z = 0) by (intros k Hk; rewrite <- (table_at xs ys fx i k Tx); apply Z0; exact Hk).
    assert (Eg : edge (alen xs) i = true) by (unfold edge; destruct Ei as [-> | ->]; rewrite Z.eqb_refl; [reflexivity|apply orb_true_r]).
    split; [apply Zx; exact Hj|]. exact (flat_x xs ys (m_data f) (m_data fx) (m_data fy) Gy i j Hi Hj Eg Zx).
Qed.
(** Without the table of mixed derivatives, they are estimated at the nodes from the one-dimensional natural cubic splines for df/dy along the lines
    y=const and for df/dx along the lines x=const: the former on the interior of the sides y=const of the rectangle, the latter on the interior of the
    sides x=const, and the average of the two elsewhere, unless one of the two first derivatives is zero along the entire line. *)
Definition border (n i : Z) : Prop := i = 0%Z \/ i = (n - 1)%Z.
Theorem C61_quintic_estimate : forall xs ys f fx fy, grid xs -> grid ys -> table xs ys f -> table xs ys fx -> table xs ys fy ->
  exists s F Fx Fy Fxx Fxy Fyy, quintic2dNew xs ys f fx fy None = Ok s /\ evaluates2 xs ys (quintic2dEval s) F Fx Fy Fxx Fxy Fyy /\
    forall i j, (0 <= i < alen xs)%Z -> (0 <= j < alen ys)%Z ->
      exists sx A A1 A2 A3 sy B B1 B2 B3, cubicNew xs (column xs fy j) false None None = Ok sx /\ evaluates (cubicEval sx) A A1 A2 A3 /\
        cubicNew ys (row ys fx i) false None None = Ok sy /\ evaluates (cubicEval sy) B B1 B2 B3 /\
        let z := Fxy (afn xs i) (afn ys j) in let zero := (forall k, (0 <= k < alen xs)%Z -> at2 fy k j = 0) \/ (forall k, (0 <= k < alen ys)%Z -> at2 fx i k = 0) in
        (border (alen ys) j -> ~ border (alen xs) i -> z = A1 (afn xs i)) /\
        (border (alen xs) i -> ~ border (alen ys) j -> ~ zero -> z = B1 (afn ys j)) /\
        ((border (alen xs) i <-> border (alen ys) j) -> ~ zero -> z = (A1 (afn xs i) + B1 (afn ys j)) / 2) /\
        (border (alen xs) i \/ ~ border (alen ys) j -> zero -> z = 0).
Proof.
  intros xs ys f fx fy Gx Gy T Tx Ty. destruct (quintic_wout_built xs ys f fx fy Gx Gy T Tx Ty) as (s & E & B). exists s. do 6 eexists. split; [exact E|].
  destruct B as [B V]. split; [exact (quintic_evaluates xs ys f fx fy s Gx Gy B)|]. destruct B as [Ex Ey Ef Efx Efy _ Vxx Vyy].
  assert (Hx : grid (q2_x s)) by (rewrite Ex; exact Gx). assert (Hy : grid (q2_y s)) by (rewrite Ey; exact Gy). intros i j Hi Hj.
  assert (Cn : forall x g, grid x -> alen g = alen x -> cubicNew x g false None None = Ok (mkCub x g (nslp x g)) /\ evaluates (cubicEval (mkCub x g (nslp x g))) (cF x g (nslp x g)) (cF1 x g (nslp x g)) (cF2 x g (nslp x g)) (cF3 x g (nslp x g)) /\
    forall k, (0 <= k < alen x)%Z -> cF1 x g (nslp x g) (afn x k) = afn (nslp x g) k).
  { intros x g G Lg. split; [exact (cubicNew_slp false x g None None G Lg)|]. pose proof (proj2 (nslp_ok x g G Lg)) as Ld. split; [apply (cub_evaluates x g (nslp x g) (proj1 G) (grid_len x G) Lg Ld)|].
    intros k Hk. apply (cub_node x g (nslp x g) (proj1 G) (grid_len x G) k Hk). }
  assert (Rw : row ys fx i = rowof (m_data fx) (alen ys) i) by (unfold row, rowof, at2; destruct Tx as (_ & _ & ->); reflexivity).
  assert (Cw : column xs fy j = colof (m_data fy) (alen xs) (alen ys) j) by (unfold column, colof, at2; destruct Ty as (_ & _ & ->); reflexivity).
  destruct (Cn xs (column xs fy j) Gx eq_refl) as (C1 & C2 & C3). destruct (Cn ys (row ys fx i) Gy eq_refl) as (D1 & D2 & D3).
  do 10 eexists. split; [exact C1|]. split; [exact C2|]. split; [exact D1|]. split; [exact D2|]. rewrite (C3 i Hi), (D3 j Hj), Rw, Cw. clear C1 C2 C3 D1 D2 D3 Cn.
  assert (Ez : Q2 s v_d v_d (afn xs i) (afn ys j) = wxy xs ys (m_data fx) (m_data fy) i j).
  { pose proof (proj2 (Q2_xline s Hx v_d (afn ys j) i ltac:(rewrite Ex; exact Hi))) as Xl. rewrite Ex in Xl. rewrite Xl. unfold r1.
    pose proof (proj2 (rowQ_node s Hy (q2_fx s) (q2_fxy s) (q2_fxyy s) j i ltac:(rewrite Ey; exact Hj))) as Rn. rewrite Ey in Rn |- *. rewrite Rn. apply V; assumption. }
  cbv zeta. rewrite Ez. unfold wxy. rewrite (f2_slope ys (m_data fx) Gy i j Hj). unfold f1. unfold ty, tx.
  assert (Be : forall n k, edge n k = true <-> border n k) by (intros n k; unfold edge, border; rewrite orb_true_iff, !Z.eqb_eq; reflexivity).
  assert (Fz : (fxz ys (m_data fx) i || fyz xs ys (m_data fy) j)%bool = true <-> (forall k, (0 <= k < alen xs)%Z -> at2 fy k j = 0) \/ (forall k, (0 <= k < alen ys)%Z -> at2 fx i k = 0)).
  { unfold fxz, fyz. rewrite orb_true_iff, !allzero_spec. cbn [tx ty rowof colof alen afn]. split.
    - intros [Q|Q]; [right|left]; intros k Hk; [rewrite (table_at xs ys fx i k Tx)|rewrite (table_at xs ys fy k j Ty)]; apply Q; exact Hk.
    - intros [Q|Q]; [right|left]; intros k Hk; [rewrite <- (table_at xs ys fy k j Ty)|rewrite <- (table_at xs ys fx i k Tx)]; apply Q; exact Hk. }
  pose proof (Be (alen xs) i) as Bi. pose proof (Be (alen ys) j) as Bj. assert (D : 0.5 = / 2) by lra. rewrite D.
  set (a := afn (nslp xs (colof (m_data fy) (alen xs) (alen ys) j)) i). set (b := afn (nslp ys (rowof (m_data fx) (alen ys) i)) j). clearbody a b.
  destruct (edge (alen xs) i), (edge (alen ys) j), (fxz ys (m_data fx) i || fyz xs ys (m_data fy) j)%bool; cbn [andb orb negb]; split; [|split; [|split]| |split; [|split]| |split; [|split]| |split; [|split]| |split; [|split]| |split; [|split]| |split; [|split]| |split; [|split]];
    intros; try reflexivity; try field; try (exfalso; intuition congruence).
Qed.
(** The code intends (comment at lines 2384-2386 of math_spline.cpp) that if df/dx is zero at all nodes of a line x=x_i, then the mixed derivative is zero along this line.
    This is not so for the interior lines: for f(x,y)=x^3 y at the nodes x=-1,0,2 and y=0,1, df/dx is zero along the line x=0, but the interpolator
    has mixed derivative 2 at the origin, and df/dx=75/256 at (0,1/4). *)
Definition exq_x : arr R := mkArr 3 (fun i => if (i =? 0)%Z then -1 else if (i =? 1)%Z then 0 else 2).
Definition exq_y : arr R := mkArr 2 (fun i => if (i =? 0)%Z then 0 else 1).
Definition exq (g : R -> R -> R) : mat := mkMat 3 2 (mkArr 6 (fun k => g (afn exq_x (k / 2)%Z) (afn exq_y (k mod 2)%Z))).
Lemma exq_gx : grid exq_x.
Proof. split; [|cbn; lia]. intros i j Hi Hj. cbn in *. assert (i = 0 \/ i = 1)%Z as [-> | ->] by lia; assert (j = 1 \/ j = 2)%Z as [-> | ->] by lia; cbn; try lra; lia. Qed.
Lemma exq_gy : grid exq_y.
Proof. split; [|cbn; lia]. intros i j Hi Hj. cbn in *. assert (i = 0 /\ j = 1)%Z as [-> ->] by lia. cbn. lra. Qed.
Lemma exq_table g : table exq_x exq_y (exq g).
Proof. repeat split; cbn; lia. Qed.
Lemma exq_sampled g : sampled exq_x exq_y (exq g) g.
Proof. intros i j Hi Hj. cbn [alen exq_x exq_y] in *. unfold at2. cbn [m_cols m_data exq afn]. rewrite idx_div, idx_mod by lia. reflexivity. Qed.
Theorem C61_quintic_flat_refuted : exists s,
  sampled exq_x exq_y (exq (fun x y => x ^ 3 * y)) (fun x y => x ^ 3 * y) /\ sampled exq_x exq_y (exq (fun x y => 3 * x ^ 2 * y)) (fun x y => 3 * x ^ 2 * y) /\ sampled exq_x exq_y (exq (fun x y => x ^ 3)) (fun x y => x ^ 3) /\
  quintic2dNew exq_x exq_y (exq (fun x y => x ^ 3 * y)) (exq (fun x y => 3 * x ^ 2 * y)) (exq (fun x y => x ^ 3)) None = Ok s /\
  (forall j, (0 <= j < 2)%Z -> at2 (exq (fun x y => 3 * x ^ 2 * y)) 1 j = 0) /\ afn exq_x 1 = 0 /\
  (exists z zx zy zxx zyy, quintic2dEval s 0 0 = Ok (Some (z, zx, zy), Some (zxx, 2, zyy))) /\
  (exists z zy zxx zxy zyy, quintic2dEval s 0 (1/4) = Ok (Some (z, 75/256, zy), Some (zxx, zxy, zyy))).
Proof.
  set (f := exq (fun x y => x ^ 3 * y)). set (fx := exq (fun x y => 3 * x ^ 2 * y)). set (fy := exq (fun x y => x ^ 3)).
  destruct (quintic_wout_built exq_x exq_y f fx fy exq_gx exq_gy (exq_table _) (exq_table _) (exq_table _)) as (s & E & B). exists s.
  split; [apply exq_sampled|]. split; [apply exq_sampled|]. split; [apply exq_sampled|]. split; [exact E|].
  assert (Z1 : forall j, (0 <= j < 2)%Z -> at2 fx 1 j = 0). { intros j Hj. assert (j = 0 \/ j = 1)%Z as [-> | ->] by lia; unfold at2; cbn; ring. }
  split; [exact Z1|]. split; [reflexivity|].
  destruct B as [B V]. pose proof (proj1 (quintic_evaluates exq_x exq_y f fx fy s exq_gx exq_gy B)) as Ev. destruct B as [Ex Ey Ef Efx Efy _ Vxx Vyy].
  assert (Hx : grid (q2_x s)) by (rewrite Ex; exact exq_gx).
  assert (Sl : forall j, (0 <= j < 2)%Z -> afn (nslp exq_x (ty exq_x exq_y (m_data fy) j)) 1 = 2).
  { intros j Hj. pose proof (nslp_rows exq_x (ty exq_x exq_y (m_data fy) j) exq_gx eq_refl) as Rs.
    pose proof (rows_left exq_x _ (proj2 exq_gx) None None _ Rs) as E0. pose proof (rows_interior exq_x _ None None _ 1%Z Rs ltac:(cbn; lia)) as E1. pose proof (rows_right exq_x _ (proj2 exq_gx) None None _ Rs) as E2.
    cbv beta iota zeta in E0, E1, E2. set (d := afn (nslp exq_x (ty exq_x exq_y (m_data fy) j))) in *. clearbody d. clear Rs.
    assert (T0 : forall k, (0 <= k < 3)%Z -> afn (ty exq_x exq_y (m_data fy) j) k = (afn exq_x k) ^ 3).
    { intros k Hk. cbn [ty colof afn alen exq_x exq_y m_data fy exq]. rewrite idx_div by lia. reflexivity. }
    change (alen exq_x) with 3%Z in *. change (1 - 1)%Z with 0%Z in *. change (3 - 2)%Z with 1%Z in *. change (1 + 1)%Z with 2%Z in *. change (0 + 1)%Z with 1%Z in *. change (3 - 1)%Z with 2%Z in *.
    rewrite !T0 in E0 by lia. rewrite !T0 in E1 by lia. rewrite !T0 in E2 by lia. change (afn exq_x 0) with (-1) in *. change (afn exq_x 1) with 0 in *. change (afn exq_x 2) with 2 in *. 
    replace (1 / (0 - -1)) with 1 in * by field. replace (1 / (2 - 0)) with (/ 2) in * by field. lra. }
  assert (R1 : forall pr y, Q2 s v_d pr 0 y = Fp exq_y (qpiece exq_y (mkArr 2 (fun _ => 0)) (mkArr 2 (fun _ => 2)) (mkArr 2 (fun _ => 0))) pr y).
  { intros pr y. pose proof (proj2 (Q2_xline s Hx pr y 1%Z ltac:(rewrite Ex; cbn; lia))) as Xl. rewrite Ex in Xl. change (afn exq_x 1) with 0 in Xl. rewrite Xl. unfold r1, rowQ. rewrite Ey, Efx.
    assert (Fz : fxz exq_y (m_data fx) 1 = true) by (apply allzero_spec; intros k Hk; exact (Z1 k Hk)).
    apply (qF_ext exq_y _ _ _ _ _ _ pr y exq_gy); intros j Hj; cbn [rowof afn]; [exact (Z1 j Hj)| |]; destruct (V 1%Z j ltac:(cbn; lia) Hj) as (V1 & _ & V3 & _).
    - rewrite V1. unfold wxy. assert (Ej : edge (alen exq_y) j = true) by (cbn in Hj |- *; assert (j = 0 \/ j = 1)%Z as [-> | ->] by lia; reflexivity). rewrite Ej. change (edge (alen exq_x) 1) with false. cbn [andb orb negb]. apply Sl. exact Hj.
    - rewrite V3. unfold wxyy. change (edge (alen exq_x) 1) with false. rewrite Fz. reflexivity. }
  assert (In : forall y, 0 <= y <= 1 -> inside exq_x exq_y 0 y) by (intros y Hy; unfold inside, x_first, x_last; cbn; lra).
  split.
  - do 5 eexists. rewrite (Ev 0 0 (In 0 ltac:(lra))). rewrite (R1 v_d 0).
    pose proof (proj2 (qui_node exq_y (mkArr 2 (fun _ => 0)) (mkArr 2 (fun _ => 2)) (mkArr 2 (fun _ => 0)) (proj1 exq_gy) (grid_len _ exq_gy) 0%Z ltac:(cbn; lia))) as N.
    change (afn exq_y 0) with 0 in N. cbn [afn] in N. unfold qF1 in N. rewrite N. reflexivity.
  - do 5 eexists. rewrite (Ev 0 (1/4) (In (1/4) ltac:(lra))). rewrite (R1 v_f (1/4)).
    assert (Hy : x_first exq_y <= 1/4 <= x_last exq_y) by (unfold x_first, x_last; cbn; lra).
    pose proof (seg_in exq_y exq_gy (1/4) Hy) as K. change (alen exq_y) with 2%Z in K. assert (K0 : segof exq_y (1/4) = 0%Z) by lia.
    assert (N : Fp exq_y (qpiece exq_y (mkArr 2 (fun _ => 0)) (mkArr 2 (fun _ => 2)) (mkArr 2 (fun _ => 0))) v_f (1/4) = 75/256).
    { unfold Fp. rewrite K0, qpiece_in by (cbn; lia). change (afn exq_y 0) with 0. change (afn exq_y (0 + 1)) with 1. cbn [afn]. unfold evalQuintic. destruct (Req_EM_T (1/4) 1) as [Q|_]; [exfalso; lra|]. cbn [v_f]. field. }
    rewrite N. reflexivity.
Qed.
(** the hypotheses hold for a concrete grid and the function x^3 y, a polynomial of degree three in each variable *)
Definition exq_c (k l : Z) : R := if ((k =? 3) && (l =? 1))%Z%bool then 1 else 0.
Example C61_quintic_ex : grid exq_x /\ grid exq_y /\ table exq_x exq_y (exq (fun x y => x ^ 3 * y)) /\ optional (Some (exq (fun x y => 3 * x ^ 2))) (table exq_x exq_y) /\
  sampled exq_x exq_y (exq (fun x y => x ^ 3 * y)) (fun x y => poly3 (fun k => poly3 (exq_c k) y) x) /\ sampled exq_x exq_y (exq (fun x y => 3 * x ^ 2 * y)) (fun x y => dpoly3 (fun k => poly3 (exq_c k) y) x) /\
  sampled exq_x exq_y (exq (fun x y => x ^ 3)) (fun x y => poly3 (fun k => dpoly3 (exq_c k) y) x) /\ sampled exq_x exq_y (exq (fun x y => 3 * x ^ 2)) (fun x y => dpoly3 (fun k => dpoly3 (exq_c k) y) x) /\
  inside exq_x exq_y 1 (1/2).
Proof.
  split; [exact exq_gx|]. split; [exact exq_gy|]. split; [apply exq_table|]. split; [apply exq_table|].
  assert (Sm : forall g h, (forall x y, g x y = h x y) -> sampled exq_x exq_y (exq g) h) by (intros g h Q i j Hi Hj; rewrite <- Q; apply exq_sampled; assumption).
  do 4 (split; [apply Sm; intros x y; unfold poly3, dpoly3, exq_c; cbn; ring|]). unfold inside, x_first, x_last. cbn. lra.
Qed.
(** and for a sum of polynomials and a product *)
Example C61_separable_ex : let p k := if (k =? 3)%Z then 1 else 0 in let q k := if (k =? 2)%Z then 5 else 0 in
  sampled exq_x exq_y (exq (fun x y => x ^ 3 + 5 * y ^ 2 + 7 * x * y)) (fun x y => poly3 p x + poly3 q y + 7 * x * y) /\
  sampled exq_x exq_y (exq (fun x y => 3 * x ^ 2 + 7 * y)) (fun x y => dpoly3 p x + 7 * y) /\ sampled exq_x exq_y (exq (fun x y => 10 * y + 7 * x)) (fun x y => dpoly3 q y + 7 * x).
Proof.
  assert (Sm : forall g h, (forall x y, g x y = h x y) -> sampled exq_x exq_y (exq g) h) by (intros g h Q i j Hi Hj; rewrite <- Q; apply exq_sampled; assumption).
  cbv zeta. split; [|split]; apply Sm; intros x y; unfold poly3, dpoly3; cbn; ring.
Qed.
Print Assumptions C61_quintic_construct.
Print Assumptions C61_quintic.
Print Assumptions C61_quintic_lines.
Print Assumptions C61_quintic_bicubic.
Print Assumptions C61_quintic_separable.
Print Assumptions C61_quintic_flat.
Print Assumptions C61_quintic_estimate.
Print Assumptions C61_quintic_flat_refuted.
