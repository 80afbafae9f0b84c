(** Two-dimensional cubic splines: evaluation (C61). *)
From Coquelicot Require Import Coquelicot.
From Verif Require Import Arr BinSearchModel SplineModel Interp2Model SplineSpec SplineBand SplineCons SplineQui SplineGlue SplineProofs SplineProofs2 SplineReg Interp2Spec.
Local Open Scope Z_scope.

(** ---- flattened arrays ---- *)
Lemma idx_div ny i j : 0 <= j < ny -> (i * ny + j) / ny = i.
Proof. intros H. rewrite Z.div_add_l by lia. rewrite Z.div_small by lia. lia. Qed.
Lemma idx_mod ny i j : 0 <= j < ny -> (i * ny + j) mod ny = j.
Proof. intros H. rewrite Z.add_comm, Z.mod_add by lia. apply Z.mod_small. lia. Qed.
Lemma idx_in nx ny i j : 0 <= i < nx -> 0 <= j < ny -> 0 <= i * ny + j < nx * ny.
Proof. nia. Qed.
Lemma setrow_at a ny i d i' j : 0 <= j < ny -> afn (setrow a ny i d) (i' * ny + j) = if i' =? i then afn d j else afn a (i' * ny + j).
Proof. intros H. unfold setrow. cbn [afn]. rewrite idx_div, idx_mod by exact H. reflexivity. Qed.
Lemma setcol_at a ny j d i j' : 0 <= j' < ny -> afn (setcol a ny j d) (i * ny + j') = if j' =? j then afn d i else afn a (i * ny + j').
Proof. intros H. unfold setcol. cbn [afn]. rewrite idx_div, idx_mod by exact H. reflexivity. Qed.

(** ---- location of a point ---- *)
Section Seg.
  Variable xs : arr R.
  Hypothesis G : grid xs.
  Let Hx := proj1 G.
  Let H2 := proj2 G.
  Lemma seg_in x : (x_first xs <= x <= x_last xs)%R -> 0 <= segof xs x < alen xs - 1.
  Proof.
    intros B. unfold x_first, x_last in B. destruct (bin_inseg xs Hx ltac:(lia) x) as (k & E & (I1 & I2 & I3) & _ & K & K').
    unfold segof. rewrite E. split.
    - destruct (Z.eq_dec k (-1)) as [->|]; [specialize (K' eq_refl); lra|lia].
    - destruct (Z.eq_dec k (alen xs - 1)) as [e|]; [destruct (K e); [lia|lra]|lia].
  Qed.
  Lemma seg_out x : ~ (x_first xs <= x <= x_last xs)%R -> segof xs x < 0 \/ alen xs - 1 <= segof xs x.
  Proof.
    intros B. unfold x_first, x_last in B. destruct (segof_ok xs Hx ltac:(lia) x) as (_ & (I1 & I2 & I3) & _).
    destruct (Z_lt_ge_dec (segof xs x) 0) as [|Q]; [left; assumption|]. right. destruct (Z_le_gt_dec (alen xs - 1) (segof xs x)) as [|Q']; [assumption|].
    exfalso. apply B. specialize (I2 ltac:(lia)). specialize (I3 ltac:(lia)).
    pose proof (inc_le xs Hx 0 (segof xs x) ltac:(lia) ltac:(lia) ltac:(lia)). pose proof (inc_le xs Hx (segof xs x + 1) (alen xs - 1) ltac:(lia) ltac:(lia) ltac:(lia)). lra.
  Qed.
End Seg.
Lemma inside_dec xs ys x y : {inside xs ys x y} + {~ inside xs ys x y}.
Proof.
  unfold inside. destruct (Rle_dec (x_first xs) x), (Rle_dec x (x_last xs)), (Rle_dec (x_first ys) y), (Rle_dec y (x_last ys)); try (right; intros [[? ?] [? ?]]; contradiction). left. auto.
Qed.
Lemma outside_ok xs ys x y : grid xs -> grid ys -> outside (alen xs) (alen ys) (segof xs x) (segof ys y) = if inside_dec xs ys x y then false else true.
Proof.
  intros Gx Gy. unfold outside. rewrite !Z.geb_leb. destruct (inside_dec xs ys x y) as [[A B]|N].
  - pose proof (seg_in xs Gx x A). pose proof (seg_in ys Gy y B).
    rewrite (proj2 (Z.ltb_ge (segof xs x) 0)), (proj2 (Z.ltb_ge (segof ys y) 0)), (proj2 (Z.leb_gt (alen xs - 1) (segof xs x))), (proj2 (Z.leb_gt (alen ys - 1) (segof ys y))) by lia. reflexivity.
  - destruct (Rle_dec (x_first xs) x) as [A|A]; [destruct (Rle_dec x (x_last xs)) as [B|B]|].
    + destruct (seg_out ys Gy y) as [Q|Q]; [intros C; apply N; split; auto| |].
      * rewrite (proj2 (Z.ltb_lt _ _) Q). rewrite !orb_true_r. reflexivity.
      * rewrite (proj2 (Z.leb_le _ _) Q). rewrite !orb_true_r. reflexivity.
    + destruct (seg_out xs Gx x) as [Q|Q]; [intros [C D]; contradiction| |].
      * rewrite (proj2 (Z.ltb_lt _ _) Q). reflexivity.
      * rewrite (proj2 (Z.leb_le _ _) Q). rewrite !orb_true_r. reflexivity.
    + destruct (seg_out xs Gx x) as [Q|Q]; [intros [C D]; contradiction| |].
      * rewrite (proj2 (Z.ltb_lt _ _) Q). reflexivity.
      * rewrite (proj2 (Z.leb_le _ _) Q). rewrite !orb_true_r. reflexivity.
Qed.

(** ---- the checks of the constructors ---- *)
Lemma check2d_ok xs ys f : grid xs -> grid ys -> table xs ys f -> check2d xs ys f = Ok tt.
Proof.
  intros [Hx Nx] [Hy Ny] (M & E1 & E2). unfold check2d. rewrite (proj2 (Z.ltb_ge (alen xs) 2)), (proj2 (Z.ltb_ge (alen ys) 2)) by lia. cbn [orb].
  rewrite (inc_monotonic xs Hx). cbn [bind]. rewrite (inc_monotonic ys Hy). cbn [bind]. unfold checkSizes2d. rewrite E1, E2, !Z.eqb_refl. reflexivity.
Qed.
Lemma check2d_bad xs ys f : ~ (grid xs /\ grid ys /\ m_rows f = alen xs /\ m_cols f = alen ys) -> check2d xs ys f = Throw.
Proof.
  intros N. unfold check2d. destruct (Z.ltb_spec (alen xs) 2); [reflexivity|]. destruct (Z.ltb_spec (alen ys) 2); [reflexivity|]. cbn [orb].
  assert (Dx : checkMonotonic xs = Throw \/ checkMonotonic xs = Ok tt).
  { destruct (checkMonotonic xs) as [[]| | |] eqn:E; auto; left; rewrite <- E; apply not_inc_throw; intros I; rewrite (inc_monotonic xs I) in E; discriminate. }
  assert (Dy : checkMonotonic ys = Throw \/ checkMonotonic ys = Ok tt).
  { destruct (checkMonotonic ys) as [[]| | |] eqn:E; auto; left; rewrite <- E; apply not_inc_throw; intros I; rewrite (inc_monotonic ys I) in E; discriminate. }
  destruct Dx as [->|Ex]; [reflexivity|]. rewrite Ex. cbn [bind]. destruct Dy as [->|Ey]; [reflexivity|]. rewrite Ey. cbn [bind].
  unfold checkSizes2d. destruct (Z.eqb_spec (m_rows f) (alen xs)); [|reflexivity]. destruct (Z.eqb_spec (m_cols f) (alen ys)); [|reflexivity].
  exfalso. apply N. split; [split; [apply monotonic_inc; exact Ex|lia]|]. split; [split; [apply monotonic_inc; exact Ey|lia]|]. auto.
Qed.

Local Open Scope R_scope.
(** ---- evalCubic is linear in the data ---- *)
Definition pr3 (pr : vals -> R) : Prop := pr = v_f \/ pr = v_d \/ pr = v_d2.
Definition w1 (pr : vals -> R) t xl xh := pr (evalCubic t xl xh 1 0 0 0).
Definition w2 (pr : vals -> R) t xl xh := pr (evalCubic t xl xh 0 1 0 0).
Definition w3 (pr : vals -> R) t xl xh := pr (evalCubic t xl xh 0 0 1 0).
Definition w4 (pr : vals -> R) t xl xh := pr (evalCubic t xl xh 0 0 0 1).
Lemma evalC_lin pr t xl xh a b c d : pr3 pr -> xl <> xh ->
  pr (evalCubic t xl xh a b c d) = a * w1 pr t xl xh + b * w2 pr t xl xh + c * w3 pr t xl xh + d * w4 pr t xl xh.
Proof. intros [->|[->| ->]] N; unfold w1, w2, w3, w4, evalCubic; cbn [v_f v_d v_d2]; field; lra. Qed.
Lemma evalC_shift t xl xh a b c d k : xl <> xh ->
  v_f (evalCubic t xl xh (a - k) (b - k) c d) = v_f (evalCubic t xl xh a b c d) - k /\
  v_d (evalCubic t xl xh (a - k) (b - k) c d) = v_d (evalCubic t xl xh a b c d) /\
  v_d2 (evalCubic t xl xh (a - k) (b - k) c d) = v_d2 (evalCubic t xl xh a b c d).
Proof. intros N. unfold evalCubic; cbn [v_f v_d v_d2]. repeat split; field; lra. Qed.
Lemma scal_r_derive (a : R -> R) (l p y : R) : is_derive a y l -> is_derive (fun y => a y * p) y (l * p).
Proof.
  intros A. apply (is_derive_ext (fun y => p * a y)); [intros t; apply Rmult_comm|]. rewrite Rmult_comm. apply (is_derive_scal a y p l A).
Qed.
Lemma lin4_derive (a b c d : R -> R) (a' b' c' d' p q r s y : R) :
  is_derive a y a' -> is_derive b y b' -> is_derive c y c' -> is_derive d y d' ->
  is_derive (fun y => a y * p + b y * q + c y * r + d y * s) y (a' * p + b' * q + c' * r + d' * s).
Proof.
  intros A B C D. pose proof (scal_r_derive a a' p y A) as A1. pose proof (scal_r_derive b b' q y B) as B1.
  pose proof (scal_r_derive c c' r y C) as C1. pose proof (scal_r_derive d d' s y D) as D1.
  exact (is_derive_plus _ _ y _ _ (is_derive_plus _ _ y _ _ (is_derive_plus _ _ y _ _ A1 B1) C1) D1).
Qed.

(** ---- the two-dimensional function as a composition of one-dimensional ones ---- *)
Lemma cpiece_in x f d k t : (0 <= k < alen x - 1)%Z -> cpiece x f d k t = evalCubic t (afn x k) (afn x (k + 1)%Z) (afn f k) (afn f (k + 1)%Z) (afn d k) (afn d (k + 1)%Z).
Proof. intros H. unfold cpiece. rewrite Z.geb_leb, (proj2 (Z.ltb_ge k 0)), (proj2 (Z.leb_gt (alen x - 1) k)) by lia. reflexivity. Qed.
Lemma grid_len xs : grid xs -> (1 <= alen xs)%Z.
Proof. intros [_ H]. lia. Qed.
Section C2.
  Variables xs ys f fx fy fxy : arr R.
  Let nx := alen xs.
  Let ny := alen ys.
  Hypothesis Gx : grid xs.
  Hypothesis Gy : grid ys.
  Let Hx := proj1 Gx.
  Let Hy := proj1 Gy.
  Let Nx := grid_len xs Gx.
  Let Ny := grid_len ys Gy.
  (** the spline along y at the i-th node in x, for the function and for its x-derivative *)
  Definition rowF (pr : vals -> R) (y : R) (i : Z) : R := Fp ys (cpiece ys (rowof f (alen ys) i) (rowof fy (alen ys) i)) pr y.
  Definition rowG (pr : vals -> R) (y : R) (i : Z) : R := Fp ys (cpiece ys (rowof fx (alen ys) i) (rowof fxy (alen ys) i)) pr y.
  Definition C2 (prx pry : vals -> R) (x y : R) : R := Fp xs (cpiece xs (mkArr (alen xs) (rowF pry y)) (mkArr (alen xs) (rowG pry y))) prx x.

  Lemma C2_px x y pry : is_derive (fun u => C2 v_f pry u y) x (C2 v_d pry x y).
  Proof. unfold C2. apply (cub_deriv xs _ _ Hx Nx). Qed.
  Lemma C2_pxx x y pry : ~ is_node xs x -> is_derive (fun u => C2 v_d pry u y) x (C2 v_d2 pry x y).
  Proof. intros N. unfold C2. apply (cub_deriv2 xs _ _ Hx Nx). apply not_node_match. exact N. Qed.
  (** along y *)
  Lemma C2_lin prx pry x y : pr3 prx -> C2 prx pry x y =
    let k := segof xs x in
    if ((k <? 0) || (k >=? alen xs - 1))%Z then
      let e := (if k <? 0 then 0 else alen xs - 1)%Z in
      prx (1, 0, 0, 0) * rowF pry y e + prx (x - afn xs e, 1, 0, 0) * rowG pry y e
    else rowF pry y k * w1 prx x (afn xs k) (afn xs (k + 1)%Z) + rowF pry y (k + 1)%Z * w2 prx x (afn xs k) (afn xs (k + 1)%Z) +
         rowG pry y k * w3 prx x (afn xs k) (afn xs (k + 1)%Z) + rowG pry y (k + 1)%Z * w4 prx x (afn xs k) (afn xs (k + 1)%Z).
  Proof.
    intros P. cbv zeta. unfold C2, Fp. set (k := segof xs x). rewrite Z.geb_leb.
    destruct (Z.ltb_spec k 0) as [L|L]; [|destruct (Z.leb_spec (alen xs - 1) k) as [L'|L']]; cbn [orb].
    - unfold cpiece. rewrite (proj2 (Z.ltb_lt k 0) L). rewrite extrap_eq. cbn [afn]. destruct P as [->|[->| ->]]; cbn [v_f v_d v_d2]; ring.
    - unfold cpiece. rewrite Z.geb_leb, (proj2 (Z.ltb_ge k 0) L), (proj2 (Z.leb_le _ _) L'). rewrite extrap_eq. cbn [afn]. destruct P as [->|[->| ->]]; cbn [v_f v_d v_d2]; ring.
    - rewrite cpiece_in by lia. cbn [afn]. apply evalC_lin; [exact P|]. apply (x_ne xs Hx). lia.
  Qed.
  Lemma C2_dy prx pr1 pr2 x y : pr3 prx ->
    (forall i, (0 <= i < nx)%Z -> is_derive (fun u => rowF pr1 u i) y (rowF pr2 y i)) -> (forall i, (0 <= i < nx)%Z -> is_derive (fun u => rowG pr1 u i) y (rowG pr2 y i)) ->
    is_derive (fun u => C2 prx pr1 x u) y (C2 prx pr2 x y).
  Proof.
    intros P A B. rewrite (C2_lin prx pr2 x y P). eapply is_derive_ext; [intros u; symmetry; apply (C2_lin prx pr1 x u P)|]. cbv zeta.
    destruct (segof_ok xs Hx Nx x) as (_ & _ & Bk). set (k := segof xs x) in *. rewrite Z.geb_leb. destruct (_ || _)%bool eqn:Ek.
    - set (e := (if k <? 0 then 0 else alen xs - 1)%Z). assert (Be : (0 <= e < nx)%Z) by (unfold e; destruct (k <? 0)%Z; unfold nx; lia). apply (is_derive_plus (fun u => prx (1, 0, 0, 0) * rowF pr1 u e) (fun u => prx (x - afn xs e, 1, 0, 0) * rowG pr1 u e)).
      + apply (is_derive_scal (fun u => rowF pr1 u e)). apply A. exact Be.
      + apply (is_derive_scal (fun u => rowG pr1 u e)). apply B. exact Be.
    - apply orb_false_elim in Ek. destruct Ek as [E1 E2]. apply Z.ltb_ge in E1. apply Z.leb_gt in E2.
      apply (lin4_derive (fun u => rowF pr1 u k) (fun u => rowF pr1 u (k + 1)%Z) (fun u => rowG pr1 u k) (fun u => rowG pr1 u (k + 1)%Z)); first [apply A|apply B]; unfold nx; lia.
  Qed.
  Lemma C2_py prx x y : pr3 prx -> is_derive (fun u => C2 prx v_f x u) y (C2 prx v_d x y).
  Proof. intros P. apply C2_dy; [exact P| |]; intros i _; apply (cub_deriv ys _ _ Hy Ny). Qed.
  Lemma C2_pyy prx x y : pr3 prx -> ~ is_node ys y -> is_derive (fun u => C2 prx v_d x u) y (C2 prx v_d2 x y).
  Proof. intros P N. apply C2_dy; [exact P| |]; intros i _; apply (cub_deriv2 ys _ _ Hy Ny), not_node_match, N. Qed.
  (** on the grid lines *)
  Lemma rowF_node j i : (0 <= j < ny)%Z -> rowF v_f (afn ys j) i = afn f (i * ny + j)%Z /\ rowF v_d (afn ys j) i = afn fy (i * ny + j)%Z.
  Proof. intros Hj. exact (cub_node ys (rowof f (alen ys) i) (rowof fy (alen ys) i) Hy Ny j Hj). Qed.
  Lemma rowG_node j i : (0 <= j < ny)%Z -> rowG v_f (afn ys j) i = afn fx (i * ny + j)%Z /\ rowG v_d (afn ys j) i = afn fxy (i * ny + j)%Z.
  Proof. intros Hj. exact (cub_node ys (rowof fx (alen ys) i) (rowof fxy (alen ys) i) Hy Ny j Hj). Qed.
  Lemma cpiece_ext a b a' b' k t : (-1 <= k <= alen xs - 1)%Z -> (forall i, (0 <= i < alen xs)%Z -> afn a i = afn a' i) -> (forall i, (0 <= i < alen xs)%Z -> afn b i = afn b' i) ->
    cpiece xs a b k t = cpiece xs a' b' k t.
  Proof.
    intros Hk A B. unfold cpiece. rewrite !Z.geb_leb. destruct (Z.ltb_spec k 0); [rewrite A, B by lia; reflexivity|]. destruct (Z.leb_spec (alen xs - 1) k); [rewrite A, B by lia; reflexivity|].
    rewrite !A, !B by lia. reflexivity.
  Qed.
  Lemma C2_ext prx a b x : (forall i, (0 <= i < nx)%Z -> afn a i = afn (fst b) i) -> True -> forall c, (forall i, (0 <= i < nx)%Z -> afn c i = afn (snd b) i) ->
    Fp xs (cpiece xs a c) prx x = Fp xs (cpiece xs (fst b) (snd b)) prx x.
  Proof. intros A _ c B. unfold Fp. f_equal. apply cpiece_ext; [apply (segof_ok xs Hx Nx)|exact A|exact B]. Qed.
  Lemma C2_yline prx x j : (0 <= j < ny)%Z ->
    C2 prx v_f x (afn ys j) = Fp xs (cpiece xs (colof f nx ny j) (colof fx nx ny j)) prx x /\
    C2 prx v_d x (afn ys j) = Fp xs (cpiece xs (colof fy nx ny j) (colof fxy nx ny j)) prx x.
  Proof.
    intros Hj. unfold C2. split; apply (C2_ext prx _ (colof _ nx ny j, colof _ nx ny j)); cbn [fst snd afn colof]; auto; intros i Hi;
      first [apply (rowF_node j i Hj)|apply (rowG_node j i Hj)].
  Qed.
  Lemma C2_xline pry y i : (0 <= i < nx)%Z -> C2 v_f pry (afn xs i) y = rowF pry y i /\ C2 v_d pry (afn xs i) y = rowG pry y i.
  Proof. intros Hi. unfold C2. exact (cub_node xs (mkArr (alen xs) (rowF pry y)) (mkArr (alen xs) (rowG pry y)) Hx Nx i Hi). Qed.
End C2.

(** ---- evalDeriv ---- *)
Record wf2 (s : cub2d) : Prop := {
  w_x : grid (c2_x s); w_y : grid (c2_y s);
  w_f : alen (c2_f s) = (alen (c2_x s) * alen (c2_y s))%Z; w_fx : alen (c2_fx s) = (alen (c2_x s) * alen (c2_y s))%Z;
  w_fy : alen (c2_fy s) = (alen (c2_x s) * alen (c2_y s))%Z; w_fxy : alen (c2_fxy s) = (alen (c2_x s) * alen (c2_y s))%Z }.
Definition Cs (s : cub2d) := C2 (c2_x s) (c2_y s) (c2_f s) (c2_fx s) (c2_fy s) (c2_fxy s).
Lemma rowF_in ys f fy pr y i : grid ys -> x_first ys <= y <= x_last ys -> rowF ys f fy pr y i =
  let j := segof ys y in pr (evalCubic y (afn ys j) (afn ys (j + 1)%Z) (afn f (i * alen ys + j)%Z) (afn f (i * alen ys + j + 1)%Z) (afn fy (i * alen ys + j)%Z) (afn fy (i * alen ys + j + 1)%Z)).
Proof.
  intros G H. pose proof (seg_in ys G y H) as K. unfold rowF, Fp. cbv zeta. rewrite cpiece_in by lia. cbn [rowof afn]. rewrite !Z.add_assoc. reflexivity.
Qed.
Lemma cub2d_eval s : wf2 s -> evaluates2 (c2_x s) (c2_y s) (cubic2dEval s) (Cs s v_f v_f) (Cs s v_d v_f) (Cs s v_f v_d) (Cs s v_d2 v_f) (Cs s v_d v_d) (Cs s v_f v_d2).
Proof.
  intros [Gx Gy Lf Lfx Lfy Lfxy].
  assert (Nx : (2 <= alen (c2_x s))%Z) by apply Gx. assert (Ny : (2 <= alen (c2_y s))%Z) by apply Gy.
  assert (E : forall x y, cubic2dEval s x y = if inside_dec (c2_x s) (c2_y s) x y then
    Ok (Some (Cs s v_f v_f x y, Cs s v_d v_f x y, Cs s v_f v_d x y), Some (Cs s v_d2 v_f x y, Cs s v_d v_d x y, Cs s v_f v_d2 x y)) else Ok (None, None)).
  { intros x y. unfold cubic2dEval. rewrite (proj2 (Z.eqb_neq (alen (c2_f s)) 0)) by nia.
    destruct (segof_ok (c2_x s) (proj1 Gx) ltac:(lia) x) as (Ex & _ & _). destruct (segof_ok (c2_y s) (proj1 Gy) ltac:(lia) y) as (Ey & _ & _).
    rewrite Ex. cbn [bind]. rewrite Ey. cbn [bind]. rewrite (outside_ok _ _ x y Gx Gy). destruct (inside_dec (c2_x s) (c2_y s) x y) as [[Ix Iy]|N]; [|reflexivity].
    pose proof (seg_in _ Gx x Ix) as Kx. pose proof (seg_in _ Gy y Iy) as Ky.
    set (i := segof (c2_x s) x) in *. set (j := segof (c2_y s) y) in *. set (ny := alen (c2_y s)) in *. set (nx := alen (c2_x s)) in *.
    replace (i * ny + j + ny)%Z with ((i + 1) * ny + j)%Z by ring.
    pose proof (idx_in nx ny i j ltac:(lia) ltac:(lia)). pose proof (idx_in nx ny i (j + 1) ltac:(lia) ltac:(lia)).
    pose proof (idx_in nx ny (i + 1) j ltac:(lia) ltac:(lia)). pose proof (idx_in nx ny (i + 1) (j + 1) ltac:(lia) ltac:(lia)).
    rewrite !aget_ok by (rewrite ?Lf, ?Lfx, ?Lfy, ?Lfxy; lia). cbn [bind].
    assert (Qx : afn (c2_x s) i <> afn (c2_x s) (i + 1)%Z) by (apply x_ne; [apply Gx|exact Kx]).
    assert (Qy : afn (c2_y s) j <> afn (c2_y s) (j + 1)%Z) by (apply x_ne; [apply Gy|exact Ky]).
    match goal with |- context [afn (c2_f s) (i * ny + j)%Z - ?o] => set (off := o) end.
    assert (Cv : forall prx pry, Cs s prx pry x y = prx (evalCubic x (afn (c2_x s) i) (afn (c2_x s) (i + 1)%Z)
       (rowF (c2_y s) (c2_f s) (c2_fy s) pry y i) (rowF (c2_y s) (c2_f s) (c2_fy s) pry y (i + 1)) (rowG (c2_y s) (c2_fx s) (c2_fxy s) pry y i) (rowG (c2_y s) (c2_fx s) (c2_fxy s) pry y (i + 1)))).
    { intros prx pry. unfold Cs, C2, Fp. fold i. rewrite cpiece_in by exact Kx. reflexivity. }
    rewrite !Cv. unfold rowG.
    repeat match goal with |- context [Fp (c2_y s) (cpiece (c2_y s) (rowof (c2_fx s) ?a ?b) ?c) ?p y] => change (Fp (c2_y s) (cpiece (c2_y s) (rowof (c2_fx s) a b) c) p y) with (rowF (c2_y s) (c2_fx s) (c2_fxy s) p y b) end.
    rewrite !(rowF_in (c2_y s)) by (assumption). cbv zeta. fold j ny.
    set (ll := (i * ny + j)%Z). set (ul := ((i + 1) * ny + j)%Z).
    destruct (evalC_shift y (afn (c2_y s) j) (afn (c2_y s) (j + 1)%Z) (afn (c2_f s) ll) (afn (c2_f s) (ll + 1)%Z) (afn (c2_fy s) ll) (afn (c2_fy s) (ll + 1)%Z) off Qy) as (S1 & S2 & S3).
    destruct (evalC_shift y (afn (c2_y s) j) (afn (c2_y s) (j + 1)%Z) (afn (c2_f s) ul) (afn (c2_f s) (ul + 1)%Z) (afn (c2_fy s) ul) (afn (c2_fy s) (ul + 1)%Z) off Qy) as (T1 & T2 & T3).
    cbv zeta. rewrite S1, S2, S3, T1, T2, T3.
    match goal with |- context [evalCubic x ?a ?b (?p - off) (?q - off) ?r ?t] => destruct (evalC_shift x a b p q r t off Qx) as (U1 & U2 & U3) end.
    rewrite U1, U2, U3. repeat f_equal. ring. }
  split; intros x y H; rewrite E; destruct (inside_dec _ _ x y); try contradiction; reflexivity.
Qed.
