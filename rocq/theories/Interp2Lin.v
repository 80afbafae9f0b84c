(** Two-dimensional linear interpolation (C61). *)
From Coquelicot Require Import Coquelicot.
From Verif Require Import Arr BinSearchModel SplineModel Interp2Model SplineSpec SplineBand SplineCons SplineQui SplineGlue SplineProofs SplineProofs2 SplineReg Interp2Spec Interp2Proofs.
Local Open Scope R_scope.

(** linear interpolation on the k-th segment, and its slope *)
Definition lin1 (x : arr R) (k : Z) (t : R) (g : Z -> R) : R := let u := (t - afn x k) / (afn x (k + 1)%Z - afn x k) in (1 - u) * g k + u * g (k + 1)%Z.
Definition slo1 (x : arr R) (k : Z) (g : Z -> R) : R := (g (k + 1)%Z - g k) / (afn x (k + 1)%Z - afn x k).
Lemma lin1_agree x k i t g : increasing x -> (0 <= k < alen x - 1)%Z -> (0 <= i < alen x - 1)%Z -> afn x k <= t <= afn x (k + 1)%Z -> afn x i <= t <= afn x (i + 1)%Z -> lin1 x k t g = lin1 x i t g.
Proof.
  intros Hx. assert (W : forall k i, (0 <= k < alen x - 1)%Z -> (0 <= i < alen x - 1)%Z -> afn x k <= t <= afn x (k + 1)%Z -> afn x i <= t <= afn x (i + 1)%Z -> (k <= i)%Z -> lin1 x k t g = lin1 x i t g).
  { clear k i. intros k i Hk Hi A B L. destruct (Z.eq_dec k i) as [->|N]; [reflexivity|].
    pose proof (inc_le x Hx (k + 1) i ltac:(lia) ltac:(lia) ltac:(lia)) as M. assert (E : i = (k + 1)%Z).
    { destruct (Z.eq_dec i (k + 1)) as [|N']; [assumption|]. pose proof (Hx (k + 1)%Z i ltac:(lia) ltac:(lia)). lra. }
    subst i. unfold lin1. pose proof (x_ne x Hx k ltac:(lia)). pose proof (x_ne x Hx (k + 1)%Z ltac:(lia)). replace t with (afn x (k + 1)%Z) by lra. cbv zeta. field. lra. }
  intros. destruct (Z_le_gt_dec k i); [apply W; auto|symmetry; apply W; auto; lia].
Qed.
Lemma seg_bounds x t : grid x -> x_first x <= t <= x_last x -> (0 <= segof x t < alen x - 1)%Z /\ afn x (segof x t) <= t <= afn x (segof x t + 1)%Z.
Proof.
  intros G B. pose proof (seg_in x G t B) as K. split; [exact K|]. destruct (segof_ok x (proj1 G) (grid_len x G) t) as (_ & (_ & I2 & I3) & _). split; [apply I2; lia|apply I3; lia].
Qed.
Lemma seg_strict x t i : grid x -> (0 <= i < alen x - 1)%Z -> afn x i < t < afn x (i + 1)%Z -> segof x t = i.
Proof.
  intros G Hi B. apply (sinseg_unique x (proj1 G) i (segof x t) t); [|apply (segof_ok x (proj1 G) (grid_len x G) t)]. unfold sinseg. split; [lia|]. split; intros _; lra.
Qed.
Lemma cell_in x t i : grid x -> (0 <= i < alen x - 1)%Z -> afn x i <= t <= afn x (i + 1)%Z -> x_first x <= t <= x_last x.
Proof.
  intros [Hx Hn] Hi B. unfold x_first, x_last. pose proof (inc_le x Hx 0 i ltac:(lia) ltac:(lia) ltac:(lia)). pose proof (inc_le x Hx (i + 1) (alen x - 1) ltac:(lia) ltac:(lia) ltac:(lia)). lra.
Qed.

Section Lin.
  Variables (xs ys : arr R) (fm : mat).
  Hypothesis Gx : grid xs.
  Hypothesis Gy : grid ys.
  Hypothesis T : table xs ys fm.
  Definition lF (x y : R) : R := lin1 xs (segof xs x) x (fun i => lin1 ys (segof ys y) y (fun j => at2 fm i j)).
  Definition lFx (x y : R) : R := slo1 xs (segof xs x) (fun i => lin1 ys (segof ys y) y (fun j => at2 fm i j)).
  Definition lFy (x y : R) : R := lin1 xs (segof xs x) x (fun i => slo1 ys (segof ys y) (fun j => at2 fm i j)).
  Lemma linear2d_eval : exists s, linear2dNew xs ys fm = Ok s /\
    (forall x y, inside xs ys x y -> linear2dEval s x y = Ok (Some (lF x y, lFx x y, lFy x y), Some (0, 0, 0))) /\
    (forall x y, ~ inside xs ys x y -> linear2dEval s x y = Ok (None, Some (0, 0, 0))).
  Proof.
    assert (Nx : (2 <= alen xs)%Z) by apply Gx. assert (Ny : (2 <= alen ys)%Z) by apply Gy.
    unfold linear2dNew. rewrite (check2d_ok xs ys fm Gx Gy T). cbn [bind]. eexists. split; [reflexivity|].
    destruct T as ((_ & _ & L) & E1 & E2). rewrite E1, E2 in L.
    assert (E : forall x y, linear2dEval (mkLin2 xs ys (m_data fm)) x y = if inside_dec xs ys x y then Ok (Some (lF x y, lFx x y, lFy x y), Some (0, 0, 0)) else Ok (None, Some (0, 0, 0))).
    { intros x y. unfold linear2dEval. cbn [l2_x l2_y l2_f]. rewrite (proj2 (Z.eqb_neq (alen (m_data fm)) 0)) by nia.
      destruct (segof_ok xs (proj1 Gx) ltac:(lia) x) as (Ex & _ & _). destruct (segof_ok ys (proj1 Gy) ltac:(lia) y) as (Ey & _ & _).
      rewrite Ex. cbn [bind]. rewrite Ey. cbn [bind]. rewrite (outside_ok _ _ x y Gx Gy). destruct (inside_dec xs ys x y) as [[Ix Iy]|N]; [|reflexivity].
      destruct (seg_bounds _ x Gx Ix) as [Kx _]. destruct (seg_bounds _ y Gy Iy) as [Ky _].
      unfold lF, lFx, lFy, lin1, slo1, at2. rewrite E2. set (i := segof xs x) in *. set (j := segof ys y) in *. set (nx := alen xs) in *. set (ny := alen ys) in *.
      replace (i * ny + j + ny)%Z with ((i + 1) * ny + j)%Z by ring. rewrite <- !Z.add_assoc.
      pose proof (idx_in nx ny i j ltac:(lia) ltac:(lia)). pose proof (idx_in nx ny i (j + 1) ltac:(lia) ltac:(lia)).
      pose proof (idx_in nx ny (i + 1) j ltac:(lia) ltac:(lia)). pose proof (idx_in nx ny (i + 1) (j + 1) ltac:(lia) ltac:(lia)).
      rewrite !aget_ok by lia. cbn [bind]. cbv zeta.
      assert (Qx : afn xs i <> afn xs (i + 1)%Z) by (apply x_ne; [apply Gx|exact Kx]).
      assert (Qy : afn ys j <> afn ys (j + 1)%Z) by (apply x_ne; [apply Gy|exact Ky]).
      match goal with |- Ok (Some (?a, ?b, ?c), _) = Ok (Some (?a', ?b', ?c'), _) => assert (Ea : a = a') by (field; lra); assert (Eb : b = b') by (field; lra); assert (Ec : c = c') by (field; lra); exact (f_equal (fun w => Ok (Some w, Some (0, 0, 0))) (f_equal2 pair (f_equal2 pair Ea Eb) Ec)) end. }
    split; intros x y H; rewrite E; destruct (inside_dec _ _ x y); try contradiction; reflexivity.
  Qed.
  Lemma lF_cell i j x y : (0 <= i < alen xs - 1)%Z -> (0 <= j < alen ys - 1)%Z -> afn xs i <= x <= afn xs (i + 1)%Z -> afn ys j <= y <= afn ys (j + 1)%Z ->
    lF x y = lin1 xs i x (fun k => lin1 ys j y (fun l => at2 fm k l)).
  Proof.
    intros Hi Hj Bx By. unfold lF. destruct (seg_bounds xs x Gx (cell_in xs x i Gx Hi Bx)) as [Kx Sx]. destruct (seg_bounds ys y Gy (cell_in ys y j Gy Hj By)) as [Ky Sy].
    rewrite (lin1_agree xs (segof xs x) i x _ (proj1 Gx) Kx Hi Sx Bx). unfold lin1 at 1 3. rewrite !(lin1_agree ys (segof ys y) j y _ (proj1 Gy) Ky Hj Sy By). reflexivity.
  Qed.
  Lemma lFx_cell i j x y : (0 <= i < alen xs - 1)%Z -> (0 <= j < alen ys - 1)%Z -> afn xs i < x < afn xs (i + 1)%Z -> afn ys j <= y <= afn ys (j + 1)%Z ->
    lFx x y = slo1 xs i (fun k => lin1 ys j y (fun l => at2 fm k l)) /\ partial_x lF x y (lFx x y).
  Proof.
    intros Hi Hj Bx By. unfold lFx. destruct (seg_bounds ys y Gy (cell_in ys y j Gy Hj By)) as [Ky Sy]. rewrite (seg_strict xs x i Gx Hi Bx).
    unfold slo1. rewrite !(lin1_agree ys (segof ys y) j y _ (proj1 Gy) Ky Hj Sy By). split; [reflexivity|].
    unfold partial_x. assert (0 < Rmin (x - afn xs i) (afn xs (i + 1)%Z - x)) as P by (apply Rmin_case; lra).
    apply (is_derive_ext_loc (fun u => lin1 xs i u (fun k => lin1 ys j y (fun l => at2 fm k l)))).
    - exists (mkposreal _ P). intros u Hu. symmetry. apply lF_cell; auto. unfold ball in Hu; cbn in Hu. unfold AbsRing_ball, abs, minus, plus, opp in Hu; cbn in Hu.
      pose proof (Rmin_l (x - afn xs i) (afn xs (i + 1)%Z - x)). pose proof (Rmin_r (x - afn xs i) (afn xs (i + 1)%Z - x)). apply Rabs_def2 in Hu. lra.
    - unfold lin1 at 1. cbv zeta. generalize (lin1 ys j y (fun l => at2 fm i l)) (lin1 ys j y (fun l => at2 fm (i + 1) l)). intros p q.
      auto_derive; [lra|]. field. lra.
  Qed.
  Lemma lFy_cell i j x y : (0 <= i < alen xs - 1)%Z -> (0 <= j < alen ys - 1)%Z -> afn xs i <= x <= afn xs (i + 1)%Z -> afn ys j < y < afn ys (j + 1)%Z ->
    lFy x y = lin1 xs i x (fun k => slo1 ys j (fun l => at2 fm k l)) /\ partial_y lF x y (lFy x y).
  Proof.
    intros Hi Hj Bx By. unfold lFy. destruct (seg_bounds xs x Gx (cell_in xs x i Gx Hi Bx)) as [Kx Sx]. rewrite (seg_strict ys y j Gy Hj By).
    rewrite !(lin1_agree xs (segof xs x) i x _ (proj1 Gx) Kx Hi Sx Bx). split; [reflexivity|].
    unfold partial_y. assert (0 < Rmin (y - afn ys j) (afn ys (j + 1)%Z - y)) as P by (apply Rmin_case; lra).
    apply (is_derive_ext_loc (fun u => lin1 xs i x (fun k => lin1 ys j u (fun l => at2 fm k l)))).
    - exists (mkposreal _ P). intros u Hu. symmetry. apply lF_cell; auto. unfold ball in Hu; cbn in Hu. unfold AbsRing_ball, abs, minus, plus, opp in Hu; cbn in Hu.
      pose proof (Rmin_l (y - afn ys j) (afn ys (j + 1)%Z - y)). pose proof (Rmin_r (y - afn ys j) (afn ys (j + 1)%Z - y)). apply Rabs_def2 in Hu. lra.
    - unfold lin1, slo1. cbv zeta. pose proof (x_ne xs (proj1 Gx) i Hi).
      generalize (at2 fm i j) (at2 fm (i + 1) j) (at2 fm i (j + 1)) (at2 fm (i + 1) (j + 1)). intros p q r s.
      auto_derive; [lra|]. field. lra.
  Qed.
  Lemma lF_node i j : (0 <= i < alen xs)%Z -> (0 <= j < alen ys)%Z -> lF (afn xs i) (afn ys j) = at2 fm i j.
  Proof.
    assert (W : forall x k, grid x -> (0 <= k < alen x)%Z -> exists i, (0 <= i < alen x - 1)%Z /\ afn x i <= afn x k <= afn x (i + 1)%Z /\ forall g, lin1 x i (afn x k) g = g k).
    { intros x k [Hx Hn] Hk. destruct (Z.eq_dec k (alen x - 1)) as [->|N].
      - exists (alen x - 2)%Z. pose proof (x_ne x Hx (alen x - 2)%Z ltac:(lia)) as Q. pose proof (inc_le x Hx (alen x - 2) (alen x - 1) ltac:(lia) ltac:(lia) ltac:(lia)). replace (alen x - 2 + 1)%Z with (alen x - 1)%Z in * by lia.
        split; [lia|]. split; [lra|]. intros g. unfold lin1. replace (alen x - 2 + 1)%Z with (alen x - 1)%Z by lia. cbv zeta. field. lra.
      - exists k. pose proof (x_ne x Hx k ltac:(lia)). pose proof (inc_le x Hx k (k + 1) ltac:(lia) ltac:(lia) ltac:(lia)). split; [lia|]. split; [lra|]. intros g. unfold lin1. cbv zeta. field. lra. }
    intros Hi Hj. destruct (W xs i Gx Hi) as (p & Hp & Bp & Vp). destruct (W ys j Gy Hj) as (q & Hq & Bq & Vq). rewrite (lF_cell p q) by assumption. rewrite Vp, Vq. reflexivity.
  Qed.
End Lin.
Lemma between x t : grid x -> x_first x <= t <= x_last x -> exists i, (0 <= i < alen x - 1)%Z /\ afn x i <= t <= afn x (i + 1)%Z.
Proof. intros G B. exists (segof x t). apply seg_bounds; assumption. Qed.
Lemma between_strict x t : grid x -> x_first x <= t <= x_last x -> ~ is_node x t -> exists i, (0 <= i < alen x - 1)%Z /\ afn x i < t < afn x (i + 1)%Z.
Proof.
  intros G B N. destruct (between x t G B) as (i & Hi & S1). exists i. split; [exact Hi|].
  destruct (Req_dec t (afn x i)) as [E|]; [exfalso; apply N; exists i; split; [lia|exact E]|]. destruct (Req_dec t (afn x (i + 1)%Z)) as [E|]; [exfalso; apply N; exists (i + 1)%Z; split; [lia|exact E]|]. lra.
Qed.
