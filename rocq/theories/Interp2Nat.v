(** Two-dimensional cubic splines: twice differentiable splines, symmetry, linearity, exactness (C61). *)
From Coquelicot Require Import Coquelicot.
From Verif Require Import Arr BinSearchModel SplineModel Interp2Model SplineSpec SplineBand SplineCons SplineQui SplineGlue SplineProofs SplineProofs2 SplineReg Interp2Spec Interp2Proofs Interp2Cons.
Local Open Scope R_scope.

Definition plain (x : arr R) (dL dR : option R) : Prop := (dL = None /\ dR = None) \/ ~ symmetric_grid x.
Lemma plain_compat x dL dR f : plain x dL dR -> compatible x f dL dR.
Proof. intros [[-> ->]|N] D; [exact Logic.I|]. exfalso. apply N. intros i Hi. apply (D i Hi). Qed.
Lemma plain_zero x dL dR : plain x dL dR -> plain x (zero_if dL) (zero_if dR).
Proof. intros [[-> ->]|N]; [left; split; reflexivity|right; exact N]. Qed.

Section Nat2.
  Variables (xs ys f fx fy fxy : arr R) (dx0 dx1 dy0 dy1 : option R).
  Hypothesis Gx : grid xs.
  Hypothesis Gy : grid ys.
  Let nx := alen xs.
  Let ny := alen ys.
  Let Nx : (2 <= nx)%Z. Proof. apply Gx. Qed.
  Let Ny : (2 <= ny)%Z. Proof. apply Gy. Qed.
  Definition rows2 : Prop :=
    (forall i, (0 <= i < alen xs)%Z -> rows ys (rowof f (alen ys) i) dy0 dy1 (fun j => afn fy (i * alen ys + j)%Z)) /\
    (forall j, (0 <= j < alen ys)%Z -> rows xs (colof f (alen xs) (alen ys) j) dx0 dx1 (fun i => afn fx (i * alen ys + j)%Z)) /\
    (forall j, (0 <= j < alen ys)%Z -> rows xs (colof fy (alen xs) (alen ys) j) (zero_if dx0) (zero_if dx1) (fun i => afn fxy (i * alen ys + j)%Z)) /\
    (match dy0 with Some _ => forall i, (0 <= i < alen xs)%Z -> afn fxy (i * alen ys + 0)%Z = 0 | None => True end) /\
    (match dy1 with Some _ => forall i, (0 <= i < alen xs)%Z -> afn fxy (i * alen ys + (alen ys - 1))%Z = 0 | None => True end).
  Hypothesis Hr : rows2.
  Lemma R1 : forall i, (0 <= i < alen xs)%Z -> rows ys (rowof f (alen ys) i) dy0 dy1 (fun j => afn fy (i * alen ys + j)%Z).
  Proof. apply Hr. Qed.
  Lemma R2 : forall j, (0 <= j < alen ys)%Z -> rows xs (colof f (alen xs) (alen ys) j) dx0 dx1 (fun i => afn fx (i * alen ys + j)%Z).
  Proof. apply Hr. Qed.
  Lemma R3 : forall j, (0 <= j < alen ys)%Z -> rows xs (colof fy (alen xs) (alen ys) j) (zero_if dx0) (zero_if dx1) (fun i => afn fxy (i * alen ys + j)%Z).
  Proof. apply Hr. Qed.
  (** a linear combination of columns *)
  Definition L6 (A B : arr R) (p q r : Z) (c1 c2 c3 k1 k2 k3 : R) (i : Z) : R :=
    c1 * afn B (i * ny + p)%Z + c2 * afn B (i * ny + q)%Z + c3 * afn B (i * ny + r)%Z - (k1 * afn A (i * ny + p)%Z + k2 * afn A (i * ny + q)%Z + k3 * afn A (i * ny + r)%Z).
  Lemma same_zero o : same o o /\ same o (zero_if o) /\ same (zero_if o) (zero_if o) /\ same (zero_if o) o.
  Proof. destruct o; cbn; auto. Qed.
  Lemma comb_rows p q r c1 c2 c3 k1 k2 k3 : (0 <= p < ny)%Z -> (0 <= q < ny)%Z -> (0 <= r < ny)%Z ->
    rows xs (mkArr nx (L6 f fy p q r c1 c2 c3 k1 k2 k3))
      (match dx0 with Some a => Some (- (k1 + k2 + k3) * a) | None => None end) (match dx1 with Some a => Some (- (k1 + k2 + k3) * a) | None => None end) (L6 fx fxy p q r c1 c2 c3 k1 k2 k3).
  Proof.
    intros Hp Hq Hrr.
    pose proof (rows_comb xs _ _ _ _ _ _ _ _ c1 c2 Nx (proj1 (proj2 (proj2 (same_zero dx0)))) (proj1 (proj2 (proj2 (same_zero dx1)))) (R3 p Hp) (R3 q Hq)) as A1.
    pose proof (rows_comb xs _ _ _ _ _ _ _ _ k1 k2 Nx (proj1 (same_zero dx0)) (proj1 (same_zero dx1)) (R2 p Hp) (R2 q Hq)) as A2.
    assert (S0 : forall o u v, same (ocomb u (zero_if o) v (zero_if o)) (zero_if o) /\ same (ocomb u o v o) o /\
      forall w w' z z', same (ocomb 1 (ocomb u (zero_if o) v (zero_if o)) w (zero_if o)) (ocomb 1 (ocomb z o z' o) w' o)) by (intros []; cbn; auto).
    pose proof (rows_comb xs _ _ _ _ _ _ _ _ 1 c3 Nx (proj1 (S0 dx0 c1 c2)) (proj1 (S0 dx1 c1 c2)) A1 (R3 r Hrr)) as A3.
    pose proof (rows_comb xs _ _ _ _ _ _ _ _ 1 k3 Nx (proj1 (proj2 (S0 dx0 k1 k2))) (proj1 (proj2 (S0 dx1 k1 k2))) A2 (R2 r Hrr)) as A4.
    pose proof (rows_comb xs _ _ _ _ _ _ _ _ 1 (-1) Nx (proj2 (proj2 (S0 dx0 c1 c2)) c3 k3 k1 k2) (proj2 (proj2 (S0 dx1 c1 c2)) c3 k3 k1 k2) A3 A4) as A5.
    assert (O : forall o, ocomb 1 (ocomb 1 (ocomb c1 (zero_if o) c2 (zero_if o)) c3 (zero_if o)) (-1) (ocomb 1 (ocomb k1 o k2 o) k3 o) = match o with Some a => Some (- (k1 + k2 + k3) * a) | None => None end).
    { intros [a|]; cbn; [|reflexivity]. f_equal. ring. }
    rewrite !O in A5. refine (rows_ext xs _ _ _ _ _ _ Nx _ _ A5); intros i Hi; cbn [acomb colof afn]; unfold L6, nx, ny; ring.
  Qed.
  Lemma kill p q r c1 c2 c3 k1 k2 k3 : (0 <= p < ny)%Z -> (0 <= q < ny)%Z -> (0 <= r < ny)%Z -> k1 + k2 + k3 = 0 ->
    (forall i, (0 <= i < nx)%Z -> L6 f fy p q r c1 c2 c3 k1 k2 k3 i = 0) -> forall i, (0 <= i < nx)%Z -> L6 fx fxy p q r c1 c2 c3 k1 k2 k3 i = 0.
  Proof.
    intros Hp Hq Hrr K Z0 i Hi. pose proof (comb_rows p q r c1 c2 c3 k1 k2 k3 Hp Hq Hrr) as A.
    refine (rows_unique xs _ (proj1 Gx) Nx _ _ _ (fun _ => 0) A _ i Hi).
    apply (rows_const xs 0); [exact Nx|destruct dx0 as [a|]; [rewrite K; ring|exact Logic.I]|destruct dx1 as [a|]; [rewrite K; ring|exact Logic.I]|reflexivity|].
    intros k Hk. cbn [afn]. apply Z0. exact Hk.
  Qed.
  (** the mixed derivative is also the derivative of f_x along y *)
  Lemma R4 i : (0 <= i < nx)%Z -> rows ys (rowof fx ny i) (zero_if dy0) (zero_if dy1) (fun j => afn fxy (i * ny + j)%Z).
  Proof.
    intros Hi. pose proof (proj1 (proj2 (proj2 (proj2 Hr)))) as E0. pose proof (proj2 (proj2 (proj2 (proj2 Hr)))) as E1. apply rows_intro; cbv zeta; cbn [rowof afn]; [exact Ny| | |].
    - intros j Hj. fold ny in Hj. set (a := 1 / (afn ys (j - 1 + 1)%Z - afn ys (j - 1)%Z)). set (b := 1 / (afn ys (j + 1)%Z - afn ys j)).
      assert (Q : L6 fx fxy (j - 1) j (j + 1) a (2 * (a + b)) b (-3 * (a * a)) (3 * (a * a) - 3 * (b * b)) (3 * (b * b)) i = 0).
      { apply kill; try lia; [ring|]. intros k Hk. pose proof (rows_interior ys _ _ _ _ j (R1 k Hk) Hj) as P. cbv zeta beta in P. cbn [rowof afn] in P. fold a b in P. fold ny in P.
        replace (j - 1 + 1)%Z with j in P by lia. unfold L6. apply Rminus_diag_eq in P. etransitivity; [|exact P]. ring. }
      replace (j - 1 + 1)%Z with j by lia. apply Rminus_diag_uniq. etransitivity; [|exact Q]. unfold L6. ring.
    - destruct dy0 as [a0|] eqn:Ed; cbn [zero_if].
      + apply E0. exact Hi.
      + change (0 + 1)%Z with 1%Z. set (a := 1 / (afn ys 1%Z - afn ys 0%Z)).
        assert (Q : L6 fx fxy 0 1 1 (2 * a) a 0 (-3 * (a * a)) (3 * (a * a)) 0 i = 0).
        { apply kill; try lia; [ring|]. intros k Hk. pose proof (rows_left ys _ Ny _ _ _ (R1 k Hk)) as P. cbv zeta beta in P. cbn [rowof afn] in P. change (0 + 1)%Z with 1%Z in P. fold a in P. fold ny in P.
          rewrite Ed in P. unfold L6. apply Rminus_diag_eq in P. etransitivity; [|exact P]. ring. }
        apply Rminus_diag_uniq. etransitivity; [|exact Q]. unfold L6. ring.
    - fold ny. destruct dy1 as [a0|] eqn:Ed; cbn [zero_if].
      + apply E1. exact Hi.
      + replace (ny - 2 + 1)%Z with (ny - 1)%Z by lia. set (a := 1 / (afn ys (ny - 1)%Z - afn ys (ny - 2)%Z)).
        assert (Q : L6 fx fxy (ny - 2) (ny - 1) (ny - 1) a (2 * a) 0 (-3 * (a * a)) (3 * (a * a)) 0 i = 0).
        { apply kill; try lia; [ring|]. intros k Hk. pose proof (rows_right ys _ Ny _ _ _ (R1 k Hk)) as P. cbv zeta beta in P. cbn [rowof afn] in P. fold ny in P. replace (ny - 2 + 1)%Z with (ny - 1)%Z in P by lia. fold a in P.
          rewrite Ed in P. unfold L6. apply Rminus_diag_eq in P. etransitivity; [|exact P]. ring. }
        apply Rminus_diag_uniq. etransitivity; [|exact Q]. unfold L6. ring.
  Qed.
  Lemma C2_pxx_all pry x y : pr3 pry -> x_first xs < x < x_last xs -> x_first ys <= y <= x_last ys ->
    is_derive (fun u => C2 xs ys f fx fy fxy v_d pry u y) x (C2 xs ys f fx fy fxy v_d2 pry x y).
  Proof.
    intros P Hx Hy. unfold C2. apply (cub_deriv2 xs _ _ (proj1 Gx) (grid_len xs Gx)).
    pose proof (seg_in ys Gy y Hy) as K. set (j := segof ys y) in *. fold ny in K.
    pose proof (comb_rows j (j + 1) (j + 1) (w3 pry y (afn ys j) (afn ys (j + 1)%Z)) (w4 pry y (afn ys j) (afn ys (j + 1)%Z)) 0
      (- w1 pry y (afn ys j) (afn ys (j + 1)%Z)) (- w2 pry y (afn ys j) (afn ys (j + 1)%Z)) 0 ltac:(lia) ltac:(lia) ltac:(lia)) as A.
    refine (cm2_interior xs _ _ (proj1 Gx) _ _ (rows_ext xs _ _ _ _ _ _ Nx _ _ A) x Hx); intros i Hi; cbn [afn]; unfold rowG; [|change (Fp ys (cpiece ys (rowof fx (alen ys) i) (rowof fxy (alen ys) i)) pry y) with (rowF ys fx fxy pry y i)];
      rewrite (rowF_in ys) by assumption; cbv zeta; fold j ny; rewrite evalC_lin by (auto; apply (x_ne ys (proj1 Gy)); lia); unfold L6; rewrite !Z.add_assoc; ring.
  Qed.
  Lemma C2_pyy_all prx x y : pr3 prx -> x_first ys < y < x_last ys ->
    is_derive (fun u => C2 xs ys f fx fy fxy prx v_d x u) y (C2 xs ys f fx fy fxy prx v_d2 x y).
  Proof.
    intros P Hy. apply (C2_dy xs ys f fx fy fxy Gx); [exact P| |]; intros i Hi; apply (cub_deriv2 ys _ _ (proj1 Gy) (grid_len ys Gy)).
    - exact (cm2_interior ys (rowof f (alen ys) i) (rowof fy (alen ys) i) (proj1 Gy) _ _ (R1 i Hi) y Hy).
    - exact (cm2_interior ys (rowof fx (alen ys) i) (rowof fxy (alen ys) i) (proj1 Gy) _ _ (R4 i Hi) y Hy).
  Qed.
  (** the prescribed derivative along the whole side of the rectangle *)
  Lemma flat_row (g h : arr R) c pr y : (forall j, (0 <= j < alen ys)%Z -> afn g j = c) -> (forall j, (0 <= j < alen ys)%Z -> afn h j = 0) -> pr3 pr -> Fp ys (cpiece ys g h) pr y = c * pr (1, 0, 0, 0).
  Proof.
    intros A B P. destruct (segof_ok ys (proj1 Gy) (grid_len ys Gy) y) as (_ & _ & K). fold ny in K. unfold Fp, cpiece. fold ny. rewrite Z.geb_leb.
    destruct (Z.ltb_spec (segof ys y) 0); [|destruct (Z.leb_spec (ny - 1) (segof ys y))].
    - rewrite A, B by (fold ny; lia). rewrite extrap_eq. destruct P as [->|[->| ->]]; cbn [v_f v_d v_d2]; ring.
    - rewrite A, B by (fold ny; lia). rewrite extrap_eq. destruct P as [->|[->| ->]]; cbn [v_f v_d v_d2]; ring.
    - rewrite !A, !B by (fold ny; lia). pose proof (x_ne ys (proj1 Gy) (segof ys y) ltac:(fold ny; lia)). destruct P as [->|[->| ->]]; unfold evalCubic; cbn [v_f v_d v_d2]; field; lra.
  Qed.
End Nat2.
