(** Two-dimensional cubic splines: boundary conditions, symmetry, linearity, exactness (C61). *)
From Coquelicot Require Import Coquelicot.
From Verif Require Import Arr BinSearchModel SplineModel Interp2Model SplineSpec SplineBand SplineCons SplineQui SplineGlue SplineProofs SplineProofs2 SplineReg Interp2Spec Interp2Proofs Interp2Cons Interp2Nat.
Local Open Scope R_scope.

Lemma cons_rows2 xs ys fm dx0 dx1 dy0 dy1 : grid xs -> grid ys -> table xs ys fm -> plain xs dx0 dx1 -> plain ys dy0 dy1 ->
  exists fx fy fxy, cubic2dNew xs ys fm false dx0 dx1 dy0 dy1 = Ok (mkCub2 xs ys (m_data fm) fx fy fxy) /\
    wf2 (mkCub2 xs ys (m_data fm) fx fy fxy) /\ rows2 xs ys (m_data fm) fx fy fxy dx0 dx1 dy0 dy1.
Proof.
  intros Gx Gy T Px Py. destruct (cubic2d_ok xs ys fm false dx0 dx1 dy0 dy1 Gx Gy T) as (fx & fy & fxy & E & Lx & Ly & Lxy & Vy & Vx & Vm).
  assert (Nx : (2 <= alen xs)%Z) by apply Gx. assert (Ny : (2 <= alen ys)%Z) by apply Gy.
  exists fx, fy, fxy. split; [exact E|]. split; [split; cbn; try assumption; destruct T as ((_ & _ & L) & <- & <-); exact L|].
  assert (R1 : forall i, (0 <= i < alen xs)%Z -> rows ys (rowof (m_data fm) (alen ys) i) dy0 dy1 (fun j => afn fy (i * alen ys + j)%Z)).
  { intros i Hi. refine (rows_ext ys _ _ _ _ _ _ Ny (fun _ _ => eq_refl) _ (slp_rows ys (rowof (m_data fm) (alen ys) i) dy0 dy1 Gy eq_refl (plain_compat _ _ _ _ Py))).
    intros j Hj. symmetry. apply Vy; assumption. }
  assert (Z0 : match dy0 with Some _ => forall i, (0 <= i < alen xs)%Z -> afn fxy (i * alen ys + 0)%Z = 0 | None => True end).
  { destruct dy0; [|exact Logic.I]. intros i Hi. rewrite Vm by lia. unfold premix, flatedge. cbn. reflexivity. }
  assert (Z1 : match dy1 with Some _ => forall i, (0 <= i < alen xs)%Z -> afn fxy (i * alen ys + (alen ys - 1))%Z = 0 | None => True end).
  { destruct dy1; [|exact Logic.I]. intros i Hi. rewrite Vm by lia. unfold premix, flatedge. rewrite Z.eqb_refl. cbn. rewrite orb_true_r. reflexivity. }
  split; [exact R1|]. split; [|split; [|split; assumption]].
  - intros j Hj. refine (rows_ext xs _ _ _ _ _ _ Nx (fun _ _ => eq_refl) _ (slp_rows xs (colof (m_data fm) (alen xs) (alen ys) j) dx0 dx1 Gx eq_refl (plain_compat _ _ _ _ Px))).
    intros i Hi. symmetry. apply Vx; assumption.
  - intros j Hj. destruct (flatedge ys dy0 dy1 j) eqn:Fe.
    + assert (C : exists c, forall i, (0 <= i < alen xs)%Z -> afn fy (i * alen ys + j)%Z = c).
      { unfold flatedge in Fe. apply orb_prop in Fe. destruct Fe as [Fe|Fe]; apply andb_prop in Fe; destruct Fe as [Ej Ef]; apply Z.eqb_eq in Ej.
        - destruct dy0 as [c|]; [|discriminate]. exists c. intros i Hi. pose proof (rows_left ys _ Ny _ _ _ (R1 i Hi)) as Q. cbv zeta beta in Q. rewrite Ej. exact Q.
        - destruct dy1 as [c|]; [|discriminate]. exists c. intros i Hi. pose proof (rows_right ys _ Ny _ _ _ (R1 i Hi)) as Q. cbv zeta beta in Q. rewrite Ej. exact Q. }
      destruct C as [c C]. apply (rows_const xs c); [exact Nx|destruct dx0; reflexivity|destruct dx1; reflexivity| |].
      * intros i Hi. rewrite Vm by assumption. unfold premix. rewrite Fe. reflexivity.
      * intros i Hi. apply C. exact Hi.
    + refine (rows_ext xs _ _ _ _ _ _ Nx (fun _ _ => eq_refl) _ (slp_rows xs (colof fy (alen xs) (alen ys) j) (zero_if dx0) (zero_if dx1) Gx eq_refl (plain_compat _ _ _ _ (plain_zero _ _ _ Px)))).
      intros i Hi. rewrite Vm by assumption. unfold premix. rewrite Fe. reflexivity.
Qed.

Lemma evalC_linear t xl xh a b : xl <> xh -> v_f (evalCubic t xl xh (a + b * xl) (a + b * xh) b b) = a + b * t /\ v_d (evalCubic t xl xh (a + b * xl) (a + b * xh) b b) = b /\
  v_d2 (evalCubic t xl xh (a + b * xl) (a + b * xh) b b) = 0.
Proof. intros N. unfold evalCubic; cbn [v_f v_d v_d2]. repeat split; field; lra. Qed.
Lemma rows_linear x f a b d : grid x -> (forall i, (0 <= i < alen x)%Z -> afn f i = a + b * afn x i) -> rows x f None None d -> forall i, (0 <= i < alen x)%Z -> d i = b.
Proof.
  intros [Hx Hn] F A i Hi. refine (rows_unique x f Hx Hn None None d (fun _ => b) A _ i Hi).
  assert (N : forall k, (0 <= k < alen x - 1)%Z -> afn x k <> afn x (k + 1)%Z) by (intros k Hk; apply x_ne; assumption).
  apply rows_intro; cbv zeta; [exact Hn| | |].
  - intros r Hr. pose proof (N r ltac:(lia)). pose proof (N (r - 1)%Z ltac:(lia)) as N1. rewrite !F by lia. replace (r - 1 + 1)%Z with r in * by lia. field. lra.
  - pose proof (N 0%Z ltac:(lia)) as N1. change (0 + 1)%Z with 1%Z in *. rewrite !F by lia. field. lra.
  - pose proof (N (alen x - 2)%Z ltac:(lia)) as N1. replace (alen x - 2 + 1)%Z with (alen x - 1)%Z in * by lia. rewrite !F by lia. field. lra.
Qed.

Section More.
  Variables (xs ys f fx fy fxy : arr R) (dx0 dx1 dy0 dy1 : option R).
  Hypothesis Gx : grid xs.
  Hypothesis Gy : grid ys.
  Hypothesis Hr : rows2 xs ys f fx fy fxy dx0 dx1 dy0 dy1.
  Let nx := alen xs.
  Let ny := alen ys.
  Let Nx : (2 <= nx)%Z. Proof. apply Gx. Qed.
  Let Ny : (2 <= ny)%Z. Proof. apply Gy. Qed.
  Let CC := C2 xs ys f fx fy fxy.
  Lemma side_x0 y a : dx0 = Some a -> CC v_d v_f (x_first xs) y = a.
  Proof.
    intros E. unfold CC, x_first. rewrite (proj2 (C2_xline xs ys f fx fy fxy Gx v_f y 0 ltac:(fold nx; lia))). unfold rowG.
    rewrite (flat_row xs ys Gy _ _ a); [cbn [v_f]; ring| | |left; reflexivity]; intros j Hj; cbn [rowof afn]; fold ny.
    - pose proof (rows_left xs _ Nx _ _ _ (R2 xs ys f fx fy fxy _ _ _ _ Hr j Hj)) as Q. rewrite E in Q. exact Q.
    - pose proof (rows_left xs _ Nx _ _ _ (R3 xs ys f fx fy fxy _ _ _ _ Hr j Hj)) as Q. rewrite E in Q. exact Q.
  Qed.
  Lemma side_x1 y a : dx1 = Some a -> CC v_d v_f (x_last xs) y = a.
  Proof.
    intros E. unfold CC, x_last. rewrite (proj2 (C2_xline xs ys f fx fy fxy Gx v_f y (alen xs - 1) ltac:(fold nx; lia))). unfold rowG.
    rewrite (flat_row xs ys Gy _ _ a); [cbn [v_f]; ring| | |left; reflexivity]; intros j Hj; cbn [rowof afn]; fold ny.
    - pose proof (rows_right xs _ Nx _ _ _ (R2 xs ys f fx fy fxy _ _ _ _ Hr j Hj)) as Q. rewrite E in Q. exact Q.
    - pose proof (rows_right xs _ Nx _ _ _ (R3 xs ys f fx fy fxy _ _ _ _ Hr j Hj)) as Q. rewrite E in Q. exact Q.
  Qed.
  Lemma side_y0 x a : dy0 = Some a -> CC v_f v_d x (x_first ys) = a.
  Proof.
    intros E. unfold CC, x_first. rewrite (proj2 (C2_yline xs ys f fx fy fxy Gx Gy v_f x 0 ltac:(fold ny; lia))).
    pose proof (proj1 (proj2 (proj2 (proj2 Hr)))) as E0. rewrite E in E0.
    rewrite (flat_row ys xs Gx _ _ a); [cbn [v_f]; ring| | |left; reflexivity]; intros i Hi; cbn [colof afn].
    - pose proof (rows_left ys _ Ny _ _ _ (R1 xs ys f fx fy fxy _ _ _ _ Hr i Hi)) as Q. rewrite E in Q. exact Q.
    - apply E0. exact Hi.
  Qed.
  Lemma side_y1 x a : dy1 = Some a -> CC v_f v_d x (x_last ys) = a.
  Proof.
    intros E. unfold CC, x_last. rewrite (proj2 (C2_yline xs ys f fx fy fxy Gx Gy v_f x (alen ys - 1) ltac:(fold ny; lia))).
    pose proof (proj2 (proj2 (proj2 (proj2 Hr)))) as E0. rewrite E in E0.
    rewrite (flat_row ys xs Gx _ _ a); [cbn [v_f]; ring| | |left; reflexivity]; intros i Hi; cbn [colof afn].
    - pose proof (rows_right ys _ Ny _ _ _ (R1 xs ys f fx fy fxy _ _ _ _ Hr i Hi)) as Q. rewrite E in Q. exact Q.
    - apply E0. exact Hi.
  Qed.
  (** natural sides *)
  Lemma row_rows pry y : pr3 pry -> x_first ys <= y <= x_last ys -> exists L R, (dx0 = None -> L = None) /\ (dx1 = None -> R = None) /\
    rows xs (mkArr nx (rowF ys f fy pry y)) L R (afn (mkArr nx (rowG ys fx fxy pry y))).
  Proof.
    intros P Hy. pose proof (seg_in ys Gy y Hy) as K. set (j := segof ys y) in *. fold ny in K.
    pose proof (comb_rows xs ys f fx fy fxy dx0 dx1 dy0 dy1 Gx Hr j (j + 1) (j + 1) (w3 pry y (afn ys j) (afn ys (j + 1)%Z)) (w4 pry y (afn ys j) (afn ys (j + 1)%Z)) 0
      (- w1 pry y (afn ys j) (afn ys (j + 1)%Z)) (- w2 pry y (afn ys j) (afn ys (j + 1)%Z)) 0 ltac:(fold ny; lia) ltac:(fold ny; lia) ltac:(fold ny; lia)) as A.
    eexists. eexists. split; [|split; [|refine (rows_ext xs _ _ _ _ _ _ Nx _ _ A)]]; try (intros ->; reflexivity); intros i Hi; cbn [afn]; unfold rowG; [|change (Fp ys (cpiece ys (rowof fx (alen ys) i) (rowof fxy (alen ys) i)) pry y) with (rowF ys fx fxy pry y i)];
      rewrite (rowF_in ys) by assumption; cbv zeta; fold j ny; rewrite evalC_lin by (auto; apply (x_ne ys (proj1 Gy)); fold ny; lia); unfold L6; rewrite !Z.add_assoc; fold ny; ring.
  Qed.
  Lemma nat_x0 y : dx0 = None -> x_first ys <= y <= x_last ys -> CC v_d2 v_f (x_first xs) y = 0.
  Proof.
    intros E Hy. destruct (row_rows v_f y (or_introl eq_refl) Hy) as (L & R & EL & _ & A). unfold CC, C2. fold nx.
    exact (proj2 (cm2_left xs _ _ (proj1 Gx) Nx L R A (EL E))).
  Qed.
  Lemma nat_x1 y : dx1 = None -> x_first ys <= y <= x_last ys -> CC v_d2 v_f (x_last xs) y = 0.
  Proof.
    intros E Hy. destruct (row_rows v_f y (or_introl eq_refl) Hy) as (L & R & _ & ER & A). unfold CC, C2. fold nx.
    exact (proj2 (cm2_right xs _ _ (proj1 Gx) Nx L R A (ER E))).
  Qed.
  Lemma C2_zero pry x y : (forall i, (0 <= i < nx)%Z -> rowF ys f fy pry y i = 0 /\ rowG ys fx fxy pry y i = 0) -> x_first xs <= x <= x_last xs -> CC v_f pry x y = 0.
  Proof.
    intros A Hx. pose proof (seg_in xs Gx x Hx) as K. unfold CC. rewrite (C2_lin xs ys f fx fy fxy Gx) by (left; reflexivity). cbv zeta.
    rewrite Z.geb_leb, (proj2 (Z.ltb_ge _ 0)), (proj2 (Z.leb_gt _ _)) by lia. cbn [orb].
    destruct (A (segof xs x) ltac:(fold nx in K; lia)) as [-> ->]. destruct (A (segof xs x + 1)%Z ltac:(fold nx in K; lia)) as [-> ->]. ring.
  Qed.
  Lemma nat_y0 x : dy0 = None -> x_first xs <= x <= x_last xs -> CC v_f v_d2 x (x_first ys) = 0.
  Proof.
    intros E Hx. apply C2_zero; [|exact Hx]. intros i Hi. split.
    - exact (proj2 (cm2_left ys (rowof f (alen ys) i) (rowof fy (alen ys) i) (proj1 Gy) Ny _ _ (R1 xs ys f fx fy fxy _ _ _ _ Hr i Hi) E)).
    - refine (proj2 (cm2_left ys (rowof fx (alen ys) i) (rowof fxy (alen ys) i) (proj1 Gy) Ny _ _ (R4 xs ys f fx fy fxy _ _ _ _ Gx Gy Hr i Hi) _)). rewrite E. reflexivity.
  Qed.
  Lemma nat_y1 x : dy1 = None -> x_first xs <= x <= x_last xs -> CC v_f v_d2 x (x_last ys) = 0.
  Proof.
    intros E Hx. apply C2_zero; [|exact Hx]. intros i Hi. split.
    - exact (proj2 (cm2_right ys (rowof f (alen ys) i) (rowof fy (alen ys) i) (proj1 Gy) Ny _ _ (R1 xs ys f fx fy fxy _ _ _ _ Hr i Hi) E)).
    - refine (proj2 (cm2_right ys (rowof fx (alen ys) i) (rowof fxy (alen ys) i) (proj1 Gy) Ny _ _ (R4 xs ys f fx fy fxy _ _ _ _ Gx Gy Hr i Hi) _)). rewrite E. reflexivity.
  Qed.
  (** inside the rectangle: the explicit bilinear form *)
  Lemma C2_in prx pry x y : pr3 prx -> pr3 pry -> inside xs ys x y -> CC prx pry x y =
    let i := segof xs x in let j := segof ys y in
    let W1 := w1 prx x (afn xs i) (afn xs (i + 1)%Z) in let W2 := w2 prx x (afn xs i) (afn xs (i + 1)%Z) in let W3 := w3 prx x (afn xs i) (afn xs (i + 1)%Z) in let W4 := w4 prx x (afn xs i) (afn xs (i + 1)%Z) in
    let V1 := w1 pry y (afn ys j) (afn ys (j + 1)%Z) in let V2 := w2 pry y (afn ys j) (afn ys (j + 1)%Z) in let V3 := w3 pry y (afn ys j) (afn ys (j + 1)%Z) in let V4 := w4 pry y (afn ys j) (afn ys (j + 1)%Z) in
    let g (A B : arr R) k := afn A (k * ny + j)%Z * V1 + afn A (k * ny + (j + 1))%Z * V2 + afn B (k * ny + j)%Z * V3 + afn B (k * ny + (j + 1))%Z * V4 in
    g f fy i * W1 + g f fy (i + 1)%Z * W2 + g fx fxy i * W3 + g fx fxy (i + 1)%Z * W4.
  Proof.
    intros Px Py [Ix Iy]. pose proof (seg_in xs Gx x Ix) as K. pose proof (seg_in ys Gy y Iy) as K'. unfold CC. rewrite (C2_lin xs ys f fx fy fxy Gx) by exact Px. cbv zeta.
    rewrite Z.geb_leb, (proj2 (Z.ltb_ge _ 0)), (proj2 (Z.leb_gt _ _)) by lia. cbn [orb]. unfold rowG.
    repeat match goal with |- context [Fp ys (cpiece ys (rowof fx ?a ?b) ?c) ?p y] => change (Fp ys (cpiece ys (rowof fx a b) c) p y) with (rowF ys fx fxy p y b) end.
    rewrite !(rowF_in ys) by assumption. cbv zeta. fold ny. rewrite !Z.add_assoc. rewrite !evalC_lin by (auto; apply (x_ne ys (proj1 Gy)); lia). reflexivity.
  Qed.
End More.

(** exchange of the coordinates *)
Lemma C2_swap xs ys f fx fy fxy f' fx' fy' fxy' prx pry x y : grid xs -> grid ys -> pr3 prx -> pr3 pry -> inside xs ys x y ->
  (forall i j, (0 <= i < alen xs)%Z -> (0 <= j < alen ys)%Z -> afn f' (j * alen xs + i)%Z = afn f (i * alen ys + j)%Z /\ afn fx' (j * alen xs + i)%Z = afn fy (i * alen ys + j)%Z /\
     afn fy' (j * alen xs + i)%Z = afn fx (i * alen ys + j)%Z /\ afn fxy' (j * alen xs + i)%Z = afn fxy (i * alen ys + j)%Z) ->
  C2 xs ys f fx fy fxy prx pry x y = C2 ys xs f' fx' fy' fxy' pry prx y x.
Proof.
  intros Gx Gy Px Py [Ix Iy] A. rewrite (C2_in xs ys f fx fy fxy Gx Gy prx pry x y Px Py (conj Ix Iy)). rewrite (C2_in ys xs f' fx' fy' fxy' Gy Gx pry prx y x Py Px (conj Iy Ix)). cbv zeta.
  pose proof (seg_in xs Gx x Ix) as K. pose proof (seg_in ys Gy y Iy) as K'. set (i := segof xs x) in *. set (j := segof ys y) in *.
  destruct (A i j ltac:(lia) ltac:(lia)) as (-> & -> & -> & ->). destruct (A (i + 1)%Z j ltac:(lia) ltac:(lia)) as (-> & -> & -> & ->).
  destruct (A i (j + 1)%Z ltac:(lia) ltac:(lia)) as (-> & -> & -> & ->). destruct (A (i + 1)%Z (j + 1)%Z ltac:(lia) ltac:(lia)) as (-> & -> & -> & ->). ring.
Qed.
Lemma rows2_swap xs ys f fx fy fxy f' fx' fy' fxy' dx0 dx1 dy0 dy1 : grid xs -> grid ys ->
  (forall i j, (0 <= i < alen xs)%Z -> (0 <= j < alen ys)%Z -> afn f' (j * alen xs + i)%Z = afn f (i * alen ys + j)%Z) ->
  rows2 xs ys f fx fy fxy dx0 dx1 dy0 dy1 -> rows2 ys xs f' fx' fy' fxy' dy0 dy1 dx0 dx1 ->
  forall i j, (0 <= i < alen xs)%Z -> (0 <= j < alen ys)%Z -> afn f' (j * alen xs + i)%Z = afn f (i * alen ys + j)%Z /\ afn fx' (j * alen xs + i)%Z = afn fy (i * alen ys + j)%Z /\
     afn fy' (j * alen xs + i)%Z = afn fx (i * alen ys + j)%Z /\ afn fxy' (j * alen xs + i)%Z = afn fxy (i * alen ys + j)%Z.
Proof.
  intros Gx Gy F A B i j Hi Hj. assert (Nx : (2 <= alen xs)%Z) by apply Gx. assert (Ny : (2 <= alen ys)%Z) by apply Gy.
  assert (FX : forall i j, (0 <= i < alen xs)%Z -> (0 <= j < alen ys)%Z -> afn fx' (j * alen xs + i)%Z = afn fy (i * alen ys + j)%Z).
  { intros p q Hp Hq. pose proof (R2 _ _ _ _ _ _ _ _ _ _ B p Hp) as U. pose proof (R1 _ _ _ _ _ _ _ _ _ _ A p Hp) as V.
    refine (rows_unique ys _ (proj1 Gy) Ny _ _ (fun j => afn fx' (j * alen xs + p)%Z) (fun j => afn fy (p * alen ys + j)%Z) (rows_ext ys _ _ _ _ _ _ Ny _ (fun _ _ => eq_refl) U) V q Hq).
    intros k Hk. cbn [rowof colof afn]. apply F; assumption. }
  assert (FY : forall i j, (0 <= i < alen xs)%Z -> (0 <= j < alen ys)%Z -> afn fy' (j * alen xs + i)%Z = afn fx (i * alen ys + j)%Z).
  { intros p q Hp Hq. pose proof (R1 _ _ _ _ _ _ _ _ _ _ B q Hq) as U. pose proof (R2 _ _ _ _ _ _ _ _ _ _ A q Hq) as V.
    refine (rows_unique xs _ (proj1 Gx) Nx _ _ (fun i => afn fy' (q * alen xs + i)%Z) (fun i => afn fx (i * alen ys + q)%Z) (rows_ext xs _ _ _ _ _ _ Nx _ (fun _ _ => eq_refl) U) V p Hp).
    intros k Hk. cbn [rowof colof afn]. apply F; assumption. }
  split; [apply F; assumption|]. split; [apply FX; assumption|]. split; [apply FY; assumption|].
  pose proof (R3 _ _ _ _ _ _ _ _ _ _ B i Hi) as U. pose proof (R4 _ _ _ _ _ _ _ _ _ _ Gx Gy A i Hi) as V.
  refine (rows_unique ys _ (proj1 Gy) Ny _ _ (fun j => afn fxy' (j * alen xs + i)%Z) (fun j => afn fxy (i * alen ys + j)%Z) (rows_ext ys _ _ _ _ _ _ Ny _ (fun _ _ => eq_refl) U) V j Hj).
  intros k Hk. cbn [rowof colof afn]. apply FY; assumption.
Qed.
(** linearity in the data, for natural boundary conditions *)
Lemma nat_comb x f g h d e k a b : grid x -> (forall i, (0 <= i < alen x)%Z -> afn h i = a * afn f i + b * afn g i) ->
  rows x f None None d -> rows x g None None e -> rows x h None None k -> forall i, (0 <= i < alen x)%Z -> k i = a * d i + b * e i.
Proof.
  intros [Hx Hn] F A B C. pose proof (rows_comb x _ _ None None None None _ _ a b Hn Logic.I Logic.I A B) as U. cbn [ocomb] in U.
  assert (V : rows x h None None (fun i => a * d i + b * e i)).
  { refine (rows_ext x _ _ _ _ _ _ Hn _ (fun _ _ => eq_refl) U). intros i Hi. cbn [acomb afn]. symmetry. apply F. exact Hi. }
  exact (rows_unique x _ Hx Hn _ _ k _ C V).
Qed.
Lemma rows2_comb xs ys f fx fy fxy g gx gy gxy h hx hy hxy a b : grid xs -> grid ys ->
  (forall i j, (0 <= i < alen xs)%Z -> (0 <= j < alen ys)%Z -> afn h (i * alen ys + j)%Z = a * afn f (i * alen ys + j)%Z + b * afn g (i * alen ys + j)%Z) ->
  rows2 xs ys f fx fy fxy None None None None -> rows2 xs ys g gx gy gxy None None None None -> rows2 xs ys h hx hy hxy None None None None ->
  forall i j, (0 <= i < alen xs)%Z -> (0 <= j < alen ys)%Z -> 
    afn hx (i * alen ys + j)%Z = a * afn fx (i * alen ys + j)%Z + b * afn gx (i * alen ys + j)%Z /\ afn hy (i * alen ys + j)%Z = a * afn fy (i * alen ys + j)%Z + b * afn gy (i * alen ys + j)%Z /\
    afn hxy (i * alen ys + j)%Z = a * afn fxy (i * alen ys + j)%Z + b * afn gxy (i * alen ys + j)%Z.
Proof.
  intros Gx Gy F A B C i j Hi Hj.
  assert (FY : forall i j, (0 <= i < alen xs)%Z -> (0 <= j < alen ys)%Z -> afn hy (i * alen ys + j)%Z = a * afn fy (i * alen ys + j)%Z + b * afn gy (i * alen ys + j)%Z).
  { intros p q Hp Hq. exact (nat_comb ys (rowof f (alen ys) p) (rowof g (alen ys) p) (rowof h (alen ys) p) _ _ (fun j => afn hy (p * alen ys + j)%Z) a b Gy (fun k Hk => F p k Hp Hk) (R1 _ _ _ _ _ _ _ _ _ _ A p Hp) (R1 _ _ _ _ _ _ _ _ _ _ B p Hp) (R1 _ _ _ _ _ _ _ _ _ _ C p Hp) q Hq). }
  split; [|split; [apply FY; assumption|]].
  - exact (nat_comb xs (colof f (alen xs) (alen ys) j) (colof g (alen xs) (alen ys) j) (colof h (alen xs) (alen ys) j) _ _ (fun i => afn hx (i * alen ys + j)%Z) a b Gx (fun k Hk => F k j Hk Hj) (R2 _ _ _ _ _ _ _ _ _ _ A j Hj) (R2 _ _ _ _ _ _ _ _ _ _ B j Hj) (R2 _ _ _ _ _ _ _ _ _ _ C j Hj) i Hi).
  - exact (nat_comb xs (colof fy (alen xs) (alen ys) j) (colof gy (alen xs) (alen ys) j) (colof hy (alen xs) (alen ys) j) _ _ (fun i => afn hxy (i * alen ys + j)%Z) a b Gx (fun k Hk => FY k j Hk Hj) (R3 _ _ _ _ _ _ _ _ _ _ A j Hj) (R3 _ _ _ _ _ _ _ _ _ _ B j Hj) (R3 _ _ _ _ _ _ _ _ _ _ C j Hj) i Hi).
Qed.
Lemma C2_comb xs ys f fx fy fxy g gx gy gxy h hx hy hxy a b prx pry x y : grid xs -> grid ys -> pr3 prx -> pr3 pry -> inside xs ys x y ->
  (forall i j, (0 <= i < alen xs)%Z -> (0 <= j < alen ys)%Z -> afn h (i * alen ys + j)%Z = a * afn f (i * alen ys + j)%Z + b * afn g (i * alen ys + j)%Z /\
    afn hx (i * alen ys + j)%Z = a * afn fx (i * alen ys + j)%Z + b * afn gx (i * alen ys + j)%Z /\ afn hy (i * alen ys + j)%Z = a * afn fy (i * alen ys + j)%Z + b * afn gy (i * alen ys + j)%Z /\
    afn hxy (i * alen ys + j)%Z = a * afn fxy (i * alen ys + j)%Z + b * afn gxy (i * alen ys + j)%Z) ->
  C2 xs ys h hx hy hxy prx pry x y = a * C2 xs ys f fx fy fxy prx pry x y + b * C2 xs ys g gx gy gxy prx pry x y.
Proof.
  intros Gx Gy Px Py I A. rewrite !(C2_in xs ys _ _ _ _ Gx Gy prx pry x y Px Py I). cbv zeta. destruct I as [Ix Iy].
  pose proof (seg_in xs Gx x Ix) as K. pose proof (seg_in ys Gy y Iy) as K'. set (i := segof xs x) in *. set (j := segof ys y) in *.
  destruct (A i j ltac:(lia) ltac:(lia)) as (-> & -> & -> & ->). destruct (A (i + 1)%Z j ltac:(lia) ltac:(lia)) as (-> & -> & -> & ->).
  destruct (A i (j + 1)%Z ltac:(lia) ltac:(lia)) as (-> & -> & -> & ->). destruct (A (i + 1)%Z (j + 1)%Z ltac:(lia) ltac:(lia)) as (-> & -> & -> & ->). ring.
Qed.
(** bilinear functions *)
Lemma bilin_exact xs ys f fx fy fxy a b c d x y : grid xs -> grid ys -> rows2 xs ys f fx fy fxy None None None None ->
  (forall i j, (0 <= i < alen xs)%Z -> (0 <= j < alen ys)%Z -> afn f (i * alen ys + j)%Z = a + b * afn xs i + c * afn ys j + d * afn xs i * afn ys j) ->
  inside xs ys x y -> let C := C2 xs ys f fx fy fxy in
  C v_f v_f x y = a + b * x + c * y + d * x * y /\ C v_d v_f x y = b + d * y /\ C v_f v_d x y = c + d * x /\ C v_d2 v_f x y = 0 /\ C v_d v_d x y = d /\ C v_f v_d2 x y = 0.
Proof.
  intros Gx Gy Hr F I. pose proof I as [Ix Iy]. cbv zeta. assert (Nx : (2 <= alen xs)%Z) by apply Gx. assert (Ny : (2 <= alen ys)%Z) by apply Gy.
  assert (FY : forall i j, (0 <= i < alen xs)%Z -> (0 <= j < alen ys)%Z -> afn fy (i * alen ys + j)%Z = c + d * afn xs i).
  { intros i j Hi Hj. refine (rows_linear ys (rowof f (alen ys) i) (a + b * afn xs i) (c + d * afn xs i) _ Gy _ (R1 _ _ _ _ _ _ _ _ _ _ Hr i Hi) j Hj). intros k Hk. cbn [rowof afn]. rewrite F by assumption. ring. }
  assert (FX : forall i j, (0 <= i < alen xs)%Z -> (0 <= j < alen ys)%Z -> afn fx (i * alen ys + j)%Z = b + d * afn ys j).
  { intros i j Hi Hj. refine (rows_linear xs (colof f (alen xs) (alen ys) j) (a + c * afn ys j) (b + d * afn ys j) _ Gx _ (R2 _ _ _ _ _ _ _ _ _ _ Hr j Hj) i Hi). intros k Hk. cbn [colof afn]. rewrite F by assumption. ring. }
  assert (FM : forall i j, (0 <= i < alen xs)%Z -> (0 <= j < alen ys)%Z -> afn fxy (i * alen ys + j)%Z = d).
  { intros i j Hi Hj. refine (rows_linear xs (colof fy (alen xs) (alen ys) j) c d _ Gx _ (R3 _ _ _ _ _ _ _ _ _ _ Hr j Hj) i Hi). intros k Hk. cbn [colof afn]. rewrite FY by assumption. reflexivity. }
  pose proof (seg_in xs Gx x Ix) as K. pose proof (seg_in ys Gy y Iy) as K'.
  pose proof (x_ne xs (proj1 Gx) (segof xs x) ltac:(lia)) as Qx. pose proof (x_ne ys (proj1 Gy) (segof ys y) ltac:(lia)) as Qy.
  rewrite !(C2_in xs ys _ _ _ _ Gx Gy) by (unfold pr3; auto). cbv beta zeta. rewrite !F, !FX, !FY, !FM by lia.
  assert (W : forall t p q, p <> q -> w1 v_f t p q + w2 v_f t p q = 1 /\ w1 v_f t p q * p + w2 v_f t p q * q + w3 v_f t p q + w4 v_f t p q = t /\
    w1 v_d t p q + w2 v_d t p q = 0 /\ w1 v_d t p q * p + w2 v_d t p q * q + w3 v_d t p q + w4 v_d t p q = 1 /\
    w1 v_d2 t p q + w2 v_d2 t p q = 0 /\ w1 v_d2 t p q * p + w2 v_d2 t p q * q + w3 v_d2 t p q + w4 v_d2 t p q = 0).
  { intros t p q N. unfold w1, w2, w3, w4, evalCubic; cbn [v_f v_d v_d2]. repeat split; field; lra. }
  assert (G : forall p q A1 A2 A3 A4 B1 B2 B3 B4 p' q' u v u' v', A1 + A2 = u -> A1 * p + A2 * q + A3 + A4 = v -> B1 + B2 = u' -> B1 * p' + B2 * q' + B3 + B4 = v' ->
    ((a + b * p + c * p' + d * p * p') * B1 + (a + b * p + c * q' + d * p * q') * B2 + (c + d * p) * B3 + (c + d * p) * B4) * A1 +
    ((a + b * q + c * p' + d * q * p') * B1 + (a + b * q + c * q' + d * q * q') * B2 + (c + d * q) * B3 + (c + d * q) * B4) * A2 +
    ((b + d * p') * B1 + (b + d * q') * B2 + d * B3 + d * B4) * A3 + ((b + d * p') * B1 + (b + d * q') * B2 + d * B3 + d * B4) * A4 = a * u * u' + b * v * u' + c * u * v' + d * v * v').
  { intros. subst u v u' v'. ring. }
  destruct (W x _ _ Qx) as (X1 & X2 & X3 & X4 & X5 & X6). destruct (W y _ _ Qy) as (Y1 & Y2 & Y3 & Y4 & Y5 & Y6).
  split; [|split; [|split; [|split; [|split]]]].
  - rewrite (G _ _ _ _ _ _ _ _ _ _ _ _ _ _ _ _ X1 X2 Y1 Y2). ring.
  - rewrite (G _ _ _ _ _ _ _ _ _ _ _ _ _ _ _ _ X3 X4 Y1 Y2). ring.
  - rewrite (G _ _ _ _ _ _ _ _ _ _ _ _ _ _ _ _ X1 X2 Y3 Y4). ring.
  - rewrite (G _ _ _ _ _ _ _ _ _ _ _ _ _ _ _ _ X5 X6 Y1 Y2). ring.
  - rewrite (G _ _ _ _ _ _ _ _ _ _ _ _ _ _ _ _ X3 X4 Y3 Y4). ring.
  - rewrite (G _ _ _ _ _ _ _ _ _ _ _ _ _ _ _ _ X1 X2 Y5 Y6). ring.
Qed.
