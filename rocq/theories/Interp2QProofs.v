(** Two-dimensional quintic splines: exactness and flat rows (C61). *)
From Coquelicot Require Import Coquelicot.
From Verif Require Import Arr BinSearchModel SplineModel Interp2Model SplineSpec SplineBand SplineCons SplineQui SplineGlue SplineProofs SplineProofs2 SplineReg Interp2Spec Interp2QSpec Interp2Proofs Interp2Cons Interp2Nat Interp2Nat2 Interp2Quin Interp2QCons.
Local Open Scope R_scope.

(** ---- cubic polynomials in one dimension ---- *)
Lemma qrows_unique x f g d e : grid x -> qrows x f g d -> qrows x f g e -> forall r, (0 <= r < alen x)%Z -> d r = e r.
Proof.
  intros [Hx Hn] A B. apply (tri_unique (alen x) _ _ _ d e ltac:(lia) (quintic_dom x Hx Hn)). intros r Hr. pose proof (A r Hr) as P. pose proof (B r Hr) as Q. etransitivity; [exact P|symmetry; exact Q].
Qed.
Lemma qrows_cubic x f g p : grid x -> (forall i, (0 <= i < alen x)%Z -> afn f i = poly3 p (afn x i)) -> (forall i, (0 <= i < alen x)%Z -> afn g i = dpoly3 p (afn x i)) ->
  qrows x f g (fun i => ddpoly3 p (afn x i)).
Proof.
  intros [Hx Hn] F G r Hr. assert (N : forall k, (0 <= k < alen x - 1)%Z -> afn x k <> afn x (k + 1)%Z) by (intros k Hk; apply x_ne; assumption).
  unfold tri_sum, qlo, qup, qrh. destruct (Z.ltb_spec 0 r) as [A|A]; destruct (Z.ltb_spec r (alen x - 1)) as [B|B]; try lia.
  - rewrite (proj2 (Z.eqb_neq r (alen x - 1))), (proj2 (Z.eqb_neq r 0)) by lia. pose proof (N r ltac:(lia)). pose proof (N (r - 1)%Z ltac:(lia)) as N1. replace (r - 1 + 1)%Z with r in * by lia. rewrite !F, !G by lia.
    unfold poly3, dpoly3, ddpoly3. field. lra.
  - rewrite (proj2 (Z.eqb_eq r (alen x - 1))), (proj2 (Z.eqb_neq r 0)) by lia. replace r with (alen x - 1)%Z by lia. pose proof (N (alen x - 2)%Z ltac:(lia)) as N1.
    replace (alen x - 1 - 1 + 1)%Z with (alen x - 1)%Z by lia. replace (alen x - 1 - 1)%Z with (alen x - 2)%Z by lia. replace (alen x - 2 + 1)%Z with (alen x - 1)%Z in * by lia. rewrite !F, !G by lia.
    unfold poly3, dpoly3, ddpoly3. field. lra.
  - rewrite (proj2 (Z.eqb_eq r 0)) by lia. replace r with 0%Z by lia. pose proof (N 0%Z ltac:(lia)) as N1. change (0 + 1)%Z with 1%Z in *. rewrite !F, !G by lia. unfold poly3, dpoly3, ddpoly3. field. lra.
Qed.
Lemma qsl_cubic x f g p : grid x -> alen f = alen x -> alen g = alen x -> (forall i, (0 <= i < alen x)%Z -> afn f i = poly3 p (afn x i)) -> (forall i, (0 <= i < alen x)%Z -> afn g i = dpoly3 p (afn x i)) ->
  forall i, (0 <= i < alen x)%Z -> afn (qsl x f g) i = ddpoly3 p (afn x i).
Proof. intros Gr Lf Lg F G. apply (qrows_unique x f g); [exact Gr|apply (qsl_ok x f g Gr Lf Lg)|apply qrows_cubic; assumption]. Qed.
Definition pop (pr : vals -> R) (op : (Z -> R) -> R -> R) : Prop := (pr = v_f /\ op = poly3) \/ (pr = v_d /\ op = dpoly3) \/ (pr = v_d2 /\ op = ddpoly3).
Lemma evalQ_cubic pr op p t a b : pop pr op -> a <> b -> pr (evalQuintic t a b (poly3 p a) (poly3 p b) (dpoly3 p a) (dpoly3 p b) (ddpoly3 p a) (ddpoly3 p b)) = op p t.
Proof.
  intros P N. unfold evalQuintic. destruct (Req_EM_T t b) as [->|_]; destruct P as [[-> ->]|[[-> ->]|[-> ->]]]; cbn [v_f v_d v_d2]; try reflexivity; unfold poly3, dpoly3, ddpoly3; field; lra.
Qed.
Lemma qF_cubic x f d s p pr op t : grid x -> pop pr op -> x_first x <= t <= x_last x -> (forall i, (0 <= i < alen x)%Z -> afn f i = poly3 p (afn x i) /\ afn d i = dpoly3 p (afn x i) /\ afn s i = ddpoly3 p (afn x i)) ->
  Fp x (qpiece x f d s) pr t = op p t.
Proof.
  intros G P H A. pose proof (seg_in x G t H) as K. unfold Fp. rewrite qpiece_in by exact K. destruct (A (segof x t) ltac:(lia)) as (-> & -> & ->). destruct (A (segof x t + 1)%Z ltac:(lia)) as (-> & -> & ->).
  apply evalQ_cubic; [exact P|]. apply x_ne; [apply G|exact K].
Qed.
Lemma commute pr1 op1 pr2 op2 c x y : pop pr1 op1 -> pop pr2 op2 -> op1 (fun m => op2 (c m) y) x = op2 (fun l => op1 (fun m : Z => c m l) x) y.
Proof. intros [[_ ->]|[[_ ->]|[_ ->]]] [[_ ->]|[[_ ->]|[_ ->]]]; unfold poly3, dpoly3, ddpoly3; ring. Qed.
Lemma pop_f : pop v_f poly3. Proof. left. auto. Qed.
Lemma pop_d : pop v_d dpoly3. Proof. right. left. auto. Qed.
Lemma pop_d2 : pop v_d2 ddpoly3. Proof. right. right. auto. Qed.
(** ---- bicubic polynomials ---- *)
Section Bic.
  Variables (s : qui2d) (c : Z -> Z -> R).
  Hypothesis Gx : grid (q2_x s).
  Hypothesis Gy : grid (q2_y s).
  Let xs := q2_x s.
  Let ys := q2_y s.
  Let holds (a : arr R) (o1 o2 : (Z -> R) -> R -> R) : Prop := forall i j, (0 <= i < alen xs)%Z -> (0 <= j < alen ys)%Z -> afn a (i * alen ys + j)%Z = o1 (fun m => o2 (c m) (afn ys j)) (afn xs i).
  Hypothesis H00 : holds (q2_f s) poly3 poly3.
  Hypothesis H10 : holds (q2_fx s) dpoly3 poly3.
  Hypothesis H01 : holds (q2_fy s) poly3 dpoly3.
  Hypothesis H20 : holds (q2_fxx s) ddpoly3 poly3.
  Hypothesis H11 : holds (q2_fxy s) dpoly3 dpoly3.
  Hypothesis H02 : holds (q2_fyy s) poly3 ddpoly3.
  Hypothesis H21 : holds (q2_fxxy s) ddpoly3 dpoly3.
  Hypothesis H12 : holds (q2_fxyy s) dpoly3 ddpoly3.
  Hypothesis H22 : holds (q2_fxxyy s) ddpoly3 ddpoly3.
  Lemma row_bic a b d pr0 o pr op y i : pop pr0 o -> holds a o poly3 -> holds b o dpoly3 -> holds d o ddpoly3 -> pop pr op -> x_first ys <= y <= x_last ys -> (0 <= i < alen xs)%Z ->
    rowQ ys a b d pr y i = o (fun m => op (c m) y) (afn xs i).
  Proof.
    intros P0 A B D P Hy Hi. rewrite (commute pr0 o pr op c (afn xs i) y P0 P). apply (qF_cubic ys _ _ _ _ pr op y Gy P Hy). intros j Hj. cbn [rowof afn]. rewrite A, B, D by assumption.
    rewrite (commute pr0 o v_f poly3 c _ _ P0 pop_f), (commute pr0 o v_d dpoly3 c _ _ P0 pop_d), (commute pr0 o v_d2 ddpoly3 c _ _ P0 pop_d2). auto.
  Qed.
  Lemma Q2_bic prx ox pry oy x y : pop prx ox -> pop pry oy -> inside (q2_x s) (q2_y s) x y -> Q2 s prx pry x y = ox (fun m => oy (c m) y) x.
  Proof.
    intros Px Py [Ix Iy]. unfold Q2. apply (qF_cubic xs _ _ _ _ prx ox x Gx Px Ix). intros i Hi. cbn [afn].
    split; [exact (row_bic _ _ _ v_f poly3 pry oy y i pop_f H00 H01 H02 Py Iy Hi)|]. split; [exact (row_bic _ _ _ v_d dpoly3 pry oy y i pop_d H10 H11 H12 Py Iy Hi)|exact (row_bic _ _ _ v_d2 ddpoly3 pry oy y i pop_d2 H20 H21 H22 Py Iy Hi)].
  Qed.
End Bic.

(** ---- evaluation of a natural spline at its nodes ---- *)
Lemma atnode_d x t d i : grid x -> (0 <= i < alen x)%Z -> v_d (atnode x t d i) = afn d i.
Proof.
  intros [Hx Hn] Hi. unfold atnode. cbv zeta. set (k := Z.min i (alen x - 2)). pose proof (x_ne x Hx k ltac:(lia)) as N.
  assert (E : (i = k \/ i = k + 1)%Z) by lia. clearbody k. destruct E as [E|E]; rewrite E; unfold evalCubic; cbn [v_d]; field; lra.
Qed.
Lemma atnode_linear x t d i a b : grid x -> (0 <= i < alen x)%Z -> (forall k, (0 <= k < alen x)%Z -> afn t k = a + b * afn x k) -> (forall k, (0 <= k < alen x)%Z -> afn d k = b) ->
  v_d (atnode x t d i) = b /\ v_d2 (atnode x t d i) = 0.
Proof.
  intros G Hi T D. split; [rewrite atnode_d by assumption; apply D; exact Hi|]. destruct G as [Hx Hn]. unfold atnode. cbv zeta. rewrite !T, !D by lia.
  apply evalC_linear. apply x_ne; [exact Hx|lia].
Qed.
Lemma nslp_linear x t a b : grid x -> alen t = alen x -> (forall k, (0 <= k < alen x)%Z -> afn t k = a + b * afn x k) -> forall k, (0 <= k < alen x)%Z -> afn (nslp x t) k = b.
Proof. intros G L T. exact (rows_linear x t a b _ G T (nslp_rows x t G L)). Qed.
Lemma nat_linear x t a b i : grid x -> alen t = alen x -> (0 <= i < alen x)%Z -> (forall k, (0 <= k < alen x)%Z -> afn t k = a + b * afn x k) ->
  afn (nslp x t) i = b /\ v_d (atnode x t (nslp x t) i) = b /\ v_d2 (atnode x t (nslp x t) i) = 0.
Proof.
  intros G L Hi T. pose proof (nslp_linear x t a b G L T) as Sl. split; [apply Sl; exact Hi|]. exact (atnode_linear x t (nslp x t) i a b G Hi T Sl).
Qed.
Lemma allzero_spec a : allzero a = true <-> forall i, (0 <= i < alen a)%Z -> afn a i = 0.
Proof.
  unfold allzero. rewrite forallb_forall. split.
  - intros H i Hi. specialize (H (Z.to_nat i)). rewrite Z2Nat.id in H by lia. destruct (Req_EM_T (afn a i) 0) as [E|]; [exact E|]. assert (false = true); [|discriminate]. apply H. apply in_seq. lia.
  - intros H k Hk. apply in_seq in Hk. destruct (Req_EM_T (afn a (Z.of_nat k)) 0) as [|N]; [reflexivity|]. exfalso. apply N. apply H. lia.
Qed.
Section WoutP.
  Variables (xs ys f fx fy : arr R).
  Hypothesis Gx : grid xs.
  Hypothesis Gy : grid ys.
  Let nx := alen xs.
  Let ny := alen ys.
  Let Nx : (2 <= nx)%Z. Proof. apply Gx. Qed.
  Let Ny : (2 <= ny)%Z. Proof. apply Gy. Qed.
  Lemma f2_slope i j : (0 <= j < ny)%Z -> f2 ys fx i j = afn (nslp ys (tx ys fx i)) j.
  Proof. intros Hj. apply atnode_d; assumption. Qed.
  (** rows with a zero derivative *)
  Lemma flat_y i j : (0 <= i < nx)%Z -> (0 <= j < ny)%Z -> (forall k, (0 <= k < nx)%Z -> afn fy (k * ny + j)%Z = 0) -> wxy xs ys fx fy i j = 0 /\ wxxy xs ys f fx fy i j = 0.
  Proof.
    intros Hi Hj Z0. destruct (nat_linear xs (ty xs ys fy j) 0 0 i Gx eq_refl Hi) as (A & B & C); [intros k Hk; cbn [ty colof afn]; fold ny; rewrite Z0 by exact Hk; ring|].
    assert (Fz : fyz xs ys fy j = true) by (apply allzero_spec; intros k Hk; apply Z0; exact Hk).
    unfold wxy, wxxy. fold nx ny. rewrite Fz, C. unfold f1. rewrite A. rewrite orb_true_r. destruct (edge nx i), (edge ny j); cbn [andb orb negb]; auto.
  Qed.
  Lemma flat_x i j : (0 <= i < nx)%Z -> (0 <= j < ny)%Z -> edge nx i = true -> (forall k, (0 <= k < ny)%Z -> afn fx (i * ny + k)%Z = 0) -> wxy xs ys fx fy i j = 0 /\ wxyy xs ys f fx fy i j = 0.
  Proof.
    intros Hi Hj Ei Z0. destruct (nat_linear ys (tx ys fx i) 0 0 j Gy eq_refl Hj) as (A & B & C); [intros k Hk; cbn [tx rowof afn]; fold ny; rewrite Z0 by exact Hk; ring|].
    assert (Fz : fxz ys fx i = true) by (apply allzero_spec; intros k Hk; apply Z0; exact Hk).
    unfold wxy, wxyy, f3. fold nx ny. rewrite Fz, C, Ei. destruct (edge ny j); cbn [andb orb negb]; auto.
  Qed.
  (** the sum of functions of one coordinate and a product *)
  Variables (p q : Z -> R) (k : R).
  Hypothesis F0 : forall i j, (0 <= i < nx)%Z -> (0 <= j < ny)%Z -> afn f (i * ny + j)%Z = poly3 p (afn xs i) + poly3 q (afn ys j) + k * afn xs i * afn ys j.
  Hypothesis F1 : forall i j, (0 <= i < nx)%Z -> (0 <= j < ny)%Z -> afn fx (i * ny + j)%Z = dpoly3 p (afn xs i) + k * afn ys j.
  Hypothesis F2 : forall i j, (0 <= i < nx)%Z -> (0 <= j < ny)%Z -> afn fy (i * ny + j)%Z = dpoly3 q (afn ys j) + k * afn xs i.
  Lemma sum_wxx i j : (0 <= i < nx)%Z -> (0 <= j < ny)%Z -> wxx xs ys f fx i j = ddpoly3 p (afn xs i).
  Proof.
    intros Hi Hj. unfold wxx. rewrite (qsl_cubic xs (colof f nx ny j) (colof fx nx ny j) (fun m => p m + (if (m =? 0)%Z then poly3 q (afn ys j) else 0) + (if (m =? 1)%Z then k * afn ys j else 0)) Gx eq_refl eq_refl); [unfold ddpoly3; cbn; ring| | |exact Hi];
      intros m Hm; cbn [colof afn]; fold ny; rewrite ?F0, ?F1 by assumption; unfold poly3 at 1; unfold dpoly3, poly3; cbn; ring.
  Qed.
  Lemma sum_wyy i j : (0 <= i < nx)%Z -> (0 <= j < ny)%Z -> wyy ys f fy i j = ddpoly3 q (afn ys j).
  Proof.
    intros Hi Hj. unfold wyy. rewrite (qsl_cubic ys (rowof f ny i) (rowof fy ny i) (fun m => q m + (if (m =? 0)%Z then poly3 p (afn xs i) else 0) + (if (m =? 1)%Z then k * afn xs i else 0)) Gy eq_refl eq_refl); [unfold ddpoly3; cbn; ring| | |exact Hj];
      intros m Hm; cbn [rowof afn]; fold ny; rewrite ?F0, ?F2 by assumption; unfold poly3 at 1; unfold dpoly3, poly3; cbn; ring.
  Qed.
  Lemma sum_mixed i j : (0 <= i < nx)%Z -> (0 <= j < ny)%Z -> wxy xs ys fx fy i j = k /\ wxxy xs ys f fx fy i j = 0 /\ wxyy xs ys f fx fy i j = 0 /\ wxxyy xs ys f fx fy i j = 0.
  Proof.
    intros Hi Hj.
    destruct (nat_linear xs (ty xs ys fy j) (dpoly3 q (afn ys j)) k i Gx eq_refl Hi) as (A & B & C); [intros m Hm; cbn [ty colof afn]; fold ny; apply F2; assumption|].
    destruct (nat_linear ys (tx ys fx i) (dpoly3 p (afn xs i)) k j Gy eq_refl Hj) as (A' & B' & C'); [intros m Hm; cbn [tx rowof afn]; fold ny; apply F1; assumption|].
    destruct (nat_linear ys (txx xs ys f fx i) (ddpoly3 p (afn xs i)) 0 j Gy eq_refl Hj) as (A2 & B2 & C2); [intros m Hm; cbn [txx afn]; rewrite sum_wxx by assumption; ring|].
    destruct (nat_linear xs (tyy xs ys f fy j) (ddpoly3 q (afn ys j)) 0 i Gx eq_refl Hi) as (A3 & B3 & C3); [intros m Hm; cbn [tyy afn]; rewrite sum_wyy by assumption; ring|].
    assert (K : (fxz ys fx i || fyz xs ys fy j)%bool = true -> k = 0).
    { intros Q. apply orb_prop in Q. destruct Q as [Q|Q]; unfold fxz, fyz in Q; rewrite allzero_spec in Q.
      - pose proof (Q 0%Z ltac:(cbn; fold ny; lia)) as U. pose proof (Q 1%Z ltac:(cbn; fold ny; lia)) as V. cbn [tx rowof afn] in U, V. fold ny in U, V. rewrite F1 in U, V by lia.
        pose proof (x_ne ys (proj1 Gy) 0 ltac:(fold ny; lia)) as N. change (0 + 1)%Z with 1%Z in N. apply Rmult_eq_reg_r with (afn ys 1%Z - afn ys 0%Z); [|lra]. lra.
      - pose proof (Q 0%Z ltac:(cbn; fold nx; lia)) as U. pose proof (Q 1%Z ltac:(cbn; fold nx; lia)) as V. cbn [ty colof afn] in U, V. fold ny in U, V. rewrite F2 in U, V by lia.
        pose proof (x_ne xs (proj1 Gx) 0 ltac:(fold nx; lia)) as N. change (0 + 1)%Z with 1%Z in N. apply Rmult_eq_reg_r with (afn xs 1%Z - afn xs 0%Z); [|lra]. lra. }
    assert (D : 0.5 = / 2) by lra.
    unfold wxy, wxxy, wxyy, wxxyy, g5, f1, f2, f3. fold nx ny. rewrite A, B', C, C', B2, C2, B3, C3. cbv zeta. rewrite D. split; [|split; [|split]].
    - destruct (edge nx i), (edge ny j), (fxz ys fx i || fyz xs ys fy j)%bool; cbn [andb orb negb]; try (symmetry; apply K; reflexivity); field.
    - destruct (edge ny j), (fyz xs ys fy j); reflexivity.
    - destruct (edge nx i), (edge ny j), (fxz ys fx i); reflexivity.
    - destruct (edge nx i), (edge ny j); try reflexivity; field.
  Qed.
End WoutP.
