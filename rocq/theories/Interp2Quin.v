(** Two-dimensional quintic splines: evaluation (C61). *)
From Coquelicot Require Import Coquelicot.
From Verif Require Import Arr BinSearchModel SplineModel Interp2Model SplineSpec SplineBand SplineCons SplineQui SplineGlue SplineProofs SplineProofs2 SplineReg Interp2Spec Interp2Proofs Interp2Cons.
Local Open Scope R_scope.

(** ---- evalQuintic is linear in the data ---- *)
Definition qw (m : Z) (pr : vals -> R) t xl xh : R := let e k := if (k =? m)%Z then 1 else 0 in pr (evalQuintic t xl xh (e 0%Z) (e 1%Z) (e 2%Z) (e 3%Z) (e 4%Z) (e 5%Z)).
Lemma evalQ_lin pr t xl xh a b c d e g : pr3 pr -> xl <> xh ->
  pr (evalQuintic t xl xh a b c d e g) = a * qw 0 pr t xl xh + b * qw 1 pr t xl xh + c * qw 2 pr t xl xh + d * qw 3 pr t xl xh + e * qw 4 pr t xl xh + g * qw 5 pr t xl xh.
Proof.
  intros P N. unfold qw. cbn [Z.eqb Pos.eqb]. unfold evalQuintic. destruct (Req_EM_T t xh); destruct P as [->|[->| ->]]; cbn [v_f v_d v_d2]; field; lra.
Qed.
Lemma evalQ_shift t xl xh a b c d e g k : xl <> xh ->
  v_f (evalQuintic t xl xh (a - k) (b - k) c d e g) = v_f (evalQuintic t xl xh a b c d e g) - k /\
  v_d (evalQuintic t xl xh (a - k) (b - k) c d e g) = v_d (evalQuintic t xl xh a b c d e g) /\
  v_d2 (evalQuintic t xl xh (a - k) (b - k) c d e g) = v_d2 (evalQuintic t xl xh a b c d e g).
Proof. intros N. unfold evalQuintic. destruct (Req_EM_T t xh); cbn [v_f v_d v_d2]; repeat split; field; lra. Qed.
Lemma lin6_derive (a b c d e g : R -> R) (a' b' c' d' e' g' p q r s u v y : R) :
  is_derive a y a' -> is_derive b y b' -> is_derive c y c' -> is_derive d y d' -> is_derive e y e' -> is_derive g y g' ->
  is_derive (fun y => a y * p + b y * q + c y * r + d y * s + e y * u + g y * v) y (a' * p + b' * q + c' * r + d' * s + e' * u + g' * v).
Proof.
  intros A B C D E G. pose proof (lin4_derive a b c d a' b' c' d' p q r s y A B C D) as H. pose proof (scal_r_derive e e' u y E) as E1. pose proof (scal_r_derive g g' v y G) as G1.
  exact (is_derive_plus _ _ y _ _ (is_derive_plus _ _ y _ _ H E1) G1).
Qed.
Lemma qpiece_in x f d s k t : (0 <= k < alen x - 1)%Z -> qpiece x f d s k t = evalQuintic t (afn x k) (afn x (k + 1)%Z) (afn f k) (afn f (k + 1)%Z) (afn d k) (afn d (k + 1)%Z) (afn s k) (afn s (k + 1)%Z).
Proof. intros H. unfold qpiece. rewrite Z.geb_leb, (proj2 (Z.ltb_ge k 0)), (proj2 (Z.leb_gt (alen x - 1) k)) by lia. reflexivity. Qed.
Lemma qpiece_ext2 x a b c a' b' c' k t : (1 <= alen x)%Z -> (-1 <= k <= alen x - 1)%Z -> (forall i, (0 <= i < alen x)%Z -> afn a i = afn a' i) -> (forall i, (0 <= i < alen x)%Z -> afn b i = afn b' i) ->
  (forall i, (0 <= i < alen x)%Z -> afn c i = afn c' i) -> qpiece x a b c k t = qpiece x a' b' c' k t.
Proof.
  intros Hn Hk A B C. unfold qpiece. rewrite !Z.geb_leb. destruct (Z.ltb_spec k 0); [rewrite A, B by lia; reflexivity|]. destruct (Z.leb_spec (alen x - 1) k); [rewrite A, B by lia; reflexivity|].
  rewrite !A, !B, !C by lia. reflexivity.
Qed.
Lemma qF_ext x a b c a' b' c' pr t : grid x -> (forall i, (0 <= i < alen x)%Z -> afn a i = afn a' i) -> (forall i, (0 <= i < alen x)%Z -> afn b i = afn b' i) ->
  (forall i, (0 <= i < alen x)%Z -> afn c i = afn c' i) -> Fp x (qpiece x a b c) pr t = Fp x (qpiece x a' b' c') pr t.
Proof. intros G A B C. unfold Fp. f_equal. apply qpiece_ext2; auto; [apply grid_len; exact G|apply (segof_ok x (proj1 G) (grid_len x G))]. Qed.

(** a row of the table along y, with its first and second derivatives *)
Definition rowQ (ys a b c : arr R) (pr : vals -> R) (y : R) (i : Z) : R := Fp ys (qpiece ys (rowof a (alen ys) i) (rowof b (alen ys) i) (rowof c (alen ys) i)) pr y.
Lemma rowQ_in ys a b c pr y i : grid ys -> x_first ys <= y <= x_last ys -> rowQ ys a b c pr y i =
  let j := segof ys y in let n := (i * alen ys)%Z in pr (evalQuintic y (afn ys j) (afn ys (j + 1)%Z) (afn a (n + j)%Z) (afn a (n + j + 1)%Z) (afn b (n + j)%Z) (afn b (n + j + 1)%Z) (afn c (n + j)%Z) (afn c (n + j + 1)%Z)).
Proof. intros G H. pose proof (seg_in ys G y H) as K. unfold rowQ, Fp. cbv zeta. rewrite qpiece_in by lia. cbn [rowof afn]. rewrite !Z.add_assoc. reflexivity. Qed.
Section Q2.
  Variable s : qui2d.
  Let xs := q2_x s.
  Let ys := q2_y s.
  Let nx := alen xs.
  Let ny := alen ys.
  Hypothesis Gx : grid (q2_x s).
  Hypothesis Gy : grid (q2_y s).
  Lemma Q_hx : increasing xs. Proof. apply Gx. Qed.
  Lemma Q_hy : increasing ys. Proof. apply Gy. Qed.
  Lemma Q_nx : (2 <= nx)%Z. Proof. apply Gx. Qed.
  Lemma Q_ny : (2 <= ny)%Z. Proof. apply Gy. Qed.
  Definition r0 := rowQ (q2_y s) (q2_f s) (q2_fy s) (q2_fyy s).
  Definition r1 := rowQ (q2_y s) (q2_fx s) (q2_fxy s) (q2_fxyy s).
  Definition r2 := rowQ (q2_y s) (q2_fxx s) (q2_fxxy s) (q2_fxxyy s).
  Definition Q2 (prx pry : vals -> R) (x y : R) : R :=
    Fp (q2_x s) (qpiece (q2_x s) (mkArr (alen (q2_x s)) (r0 pry y)) (mkArr (alen (q2_x s)) (r1 pry y)) (mkArr (alen (q2_x s)) (r2 pry y))) prx x.
  Lemma Q2_px x y pry : is_derive (fun u => Q2 v_f pry u y) x (Q2 v_d pry x y).
  Proof. unfold Q2. apply (qui_deriv xs _ _ _ Q_hx (grid_len _ Gx)). Qed.
  Lemma Q2_pxx x y pry : x_first (q2_x s) < x < x_last (q2_x s) -> is_derive (fun u => Q2 v_d pry u y) x (Q2 v_d2 pry x y).
  Proof. intros H. unfold Q2. apply (qui_deriv2 xs _ _ _ Q_hx (grid_len _ Gx)); fold xs in H; lra. Qed.
  Lemma Q2_lin prx pry x y : pr3 prx -> x_first (q2_x s) <= x <= x_last (q2_x s) -> Q2 prx pry x y =
    let k := segof (q2_x s) x in let w m := qw m prx x (afn (q2_x s) k) (afn (q2_x s) (k + 1)%Z) in
    r0 pry y k * w 0%Z + r0 pry y (k + 1)%Z * w 1%Z + r1 pry y k * w 2%Z + r1 pry y (k + 1)%Z * w 3%Z + r2 pry y k * w 4%Z + r2 pry y (k + 1)%Z * w 5%Z.
  Proof.
    intros P H. pose proof (seg_in _ Gx x H) as K. unfold Q2, Fp. rewrite qpiece_in by exact K. cbn [afn]. cbv zeta. apply evalQ_lin; [exact P|]. apply (x_ne xs Q_hx). exact K.
  Qed.
  Lemma Q2_dy prx pr1 pr2 x y : pr3 prx -> x_first (q2_x s) <= x <= x_last (q2_x s) ->
    (forall i, is_derive (fun u => r0 pr1 u i) y (r0 pr2 y i)) -> (forall i, is_derive (fun u => r1 pr1 u i) y (r1 pr2 y i)) -> (forall i, is_derive (fun u => r2 pr1 u i) y (r2 pr2 y i)) ->
    is_derive (fun u => Q2 prx pr1 x u) y (Q2 prx pr2 x y).
  Proof.
    intros P H A B C. rewrite (Q2_lin prx pr2 x y P H). eapply is_derive_ext; [intros u; symmetry; apply (Q2_lin prx pr1 x u P H)|]. cbv beta zeta. set (k := segof (q2_x s) x).
    apply (lin6_derive (fun u => r0 pr1 u k) (fun u => r0 pr1 u (k + 1)%Z) (fun u => r1 pr1 u k) (fun u => r1 pr1 u (k + 1)%Z) (fun u => r2 pr1 u k) (fun u => r2 pr1 u (k + 1)%Z)); auto.
  Qed.
  Lemma Q2_py prx x y : pr3 prx -> x_first (q2_x s) <= x <= x_last (q2_x s) -> is_derive (fun u => Q2 prx v_f x u) y (Q2 prx v_d x y).
  Proof. intros P H. apply Q2_dy; auto; intros i; apply (qui_deriv ys _ _ _ Q_hy (grid_len _ Gy)). Qed.
  Lemma Q2_pyy prx x y : pr3 prx -> x_first (q2_x s) <= x <= x_last (q2_x s) -> x_first (q2_y s) < y < x_last (q2_y s) -> is_derive (fun u => Q2 prx v_d x u) y (Q2 prx v_d2 x y).
  Proof. intros P H H'. fold ys in H'. apply Q2_dy; auto; intros i; apply (qui_deriv2 ys _ _ _ Q_hy (grid_len _ Gy)); lra. Qed.
  (** on the grid lines *)
  Lemma rowQ_node a b c j i : (0 <= j < alen (q2_y s))%Z -> rowQ (q2_y s) a b c v_f (afn (q2_y s) j) i = afn a (i * alen (q2_y s) + j)%Z /\ rowQ (q2_y s) a b c v_d (afn (q2_y s) j) i = afn b (i * alen (q2_y s) + j)%Z.
  Proof. intros Hj. exact (qui_node ys (rowof a ny i) (rowof b ny i) (rowof c ny i) Q_hy (grid_len _ Gy) j Hj). Qed.
  Lemma Q2_xline pry y i : (0 <= i < alen (q2_x s))%Z -> Q2 v_f pry (afn (q2_x s) i) y = r0 pry y i /\ Q2 v_d pry (afn (q2_x s) i) y = r1 pry y i.
  Proof. intros Hi. exact (qui_node xs (mkArr nx (r0 pry y)) (mkArr nx (r1 pry y)) (mkArr nx (r2 pry y)) Q_hx (grid_len _ Gx) i Hi). Qed.
  Lemma Q2_yline prx x j : (0 <= j < alen (q2_y s))%Z -> let col a := colof a (alen (q2_x s)) (alen (q2_y s)) j in
    Q2 prx v_f x (afn (q2_y s) j) = Fp (q2_x s) (qpiece (q2_x s) (col (q2_f s)) (col (q2_fx s)) (col (q2_fxx s))) prx x /\
    Q2 prx v_d x (afn (q2_y s) j) = Fp (q2_x s) (qpiece (q2_x s) (col (q2_fy s)) (col (q2_fxy s)) (col (q2_fxxy s))) prx x.
  Proof.
    intros Hj. cbv zeta. unfold Q2. split; apply (qF_ext _ _ _ _ _ _ _ prx x Gx); cbn [afn colof]; intros i Hi; apply (rowQ_node _ _ _ j i Hj).
  Qed.
  (** evalDeriv *)
  Hypothesis Hl : forall a, List.In a (q2_f s :: q2_fx s :: q2_fy s :: q2_fxx s :: q2_fxy s :: q2_fyy s :: q2_fxxy s :: q2_fxyy s :: q2_fxxyy s :: nil) -> alen a = (alen (q2_x s) * alen (q2_y s))%Z.
  Lemma qui2d_eval : evaluates2 (q2_x s) (q2_y s) (quintic2dEval s) (Q2 v_f v_f) (Q2 v_d v_f) (Q2 v_f v_d) (Q2 v_d2 v_f) (Q2 v_d v_d) (Q2 v_f v_d2).
  Proof.
    pose proof Q_nx as Nx. pose proof Q_ny as Ny. unfold nx, ny, xs, ys in Nx, Ny.
    pose proof (Hl _ (or_introl eq_refl)) as L1. pose proof (Hl _ (or_intror (or_introl eq_refl))) as L2. pose proof (Hl (q2_fy s) ltac:(cbn; auto)) as L3. pose proof (Hl (q2_fxx s) ltac:(cbn; auto 10)) as L4.
    pose proof (Hl (q2_fxy s) ltac:(cbn; auto 10)) as L5. pose proof (Hl (q2_fyy s) ltac:(cbn; auto 10)) as L6. pose proof (Hl (q2_fxxy s) ltac:(cbn; auto 12)) as L7. pose proof (Hl (q2_fxyy s) ltac:(cbn; auto 12)) as L8. pose proof (Hl (q2_fxxyy s) ltac:(cbn; auto 12)) as L9.
    assert (E : forall x y, quintic2dEval s x y = if inside_dec (q2_x s) (q2_y s) x y then
      Ok (Some (Q2 v_f v_f x y, Q2 v_d v_f x y, Q2 v_f v_d x y), Some (Q2 v_d2 v_f x y, Q2 v_d v_d x y, Q2 v_f v_d2 x y)) else Ok (None, None)).
    { intros x y. unfold quintic2dEval. rewrite (proj2 (Z.eqb_neq (alen (q2_f s)) 0)) by nia.
      destruct (segof_ok (q2_x s) (proj1 Gx) ltac:(lia) x) as (Ex & _ & _). destruct (segof_ok (q2_y s) (proj1 Gy) ltac:(lia) y) as (Ey & _ & _).
      rewrite Ex. cbn [bind]. rewrite Ey. cbn [bind]. rewrite (outside_ok _ _ x y Gx Gy). destruct (inside_dec (q2_x s) (q2_y s) x y) as [[Ix Iy]|N]; [|reflexivity].
      pose proof (seg_in _ Gx x Ix) as Kx. pose proof (seg_in _ Gy y Iy) as Ky.
      assert (Cv : forall prx pry, Q2 prx pry x y = let i := segof (q2_x s) x in prx (evalQuintic x (afn (q2_x s) i) (afn (q2_x s) (i + 1)%Z) (r0 pry y i) (r0 pry y (i + 1)%Z) (r1 pry y i) (r1 pry y (i + 1)%Z) (r2 pry y i) (r2 pry y (i + 1)%Z))).
      { intros prx pry. cbv zeta. unfold Q2, Fp. rewrite qpiece_in by exact Kx. reflexivity. }
      rewrite !Cv. unfold r0, r1, r2. rewrite !(rowQ_in (q2_y s)) by assumption. cbv zeta. clear Cv.
      set (i := segof (q2_x s) x) in *. set (j := segof (q2_y s) y) in *. set (my := alen (q2_y s)) in *. set (mx := alen (q2_x s)) in *.
      replace (i * my + j + my)%Z with ((i + 1) * my + j)%Z by ring.
      pose proof (idx_in mx my i j ltac:(lia) ltac:(lia)). pose proof (idx_in mx my i (j + 1) ltac:(lia) ltac:(lia)).
      pose proof (idx_in mx my (i + 1) j ltac:(lia) ltac:(lia)). pose proof (idx_in mx my (i + 1) (j + 1) ltac:(lia) ltac:(lia)).
      rewrite !aget_ok by (rewrite ?L1, ?L2, ?L3, ?L4, ?L5, ?L6, ?L7, ?L8, ?L9; lia). cbn [bind].
      assert (Qx : afn (q2_x s) i <> afn (q2_x s) (i + 1)%Z) by (apply x_ne; [apply Gx|exact Kx]).
      assert (Qy : afn (q2_y s) j <> afn (q2_y s) (j + 1)%Z) by (apply x_ne; [apply Gy|exact Ky]).
      match goal with |- context [afn (q2_f s) (i * my + j)%Z - ?o] => set (off := o) end.
      set (ll := (i * my + j)%Z). set (ul := ((i + 1) * my + j)%Z).
      destruct (evalQ_shift y (afn (q2_y s) j) (afn (q2_y s) (j + 1)%Z) (afn (q2_f s) ll) (afn (q2_f s) (ll + 1)%Z) (afn (q2_fy s) ll) (afn (q2_fy s) (ll + 1)%Z) (afn (q2_fyy s) ll) (afn (q2_fyy s) (ll + 1)%Z) off Qy) as (S1 & S2 & S3).
      destruct (evalQ_shift y (afn (q2_y s) j) (afn (q2_y s) (j + 1)%Z) (afn (q2_f s) ul) (afn (q2_f s) (ul + 1)%Z) (afn (q2_fy s) ul) (afn (q2_fy s) (ul + 1)%Z) (afn (q2_fyy s) ul) (afn (q2_fyy s) (ul + 1)%Z) off Qy) as (T1 & T2 & T3).
      cbv beta zeta. rewrite S1, S2, S3, T1, T2, T3. clearbody off.
      match goal with |- context [evalQuintic x ?a ?b (?p - off) (?q - off) ?r ?t ?u ?v] => destruct (evalQ_shift x a b p q r t u v off Qx) as (U1 & U2 & U3) end.
      rewrite U1, U2, U3. match goal with |- Ok (Some (?a - off + off, _, _), _) = _ => replace (a - off + off) with a by ring end. reflexivity. }
    split; intros x y H; rewrite E; destruct (inside_dec _ _ x y); try contradiction; reflexivity.
  Qed.
End Q2.
