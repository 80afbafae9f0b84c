(** Evaluation of the interpolators: pieces, derivatives, continuity of the derivatives (C39). *)
From Coquelicot Require Import Coquelicot.
From Verif Require Import Arr BinSearchModel SplineModel SplineSpec SplineBand SplineCons SplineQui SplineGlue.
Local Open Scope Z_scope.

Lemma extrap_eq t x0 f0 d0 : extrap t x0 f0 d0 = ((f0 + d0 * (t - x0))%R, d0, 0%R, 0%R).
Proof. unfold extrap. destruct (Req_EM_T d0 0) as [->|_]; repeat f_equal. ring. Qed.

Lemma not_inc_throw a : ~ increasing a -> checkMonotonic a = Throw.
Proof.
  intros N. assert (S1 : safe (checkMonotonic a) (fun _ => True)).
  { unfold checkMonotonic. apply (for_safe_max (fun _ (_ : unit) => True)); [exact Logic.I|].
    intros i [] Hi _. rewrite Z.gtb_ltb. destruct (Z.ltb_spec 0 i); [|exact Logic.I]. rewrite !aget_ok by lia. cbn [bind]. destruct (Rle_dec _ _); exact Logic.I. }
  destruct (checkMonotonic a) as [[]| | |] eqn:E; cbn in S1; try contradiction; [|reflexivity]. exfalso. apply N. apply monotonic_inc. exact E.
Qed.

Local Open Scope R_scope.
Section EvalC.
  Variables xl xh fl fh dl dh : R.
  Hypothesis H : xl <> xh.
  Lemma evalC_f t : is_derive (fun t => v_f (evalCubic t xl xh fl fh dl dh)) t (v_d (evalCubic t xl xh fl fh dl dh)).
  Proof. unfold evalCubic; cbn [v_f v_d]. auto_derive; [lra|]. field. lra. Qed.
  Lemma evalC_d t : is_derive (fun t => v_d (evalCubic t xl xh fl fh dl dh)) t (v_d2 (evalCubic t xl xh fl fh dl dh)).
  Proof. unfold evalCubic; cbn [v_d2 v_d]. auto_derive; [lra|]. field. lra. Qed.
  Lemma evalC_d2 t : is_derive (fun t => v_d2 (evalCubic t xl xh fl fh dl dh)) t (v_d3 (evalCubic t xl xh fl fh dl dh)).
  Proof. unfold evalCubic; cbn [v_d2 v_d3]. auto_derive; [lra|]. field. lra. Qed.
  Lemma evalC_left : evalCubic xl xl xh fl fh dl dh = (fl, dl, (-4 * dl - 2 * dh + 6 * (fh - fl) / (xh - xl)) / (xh - xl), v_d3 (evalCubic xl xl xh fl fh dl dh)).
  Proof. unfold evalCubic; cbn [v_d3]. f_equal. f_equal; [f_equal|]; field; lra. Qed.
  Lemma evalC_right : evalCubic xh xl xh fl fh dl dh = (fh, dh, (2 * dl + 4 * dh - 6 * (fh - fl) / (xh - xl)) / (xh - xl), v_d3 (evalCubic xh xl xh fl fh dl dh)).
  Proof. unfold evalCubic; cbn [v_d3]. f_equal. f_equal; [f_equal|]; field; lra. Qed.
End EvalC.
Section EvalQ.
  Variables xl xh fl fh dl dh sl sh : R.
  Hypothesis H : xl <> xh.
  Definition polyQ (x : R) : vals :=
    let dx := x - xl in let dx2 := 5 / 10 * dx * dx in let h := xh - xl in let hi := 1 / h in let h2 := h * h in
    let t := dx * hi in let t2 := t * t in let t3 := t * t2 in let t1t := t * (1 - t) in
    let P := t3 * (10 - t * (15 - 6 * t)) in
    let Q := t3 * (1 - t * (5 / 10)) * h in
    let RR := t3 * (1 - t * (125 / 100 - 5 / 10 * t)) * h2 in
    let Px := 30 * t1t * hi in
    let Pp := Px * t1t in
    let Qp := t2 * (3 - t * 2) in
    let Rp := t2 * (3 - t * (5 - 25 / 10 * t)) * h in
    let Ppp := Px * hi * (2 - 4 * t) in
    let Qpp := Px * (2 / 10) in
    let Rpp := t * (6 - t * (15 - 10 * t)) in
    let fd := fh - fl - 5 / 10 * h * (dh + dl) in
    let f1d := dh - dl - 5 / 10 * h * (sh + sl) in
    let f2d := sh - sl in
    (fl + P * fd + dx * dl + Q * f1d + dx2 * sl + RR * f2d,
     Pp * fd + dl + Qp * f1d + dx * sl + Rp * f2d,
     Ppp * fd + Qpp * f1d + sl + Rpp * f2d,
     hi * hi * (60 * hi - 12 * Px) * fd + hi * hi * (6 - 12 * t) * f1d + (6 * hi - Px) * f2d).
  Lemma evalQ_poly x : evalQuintic x xl xh fl fh dl dh sl sh = polyQ x.
  Proof.
    unfold evalQuintic. destruct (Req_EM_T x xh) as [->|N]; [|reflexivity]. unfold polyQ. cbv zeta.
    f_equal; [f_equal; [f_equal|]|]; field; lra.
  Qed.
  Lemma polyQ_f t : is_derive (fun t => v_f (polyQ t)) t (v_d (polyQ t)).
  Proof. unfold polyQ; cbn [v_f v_d]. auto_derive; [lra|]. field. lra. Qed.
  Lemma polyQ_d t : is_derive (fun t => v_d (polyQ t)) t (v_d2 (polyQ t)).
  Proof. unfold polyQ; cbn [v_d2 v_d]. auto_derive; [lra|]. field. lra. Qed.
  Lemma polyQ_d2 t : is_derive (fun t => v_d2 (polyQ t)) t (v_d3 (polyQ t)).
  Proof. unfold polyQ; cbn [v_d2 v_d3]. auto_derive; [lra|]. field. lra. Qed.
  (** the fourth derivative, not returned by the code *)
  Definition polyQ_4 (x : R) : R :=
    let h := xh - xl in let hi := 1 / h in let t := (x - xl) * hi in
    let fd := fh - fl - 5 / 10 * h * (dh + dl) in let f1d := dh - dl - 5 / 10 * h * (sh + sl) in let f2d := sh - sl in
    - 360 * (1 - 2 * t) * hi * hi * hi * hi * fd - 12 * hi * hi * hi * f1d - 30 * (1 - 2 * t) * hi * hi * f2d.
  Lemma polyQ_d3 t : is_derive (fun t => v_d3 (polyQ t)) t (polyQ_4 t).
  Proof. unfold polyQ, polyQ_4; cbn [v_d3]. auto_derive; [lra|]. field. lra. Qed.
  Lemma polyQ_left : polyQ xl = (fl, dl, sl, ((60 * (fh - fl) / (xh - xl) - (36 * dl + 24 * dh)) / (xh - xl) - (9 * sl - 3 * sh)) / (xh - xl)).
  Proof. unfold polyQ. cbv zeta. f_equal; [f_equal; [f_equal|]|]; field; lra. Qed.
  Lemma polyQ_right : polyQ xh = (fh, dh, sh, ((60 * (fh - fl) / (xh - xl) - (36 * dh + 24 * dl)) / (xh - xl) + (9 * sh - 3 * sl)) / (xh - xl)).
  Proof. unfold polyQ. cbv zeta. f_equal; [f_equal; [f_equal|]|]; field; lra. Qed.
End EvalQ.

Lemma ext_f x0 f0 d0 t : is_derive (fun t => v_f (extrap t x0 f0 d0)) t (v_d (extrap t x0 f0 d0)).
Proof.
  apply (is_derive_ext (fun t => f0 + d0 * (t - x0))); [intros u; rewrite extrap_eq; reflexivity|]. rewrite extrap_eq. cbn [v_d].
  auto_derive; [exact Logic.I|]. ring.
Qed.
Lemma ext_d x0 f0 d0 t : is_derive (fun t => v_d (extrap t x0 f0 d0)) t (v_d2 (extrap t x0 f0 d0)).
Proof. unfold extrap. cbn [v_d v_d2]. apply (is_derive_const d0). Qed.
Lemma ext_d2 x0 f0 d0 t : is_derive (fun t => v_d2 (extrap t x0 f0 d0)) t (v_d3 (extrap t x0 f0 d0)).
Proof. unfold extrap. cbn [v_d3 v_d2]. apply (is_derive_const 0). Qed.

(** ---- generic: an evaluator which selects a piece by the segment number ---- *)
Definition segof (x : arr R) (t : R) : Z := match binSearchR t (alist x) with Ok k => k | _ => 0%Z end.
Section Pieces.
  Variable x : arr R.
  Let n := alen x.
  Hypothesis Hx : increasing x.
  Hypothesis Hn : (1 <= n)%Z.
  Variable piece : Z -> R -> vals.
  Definition Fp (pr : vals -> R) (t : R) : R := pr (piece (segof x t) t).
  Lemma segof_ok t : binSearchR t (alist x) = Ok (segof x t) /\ inseg x (segof x t) t /\ (-1 <= segof x t <= n - 1)%Z.
  Proof. destruct (bin_inseg x Hx Hn t) as (k & E & I & _). unfold segof. rewrite E. split; [reflexivity|]. split; [exact I|apply I]. Qed.
  Lemma pieced_Fp pr : pieced x (Fp pr) (fun k t => pr (piece k t)).
  Proof. intros t. exists (segof x t). split; [apply segof_ok|reflexivity]. Qed.
End Pieces.
Arguments Fp x piece pr t : clear implicits.

Section Cub.
  Variables x f d : arr R.
  Let n := alen x.
  Hypothesis Hx : increasing x.
  Hypothesis Hn : (1 <= n)%Z.
  Hypothesis Hf : alen f = n.
  Hypothesis Hd : alen d = n.
  Let s := mkCub x f d.
  Definition cpiece (k : Z) (t : R) : vals :=
    if (k <? 0)%Z then extrap t (afn x 0%Z) (afn f 0%Z) (afn d 0%Z)
    else if (k >=? alen x - 1)%Z then extrap t (afn x (alen x - 1)%Z) (afn f (alen x - 1)%Z) (afn d (alen x - 1)%Z)
    else evalCubic t (afn x k) (afn x (k + 1)%Z) (afn f k) (afn f (k + 1)%Z) (afn d k) (afn d (k + 1)%Z).
  Definition cF := Fp x cpiece v_f.
  Definition cF1 := Fp x cpiece v_d.
  Definition cF2 := Fp x cpiece v_d2.
  Definition cF3 := Fp x cpiece v_d3.
  Lemma cub_evaluates : evaluates (cubicEval s) cF cF1 cF2 cF3.
  Proof.
    intros t. unfold cubicEval. cbn [c_x c_f c_d s]. rewrite (proj2 (Z.eqb_neq (alen x) 0)) by (fold n; lia).
    destruct (segof_ok x Hx Hn t) as (E & _ & B). fold n in B. rewrite E. cbn [bind]. unfold cF, cF1, cF2, cF3, Fp, cpiece. fold n.
    destruct (Z.ltb_spec (segof x t) 0); [rewrite !aget_ok by (fold n; lia); cbn [bind]; unfold extrap; reflexivity|].
    rewrite Z.geb_leb. destruct (Z.leb_spec (n - 1) (segof x t)); rewrite !aget_ok by (fold n; lia); cbn [bind]; [unfold extrap; reflexivity|].
    unfold evalCubic. reflexivity.
  Qed.
  Lemma x_ne k : (0 <= k < n - 1)%Z -> afn x k <> afn x (k + 1)%Z.
  Proof. intros Hk. specialize (Hx k (k + 1)%Z ltac:(lia) ltac:(fold n; lia)). lra. Qed.
  Lemma cp_f k t : (-1 <= k <= n - 1)%Z -> is_derive (fun t => v_f (cpiece k t)) t (v_d (cpiece k t)).
  Proof. intros Hk. unfold cpiece. fold n. rewrite Z.geb_leb. destruct (Z.ltb_spec k 0); [apply ext_f|]. destruct (Z.leb_spec (n - 1) k); [apply ext_f|]. apply evalC_f, x_ne. lia. Qed.
  Lemma cp_d k t : (-1 <= k <= n - 1)%Z -> is_derive (fun t => v_d (cpiece k t)) t (v_d2 (cpiece k t)).
  Proof. intros Hk. unfold cpiece. fold n. rewrite Z.geb_leb. destruct (Z.ltb_spec k 0); [apply ext_d|]. destruct (Z.leb_spec (n - 1) k); [apply ext_d|]. apply evalC_d, x_ne. lia. Qed.
  Lemma cp_d2 k t : (-1 <= k <= n - 1)%Z -> is_derive (fun t => v_d2 (cpiece k t)) t (v_d3 (cpiece k t)).
  Proof. intros Hk. unfold cpiece. fold n. rewrite Z.geb_leb. destruct (Z.ltb_spec k 0); [apply ext_d2|]. destruct (Z.leb_spec (n - 1) k); [apply ext_d2|]. apply evalC_d2, x_ne. lia. Qed.
  (** values at the ends of each piece *)
  Lemma cp_at i : (0 <= i < n)%Z -> v_f (cpiece i (afn x i)) = afn f i /\ v_d (cpiece i (afn x i)) = afn d i.
  Proof.
    intros Hi. unfold cpiece. fold n. rewrite Z.geb_leb. rewrite (proj2 (Z.ltb_ge i 0)) by lia. destruct (Z.leb_spec (n - 1) i).
    - replace i with (n - 1)%Z by lia. rewrite extrap_eq. cbn [v_f v_d]. split; [ring|reflexivity].
    - rewrite evalC_left by (apply x_ne; lia). cbn [v_f v_d]. split; reflexivity.
  Qed.
  Lemma cp_at' i : (0 <= i < n)%Z -> v_f (cpiece (i - 1) (afn x i)) = afn f i /\ v_d (cpiece (i - 1) (afn x i)) = afn d i.
  Proof.
    intros Hi. unfold cpiece. fold n. rewrite Z.geb_leb. destruct (Z.ltb_spec (i - 1) 0).
    - replace i with 0%Z by lia. rewrite extrap_eq. cbn [v_f v_d]. split; [ring|reflexivity].
    - rewrite (proj2 (Z.leb_gt (n - 1) (i - 1))) by lia. pose proof (x_ne (i - 1) ltac:(lia)) as N. replace (i - 1 + 1)%Z with i in * by lia.
      rewrite evalC_right by exact N. cbn [v_f v_d]. split; reflexivity.
  Qed.
  Lemma cm_f t : match_at x (fun k t => v_f (cpiece k t)) t.
  Proof. intros i Hi ->. rewrite (proj1 (cp_at i Hi)), (proj1 (cp_at' i Hi)). reflexivity. Qed.
  Lemma cm_d t : match_at x (fun k t => v_d (cpiece k t)) t.
  Proof. intros i Hi ->. rewrite (proj2 (cp_at i Hi)), (proj2 (cp_at' i Hi)). reflexivity. Qed.
  Lemma cub_node i : (0 <= i < n)%Z -> cF (afn x i) = afn f i /\ cF1 (afn x i) = afn d i.
  Proof.
    intros Hi. unfold cF, cF1. destruct (node_seg x Hx i Hi) as [I _].
    rewrite (pieced_at x Hx _ _ i _ (pieced_Fp x Hx Hn cpiece v_f) (cm_f _) I). rewrite (pieced_at x Hx _ _ i _ (pieced_Fp x Hx Hn cpiece v_d) (cm_d _) I).
    apply cp_at. exact Hi.
  Qed.
  Lemma cub_deriv t : is_derive cF t (cF1 t).
  Proof. apply (glue_at x Hx cF cF1 (fun k t => v_f (cpiece k t)) (fun k t => v_d (cpiece k t))); try apply pieced_Fp; auto using cm_f, cm_d. intros k Hk. apply cp_f. exact Hk. Qed.
  Lemma cub_deriv2 t : match_at x (fun k t => v_d2 (cpiece k t)) t -> is_derive cF1 t (cF2 t).
  Proof. intros M. apply (glue_at x Hx cF1 cF2 (fun k t => v_d (cpiece k t)) (fun k t => v_d2 (cpiece k t))); try apply pieced_Fp; auto using cm_d. intros k Hk. apply cp_d. exact Hk. Qed.
  Lemma cub_deriv3 t : ~ is_node x t -> is_derive cF2 t (cF3 t).
  Proof. intros N. apply (glue_at x Hx cF2 cF3 (fun k t => v_d2 (cpiece k t)) (fun k t => v_d3 (cpiece k t))); try apply pieced_Fp; auto using not_node_match. intros k Hk. apply cp_d2. exact Hk. Qed.
  Lemma cub_left t : t < x_first x -> cF t = afn f 0%Z + afn d 0%Z * (t - x_first x).
  Proof.
    intros L. unfold cF, Fp. destruct (segof_ok x Hx Hn t) as (_ & (A & B & _) & _). assert (segof x t < 0)%Z.
    { destruct (Z_lt_ge_dec (segof x t) 0) as [|G]; [assumption|]. specialize (B ltac:(lia)). pose proof (inc_le x Hx 0 (segof x t) ltac:(lia) ltac:(lia) ltac:(lia)). unfold x_first in L. lra. }
    unfold cpiece. rewrite (proj2 (Z.ltb_lt _ _) H). rewrite extrap_eq. reflexivity.
  Qed.
  Lemma cub_right t : x_last x < t -> cF t = afn f (n - 1)%Z + afn d (n - 1)%Z * (t - x_last x).
  Proof.
    intros L. unfold cF, Fp. destruct (segof_ok x Hx Hn t) as (_ & (A & _ & B) & _). assert (n - 1 <= segof x t)%Z.
    { destruct (Z_le_gt_dec (n - 1) (segof x t)) as [|G]; [assumption|]. specialize (B ltac:(fold n; lia)). pose proof (inc_le x Hx (segof x t + 1) (n - 1) ltac:(lia) ltac:(lia) ltac:(fold n; lia)). unfold x_last in L. fold n in L. lra. }
    unfold cpiece. fold n. rewrite Z.geb_leb, (proj2 (Z.ltb_ge (segof x t) 0)), (proj2 (Z.leb_le (n - 1) (segof x t))) by lia. rewrite extrap_eq. reflexivity.
  Qed.
End Cub.

(** continuity of the second derivative at interior nodes, and natural end conditions *)
Section Cub2.
  Variables x f d : arr R.
  Let n := alen x.
  Hypothesis Hx : increasing x.
  Hypothesis Hn : (2 <= n)%Z.
  Hypothesis Hf : alen f = n.
  Hypothesis Hd : alen d = n.
  Variables dL dR : option R.
  Hypothesis Hrows : rows x f dL dR (afn d).
  Lemma cm2_interior t : x_first x < t < x_last x -> match_at x (fun k t => v_d2 (cpiece x f d k t)) t.
  Proof.
    intros Ht i Hi ->. fold n in Hi. unfold x_first, x_last in Ht. fold n in Ht.
    assert (I : (0 < i < n - 1)%Z).
    { destruct (Z.eq_dec i 0) as [->|]; [lra|]. destruct (Z.eq_dec i (n - 1)) as [->|]; [lra|]. lia. }
    pose proof (rows_interior x f dL dR (afn d) i Hrows I) as Q. cbv zeta beta in Q.
    pose proof (x_ne x Hx (i - 1) ltac:(fold n; lia)) as N1. pose proof (x_ne x Hx i ltac:(fold n; lia)) as N2.
    unfold cpiece. fold n. rewrite !Z.geb_leb, (proj2 (Z.ltb_ge i 0)), (proj2 (Z.ltb_ge (i - 1) 0)), (proj2 (Z.leb_gt (n - 1) i)), (proj2 (Z.leb_gt (n - 1) (i - 1))) by lia.
    replace (i - 1 + 1)%Z with i in * by lia. rewrite evalC_left, evalC_right by assumption. cbn [v_d2].
    set (a := afn x (i - 1)%Z) in *. set (b := afn x i) in *. set (c := afn x (i + 1)%Z) in *.
    apply Rminus_diag_uniq. apply (Rmult_eq_compat_l 2) in Q. apply Rminus_diag_eq in Q. rewrite <- Q. field. lra.
  Qed.
  Lemma cm2_left : dL = None -> match_at x (fun k t => v_d2 (cpiece x f d k t)) (x_first x) /\ cF2 x f d (x_first x) = 0.
  Proof.
    intros E. pose proof (rows_left x f Hn dL dR (afn d) Hrows) as Q. cbv zeta beta in Q. rewrite E in Q.
    pose proof (x_ne x Hx 0 ltac:(fold n; lia)) as N1. change (0 + 1)%Z with 1%Z in *.
    assert (V : v_d2 (cpiece x f d 0 (afn x 0%Z)) = 0).
    { unfold cpiece. fold n. rewrite Z.ltb_irrefl, Z.geb_leb, (proj2 (Z.leb_gt (n - 1) 0)) by lia. change (0 + 1)%Z with 1%Z.
      rewrite evalC_left by assumption. cbn [v_d2]. apply (Rmult_eq_compat_l (-2)) in Q. apply Rminus_diag_eq in Q. rewrite <- Q. field. lra. }
    assert (M : match_at x (fun k t => v_d2 (cpiece x f d k t)) (x_first x)).
    { intros i Hi Ei. fold n in Hi. assert (i = 0)%Z. { destruct (Z.eq_dec i 0) as [|Ni]; [assumption|]. pose proof (Hx 0%Z i ltac:(lia) ltac:(fold n; lia)). unfold x_first in Ei. lra. }
      subst i. unfold x_first. rewrite V. unfold cpiece. cbn [Z.sub Z.ltb Z.compare Z.add Z.opp]. rewrite extrap_eq. reflexivity. }
    split; [exact M|]. unfold cF2. destruct (node_seg x Hx 0 ltac:(fold n; lia)) as [I _].
    rewrite (pieced_at x Hx _ _ 0 _ (pieced_Fp x Hx ltac:(fold n; lia) (cpiece x f d) v_d2) M I). exact V.
  Qed.
  Lemma cm2_right : dR = None -> match_at x (fun k t => v_d2 (cpiece x f d k t)) (x_last x) /\ cF2 x f d (x_last x) = 0.
  Proof.
    intros E. pose proof (rows_right x f Hn dL dR (afn d) Hrows) as Q. cbv zeta beta in Q. rewrite E in Q. fold n in Q.
    pose proof (x_ne x Hx (n - 2) ltac:(fold n; lia)) as N1. replace (n - 2 + 1)%Z with (n - 1)%Z in * by lia.
    assert (V : v_d2 (cpiece x f d (n - 2) (afn x (n - 1)%Z)) = 0).
    { unfold cpiece. fold n. rewrite Z.geb_leb, (proj2 (Z.ltb_ge (n - 2) 0)), (proj2 (Z.leb_gt (n - 1) (n - 2))) by lia. replace (n - 2 + 1)%Z with (n - 1)%Z by lia.
      rewrite evalC_right by assumption. cbn [v_d2]. apply (Rmult_eq_compat_l 2) in Q. apply Rminus_diag_eq in Q. rewrite <- Q. field. lra. }
    assert (V' : v_d2 (cpiece x f d (n - 1) (afn x (n - 1)%Z)) = 0).
    { unfold cpiece. fold n. rewrite Z.geb_leb, (proj2 (Z.ltb_ge (n - 1) 0)), (proj2 (Z.leb_le (n - 1) (n - 1))) by lia. rewrite extrap_eq. reflexivity. }
    assert (M : match_at x (fun k t => v_d2 (cpiece x f d k t)) (x_last x)).
    { intros i Hi Ei. fold n in Hi. assert (i = n - 1)%Z. { destruct (Z.eq_dec i (n - 1)) as [|Ni]; [assumption|]. pose proof (Hx i (n - 1)%Z ltac:(lia) ltac:(fold n; lia)). unfold x_last in Ei. fold n in Ei. lra. }
      subst i. unfold x_last. fold n. rewrite V'. replace (n - 1 - 1)%Z with (n - 2)%Z by lia. exact V. }
    split; [exact M|]. unfold cF2. destruct (node_seg x Hx (n - 1) ltac:(fold n; lia)) as [I _].
    change (afn x (n - 1)%Z) with (x_last x) in I. rewrite (pieced_at x Hx _ _ (n - 1) _ (pieced_Fp x Hx ltac:(fold n; lia) (cpiece x f d) v_d2) M I). exact V'.
  Qed.
End Cub2.
