(** C55: roots and extrema of interpolators. *)
From Coquelicot Require Import Coquelicot.
From Coq Require Import Sorting.
From Verif Require Import Arr BinSearchModel SplineModel SplineGlue SplineCons SplineQui SplineReg SplineProofs SplineProofs2 SplIntModel SplIntProofs5 PolyModel PolyProofs PolyProofs2 PropsPoly RootProofs SplRootModel BsplProofs BsplProofs2 BsplProofs3 BsplSpec SplineSpec SplRootSpec SplRootProofs SplRootProofs2 SplRootProofs3 SplRootProofs4.
Local Open Scope R_scope.

(** interpolators returned by the constructors (with at least two nodes) *)
Definition built_linear (s : linSpline) : Prop := (2 <= alen (l_x s))%Z /\ exists x f, linearNew x f = Ok s.
Definition built_cubic (s : cubSpline) : Prop := (2 <= alen (c_x s))%Z /\ ((exists x f reg dL dR, cubicNew x f reg dL dR = Ok s) \/ exists x f d, cubicHermite x f d = Ok s).
Definition built_quintic (s : quiSpline) : Prop := (2 <= alen (q_x s))%Z /\ ((exists x f d, quinticNew x f d = Ok s) \/ exists x f d d2, quinticHermite x f d d2 = Ok s).
(** each cubic piece of F - y, as a polynomial a t^3 + b t^2 + c t + d of the distance from the left end of the segment, either has a = 0 or has a
    discriminant that is exactly zero or not too small (otherwise the polynomial solver may confuse nearly multiple roots, see C32) *)
Definition pieces_clear (x : arr R) (F : R -> R) (y : R) : Prop :=
  forall i a b c d, (0 <= i <= alen x - 2)%Z -> (forall r, afn x i <= r <= afn x (i + 1)%Z -> F r - y = a * (r - afn x i) ^ 3 + b * (r - afn x i) ^ 2 + c * (r - afn x i) + d) ->
    a = 0 \/ discr3_clear a b c d.

Lemma built_lin s : built_linear s -> exists x f, s = mkLin x f /\ increasing x /\ (2 <= alen x)%Z /\ alen f = alen x.
Proof.
  intros (Hn & x & f & E). unfold linearNew in E. destruct (checkMonotonic x) eqn:EM; try discriminate. apply mono_inv in EM. cbn [bind] in E. destruct (Z.eqb_spec (alen f) (alen x)); [|discriminate]. cbn [negb] in E. injection E as <-. exists x, f. auto.
Qed.
Lemma built_cub s : built_cubic s -> exists x f d, s = mkCub x f d /\ increasing x /\ (2 <= alen x)%Z /\ alen f = alen x /\ alen d = alen x.
Proof.
  intros (Hn & [(x & f & reg & dL & dR & E)|(x & f & d & E)]).
  - unfold cubicNew in E. destruct (checkMonotonic x) eqn:EM; try discriminate. apply mono_inv in EM. cbn [bind] in E. destruct (_ || _)%bool; [discriminate|].
    destruct (constructCubicSpline x f dL dR) as [d0| | |] eqn:EC; try discriminate. cbn [bind] in E.
    assert (X : c_x s = x). { destruct reg; [destruct (regularizeSpline x f d0)|]; try discriminate; cbn [bind] in E; injection E as <-; reflexivity. }
    rewrite X in *. assert (Hf : alen f = alen x). { unfold constructCubicSpline in EC. destruct (Z.eqb_spec (alen f) (alen x)); [assumption|discriminate]. }
    destruct (construct_cubic x f EM Hn Hf dL dR) as (d1 & _ & _ & e & Ee & Le & _). rewrite EC in Ee. injection Ee as <-. destruct reg.
    + destruct (regularize_ok x f Hn Hf d0 Le) as (e1 & E1 & L1 & _). rewrite E1 in E. cbn [bind] in E. injection E as <-. exists x, f, e1. auto.
    + cbn [bind] in E. injection E as <-. exists x, f, d0. auto.
  - unfold cubicHermite in E. destruct (checkMonotonic x) eqn:EM; try discriminate. apply mono_inv in EM. cbn [bind] in E. destruct (Z.eqb_spec (alen f) (alen x)), (Z.eqb_spec (alen d) (alen x)); try discriminate. cbn [negb andb] in E. injection E as <-. exists x, f, d. auto.
Qed.
Lemma built_qui s : built_quintic s -> exists x f d d2, s = mkQui x f d d2 /\ increasing x /\ (2 <= alen x)%Z /\ alen f = alen x /\ alen d = alen x /\ alen d2 = alen x.
Proof.
  intros (Hn & [(x & f & d & E)|(x & f & d & d2 & E)]).
  - unfold quinticNew in E. destruct (checkMonotonic x) eqn:EM; try discriminate. apply mono_inv in EM. cbn [bind] in E. destruct (Z.eqb_spec (alen f) (alen x)), (Z.eqb_spec (alen d) (alen x)); try discriminate. cbn [negb andb] in E.
    assert (X : q_x s = x). { destruct (constructQuinticSpline x f d); try discriminate. injection E as <-. reflexivity. }
    rewrite X in *. destruct (construct_quintic x f d EM Hn) as (dd2 & Ee & Le & _); try assumption. rewrite Ee in E. cbn [bind] in E. injection E as <-. exists x, f, d, dd2. repeat split; assumption.
  - unfold quinticHermite in E. destruct (checkMonotonic x) eqn:EM; try discriminate. apply mono_inv in EM. cbn [bind] in E. destruct (Z.eqb_spec (alen f) (alen x)), (Z.eqb_spec (alen d) (alen x)), (Z.eqb_spec (alen d2) (alen x)); try discriminate. cbn [negb andb] in E. injection E as <-. exists x, f, d, d2. repeat split; assumption.
Qed.
Lemma ev_ext ev F F1 F2 F3 G G1 G2 G3 : evaluates ev F F1 F2 F3 -> evaluates ev G G1 G2 G3 -> (forall t, F t = G t) /\ (forall t, F1 t = G1 t).
Proof. intros A B. split; intros t; pose proof (A t) as E; rewrite (B t) in E; injection E as E1 E2 E3 E4; congruence. Qed.
Lemma roots_ext x F G y a b L : (forall t, F t = G t) -> roots_of x F y a b L -> roots_of x G y a b L.
Proof.
  intros E (H1 & H2 & H3). split; [exact H1|]. split; [intros r Hr; rewrite <- E; apply H2; exact Hr|]. intros r Hr Er. rewrite <- E in Er. destruct (H3 r Hr Er) as [H|(i & A & B & C & D)]; [left; exact H|]. right. exists i. split; [exact A|]. split; [exact B|]. split; [intros t Ht; rewrite <- E; apply C; exact Ht|exact D].
Qed.
Lemma roots_ext_in x F G y a b L : (forall t, within x t -> F t = G t) -> increasing x -> x_first x <= a -> b <= x_last x -> roots_of x F y a b L -> roots_of x G y a b L.
Proof.
  intros E Hx Ha Hb (H1 & H2 & H3). assert (E' : forall r, a <= r <= b -> F r = G r) by (intros r Hr; apply E; unfold within; lra).
  split; [exact H1|]. split; [intros r Hr; destruct (H2 r Hr) as (P & Q); rewrite <- E' by exact P; auto|]. intros r Hr Er. rewrite <- E' in Er by exact Hr. destruct (H3 r Hr Er) as [H|(i & A & B & C & D)]; [left; exact H|]. right. exists i. split; [exact A|]. split; [exact B|]. split; [|exact D].
  intros t Ht. rewrite <- E; [apply C; exact Ht|]. unfold within, x_first, x_last. pose proof (inc_le x Hx 0 i ltac:(lia) ltac:(lia) ltac:(lia)). pose proof (inc_le x Hx (i + 1) (alen x - 1) ltac:(lia) ltac:(lia) ltac:(lia)). lra.
Qed.
Lemma sep_ext F G F1 G1 a b : (forall t, a <= t <= b -> F t = G t) -> (forall t, a <= t <= b -> F1 t = G1 t) -> separated F F1 a b -> separated G G1 a b.
Proof.
  intros E E1 H u v H1 H2 H3 H4 H5. destruct (H u v H1 H2 H3) as [K|K]; [rewrite E1 by lra; exact H4|rewrite E1 by lra; exact H5| |right; exact K].
  left. intros t Ht. rewrite <- !E by lra. apply K. exact Ht.
Qed.
Lemma zz_ext F G a b : (forall t, a <= t <= b -> F t = G t) -> forall up l, zigzag F up l -> (forall p, In p l -> a <= p <= b) -> zigzag G up l.
Proof.
  intros E. induction 1 as [up p|p q l L1 L2 L3 Z IH|p q l L1 L2 L3 Z IH]; intros B; [constructor| |];
  (pose proof (B p ltac:(left; reflexivity)); pose proof (B q ltac:(right; left; reflexivity)); constructor; [exact L1|rewrite <- !E by lra; exact L2|intros u v H1 H2 H3; rewrite <- !E by lra; apply L3; lra|apply IH; intros r Hr; apply B; right; exact Hr]).
Qed.
Lemma ext_ext F G a b L : (forall t, a <= t <= b -> F t = G t) -> extrema_of F a b L -> extrema_of G a b L.
Proof.
  intros E (H1 & (up & H2) & H3 & H4). split; [exact H1|]. split; [exists up; apply (zz_ext F G a b); assumption|]. split; [exact H3|].
  destruct H1 as (l' & ->). pose proof (H3 _ (last_in a l' a)). intros u Hu. rewrite <- !E by lra. apply H4. exact Hu.
Qed.

(** roots(y, x1, x2) of a linear interpolator. *)
Theorem C55_linear_roots : forall s F F1 F2 F3 y x1 x2, built_linear s -> evaluates (linearEval s) F F1 F2 F3 ->
  let a := lower (l_x s) x1 x2 in let b := upper (l_x s) x1 x2 in a < b ->
  exists L, linRoots s y x1 x2 = Ok L /\ roots_of (l_x s) F y a b L.
Proof.
  intros s F F1 F2 F3 y x1 x2 HB HE. destruct (built_lin s HB) as (x & f & -> & Hx & Hn & Hf). intros a b; cbn [l_x] in a, b |- *; intros Hab.
  destruct (ev_ext _ _ _ _ _ _ _ _ _ (lin_evaluates x f Hx Hn Hf) HE) as (E & _).
  assert (La : alen f = nbasis 1 x) by (unfold nbasis; lia).
  destruct (gen_roots x Hx Hn (rootsBspline 1 0 x f y) (lF x f) y (fun i => 1 / 6 * sp x f 1 3 i (afn x i)) (fun i => 1 / 2 * sp x f 1 2 i (afn x i)) (fun i => sp x f 1 1 i (afn x i)) (fun i => sp x f 1 0 i (afn x i)) x1 x2 Hab) as (L & EL & HL).
  - intros i Hi. apply rf_bspline; try assumption. lia.
  - intros i r Hi Hr. rewrite (lin_value x f Hx Hn i) by (lia || (right; lra)). rewrite <- (lin_sp x f i r) by (assumption || lia). apply sp_taylor; (assumption || lia).
  - intros i Hi. left. rewrite sp_high by lia. ring.
  - exists L. split; [exact EL|]. apply (roots_ext x (lF x f)); assumption.
Qed.
(** roots of a B-spline curve of degree 1, 2 or 3. *)
Theorem C55_bspline_roots : forall N x A y x1 x2, grid_ok x -> alen A = nbasis N x -> (1 <= N <= 3)%nat -> (N = 3%nat -> pieces_clear x (combination N x A) y) ->
  let a := lower x x1 x2 in let b := upper x x1 x2 in a < b ->
  exists L, bsplRoots N (mkBW x A) y x1 x2 = Ok L /\ roots_of x (combination N x A) y a b L.
Proof.
  intros N x A y x1 x2 (Hx & Hn) La HN HC a b Hab. destruct (bounds x x1 x2) as (B1 & B2).
  assert (SEG : forall i r, (0 <= i <= alen x - 2)%Z -> afn x i <= r <= afn x (i + 1)%Z -> within x r).
  { intros i r Hi Hr. unfold within, x_first, x_last. pose proof (inc_le x Hx 0 i ltac:(lia) ltac:(lia) ltac:(lia)). pose proof (inc_le x Hx (i + 1) (alen x - 1) ltac:(lia) ltac:(lia) ltac:(lia)). lra. }
  assert (P : forall i r, (0 <= i <= alen x - 2)%Z -> afn x i <= r <= afn x (i + 1)%Z -> Fo x A N 0 r =
     1 / 6 * sp x A N 3 i (afn x i) * (r - afn x i) ^ 3 + 1 / 2 * sp x A N 2 i (afn x i) * (r - afn x i) ^ 2 + sp x A N 1 i (afn x i) * (r - afn x i) + sp x A N 0 i (afn x i)).
  { intros i r Hi Hr. rewrite (Fo_seg x A N Hx Hn 0 i r) by (assumption || lia). apply sp_taylor; (assumption || lia). }
  destruct (gen_roots x Hx Hn (rootsBspline N 0 x A y) (Fo x A N 0) y (fun i => 1 / 6 * sp x A N 3 i (afn x i)) (fun i => 1 / 2 * sp x A N 2 i (afn x i)) (fun i => sp x A N 1 i (afn x i)) (fun i => sp x A N 0 i (afn x i)) x1 x2 Hab) as (L & EL & HL).
  - intros i Hi. apply rf_bspline; assumption.
  - exact P.
  - intros i Hi. destruct (Nat.eq_dec N 3) as [E|E]; [|left; rewrite sp_high by lia; ring]. apply (HC E i _ _ _ _ Hi). intros r Hr. rewrite <- (Fo_comb x A N Hx Hn r) by (apply (SEG i); assumption). rewrite (P i r Hi Hr). ring.
  - exists L. split; [destruct N; [lia|exact EL]|]. apply (roots_ext_in x (Fo x A N 0)); try assumption. intros t Ht. apply (Fo_comb x A N Hx Hn t Ht).
Qed.
(** roots of a cubic spline.  Missing: pieces with a nearly zero discriminant, for which the polynomial solver itself is inaccurate. *)
Theorem C55_cubic_roots_partial : forall s F F1 F2 F3 y x1 x2, built_cubic s -> evaluates (cubicEval s) F F1 F2 F3 -> pieces_clear (c_x s) F y ->
  let a := lower (c_x s) x1 x2 in let b := upper (c_x s) x1 x2 in a < b ->
  exists L, cubRoots s y x1 x2 = Ok L /\ roots_of (c_x s) F y a b L.
Proof.
  intros s F F1 F2 F3 y x1 x2 HB HE. destruct (built_cub s HB) as (x & f & d & -> & Hx & Hn & Hf & Hd). intros HC a b; cbn [c_x] in HC, a, b |- *; intros Hab.
  destruct (ev_ext _ _ _ _ _ _ _ _ _ (cub_evaluates x f d Hx ltac:(lia) Hf Hd) HE) as (E & _).
  destruct (gen_roots x Hx Hn (rootsCubic 0 x f d y) (cF x f d) y (kA x f d) (kB x f d) (afn d) (afn f) x1 x2 Hab) as (L & EL & HL).
  - intros i Hi. apply rf_cubic; assumption.
  - intros i r Hi Hr. apply cub_seg; assumption.
  - intros i Hi. apply (HC i _ _ _ _ Hi). intros r Hr. rewrite <- E. rewrite (proj1 (cub_seg x f d Hx Hn i r Hi Hr)). ring.
  - exists L. split; [exact EL|]. apply (roots_ext x (cF x f d)); assumption.
Qed.
(** For any data, roots of a cubic spline and extrema of cubic and quintic splines are found without errors; the points are in increasing order (separated by at
    least the accuracy of comparison, or zero) and belong to the interval, and the list of extrema begins with the left end of the interval. *)
Theorem C55_no_failure : forall x1 x2,
  (forall s y, built_cubic s -> let a := lower (c_x s) x1 x2 in let b := upper (c_x s) x1 x2 in a < b ->
    exists L, cubRoots s y x1 x2 = Ok L /\ StronglySorted apart L /\ forall r, In r L -> a <= r <= b) /\
  (forall s, built_cubic s -> let a := lower (c_x s) x1 x2 in let b := upper (c_x s) x1 x2 in a < b ->
    exists L, cubExtrema s x1 x2 = Ok (a :: L) /\ StronglySorted apart (a :: L) /\ forall r, In r L -> a <= r <= b) /\
  (forall s, built_quintic s -> let a := lower (q_x s) x1 x2 in let b := upper (q_x s) x1 x2 in a < b ->
    exists L, quiExtrema s x1 x2 = Ok (a :: L) /\ StronglySorted apart (a :: L) /\ forall r, In r L -> a <= r <= b).
Proof.
  intros x1 x2. split; [|split].
  - intros s y HB. destruct (built_cub s HB) as (x & f & d & -> & Hx & Hn & Hf & Hd). intros a b; cbn [c_x] in a, b |- *; intros Hab. apply (roots_safe x Hx Hn _ (fun i => solveCubic (kA x f d i) (kB x f d i) (afn d i) (afn f i - y))); [|exact Hab].
    intros i Hi. split; [apply rf_cubic; assumption|]. eapply Nat.le_trans; [apply solveC_len|lia].
  - intros s HB. destruct (built_cub s HB) as (x & f & d & -> & Hx & Hn & Hf & Hd). intros a b; cbn [c_x] in a, b |- *; intros Hab. apply (extrema_safe x Hx Hn _ (fun i => solveQuadratic (3 * kA x f d i) (2 * kB x f d i) (afn d i)) ) with (F := cF x f d); [|exact Hab|].
    + intros i Hi. split; [apply rf_cubic1; assumption|]. eapply Nat.le_trans; [apply solveQ_len|lia].
    + intros t _. cbn [i_ev cubI]. rewrite (cub_evaluates x f d) by (assumption || lia). reflexivity.
  - intros s HB. destruct (built_qui s HB) as (x & f & d & d2 & -> & Hx & Hn & Hf & Hd & Hd2). intros a b; cbn [q_x] in a, b |- *; intros Hab.
    set (rs := fun i => match rootsDerivQuintic x f d d2 i with Ok l => l | _ => [] end).
    apply (extrema_safe x Hx Hn _ rs) with (F := qF x f d d2); [|exact Hab|].
    + intros i Hi. cbn [q_x q_f q_d q_d2]. unfold rs, rootsDerivQuintic. rewrite !aget_ok by lia. cbn [bind]. split; [reflexivity|]. apply solve4_len.
    + intros t _. cbn [i_ev quiI]. rewrite (qui_evaluates x f d d2) by (assumption || lia). reflexivity.
Qed.

(** extrema(x1, x2) of a cubic spline: each returned point is an end of the interval or a critical point, and unless some critical points are too close to each
    other, the list contains all extrema. *)
Theorem C55_cubic_extrema : forall s F F1 F2 F3 x1 x2, built_cubic s -> evaluates (cubicEval s) F F1 F2 F3 ->
  let a := lower (c_x s) x1 x2 in let b := upper (c_x s) x1 x2 in a < b ->
  exists L, cubExtrema s x1 x2 = Ok L /\ (forall p, In p L -> a <= p <= b /\ (p = a \/ p = b \/ F1 p = 0)) /\ (separated F F1 a b -> extrema_of F a b L).
Proof.
  intros s F F1 F2 F3 x1 x2 HB HE. destruct (built_cub s HB) as (x & f & d & -> & Hx & Hn & Hf & Hd). intros a b; cbn [c_x] in a, b |- *; intros Hab.
  destruct (ev_ext _ _ _ _ _ _ _ _ _ (cub_evaluates x f d Hx ltac:(lia) Hf Hd) HE) as (E & E1).
  destruct (gen_extrema x Hx Hn (rootsCubic 1 x f d 0) (i_ev (cubI (mkCub x f d))) (cF x f d) (cF1 x f d) (fun i => 3 * kA x f d i) (fun i => 2 * kB x f d i) (afn d) x1 x2 Hab) as (L & EL & H1 & H2).
  - intros i Hi. apply rf_cubic1; assumption.
  - intros t _. cbn [i_ev cubI]. rewrite (cub_evaluates x f d) by (assumption || lia). reflexivity.
  - intros t _. apply cub_deriv; (assumption || lia).
  - intros t _. apply cF1_cont; (assumption || lia).
  - intros i r Hi Hr. apply cub_seg; assumption.
  - exists L. split; [exact EL|]. split; [intros p Hp; rewrite <- E1; apply H1; exact Hp|]. intros S. apply (ext_ext (cF x f d)); [intros; apply E|]. apply H2. apply (sep_ext F _ F1); [intros; symmetry; apply E|intros; symmetry; apply E1|exact S].
Qed.
(** the same for B-splines of degree 2 and 3 (F is the curve, F1 its derivative) *)
Theorem C55_bspline_extrema : forall N x A F1 x1 x2, grid_ok x -> alen A = nbasis N x -> (2 <= N <= 3)%nat ->
  (forall t, within x t -> exists v2 v3, bsplEval N (mkBW x A) t = Ok (Some (combination N x A t, F1 t, v2, v3))) ->
  let a := lower x x1 x2 in let b := upper x x1 x2 in a < b ->
  exists L, bsplExtrema N (mkBW x A) x1 x2 = Ok L /\ (forall p, In p L -> a <= p <= b /\ (p = a \/ p = b \/ F1 p = 0)) /\
    (separated (combination N x A) F1 a b -> extrema_of (combination N x A) a b L).
Proof.
  intros N x A F1 x1 x2 (Hx & Hn) La HN HF a b Hab. destruct (bounds x x1 x2) as (B1 & B2). fold a in B1. fold b in B2.
  assert (E1 : forall t, within x t -> F1 t = Fo x A N 1 t). { intros t Ht. destruct (HF t Ht) as (v2 & v3 & E). rewrite (eval_in x A N Hx Hn La) in E by auto. injection E as _ <- _ _. reflexivity. }
  assert (SEG : forall i r, (0 <= i <= alen x - 2)%Z -> afn x i <= r <= afn x (i + 1)%Z -> within x r).
  { intros i r Hi Hr. unfold within, x_first, x_last. pose proof (inc_le x Hx 0 i ltac:(lia) ltac:(lia) ltac:(lia)). pose proof (inc_le x Hx (i + 1) (alen x - 1) ltac:(lia) ltac:(lia) ltac:(lia)). lra. }
  destruct (gen_extrema x Hx Hn (rootsBspline N 1 x A 0) (i_ev (bsplI N (mkBW x A))) (Fo x A N 0) (Fo x A N 1) (fun i => 1 / 2 * sp x A N 3 i (afn x i)) (fun i => sp x A N 2 i (afn x i)) (fun i => sp x A N 1 i (afn x i)) x1 x2 Hab) as (L & EL & H1 & H2).
  - intros i Hi. apply rf_bspline1; assumption.
  - intros t Ht. cbn [i_ev bsplI]. rewrite (eval_in x A N Hx Hn La) by auto. reflexivity.
  - intros t _. apply (Fo_derive x A N Hx Hn). left. lia.
  - intros t _. apply (Fo_cont x A N Hx Hn). left. lia.
  - intros i r Hi Hr. rewrite (Fo_seg x A N Hx Hn 1 i r) by (assumption || lia). apply sp_taylor; (assumption || lia).
  - exists L. split; [destruct N as [|[|N]]; [lia|lia|exact EL]|]. split.
    + intros p Hp. destruct (H1 p Hp) as (Q1 & Q2). split; [exact Q1|]. rewrite E1 by (fold a b in Q1; unfold within; lra). exact Q2.
    + intros S. apply (ext_ext (Fo x A N 0)); [intros t Ht; apply (Fo_comb x A N Hx Hn); unfold within; lra|]. apply H2.
      apply (sep_ext (combination N x A) _ F1); [intros t Ht; change (a <= t <= b) in Ht; symmetry; apply (Fo_comb x A N Hx Hn); unfold within; lra|intros t Ht; change (a <= t <= b) in Ht; apply E1; unfold within; lra|exact S].
Qed.
(** extrema of a linear interpolator: the list contains all points where the curve turns; if no two adjacent values coincide, each returned point is an end of the
    interval or a strict local extremum.  Missing: intervals whose right end is an interior node, for which this end may be omitted (see below). *)
Theorem C55_linear_extrema_partial : forall s F F1 F2 F3 x1 x2, built_linear s -> evaluates (linearEval s) F F1 F2 F3 ->
  let x := l_x s in let a := lower x x1 x2 in let b := upper x x1 x2 in a < b -> (forall i, (0 < i < alen x - 1)%Z -> b <> afn x i) ->
  exists L, linExtrema s x1 x2 = Ok L /\ turns_of F a b L /\
    ((forall i, (0 <= i < alen x - 1)%Z -> F (afn x i) <> F (afn x (i + 1)%Z)) -> forall p, In p L -> p = a \/ p = b \/ strict_extremum F a b p).
Proof.
  intros s F F1 F2 F3 x1 x2 HB HE. destruct (built_lin s HB) as (x & f & -> & Hx & Hn & Hf). intros x0 a b; cbn [l_x] in x0; subst x0; intros Hab Hb.
  destruct (ev_ext _ _ _ _ _ _ _ _ _ (lin_evaluates x f Hx Hn Hf) HE) as (E & _).
  destruct (lin_extrema x f Hx Hn Hf x1 x2 Hab Hb) as (L & EL & (T1 & T2 & T3 & T4) & TL). fold a b in T1, T2, T3, T4, TL. exists L. split; [exact EL|]. split.
  - split; [exact T1|]. split; [|split; [exact T3|intros u Hu; rewrite <- !E; apply T4; exact Hu]]. clear - E T2. induction T2 as [p|p q l L1 L2 L3 M IH]; constructor; try assumption; [rewrite <- !E; exact L2|].
    destruct L3 as [L3|L3]; [left|right]; intros u v H1 H2 H3; rewrite <- !E; apply L3; assumption.
  - intros NE p Hp. destruct (TL p Hp) as [->|[->|(i & Hi & -> & Hab2 & HT)]]; [left; reflexivity|right; left; reflexivity|]. right; right.
    assert (ND : afn f (i + 1)%Z <> afn f i). { specialize (NE i ltac:(lia)). rewrite <- !E in NE. rewrite !lin_node in NE by (assumption || lia). auto. }
    destruct (turn_strict x f Hx Hn i a b Hi Hab2 HT ND) as (S1 & e & S2 & S3). split; [exact S1|]. exists e. split; [exact S2|]. destruct S3 as [S3|S3]; [left|right]; intros t Ht; rewrite <- !E; apply S3; exact Ht.
Qed.
(** What the lists of extrema mean: every strict local maximum or minimum inside the interval is in the list, and at any point the value of the function lies
    between its values at some points of the list (so that the largest and the smallest values are attained there). *)
Theorem C55_extrema_complete : forall F a b L, extrema_of F a b L \/ turns_of F a b L ->
  (forall p, strict_extremum F a b p -> In p L) /\ (forall t, a <= t <= b -> exists p q, In p L /\ In q L /\ F p <= F t <= F q).
Proof.
  intros F a b L H. assert (T : turns_of F a b L) by (destruct H as [H|H]; [apply extrema_turns|]; exact H).
  split; [intros p; apply (extrema_strict F a b L p T)|intros t; apply (extrema_range F a b L t T)].
Qed.

(** ---- piecewise-constant curves ---- *)
Lemma seg_nodes x a b i1 i2 : increasing x -> (2 <= alen x)%Z -> x_first x <= a -> a < b -> b <= x_last x -> binSearchR a (alist x) = Ok i1 -> binSearchR b (alist x) = Ok i2 ->
  (0 <= i1)%Z /\ (i1 <= i2 <= alen x - 2)%Z /\ forall i, (i1 + 1 <= i < i2 + 1)%Z <-> (0 < i < alen x - 1)%Z /\ a < afn x i <= b.
Proof.
  intros Hx Hn H1 H2 H3 E1 E2. destruct (segments_ok x Hx Hn a b H1 H2 H3) as (j1 & j2 & ES & I0 & I12 & I2 & A1 & A2 & A3). unfold segments in ES. rewrite E1, E2 in ES. cbn [bind] in ES. destruct (_ && _) in ES; [|discriminate]. injection ES as -> ->.
  split; [exact I0|]. split; [lia|]. intros i. split.
  - intros Hi. split; [lia|]. pose proof (inc_le x Hx (j1 + 1) i ltac:(lia) ltac:(lia) ltac:(lia)). pose proof (inc_le x Hx i j2 ltac:(lia) ltac:(lia) ltac:(lia)). lra.
  - intros (Hi & Hab). split.
    + destruct (Z_le_gt_dec (j1 + 1) i); [assumption|]. pose proof (inc_le x Hx i j1 ltac:(lia) ltac:(lia) ltac:(lia)). lra.
    + destruct (Z_lt_le_dec i (j2 + 1)); [assumption|]. pose proof (inc_le x Hx (j2 + 1) i ltac:(lia) ltac:(lia) ltac:(lia)). destruct A3 as [A3| ->]; [lra|lia].
Qed.
Lemma bin_ok x t : increasing x -> (1 <= alen x)%Z -> exists k, binSearchR t (alist x) = Ok k.
Proof. intros Hx Hn. destruct (bin_inseg x Hx Hn t) as (k & E & _). exists k. exact E. Qed.
(** roots of a curve of degree 0 are the interior nodes where the value y is crossed, extrema are the left end of the interval and the nodes where the values turn *)
Theorem C55_degree_0 : forall x A y x1 x2, grid_ok x -> alen A = nbasis 0 x -> let a := lower x x1 x2 in let b := upper x x1 x2 in a < b ->
  (exists L, bsplRoots 0 (mkBW x A) y x1 x2 = Ok L /\ forall r, In r L <-> exists i, (0 < i < alen x - 1)%Z /\ r = afn x i /\ a < r <= b /\ (afn A (i - 1)%Z - y) * (afn A i - y) <= 0) /\
  (exists L, bsplExtrema 0 (mkBW x A) x1 x2 = Ok L /\ forall r, In r L <-> r = a \/ exists i, (0 < i < alen x - 1)%Z /\ r = afn x i /\ a < r <= b /\
     afn A i <> afn A (i - 1)%Z /\ (i = (alen x - 2)%Z \/ (afn A i - afn A (i - 1)%Z) * (afn A (i + 1)%Z - afn A i) <= 0)).
Proof.
  intros x A y x1 x2 (Hx & Hn) La a b Hab. unfold nbasis in La. destruct (bounds x x1 x2) as (B1 & B2). fold a in B1. fold b in B2.
  destruct (bin_ok x a Hx ltac:(lia)) as (i1 & E1). destruct (bin_ok x b Hx ltac:(lia)) as (i2 & E2). destruct (seg_nodes x a b i1 i2 Hx Hn B1 Hab B2 E1 E2) as (I0 & I12 & HS). split.
  - cbn [bsplRoots]. unfold bsplRoots0. cbn [b_x b_a]. rewrite (proj2 (Z.eqb_neq (alen x) 0)) by lia. rewrite (interval_ok x ltac:(lia)). cbn [bind]. fold a b. rewrite E1, E2. cbn [bind].
    match goal with |- context [for_ (i1 + 1) (i2 + 1) ?g ?s] => destruct (for_total (fun k res => forall r, In r res <-> exists i, (i1 + 1 <= i < k)%Z /\ r = afn x i /\ (afn A (i - 1)%Z - y) * (afn A i - y) <= 0) (i1 + 1) (i2 + 1) g s) as (res & E & Er) end.
    + lia.
    + intros r. split; [intros []|intros (i & Hi & _); lia].
    + intros k res Hk Er. rewrite !aget_ok by lia. cbn [bind]. eexists. split; [reflexivity|]. intros r. unfold Rle_b. destruct (Rle_dec _ 0) as [L|L].
      * cbn [In]. rewrite Er. split.
        -- intros [<-|(i & Hi & H)]; [exists k; split; [lia|auto]|exists i; split; [lia|exact H]].
        -- intros (i & Hi & H1 & H2). destruct (Z.eq_dec i k) as [->|N]; [left; auto|right; exists i; split; [lia|auto]].
      * rewrite Er. split; intros (i & Hi & H1 & H2); [exists i; split; [lia|auto]|]. destruct (Z.eq_dec i k) as [->|N]; [contradiction|exists i; split; [lia|auto]].
    + rewrite E. cbn [bind]. exists (rev res). split; [reflexivity|]. intros r. rewrite <- in_rev, Er. split; intros (i & H).
      * exists i. destruct H as (H1 & -> & H2). apply HS in H1. tauto.
      * exists i. destruct H as (H1 & -> & H2 & H3). split; [apply HS; auto|auto].
  - cbn [bsplExtrema]. unfold findExtremaBspline. cbn [b_x b_a]. rewrite (proj2 (Z.eqb_neq (alen x) 0)) by lia. rewrite (interval_ok x ltac:(lia)). cbn [bind]. fold a b. rewrite E1, E2. cbn [bind].
    rewrite (proj2 (Z.leb_le 0 i1)), (proj2 (Z.leb_le i2 _)) by lia. cbn [andb negb Nat.eqb].
    match goal with |- context [for_ (i1 + 1) (i2 + 1) ?g ?s] => destruct (for_total (fun k res => forall r, In r res <-> r = a \/ exists i, (i1 + 1 <= i < k)%Z /\ r = afn x i /\ afn A i <> afn A (i - 1)%Z /\ (i = (alen x - 2)%Z \/ (afn A i - afn A (i - 1)%Z) * (afn A (i + 1)%Z - afn A i) <= 0)) (i1 + 1) (i2 + 1) g s) as (res & E & Er) end.
    + lia.
    + intros r. cbn [In]. split; [intros [<-|[]]; auto|intros [->|(i & Hi & _)]; [auto|lia]].
    + intros k res Hk Er. rewrite !(aget_ok A) by lia. cbn [bind].
      assert (NX : exists nx, (if (k =? alen x - 2)%Z then Ok (afn A k) else aget A (k + 1)) = Ok nx /\ ((afn A k - afn A (k - 1)%Z) * (nx - afn A k) <= 0 <-> k = (alen x - 2)%Z \/ (afn A k - afn A (k - 1)%Z) * (afn A (k + 1)%Z - afn A k) <= 0)).
      { destruct (Z.eqb_spec k (alen x - 2)) as [->|N]; [eexists; split; [reflexivity|]; rewrite Rminus_eq_0, Rmult_0_r; split; [auto|intros; lra]|]. rewrite aget_ok by lia. eexists. split; [reflexivity|]. split; [auto|intros [?|?]; [contradiction|assumption]]. }
      destruct NX as (nx & -> & NX). cbn [bind]. rewrite (aget_ok x) by lia. cbn [bind]. eexists. split; [reflexivity|]. intros r. unfold Req_b, Rle_b.
      destruct (Req_EM_T (afn A k) (afn A (k - 1)%Z)) as [Q|Q]; cbn [negb andb]; [|destruct (Rle_dec _ 0) as [L|L]].
      * rewrite Er. split; (intros [H|(i & Hi & H)]; [left; exact H|right]); [exists i; split; [lia|exact H]|]. destruct (Z.eq_dec i k) as [->|N]; [tauto|exists i; split; [lia|exact H]].
      * cbn [In]. rewrite Er. apply NX in L. split.
        -- intros [<-|[H|(i & Hi & H)]]; [right; exists k; split; [lia|auto]|left; exact H|right; exists i; split; [lia|exact H]].
        -- intros [H|(i & Hi & H)]; [right; left; exact H|]. destruct (Z.eq_dec i k) as [->|N]; [left; destruct H; auto|right; right; exists i; split; [lia|exact H]].
      * rewrite Er. split; (intros [H|(i & Hi & H)]; [left; exact H|right]); [exists i; split; [lia|exact H]|]. destruct (Z.eq_dec i k) as [->|N]; [exfalso; apply L, NX; tauto|exists i; split; [lia|exact H]].
    + rewrite E. cbn [bind]. exists (rev res). split; [reflexivity|]. intros r. rewrite <- in_rev, Er. split; (intros [H|(i & H)]; [left; exact H|right; exists i]).
      * destruct H as (H1 & -> & H2). apply HS in H1. tauto.
      * destruct H as (H1 & -> & H2 & H3). split; [apply HS; auto|auto].
Qed.

(** ---- what does not hold ---- *)
(** If the requested interval lies entirely outside of the grid, the search for roots or extrema of a cubic spline ends in an assertion failure (rather than returning an
    empty list). *)
Theorem C55_disjoint_interval_refuted : forall s y p q, built_cubic s -> (x_last (c_x s) < p /\ x_last (c_x s) < q) \/ (p < x_first (c_x s) /\ q < x_first (c_x s)) ->
  cubRoots s y (Some p) (Some q) = UB /\ cubExtrema s (Some p) (Some q) = UB.
Proof.
  intros s y p q HB. destruct (built_cub s HB) as (x & f & d & -> & Hx & Hn & Hf & Hd). cbn [c_x]. intros O. set (a := lower x (Some p) (Some q)). set (b := upper x (Some p) (Some q)).
  assert (FL : x_first x < x_last x) by (apply Hx; lia).
  assert (AB : b < a /\ (x_last x < a \/ b < x_first x)).
  { unfold a, b, lower, upper. pose proof (Rmax_l (Rmin p q) (x_first x)). pose proof (Rmax_r (Rmin p q) (x_first x)). pose proof (Rmin_l (Rmax p q) (x_last x)). pose proof (Rmin_r (Rmax p q) (x_last x)). destruct O as [(O1 & O2)|(O1 & O2)].
    - assert (x_last x < Rmin p q) by (apply Rmin_glb_lt; assumption). split; [lra|left; lra].
    - assert (Rmax p q < x_first x) by (apply Rmax_lub_lt; assumption). split; [lra|right; lra]. }
  unfold cubRoots, cubExtrema, findRoots, findExtrema. cbn [c_x c_f c_d]. rewrite (proj2 (Z.eqb_neq (alen x) 0)) by lia. rewrite (interval_ok x ltac:(lia)). cbn [bind]. fold a b. rewrite (Req_b_f a b) by lra.
  rewrite (segments_UB x Hx Hn a b) by tauto. split; [reflexivity|]. cbn [i_ev cubI]. rewrite (cub_evaluates x f d) by (assumption || lia). reflexivity.
Qed.
(** If the interval degenerates to a point, no roots are reported even if this point is a root. *)
Theorem C55_point_interval_refuted : forall s y p, built_cubic s -> within (c_x s) p -> cubRoots s y (Some p) (Some p) = Ok [].
Proof.
  intros s y p HB. destruct (built_cub s HB) as (x & f & d & -> & Hx & Hn & Hf & Hd). cbn [c_x]. intros (W1 & W2). unfold cubRoots, findRoots. cbn [c_x c_f c_d].
  rewrite (proj2 (Z.eqb_neq (alen x) 0)) by lia. rewrite (interval_ok x ltac:(lia)). cbn [bind]. unfold lower, upper. rewrite (Rmin_left p p), (Rmax_left p p) by lra. rewrite (Rmax_left p (x_first x)), (Rmin_left p (x_last x)) by lra. rewrite (Req_b_t p p eq_refl). reflexivity.
Qed.
(** The roots are not always distinct: a root that coincides with a node at x=0 is reported twice. *)
Definition xd : arr R := mkArr 3 (fun i => IZR (i - 1)).
Definition dd : arr R := mkArr 3 (fun _ => 1).
Lemma inc_xd : increasing xd. Proof. intros i j Hi Hj. apply IZR_lt. lia. Qed.
Lemma cub_new x f d : increasing x -> (2 <= alen x)%Z -> alen f = alen x -> alen d = alen x -> built_cubic (mkCub x f d).
Proof. intros Hx Hn Hf Hd. split; [exact Hn|]. right. exists x, f, d. unfold cubicHermite. rewrite (inc_monotonic x Hx). cbn [bind]. rewrite Hf, Hd, Z.eqb_refl. reflexivity. Qed.
Theorem C55_distinct_roots_refuted : exists s y, built_cubic s /\ cubRoots s y None None = Ok [0; 0].
Proof.
  exists (mkCub xd xd dd), 0. split; [apply cub_new; try reflexivity; [apply inc_xd|cbn; lia]|].
  unfold cubRoots, findRoots. cbn [c_x c_f c_d]. change (alen xd =? 0)%Z with false. cbv iota. rewrite (interval_ok xd ltac:(cbn; lia)). cbn [bind]. cbv iota.
  unfold lower, upper, x_first, x_last. cbn [afn alen xd]. change (0 - 1)%Z with (-1)%Z. change (3 - 1 - 1)%Z with 1%Z. rewrite (Req_b_f (-1) 1) by lra.
  destruct (segments_ok xd inc_xd ltac:(cbn; lia) (-1) 1) as (i1 & i2 & ES & I0 & I12 & I2 & A1 & A2 & A3); try (unfold x_first, x_last; cbn; lra). rewrite ES. cbn [bind fst snd]. cbn [alen xd] in I2, A3. cbn [afn xd] in A1, A2, A3.
  assert (i1 = 0%Z) as ->. { destruct (Z.eq_dec i1 0); [assumption|]. replace i1 with 1%Z in * by lia. cbn in A1. lra. }
  assert (i2 = 1%Z) as ->. { destruct (Z.eq_dec i2 1); [assumption|]. replace i2 with 0%Z in * by lia. cbn in A2. lra. }
  unfold for_. change (Z.to_nat (1 + 1 - 0)) with 2%nat. cbn [forn Z.add]. rewrite !rf_cubic by (reflexivity || (cbn; lia)). rewrite !aget_ok by (cbn; lia). cbn [bind].
  assert (KA : forall i, (0 <= i <= 1)%Z -> kA xd xd dd i = 0 /\ kB xd xd dd i = 0).
  { intros i Hi. assert (i = 0 \/ i = 1)%Z as [-> | ->] by lia; unfold kA, kB, pow_2; cbn; split; field. }
  destruct (KA 0%Z ltac:(lia)) as (-> & ->). destruct (KA 1%Z ltac:(lia)) as (-> & ->). rewrite !C32_cubic_lower_degree. unfold solveQuadratic. rewrite !(Req_b_t 0 0 eq_refl).
  cbn [afn xd dd]. change (0 - 1)%Z with (-1)%Z. change (1 - 1)%Z with 0%Z. change (0 + 1 - 1)%Z with 0%Z. change (1 + 1 - 1)%Z with 1%Z. try change (2 - 1)%Z with 1%Z. try change (Z.pos 2 - 1)%Z with 1%Z. unfold solveLinear. rewrite !(Req_b_f 1 0) by lra. cbn [negb andb]. 
  cbn [length Nat.ltb Nat.leb map fold_left]. change (Z.pos (1 + 1) - 1)%Z with 1%Z. cbn [bind]. rewrite (Rmax_left (-1) (-1)), (Rmax_right (-1) 0), (Rmin_right 1 0), (Rmin_left 1 1) by lra. unfold pushRoot, admit_root.
  replace (- (-1 - 0) / 1 + -1) with 0 by field. replace (- (0 - 0) / 1 + 0) with 0 by field. rewrite (Rle_b_t (-1) 0), (Rle_b_t 0 0), (Rle_b_t 0 1) by lra. cbn [andb].
  rewrite (proj2 (isLarger_spec 0 0)); [reflexivity|]. unfold apart. rewrite Rabs_R0, Rmax_left by lra. lra.
Qed.
(** The right end of the interval is not always reported as an extremum of a linear interpolator: the straight line through (0,0), (1,1), (2,2) on the interval
    [0,1] gives only the left end. *)
Definition xl : arr R := mkArr 3 IZR.
Lemma inc_xl : increasing xl. Proof. intros i j Hi Hj. apply IZR_lt. lia. Qed.
Lemma lin_new x f : increasing x -> (2 <= alen x)%Z -> alen f = alen x -> built_linear (mkLin x f).
Proof. intros Hx Hn Hf. split; [exact Hn|]. exists x, f. unfold linearNew. rewrite (inc_monotonic x Hx). cbn [bind]. rewrite Hf, Z.eqb_refl. reflexivity. Qed.
Theorem C55_linear_extrema_right_end_refuted : exists s F F1 F2 F3, built_linear s /\ evaluates (linearEval s) F F1 F2 F3 /\ F 0 < F 1 /\ linExtrema s (Some 0) (Some 1) = Ok [0].
Proof.
  exists (mkLin xl xl), (lF xl xl), (lF1 xl xl), (fun _ => 0), (fun _ => 0). split; [apply lin_new; [apply inc_xl|cbn; lia|reflexivity]|]. split; [apply lin_evaluates; [apply inc_xl|cbn; lia|reflexivity]|].
  split; [change 0 with (afn xl 0%Z) at 1; change 1 with (afn xl 1%Z) at 1; rewrite !lin_node by (apply inc_xl || (cbn; lia)); cbn; lra|].
  unfold linExtrema, findExtremaBspline. cbn [l_x l_f]. change (alen xl =? 0)%Z with false. cbv iota. rewrite (interval_ok xl ltac:(cbn; lia)). cbn [bind].
  unfold lower, upper, x_first, x_last. cbn [afn alen xl]. change (3 - 1)%Z with 2%Z. rewrite (Rmin_left 0 1), (Rmax_right 0 1), (Rmax_left 0 0), (Rmin_left 1 2) by lra. cbv iota.
  destruct (bin_ok xl 0 inc_xl ltac:(cbn; lia)) as (i1 & E1). destruct (bin_ok xl 1 inc_xl ltac:(cbn; lia)) as (i2 & E2). rewrite E1, E2. cbn [bind].
  destruct (segments_ok xl inc_xl ltac:(cbn; lia) 0 1) as (j1 & j2 & ES & I0 & I12 & I2 & A1 & A2 & A3); try (unfold x_first, x_last; cbn; lra). unfold segments in ES. rewrite E1, E2 in ES. cbn [bind] in ES. destruct (_ && _) in ES; [|discriminate]. injection ES as -> ->. cbn [alen xl] in I2, A3. cbn [afn xl] in A1, A2, A3.
  assert (j1 = 0%Z) as ->. { destruct (Z.eq_dec j1 0); [assumption|]. replace j1 with 1%Z in * by lia. cbn in A1. lra. }
  assert (j2 = 1%Z) as ->. { destruct (Z.eq_dec j2 1); [assumption|]. replace j2 with 0%Z in * by lia. destruct A3 as [A3|A3]; [cbn in A3; lra|lia]. }
  change (3 - 2)%Z with 1%Z. cbn [Z.leb Z.compare andb negb Pos.compare Pos.compare_cont]. unfold for_. change (Z.to_nat (1 + 1 - (0 + 1))) with 1%nat. cbn [forn]. change (0 + 1)%Z with 1%Z. change (1 - 1)%Z with 0%Z. change (1 + 1)%Z with 2%Z. cbn [Nat.eqb andb].
  rewrite !aget_ok by (cbn; lia). cbn [bind afn xl]. rewrite (Req_b_f 1 0), (Rle_b_f ((1 - 0) * (2 - 1)) 0) by lra. cbn [negb andb]. unfold Rlt_b. destruct (Rlt_dec 1 1); [lra|]. reflexivity.
Qed.
(** An interval beyond the grid: the extrema of a linear interpolator then include a point outside of the grid, and the points are not in increasing order. *)
Theorem C55_linear_extrema_disjoint_refuted : forall s p q, built_linear s -> x_last (l_x s) < p -> x_last (l_x s) < q ->
  exists L, linExtrema s (Some p) (Some q) = Ok (Rmin p q :: L) /\ (L = [] \/ L = [x_last (l_x s)]).
Proof.
  intros s p q HB. destruct (built_lin s HB) as (x & f & -> & Hx & Hn & Hf). cbn [l_x]. intros Hp Hq. assert (FL : x_first x < x_last x) by (apply Hx; lia). unfold linExtrema, findExtremaBspline. cbn [l_x l_f]. rewrite (proj2 (Z.eqb_neq (alen x) 0)) by lia. rewrite (interval_ok x ltac:(lia)). cbn [bind].
  assert (M : x_last x < Rmin p q) by (apply Rmin_glb_lt; assumption). assert (M2 : x_last x < Rmax p q) by (pose proof (Rmax_l p q); lra).
  replace (lower x (Some p) (Some q)) with (Rmin p q) by (unfold lower; rewrite Rmax_left by lra; reflexivity). replace (upper x (Some p) (Some q)) with (x_last x) by (unfold upper; rewrite Rmin_right by lra; reflexivity).
  destruct (bin_inseg x Hx ltac:(lia) (Rmin p q)) as (k1 & -> & (P1 & Q1 & C1) & _). destruct (seg_of x Hx Hn (x_last x) ltac:(unfold within; lra)) as (k2 & -> & R2 & R3 & R4). cbn [bind].
  assert (k1 = alen x - 1)%Z as ->. { destruct (Z.eq_dec k1 (alen x - 1)); [assumption|]. specialize (C1 ltac:(lia)). unfold x_last in M. pose proof (inc_le x Hx (k1 + 1) (alen x - 1) ltac:(lia) ltac:(lia) ltac:(lia)). lra. }
  rewrite (proj2 (Z.leb_le 0 _)), (proj2 (Z.leb_le k2 _)) by lia. cbn [andb negb]. unfold for_. replace (Z.to_nat (k2 + 1 - (alen x - 1 + 1))) with 0%nat by lia. cbn [forn bind Nat.eqb]. rewrite (aget_ok x) by lia. cbn [bind].
  unfold Rlt_b. destruct (Rlt_dec (afn x k2) (x_last x)); [|cbn [bind]; exists []; split; [reflexivity|auto]]. rewrite !(aget_ok f) by lia. cbn [bind]. destruct (negb _); [exists [x_last x]|exists []]; split; try reflexivity; auto.
Qed.

(** ---- a concrete case: the cubic spline t^3-3t on the grid {-2,0,2}, with a maximum at -1 and a minimum at 1 ---- *)
Definition xc : arr R := mkArr 3 (fun i => IZR (2 * i - 2)).
Definition fc : arr R := mkArr 3 (fun i => IZR (4 * i - 2 - (if (i =? 1)%Z then 2 else if (i =? 0)%Z then 0 else 4))).
Definition dc : arr R := mkArr 3 (fun i => if (i =? 1)%Z then -3 else 9).
Lemma inc_xc : increasing xc. Proof. intros i j Hi Hj. apply IZR_lt. lia. Qed.
Example cubic_case : built_cubic (mkCub xc fc dc) /\ (forall t, -2 <= t <= 2 -> cF xc fc dc t = t ^ 3 - 3 * t /\ cF1 xc fc dc t = 3 * t ^ 2 - 3).
Proof.
  split; [apply cub_new; try reflexivity; [apply inc_xc|cbn; lia]|]. intros t Ht. destruct (Rle_dec t 0).
  - destruct (cub_seg xc fc dc inc_xc ltac:(cbn; lia) 0 t ltac:(cbn; lia) ltac:(cbn; lra)) as (-> & ->). unfold kA, kB, pow_2. cbn. split; field.
  - destruct (cub_seg xc fc dc inc_xc ltac:(cbn; lia) 1 t ltac:(cbn; lia) ltac:(cbn; lra)) as (-> & ->). unfold kA, kB, pow_2. cbn. split; field.
Qed.
Lemma tiny_1000 : tiny <= 1 / 1000.
Proof. unfold tiny. assert (/ 2 ^ 52 <= / 10000) by (apply Rinv_le_contravar; lra). lra. Qed.
Example cubic_case_extrema : exists L, cubExtrema (mkCub xc fc dc) None None = Ok L /\ In (-1) L /\ In 1 L.
Proof.
  destruct cubic_case as (HB & HF). pose proof (cub_evaluates xc fc dc inc_xc ltac:(cbn; lia) eq_refl eq_refl) as HE.
  destruct (C55_cubic_extrema _ _ _ _ _ None None HB HE) as (L & EL & _ & HS); [unfold lower, upper, x_first, x_last; cbn; lra|]. exists L. split; [exact EL|].
  change (lower (c_x (mkCub xc fc dc)) None None) with (-2) in HS. change (upper (c_x (mkCub xc fc dc)) None None) with 2 in HS.
  assert (SP : separated (cF xc fc dc) (cF1 xc fc dc) (-2) 2).
  { intros u v H1 H2 H3 H4 H5. right. rewrite (proj2 (HF u ltac:(lra))) in H4. rewrite (proj2 (HF v ltac:(lra))) in H5. pose proof tiny_1000. pose proof tiny_pos.
    assert (U : u = -2 \/ u = -1 \/ u = 1). { destruct H4 as [H4|H4]; [auto|]. right. assert (K : (u - 1) * (u + 1) = 0) by lra. apply Rmult_integral in K. destruct K; [right|left]; lra. }
    assert (V : v = 2 \/ v = -1 \/ v = 1). { destruct H5 as [H5|H5]; [auto|]. right. assert (K : (v - 1) * (v + 1) = 0) by lra. apply Rmult_integral in K. destruct K; [right|left]; lra. }
    unfold apart. assert (Rmax (Rabs u) (Rabs v) <= 2) by (apply Rmax_lub; apply Rabs_le; lra). assert (1 <= v - u) by (destruct U as [->|[->| ->]], V as [->|[->| ->]]; lra). nra. }
  specialize (HS SP). destruct (C55_extrema_complete _ _ _ _ (or_introl HS)) as (C & _). split; apply C.
  - split; [lra|]. exists (1 / 2). split; [lra|]. left. intros t (T1 & T2). apply Rabs_def2 in T2. assert (t + 1 <> 0) by (intros E; replace (t - -1) with 0 in T1 by lra; rewrite Rabs_R0 in T1; lra).
    rewrite (proj1 (HF t ltac:(lra))), (proj1 (HF (-1) ltac:(lra))). assert (0 < (t + 1) ^ 2) by (apply pow2_gt_0; assumption). nra.
  - split; [lra|]. exists (1 / 2). split; [lra|]. right. intros t (T1 & T2). apply Rabs_def2 in T2. assert (t - 1 <> 0) by (intros E; rewrite E, Rabs_R0 in T1; lra).
    rewrite (proj1 (HF t ltac:(lra))), (proj1 (HF 1 ltac:(lra))). assert (0 < (t - 1) ^ 2) by (apply pow2_gt_0; assumption). nra.
Qed.
(** the hypothesis about discriminants holds for this curve and y = 0 *)
Lemma cubic_unique a b c d a' b' c' d' h : 0 < h -> (forall t, 0 <= t <= h -> a * t ^ 3 + b * t ^ 2 + c * t + d = a' * t ^ 3 + b' * t ^ 2 + c' * t + d') -> a = a' /\ b = b' /\ c = c' /\ d = d'.
Proof.
  intros Hh H. pose proof (H 0 ltac:(lra)) as H0. assert (D : d = d') by lra. pose proof (H h ltac:(lra)) as E1. pose proof (H (h / 2) ltac:(lra)) as E2. pose proof (H (h / 3) ltac:(lra)) as E3. rewrite D in *.
  assert (K1 : (a - a') * h ^ 2 + (b - b') * h + (c - c') = 0). { apply (Rmult_eq_reg_r h); [|lra]. lra. }
  assert (K2 : (a - a') * h ^ 2 / 4 + (b - b') * h / 2 + (c - c') = 0). { apply (Rmult_eq_reg_r (h / 2)); [|lra]. lra. }
  assert (K3 : (a - a') * h ^ 2 / 9 + (b - b') * h / 3 + (c - c') = 0). { apply (Rmult_eq_reg_r (h / 3)); [|lra]. lra. }
  assert (M1 : (a - a') * h ^ 2 = 0) by lra. assert (M2 : (b - b') * h = 0) by lra. assert (h ^ 2 <> 0) by (apply pow_nonzero; lra).
  apply Rmult_integral in M1. apply Rmult_integral in M2. destruct M1; [|contradiction]. destruct M2; [|lra]. repeat split; lra.
Qed.
Example cubic_case_clear : pieces_clear xc (cF xc fc dc) 0.
Proof.
  destruct cubic_case as (_ & HF). intros i a b c d Hi H. cbn [alen xc] in Hi. right. pose proof deps_small as S1. pose proof deps_pos as S2. assert (i = 0 \/ i = 1)%Z as [-> | ->] by lia.
  - destruct (cubic_unique a b c d 1 (-6) 9 (-2) 2 ltac:(lra)) as (-> & -> & -> & ->).
    + intros t Ht. specialize (H (t - 2) ltac:(cbn; lra)). cbn [afn xc] in H. change (2 * 0 - 2)%Z with (-2)%Z in H. rewrite (proj1 (HF (t - 2) ltac:(lra))) in H. replace (t - 2 - -2) with t in H by ring. lra.
    + right. unfold discr3. rewrite Rabs_right by lra. lra.
  - destruct (cubic_unique a b c d 1 0 (-3) 0 2 ltac:(lra)) as (-> & -> & -> & ->).
    + intros t Ht. specialize (H t ltac:(cbn; lra)). cbn [afn xc] in H. change (2 * 1 - 2)%Z with 0%Z in H. rewrite (proj1 (HF t ltac:(lra))) in H. replace (t - 0) with t in H by ring. lra.
    + right. unfold discr3. rewrite Rabs_right by lra. lra.
Qed.
(** so that its roots on (0,2] include sqrt 3 *)
Example cubic_case_roots : exists L, cubRoots (mkCub xc fc dc) 0 None None = Ok L /\ exists r, In r L /\ close r (sqrt 3).
Proof.
  destruct cubic_case as (HB & HF). pose proof (cub_evaluates xc fc dc inc_xc ltac:(cbn; lia) eq_refl eq_refl) as HE.
  destruct (C55_cubic_roots_partial _ _ _ _ _ 0 None None HB HE cubic_case_clear) as (L & EL & _ & _ & HL); [unfold lower, upper, x_first, x_last; cbn; lra|]. exists L. split; [exact EL|].
  change (lower (c_x (mkCub xc fc dc)) None None) with (-2) in HL. change (upper (c_x (mkCub xc fc dc)) None None) with 2 in HL. cbn [c_x] in HL.
  assert (S0 : 0 < sqrt 3) by (apply sqrt_lt_R0; lra). assert (S1 : sqrt 3 * sqrt 3 = 3) by (apply sqrt_sqrt; lra). assert (S2 : sqrt 3 <= 2) by nra.
  destruct (HL (sqrt 3) ltac:(lra)) as [H|(i & Hi & _ & HC & _)]; [rewrite (proj1 (HF (sqrt 3) ltac:(lra))); nra|exact H|]. exfalso. cbn [alen xc] in Hi. assert (i = 0 \/ i = 1)%Z as [-> | ->] by lia.
  - specialize (HC (-1) ltac:(cbn; lra)). rewrite (proj1 (HF (-1) ltac:(lra))) in HC. lra.
  - specialize (HC 1 ltac:(cbn; lra)). rewrite (proj1 (HF 1 ltac:(lra))) in HC. lra.
Qed.

Print Assumptions C55_linear_roots.
Print Assumptions C55_bspline_roots.
Print Assumptions C55_cubic_roots_partial.
Print Assumptions C55_no_failure.
Print Assumptions C55_cubic_extrema.
Print Assumptions C55_bspline_extrema.
Print Assumptions C55_linear_extrema_partial.
Print Assumptions C55_extrema_complete.
Print Assumptions C55_degree_0.
Print Assumptions C55_disjoint_interval_refuted.
Print Assumptions C55_point_interval_refuted.
Print Assumptions C55_distinct_roots_refuted.
Print Assumptions C55_linear_extrema_right_end_refuted.
Print Assumptions C55_linear_extrema_disjoint_refuted.
