(** C39, C49: one-dimensional interpolators. *)
From Coquelicot Require Import Coquelicot.
From Verif Require Import Arr BandSpec SplineModel SplineSpec SplineBand SplineCons SplineQui SplineGlue SplineProofs SplineProofs2 SplineReg.
Local Open Scope R_scope.

(** ---- C39 ---- *)
(** invalid input is rejected by every constructor: a grid which is not strictly increasing, or arrays of different lengths *)
Theorem C39_bad_grid : forall x f d d2 reg dL dR, ~ increasing x ->
  linearNew x f = Throw /\ cubicNew x f reg dL dR = Throw /\ cubicHermite x f d = Throw /\ quinticNew x f d = Throw /\ quinticHermite x f d d2 = Throw.
Proof.
  intros x f d d2 reg dL dR N. unfold linearNew, cubicNew, cubicHermite, quinticNew, quinticHermite. rewrite (not_inc_throw x N). repeat split; reflexivity.
Qed.
Theorem C39_bad_length : forall x f d d2, increasing x ->
  (alen f <> alen x -> linearNew x f = Throw) /\
  (alen f <> alen x -> (alen f < alen x \/ alen f > alen x + 2)%Z -> forall reg dL dR, cubicNew x f reg dL dR = Throw) /\
  ((alen f <> alen x \/ alen d <> alen x) -> cubicHermite x f d = Throw /\ quinticNew x f d = Throw) /\
  ((alen f <> alen x \/ alen d <> alen x \/ alen d2 <> alen x) -> quinticHermite x f d d2 = Throw).
Proof.
  intros x f d d2 Hx. unfold linearNew, cubicNew, cubicHermite, quinticNew, quinticHermite. rewrite (inc_monotonic x Hx). cbn [bind]. repeat split.
  - intros N. rewrite (proj2 (Z.eqb_neq _ _) N). reflexivity.
  - intros N L reg dL dR. rewrite (proj2 (Z.eqb_neq (alen f) (alen x + 1))), (proj2 (Z.eqb_neq (alen f) (alen x + 2))) by lia. cbn [orb].
    unfold constructCubicSpline. rewrite (proj2 (Z.eqb_neq _ _) N). reflexivity.
  - replace ((alen f =? alen x)%Z && (alen d =? alen x)%Z)%bool with false; [reflexivity|]. symmetry. apply andb_false_iff. rewrite !Z.eqb_neq. exact H.
  - replace ((alen f =? alen x)%Z && (alen d =? alen x)%Z)%bool with false; [reflexivity|]. symmetry. apply andb_false_iff. rewrite !Z.eqb_neq. exact H.
  - intros H. replace ((alen f =? alen x)%Z && (alen d =? alen x)%Z && (alen d2 =? alen x)%Z)%bool with false; [reflexivity|]. symmetry. rewrite !andb_false_iff, !Z.eqb_neq. tauto.
Qed.
(** linear interpolator: a straight line through each pair of adjacent points, extended beyond the first and the last
    segment; the reported derivative is the true one between the nodes *)
Theorem C39_linear : forall x f, increasing x -> (2 <= alen x)%Z -> alen f = alen x ->
  exists s F F1, linearNew x f = Ok s /\ evaluates (linearEval s) F F1 (fun _ => 0) (fun _ => 0) /\ through x f F /\
    (forall i t, (0 <= i < alen x - 1)%Z -> i = 0%Z \/ afn x i <= t -> i = (alen x - 2)%Z \/ t <= afn x (i + 1)%Z ->
       F t = afn f i + (afn f (i + 1)%Z - afn f i) * ((t - afn x i) / (afn x (i + 1)%Z - afn x i))) /\
    (forall t, ~ is_node x t -> is_derive F t (F1 t)).
Proof.
  intros x f Hx Hn Hf. exists (mkLin x f), (lF x f), (lF1 x f). unfold linearNew. rewrite (inc_monotonic x Hx). cbn [bind]. rewrite Hf, Z.eqb_refl.
  split; [reflexivity|]. split; [apply lin_evaluates; assumption|].
  assert (V : forall i t, (0 <= i < alen x - 1)%Z -> i = 0%Z \/ afn x i <= t -> i = (alen x - 2)%Z \/ t <= afn x (i + 1)%Z ->
       lF x f t = afn f i + (afn f (i + 1)%Z - afn f i) * ((t - afn x i) / (afn x (i + 1)%Z - afn x i))) by (intros; apply lin_value; assumption).
  split; [|split; [exact V|intros t N; apply lin_deriv; assumption]].
  intros i Hi. destruct (Z.eq_dec i (alen x - 1)) as [->|N].
  - pose proof (Hx (alen x - 2)%Z (alen x - 1)%Z ltac:(lia) ltac:(lia)) as L. rewrite (V (alen x - 2)%Z); [|lia|right; lra|left; reflexivity].
    replace (alen x - 2 + 1)%Z with (alen x - 1)%Z by lia. field. lra.
  - pose proof (Hx i (i + 1)%Z ltac:(lia) ltac:(lia)) as L. rewrite (V i); [|lia|right; lra|right; lra]. field. lra.
Qed.
(** cubic Hermite spline: passes through all points with the given derivatives, is continuously differentiable everywhere,
    and all outputs of evalDeriv are mutually consistent derivatives; linear extrapolation outside of the grid *)
Theorem C39_cubic_hermite : forall x f d, increasing x -> (1 <= alen x)%Z -> alen f = alen x -> alen d = alen x ->
  exists s F F1 F2 F3, cubicHermite x f d = Ok s /\ evaluates (cubicEval s) F F1 F2 F3 /\ through x f F /\ through x d F1 /\
    (forall t, is_derive F t (F1 t)) /\ (forall t, ~ is_node x t -> is_derive F1 t (F2 t) /\ is_derive F2 t (F3 t)) /\
    (forall t, t < x_first x -> F t = afn f 0%Z + afn d 0%Z * (t - x_first x)) /\
    (forall t, x_last x < t -> F t = afn f (alen x - 1)%Z + afn d (alen x - 1)%Z * (t - x_last x)).
Proof.
  intros x f d Hx Hn Hf Hd. exists (mkCub x f d), (cF x f d), (cF1 x f d), (cF2 x f d), (cF3 x f d).
  unfold cubicHermite. rewrite (inc_monotonic x Hx). cbn [bind]. rewrite Hf, Hd, Z.eqb_refl. cbn [andb negb]. split; [reflexivity|].
  split; [apply cub_evaluates; assumption|]. split; [intros i Hi; apply cub_node; assumption|]. split; [intros i Hi; apply cub_node; assumption|].
  split; [intros t; apply cub_deriv; assumption|]. split.
  - intros t N. split; [apply cub_deriv2; auto; apply not_node_match; exact N|apply cub_deriv3; assumption].
  - split; [intros t L; apply cub_left; assumption|intros t L; apply cub_right; assumption].
Qed.
(** cubic spline constructed from values: twice continuously differentiable inside the grid; at each end either the
    second derivative vanishes (natural) or the first derivative has the prescribed value (clamped).  For data which are
    symmetric about zero this requires antisymmetric prescribed derivatives, see the next theorem. *)
Theorem C39_cubic_spline : forall x f dL dR, increasing x -> (2 <= alen x)%Z -> alen f = alen x ->
  (symmetric_data x f -> match dL, dR with None, None => True | Some a, Some b => a = - b | _, _ => False end) ->
  exists s F F1 F2 F3, cubicNew x f false dL dR = Ok s /\ evaluates (cubicEval s) F F1 F2 F3 /\ through x f F /\
    (forall t, is_derive F t (F1 t)) /\
    (forall t, x_first x < t < x_last x -> is_derive F1 t (F2 t) /\ continuity_pt F2 t) /\
    (forall t, ~ is_node x t -> is_derive F2 t (F3 t)) /\
    match dL with Some a => F1 (x_first x) = a | None => F2 (x_first x) = 0 /\ is_derive F1 (x_first x) 0 end /\
    match dR with Some b => F1 (x_last x) = b | None => F2 (x_last x) = 0 /\ is_derive F1 (x_last x) 0 end /\
    (forall t, t < x_first x -> F t = F (x_first x) + F1 (x_first x) * (t - x_first x)) /\
    (forall t, x_last x < t -> F t = F (x_last x) + F1 (x_last x) * (t - x_last x)).
Proof.
  intros x f dL dR Hx Hn Hf C. destruct (construct_cubic_rows x f Hx Hn Hf dL dR C) as (d & Ed & Ld & Rd).
  assert (H1 : (1 <= alen x)%Z) by lia.
  exists (mkCub x f d), (cF x f d), (cF1 x f d), (cF2 x f d), (cF3 x f d).
  unfold cubicNew. rewrite (inc_monotonic x Hx). cbn [bind]. rewrite Hf.
  rewrite (proj2 (Z.eqb_neq (alen x) (alen x + 1))), (proj2 (Z.eqb_neq (alen x) (alen x + 2))) by lia. cbn [orb]. rewrite Ed. cbn [bind]. split; [reflexivity|].
  split; [apply cub_evaluates; assumption|]. split; [intros i Hi; apply cub_node; assumption|]. split; [intros t; apply cub_deriv; assumption|].
  split; [|split; [intros t N; apply cub_deriv3; assumption|]].
  { intros t Ht. pose proof (cm2_interior x f d Hx dL dR Rd t Ht) as M. split; [apply cub_deriv2; assumption|].
    unfold cF2. apply (cont_at x Hx _ _ t (pieced_Fp x Hx H1 (cpiece x f d) v_d2) M). intros k Hk. apply derivable_continuous_pt. apply ex_derive_Reals_0. eexists. apply cp_d2; assumption. }
  pose proof (cub_node x f d Hx H1 0 ltac:(lia)) as [N0 N0']. pose proof (cub_node x f d Hx H1 (alen x - 1) ltac:(lia)) as [N1 N1'].
  split; [|split; [|split]].
  - pose proof (rows_left x f Hn dL dR (afn d) Rd) as Q. cbv zeta in Q. destruct dL as [a|] eqn:El.
    + unfold x_first. rewrite N0'. exact Q.
    + destruct (cm2_left x f d Hx Hn None dR Rd eq_refl) as [M V]. split; [exact V|]. rewrite <- V. apply cub_deriv2; assumption.
  - pose proof (rows_right x f Hn dL dR (afn d) Rd) as Q. cbv zeta in Q. destruct dR as [b|] eqn:Er.
    + unfold x_last. rewrite N1'. exact Q.
    + destruct (cm2_right x f d Hx Hn dL None Rd eq_refl) as [M V]. split; [exact V|]. rewrite <- V. apply cub_deriv2; assumption.
  - intros t L. rewrite cub_left by assumption. unfold x_first. rewrite N0, N0'. reflexivity.
  - intros t L. rewrite cub_right by assumption. unfold x_last. rewrite N1, N1'. reflexivity.
Qed.
(** the same spline is the only one: any derivatives at the nodes for which the Hermite spline is twice differentiable
    inside and satisfies the natural conditions are those computed by the constructor *)
Theorem C39_natural_unique : forall x f d F F1 F2 F3 s s', increasing x -> (2 <= alen x)%Z -> alen f = alen x -> alen d = alen x ->
  cubicHermite x f d = Ok s -> evaluates (cubicEval s) F F1 F2 F3 -> (forall t, is_derive F1 t (F2 t)) -> cubicNew x f false None None = Ok s' ->
  forall t, cubicEval s t = cubicEval s' t.
Proof.
  intros x f d F F1 F2 F3 s s' Hx Hn Hf Hd Es Ev HD Es'. assert (H1 : (1 <= alen x)%Z) by lia.
  unfold cubicHermite in Es. rewrite (inc_monotonic x Hx) in Es. cbn [bind] in Es. rewrite Hf, Hd, Z.eqb_refl in Es. cbn [andb negb] in Es. injection Es as <-.
  destruct (construct_cubic_rows x f Hx Hn Hf None None (fun _ => Logic.I)) as (e & Ee & Le & Re).
  unfold cubicNew in Es'. rewrite (inc_monotonic x Hx) in Es'. cbn [bind] in Es'. rewrite Hf in Es'.
  rewrite (proj2 (Z.eqb_neq (alen x) (alen x + 1))), (proj2 (Z.eqb_neq (alen x) (alen x + 2))) in Es' by lia. cbn [orb] in Es'. rewrite Ee in Es'. cbn [bind] in Es'. injection Es' as <-.
  (* the outputs coincide with the pieces *)
  assert (E1 : forall t, F1 t = cF1 x f d t) by (intros t; pose proof (Ev t) as A; rewrite (cub_evaluates x f d Hx H1 Hf Hd t) in A; injection A; intros; congruence).
  assert (D1 : forall t, is_derive (cF1 x f d) t (F2 t)) by (intros t; apply (is_derive_ext F1); [exact E1|apply HD]).
  (* one-sided derivatives of F1 at node i *)
  assert (SR : forall i, (0 <= i < alen x - 1)%Z -> F2 (afn x i) = v_d2 (cpiece x f d i (afn x i))).
  { intros i Hi. pose proof (Hx i (i + 1)%Z ltac:(lia) ltac:(lia)) as L.
    assert (A : right_derive (cF1 x f d) (afn x i) (v_d2 (cpiece x f d i (afn x i)))).
    { apply (right_of_derive _ (fun t => v_d (cpiece x f d i t)) _ _ (afn x (i + 1)%Z - afn x i)); [lra| |apply cp_d; auto; lia].
      intros u Hu. unfold cF1. apply (pieced_at x Hx _ _ i u (pieced_Fp x Hx H1 (cpiece x f d) v_d) (cm_d x f d Hx u)). repeat split; try lia; intros; lra. }
    assert (B : right_derive (cF1 x f d) (afn x i) (F2 (afn x i))) by (apply (right_of_derive _ (cF1 x f d) _ _ 1); [lra|reflexivity|apply D1]).
    apply (right_derive_unique _ _ _ _ B A). }
  assert (SL : forall i, (0 <= i < alen x - 1)%Z -> F2 (afn x (i + 1)%Z) = v_d2 (cpiece x f d i (afn x (i + 1)%Z))).
  { intros i Hi. pose proof (Hx i (i + 1)%Z ltac:(lia) ltac:(lia)) as L.
    assert (A : left_derive (cF1 x f d) (afn x (i + 1)%Z) (v_d2 (cpiece x f d i (afn x (i + 1)%Z)))).
    { apply (left_of_derive _ (fun t => v_d (cpiece x f d i t)) _ _ (afn x (i + 1)%Z - afn x i)); [lra| |apply cp_d; auto; lia].
      intros u Hu. unfold cF1. apply (pieced_at x Hx _ _ i u (pieced_Fp x Hx H1 (cpiece x f d) v_d) (cm_d x f d Hx u)). repeat split; try lia; intros; lra. }
    assert (B : left_derive (cF1 x f d) (afn x (i + 1)%Z) (F2 (afn x (i + 1)%Z))) by (apply (left_of_derive _ (cF1 x f d) _ _ 1); [lra|reflexivity|apply D1]).
    apply (left_derive_unique _ _ _ _ B A). }
  (* derivative from the extrapolated side vanishes *)
  assert (Z0 : F2 (afn x 0%Z) = 0).
  { apply (left_derive_unique (cF1 x f d) (afn x 0%Z)); [apply (left_of_derive _ (cF1 x f d) _ _ 1); [lra|reflexivity|apply D1]|].
    apply (left_of_derive _ (fun t => v_d (cpiece x f d (-1) t)) _ _ 1); [lra| |].
    - intros u Hu. unfold cF1. apply (pieced_at x Hx _ _ (-1)%Z u (pieced_Fp x Hx H1 (cpiece x f d) v_d) (cm_d x f d Hx u)). repeat split; try lia; intros; try lia. change (-1 + 1)%Z with 0%Z. lra.
    - replace 0 with (v_d2 (cpiece x f d (-1) (afn x 0%Z))); [apply cp_d; auto; lia|]. unfold cpiece. cbn [Z.ltb Z.compare]. rewrite extrap_eq. reflexivity. }
  assert (ZN : F2 (afn x (alen x - 1)%Z) = 0).
  { apply (right_derive_unique (cF1 x f d) (afn x (alen x - 1)%Z)); [apply (right_of_derive _ (cF1 x f d) _ _ 1); [lra|reflexivity|apply D1]|].
    apply (right_of_derive _ (fun t => v_d (cpiece x f d (alen x - 1) t)) _ _ 1); [lra| |].
    - intros u Hu. unfold cF1. apply (pieced_at x Hx _ _ (alen x - 1)%Z u (pieced_Fp x Hx H1 (cpiece x f d) v_d) (cm_d x f d Hx u)). repeat split; try lia; intros; try lia. lra.
    - replace 0 with (v_d2 (cpiece x f d (alen x - 1) (afn x (alen x - 1)%Z))); [apply cp_d; auto; lia|]. unfold cpiece. rewrite Z.geb_leb, (proj2 (Z.ltb_ge (alen x - 1) 0)), (proj2 (Z.leb_le (alen x - 1) (alen x - 1))) by lia. rewrite extrap_eq. reflexivity. }
  assert (PL : forall i, (0 <= i < alen x - 1)%Z -> v_d2 (cpiece x f d i (afn x i)) = (-4 * afn d i - 2 * afn d (i + 1)%Z + 6 * (afn f (i + 1)%Z - afn f i) / (afn x (i + 1)%Z - afn x i)) / (afn x (i + 1)%Z - afn x i)).
  { intros i Hi. unfold cpiece. rewrite Z.geb_leb, (proj2 (Z.ltb_ge i 0)), (proj2 (Z.leb_gt (alen x - 1) i)) by lia. rewrite evalC_left by (apply x_ne; auto). reflexivity. }
  assert (PR : forall i, (0 <= i < alen x - 1)%Z -> v_d2 (cpiece x f d i (afn x (i + 1)%Z)) = (2 * afn d i + 4 * afn d (i + 1)%Z - 6 * (afn f (i + 1)%Z - afn f i) / (afn x (i + 1)%Z - afn x i)) / (afn x (i + 1)%Z - afn x i)).
  { intros i Hi. unfold cpiece. rewrite Z.geb_leb, (proj2 (Z.ltb_ge i 0)), (proj2 (Z.leb_gt (alen x - 1) i)) by lia. rewrite evalC_right by (apply x_ne; auto). reflexivity. }
  assert (Rd : rows x f None None (afn d)).
  { apply rows_intro; [lia| | |].
    - intros r Hr. pose proof (SL (r - 1)%Z ltac:(lia)) as A. pose proof (SR r ltac:(lia)) as B. replace (r - 1 + 1)%Z with r in * by lia. rewrite B in A.
      rewrite (PL r) in A by lia. pose proof (PR (r - 1)%Z ltac:(lia)) as P. replace (r - 1 + 1)%Z with r in P by lia. rewrite P in A.
      pose proof (Hx (r - 1)%Z r ltac:(lia) ltac:(lia)). pose proof (Hx r (r + 1)%Z ltac:(lia) ltac:(lia)).
      apply Rminus_diag_uniq. apply (Rmult_eq_compat_l (1 / 2)) in A. apply eq_sym, Rminus_diag_eq in A. rewrite <- A. field. lra.
    - pose proof (SR 0%Z ltac:(lia)) as B. rewrite Z0, PL in B by lia. change (0 + 1)%Z with 1%Z in *. pose proof (Hx 0%Z 1%Z ltac:(lia) ltac:(lia)).
      apply Rminus_diag_uniq. apply (Rmult_eq_compat_l (- 1 / 2)) in B. rewrite Rmult_0_r in B. rewrite B. field. lra.
    - pose proof (SL (alen x - 2)%Z ltac:(lia)) as B. pose proof (PR (alen x - 2)%Z ltac:(lia)) as P. replace (alen x - 2 + 1)%Z with (alen x - 1)%Z in * by lia. rewrite ZN, P in B by lia.
      pose proof (Hx (alen x - 2)%Z (alen x - 1)%Z ltac:(lia) ltac:(lia)).
      apply Rminus_diag_uniq. apply (Rmult_eq_compat_l (1 / 2)) in B. rewrite Rmult_0_r in B. rewrite B. field. lra. }
  pose proof (rows_unique x f Hx Hn None None _ _ Rd Re) as U.
  intros t. rewrite (cub_evaluates x f d Hx H1 Hf Hd t), (cub_evaluates x f e Hx H1 Hf Le t).
  assert (P : forall k, (-1 <= k <= alen x - 1)%Z -> cpiece x f d k t = cpiece x f e k t).
  { intros k Hk. unfold cpiece. rewrite Z.geb_leb. destruct (Z.ltb_spec k 0); [rewrite U by lia; reflexivity|]. destruct (Z.leb_spec (alen x - 1) k); [rewrite U by lia; reflexivity|].
    rewrite (U k), (U (k + 1)%Z) by lia. reflexivity. }
  unfold cF, cF1, cF2, cF3, Fp. rewrite (P (segof x t)) by (apply (segof_ok x Hx H1 t)). reflexivity.
Qed.
(** The prescribed derivative at the left end is ignored when nodes and values are symmetric about zero: the code then
    replaces the left half of the derivatives by minus the right half, whatever the user has prescribed.  Hence the
    clamped end condition is violated for every symmetric data set unless the two prescribed derivatives are opposite. *)
Theorem C39_clamped_symmetric_refuted : forall x f a b, increasing x -> (2 <= alen x)%Z -> alen f = alen x -> symmetric_data x f ->
  exists s v, cubicNew x f false (Some a) (Some b) = Ok s /\ cubicEval s (x_first x) = Ok (Some v) /\ v_d v = - b.
Proof.
  intros x f a b Hx Hn Hf S. destruct (construct_cubic x f Hx Hn Hf (Some a) (Some b)) as (d & Ld & Rd & e & Ee & Le & [(NS & _)|(_ & He)]); [contradiction|].
  assert (H1 : (1 <= alen x)%Z) by lia.
  exists (mkCub x f e). eexists. unfold cubicNew. rewrite (inc_monotonic x Hx). cbn [bind]. rewrite Hf.
  rewrite (proj2 (Z.eqb_neq (alen x) (alen x + 1))), (proj2 (Z.eqb_neq (alen x) (alen x + 2))) by lia. cbn [orb]. rewrite Ee. cbn [bind]. split; [reflexivity|].
  split; [apply cub_evaluates; assumption|]. cbn [v_d]. unfold x_first. destruct (cub_node x f e Hx H1 0 ltac:(lia)) as [_ ->]. rewrite He by lia.
  rewrite (proj2 (Z.ltb_lt 0 (alen x / 2))) by (apply Z.div_str_pos; lia). rewrite Z.sub_0_r. pose proof (rows_right x f Hn (Some a) (Some b) (afn d) Rd) as Q. cbv zeta in Q. rewrite Q. reflexivity.
Qed.
Definition ex_xs : arr R := mkArr 2 (fun i => if (i =? 0)%Z then -1 else 1).
Definition ex_fs : arr R := mkArr 2 (fun _ => 0).
Example C39_symmetric_ex : increasing ex_xs /\ (2 <= alen ex_xs)%Z /\ alen ex_fs = alen ex_xs /\ symmetric_data ex_xs ex_fs.
Proof.
  assert (A : increasing ex_xs). { intros i j Hi Hj. cbn in *. assert (i = 0 /\ j = 1)%Z as [-> ->] by lia. cbn. lra. }
  split; [exact A|]. split; [cbn; lia|]. split; [reflexivity|]. intros i Hi. cbn [alen ex_xs] in Hi. assert (i = 0 \/ i = 1)%Z as [-> | ->] by lia; cbn; split; lra.
Qed.
(** a one-sided prescription on symmetric data (left end only) is lost altogether: prescribing a at the left end of
    the two-point flat data set gives the spline with slope -d at the left end, d being the slope at the right end *)
Theorem C39_clamped_left_only_refuted : forall a, a <> 0 ->
  exists s v, cubicNew ex_xs ex_fs false (Some a) None = Ok s /\ cubicEval s (x_first ex_xs) = Ok (Some v) /\ v_d v <> a.
Proof.
  intros a Na. destruct C39_symmetric_ex as (Hx & Hn & Hf & S). destruct (construct_cubic ex_xs ex_fs Hx Hn Hf (Some a) None) as (d & Ld & Rd & e & Ee & Le & [(NS & _)|(_ & He)]); [contradiction|].
  assert (H1 : (1 <= alen ex_xs)%Z) by lia. exists (mkCub ex_xs ex_fs e). eexists. unfold cubicNew. rewrite (inc_monotonic _ Hx). cbn [bind]. rewrite Hf.
  rewrite (proj2 (Z.eqb_neq (alen ex_xs) (alen ex_xs + 1))), (proj2 (Z.eqb_neq (alen ex_xs) (alen ex_xs + 2))) by lia. cbn [orb]. rewrite Ee. cbn [bind]. split; [reflexivity|].
  split; [apply cub_evaluates; assumption|]. cbn [v_d]. unfold x_first. destruct (cub_node ex_xs ex_fs e Hx H1 0 ltac:(lia)) as [_ ->]. rewrite He by lia.
  change (0 <? alen ex_xs / 2)%Z with true. change (alen ex_xs - 1 - 0)%Z with 1%Z.
  pose proof (rows_right ex_xs ex_fs Hn (Some a) None (afn d) Rd) as Q. pose proof (rows_left ex_xs ex_fs Hn (Some a) None (afn d) Rd) as Q'. cbv zeta in Q, Q'. cbn in Q, Q'. intros E. lra.
Qed.
(** quintic Hermite spline (values, first and second derivatives given) *)
Theorem C39_quintic_hermite : forall x f d d2, increasing x -> (2 <= alen x)%Z -> alen f = alen x -> alen d = alen x -> alen d2 = alen x ->
  exists s F F1 F2 F3, quinticHermite x f d d2 = Ok s /\ evaluates (quinticEval s) F F1 F2 F3 /\ through x f F /\ through x d F1 /\ through x d2 F2 /\
    (forall t, is_derive F t (F1 t)) /\
    (forall t, t <> x_first x -> t <> x_last x -> is_derive F1 t (F2 t)) /\
    (forall t, ~ is_node x t -> is_derive F2 t (F3 t)).
Proof.
  intros x f d d2 Hx Hn Hf Hd H2. assert (H1 : (1 <= alen x)%Z) by lia. exists (mkQui x f d d2), (qF x f d d2), (qF1 x f d d2), (qF2 x f d d2), (qF3 x f d d2).
  unfold quinticHermite. rewrite (inc_monotonic x Hx). cbn [bind]. rewrite Hf, Hd, H2, Z.eqb_refl. cbn [andb negb]. split; [reflexivity|].
  split; [apply qui_evaluates; assumption|]. split; [intros i Hi; apply qui_node; assumption|]. split; [intros i Hi; apply qui_node; assumption|]. split; [intros i Hi; apply qui_node2; assumption|].
  split; [intros t; apply qui_deriv; assumption|]. split; [intros t A B; apply qui_deriv2; assumption|].
  intros t N. apply qui_deriv3; auto.
  - apply not_node_match. exact N.
  - intros E. apply N. exists 0%Z. split; [lia|exact E].
  - intros E. apply N. exists (alen x - 1)%Z. split; [lia|exact E].
Qed.
(** quintic spline constructed from values and first derivatives: the third derivative exists at interior nodes and is
    continuous, the fourth derivative vanishes at the first and the last node *)
Theorem C39_quintic_spline : forall x f d, increasing x -> (2 <= alen x)%Z -> alen f = alen x -> alen d = alen x ->
  exists s F F1 F2 F3, quinticNew x f d = Ok s /\ evaluates (quinticEval s) F F1 F2 F3 /\ through x f F /\ through x d F1 /\
    (forall t, is_derive F t (F1 t)) /\
    (forall t, t <> x_first x -> t <> x_last x -> is_derive F1 t (F2 t) /\ is_derive F2 t (F3 t) /\ continuity_pt F3 t) /\
    right_derive F3 (x_first x) 0 /\ left_derive F3 (x_last x) 0.
Proof.
  intros x f d Hx Hn Hf Hd. assert (H1 : (1 <= alen x)%Z) by lia. destruct (construct_quintic x f d Hx Hn Hf Hd) as (s & Es & Ls & Rs).
  exists (mkQui x f d s), (qF x f d s), (qF1 x f d s), (qF2 x f d s), (qF3 x f d s).
  unfold quinticNew. rewrite (inc_monotonic x Hx). cbn [bind]. rewrite Hf, Hd, Z.eqb_refl. cbn [andb negb]. rewrite Es. cbn [bind]. split; [reflexivity|].
  split; [apply qui_evaluates; assumption|]. split; [intros i Hi; apply qui_node; assumption|]. split; [intros i Hi; apply qui_node; assumption|].
  split; [intros t; apply qui_deriv; assumption|]. split; [|split; [apply q4_left; assumption|apply q4_right; assumption]].
  intros t A B. pose proof (qm_d3 x f d s Hx Rs t A B) as M. split; [apply qui_deriv2; assumption|]. split; [apply qui_deriv3; assumption|].
  unfold qF3. apply (cont_at x Hx _ _ t (pieced_Fp x Hx H1 (qpiece x f d s) v_d3) M). intros k Hk.
  destruct (Z_lt_ge_dec k 0) as [L|L]; [|destruct (Z_lt_ge_dec k (alen x - 1)) as [G|G]].
  - destruct (qpiece_ext x f d s H1 k t (or_introl L)) as (x0 & f0 & d0 & E). apply (continuity_pt_ext (fun _ => 0)); [intros u; rewrite E; unfold extrap; reflexivity|]. apply continuity_pt_const. intros u v. reflexivity.
  - apply (continuity_pt_ext (fun u => v_d3 (polyQ (afn x k) (afn x (k + 1)%Z) (afn f k) (afn f (k + 1)%Z) (afn d k) (afn d (k + 1)%Z) (afn s k) (afn s (k + 1)%Z) u))); [intros u; rewrite (qpiece_poly x f d s Hx k u) by lia; reflexivity|].
    apply derivable_continuous_pt. apply ex_derive_Reals_0. eexists. apply polyQ_d3. apply x_ne; [exact Hx|lia].
  - destruct (qpiece_ext x f d s H1 k t (or_intror (Z.ge_le _ _ G))) as (x0 & f0 & d0 & E). apply (continuity_pt_ext (fun _ => 0)); [intros u; rewrite E; unfold extrap; reflexivity|]. apply continuity_pt_const. intros u v. reflexivity.
Qed.
(** non-vacuity: a three-point grid with non-symmetric data *)
Definition ex_x3 : arr R := mkArr 3 (fun i => IZR i).
Definition ex_f3 : arr R := mkArr 3 (fun i => IZR (i * i)).
Example C39_ex : increasing ex_x3 /\ (2 <= alen ex_x3)%Z /\ alen ex_f3 = alen ex_x3 /\ ~ symmetric_data ex_x3 ex_f3 /\ nondecreasing ex_f3.
Proof.
  split; [intros i j Hi Hj; apply IZR_lt; lia|]. split; [cbn; lia|]. split; [reflexivity|]. split.
  - intros S. destruct (S 0%Z ltac:(cbn; lia)) as [A _]. cbn in A. lra.
  - intros i Hi. cbn [alen ex_f3] in Hi. cbn [afn ex_f3]. apply IZR_le. nia.
Qed.

(** ---- C49 ---- *)
(** the slope-limited cubic spline through nondecreasing values is a nondecreasing function on the whole real line (and
    still passes through all points and is continuously differentiable); strictly increasing between the first and the
    last node when the values are strictly increasing *)
Theorem C49_monotone_increasing : forall x f dL dR, increasing x -> (2 <= alen x)%Z -> alen f = alen x -> nondecreasing f ->
  exists s F F1 F2 F3, cubicNew x f true dL dR = Ok s /\ evaluates (cubicEval s) F F1 F2 F3 /\ through x f F /\ (forall t, is_derive F t (F1 t)) /\
    (forall a b, a <= b -> F a <= F b) /\
    (increasing f -> forall a b, x_first x <= a -> a < b -> b <= x_last x -> F a < F b).
Proof.
  intros x f dL dR Hx Hn Hf M. assert (H1 : (1 <= alen x)%Z) by lia. destruct (construct_cubic x f Hx Hn Hf dL dR) as (_ & _ & _ & d & Ed & Ld & _).
  destruct (regularize_ok x f Hn Hf d Ld) as (e & Ee & Le & He).
  exists (mkCub x f e), (cF x f e), (cF1 x f e), (cF2 x f e), (cF3 x f e).
  unfold cubicNew. rewrite (inc_monotonic x Hx). cbn [bind]. rewrite Hf.
  rewrite (proj2 (Z.eqb_neq (alen x) (alen x + 1))), (proj2 (Z.eqb_neq (alen x) (alen x + 2))) by lia. cbn [orb]. rewrite Ed. cbn [bind]. rewrite Ee. cbn [bind]. split; [reflexivity|].
  split; [apply cub_evaluates; assumption|]. split; [intros i Hi; apply cub_node; assumption|]. split; [intros t; apply cub_deriv; assumption|].
  assert (Sl : forall i, (0 <= i < alen x)%Z -> 0 <= afn e i /\ ((0 < i)%Z -> afn e i <= THREE * sec x f (i - 1)) /\ ((i < alen x - 1)%Z -> afn e i <= THREE * sec x f i)).
  { intros i Hi. rewrite He by exact Hi. apply reg_up; assumption. }
  split; [intros a b L; apply mono_up; assumption|].
  intros If a b La L Lb. apply mono_up_strict; auto. intros i Hi. unfold sec. pose proof (Hx i (i + 1)%Z ltac:(lia) ltac:(lia)). pose proof (If i (i + 1)%Z ltac:(lia) ltac:(lia)). apply Rdiv_lt_0_compat; lra.
Qed.
Theorem C49_monotone_decreasing : forall x f dL dR, increasing x -> (2 <= alen x)%Z -> alen f = alen x -> nonincreasing f ->
  exists s F F1 F2 F3, cubicNew x f true dL dR = Ok s /\ evaluates (cubicEval s) F F1 F2 F3 /\ through x f F /\ (forall t, is_derive F t (F1 t)) /\
    (forall a b, a <= b -> F b <= F a).
Proof.
  intros x f dL dR Hx Hn Hf M. assert (H1 : (1 <= alen x)%Z) by lia. destruct (construct_cubic x f Hx Hn Hf dL dR) as (_ & _ & _ & d & Ed & Ld & _).
  destruct (regularize_ok x f Hn Hf d Ld) as (e & Ee & Le & He).
  exists (mkCub x f e), (cF x f e), (cF1 x f e), (cF2 x f e), (cF3 x f e).
  unfold cubicNew. rewrite (inc_monotonic x Hx). cbn [bind]. rewrite Hf.
  rewrite (proj2 (Z.eqb_neq (alen x) (alen x + 1))), (proj2 (Z.eqb_neq (alen x) (alen x + 2))) by lia. cbn [orb]. rewrite Ed. cbn [bind]. rewrite Ee. cbn [bind]. split; [reflexivity|].
  split; [apply cub_evaluates; assumption|]. split; [intros i Hi; apply cub_node; assumption|]. split; [intros t; apply cub_deriv; assumption|].
  intros a b L. apply Ropp_le_cancel. rewrite <- !cF_neg. apply (mono_up x (aneg f) (aneg e)); auto.
  intros i Hi. cbn [afn aneg]. rewrite He by exact Hi. rewrite <- regval_neg. apply reg_up; auto. intros k Hk. cbn [afn aneg alen] in *. specialize (M k ltac:(lia)). lra.
Qed.
Print Assumptions C39_cubic_spline.
Print Assumptions C39_quintic_spline.
Print Assumptions C49_monotone_increasing.
