(** Ferrers potential: the evaluated function; existence of the root; constructor and density *)
From Coq Require Import Reals Lra Psatz Bool.
From Coquelicot Require Import Coquelicot.
From Verif Require Import RandReal RandRealProofs PolyModel PolyProofs CoordModel CoordSpec CoordCalc CoordAtan CoordMaps RootProofs PotModel PotSpec DiskModel DfProofs DfProofs2 FerrersModel FerrersSpec FerrersProofs FerrersProofs2 FerrersProofs3 FerrersProofs4.
Local Open Scope R_scope.

Opaque computeW.
Section F.
Variable P : ferrers.
Hypothesis V : fvalid P.
Variable root : vec3 -> R.
Hypothesis HR : is_root P root.
Local Notation lam := (lamOf P root).
Definition rad2 (p : vec3) : R := v1 p ^ 2 + v2 p ^ 2 + v3 p ^ 2.
Lemma rad2_pow p : rad2 p = let '(x, y, z) := p in pow_2 x + pow_2 y + pow_2 z.
Proof. destruct p as [[x y] z]. unfold rad2, CoordModel.v1, v2, v3, pow_2. cbn [fst snd]. ring. Qed.
Lemma eval_near p : rad2 p <= (10 * fa P) ^ 2 -> ferEval P root p = (Nval P root p, Ngrad P root p, Nhess P root p).
Proof.
  destruct p as [[x y] z]. intros H. unfold ferEval. rewrite rad2_pow in H. cbv iota beta in H. rewrite Rlt_b_f by (unfold pow_2 in *; cbn in H; lra).
  unfold Nval, Ngrad, Nhess, nval, ngrad, nhess, lamOf. rewrite <- !surjective_pairing. reflexivity.
Qed.
Lemma eval_far p : (10 * fa P) ^ 2 < rad2 p -> ferEval P root p = (Fval P p, Fgrad P p, Fhess P p).
Proof.
  destruct p as [[x y] z]. intros H. unfold ferEval. rewrite rad2_pow in H. cbv iota beta in H. rewrite Rlt_b_t by (unfold pow_2 in *; cbn in H; lra).
  unfold Fval, Fgrad, Fhess. rewrite <- !surjective_pairing. reflexivity.
Qed.
Lemma cont_rad2 p : continuous rad2 p. Proof. unfold rad2. cbn [pow]. cont. Qed.
Lemma hess_with_ext (f f' : vec3 -> R) G p h : locally p (fun q => f q = f' q) -> is_hess_with f G p h -> is_hess_with f' G p h.
Proof.
  intros L (A & B). split; [|exact B]. apply locally_locally in L. generalize (filter_and _ _ L A). apply filter_imp. intros q (L1 & L2). apply (is_grad_ext_loc f); [exact L1|exact L2].
Qed.
Lemma eval_hess p : rad2 p <> (10 * fa P) ^ 2 ->
  is_hess (fun q => fst (fst (ferEval P root q))) p (snd (fst (ferEval P root p))) (snd (ferEval P root p)) /\ trace (snd (ferEval P root p)) = 4 * PI * ferDensity P p.
Proof.
  intros H. destruct (Rlt_dec (rad2 p) ((10 * fa P) ^ 2)) as [L|L].
  - rewrite (eval_near p) by lra. cbn [fst snd]. split; [|apply (N_trace P V root HR)]. exists (Ngrad P root). split; [reflexivity|]. apply (hess_with_ext (Nval P root)); [|apply (N_hess P V root HR)].
    assert (CE : continuous (fun q => rad2 q - (10 * fa P) ^ 2) p) by (apply (continuous_minus rad2 (fun _ => (10 * fa P) ^ 2)); [apply cont_rad2|apply continuous_const]).
    generalize (locally_neg_U _ p CE ltac:(cbn [pow] in *; lra)). apply filter_imp. intros q Hq. rewrite (eval_near q) by lra. reflexivity.
  - assert (G : (10 * fa P) ^ 2 < rad2 p) by lra. rewrite (eval_far p G). cbn [fst snd]. destruct V as (V1 & V2 & V3). assert (Fp : far p) by (unfold far; unfold rad2 in G; nra). split.
    + exists (Fgrad P). split; [reflexivity|]. apply (hess_with_ext (Fval P)); [|apply F_hess, Fp].
      assert (CE : continuous (fun q => rad2 q - (10 * fa P) ^ 2) p) by (apply (continuous_minus rad2 (fun _ => (10 * fa P) ^ 2)); [apply cont_rad2|apply continuous_const]).
      generalize (locally_pos_U _ p CE ltac:(cbn [pow] in *; lra)). apply filter_imp. intros q Hq. rewrite (eval_far q) by lra. reflexivity.
    + rewrite F_trace by exact Fp. destruct p as [[x y] z]. unfold ferDensity. unfold rad2, CoordModel.v1, v2, v3 in G. cbn [fst snd] in G.
      rewrite Rlt_b_t; [ring|]. unfold pow_2.
      assert (Q : forall u s, 0 < s -> s <= fa P -> u ^ 2 / fa P ^ 2 <= u / s * (u / s)).
      { intros u s Hs Hs'. replace (u / s * (u / s)) with (u ^ 2 / s ^ 2) by (field; lra). apply div_anti; [apply pow2_ge_0|nra|nra]. }
      pose proof (Q x (fa P) ltac:(lra) ltac:(lra)). pose proof (Q y (fb P) ltac:(lra) ltac:(lra)). pose proof (Q z (fc P) ltac:(lra) ltac:(lra)).
      assert (100 < (x ^ 2 + y ^ 2 + z ^ 2) / fa P ^ 2).
      { assert (K : 0 < fa P ^ 2) by nra. apply (Rmult_lt_reg_r (fa P ^ 2)); [exact K|]. unfold Rdiv. rewrite Rmult_assoc, Rinv_l by lra. nra. }
      unfold Rdiv in *. lra.
Qed.
(** the equation has exactly one positive root for every point outside, none for other points *)
Lemma root_unique p l l' : 0 <= l -> 0 <= l' -> ell P p l = 1 -> ell P p l' = 1 -> l = l'.
Proof.
  intros A B E E'. destruct (Rtotal_order l l') as [H|[H|H]]; [|exact H|].
  - pose proof (ell_anti_s P V p l l' A H ltac:(lra)). lra.
  - pose proof (ell_anti_s P V p l' l B H ltac:(lra)). lra.
Qed.
End F.
Section R.
Variable P : ferrers.
Hypothesis V : fvalid P.
Lemma root_exists p : 1 < ell P p 0 -> { l | 0 < l /\ ell P p l = 1 }.
Proof.
  intros H. destruct (sq_pos P V) as (S1 & S2 & S3). set (M := v1 p ^ 2 + v2 p ^ 2 + v3 p ^ 2 + 1). pose proof (pow2_ge_0 (v1 p)). pose proof (pow2_ge_0 (v2 p)). pose proof (pow2_ge_0 (v3 p)).
  assert (C : forall l, 0 <= l <= M -> continuity_pt (fun l => 1 - ell P p l) l).
  { intros l Hl. apply derivable_continuous_pt. apply ex_derive_Reals_0. unfold ell. auto_derive. repeat split; lra. }
  assert (E : ell P p M < 1).
  { unfold ell. pose proof (div_anti (v1 p ^ 2) M (fa P ^ 2 + M) ltac:(lra) ltac:(unfold M; lra) ltac:(lra)). pose proof (div_anti (v2 p ^ 2) M (fb P ^ 2 + M) ltac:(lra) ltac:(unfold M; lra) ltac:(lra)). pose proof (div_anti (v3 p ^ 2) M (fc P ^ 2 + M) ltac:(lra) ltac:(unfold M; lra) ltac:(lra)).
    assert (v1 p ^ 2 / M + v2 p ^ 2 / M + v3 p ^ 2 / M < 1); [|lra]. assert (Mp : 0 < M) by (unfold M; lra). apply (Rmult_lt_reg_r M); [exact Mp|]. replace ((v1 p ^ 2 / M + v2 p ^ 2 / M + v3 p ^ 2 / M) * M) with (M - 1) by (unfold M in *; field; lra). lra. }
  destruct (Ranalysis5.IVT_interv (fun l => 1 - ell P p l) 0 M C ltac:(unfold M; lra) ltac:(lra) ltac:(lra)) as (l & Hl & El). exists l. split; [|lra].
  destruct (Req_dec l 0) as [->|N]; [exfalso; lra|lra].
Qed.
Lemma root_fun : exists root, is_root P root.
Proof.
  exists (fun p => match Rlt_dec 1 (ell P p 0) with left H => proj1_sig (root_exists p H) | right _ => 0 end). intros p H. destruct (Rlt_dec 1 (ell P p 0)) as [H'|H']; [|contradiction]. destruct (root_exists p H') as (l & L1 & L2). cbn. split; assumption.
Qed.
End R.
Lemma construct_ok mass r p q P : ferConstruct mass r p q = Some P -> 0 < r /\ 0 < q < p /\ p < 1 /\ fvalid P /\ fa P = r /\ fb P = r * p /\ fc P = r * q /\ fmass P = mass /\ frho0 P = mass * 105 / (32 * PI * r * (r * p) * (r * q)).
Proof.
  unfold ferConstruct. destruct (Rlt_b 0 r) eqn:E0; cbn [negb]; [|discriminate]. destruct (Rlt_b p 1) eqn:E1; destruct (Rlt_b q p) eqn:E2; destruct (Rlt_b 0 q) eqn:E3; cbn; try discriminate. intros H; inversion H; subst P; clear H.
  apply Rlt_b_iff in E0, E1, E2, E3. unfold fvalid. cbn. repeat split; try lra; try nra.
Qed.
Lemma construct_iff mass r p q : (exists P, ferConstruct mass r p q = Some P) <-> 0 < r /\ 0 < q < p /\ p < 1.
Proof.
  split; [intros (P & H); apply construct_ok in H; tauto|]. intros (A & (B & C) & D). unfold ferConstruct. rewrite !Rlt_b_t by assumption. cbn. eexists; reflexivity.
Qed.
Lemma density_doc mass r p q P pos : ferConstruct mass r p q = Some P -> ferDensity P pos = ferrers_rho mass r p q pos.
Proof.
  intros H. destruct (construct_ok _ _ _ _ _ H) as (A & (B & C) & D & V & Ea & Eb & Ec & Em & Er). destruct pos as [[x y] z]. unfold ferDensity, ferrers_rho. rewrite Ea, Eb, Ec, Er. unfold CoordModel.v1, v2, v3, pow_2. cbn [fst snd].
  pose proof PI_RGT_0. replace (x / r * (x / r) + y / (r * p) * (y / (r * p)) + z / (r * q) * (z / (r * q))) with ((x ^ 2 + (y / p) ^ 2 + (z / q) ^ 2) / r ^ 2) by (field; repeat split; lra).
  set (m := (_ + _ + _) / _). destruct (Rle_dec m 1); [rewrite Rlt_b_f by lra|rewrite Rlt_b_t by lra; reflexivity]. field. repeat split; lra.
Qed.
Lemma far_value mass r p q P root pos : ferConstruct mass r p q = Some P -> (10 * r) ^ 2 < rad2 pos ->
  Rabs (fst (fst (ferEval P root pos)) + mass / sqrt (rad2 pos)) <= Rabs mass / sqrt (rad2 pos) * (r ^ 2 / rad2 pos) * (7 / 36).
Proof.
  intros H G. destruct (construct_ok _ _ _ _ _ H) as (A & (B & C) & D & V & Ea & Eb & Ec & Em & Er). rewrite eval_far by (rewrite Ea; exact G). cbn [fst]. unfold Fval. destruct pos as [[x y] z]. unfold rad2, CoordModel.v1, v2, v3 in *. cbn [fst snd] in *. unfold ferFar, pow_2. cbn [fst snd]. rewrite Er, Ea, Eb, Ec. pose proof PI_RGT_0 as Pp.
  replace (x * x + y * y + z * z) with (x ^ 2 + y ^ 2 + z ^ 2) by ring. set (T := x ^ 2 + y ^ 2 + z ^ 2) in *. assert (Tp : 0 < T) by nra. pose proof (sqrt_lt_R0 _ Tp) as Sp. set (d := sqrt T) in *.
  set (U := 1 / 36 * (2 * (r * q) * (r * q) - r * r - r * p * (r * p)) * (2 * (z * z) - x * x - y * y) + 1 / 12 * (r * p * (r * p) - r * r) * (y * y - x * x)).
  replace (_ + mass / d) with (- (mass / d) * (U / (T * T))).
  2:{ clearbody U d T. field. repeat split; lra. }
  assert (Ub : Rabs U <= 7 / 36 * r ^ 2 * T).
  { assert (X0 : 0 <= x * x) by apply Rle_0_sqr. assert (Y0 : 0 <= y * y) by apply Rle_0_sqr. assert (Z0 : 0 <= z * z) by apply Rle_0_sqr. unfold U, T. replace (x ^ 2 + y ^ 2 + z ^ 2) with (x * x + y * y + z * z) by ring. assert (P1 : 0 < p * p < 1) by nra. assert (Q1 : 0 < q * q < 1) by nra. assert (R1 : 0 < r * r) by nra.
    replace (1 / 36 * (2 * (r * q) * (r * q) - r * r - r * p * (r * p)) * (2 * (z * z) - x * x - y * y) + 1 / 12 * (r * p * (r * p) - r * r) * (y * y - x * x)) with (r * r * (1 / 36 * (2 * (q * q) - 1 - p * p) * (2 * (z * z) - x * x - y * y) + 1 / 12 * (p * p - 1) * (y * y - x * x))) by ring.
    rewrite Rabs_mult, (Rabs_pos_eq (r * r)) by lra. replace (7 / 36 * r ^ 2 * (x * x + y * y + z * z)) with (r * r * (7 / 36 * (x * x + y * y + z * z))) by field. apply Rmult_le_compat_l; [lra|].
    set (X := x * x) in *. set (Y := y * y) in *. set (Zz := z * z) in *. set (pp := p * p) in *. set (qq := q * q) in *. clearbody X Y Zz pp qq. apply Rabs_le. split; nra. }
  rewrite Rabs_mult, Rabs_Ropp. unfold Rdiv at 1 2. rewrite !Rabs_mult. rewrite (Rabs_pos_eq (/ d)) by (left; apply Rinv_0_lt_compat; exact Sp). rewrite (Rabs_pos_eq (/ (T * T))) by (left; apply Rinv_0_lt_compat; nra).
  fold (Rabs mass / d). unfold Rdiv at 1. rewrite (Rmult_assoc _ (r ^ 2 / T)). apply Rmult_le_compat_l; [apply Rmult_le_pos; [apply Rabs_pos|left; apply Rinv_0_lt_compat; exact Sp]|].
  apply Rle_trans with (7 / 36 * r ^ 2 * T * / (T * T)); [apply Rmult_le_compat_r; [left; apply Rinv_0_lt_compat; nra|exact Ub]|]. right. field. lra.
Qed.
