(** Ferrers potential: the parameter lambda along curves; gradient and Hessian inside 10 scale radii *)
From Coq Require Import Reals Lra Psatz Bool.
From Coquelicot Require Import Coquelicot.
From Verif Require Import RandReal RandRealProofs PolyModel PolyProofs CoordModel CoordSpec CoordCalc CoordAtan CoordMaps RootProofs PotModel PotSpec DiskModel DfProofs DfProofs2 FerrersModel FerrersSpec FerrersProofs FerrersProofs2.
Local Open Scope R_scope.

Lemma small_derive (g : R -> R) (t : R) : g t = 0 -> (forall e, 0 < e -> locally t (fun s => Rabs (g s) <= e * Rabs (s - t))) -> is_derive g t 0.
Proof.
  intros G0 H. apply is_derive_Reals. intros e E. destruct (H (e / 2) ltac:(lra)) as [d D]. exists d. intros h Hn Hd. rewrite G0.
  specialize (D (t + h)). assert (B : ball t d (t + h)) by (unfold ball; cbn; unfold AbsRing_ball, abs, minus, plus, opp; cbn; replace (t + h + - t) with h by ring; exact Hd).
  specialize (D B). replace (t + h - t) with h in D by ring. pose proof (Rabs_pos_lt h Hn) as Hp. unfold Rminus. rewrite Ropp_0, !Rplus_0_r. unfold Rdiv. rewrite Rabs_mult, Rabs_inv. apply (Rmult_lt_reg_r (Rabs h)); [exact Hp|]. rewrite Rmult_assoc, Rinv_l by lra. nra.
Qed.
Lemma derive_lip (f : R -> R) (t d : R) : is_derive f t d -> exists K, 0 <= K /\ locally t (fun s => Rabs (f s - f t) <= K * Rabs (s - t)).
Proof.
  intros D. apply is_derive_Reals in D. destruct (D 1 Rlt_0_1) as [del H]. exists (Rabs d + 1). pose proof (Rabs_pos d). split; [lra|]. exists del. intros s. revert s. change (forall s : R, ball (t : R_UniformSpace) del (s : R_UniformSpace) -> Rabs (f s - f t) <= (Rabs d + 1) * Rabs (s - t)). intros s B.
  unfold ball in B; cbn in B; unfold AbsRing_ball, abs, minus, plus, opp in B; cbn in B. destruct (Req_dec s t) as [->|N]; [replace (f t - f t) with 0 by ring; replace (t - t) with 0 by ring; rewrite Rabs_R0; lra|].
  assert (N' : s - t <> 0) by lra. specialize (H (s - t) N' B). replace (t + (s - t)) with s in H by ring. pose proof (Rabs_pos_lt _ N') as Hp.
  replace (f s - f t) with ((f s - f t) / (s - t) * (s - t)) by (field; lra). rewrite Rabs_mult. apply Rmult_le_compat_r; [lra|].
  pose proof (Rabs_triang ((f s - f t) / (s - t) - d) d) as T. replace ((f s - f t) / (s - t) - d + d) with ((f s - f t) / (s - t)) in T by ring. lra.
Qed.
Lemma lip_zero (N n : R -> R -> R) (lam : R -> R) (t l0 d C del : R) : lam t = l0 -> 0 < del -> locally t (fun s => Rabs (lam s - l0) <= C * Rabs (s - t)) ->
  (forall s l, Rabs (l - l0) < del -> is_derive (fun x => N s x) l (n s l)) -> continuous (fun z : R * R => n (fst z) (snd z)) (t, l0) -> n t l0 = 0 ->
  is_derive (fun s => N s l0) t d -> is_derive (fun s => N s (lam s)) t d.
Proof.
  intros L0 Dp Lip ND CN N0 D0.
  assert (S0 : is_derive (fun s => N s (lam s) - N s l0) t 0).
  { apply small_derive; [rewrite L0; ring|]. intros e E. set (eta := e / (Rabs C + 1)). pose proof (Rabs_pos C) as Cp. assert (Ep : 0 < eta) by (apply Rdiv_lt_0_compat; lra).
    assert (CN' : locally (t, l0) (fun z : R * R => Rabs (n (fst z) (snd z)) < eta)).
    { apply (CN (fun y => Rabs y < eta)). cbn [fst snd]. rewrite N0. exists (mkposreal _ Ep). intros y B. unfold ball in B; cbn in B; unfold AbsRing_ball, abs, minus, plus, opp in B; cbn in B. rewrite Ropp_0, Rplus_0_r in B. exact B. }
    destruct CN' as [d1 B1]. destruct Lip as [d2 B2]. set (d3 := Rmin (Rmin d1 d2) (Rmin d1 del / (Rabs C + 1))).
    assert (M1 : 0 < Rmin d1 del) by (apply Rmin_pos; [apply cond_pos|exact Dp]). assert (M2 : 0 < Rmin d1 d2) by (apply Rmin_pos; apply cond_pos). assert (M3 : 0 < d3) by (apply Rmin_pos; [exact M2|apply Rdiv_lt_0_compat; lra]).
    exists (mkposreal _ M3). intros s Bs. unfold ball in Bs; cbn in Bs; unfold AbsRing_ball, abs, minus, plus, opp in Bs; cbn in Bs. change (s + - t) with (s - t) in Bs.
    assert (Q1 : Rabs (s - t) < d1) by (eapply Rlt_le_trans; [exact Bs|]; unfold d3; eapply Rle_trans; [apply Rmin_l|apply Rmin_l]).
    assert (Q2 : Rabs (s - t) < d2) by (eapply Rlt_le_trans; [exact Bs|]; unfold d3; eapply Rle_trans; [apply Rmin_l|apply Rmin_r]).
    assert (Q3 : (Rabs C + 1) * Rabs (s - t) < Rmin d1 del).
    { assert (Rabs (s - t) < Rmin d1 del / (Rabs C + 1)) by (eapply Rlt_le_trans; [exact Bs|apply Rmin_r]). apply (Rmult_lt_compat_l (Rabs C + 1)) in H; [|lra]. replace ((Rabs C + 1) * (Rmin d1 del / (Rabs C + 1))) with (Rmin d1 del) in H by (field; lra). exact H. }
    pose proof (B2 s Q2) as L1. pose proof (Rabs_pos (s - t)) as Sp. pose proof (RRle_abs C) as CA.
    assert (L2 : Rabs (lam s - l0) <= (Rabs C + 1) * Rabs (s - t)) by nra.
    pose proof (Rmin_l d1 del) as R1. pose proof (Rmin_r d1 del) as R2.
    assert (In : forall x, Rmin l0 (lam s) <= x <= Rmax l0 (lam s) -> Rabs (x - l0) <= Rabs (lam s - l0)).
    { intros x [X1 X2]. unfold Rmin, Rmax in *. destruct (Rle_dec l0 (lam s)); unfold Rabs; destruct (Rcase_abs (x - l0)); destruct (Rcase_abs (lam s - l0)); lra. }
    destruct (MVT_gen (fun x => N s x) l0 (lam s) (fun x => n s x)) as (xi & X1 & X2).
    { intros x Hx. apply ND. assert (K : Rmin l0 (lam s) <= x <= Rmax l0 (lam s)) by lra. specialize (In x K). lra. }
    { intros x Hx. specialize (In x Hx). apply derivable_continuous_pt. exists (n s x). apply is_derive_Reals. apply ND. lra. }
    rewrite X2. rewrite Rabs_mult. specialize (In xi X1). assert (B : ball (t, l0) d1 (s, xi)) by (split; cbn; unfold AbsRing_ball, abs, minus, plus, opp; cbn; [exact Q1|change (xi + - l0) with (xi - l0); lra]).
    specialize (B1 _ B). cbn [fst snd] in B1. pose proof (Rabs_pos (n s xi)). pose proof (Rabs_pos (lam s - l0)).
    apply Rle_trans with (eta * ((Rabs C + 1) * Rabs (s - t))); [apply Rmult_le_compat; lra|]. unfold eta. replace (e / (Rabs C + 1) * ((Rabs C + 1) * Rabs (s - t))) with (e * Rabs (s - t)) by (field; lra). lra. }
  apply (is_derive_ext (fun s => (N s (lam s) - N s l0) + N s l0)); [intros s; match goal with |- ?u = ?v => change (@eq R u v) end; ring|].
  replace d with (0 + d) by ring. apply (is_derive_plus (fun s => N s (lam s) - N s l0) (fun s => N s l0) t 0 d S0 D0).
Qed.

Section F.
Variable P : ferrers.
Hypothesis V : fvalid P.
Variable root : vec3 -> R.
Hypothesis HR : is_root P root.
Definition lamOf (p : vec3) : R := let '(x, y, z) := p in if Rlt_b 1 (pow_2 x / (fa P * fa P) + pow_2 y / (fb P * fb P) + pow_2 z / (fc P * fc P)) then root p else 0.
Lemma sq_pos : 0 < fa P ^ 2 /\ 0 < fb P ^ 2 /\ 0 < fc P ^ 2.
Proof. destruct V as (A & B & C). repeat split; nra. Qed.
Lemma m2_ell x y z : pow_2 x / (fa P * fa P) + pow_2 y / (fb P * fb P) + pow_2 z / (fc P * fc P) = ell P (x, y, z) 0.
Proof. destruct V as (A & B & C). unfold ell, v1, v2, v3, pow_2. cbn [fst snd]. field. repeat split; lra. Qed.
Lemma lam_out p : 1 < ell P p 0 -> 0 < lamOf p /\ ell P p (lamOf p) = 1.
Proof. destruct p as [[x y] z]. intros H. unfold lamOf. rewrite m2_ell, Rlt_b_t by exact H. exact (HR _ H). Qed.
Lemma lam_in p : ell P p 0 <= 1 -> lamOf p = 0.
Proof. destruct p as [[x y] z]. intros H. unfold lamOf. rewrite m2_ell, Rlt_b_f by exact H. reflexivity. Qed.
Lemma lam_ge p : 0 <= lamOf p. Proof. destruct (Rlt_dec 1 (ell P p 0)) as [H|H]; [destruct (lam_out p H); lra|rewrite lam_in by lra; lra]. Qed.
Lemma lam_ell p : 1 <= ell P p 0 -> ell P p (lamOf p) = 1.
Proof. intros H. destruct (Rlt_dec 1 (ell P p 0)) as [H1|H1]; [apply (lam_out p H1)|rewrite lam_in by lra; lra]. Qed.
Lemma ge_c l : 0 <= l -> - (fc P * fc P) < l. Proof. destruct V. intros. nra. Qed.
Lemma div_anti X m n : 0 <= X -> 0 < m -> m <= n -> X / n <= X / m.
Proof. intros. unfold Rdiv. apply Rmult_le_compat_l; [assumption|]. apply Rinv_le_contravar; assumption. Qed.
Lemma div_anti_s X m n : 0 < X -> 0 < m -> m < n -> X / n < X / m.
Proof. intros. unfold Rdiv. apply Rmult_lt_compat_l; [assumption|]. apply Rinv_lt_contravar; [nra|assumption]. Qed.
Lemma ell_anti p l l' : 0 <= l -> l <= l' -> ell P p l' <= ell P p l.
Proof. intros A B. destruct sq_pos as (S1 & S2 & S3). unfold ell. pose proof (pow2_ge_0 (v1 p)). pose proof (pow2_ge_0 (v2 p)). pose proof (pow2_ge_0 (v3 p)). repeat apply Rplus_le_compat; apply div_anti; lra. Qed.
Lemma ell_anti_s p l l' : 0 <= l -> l < l' -> 0 < ell P p l -> ell P p l' < ell P p l.
Proof.
  intros A B Hp. destruct sq_pos as (S1 & S2 & S3). pose proof (pow2_ge_0 (v1 p)) as X. pose proof (pow2_ge_0 (v2 p)) as Y. pose proof (pow2_ge_0 (v3 p)) as Zz. unfold ell in *.
  destruct (Rle_lt_or_eq_dec _ _ X) as [X'|X']; [pose proof (div_anti_s (v1 p ^ 2) (fa P ^ 2 + l) (fa P ^ 2 + l') X' ltac:(lra) ltac:(lra)); pose proof (div_anti (v2 p ^ 2) (fb P ^ 2 + l) (fb P ^ 2 + l') Y ltac:(lra) ltac:(lra)); pose proof (div_anti (v3 p ^ 2) (fc P ^ 2 + l) (fc P ^ 2 + l') Zz ltac:(lra) ltac:(lra)); lra|].
  destruct (Rle_lt_or_eq_dec _ _ Y) as [Y'|Y']; [pose proof (div_anti (v1 p ^ 2) (fa P ^ 2 + l) (fa P ^ 2 + l') X ltac:(lra) ltac:(lra)); pose proof (div_anti_s (v2 p ^ 2) (fb P ^ 2 + l) (fb P ^ 2 + l') Y' ltac:(lra) ltac:(lra)); pose proof (div_anti (v3 p ^ 2) (fc P ^ 2 + l) (fc P ^ 2 + l') Zz ltac:(lra) ltac:(lra)); lra|].
  destruct (Rle_lt_or_eq_dec _ _ Zz) as [Z'|Z']; [pose proof (div_anti (v1 p ^ 2) (fa P ^ 2 + l) (fa P ^ 2 + l') X ltac:(lra) ltac:(lra)); pose proof (div_anti (v2 p ^ 2) (fb P ^ 2 + l) (fb P ^ 2 + l') Y ltac:(lra) ltac:(lra)); pose proof (div_anti_s (v3 p ^ 2) (fc P ^ 2 + l) (fc P ^ 2 + l') Z' ltac:(lra) ltac:(lra)); lra|].
  rewrite <- X', <- Y', <- Z' in Hp. unfold Rdiv in Hp. rewrite !Rmult_0_l in Hp. lra.
Qed.
Lemma cont_ell (c1 c2 c3 : R -> R) (t u1 u2 u3 l : R) : 0 <= l -> is_derive c1 t u1 -> is_derive c2 t u2 -> is_derive c3 t u3 -> continuous (fun s => ell P (c1 s, c2 s, c3 s) l) t.
Proof.
  intros L D1 D2 D3. destruct sq_pos as (S1 & S2 & S3). unfold ell, v1, v2, v3. cbn [fst snd]. apply (ex_derive_continuous (fun s => c1 s ^ 2 / (fa P ^ 2 + l) + c2 s ^ 2 / (fb P ^ 2 + l) + c3 s ^ 2 / (fc P ^ 2 + l))). auto_derive. repeat split; try (eexists; eassumption); try lra.
Qed.
Lemma lam_lip (c1 c2 c3 : R -> R) (t u1 u2 u3 : R) : is_derive c1 t u1 -> is_derive c2 t u2 -> is_derive c3 t u3 -> 1 <= ell P (c1 t, c2 t, c3 t) 0 ->
  exists C, locally t (fun s => Rabs (lamOf (c1 s, c2 s, c3 s) - lamOf (c1 t, c2 t, c3 t)) <= C * Rabs (s - t)).
Proof.
  intros D1 D2 D3 HO. set (p := fun s => (c1 s, c2 s, c3 s)). set (l0 := lamOf (p t)). pose proof (lam_ge (p t)) as L0. fold l0 in L0. pose proof (lam_ell (p t) HO) as E0. fold l0 in E0. destruct sq_pos as (S1 & S2 & S3).
  assert (LL : forall (c : R -> R) u, is_derive c t u -> is_derive (fun s => c s ^ 2) t (2 * c t * u)) by (intros c u D; auto_derive; [eexists; exact D|der c D; ring]).
  destruct (derive_lip _ t _ (LL c1 u1 D1)) as (K1 & P1 & B1). destruct (derive_lip _ t _ (LL c2 u2 D2)) as (K2 & P2 & B2). destruct (derive_lip _ t _ (LL c3 u3 D3)) as (K3 & P3 & B3).
  assert (U : locally t (fun s => ell P (p s) (l0 + 1) < 1)).
  { assert (CE : continuous (fun s => ell P (p s) (l0 + 1) - 1) t) by (apply (continuous_minus (fun s => ell P (p s) (l0 + 1)) (fun _ => 1)); [apply (cont_ell c1 c2 c3 t u1 u2 u3); [lra|assumption..]|apply continuous_const]).
    assert (H : ell P (p t) (l0 + 1) - 1 < 0) by (pose proof (ell_anti_s (p t) l0 (l0 + 1) L0 ltac:(lra) ltac:(lra)); lra).
    generalize (locally_neg_U _ t CE H). apply filter_imp. intros s. lra. }
  assert (O : locally t (fun s => 1 < ell P (p s) 0 \/ l0 = 0)).
  { destruct (Rlt_dec 1 (ell P (p t) 0)) as [G|G]; [|apply filter_forall; intros s; right; apply lam_in; lra].
    assert (CE : continuous (fun s => ell P (p s) 0 - 1) t) by (apply (continuous_minus (fun s => ell P (p s) 0) (fun _ => 1)); [apply (cont_ell c1 c2 c3 t u1 u2 u3); [lra|assumption..]|apply continuous_const]).
    generalize (locally_pos_U _ t CE ltac:(lra)). apply filter_imp. intros s. left. lra. }
  set (X := c1 t ^ 2) in *. set (Y := c2 t ^ 2) in *. set (Zz := c3 t ^ 2) in *.
  set (A := fa P ^ 2) in *. set (B := fb P ^ 2) in *. set (C := fc P ^ 2) in *.
  assert (X0 : 0 <= X) by apply pow2_ge_0. assert (Y0 : 0 <= Y) by apply pow2_ge_0. assert (Z0 : 0 <= Zz) by apply pow2_ge_0.
  set (T := fun a b X => X / ((a + b) * (a + l0))).
  set (DD := T A (l0 + 1) X + T B (l0 + 1) Y + T C (l0 + 1) Zz).
  assert (E0' : X / (A + l0) + Y / (B + l0) + Zz / (C + l0) = 1) by exact E0.
  assert (Tl : forall a b b' x, 0 < a -> 0 <= b -> b <= b' -> 0 <= x -> T a b' x <= T a b x).
  { intros a b b' x Ha Hb Hbb Hx. unfold T. apply div_anti; [exact Hx|apply Rmult_lt_0_compat; lra|apply Rmult_le_compat_r; lra]. }
  assert (Dpos : 0 < DD).
  { assert (TT : forall a x, 0 < a -> 0 <= x -> T a (l0 + 1) x = x / (a + l0) * / (a + (l0 + 1))) by (intros a x Ha Hx; unfold T; field; split; lra).
    unfold DD. rewrite !TT by assumption.
    assert (NN : forall a x, 0 < a -> 0 <= x -> 0 <= x / (a + l0) /\ 0 < / (a + (l0 + 1))) by (intros a x Ha Hx; split; [apply Rmult_le_pos; [exact Hx|left; apply Rinv_0_lt_compat; lra]|apply Rinv_0_lt_compat; lra]).
    destruct (NN A X S1 X0) as (n1 & n2). destruct (NN B Y S2 Y0) as (n3 & n4). destruct (NN C Zz S3 Z0) as (n5 & n6).
    set (e1 := X / (A + l0)) in *. set (e2 := Y / (B + l0)) in *. set (e3 := Zz / (C + l0)) in *. clearbody e1 e2 e3.
    pose proof (Rmult_le_pos e1 _ n1 (Rlt_le _ _ n2)). pose proof (Rmult_le_pos e2 _ n3 (Rlt_le _ _ n4)). pose proof (Rmult_le_pos e3 _ n5 (Rlt_le _ _ n6)).
    destruct (Rlt_dec 0 e1) as [h|h]; [pose proof (Rmult_lt_0_compat e1 _ h n2); lra|]. destruct (Rlt_dec 0 e2) as [h'|h']; [pose proof (Rmult_lt_0_compat e2 _ h' n4); lra|]. assert (h'' : 0 < e3) by lra. pose proof (Rmult_lt_0_compat e3 _ h'' n6). lra. }
  set (KK := (K1 / A + K2 / B + K3 / C) / DD).
  assert (KKp : 0 <= KK). { unfold KK, Rdiv. pose proof (Rinv_0_lt_compat _ S1). pose proof (Rinv_0_lt_compat _ S2). pose proof (Rinv_0_lt_compat _ S3). pose proof (Rinv_0_lt_compat _ Dpos). apply Rmult_le_pos; [|lra]. pose proof (Rmult_le_pos K1 (/ A) P1 ltac:(lra)). pose proof (Rmult_le_pos K2 (/ B) P2 ltac:(lra)). pose proof (Rmult_le_pos K3 (/ C) P3 ltac:(lra)). lra. }
  exists KK. generalize (filter_and _ _ B1 (filter_and _ _ B2 (filter_and _ _ B3 (filter_and _ _ U O)))). apply filter_imp. intros s (b1 & b2 & b3 & us & os). change (Rabs (lamOf (p s) - l0) <= KK * Rabs (s - t)).
  pose proof (Rabs_pos (s - t)) as Sp.
  destruct (Rlt_dec 1 (ell P (p s) 0)) as [G|G].
  2:{ destruct os as [os|os]; [contradiction|]. rewrite lam_in by lra. rewrite os, Rminus_0_r, Rabs_R0. apply Rmult_le_pos; assumption. }
  destruct (lam_out (p s) G) as (ls & es). set (l1 := lamOf (p s)) in *.
  assert (l1 <= l0 + 1) by (apply Rnot_lt_le; intros Hc; pose proof (ell_anti (p s) (l0 + 1) l1 ltac:(lra) ltac:(lra)); lra).
  assert (es' : c1 s ^ 2 / (A + l1) + c2 s ^ 2 / (B + l1) + c3 s ^ 2 / (C + l1) = 1) by exact es.
  set (Xs := c1 s ^ 2) in *. set (Ys := c2 s ^ 2) in *. set (Zs := c3 s ^ 2) in *.
  set (D := T A l1 X + T B l1 Y + T C l1 Zz).
  assert (DG : DD <= D) by (unfold DD, D; repeat apply Rplus_le_compat; apply Tl; lra).
  assert (ID : (l1 - l0) * D = (Xs - X) / (A + l1) + (Ys - Y) / (B + l1) + (Zs - Zz) / (C + l1)).
  { assert (TI : forall a x, 0 < a -> (l1 - l0) * T a l1 x = x / (a + l0) - x / (a + l1)) by (intros a x Ha; unfold T; field; split; lra).
    unfold D. rewrite !Rmult_plus_distr_l, !TI by assumption. unfold Rdiv in *. lra. }
  assert (BB : forall a k x x', 0 < a -> Rabs (x - x') <= k * Rabs (s - t) -> Rabs ((x - x') / (a + l1)) <= k / a * Rabs (s - t)).
  { intros a k x x' Ha Hk. unfold Rdiv. rewrite Rabs_mult. rewrite (Rabs_pos_eq (/ (a + l1))) by (left; apply Rinv_0_lt_compat; lra).
    apply Rle_trans with (k * Rabs (s - t) * / a); [|lra]. apply Rmult_le_compat; [apply Rabs_pos|left; apply Rinv_0_lt_compat; lra|exact Hk|apply Rinv_le_contravar; lra]. }
  assert (NB : Rabs ((l1 - l0) * D) <= (K1 / A + K2 / B + K3 / C) * Rabs (s - t)).
  { rewrite ID. pose proof (BB A K1 Xs X S1 b1). pose proof (BB B K2 Ys Y S2 b2). pose proof (BB C K3 Zs Zz S3 b3).
    pose proof (Rabs_triang ((Xs - X) / (A + l1) + (Ys - Y) / (B + l1)) ((Zs - Zz) / (C + l1))). pose proof (Rabs_triang ((Xs - X) / (A + l1)) ((Ys - Y) / (B + l1))). lra. }
  rewrite Rabs_mult, (Rabs_pos_eq D) in NB by lra. pose proof (Rabs_pos (l1 - l0)) as Lp.
  assert (NB2 : Rabs (l1 - l0) * DD <= (K1 / A + K2 / B + K3 / C) * Rabs (s - t)) by (eapply Rle_trans; [apply Rmult_le_compat_l; [exact Lp|exact DG]|exact NB]).
  apply (Rmult_le_reg_r DD); [exact Dpos|]. unfold KK. replace ((K1 / A + K2 / B + K3 / C) / DD * Rabs (s - t) * DD) with ((K1 / A + K2 / B + K3 / C) * Rabs (s - t)) by (field; repeat split; lra). exact NB2.
Qed.
End F.
