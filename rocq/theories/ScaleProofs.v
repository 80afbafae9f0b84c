From Coq Require Import Nsatz Psatz.
From Coquelicot Require Import Coquelicot.
From Verif Require Import PolyModel PolyProofs MathModel MathProofs ScaleModel.
Local Open Scope R_scope.

Lemma sign_pos x : 0 < x -> sign x = 1. Proof. intros. unfold sign. now rewrite Rlt_b_t. Qed.
Lemma sign_neg x : x < 0 -> sign x = -1. Proof. intros. unfold sign. rewrite Rlt_b_f by lra. now rewrite Rlt_b_t. Qed.
Lemma sign_0 : sign 0 = 0. Proof. unfold sign. now rewrite !Rlt_b_f by lra. Qed.

(** uniqueness of the solution of u = 1/(1-s) - 1/s *)
Lemma unscaleInf_mono s t : 0 < s -> s < t -> t < 1 -> unscaleInf s < unscaleInf t.
Proof.
  intros. unfold unscaleInf. assert (/ t < / s) by (apply Rinv_lt_contravar; [apply Rmult_lt_0_compat; lra|lra]).
  assert (/ (1 - s) < / (1 - t)) by (apply Rinv_lt_contravar; [apply Rmult_lt_0_compat; lra|lra]). unfold Rdiv. lra.
Qed.
Lemma unscaleInf_inj s t : 0 < s < 1 -> 0 < t < 1 -> unscaleInf s = unscaleInf t -> s = t.
Proof. intros S T E. destruct (Rtotal_order s t) as [L|[L|L]]; [|exact L|]; [pose proof (unscaleInf_mono s t)|pose proof (unscaleInf_mono t s)]; lra. Qed.
Lemma scaleInf_ok u : 0 < scaleInf u < 1 /\ unscaleInf (scaleInf u) = u.
Proof.
  unfold scaleInf. destruct (Rlt_le_dec (Rabs u) 1) as [L|L]; [rewrite Rlt_b_t by exact L|rewrite Rlt_b_f by exact L].
  - set (q := sqrt (1 + 1 / 4 * u * u)). assert (Qq : q * q = 1 + 1 / 4 * u * u) by (apply sqrt_sqrt; nra). assert (Q0 : 0 <= q) by apply sqrt_pos.
    assert (Q1 : 1 <= q) by nra. assert (Uq : - q < 1 / 2 * u < q) by (split; nra).
    set (d := 1 + q - 1 / 2 * u). assert (D : 1 < d) by (unfold d; lra). assert (S : 1 / d < 1) by (apply Rmult_lt_reg_r with d; [lra|]; unfold Rdiv; rewrite Rmult_assoc, Rinv_l by lra; lra).
    assert (S0 : 0 < 1 / d) by (apply Rdiv_lt_0_compat; lra). split; [lra|]. unfold unscaleInf. 
    replace (1 / (1 - 1 / d) - 1 / (1 / d)) with (d / (d - 1) - d) by (field; lra). apply Rmult_eq_reg_r with (d - 1); [|lra]. field_simplify; [|lra]. unfold d. nra.
  - assert (Nu : u <> 0) by (intros ->; rewrite Rabs_R0 in L; lra).
    set (v := 1 / u). assert (Uv : u * v = 1) by (unfold v; field; exact Nu). assert (Nv : v <> 0) by (intros Z; rewrite Z in Uv; lra).
    set (q := sqrt (1 / 4 + pow_2 v)). assert (Qq : q * q = 1 / 4 + v * v) by (apply sqrt_sqrt; unfold pow_2; nra). assert (Q0 : 0 <= q) by apply sqrt_pos.
    set (s := 1 / 2 + q * sign u - v). assert (SG : sign u * sign u = 1) by (unfold sign; destruct (Rlt_dec 0 u); [rewrite Rlt_b_t by assumption|rewrite Rlt_b_f, Rlt_b_t by lra]; lra).
    assert (SV : 0 < sign u * v). { destruct (Rlt_dec 0 u); [rewrite sign_pos by assumption; assert (0 < v) by (apply Rdiv_lt_0_compat; lra); lra|rewrite sign_neg by lra].
      assert (v < 0); [|lra]. unfold v, Rdiv. rewrite Rmult_1_l. apply Rinv_lt_0_compat. lra. }
    set (g := sign u) in *. assert (V0 : 0 < v * v) by (destruct (Rtotal_order v 0) as [?|[?|?]]; [nra|contradiction|nra]). set (a := g * v) in *. assert (AA : a * a = v * v) by (unfold a; nra). assert (Qa : a < q) by nra. assert (Qb : q < a + 1 / 2) by nra.
    (* s - 1/2 = g*(q - a) *)
    assert (Es : s - 1 / 2 = g * (q - a)) by (unfold s, a; nra).
    assert (G1 : g = 1 \/ g = -1). { assert ((g - 1) * (g + 1) = 0) by nra. apply Rmult_integral in H. destruct H; [left|right]; lra. }
    assert (S01 : 0 < s < 1) by (destruct G1 as [G|G]; rewrite G in Es; lra).
    split; [exact S01|]. unfold unscaleInf. replace (1 / (1 - s) - 1 / s) with ((2 * s - 1) / (s * (1 - s))) by (field; lra).
    assert (Sp : s * (1 - s) <> 0) by nra. apply Rmult_eq_reg_r with (s * (1 - s)); [|exact Sp]. unfold Rdiv. rewrite Rmult_assoc, Rinv_l by exact Sp.
    (* 2s-1 = u s (1-s) *)
    assert (K : v * (2 * s - 1) = s * (1 - s)). { assert (X : s - 1 / 2 = g * q - v) by (unfold s; lra). assert (P : s * (1 - s) = 1 / 4 - (s - 1 / 2) * (s - 1 / 2)) by field.
      rewrite P. replace (2 * s - 1) with (2 * (s - 1 / 2)) by field. rewrite X. assert (g * q * (g * q) = q * q) by (transitivity (g * g * (q * q)); [ring|rewrite SG; ring]). nra. }
    rewrite <- K. rewrite Rmult_1_r. rewrite <- Rmult_assoc, Uv. ring.
Qed.

(** derivative of unscale *)
Lemma unscale_derive sc s : srange sc s -> (match sc with ScalingDoubleInf _ => s <> 1 / 2 | _ => True end) -> is_derive (unscale sc) s (duds sc s).
Proof.
  destruct sc as [|neg|u0|u0|ul ur|ul ur|ul ur]; cbn [srange]; intros H X; unfold unscale, duds; cbv beta iota zeta; unfold unscaleInf, dudsInf, pow_2, pow_3.
  - auto_derive; [lra|]. field. lra.
  - destruct neg.
    + pose proof (exp_pos (1 / (1 - s) - 1 / s)) as E. auto_derive; [repeat split; try lra; apply Rgt_not_eq, exp_pos|]. pose proof (Rinv_0_lt_compat _ E). rewrite Rabs_left by (unfold Rdiv; unfold Rdiv in *; lra).
      replace (1 + - s) with (1 - s) by ring. replace (1 * / (1 - s) + - (1 * / s)) with (1 / (1 - s) - 1 / s) by (unfold Rdiv; ring). set (e := exp _) in *. field. lra.
    + rewrite Rabs_right by (left; apply exp_pos). auto_derive; [repeat split; lra|]. replace (1 + - s) with (1 - s) by ring. replace (1 * / (1 - s) + - (1 * / s)) with (1 / (1 - s) - 1 / s) by (unfold Rdiv; ring). set (e := exp _) in *. field. lra.
  - auto_derive; [repeat split; lra|]. replace (1 + - s) with (1 - s) by ring. change (s * / (1 - s)) with (s / (1 - s)). set (e := exp _). field. lra.
  - destruct (Rlt_le_dec s (1 / 2)) as [L|L].
    + assert (P : 0 < 1 / 2 - s) by lra. 
      apply (is_derive_ext_loc (fun s => u0 * (s - 1 / 2) + exp (1 / s - 1 / (1 / 2 - s)) * -1)).
      * assert (Pd : 0 < Rmin (1 / 2 - s) s) by (apply Rmin_pos; lra). exists (mkposreal _ Pd). intros y Y. unfold ball in Y; cbn in Y; unfold AbsRing_ball, abs, minus, plus, opp in Y; cbn in Y.
        apply Rabs_def2 in Y. pose proof (Rmin_l (1 / 2 - s) s). pose proof (Rmin_r (1 / 2 - s) s). rewrite sign_neg, Rabs_left by lra. unfold doubleInfExp. rewrite Req_b_f by lra. f_equal. f_equal. f_equal. field. lra.
      * auto_derive; [repeat split; lra|]. rewrite Rabs_left by lra. unfold doubleInfExp. rewrite (Req_b_f (- (s - 1 / 2)) 0) by lra. rewrite Req_b_f by (apply Rgt_not_eq, exp_pos).
        replace (1 / (1 / 2 - - (s - 1 / 2)) - 1 / - (s - 1 / 2)) with (1 * / s + - (1 * / (1 / 2 + - s))) by (field; lra). set (e := exp _). field. lra.
    + assert (P : 0 < s - 1 / 2) by lra.
      apply (is_derive_ext_loc (fun s => u0 * (s - 1 / 2) + exp (1 / (1 - s) - 1 / (s - 1 / 2)) * 1)).
      * assert (Pd : 0 < Rmin (s - 1 / 2) (1 - s)) by (apply Rmin_pos; lra). exists (mkposreal _ Pd). intros y Y. unfold ball in Y; cbn in Y; unfold AbsRing_ball, abs, minus, plus, opp in Y; cbn in Y.
        apply Rabs_def2 in Y. pose proof (Rmin_l (s - 1 / 2) (1 - s)). pose proof (Rmin_r (s - 1 / 2) (1 - s)). rewrite sign_pos, Rabs_right by lra. unfold doubleInfExp. rewrite Req_b_f by lra. f_equal. f_equal. f_equal. field. lra.
      * auto_derive; [repeat split; lra|]. rewrite Rabs_right by lra. unfold doubleInfExp. rewrite (Req_b_f (s - 1 / 2) 0) by lra. rewrite Req_b_f by (apply Rgt_not_eq, exp_pos).
        replace (1 / (1 / 2 - (s - 1 / 2)) - 1 / (s - 1 / 2)) with (1 * / (1 + - s) + - (1 * / (s + - (1 / 2)))) by (field; lra). set (e := exp _). field. lra.
  - auto_derive; [exact Logic.I|]. ring.
  - auto_derive; [exact Logic.I|]. ring.
  - auto_derive; [exact Logic.I|]. ring.
Qed.

(** transformations with a closed-form inverse, and their parameters *)
Definition invertible (sc : scaling) : Prop :=
  match sc with
  | ScalingInf | ScalingSemiInf0 _ => True
  | ScalingSemiInf u0 => u0 <> 0
  | ScalingDoubleInf u0 => u0 = 0
  | ScalingLin ul ur => ul <> ur
  | ScalingCub _ _ | ScalingQui _ _ => False
  end.
(** the range of the original variable *)
Definition urange (sc : scaling) (u : R) : Prop :=
  match sc with
  | ScalingInf | ScalingDoubleInf _ => True
  | ScalingSemiInf0 neg => if neg then u < 0 else 0 < u
  | ScalingSemiInf u0 => 0 < u0 <= u \/ u <= u0 < 0
  | ScalingLin ul ur | ScalingCub ul ur | ScalingQui ul ur => ul <= u <= ur \/ ur <= u <= ul
  end.

Lemma scaleInf_unscale s : 0 < s < 1 -> scaleInf (unscaleInf s) = s.
Proof. intros H. destruct (scaleInf_ok (unscaleInf s)) as [A B]. apply unscaleInf_inj; assumption. Qed.

Lemma unscale_in_urange sc s : srange sc s -> (invertible sc \/ match sc with ScalingCub _ _ | ScalingQui _ _ => True | _ => False end) -> urange sc (unscale sc s).
Proof.
  destruct sc as [|neg|u0|u0|ul ur|ul ur|ul ur]; cbn [srange urange unscale invertible]; auto.
  - intros H _. cbv zeta. pose proof (exp_pos (1 / (1 - s) - 1 / s)) as E. destruct neg; [|exact E]. pose proof (Rinv_0_lt_compat _ E). unfold Rdiv at 1. lra.
  - intros H [N|[]]. assert (1 <= exp (s / (1 - s))). { apply Rle_trans with (exp 0); [rewrite exp_0; lra|]. destruct (Req_dec s 0) as [->|]; [right; f_equal; field|]. left. apply exp_increasing. apply Rdiv_lt_0_compat; lra. }
    destruct (Rdichotomy _ _ N); [right|left]; nra.
  - intros H _. destruct (Rle_dec ul ur); [left|right]; nra.
  - intros H _. assert (A : 0 <= s * s * (3 - 2 * s) <= 1). { split; [apply Rmult_le_pos; [nra|lra]|]. assert (0 <= (1 - s) * (1 - s) * (1 + 2 * s)) by (apply Rmult_le_pos; [nra|lra]). nra. }
    replace (ul * pow_2 (1 - s) * (1 + 2 * s) + ur * pow_2 s * (3 - 2 * s)) with (ul + (ur - ul) * (s * s * (3 - 2 * s))) by (unfold pow_2; ring).
    set (g := s * s * (3 - 2 * s)) in *. destruct (Rle_dec ul ur); [left|right]; nra.
  - intros H _. assert (A : 0 <= s * s * s * (10 + (6 * s - 15) * s) <= 1).
    { assert (G : forall q, 0 <= q <= 1 -> 0 <= q * q * q * (10 + (6 * q - 15) * q)). { intros q Hq. apply Rmult_le_pos; [apply Rmult_le_pos; [apply Rmult_le_pos|]; lra|nra]. }
      split; [apply G; exact H|]. pose proof (G (1 - s) ltac:(lra)) as G1. replace ((1 - s) * (1 - s) * (1 - s) * (10 + (6 * (1 - s) - 15) * (1 - s))) with (1 - s * s * s * (10 + (6 * s - 15) * s)) in G1 by ring. lra. }
    replace (ul * pow_3 (1 - s) * (1 + (6 * s + 3) * s) + ur * pow_3 s * (10 + (6 * s - 15) * s)) with (ul + (ur - ul) * (s * s * s * (10 + (6 * s - 15) * s))) by (unfold pow_3; ring).
    set (g := s * s * s * (10 + (6 * s - 15) * s)) in *. destruct (Rle_dec ul ur); [left|right]; nra.
Qed.

Lemma scale_unscale sc s : invertible sc -> srange sc s -> scale sc (unscale sc s) = Some s.
Proof.
  destruct sc as [|neg|u0|u0|ul ur|ul ur|ul ur]; cbn [invertible srange scale unscale]; intros N H; try contradiction; cbv zeta.
  - f_equal. apply scaleInf_unscale, H.
  - pose proof (exp_pos (1 / (1 - s) - 1 / s)) as E. fold (unscaleInf s) in *. destruct neg.
    + replace (- (-1 / exp (unscaleInf s))) with (exp (- unscaleInf s)) by (rewrite exp_Ropp; field; lra). rewrite ln_exp, Ropp_involutive. f_equal. apply scaleInf_unscale, H.
    + rewrite ln_exp. f_equal. apply scaleInf_unscale, H.
  - replace (u0 * exp (s / (1 - s)) / u0) with (exp (s / (1 - s))) by (field; exact N). rewrite ln_exp. f_equal. field. lra.
  - subst u0. rewrite Rmult_0_l, Rplus_0_l. destruct (Req_EM_T s (1 / 2)) as [E|E].
    { subst s. replace (1 / 2 - 1 / 2) with 0 by ring. rewrite sign_0, Rmult_0_r, Req_b_t by reflexivity. reflexivity. }
    assert (At : 0 < Rabs (s - 1 / 2) < 1 / 2) by (split; [apply Rabs_pos_lt; lra|apply Rabs_def1; lra]).
    unfold doubleInfExp. rewrite (Req_b_f (Rabs (s - 1 / 2)) 0) by lra. set (t := Rabs (s - 1 / 2)) in *. pose proof (exp_pos (1 / (1 / 2 - t) - 1 / t)) as P.
    assert (X : 1 / (1 / 2 - t) - 1 / t = 2 * unscaleInf (2 * t)) by (unfold unscaleInf; field; lra). rewrite X in *.
    set (e := exp (2 * unscaleInf (2 * t))) in *.
    assert (Y : ln e * (1 / 2) = unscaleInf (2 * t)) by (unfold e; rewrite ln_exp; lra).
    destruct (Rlt_le_dec s (1 / 2)) as [L|L].
    + rewrite (sign_neg (s - 1 / 2)) by lra. rewrite Req_b_f by lra. rewrite Req_b_t by reflexivity. rewrite (sign_neg (e * -1)) by lra. rewrite (Rabs_left (e * -1)) by lra.
      replace (- (e * -1)) with e by ring. rewrite Y. rewrite scaleInf_unscale by lra. f_equal. unfold t. rewrite Rabs_left by lra. lra.
    + rewrite (sign_pos (s - 1 / 2)) by lra. rewrite Req_b_f by lra. rewrite Req_b_t by reflexivity. rewrite Rmult_1_r. rewrite (sign_pos e) by lra. rewrite (Rabs_right e) by lra.
      rewrite Y. rewrite scaleInf_unscale by lra. f_equal. unfold t. rewrite Rabs_right by lra. lra.
  - f_equal. field. lra.
Qed.

Lemma unscale_scale sc u : invertible sc -> urange sc u -> exists s, scale sc u = Some s /\ srange sc s /\ unscale sc s = u.
Proof.
  destruct sc as [|neg|u0|u0|ul ur|ul ur|ul ur]; cbn [invertible urange srange scale unscale]; intros N H; try contradiction; cbv zeta.
  - destruct (scaleInf_ok u) as [A B]. eauto.
  - destruct neg.
    + destruct (scaleInf_ok (- ln (- u))) as [A B]. eexists. split; [reflexivity|]. split; [exact A|]. fold (unscaleInf (scaleInf (- ln (- u)))). rewrite B, exp_Ropp, exp_ln by lra. field. lra.
    + destruct (scaleInf_ok (ln u)) as [A B]. eexists. split; [reflexivity|]. split; [exact A|]. fold (unscaleInf (scaleInf (ln u))). rewrite B, exp_ln by lra. reflexivity.
  - assert (P : 1 <= u / u0). { destruct H as [H|H]; [apply Rmult_le_reg_r with u0; [lra|]; replace (u / u0 * u0) with u by (field; lra); lra|apply Rmult_le_reg_r with (- u0); [lra|]; replace (u / u0 * - u0) with (- u) by (field; lra); lra]. }
    assert (L : 0 <= ln (u / u0)) by (rewrite <- ln_1; apply ln_le; lra). set (l := ln (u / u0)) in *. eexists. split; [reflexivity|].
    assert (Q : 0 <= l / (1 + l) < 1). { split; [apply Rmult_le_pos; [exact L|left; apply Rinv_0_lt_compat; lra]|]. apply Rmult_lt_reg_r with (1 + l); [lra|]. unfold Rdiv. rewrite Rmult_assoc, Rinv_l by lra. lra. }
    split; [exact Q|]. replace (l / (1 + l) / (1 - l / (1 + l))) with l by (field; lra). unfold l. rewrite exp_ln by lra. field. exact N.
  - subst u0. destruct (Req_EM_T u 0) as [E|E]; [rewrite Req_b_t by exact E|rewrite Req_b_f by exact E].
    { exists (1 / 2). split; [reflexivity|]. split; [lra|]. replace (1 / 2 - 1 / 2) with 0 by ring. rewrite sign_0. lra. }
    rewrite Req_b_t by reflexivity. destruct (scaleInf_ok (ln (Rabs u) * (1 / 2))) as [A B]. set (g := scaleInf (ln (Rabs u) * (1 / 2))) in *.
    pose proof (Rabs_pos_lt u E) as Pu.
    assert (X : exp (1 / (1 / 2 - 1 / 2 * g) - 1 / (1 / 2 * g)) = Rabs u). { replace (1 / (1 / 2 - 1 / 2 * g) - 1 / (1 / 2 * g)) with (2 * unscaleInf g) by (unfold unscaleInf; field; lra). rewrite B. replace (2 * (ln (Rabs u) * (1 / 2))) with (ln (Rabs u)) by field. apply exp_ln, Pu. }
    eexists. split; [reflexivity|]. destruct (Rdichotomy _ _ E) as [L|L].
    + rewrite (sign_neg u) by exact L. split; [lra|]. rewrite (Rabs_left (1 / 2 + 1 / 2 * g * -1 - 1 / 2)) by lra. replace (- (1 / 2 + 1 / 2 * g * -1 - 1 / 2)) with (1 / 2 * g) by ring.
      unfold doubleInfExp. rewrite Req_b_f by lra. rewrite X, sign_neg by lra. rewrite Rabs_left by exact L. lra.
    + rewrite (sign_pos u) by lra. split; [lra|]. rewrite (Rabs_right (1 / 2 + 1 / 2 * g * 1 - 1 / 2)) by lra. replace (1 / 2 + 1 / 2 * g * 1 - 1 / 2) with (1 / 2 * g) by ring.
      unfold doubleInfExp. rewrite Req_b_f by lra. rewrite X, sign_pos by lra. rewrite Rabs_right by lra. lra.
  - eexists. split; [reflexivity|]. split; [|field; lra]. destruct H as [H|H].
    + split; [apply Rmult_le_pos; [lra|left; apply Rinv_0_lt_compat; lra]|]. apply Rmult_le_reg_r with (ur - ul); [lra|]. unfold Rdiv. rewrite Rmult_assoc, Rinv_l by lra. lra.
    + replace ((u - ul) / (ur - ul)) with ((ul - u) / (ul - ur)) by (field; lra). split; [apply Rmult_le_pos; [lra|left; apply Rinv_0_lt_compat; lra]|]. apply Rmult_le_reg_r with (ul - ur); [lra|]. unfold Rdiv. rewrite Rmult_assoc, Rinv_l by lra. lra.
Qed.

(** cubic / quintic: strictly monotonic bijections of [0,1]; symmetric *)
Lemma cub_mono ul ur s t : ul < ur -> 0 <= s -> s < t -> t <= 1 -> unscale (ScalingCub ul ur) s < unscale (ScalingCub ul ur) t.
Proof.
  intros U S L T. cbn [unscale]. unfold pow_2.
  assert (E : (ul * ((1 - t) * (1 - t)) * (1 + 2 * t) + ur * (t * t) * (3 - 2 * t)) - (ul * ((1 - s) * (1 - s)) * (1 + 2 * s) + ur * (s * s) * (3 - 2 * s)) = (ur - ul) * ((t - s) * (3 * (s + t) - 2 * (s * s + s * t + t * t)))) by ring.
  assert (P : 0 < 3 * (s + t) - 2 * (s * s + s * t + t * t)) by nra. assert (0 < (ur - ul) * ((t - s) * (3 * (s + t) - 2 * (s * s + s * t + t * t)))) by (apply Rmult_lt_0_compat; [lra|apply Rmult_lt_0_compat; lra]). lra.
Qed.
Lemma qui_mono ul ur s t : ul < ur -> 0 <= s -> s < t -> t <= 1 -> unscale (ScalingQui ul ur) s < unscale (ScalingQui ul ur) t.
Proof.
  intros U S L T.
  assert (D : forall x, is_derive (unscale (ScalingQui ul ur)) x (duds (ScalingQui ul ur) x)) by (intros x; unfold unscale, duds; cbv beta iota zeta; unfold pow_2, pow_3; auto_derive; [exact Logic.I|ring]).
  destruct (MVT_gen (unscale (ScalingQui ul ur)) s t (duds (ScalingQui ul ur))) as [c [C1 C2]].
  - intros x _. apply D.
  - intros x _. apply continuity_pt_filterlim. apply (ex_derive_continuous (unscale (ScalingQui ul ur)) x). eexists; apply D.
  - rewrite Rmin_left, Rmax_right in C1 by lra. 
    assert (NN : 0 <= duds (ScalingQui ul ur) c) by (cbn [duds]; unfold pow_2; assert (0 <= c * (1 - c) * (c * (1 - c))) by apply Rle_0_sqr; nra).
    assert (W : unscale (ScalingQui ul ur) s <= unscale (ScalingQui ul ur) t) by nra.
    destruct W as [W|W]; [exact W|]. exfalso.
    (* strictness from the factorisation *)
    cbn [unscale] in W. unfold pow_3 in W.
    assert (E : (ur - ul) * ((t - s) * (10 * (s * s + s * t + t * t) - 15 * (s * s * s + s * s * t + s * t * t + t * t * t) + 6 * (s * s * s * s + s * s * s * t + s * s * t * t + s * t * t * t + t * t * t * t))) = 0) by (ring_simplify; ring_simplify in W; lra).
    apply Rmult_integral in E. destruct E as [E|E]; [lra|]. apply Rmult_integral in E. destruct E as [E|E]; [lra|].
    assert (P : 0 < 10 * (s * s + s * t + t * t) - 15 * (s * s * s + s * s * t + s * t * t + t * t * t) + 6 * (s * s * s * s + s * s * s * t + s * s * t * t + s * t * t * t + t * t * t * t)); [|lra].
    clear E W NN C1 C2 D c.
    (* with a = s, b = t, c = 1 - t >= 0: sum of nonnegative terms *)
    set (b := t - s). set (d := 1 - t). replace t with (s + b) by (unfold b; ring).
    assert (Hb : 0 < b) by (unfold b; lra). assert (Hd : 0 <= d) by (unfold d; lra). assert (E1 : s + b + d = 1) by (unfold b, d; lra). clearbody b d.
    replace (10 * (s * s + s * (s + b) + (s + b) * (s + b)) - 15 * (s * s * s + s * s * (s + b) + s * (s + b) * (s + b) + (s + b) * (s + b) * (s + b)) + 6 * (s * s * s * s + s * s * s * (s + b) + s * s * (s + b) * (s + b) + s * (s + b) * (s + b) * (s + b) + (s + b) * (s + b) * (s + b) * (s + b)))
     with (b * b * b * b + 5 * b * b * b * d + 10 * b * b * d * d + 5 * s * b * b * b + 20 * s * b * b * d + 30 * s * b * d * d + 10 * s * s * b * b + 30 * s * s * b * d + 30 * s * s * d * d).
    2:{ clear - E1. replace d with (1 - s - b) by lra. ring. }
    assert (0 < b * b * b * b) by (repeat apply Rmult_lt_0_compat; exact Hb).
    assert (0 <= 5 * b * b * b * d) by (repeat apply Rmult_le_pos; lra). assert (0 <= 10 * b * b * d * d) by (repeat apply Rmult_le_pos; lra).
    assert (0 <= 5 * s * b * b * b) by (repeat apply Rmult_le_pos; lra). assert (0 <= 20 * s * b * b * d) by (repeat apply Rmult_le_pos; lra).
    assert (0 <= 30 * s * b * d * d) by (repeat apply Rmult_le_pos; lra). assert (0 <= 10 * s * s * b * b) by (repeat apply Rmult_le_pos; lra).
    assert (0 <= 30 * s * s * b * d) by (repeat apply Rmult_le_pos; lra). assert (0 <= 30 * s * s * d * d) by (repeat apply Rmult_le_pos; lra). lra.
Qed.
Lemma cubNewton_fix w s : 0 < s < 1 -> (cubNewton w s = s <-> s * s * (3 - 2 * s) = w).
Proof.
  intros S. unfold cubNewton. assert (P : 0 < s * (1 - s)) by nra. split.
  - intros H. assert (K : 1 / 6 * (s * s * (3 - 2 * s) - w) / (s * (1 - s)) = 0) by lra. unfold Rdiv in K. apply Rmult_integral in K. destruct K as [K|K]; [lra|]. apply Rinv_neq_0_compat in K; [contradiction|lra].
  - intros H. rewrite H. field. nra.
Qed.

(** change of the integration variable *)
Lemma scaled_integral sc f s1 s2 : (forall s, Rmin s1 s2 <= s <= Rmax s1 s2 -> srange sc s /\ match sc with ScalingDoubleInf _ => s <> 1 / 2 | _ => True end) ->
  (forall s, Rmin s1 s2 <= s <= Rmax s1 s2 -> continuous f (unscale sc s)) ->
  (forall s, Rmin s1 s2 <= s <= Rmax s1 s2 -> continuous (duds sc) s) ->
  is_RInt (scaledIntegrand sc f) s1 s2 (RInt f (unscale sc s1) (unscale sc s2)).
Proof.
  intros Sr Cf Cd. apply (is_RInt_ext (fun s => scal (duds sc s) (f (unscale sc s)))).
  - intros s _. unfold scaledIntegrand, scal; cbn; unfold mult; cbn. ring.
  - apply (is_RInt_comp f (unscale sc) (duds sc) s1 s2); [exact Cf|]. intros s Hs. split; [|apply Cd, Hs]. apply unscale_derive; apply Sr, Hs.
Qed.
Lemma duds_cont sc s : srange sc s -> match sc with ScalingDoubleInf _ => s <> 1 / 2 | _ => True end -> continuous (duds sc) s.
Proof.
  intros H X. apply (ex_derive_continuous (duds sc) s). destruct sc as [|neg|u0|u0|ul ur|ul ur|ul ur]; cbn [srange] in H; unfold duds; cbv beta iota zeta; unfold dudsInf, pow_2.
  - auto_derive. repeat split; try (apply Rgt_not_eq; nra).
  - destruct neg.
    + apply (ex_derive_ext_loc (fun s => 1 / exp (1 / (1 - s) - 1 / s) * (1 / ((1 - s) * (1 - s)) + 1 / (s * s)))).
      * apply filter_forall. intros y. f_equal. pose proof (Rinv_0_lt_compat _ (exp_pos (1 / (1 - y) - 1 / y))). rewrite Rabs_left by (unfold Rdiv; unfold Rdiv in *; lra). unfold Rdiv. ring.
      * auto_derive. repeat split; try lra; try (apply Rgt_not_eq, exp_pos); try (apply Rgt_not_eq; nra).
    + apply (ex_derive_ext_loc (fun s => exp (1 / (1 - s) - 1 / s) * (1 / ((1 - s) * (1 - s)) + 1 / (s * s)))).
      * apply filter_forall. intros y. f_equal. rewrite Rabs_right by (left; apply exp_pos). reflexivity.
      * auto_derive. repeat split; try lra; try (apply Rgt_not_eq; nra).
  - auto_derive. repeat split; try lra; apply Rgt_not_eq; nra.
  - destruct (Rlt_le_dec s (1 / 2)) as [L|L].
    + apply (ex_derive_ext_loc (fun s => u0 + exp (1 / s - 1 / (1 / 2 - s)) * (1 / (s * s) + 1 / ((1 / 2 - s) * (1 / 2 - s))))).
      * assert (Pd : 0 < Rmin (1 / 2 - s) s) by (apply Rmin_pos; lra). exists (mkposreal _ Pd). intros y Y. unfold ball in Y; cbn in Y; unfold AbsRing_ball, abs, minus, plus, opp in Y; cbn in Y.
        apply Rabs_def2 in Y. pose proof (Rmin_l (1 / 2 - s) s). pose proof (Rmin_r (1 / 2 - s) s). rewrite Rabs_left by lra. unfold doubleInfExp. rewrite (Req_b_f (- (y - 1 / 2)) 0) by lra. rewrite Req_b_f by (apply Rgt_not_eq, exp_pos).
        replace (1 / 2 - - (y - 1 / 2)) with y by lra. replace (- (y - 1 / 2)) with (1 / 2 - y) by lra. reflexivity.
      * auto_derive. repeat split; try lra; apply Rgt_not_eq; nra.
    + apply (ex_derive_ext_loc (fun s => u0 + exp (1 / (1 - s) - 1 / (s - 1 / 2)) * (1 / ((1 - s) * (1 - s)) + 1 / ((s - 1 / 2) * (s - 1 / 2))))).
      * assert (Pd : 0 < Rmin (s - 1 / 2) (1 - s)) by (apply Rmin_pos; lra). exists (mkposreal _ Pd). intros y Y. unfold ball in Y; cbn in Y; unfold AbsRing_ball, abs, minus, plus, opp in Y; cbn in Y.
        apply Rabs_def2 in Y. pose proof (Rmin_l (s - 1 / 2) (1 - s)). pose proof (Rmin_r (s - 1 / 2) (1 - s)). rewrite Rabs_right by lra. unfold doubleInfExp. rewrite (Req_b_f (y - 1 / 2) 0) by lra. rewrite Req_b_f by (apply Rgt_not_eq, exp_pos).
        replace (1 / 2 - (y - 1 / 2)) with (1 - y) by lra. reflexivity.
      * auto_derive. repeat split; try lra; apply Rgt_not_eq; nra.
  - auto_derive. exact Logic.I.
  - auto_derive. exact Logic.I.
  - auto_derive. exact Logic.I.
Qed.
