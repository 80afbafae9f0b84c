(** Property C32: the closed-form polynomial solvers return exactly the real roots.
    All arithmetic is exact (real numbers); [deps] is DBL_EPSILON, which the code compares with. *)
From Coq Require Import Sorting.Sorted Permutation Lra Psatz.
From Verif Require Import PolyModel PolyProofs PolyProofs2 PolyProofs3.
Local Open Scope R_scope.

(** the returned list is strictly increasing (hence has no duplicates) and consists of precisely the real solutions *)
Theorem C32_linear : forall a1 a0, ~ (a1 = 0 /\ a0 = 0) ->
  StronglySorted Rlt (solveLinear a1 a0) /\ forall x, In x (solveLinear a1 a0) <-> a1 * x + a0 = 0.
Proof. intros a1 a0 H. apply solveLinear_ok. destruct (Req_dec a1 0); [right|left]; tauto. Qed.
Print Assumptions C32_linear.
Theorem C32_quadratic : forall a2 a1 a0, ~ (a2 = 0 /\ a1 = 0 /\ a0 = 0) ->
  StronglySorted Rlt (solveQuadratic a2 a1 a0) /\ forall x, In x (solveQuadratic a2 a1 a0) <-> a2 * x ^ 2 + a1 * x + a0 = 0.
Proof.
  intros a2 a1 a0 H. destruct (solveQuadratic_ok a2 a1 a0) as [A B]; [destruct (Req_dec a2 0); [right; destruct (Req_dec a1 0); [right|left]|left]; tauto|].
  split; [exact A|]. intros x. rewrite B. replace (x ^ 2) with (x * x) by ring. reflexivity.
Qed.
Print Assumptions C32_quadratic.
Example quadratic_used : solveQuadratic 1 (-3) 2 = [1; 2].
Proof.
  destruct (C32_quadratic 1 (-3) 2 ltac:(lra)) as [A B].
  pose proof (proj2 (B 1) ltac:(lra)) as I1. pose proof (proj2 (B 2) ltac:(lra)) as I2.
  assert (O : forall x, In x (solveQuadratic 1 (-3) 2) -> x = 1 \/ x = 2).
  { intros x Hx. apply B in Hx. assert ((x - 1) * (x - 2) = 0) by lra. apply Rmult_integral in H. lra. }
  destruct (solveQuadratic 1 (-3) 2) as [|a [|b [|c l]]]; [destruct I1| |  |].
  - cbn in I1, I2. destruct I1 as [I1|[]], I2 as [I2|[]]. lra.
  - inversion A as [|? ? _ F]; subst. inversion F; subst. destruct (O a) as [Oa|Oa]; [cbn; auto| |]; destruct (O b) as [Ob|Ob]; cbn; auto; subst; try lra. reflexivity.
  - exfalso. inversion A as [|? ? A1 F]; subst. inversion F as [|? ? F1 F2]; subst. inversion F2; subst. inversion A1 as [|? ? A2 F3]; subst. inversion F3; subst.
    destruct (O a), (O b), (O c); cbn; auto; lra.
Qed.
(** the excluded case: an identically zero equation reports the single root 0 *)
Theorem C32_zero_equation_all_points_refuted : solveLinear 0 0 = [0] /\ solveQuadratic 0 0 0 = [0].
Proof. unfold solveQuadratic, solveLinear. rewrite (Req_b_t 0 0 eq_refl). split; reflexivity. Qed.
Print Assumptions C32_zero_equation_all_points_refuted.

(** the discriminant of a x^3 + b x^2 + c x + d *)
Definition discr3 (a b c d : R) : R := 18 * a * b * c * d - 4 * b ^ 3 * d + b ^ 2 * c ^ 2 - 4 * a * c ^ 3 - 27 * a ^ 2 * d ^ 2.
(** the discriminant is either exactly zero or not too small *)
Definition discr3_clear (a b c d : R) : Prop :=
  discr3 a b c d = 0 \/ Rabs (discr3 a b c d) > 2 * deps * (2 * b ^ 3 - 9 * a * b * c + 27 * a ^ 2 * d) ^ 2 / (27 * a ^ 2).

Lemma discr3_D a b c d : a <> 0 -> pow_3 (cubicQ a b c) + pow_2 (cubicR a b c d) = - discr3 a b c d / (108 * a ^ 4).
Proof. intros N. unfold discr3, cubicQ, cubicR, cubicS, pow_3, pow_2. field. exact N. Qed.
Lemma discr3_R a b c d : a <> 0 -> pow_2 (cubicR a b c d) = (2 * b ^ 3 - 9 * a * b * c + 27 * a ^ 2 * d) ^ 2 / (27 * a ^ 2) / (108 * a ^ 4).
Proof. intros N. unfold cubicR, cubicS, pow_3, pow_2. field. exact N. Qed.
Lemma discr3_ok a b c d : a <> 0 -> discr3_clear a b c d -> cubicOk (cubicQ a b c) (cubicR a b c d).
Proof.
  intros N H. unfold cubicOk. rewrite (discr3_D a b c d N), (discr3_R a b c d N).
  assert (P : 0 < 108 * a ^ 4). { assert (0 < a ^ 2) by (rewrite <- Rsqr_pow2; apply Rsqr_pos_lt; exact N). replace (108 * a ^ 4) with (108 * (a ^ 2 * a ^ 2)) by ring. nra. }
  destruct H as [H|H]; [left; rewrite H; field; lra|right].
  unfold Rdiv in *. rewrite Rabs_mult, Rabs_Ropp, Rabs_inv, (Rabs_right (108 * a ^ 4)) by lra.
  set (P' := 108 * a ^ 4) in *. set (X := (2 * b ^ 3 - 9 * a * b * c + 27 * a ^ 2 * d) ^ 2) in *. set (Y := / (27 * a ^ 2)) in *.
  replace (2 * deps * (X * Y * / P')) with (2 * deps * X * Y * / P') by ring. apply Rmult_lt_compat_r; [apply Rinv_0_lt_compat; exact P|exact H].
Qed.

Theorem C32_cubic_partial : forall a3 a2 a1 a0, a3 <> 0 -> discr3_clear a3 a2 a1 a0 ->
  StronglySorted Rlt (solveCubic a3 a2 a1 a0) /\ forall x, In x (solveCubic a3 a2 a1 a0) <-> a3 * x ^ 3 + a2 * x ^ 2 + a1 * x + a0 = 0.
Proof.
  intros a3 a2 a1 a0 N H. destruct (solveCubic_ok a3 a2 a1 a0 N (discr3_ok _ _ _ _ N H)) as [A [_ B]]. split; [exact A|].
  intros x. rewrite B. unfold pow_3, pow_2. replace (x ^ 3) with (x * x * x) by ring. replace (x ^ 2) with (x * x) by ring. reflexivity.
Qed.
Print Assumptions C32_cubic_partial.
Theorem C32_cubic_lower_degree : forall a2 a1 a0, solveCubic 0 a2 a1 a0 = solveQuadratic a2 a1 a0.
Proof. intros. unfold solveCubic. rewrite (Req_b_t 0 0 eq_refl). reflexivity. Qed.
(** the hypothesis holds for x^3-7x+6 = (x-1)(x-2)(x+3), x^3-2 and (x-1)^2(x+2) = x^3-3x+2 *)
Lemma deps_small : deps <= 1 / 1000. Proof. unfold deps. apply Rle_trans with (/ 1000); [|lra]. apply Rinv_le_contravar; lra. Qed.
Example cubic_used_3 : discr3_clear 1 0 (-7) 6.
Proof. right. pose proof deps_small. pose proof deps_pos. unfold discr3. rewrite Rabs_right by lra. lra. Qed.
Example cubic_used_1 : discr3_clear 1 0 0 (-2).
Proof. right. pose proof deps_small. pose proof deps_pos. unfold discr3. rewrite Rabs_left by lra. lra. Qed.
Example cubic_used_2 : discr3_clear 1 0 (-3) 2.
Proof. left. unfold discr3. lra. Qed.
(** near-degenerate equations: x^3 - 3x - 2(1+DBL_EPSILON/4) = 0 has a single real root, but two are returned *)
Theorem C32_cubic_root_count_refuted : exists a3 a2 a1 a0, a3 <> 0 /\ length (solveCubic a3 a2 a1 a0) = 2%nat /\
  exists x, forall y, a3 * y ^ 3 + a2 * y ^ 2 + a1 * y + a0 = 0 <-> y = x.
Proof.
  exists 1, 0, (-3), (- 2 * (1 + deps / 4)). pose proof deps_small as d1. pose proof deps_pos as d0. split; [lra|].
  assert (EQ : cubicQ 1 0 (-3) = -1) by (unfold cubicQ, cubicS, pow_2; field).
  assert (ER : cubicR 1 0 (-3) (- 2 * (1 + deps / 4)) = 1 + deps / 4) by (unfold cubicR, cubicS, pow_3; field).
  split.
  - unfold solveCubic. rewrite (Req_b_f 1 0) by lra. cbv zeta. rewrite EQ, ER. rewrite (Req_b_f (-1) 0) by lra. cbn [andb].
    unfold cubicRoots. cbv zeta. rewrite Rle_b_t. 2:{ unfold pow_3, pow_2. rewrite Rabs_right by nra. nra. }
    match goal with |- length (sort3 ?l) = _ => destruct (sort3_perm l) as [P _]; [cbn; lia|]; rewrite (Permutation_length P); reflexivity end.
  - set (Q := cubicQ 1 0 (-3)) in *. set (Rr := cubicR 1 0 (-3) (- 2 * (1 + deps / 4))) in *.
    assert (D : 0 < pow_3 Q + pow_2 Rr) by (rewrite EQ, ER; unfold pow_3, pow_2; nra).
    pose proof (cubic_one Q Rr (cubicS 1 0) D) as B. cbv zeta in B. eexists. intros y. rewrite <- B.
    unfold Q, Rr. rewrite <- dep_root by lra. unfold pow_3, pow_2. replace (y ^ 3) with (y * y * y) by ring. replace (y ^ 2) with (y * y) by ring. reflexivity.
Qed.
Print Assumptions C32_cubic_root_count_refuted.

(** the resolvent cubic of x^4 + c3 x^3 + c2 x^2 + c1 x + c0 *)
Definition resolvent_clear (c3 c2 c1 c0 : R) : Prop := discr3_clear 1 (- c2) (c1 * c3 - 4 * c0) ((4 * c2 - c3 ^ 2) * c0 - c1 ^ 2).
Theorem C32_quartic_partial : forall a4 a3 a2 a1 a0, a4 <> 0 -> resolvent_clear (a3 / a4) (a2 / a4) (a1 / a4) (a0 / a4) ->
  StronglySorted Rlt (solveQuartic a4 a3 a2 a1 a0) /\
  (forall x, In x (solveQuartic a4 a3 a2 a1 a0) -> a4 * x ^ 4 + a3 * x ^ 3 + a2 * x ^ 2 + a1 * x + a0 = 0) /\
  ((exists x, a4 * x ^ 4 + a3 * x ^ 3 + a2 * x ^ 2 + a1 * x + a0 = 0 /\ 4 * a4 * x ^ 3 + 3 * a3 * x ^ 2 + 2 * a2 * x + a1 <> 0) ->
   forall x, a4 * x ^ 4 + a3 * x ^ 3 + a2 * x ^ 2 + a1 * x + a0 = 0 ->
   exists r, In r (solveQuartic a4 a3 a2 a1 a0) /\ 0 <= x - r <= 2 * deps * Rabs x).
Proof.
  intros a4 a3 a2 a1 a0 N H. unfold resolvent_clear in H.
  replace ((4 * (a2 / a4) - (a3 / a4) ^ 2) * (a0 / a4) - (a1 / a4) ^ 2) with ((4 * (a2 / a4) - a3 / a4 * (a3 / a4)) * (a0 / a4) - a1 / a4 * (a1 / a4)) in H by ring.
  destruct (solveQuartic_gen a4 a3 a2 a1 a0 N (discr3_ok _ _ _ _ R1_neq_R0 H)) as [A [B C]].
  assert (E : forall x, a4 * x ^ 4 + a3 * x ^ 3 + a2 * x ^ 2 + a1 * x + a0 = a4 * quart (a3 / a4) (a2 / a4) (a1 / a4) (a0 / a4) x) by (intros x; unfold quart; field; exact N).
  assert (E0 : forall x, a4 * x ^ 4 + a3 * x ^ 3 + a2 * x ^ 2 + a1 * x + a0 = 0 <-> quart (a3 / a4) (a2 / a4) (a1 / a4) (a0 / a4) x = 0).
  { intros x. rewrite E. split; intros K; [apply Rmult_integral in K; tauto|rewrite K; ring]. }
  split; [exact A|]. split; [intros x Hx; apply E0, B, Hx|]. intros [x [X1 X2]] y Y. apply C; [|apply E0, Y]. exists x. split; [apply E0, X1|].
  intros Z. apply X2. transitivity (a4 * (4 * (x * x * x) + 3 * (a3 / a4) * (x * x) + 2 * (a2 / a4) * x + a1 / a4)); [field; exact N|]. rewrite Z. ring.
Qed.
Print Assumptions C32_quartic_partial.
(** hypotheses hold for (x-1)(x-2)(x-3)(x-4) *)
Example quartic_used : resolvent_clear (-10) 35 (-50) 24 /\ 1 * 1 ^ 4 + -10 * 1 ^ 3 + 35 * 1 ^ 2 + -50 * 1 + 24 = 0 /\ 4 * 1 * 1 ^ 3 + 3 * -10 * 1 ^ 2 + 2 * 35 * 1 + -50 <> 0.
Proof.
  split; [|split; lra]. right. pose proof deps_small. pose proof deps_pos. unfold discr3.
  match goal with |- Rabs ?x > _ => replace x with 144 by ring end. rewrite Rabs_right by lra.
  match goal with |- _ > _ * ?x ^ 2 / _ => replace x with (-70) by ring end. lra.
Qed.

(** a double real root together with a complex pair may be missed altogether: x^4 + x^2 = 0 has the solution x=0, but none is returned *)
Theorem C32_quartic_finds_roots_refuted : solveQuartic 1 0 1 0 0 = [] /\ 1 * 0 ^ 4 + 0 * 0 ^ 3 + 1 * 0 ^ 2 + 0 * 0 + 0 = 0.
Proof.
  split; [|ring]. unfold solveQuartic. rewrite (Req_b_f 1 0) by lra. cbv zeta.
  replace (0 * (1 / 1)) with 0 by field. replace (1 * (1 / 1)) with 1 by field.
  replace (Ropp 1) with (-1) by ring. replace (0 * 0 - 4 * 0) with 0 by ring. replace ((4 * 1 - 0 * 0) * 0 - 0 * 0) with 0 by ring.
  assert (CC : solveCubic 1 (-1) 0 0 = [0; 1]).
  { assert (K : discr3_clear 1 (-1) 0 0) by (left; unfold discr3; ring).
    destruct (C32_cubic_partial 1 (-1) 0 0 ltac:(lra) K) as [A B].
    pose proof (proj2 (B 0) ltac:(lra)) as I1. pose proof (proj2 (B 1) ltac:(lra)) as I2.
    assert (O : forall x, In x (solveCubic 1 (-1) 0 0) -> x = 0 \/ x = 1).
    { intros x Hx. apply B in Hx. assert (Z : x * (x * (x - 1)) = 0) by lra. apply Rmult_integral in Z. destruct Z as [Z|Z]; [auto|]. apply Rmult_integral in Z. lra. }
    destruct (solveCubic 1 (-1) 0 0) as [|a [|b [|c l]]]; [destruct I1| |  |].
    - cbn in I1, I2. destruct I1 as [I1|[]], I2 as [I2|[]]. lra.
    - inversion A as [|? ? _ F]; subst. inversion F; subst. destruct (O a) as [Oa|Oa]; [cbn; auto| |]; destruct (O b) as [Ob|Ob]; cbn; auto; subst; try lra. reflexivity.
    - exfalso. inversion A as [|? ? A1 F]; subst. inversion F as [|? ? F1 F2]; subst. inversion F2; subst. inversion A1 as [|? ? A2 F3]; subst. inversion F3; subst.
      destruct (O a), (O b), (O c); cbn; auto; lra. }
  rewrite CC. cbn [fold_left].
  assert (E1 : quarticChoice 0 1 0 (-1) 0 0 (None, None) 0 = (None, Some 0)).
  { unfold quarticChoice. cbn [fst snd]. assert (R0 : resolventErr (-1) 0 0 0 = Some 0).
    { unfold resolventErr. rewrite !Rabs_R0. rewrite (Req_b_t (0 + _ * _) 0) by ring.
      rewrite (Req_b_t (Rmax _ _) 0). 2:{ rewrite !Rmult_0_r. rewrite !Rmax_left by lra. reflexivity. }
      f_equal. ring. }
    rewrite R0. cbn [errLe]. rewrite (Rle_b_f 0 (1 / 4 * 0 * 0 - 1 + 0)) by lra. reflexivity. }
  rewrite E1. assert (E2 : quarticChoice 0 1 0 (-1) 0 0 (None, Some 0) 1 = (None, Some 0)).
  { unfold quarticChoice. cbn [fst snd]. assert (R1 : exists e, resolventErr (-1) 0 0 1 = Some e /\ 0 < e).
    { unfold resolventErr. rewrite (Req_b_f (0 + _ * _) 0) by lra. eexists. split; [reflexivity|].
      pose proof deps_pos. apply Rmult_lt_0_compat; [apply Rmult_lt_0_compat; [apply Rmult_lt_0_compat; [|lra]|lra]|].
      - apply Rlt_le_trans with (Rabs 1); [rewrite Rabs_R1; lra|apply Rmax_r].
      - apply Rlt_le_trans with 1; [lra|apply Rmax_l]. }
    destruct R1 as [e [-> He]]. cbn [errLe]. rewrite Rle_b_f by exact He. reflexivity. }
  rewrite E2. reflexivity.
Qed.
Print Assumptions C32_quartic_finds_roots_refuted.
