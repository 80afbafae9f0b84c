(** C52: integrals of interpolators. *)
From Coquelicot Require Import Coquelicot.
From Verif Require Import Arr BinSearchModel SplineModel SplineGlue SplineProofs2 SplIntModel PolyProofs RootProofs SplIntProofs SplIntProofs2 VanderProofs SplIntProofs3 SplIntProofs4 SplIntProofs5 GLModel GLProofs GLProofs2 SplineSpec SplIntSpec.
Local Open Scope R_scope.

Lemma computes_ext S F G : computes S F -> computes S G -> forall t, x_first (i_x S) <= t <= x_last (i_x S) -> F t = G t.
Proof. intros A B t Ht. pose proof (A t Ht) as E. rewrite (B t Ht) in E. injection E as ->. reflexivity. Qed.
Lemma spline_any N S F : spline N S -> (2 <= alen (i_x S))%Z -> computes S F -> increasing (i_x S) /\ piecewise_poly N (i_x S) F.
Proof.
  intros H Hn HF. destruct (spline_poly N S H Hn) as (Hx & G & HG & HP). split; [exact Hx|]. intros i Hi. destruct (HP i Hi) as (a & Ha). exists a. intros t Ht.
  rewrite <- (Ha t Ht). apply (computes_ext S); try assumption. unfold x_first, x_last.
  pose proof (inc_le (i_x S) Hx 0 i ltac:(lia) ltac:(lia) ltac:(lia)). pose proof (inc_le (i_x S) Hx (i + 1) (alen (i_x S) - 1) ltac:(lia) ltac:(lia) ltac:(lia)). lra.
Qed.

(** An interpolator returned by any of the constructors can be evaluated everywhere on its grid, and is a polynomial of degree N between adjacent nodes. *)
Theorem C52_pieces : forall N S, spline N S -> (2 <= alen (i_x S))%Z -> exists F, computes S F /\ piecewise_poly N (i_x S) F.
Proof. intros N S H Hn. exact (proj2 (spline_poly N S H Hn)). Qed.

(** integrate(x1, x2, n) always succeeds, and returns the integral of S(t) t^n over the part of the interval that belongs to the grid, up to a
    relative error of 2.5e-16 coming from the rounding of the tabulated quadrature points and weights: c_i are the coefficients of the integrand on the
    part [u_i, v_i] of the i-th segment as a polynomial of the scaled coordinate. *)
Theorem C52_integrate_power : forall N S F n a b,
  spline N S -> (2 <= alen (i_x S))%Z -> computes S F -> (0 <= n)%Z -> ((Z.of_nat N + n) / 2 + 1 <= 20)%Z ->
  exists r I c, integratePower glTab (Z.of_nat N) S a b n = Ok r /\ is_RInt (fun t => cut (i_x S) F t * t ^ Z.to_nat n) a b I /\
    (let x := i_x S in let K := (N + Z.to_nat n)%nat in
     let lo := Rmax (Rmin a b) (x_first x) in let hi := Rmin (Rmax a b) (x_last x) in
     let u i := Rmax (afn x i) lo in let v i := Rmin (afn x (i + 1)%Z) hi in
     (forall i, (0 <= i < alen x - 1)%Z -> u i < v i -> forall t, 0 <= t <= 1 ->
        F (u i + t * (v i - u i)) * (u i + t * (v i - u i)) ^ Z.to_nat n = poly K (c i) t) /\
     Rabs (r - I) <= 25 / 10 ^ 17 * zsum 0 (alen x - 1) (fun i => Rmax 0 (v i - u i) * sum_f_R0 (fun k => Rabs (c i k)) K)).
Proof.
  intros N S F n a b H Hn HF Hnn Ho. destruct (spline_any N S F H Hn HF) as (Hx & HP).
  assert (O1 : (1 <= (Z.of_nat N + n) / 2 + 1)%Z) by (pose proof (Z.div_pos (Z.of_nat N + n) 2 ltac:(lia) ltac:(lia)); lia).
  destruct (nextRule_ok ((Z.of_nat N + n) / 2 + 1) ltac:(lia)) as (_ & I & _). unfold order_of in I. rewrite (proj2 (Z.leb_le _ 20)) in I by lia.
  destruct (rule_facts _ I) as (_ & _ & W). rewrite Z2Nat.id in W by lia.
  apply (integratePower_bound glTab N S F Hx Hn HF HP n Hnn Ho (25 / 10 ^ 17) W a b).
Qed.
(** With an exact Gauss-Legendre rule the result would be exact. *)
Theorem C52_integrate_power_exact_rule : forall T N S F n a b,
  spline N S -> (2 <= alen (i_x S))%Z -> computes S F -> (0 <= n)%Z -> ((Z.of_nat N + n) / 2 + 1 <= 20)%Z -> rule_exact T ((Z.of_nat N + n) / 2 + 1) ->
  exists r, integratePower T (Z.of_nat N) S a b n = Ok r /\ is_RInt (fun t => cut (i_x S) F t * t ^ Z.to_nat n) a b r.
Proof.
  intros T N S F n a b H Hn HF Hnn Ho HT. destruct (spline_any N S F H Hn HF) as (Hx & HP). exact (integratePower_exact T N S F n Hx Hn HF HP Hnn Ho HT a b).
Qed.
(** An interpolator with fewer than two nodes has a zero integral. *)
Theorem C52_integrate_trivial : forall T N S Fi n a b, (alen (i_x S) < 2)%Z -> integratePower T N S a b n = Ok 0 /\ integrateProduct N S Fi a b = Ok 0 /\ convolve N S Fi a = Ok 0.
Proof.
  intros T N S Fi n a b H. assert (P : forall Fi, integrateProduct N S Fi a b = Ok 0) by (intros; unfold integrateProduct; rewrite (proj2 (Z.ltb_lt _ 2)) by lia; reflexivity).
  split; [|split; [apply P|unfold convolve; rewrite (proj2 (Z.ltb_lt _ 2)) by lia; reflexivity]].
  unfold integratePower. cbv zeta. destruct (_ <? _)%Z; [apply P|]. rewrite (proj2 (Z.ltb_lt _ 2)) by lia. reflexivity.
Qed.

(** integrate(x1, x2, f): the integral of the interpolator times a function.  Missing: intervals whose lower end (clipped to the grid) is not in the
    first segment, for which the call has undefined behaviour (see below), and segments skipped by the code when f changes sign. *)
Theorem C52_integrate_fnc_partial : forall N S F f fi a b,
  spline N S -> (2 <= alen (i_x S))%Z -> computes S F -> integrates f fi ->
  Rmax (Rmin a b) (x_first (i_x S)) < afn (i_x S) 1%Z ->
  exists r I, integrateProduct (Z.of_nat N) S fi a b = Ok r /\ is_RInt (fun t => cut (i_x S) F t * f t) a b I /\
    (let x := i_x S in let lo := Rmax (Rmin a b) (x_first x) in let hi := Rmin (Rmax a b) (x_last x) in
     (* exact if no segment is skipped *)
     ((forall i, (0 <= i < alen x - 1)%Z -> let u := Rmax lo (afn x i) in let v := Rmin hi (afn x (i + 1)%Z) in
        u < v -> Rabs (fi lo hi 0%Z) * deps <= Rabs (fi u v 0%Z)) -> r = I) /\
     (* a function that is nowhere negative *)
     (forall M, lo < hi -> (forall y, x_first x <= y <= x_last x -> Rabs (F y) <= M) -> (forall t, 0 <= f t) ->
        Rabs (r - I) <= IZR (alen x - 1) * M * deps * fi lo hi 0%Z)).
Proof.
  intros N S F f fi a b H Hn HF HI L. destruct (spline_any N S F H Hn HF) as (Hx & HP). exact (integrateProduct_spec N S F f fi Hx Hn HF HP HI a b L).
Qed.
(** Whenever the lower end of the interval lies inside the grid, at or beyond its second node, the routine reads memory that has not been initialised. *)
Theorem C52_integrate_fnc_refuted : forall N S F f fi a b,
  spline N S -> (2 <= alen (i_x S))%Z -> computes S F -> integrates f fi ->
  afn (i_x S) 1%Z <= Rmin a b -> Rmin a b < Rmin (Rmax a b) (x_last (i_x S)) ->
  integrateProduct (Z.of_nat N) S fi a b = UB.
Proof.
  intros N S F f fi a b H Hn HF HI L1 L2. destruct (spline_any N S F H Hn HF) as (Hx & HP).
  pose proof (inc_lt (i_x S) Hx 0 1 ltac:(lia) ltac:(lia) ltac:(lia)) as L0. unfold x_first in *.
  apply integrateProduct_UB; try assumption; unfold x_first; rewrite Rmax_left by lra; assumption.
Qed.
(** The same happens for integrate(x1, x2, n) with a large n. *)
Lemma monomial_integrates m : (0 <= m)%Z -> integrates (fun y => y ^ Z.to_nat m) (monomialIntegrate m).
Proof.
  intros Hm a b n Hn. apply (RI_ext (fun y => y ^ Z.to_nat (m + n))); [intros; rewrite Z2Nat.inj_add, pow_add by lia; ring|].
  unfold monomialIntegrate. replace (Z.to_nat (m + n + 1)) with (S (Z.to_nat (m + n))) by lia. set (k := Z.to_nat (m + n)).
  assert (Ek : IZR (m + n + 1) = INR (S k)) by (rewrite INR_IZR_INZ; f_equal; unfold k; lia). rewrite Ek. assert (0 < INR (S k)) by (apply lt_0_INR; lia).
  replace ((b ^ S k - a ^ S k) / INR (S k)) with (minus (b ^ S k / INR (S k)) (a ^ S k / INR (S k))) by (unfold minus, plus, opp; cbn; field; change (INR (S k) <> 0); lra).
  apply (is_RInt_derive (fun y => y ^ S k / INR (S k)) (fun y => y ^ k)).
  - intros y _. auto_derive; [exact Logic.I|]. replace (pred (S k)) with k by reflexivity. field. change (match k with 0%nat => 1 | S _ => INR k + 1 end) with (INR (S k)). lra.
  - intros y _. apply (ex_derive_continuous (fun y => y ^ k)). auto_derive. exact Logic.I.
Qed.
Theorem C52_high_power_refuted : forall N S F n a b,
  spline N S -> (2 <= alen (i_x S))%Z -> computes S F -> (0 <= n)%Z -> (20 < (Z.of_nat N + n) / 2 + 1)%Z ->
  afn (i_x S) 1%Z <= Rmin a b -> Rmin a b < Rmin (Rmax a b) (x_last (i_x S)) ->
  integratePower glTab (Z.of_nat N) S a b n = UB.
Proof.
  intros N S F n a b H Hn HF Hnn Ho L1 L2. unfold integratePower. cbv zeta. unfold MAX_GL_TABLE. rewrite (proj2 (Z.ltb_lt 20 _)) by lia.
  exact (C52_integrate_fnc_refuted N S F _ _ a b H Hn HF (monomial_integrates n Hnn) L1 L2).
Qed.

(** convolve(x, f) *)
Theorem C52_convolve : forall N S F f fi xc,
  spline N S -> (2 <= alen (i_x S))%Z -> computes S F -> integrates f fi ->
  exists r I, convolve (Z.of_nat N) S fi xc = Ok r /\ is_RInt (fun y => F y * f (xc - y)) (x_first (i_x S)) (x_last (i_x S)) I /\
    (let x := i_x S in
     ((forall i, (0 <= i < alen x - 1)%Z -> Rabs (fi (xc - x_last x) (xc - x_first x) 0%Z) * deps <= Rabs (fi (xc - afn x (i + 1)%Z) (xc - afn x i) 0%Z)) -> r = I) /\
     (forall M, (forall y, x_first x <= y <= x_last x -> Rabs (F y) <= M) -> (forall t, 0 <= f t) ->
        Rabs (r - I) <= IZR (alen x - 1) * M * deps * fi (xc - x_last x) (xc - x_first x) 0%Z)).
Proof.
  intros N S F f fi xc H Hn HF HI. destruct (spline_any N S F H Hn HF) as (Hx & HP). exact (convolve_spec N S F f fi Hx Hn HF HP HI xc).
Qed.

(** The polynomial through N+1 points with distinct abscissae is recovered from its values, for any N. *)
Theorem C52_vandermonde : forall N (t v : arr R) a, alen t = (Z.of_nat N + 1)%Z -> alen v = (Z.of_nat N + 1)%Z ->
  (forall i j, (0 <= i < j)%Z -> (j <= Z.of_nat N)%Z -> afn t i <> afn t j) ->
  (forall k, (0 <= k <= Z.of_nat N)%Z -> afn v k = poly N a (afn t k)) ->
  exists c, vandermonde (Z.of_nat N) t v = Ok c /\ alen c = (Z.of_nat N + 1)%Z /\ forall k, (k <= N)%nat -> afn c (Z.of_nat k) = a k.
Proof. intros N t v a Lt Lv D H. exact (vandermonde_ok N t v Lt Lv D a H). Qed.

(** ---- a segment over which the integral of f is zero is skipped ---- *)
Definition xg : arr R := mkArr 3 (fun i => if (i =? 0)%Z then -1 else if (i =? 1)%Z then 1 else 2).
Lemma xg_inc : increasing xg.
Proof. intros i j Hi Hj. cbn [alen xg] in Hj. assert (i = 0 /\ j = 1 \/ i = 0 /\ j = 2 \/ i = 1 /\ j = 2)%Z as [(-> & ->)|[(-> & ->)|(-> & ->)]] by lia; cbn; lra. Qed.
Definition sg : interp := linI (mkLin xg xg).
Example sg_spline : spline 1 sg.
Proof. apply (sp_linear xg xg). unfold linearNew. rewrite (SplineCons.inc_monotonic xg xg_inc). reflexivity. Qed.
Lemma sg_computes : computes sg (fun t => t).
Proof.
  intros t Ht. destruct (lin_poly xg xg xg_inc ltac:(cbn; lia) eq_refl) as (C & _). unfold sg. rewrite (C t Ht). f_equal. cbn [i_x sg linI l_x] in Ht. unfold x_first, x_last in Ht. cbn in Ht.
  destruct (Rle_dec t 1).
  - rewrite (lin_value xg xg xg_inc ltac:(cbn; lia) 0 t); [cbn; field|cbn; lia|left; reflexivity|right; cbn; lra].
  - rewrite (lin_value xg xg xg_inc ltac:(cbn; lia) 1 t); [cbn; field|cbn; lia|right; cbn; lra|left; reflexivity].
Qed.
(** S(y)=y on the grid {-1,1,2}, f(y)=y: the value returned is 7/3 instead of 3 *)
Theorem C52_skipped_segment_refuted : exists r, integrateProduct 1 sg (monomialIntegrate 1) (-1) 2 = Ok r /\ r = 7 / 3 /\
  is_RInt (fun t => cut xg (fun t => t) t * t ^ 1) (-1) 2 3.
Proof.
  assert (Hn : (2 <= alen xg)%Z) by (cbn; lia). pose proof (monomial_integrates 1 ltac:(lia)) as HI. change (Z.to_nat 1) with 1%nat in HI.
  destruct (spline_any 1 sg _ sg_spline Hn sg_computes) as (_ & HP).
  assert (X0 : x_first xg = -1) by reflexivity. assert (X2 : x_last xg = 2) by reflexivity.
  assert (J1 : forall p q, is_RInt (fun t => t ^ 1 * t) p q ((q ^ 3 - p ^ 3) / 3)).
  { intros p q. apply (RI_ext (fun t => t ^ 1 * t ^ Z.to_nat 1)); [intros; change (Z.to_nat 1) with 1%nat; rewrite !pow_1; reflexivity|]. eapply RI_val; [apply (HI p q 1%Z); lia|]. unfold monomialIntegrate. cbn [Z.add Z.to_nat Pos.add Pos.succ Pos.to_nat Pos.iter_op Nat.add]. reflexivity. }
  exists (7 / 3). split; [|split; [reflexivity|]].
  - change 1%Z with (Z.of_nat 1) at 1. rewrite (prod_core 1 sg (monomialIntegrate 1) Hn). rewrite Rle_b_t by lra. unfold prodCore. cbv zeta. cbn [i_x sg linI l_x].
    rewrite X0, X2, Rmax_left, Rmin_left by lra. rewrite Rle_b_f by lra.
    destruct (segRange_ok xg xg_inc Hn (-1) 2) as (i1 & i2 & E & H1 & H2 & P1 & P2); [rewrite X0; lra|lra|rewrite X2; lra|]. rewrite E. cbn [bind fst snd]. cbn [alen xg] in H2.
    assert (E1 : i1 = 0%Z). { assert (i1 = 0 \/ i1 = 1)%Z as [-> | ->] by lia; [reflexivity|]. cbn in P1. lra. }
    assert (E2 : i2 = 2%Z). { assert (i2 = 1 \/ i2 = 2)%Z as [-> | ->] by lia; [|reflexivity]. cbn in P2. lra. }
    subst i1 i2.
    assert (Hseg : false = false -> forall i, (0 <= i < 2)%Z -> Rmax (-1) (afn xg i) <= Rmin 2 (afn xg (i + 1)%Z)).
    { intros _ i Hi. assert (i = 0 \/ i = 1)%Z as [-> | ->] by lia; cbn; [rewrite Rmax_left, Rmin_right by lra|rewrite Rmax_right, Rmin_right by lra]; lra. }
    rewrite (segs_ok 1 false sg (fun t => t) (fun y => y ^ 1) (monomialIntegrate 1) 0 (-1) 2 2 xg_inc ltac:(cbn; lia) sg_computes HP HI Hseg). f_equal.
    unfold zsum. change (Z.to_nat (2 - 0)) with 2%nat. cbn [zsumn]. unfold Q, J, SplIntProofs3.tl, th, Sf. cbn [i_x sg linI l_x afn xg Z.add Z.eqb Pos.eqb Pos.add Pos.succ].
    rewrite (Rmax_left (-1) (-1)), (Rmin_right 2 1), (Rmax_right (-1) 1), (Rmin_right 2 2) by lra.
    assert (QQ : forall p q, monomialIntegrate 1 p q 0 = (q ^ 2 - p ^ 2) / 2) by reflexivity. assert (Q0 : monomialIntegrate 1 (-1) 1 0 = 0) by (rewrite QQ; field). assert (Q1 : monomialIntegrate 1 1 2 0 = 3 / 2) by (rewrite QQ; field). rewrite Q0, Q1.
    assert (D : 0 < deps) by (unfold deps; apply Rinv_0_lt_compat, pow_lt; lra).
    rewrite Rabs_R0, (Rabs_pos_eq (3 / 2)), (Rabs_pos_eq (0 + _)) by lra. rewrite Rlt_b_t by nra.
    rewrite Rlt_b_f; [rewrite (RI_unique _ _ _ _ (J1 1 2)); field|].
    assert (deps <= 1). { unfold deps. rewrite <- Rinv_1. apply Rinv_le_contravar; [lra|]. apply pow_R1_Rle. lra. }
    nra.
  - apply (cut_RInt xg xg_inc Hn (fun t => t) (fun t => t ^ 1)); [lra| |]; rewrite X0, X2, Rmax_left, Rmin_left by lra; [intros _|intros; lra].
    eapply RI_ext; [|eapply RI_val; [apply (J1 (-1) 2)|field]]. intros; apply Rmult_comm.
Qed.

(** ---- the hypotheses are met ---- *)
(** the exact rules with one and two points *)
Definition gl2 : gltab := mkGL
  (fun n k => if (n =? 1)%Z then / 2 else if (k =? 0)%Z then (1 - / sqrt 3) / 2 else (1 + / sqrt 3) / 2)
  (fun n k => if (n =? 1)%Z then 1 else / 2).
Lemma isq3 : / sqrt 3 * / sqrt 3 = / 3 /\ 0 < / sqrt 3 < 1.
Proof.
  pose proof (sqrt_sqrt 3 ltac:(lra)) as E. assert (1 < sqrt 3) by (rewrite <- sqrt_1; apply sqrt_lt_1; lra). split; [rewrite <- Rinv_mult, E; reflexivity|].
  split; [apply Rinv_0_lt_compat; lra|]. rewrite <- Rinv_1. apply Rinv_lt_contravar; lra.
Qed.
Example gl2_exact : rule_exact gl2 1 /\ rule_exact gl2 2.
Proof.
  destruct isq3 as (Q2 & Q1). set (q := / sqrt 3) in *. split.
  - split; [intros j Hj; cbn; lra|]. intros k Hk. assert (k = 0 \/ k = 1)%nat as [-> | ->] by lia; unfold zsum; change (Z.to_nat (1 - 0)) with 1%nat; cbn; match goal with |- Rabs ?e <= 0 => replace e with 0 by field end; rewrite Rabs_R0; lra.
  - split; [intros j Hj; cbn; fold q; destruct (j =? 0)%Z; lra|]. intros k Hk. assert (Q3 : q * q * q = / 3 * q) by (rewrite Q2; reflexivity).
    assert (k = 0 \/ k = 1 \/ k = 2 \/ k = 3)%nat as [->|[->|[-> | ->]]] by lia; unfold zsum; change (Z.to_nat (2 - 0)) with 2%nat; cbn; fold q; match goal with |- Rabs ?e <= 0 => replace e with 0; [rewrite Rabs_R0; lra|] end; [field|field| |].
    + replace (_ - _) with ((q * q - / 3) / 4) by field. rewrite Q2. field.
    + replace (_ - _) with ((q * q - / 3) * 3 / 8) by field. rewrite Q2. field.
Qed.
(** the integral of the interpolator above, times t, over a part of its grid, with an exact rule *)
Example sg_integral : exists r, integratePower gl2 1 sg 0 5 1 = Ok r /\ is_RInt (fun t => cut xg (fun t => t) t * t ^ 1) 0 5 r.
Proof. exact (C52_integrate_power_exact_rule gl2 1 sg _ 1 0 5 sg_spline ltac:(cbn; lia) sg_computes ltac:(lia) ltac:(cbn; lia) (proj2 gl2_exact)). Qed.
Example sg_integral_tab : exists r I, integratePower glTab 1 sg 0 5 1 = Ok r /\ is_RInt (fun t => cut xg (fun t => t) t * t ^ 1) 0 5 I.
Proof. destruct (C52_integrate_power 1 sg _ 1 0 5 sg_spline ltac:(cbn; lia) sg_computes ltac:(lia) ltac:(cbn; lia)) as (r & I & c & E & HI & _). exists r, I. auto. Qed.
Example sg_fnc_hyp : Rmax (Rmin 0 5) (x_first (i_x sg)) < afn (i_x sg) 1%Z /\ integrates (fun y => y ^ 0) (monomialIntegrate 0).
Proof. split; [cbn; rewrite Rmin_left, Rmax_left; unfold x_first; cbn; lra|]. exact (monomial_integrates 0 ltac:(lia)). Qed.
Example sg_UB : integrateProduct 1 sg (monomialIntegrate 0) 1 2 = UB.
Proof.
  apply (C52_integrate_fnc_refuted 1 sg (fun t => t) (fun y => y ^ 0)); [apply sg_spline|cbn; lia|apply sg_computes|exact (monomial_integrates 0 ltac:(lia))| |].
  - rewrite Rmin_left by lra. cbn. lra.
  - cbn. unfold x_last. cbn. rewrite (Rmin_left 1 2), (Rmax_right 1 2), Rmin_left by lra. lra.
Qed.

Print Assumptions C52_pieces.
Print Assumptions C52_integrate_power.
Print Assumptions C52_integrate_power_exact_rule.
Print Assumptions C52_integrate_trivial.
Print Assumptions C52_integrate_fnc_partial.
Print Assumptions C52_integrate_fnc_refuted.
Print Assumptions C52_high_power_refuted.
Print Assumptions C52_convolve.
Print Assumptions C52_vandermonde.
Print Assumptions C52_skipped_segment_refuted.
