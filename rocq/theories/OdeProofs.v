From Coq Require Import Reals Lra Lia QArith Qreals List Bool FunctionalExtensionality.
From Coquelicot Require Import Coquelicot.
From Verif Require Import RandReal PolyModel PolyProofs OdeModel OdeSpec.
Import ListNotations.
Local Open Scope R_scope.

Lemma Req_b_ti x y : Req_b x y = true -> x = y. Proof. unfold Req_b. destruct (Req_EM_T x y); congruence. Qed.
Lemma Req_b_fi x y : Req_b x y = false -> x <> y. Proof. unfold Req_b. destruct (Req_EM_T x y); congruence. Qed.
Lemma Rlt_b_ti x y : Rlt_b x y = true -> x < y. Proof. unfold Rlt_b. destruct (Rlt_dec x y); congruence. Qed.
Lemma Rle_b_ti x y : Rle_b x y = true -> x <= y. Proof. unfold Rle_b. destruct (Rle_dec x y); congruence. Qed.
Lemma Rle_b_fi x y : Rle_b x y = false -> y < x. Proof. unfold Rle_b. destruct (Rle_dec x y); intros; [discriminate|lra]. Qed.
Lemma le_div a b c : 0 < c -> a * c <= b -> a <= b / c.
Proof. intros H1 H2. apply Rmult_le_reg_r with c; [assumption|]. replace (b / c * c) with b by (field; lra). assumption. Qed.
Lemma lt_div a b c : 0 < c -> a * c < b -> a < b / c.
Proof. intros H1 H2. apply Rmult_lt_reg_r with c; [assumption|]. replace (b / c * c) with b by (field; lra). assumption. Qed.
Lemma div_le a b c : 0 < c -> a <= b * c -> a / c <= b.
Proof. intros H1 H2. apply Rmult_le_reg_r with c; [assumption|]. replace (a / c * c) with a by (field; lra). assumption. Qed.
Lemma vsum_nonneg N f : (forall i, (i < N)%nat -> 0 <= f i) -> 0 <= vsum N f.
Proof. induction N; simpl; intros H; [lra|]. assert (0 <= vsum N f) by (apply IHN; intros; apply H; lia). assert (0 <= f N) by (apply H; lia). lra. Qed.
Lemma vsum_le N f g : (forall i, (i < N)%nat -> f i <= g i) -> vsum N f <= vsum N g.
Proof. induction N; simpl; intros H; [lra|]. assert (vsum N f <= vsum N g) by (apply IHN; intros; apply H; lia). assert (f N <= g N) by (apply H; lia). lra. Qed.
Lemma vsum_ext N f g : (forall i, (i < N)%nat -> f i = g i) -> vsum N f = vsum N g.
Proof. induction N; simpl; intros H; [lra|]. rewrite IHN by (intros; apply H; lia). rewrite H by lia. reflexivity. Qed.
Lemma vsum_scal N c f : vsum N (fun i => c * f i) = c * vsum N f.
Proof. induction N; simpl; [ring|]. rewrite IHN. ring. Qed.
Lemma vsum_plus N f g : vsum N (fun i => f i + g i) = vsum N f + vsum N g.
Proof. induction N; simpl; [ring|]. rewrite IHN. ring. Qed.
Lemma vsum_abs N f : Rabs (vsum N f) <= vsum N (fun i => Rabs (f i)).
Proof. induction N; simpl; [rewrite Rabs_R0; lra|]. eapply Rle_trans; [apply Rabs_triang|]. lra. Qed.

(** the initial timestep *)
Lemma hclamp_range v : HMIN <= hclamp v <= HMAX.
Proof.
  assert (H : HMIN < HMAX). { unfold HMIN, HMAX. lra. }
  unfold hclamp. destruct v; simpl.
  - rewrite Rmax_right by lra. lra.
  - rewrite Rmax_right by lra. lra.
  - split. { apply Rmax_l. } apply Rmax_lub; [lra|apply Rmin_l].
Qed.
Lemma initTimeStep_range N rhs t x accAbs pw : HMIN <= initTimeStep N rhs t x accAbs pw <= HMAX.
Proof. apply hclamp_range. Qed.

(** the error estimate *)
Lemma errEst_nonneg N accFac accRel accAbs t x h s : 0 <= errEst N accFac accRel accAbs t x h s.
Proof.
  unfold errEst. match goal with |- 0 <= (if Req_b ?d 0 then 0 else ?e5 * _ / _) => set (den := d) end.
  destruct (Req_b den 0) eqn:E; [lra|]. apply Req_b_fi in E.
  assert (0 <= den) by apply sqrt_pos. apply Rmult_le_pos; [apply Rmult_le_pos; [|apply Rabs_pos]|left; apply Rinv_0_lt_compat; lra].
  apply vsum_nonneg. intros i _. destruct (Req_b _ 0); [lra|]. apply Rle_0_sqr.
Qed.

Lemma root8_pos e : 1 < e -> 1 < root8 e.
Proof.
  intros H. unfold root8. assert (K : forall y, 1 < y -> 1 < sqrt y). { intros y Hy. rewrite <- sqrt_1. apply sqrt_lt_1; lra. }
  apply K, K, K, H.
Qed.
Lemma root8_le1 e : 0 <= e <= 1 -> 0 <= root8 e <= 1.
Proof.
  intros H. unfold root8. assert (K : forall y, 0 <= y <= 1 -> 0 <= sqrt y <= 1). { intros y Hy. split. { apply sqrt_pos. } rewrite <- sqrt_1. apply sqrt_le_1; lra. }
  apply K, K, K, H.
Qed.
Lemma root8_nonneg e : 0 <= root8 e. Proof. apply sqrt_pos. Qed.
Lemma grow_range fac : 0 <= fac -> 0 < grow fac <= 6.
Proof.
  intros H. unfold grow. destruct (Req_b fac 0) eqn:E. { unfold finc. lra. }
  apply Req_b_fi in E. assert (0 < safe / fac). { apply Rdiv_lt_0_compat; unfold safe; lra. }
  unfold finc. split. { apply Rmin_glb_lt; lra. } apply Rmin_l.
Qed.
Lemma grow_small fac : 0 <= fac <= 1 -> 0.9 <= grow fac.
Proof.
  intros H. unfold grow, finc, safe. destruct (Req_b fac 0) eqn:E. { lra. } apply Req_b_fi in E.
  apply Rmin_glb. { lra. } apply le_div. { lra. } nra.
Qed.
Lemma shrink_range fac : 1 < fac -> 0.333 <= Rmax fdec (safe / fac) <= 0.9.
Proof.
  intros H. unfold fdec, safe. split. { apply Rmax_l. } apply Rmax_lub. { lra. } apply div_le. { lra. } nra.
Qed.

(** the loop, for an automatic timestep *)
Section Loop.
Variables (err : R -> R).
Hypothesis Herr : forall h, 0 <= err h.

Definition chain4 (h : R) : Prop :=
  exists h1 h2 h3 h4, Rabs h < Rabs h1 /\ Rabs h1 < Rabs h2 /\ Rabs h2 < Rabs h3 /\ Rabs h3 < Rabs h4 /\
    err h1 < 2 * err h /\ err h2 < 2 * err h1 /\ err h3 < 2 * err h2 /\ err h4 < 2 * err h3.

(* the previous trials *)
Fixpoint prev (k : nat) (h : R) (e : R) : Prop :=
  match k with
  | O => exists h1, Rabs h < Rabs h1 /\ e = err h1
  | S k => exists h1, Rabs h < Rabs h1 /\ e = err h1 /\ exists e', e' < 2 * e /\ prev k h1 e'
  end.

Lemma prev_abs k h h' e : Rabs h' <= Rabs h -> prev k h e -> prev k h' e.
Proof. destruct k; simpl. - intros H (h1 & A & B). exists h1. split; [lra|assumption]. - intros H (h1 & A & B). exists h1. split; [lra|assumption]. Qed.

Lemma loop_auto fuel : forall nbad pe h, h <> 0 -> (nbad <= 3)%nat -> match pe with None => nbad = O | Some e => prev nbad h e end ->
  match dopLoop fuel err false nbad pe h with
  | Accept h' next => h' <> 0 /\ 0 < h' * h /\ Rabs h' <= Rabs h /\ 0.9 * Rabs h' <= next <= 6 * Rabs h' /\
      (err h' <= 1 /\ next = Rabs h' * grow (root8 (err h')) \/ 1 < err h' /\ next = Rabs h' /\ chain4 h')
  | Zero => False
  | OutOfFuel => True
  end.
Proof.
  induction fuel; intros nbad pe h Hh Hb Hp; cbn [dopLoop]; [exact Logic.I|].
  destruct (Req_b h 0) eqn:E0. { apply Req_b_ti in E0. contradiction. }
  assert (Ha : 0 < Rabs h) by (apply Rabs_pos_lt; exact Hh).
  assert (Hhh : 0 < h * h) by nra.
  assert (Rec : forall nbad' fac, (nbad' <= 3)%nat -> 1 < fac -> prev nbad' (h * Rmax fdec (safe / fac)) (err h) ->
    match dopLoop fuel err false nbad' (Some (err h)) (h * Rmax fdec (safe / fac)) with
    | Accept h' next => h' <> 0 /\ 0 < h' * h /\ Rabs h' <= Rabs h /\ 0.9 * Rabs h' <= next <= 6 * Rabs h' /\
      (err h' <= 1 /\ next = Rabs h' * grow (root8 (err h')) \/ 1 < err h' /\ next = Rabs h' /\ chain4 h')
    | Zero => False | OutOfFuel => True end).
  { intros nb' fac Hnb Hf Hpr. pose proof (shrink_range _ Hf) as Hs. set (f := Rmax fdec (safe / fac)) in *.
    assert (Hnz : h * f <> 0). { apply Rmult_integral_contrapositive_currified; lra. }
    specialize (IHfuel nb' (Some (err h)) (h * f) Hnz Hnb Hpr). destruct (dopLoop fuel err false nb' (Some (err h)) (h * f)); auto.
    destruct IHfuel as (A & B & C & D & E). split; [exact A|]. split. { assert (0 < f) by lra. apply Rmult_lt_reg_r with f; [lra|]. nra. }
    split. { rewrite Rabs_mult, (Rabs_right f) in C by lra. nra. } split; assumption. }
  destruct (Rle_b (err h) 1) eqn:E1; cbn [orb].
  - apply Rle_b_ti in E1. split; [exact Hh|]. split; [exact Hhh|]. split; [lra|].
    pose proof (root8_le1 (err h) (conj (Herr h) E1)) as R8. pose proof (grow_range (root8 (err h)) (proj1 R8)). pose proof (grow_small _ R8).
    split. { split; [rewrite Rmult_comm; apply Rmult_le_compat_l; lra|rewrite Rmult_comm; apply Rmult_le_compat_r; lra]. }
    left. split; [exact E1|reflexivity].
  - apply Rle_b_fi in E1. pose proof (root8_pos (err h) E1) as R8.
    assert (Sh : forall fac, 1 < fac -> Rabs (h * Rmax fdec (safe / fac)) < Rabs h).
    { intros fac Hf. pose proof (shrink_range _ Hf). rewrite Rabs_mult, (Rabs_right (Rmax _ _)) by lra. nra. }
    destruct pe as [p|].
    + destruct (Rlt_b (0.5 * p) (err h)) eqn:E2.
      * apply Rlt_b_ti in E2. destruct (Nat.leb 4 (S nbad)) eqn:E4.
        { apply Nat.leb_le in E4. assert (nbad = 3%nat) as -> by lia. split; [exact Hh|]. split; [exact Hhh|]. split; [lra|]. split; [lra|].
          right. split; [exact E1|]. split; [reflexivity|]. simpl in Hp.
          destruct Hp as (h1 & A1 & -> & e2 & B1 & h2 & A2 & -> & e3 & B2 & h3 & A3 & -> & e4 & B3 & h4 & A4 & ->).
          exists h1, h2, h3, h4. repeat (split; [lra|]). lra. }
        apply Nat.leb_gt in E4.
        assert (Hf : 1 < (if Nat.leb 2 (S nbad) then 1 / fdec else root8 (err h))).
        { destruct (Nat.leb 2 (S nbad)); [|exact R8]. unfold fdec. apply lt_div; lra. }
        apply Rec; [lia|exact Hf|].
        assert (P : prev nbad h p) by exact Hp.
        exists h. split; [apply Sh; exact Hf|]. split; [reflexivity|]. exists p. split; [lra|exact P].
      * apply Rec; [lia|exact R8|]. exists h. split; [apply Sh; exact R8|reflexivity].
    + apply Rec; [lia|exact R8|]. exists h. split; [apply Sh; exact R8|reflexivity].
Qed.

(** termination: if the error estimate is not above 1 for short timesteps *)
Lemma loop_ends h0 : 0 < h0 -> (forall h, h <> 0 -> Rabs h <= h0 -> err h <= 1) ->
  forall n h nbad pe, h <> 0 -> Rabs h * 0.9 ^ n <= h0 -> dopLoop (S n) err false nbad pe h <> OutOfFuel.
Proof.
  intros H0 Hs. induction n as [|n IH]; intros h nbad pe Hh Hb.
  - simpl in Hb. cbn [dopLoop]. destruct (Req_b h 0); [discriminate|]. rewrite (proj2 (Rle_b_spec (err h) 1)). { cbn [orb]. discriminate. } apply Hs; [exact Hh|lra].
  - assert (Rec : forall nbad' pe' fac, 1 < fac -> dopLoop (S n) err false nbad' pe' (h * Rmax fdec (safe / fac)) <> OutOfFuel).
    { intros nb' pe' fac Hf. pose proof (shrink_range _ Hf) as Hr. apply IH.
      - apply Rmult_integral_contrapositive_currified; lra.
      - rewrite Rabs_mult, (Rabs_right (Rmax _ _)) by lra. simpl in Hb. pose proof (Rabs_pos h). assert (0 <= 0.9 ^ n) by (apply pow_le; lra). 
        assert (Rabs h * Rmax fdec (safe / fac) <= Rabs h * 0.9) by nra. nra. }
    remember (S n) as m eqn:Em. cbn [dopLoop]. destruct (Req_b h 0); [discriminate|].
    destruct (Rle_b (err h) 1) eqn:E1; cbn [orb]; [discriminate|]. apply Rle_b_fi in E1. pose proof (root8_pos (err h) E1) as R8.
    destruct pe as [p|]; [destruct (Rlt_b (0.5 * p) (err h))|].
    + destruct (Nat.leb 4 (S nbad)); [discriminate|]. apply Rec. destruct (Nat.leb 2 (S nbad)); [|exact R8]. unfold fdec. apply lt_div; lra.
    + apply Rec. exact R8.
    + apply Rec. exact R8.
Qed.
End Loop.

(** ** dense output *)
Definition hn (a1 a2 a3 a4 a5 a6 a7 p : R) : R := p * (a1 + (1 - p) * (a2 + p * (a3 + (1 - p) * (a4 + p * (a5 + (1 - p) * (a6 + p * a7)))))).
Definition dpoly (s : dop) (i : nat) (t : R) : R :=
  d_rc1 s i + hn (d_rc2 s i) (d_rc3 s i) (d_rc4 s i) (d_rc5 s i) (d_rc6 s i) (d_rc7 s i) (d_rc8 s i) ((t - d_timePrev s) / (d_time s - d_timePrev s)).
Lemma getSol_dpoly N s t i : (i < N)%nat -> d_time s <> d_timePrev s -> d_rc2 s i = d_x s i - d_rc1 s i -> dopGetSol N s t i = Some (dpoly s i t).
Proof.
  intros Hi Ht Hr. unfold dopGetSol. rewrite (proj2 (Nat.leb_gt N i) Hi). destruct (Req_b t (d_time s)) eqn:E1.
  - apply Req_b_ti in E1. subst t. f_equal. unfold dpoly. replace ((d_time s - d_timePrev s) / (d_time s - d_timePrev s)) with 1 by (field; lra). unfold hn. rewrite Hr. ring.
  - destruct (Req_b t (d_timePrev s)) eqn:E2.
    + apply Req_b_ti in E2. subst t. f_equal. unfold dpoly. replace ((d_timePrev s - d_timePrev s) / (d_time s - d_timePrev s)) with 0 by (field; lra). unfold hn. ring.
    + reflexivity.
Qed.
Definition hn' (a1 a2 a3 a4 a5 a6 a7 p : R) : R :=
  let f6 := a6 + p * a7 in let f6' := a7 in
  let f5 := a5 + (1 - p) * f6 in let f5' := - f6 + (1 - p) * f6' in
  let f4 := a4 + p * f5 in let f4' := f5 + p * f5' in
  let f3 := a3 + (1 - p) * f4 in let f3' := - f4 + (1 - p) * f4' in
  let f2 := a2 + p * f3 in let f2' := f3 + p * f3' in
  let f1 := a1 + (1 - p) * f2 in let f1' := - f2 + (1 - p) * f2' in
  f1 + p * f1'.
Lemma hn_derive a1 a2 a3 a4 a5 a6 a7 p : is_derive (hn a1 a2 a3 a4 a5 a6 a7) p (hn' a1 a2 a3 a4 a5 a6 a7 p).
Proof. unfold hn, hn'. auto_derive; [exact Logic.I|]. ring. Qed.
Lemma dpoly_derive s i t : d_time s <> d_timePrev s ->
  is_derive (dpoly s i) t (hn' (d_rc2 s i) (d_rc3 s i) (d_rc4 s i) (d_rc5 s i) (d_rc6 s i) (d_rc7 s i) (d_rc8 s i) ((t - d_timePrev s) / (d_time s - d_timePrev s)) / (d_time s - d_timePrev s)).
Proof.
  intros Ht. unfold dpoly. set (D := d_time s - d_timePrev s). assert (D <> 0) by (unfold D; lra).
  set (g := hn _ _ _ _ _ _ _). set (p := (t - d_timePrev s) / D). set (g' := hn' _ _ _ _ _ _ _ p).
  replace (g' / D) with (plus 0 (scal (/ D) g')) by (unfold plus, scal; simpl; unfold mult; simpl; field; assumption).
  apply (@is_derive_plus R_AbsRing R_NormedModule (fun _ => d_rc1 s i) (fun t => g ((t - d_timePrev s) / D)) t). { apply @is_derive_const. }
  apply (@is_derive_comp R_AbsRing R_NormedModule g (fun t => (t - d_timePrev s) / D)). { apply hn_derive. }
  auto_derive; [exact Logic.I|]. field. assumption.
Qed.

Lemma finish_fields rhs s h next : let s' := dopFinish rhs s h next in
  d_time s' = d_time s + h /\ d_timePrev s' = d_time s /\ d_next s' = next /\ d_x s' = s_xt (rkStages rhs (d_time s) (d_x s) (d_k1 s) h) /\
  d_k1 s' = rhs (d_time s') (d_x s') /\ d_rc1 s' = d_x s /\ (forall i, d_rc2 s' i = d_x s' i - d_x s i) /\ (forall i, d_rc3 s' i = h * d_k1 s i - (d_x s' i - d_x s i)) /\
  (forall i, d_rc4 s' i = d_x s' i - d_x s i - h * d_k1 s' i - d_rc3 s' i).
Proof. cbv zeta. unfold dopFinish. cbn [d_time d_timePrev d_next d_x d_k1 d_rc1 d_rc2 d_rc3 d_rc4]. repeat split. Qed.

Lemma finish_dense N rhs s h next i t : (i < N)%nat -> h <> 0 -> dopGetSol N (dopFinish rhs s h next) t i = Some (dpoly (dopFinish rhs s h next) i t).
Proof.
  intros Hi Hh. destruct (finish_fields rhs s h next) as (A & B & _ & _ & _ & E & F & _).
  apply getSol_dpoly; [exact Hi| |]. { rewrite A, B. lra. } rewrite F, E. reflexivity.
Qed.
Lemma finish_derive rhs s h next i : h <> 0 ->
  let s' := dopFinish rhs s h next in
  is_derive (dpoly s' i) (d_time s) (d_k1 s i) /\ is_derive (dpoly s' i) (d_time s') (d_k1 s' i) /\ forall t, ex_derive (dpoly s' i) t.
Proof.
  intros Hh s'. destruct (finish_fields rhs s h next) as (A & B & _ & _ & _ & E & F & G & H). fold s' in A, B, E, F, G, H.
  assert (Ht : d_time s' <> d_timePrev s') by (rewrite A, B; lra). split; [|split].
  - pose proof (dpoly_derive s' i (d_time s) Ht) as D. match type of D with is_derive _ _ ?v => replace v with (d_k1 s i) in D; [exact D|] end.
    rewrite A, B. replace ((d_time s - d_time s) / (d_time s + h - d_time s)) with 0 by (field; lra). unfold hn'. rewrite G, F. field. lra.
  - pose proof (dpoly_derive s' i (d_time s') Ht) as D. match type of D with is_derive _ _ ?v => replace v with (d_k1 s' i) in D; [exact D|] end.
    rewrite A, B. replace ((d_time s + h - d_time s) / (d_time s + h - d_time s)) with 1 by (field; lra). unfold hn'. rewrite H, G, F. field. lra.
  - intros t. eexists. apply dpoly_derive. exact Ht.
Qed.
