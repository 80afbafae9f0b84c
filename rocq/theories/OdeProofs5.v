From Coq Require Import Reals Lra Lia ZArith QArith Qreals List Bool FunctionalExtensionality.
From Coquelicot Require Import Coquelicot.
From Verif Require Import RandReal PolyModel PolyProofs OdeModel OdeProofs OdeProofs2 OdeProofs3 OdeSpec.
Import ListNotations.
Local Open Scope R_scope.

(** ** the timestep selection ends *)
Definition zabs_sum (l : list Q) : Z := fold_right (fun q s => (Z.abs (zs q) + s)%Z) 0%Z l.
Lemma lc_bound M i : 0 <= M -> forall l, forallb (fun p => zok (fst p)) l = true -> Forall (fun p => Rabs (snd p i) <= M) l -> Rabs (lc l i) <= IZR (zabs_sum (map fst l)) / SR * M.
Proof.
  intros HM l. pose proof SR_pos as SP. induction l as [|[q k] l IH]; intros Hz HF.
  - unfold lc. simpl. rewrite Rabs_R0. unfold Rdiv. rewrite !Rmult_0_l. lra.
  - cbn [forallb fst] in Hz. apply andb_prop in Hz. destruct Hz as [Hq Hz]. inversion HF as [|? ? H1 H2]; subst. cbn [snd] in H1. specialize (IH Hz H2).
    change (lc ((q, k) :: l) i) with (Q2R q * k i + lc l i). cbn [map fst zabs_sum fold_right]. fold (zabs_sum (map fst l)). rewrite plus_IZR, abs_IZR.
    eapply Rle_trans; [apply Rabs_triang|]. rewrite (zs_ok q Hq), Rabs_mult. unfold Rdiv at 1. rewrite Rabs_mult, (Rabs_right (/ SR)). 2:{ apply Rle_ge. left. apply Rinv_0_lt_compat. lra. }
    assert (0 <= Rabs (IZR (zs q)) * / SR). { apply Rmult_le_pos; [apply Rabs_pos|]. left. apply Rinv_0_lt_compat. lra. }
    replace ((Rabs (IZR (zs q)) + IZR (zabs_sum (map fst l))) / SR * M) with (Rabs (IZR (zs q)) * / SR * M + IZR (zabs_sum (map fst l)) / SR * M) by (field; lra).
    apply Rplus_le_compat; [|exact IH]. apply Rmult_le_compat_l; assumption.
Qed.
Lemma lc_bound' M i B l : 0 <= M -> forallb (fun p => zok (fst p)) l = true -> Forall (fun p => Rabs (snd p i) <= M) l -> (zabs_sum (map fst l) <=? B * SC)%Z = true -> Rabs (lc l i) <= IZR B * M.
Proof.
  intros HM Hz HF HB. apply Z.leb_le, IZR_le in HB. rewrite mult_IZR in HB. fold SR in HB. pose proof SR_pos.
  eapply Rle_trans; [apply (lc_bound M i HM l Hz HF)|]. apply Rmult_le_compat_r; [exact HM|]. apply div_le; assumption.
Qed.

Section Term.
Variables (N : nat) (rhs : R -> vec -> vec) (accFac : R -> vec -> R) (accRel accAbs t0 : R) (x k1 : vec) (delta M : R).
Hypothesis Hd : 0 < delta.
Hypothesis HM : 0 <= M.
Hypothesis Hb : forall t y, Rabs (t - t0) <= delta -> (forall i, (i < N)%nat -> Rabs (y i - x i) <= delta) -> forall i, (i < N)%nat -> Rabs (rhs t y i) <= M.
Hypothesis Hk1 : forall i, (i < N)%nat -> Rabs (k1 i) <= M.

Lemma stage_bound h c l : Rabs h <= delta -> Rabs h * (100 * M) <= delta -> (Z.abs (zs c) <=? SC)%Z = true -> zok c = true ->
  forallb (fun p => zok (fst p)) l = true -> (zabs_sum (map fst l) <=? 100 * SC)%Z = true ->
  (forall i, (i < N)%nat -> Forall (fun p => Rabs (snd p i) <= M) l) ->
  forall i, (i < N)%nat -> Rabs (rhs (t0 + Q2R c * h) (fun i => x i + h * lc l i) i) <= M.
Proof.
  intros H1 H2 Hc Hc' Hz HB HF i Hi. apply Hb; [| |exact Hi].
  - replace (t0 + Q2R c * h - t0) with (Q2R c * h) by ring. rewrite Rabs_mult, (zs_ok c Hc'). apply Z.leb_le, IZR_le in Hc. rewrite abs_IZR in Hc. fold SR in Hc. pose proof SR_pos.
    unfold Rdiv. rewrite Rabs_mult, (Rabs_right (/ SR)). 2:{ apply Rle_ge. left. apply Rinv_0_lt_compat. lra. }
    assert (Rabs (IZR (zs c)) * / SR <= 1). { change (?a * / ?b) with (a / b). apply div_le; lra. }
    assert (0 <= Rabs (IZR (zs c)) * / SR). { apply Rmult_le_pos; [apply Rabs_pos|]. left. apply Rinv_0_lt_compat. lra. }
    pose proof (Rabs_pos h). nra.
  - intros j Hj. replace (x j + h * lc l j - x j) with (h * lc l j) by ring. rewrite Rabs_mult.
    pose proof (lc_bound' M j 100 l HM Hz (HF j Hj) HB). pose proof (Rabs_pos h). nra.
Qed.
Lemma stages_bound h : Rabs h <= delta -> Rabs h * (100 * M) <= delta -> let s := rkStages rhs t0 x k1 h in
  forall i, (i < N)%nat -> Rabs (s_k1 s i) <= M /\ Rabs (s_k6 s i) <= M /\ Rabs (s_k7 s i) <= M /\ Rabs (s_k8 s i) <= M /\ Rabs (s_k9 s i) <= M /\ Rabs (s_k10 s i) <= M /\ Rabs (s_k11 s i) <= M /\ Rabs (s_k12 s i) <= M.
Proof.
  intros H1 H2. cbv zeta. unfold rkStages.
  Ltac sb := apply stage_bound; [assumption|assumption|vm_compute; reflexivity|vm_compute; reflexivity|vm_compute; reflexivity|vm_compute; reflexivity|];
    intros ?j ?Hj; repeat (apply Forall_cons; [cbn [snd]; auto|]); apply Forall_nil.
  set (k2 := rhs (t0 + Q2R c2 * h) _). assert (B2 : forall i, (i < N)%nat -> Rabs (k2 i) <= M) by sb.
  set (k3 := rhs (t0 + Q2R c3 * h) _). assert (B3 : forall i, (i < N)%nat -> Rabs (k3 i) <= M) by sb.
  set (k4 := rhs (t0 + Q2R c4 * h) _). assert (B4 : forall i, (i < N)%nat -> Rabs (k4 i) <= M) by sb.
  set (k5 := rhs (t0 + Q2R c5 * h) _). assert (B5 : forall i, (i < N)%nat -> Rabs (k5 i) <= M) by sb.
  set (k6 := rhs (t0 + Q2R c6 * h) _). assert (B6 : forall i, (i < N)%nat -> Rabs (k6 i) <= M) by sb.
  set (k7 := rhs (t0 + Q2R c7 * h) _). assert (B7 : forall i, (i < N)%nat -> Rabs (k7 i) <= M) by sb.
  set (k8 := rhs (t0 + Q2R c8 * h) _). assert (B8 : forall i, (i < N)%nat -> Rabs (k8 i) <= M) by sb.
  set (k9 := rhs (t0 + Q2R c9 * h) _). assert (B9 : forall i, (i < N)%nat -> Rabs (k9 i) <= M) by sb.
  set (k10 := rhs (t0 + Q2R c10 * h) _). assert (B10 : forall i, (i < N)%nat -> Rabs (k10 i) <= M) by sb.
  set (k11 := rhs (t0 + Q2R c11 * h) _). assert (B11 : forall i, (i < N)%nat -> Rabs (k11 i) <= M) by sb.
  set (k12 := rhs (t0 + Q2R c12 * h) _). assert (B12 : forall i, (i < N)%nat -> Rabs (k12 i) <= M) by sb.
  cbn [s_k1 s_k6 s_k7 s_k8 s_k9 s_k10 s_k11 s_k12]. auto 20.
Qed.

Variables (s0 : R).
Hypothesis Hs0 : 0 < s0.
Hypothesis Hacc : 0 <= accRel.
Hypothesis Hsk : forall t y i, (i < N)%nat -> s0 <= (accAbs + accRel * Rabs (x i)) * accFac t y.
Hypothesis Haf : forall t y, 0 <= accFac t y.

Lemma err_bound h : Rabs h <= delta -> Rabs h * (100 * M) <= delta -> Rabs h * (5 * M) <= s0 -> errEst N accFac accRel accAbs t0 x h (rkStages rhs t0 x k1 h) <= 1.
Proof.
  intros H1 H2 H3. pose proof (stages_bound h H1 H2) as SB. cbv zeta in SB. set (st := rkStages rhs t0 x k1 h) in *. unfold errEst.
  set (sk := fun i => (accAbs + accRel * Rmax (Rabs (x i)) (Rabs (s_xt st i))) * accFac (t0 + h) (s_xt st)).
  assert (SK : forall i, (i < N)%nat -> s0 <= sk i).
  { intros i Hi. eapply Rle_trans; [apply (Hsk (t0 + h) (s_xt st) i Hi)|]. unfold sk. apply Rmult_le_compat_r; [apply Haf|].
    pose proof (Rmax_l (Rabs (x i)) (Rabs (s_xt st i))). nra. }
  set (e5 := vsum N _). set (e3 := vsum N _). set (den := sqrt (INR N * (e5 + 0.01 * e3))).
  assert (E3 : 0 <= e3). { apply vsum_nonneg. intros i _. destruct (Req_b _ 0); [lra|]. apply Rle_0_sqr. }
  assert (E5 : 0 <= e5 <= INR N * (5 * M / s0 * (5 * M / s0))).
  { split. { apply vsum_nonneg. intros i _. destruct (Req_b _ 0); [lra|]. apply Rle_0_sqr. }
    replace (INR N * (5 * M / s0 * (5 * M / s0))) with (vsum N (fun _ => 5 * M / s0 * (5 * M / s0))).
    2:{ clear. induction N; [simpl; ring|]. rewrite S_INR. cbn [vsum]. rewrite IHn. ring. }
    apply vsum_le. intros i Hi. specialize (SK i Hi). fold (sk i).
    assert (P0 : 0 <= 5 * M / s0). { apply Rmult_le_pos; [lra|]. left. apply Rinv_0_lt_compat. lra. }
    destruct (Req_b (sk i) 0). { nra. }
    assert (EV : Rabs (errVec5 st i) <= 5 * M).
    { apply (lc_bound' M i 5); [exact HM|vm_compute; reflexivity| |vm_compute; reflexivity].
      destruct (SB i Hi) as (A1 & A6 & A7 & A8 & A9 & A10 & A11 & A12). repeat (apply Forall_cons; [assumption|]). apply Forall_nil. }
    assert (AB : Rabs (errVec5 st i / sk i) <= 5 * M / s0).
    { unfold Rdiv. rewrite Rabs_mult, (Rabs_right (/ sk i)) by (apply Rle_ge; left; apply Rinv_0_lt_compat; lra). apply Rmult_le_compat; [apply Rabs_pos|left; apply Rinv_0_lt_compat; lra|exact EV|]. apply Rinv_le_contravar; lra. }
    rewrite <- (Rabs_right (errVec5 st i / sk i * (errVec5 st i / sk i))) by (apply Rle_ge, Rle_0_sqr). rewrite Rabs_mult. pose proof (Rabs_pos (errVec5 st i / sk i)). nra. }
  destruct (Req_b den 0) eqn:ED; [lra|]. apply Req_b_fi in ED. assert (D0 : 0 < den) by (pose proof (sqrt_pos (INR N * (e5 + 0.01 * e3))); unfold den in *; lra).
  apply div_le; [exact D0|]. rewrite Rmult_1_l.
  assert (HN : 0 <= INR N) by apply pos_INR.
  (* e5 |h| <= sqrt(N e5) since |h| sqrt(e5) <= sqrt N *)
  set (c := 5 * M / s0) in *. assert (Hhc : Rabs h * c <= 1). { unfold c. replace (Rabs h * (5 * M / s0)) with (Rabs h * (5 * M) / s0) by (field; lra). apply div_le; lra. }
  assert (C0 : 0 <= c). { unfold c. apply Rmult_le_pos; [lra|]. left. apply Rinv_0_lt_compat. lra. }
  apply Rle_trans with (sqrt (INR N * e5)). 2:{ apply sqrt_le_1_alt. nra. }
  rewrite <- (sqrt_Rsqr (e5 * Rabs h)) by (apply Rmult_le_pos; [lra|apply Rabs_pos]). apply sqrt_le_1_alt. unfold Rsqr.
  pose proof (Rabs_pos h). set (a := Rabs h) in *.
  replace (e5 * a * (e5 * a)) with (e5 * (e5 * (a * a))) by ring. rewrite (Rmult_comm (INR N)). apply Rmult_le_compat_l; [lra|].
  apply Rle_trans with (INR N * (c * c) * (a * a)). { apply Rmult_le_compat_r; [nra|lra]. }
  replace (INR N * (c * c) * (a * a)) with (INR N * ((a * c) * (a * c))) by ring.
  assert (0 <= a * c) by nra. assert (a * c * (a * c) <= 1) by nra. nra.
Qed.

Lemma err_bound_small : exists h0, 0 < h0 /\ forall h, Rabs h <= h0 -> errEst N accFac accRel accAbs t0 x h (rkStages rhs t0 x k1 h) <= 1.
Proof.
  exists (Rmin (delta / (1 + 100 * M)) (s0 / (1 + 5 * M))). split. { apply Rmin_glb_lt; apply Rdiv_lt_0_compat; lra. }
  intros h Hh. pose proof (Rmin_l (delta / (1 + 100 * M)) (s0 / (1 + 5 * M))). pose proof (Rmin_r (delta / (1 + 100 * M)) (s0 / (1 + 5 * M))). pose proof (Rabs_pos h).
  assert (A : Rabs h * (1 + 100 * M) <= delta). { apply Rle_trans with (delta / (1 + 100 * M) * (1 + 100 * M)). { apply Rmult_le_compat_r; lra. } right. field. lra. }
  assert (B : Rabs h * (1 + 5 * M) <= s0). { apply Rle_trans with (s0 / (1 + 5 * M) * (1 + 5 * M)). { apply Rmult_le_compat_r; lra. } right. field. lra. }
  apply err_bound; nra.
Qed.
End Term.

Lemma min_pos N (f : nat -> R) : (forall i, (i < N)%nat -> 0 < f i) -> exists m, 0 < m /\ forall i, (i < N)%nat -> m <= f i.
Proof.
  induction N; intros H. { exists 1. split; [lra|]. intros. lia. }
  destruct IHN as (m & A & B). { intros; apply H; lia. }
  exists (Rmin m (f N)). split. { apply Rmin_glb_lt; [exact A|apply H; lia]. }
  intros i Hi. destruct (Nat.eq_dec i N) as [->|]. { apply Rmin_r. } eapply Rle_trans; [apply Rmin_l|]. apply B. lia.
Qed.

Lemma step_ends N rhs accFac accRel accAbs af0 backward s : consistent rhs s -> locally_bounded N rhs (d_time s) (d_x s) ->
  0 < af0 -> (forall t y, af0 <= accFac t y) -> 0 <= accRel -> (forall i, (i < N)%nat -> 0 < accAbs + accRel * Rabs (d_x s i)) ->
  exists fuel, dopStep fuel N rhs accFac accRel accAbs (Auto backward) s <> None.
Proof.
  intros Hc (delta & M & Hd & Hb) Ha Haf Hr Hx. unfold dopStep.
  set (h := d_next s * (if backward then -1 else 1)).
  destruct (Req_EM_T h 0) as [E|Hh]. { exists 1%nat. cbn [dopLoop]. rewrite (Req_b_t h 0 E). discriminate. }
  destruct (min_pos N _ Hx) as (m & Hm & Hmi).
  assert (Hk : forall i, (i < N)%nat -> Rabs (d_k1 s i) <= Rmax 0 M).
  { intros i Hi. eapply Rle_trans; [|apply Rmax_r]. rewrite Hc. apply Hb; [| |exact Hi]; intros; rewrite Rminus_eq_0, Rabs_R0; lra. }
  destruct (err_bound_small N rhs accFac accRel accAbs (d_time s) (d_x s) (d_k1 s) delta (Rmax 0 M) Hd (Rmax_l 0 M)) with (s0 := m * af0) as (h0 & H0 & Hs).
  - intros t y Ht Hy i Hi. eapply Rle_trans; [|apply Rmax_r]. apply Hb; assumption.
  - exact Hk.
  - nra.
  - exact Hr.
  - intros t y i Hi. specialize (Haf t y). specialize (Hmi i Hi). nra.
  - intros t y. specialize (Haf t y). lra.
  - destruct (pow_lt_1_zero 0.9 ltac:(rewrite Rabs_right; lra) (h0 / (Rabs h + 1)) ltac:(apply Rdiv_lt_0_compat; [exact H0|pose proof (Rabs_pos h); lra])) as [n Hn].
    specialize (Hn n (le_n n)). rewrite Rabs_right in Hn by (apply Rle_ge, pow_le; lra). pose proof (Rabs_pos h).
    exists (S n). match goal with |- context [dopLoop (S n) ?err false 0 None h] => pose proof (loop_ends err h0 H0 (fun h' _ Hh' => Hs h' Hh') n h 0 None Hh) as K end.
    assert (P : Rabs h * 0.9 ^ n <= h0). { assert (0.9 ^ n * (Rabs h + 1) <= h0). { apply Rle_trans with (h0 / (Rabs h + 1) * (Rabs h + 1)). { apply Rmult_le_compat_r; lra. } right. field. lra. } assert (0 <= 0.9 ^ n) by (apply pow_le; lra). nra. }
    specialize (K P). cbv zeta. destruct (dopLoop _ _ _ _ _ _); [discriminate|discriminate|congruence].
Qed.

(** ** Hermite scheme *)
Lemma hermite_step_inv n eval accRel dt s r s' : hermiteStep n eval accRel dt s = Some (r, s') ->
  exists t, r <> 0 /\ t = hermiteTrial n eval accRel (h_time s) r (h_newpos s) (h_newvel s) (fst (eval (h_time s) (h_newpos s) (h_newvel s))) (snd (eval (h_time s) (h_newpos s) (h_newvel s))) /\
  h_time s' = h_time s + r /\ h_timePrev s' = h_time s /\ h_next s' = t_next t /\ h_oldpos s' = h_newpos s /\ h_oldvel s' = h_newvel s /\
  h_oldacc s' = fst (eval (h_time s) (h_newpos s) (h_newvel s)) /\ h_oldjrk s' = snd (eval (h_time s) (h_newpos s) (h_newvel s)) /\
  h_newacc s' = t_acc t /\ h_newjrk s' = t_jrk t /\ h_snap s' = t_snap t /\ h_crackle s' = t_crackle t /\
  (forall i, h_newvel s' i = h_oldvel s' i + 0.5 * r * (h_oldacc s' i + h_newacc s' i + 1/6 * r * (h_oldjrk s' i - h_newjrk s' i))) /\
  (forall i, h_newpos s' i = h_oldpos s' i + 0.5 * r * (h_oldvel s' i + h_newvel s' i + 1/6 * r * (h_oldacc s' i - h_newacc s' i))).
Proof.
  unfold hermiteStep. destruct (eval (h_time s) (h_newpos s) (h_newvel s)) as [acc jrk] eqn:EE. cbn [fst snd].
  assert (HLoop : forall try nl dt r t, hermiteLoop nl try dt = Some (r, t) -> r <> 0 /\ t = try r).
  { clear. intros try. induction nl; intros dt r t; simpl; destruct (Req_b dt 0) eqn:E0; try discriminate; apply Req_b_fi in E0.
    - destruct (t_next (try dt)); intros H; inversion H; subst; auto.
    - destruct (t_next (try dt)) as [| |nx]; try (intros H; inversion H; subst; auto; fail). destruct (Rlt_b nx (dt * 0.5)); [apply IHnl|]. intros H; inversion H; subst; auto. }
  match goal with |- context [match ?m with None => None | Some _ => _ end] => destruct m as [[ts nl]|]; [|discriminate] end.
  destruct (hermiteLoop nl _ ts) as [[r' t]|] eqn:EL; [|discriminate]. intros H. inversion H; subst r' s'; clear H.
  destruct (HLoop _ _ _ _ _ EL) as [A B]. exists t. split; [exact A|]. split; [exact B|]. repeat split.
Qed.

Definition hpos (s : hermite) (i : nat) (t : R) : R := let d := t - h_timePrev s in
  h_oldpos s i + d * (h_oldvel s i + d/2 * (h_oldacc s i + d/3 * (h_oldjrk s i + d/4 * (h_snap s i + d/5 * h_crackle s i)))).
Definition hvel (s : hermite) (i : nat) (t : R) : R := let d := t - h_timePrev s in
  h_oldvel s i + d * (h_oldacc s i + d/2 * (h_oldjrk s i + d/3 * (h_snap s i + d/4 * h_crackle s i))).
Lemma getSol_pos n s t i : (i < n)%nat -> hermiteGetSol n s t i = hpos s i t.
Proof. intros H. unfold hermiteGetSol. rewrite Nat.mod_small by exact H. rewrite (proj2 (Nat.ltb_lt i n) H). reflexivity. Qed.
Lemma getSol_vel n s t i k : (i < n)%nat -> (1 <= k)%nat -> hermiteGetSol n s t (k * n + i) = hvel s i t.
Proof.
  intros H Hk. unfold hermiteGetSol. rewrite Nat.add_comm, Nat.mod_add, Nat.mod_small by lia. replace (Nat.ltb (i + k * n) n) with false. { reflexivity. }
  symmetry. apply Nat.ltb_ge. nia.
Qed.
Lemma hpos_derive s i t : is_derive (hpos s i) t (hvel s i t).
Proof. unfold hpos, hvel. auto_derive; [exact Logic.I|]. field. Qed.
Lemma hvel_derive s i t : is_derive (hvel s i) t (h_oldacc s i + (t - h_timePrev s) * (h_oldjrk s i + (t - h_timePrev s) / 2 * (h_snap s i + (t - h_timePrev s) / 3 * h_crackle s i))).
Proof. unfold hvel. auto_derive; [exact Logic.I|]. field. Qed.

Lemma hermite_snap n eval accRel time dt pos vel acc jrk i : dt <> 0 -> let t := hermiteTrial n eval accRel time dt pos vel acc jrk in
  t_snap t i = - (4 * jrk i + 2 * t_jrk t i) / dt + 6 * (t_acc t i - acc i) / (dt * dt) /\ t_crackle t i = 6 * (jrk i + t_jrk t i - 2 * (t_acc t i - acc i) / dt) / (dt * dt).
Proof. intros H. unfold hermiteTrial. destruct (eval _ _ _) as [a j]. cbn [t_snap t_crackle t_acc t_jrk]. split; reflexivity. Qed.

Lemma half_dec : 0.5 = / 2. Proof. lra. Qed.
Lemma hermite_end n eval accRel dt s r s' i : hermiteStep n eval accRel dt s = Some (r, s') ->
  hvel s' i (h_time s') = h_newvel s' i /\ hpos s' i (h_time s') = h_newpos s' i + r ^ 5 / 720 * h_crackle s' i /\
  hpos s' i (h_timePrev s') = h_newpos s i /\ hvel s' i (h_timePrev s') = h_newvel s i /\
  is_derive (hvel s' i) (h_timePrev s') (fst (eval (h_time s) (h_newpos s) (h_newvel s)) i) /\ is_derive (hvel s' i) (h_time s') (h_newacc s' i).
Proof.
  intros H. destruct (hermite_step_inv _ _ _ _ _ _ _ H) as (t & Hr & Et & E1 & E2 & _ & E3 & E4 & E5 & E6 & E7 & E8 & E9 & E10 & V & P).
  destruct (hermite_snap n eval accRel (h_time s) r (h_newpos s) (h_newvel s) (fst (eval (h_time s) (h_newpos s) (h_newvel s))) (snd (eval (h_time s) (h_newpos s) (h_newvel s))) i Hr) as [S1 S2].
  rewrite <- Et, <- E9, <- E8, <- E7, <- E5, <- E6 in S1. rewrite <- Et, <- E10, <- E8, <- E7, <- E5, <- E6 in S2.
  specialize (V i). specialize (P i).
  split; [|split; [|split; [|split; [|split]]]].
  - unfold hvel. rewrite E2, E1. replace (h_time s + r - h_time s) with r by ring. rewrite V, S1, S2, half_dec. field. exact Hr.
  - unfold hpos. rewrite E2, E1. replace (h_time s + r - h_time s) with r by ring. rewrite P, V, S1, S2, half_dec. field. exact Hr.
  - unfold hpos. rewrite E3. ring.
  - unfold hvel. rewrite E4. ring.
  - pose proof (hvel_derive s' i (h_timePrev s')) as D. rewrite Rminus_eq_0, !Rmult_0_l, Rplus_0_r in D. rewrite <- E5. exact D.
  - pose proof (hvel_derive s' i (h_time s')) as D. match type of D with is_derive _ _ ?v => replace v with (h_newacc s' i) in D; [exact D|] end.
    rewrite E2, E1. replace (h_time s + r - h_time s) with r by ring. rewrite S1, S2. field. exact Hr.
Qed.
