(** Spherically-symmetric functions: gradients and hessians of F(r) in the three coordinate systems *)
From Coq Require Import Reals Lra Psatz Bool.
From Coquelicot Require Import Coquelicot.
From Verif Require Import RandReal PolyModel PolyProofs RootProofs CoordModel CoordSpec CoordCalc CoordAtan CoordMaps CoordMaps2 CoordProofs CoordVel.
Local Open Scope R_scope.

Lemma comp_grad (F : R -> R) d f q g : is_derive F (f q) d -> is_grad f q g -> is_grad (fun p => F (f p)) q (d * v1 g, d * v2 g, d * v3 g).
Proof.
  intros DF GF c1 c2 c3 t u1 u2 u3 Ep D1 D2 D3. generalize (GF c1 c2 c3 t u1 u2 u3 Ep D1 D2 D3). intros D.
  rewrite <- Ep in DF. generalize (is_derive_comp F (fun s => f (c1 s, c2 s, c3 s)) t _ _ DF D). unfold scal; cbn. unfold mult; cbn.
  match goal with |- is_derive _ _ ?l -> is_derive _ _ ?r => replace r with l; [tauto|] end. unfold v1, v2, v3; cbn [fst snd]. ring.
Qed.
Lemma v1_grad q : is_grad (fun p => v1 p) q (1, 0, 0).
Proof. destruct q as [[x y] z]. gcurve. replace (1 * u1 + 0 * u2 + 0 * u3) with u1 by ring. exact D1. Qed.
Lemma v2_grad q : is_grad (fun p => v2 p) q (0, 1, 0).
Proof. destruct q as [[x y] z]. gcurve. replace (0 * u1 + 1 * u2 + 0 * u3) with u2 by ring. exact D2. Qed.
Lemma derive_times_cont (f c : R -> R) t u : continuous f t -> is_derive c t u -> c t = 0 -> is_derive (fun s => f s * c s) t (f t * u).
Proof.
  intros Cf Dc E. apply is_derive_Reals. apply is_derive_Reals in Dc. intros eps Heps.
  destruct (Dc 1 Rlt_0_1) as (d1 & H1). set (M := Rabs u + 1). assert (MP : 0 < M) by (unfold M; pose proof (Rabs_pos u); lra).
  set (e2 := eps / 2 / M). assert (e2P : 0 < e2). { unfold e2. apply Rdiv_lt_0_compat; lra. }
  assert (LC : locally t (fun s => Rabs (f s - f t) < e2)). { apply (Cf (fun y => Rabs (y - f t) < e2)). exists (mkposreal _ e2P). intros y B. exact B. }
  destruct LC as (d2 & H2). set (N := Rabs (f t) + 1). assert (NP : 0 < N) by (unfold N; pose proof (Rabs_pos (f t)); lra).
  destruct (Dc (eps / 2 / N)) as (d3 & H3); [apply Rdiv_lt_0_compat; lra|].
  assert (dP : 0 < Rmin d1 (Rmin d2 d3)) by (repeat apply Rmin_pos; apply cond_pos).
  exists (mkposreal _ dP). intros h Hh Hd. cbn in Hd.
  assert (L1 : Rabs h < d1) by (eapply Rlt_le_trans; [exact Hd|apply Rmin_l]).
  assert (L2 : Rabs h < d2) by (eapply Rlt_le_trans; [exact Hd|eapply Rle_trans; [apply Rmin_r|apply Rmin_l]]).
  assert (L3 : Rabs h < d3) by (eapply Rlt_le_trans; [exact Hd|eapply Rle_trans; [apply Rmin_r|apply Rmin_r]]).
  specialize (H1 h Hh L1). specialize (H3 h Hh L3). rewrite E in *. rewrite Rminus_0_r in *. rewrite Rmult_0_r, Rminus_0_r.
  assert (B2 : Rabs (f (t + h) - f t) < e2). { apply H2. unfold ball; cbn. unfold AbsRing_ball, abs, minus, plus, opp; cbn. replace (t + h + - t) with h by ring. exact L2. }
  replace (f (t + h) * c (t + h) / h - f t * u) with ((f (t + h) - f t) * (c (t + h) / h) + f t * (c (t + h) / h - u)) by (field; exact Hh).
  assert (BC : Rabs (c (t + h) / h) <= M). { unfold M. replace (c (t + h) / h) with (u + (c (t + h) / h - u)) by ring. eapply Rle_trans; [apply Rabs_triang|]. lra. }
  eapply Rle_lt_trans; [apply Rabs_triang|]. rewrite !Rabs_mult. replace eps with (e2 * M + N * (eps / 2 / N)) by (unfold e2; field; split; lra).
  apply Rplus_lt_le_compat.
  - apply Rle_lt_trans with (Rabs (f (t + h) - f t) * M); [apply Rmult_le_compat_l; [apply Rabs_pos|exact BC]|]. apply Rmult_lt_compat_r; assumption.
  - apply Rmult_le_compat; [apply Rabs_pos|apply Rabs_pos|unfold N; lra|lra].
Qed.
Lemma grad_times (f : vec3 -> R) p (l : vec3 -> R) g : continuous f p -> l p = 0 -> is_grad l p g -> is_grad (fun q => f q * l q) p (f p * v1 g, f p * v2 g, f p * v3 g).
Proof.
  intros Cf E G c1 c2 c3 t u1 u2 u3 Ep D1 D2 D3. pose proof (curve_continuous c1 c2 c3 t u1 u2 u3 D1 D2 D3) as CC.
  assert (C' : continuous (fun s => f (c1 s, c2 s, c3 s)) t). { apply (continuous_comp (fun s : R => (c1 s, c2 s, c3 s) : vec3) f t CC). rewrite Ep. exact Cf. }
  generalize (derive_times_cont (fun s => f (c1 s, c2 s, c3 s)) (fun s => l (c1 s, c2 s, c3 s)) t _ C' (G _ _ _ _ _ _ _ Ep D1 D2 D3)). rewrite Ep. intros K. specialize (K E).
  match goal with |- is_derive _ _ ?r => match type of K with is_derive _ _ ?l => replace r with l; [exact K|] end end. unfold v1, v2, v3; cbn [fst snd]. ring.
Qed.
Lemma quot_cont (F1 : R -> R) d : F1 0 = 0 -> is_derive F1 0 d -> continuous (fun r => if Req_b r 0 then d else F1 r / r) 0.
Proof.
  intros E D. apply is_derive_Reals in D. intros P [eps HP]. cbv beta in HP. rewrite (Req_b_t 0) in HP by reflexivity.
  destruct (D eps (cond_pos eps)) as (dl & Hd). exists dl. intros r Br. apply HP. unfold ball; cbn. unfold AbsRing_ball, abs, minus, plus, opp; cbn.
  destruct (Req_EM_T r 0) as [-> |N].
  - rewrite Req_b_t by reflexivity. replace (d + - d) with 0 by ring. rewrite Rabs_R0. apply cond_pos.
  - rewrite Req_b_f by exact N. specialize (Hd r N). rewrite Rplus_0_l, E, Rminus_0_r in Hd. apply Hd. rewrite <- (Rminus_0_r r). exact Br.
Qed.

Section RadK.
Variable k : R.
Hypothesis Hk : k = 0 \/ k = 1.
Definition rho (q : vec3) : R := sqrt (v1 q * v1 q + v2 q * v2 q + k * (v3 q * v3 q)).
Definition gradK (q : vec3) (der : R) : vec3 := let r := rho q in
  let '(a, b, c) := if Req_b r 0 then (0, 0, 0) else (v1 q / r, v2 q / r, k * v3 q / r) in (a * der, b * der, c * der).
Definition hessK (q : vec3) (der der2 : R) : hess6 := let r := rho q in
  let '(a, b, c) := if Req_b r 0 then (0, 0, 0) else (v1 q / r, v2 q / r, k * v3 q / r) in
  let '(dd, e) := if Req_b r 0 then (0, if Req_b der 0 then der2 else der / r) else (der2 - der / r, der / r) in
  {| h11 := pow_2 a * dd + e; h22 := pow_2 b * dd + e; h33 := pow_2 c * dd + k * e; h12 := a * b * dd; h23 := b * c * dd; h13 := a * c * dd |}.
Lemma k2 : k * k = k.
Proof. destruct Hk as [-> | ->]; ring. Qed.
Lemma rho_nn q : 0 <= v1 q * v1 q + v2 q * v2 q + k * (v3 q * v3 q).
Proof. destruct Hk as [-> | ->]; nra. Qed.
Lemma rho_cont q : continuous rho q.
Proof. unfold rho. cont. Qed.
Lemma rho_grad q : 0 < rho q -> is_grad rho q (v1 q / rho q, v2 q / rho q, k * v3 q / rho q).
Proof.
  intros H. assert (P : 0 < v1 q * v1 q + v2 q * v2 q + k * (v3 q * v3 q)). { destruct (rho_nn q) as [?|E]; [assumption|]. unfold rho in H. rewrite <- E, sqrt_0 in H. lra. }
  unfold rho in *. destruct q as [[x y] z]. gcurve. auto_derive; [gside|]. gfin. field. lra.
Qed.
Lemma rho_0 q : rho q = 0 -> v1 q = 0 /\ v2 q = 0 /\ k * v3 q = 0.
Proof.
  intros H. unfold rho in H. apply sqrt_eq_0 in H; [|apply rho_nn]. destruct Hk as [E|E]; rewrite E in *; repeat split; nra.
Qed.
Lemma rho_le q : Rabs (v1 q) <= rho q /\ Rabs (v2 q) <= rho q /\ Rabs (k * v3 q) <= rho q.
Proof.
  unfold rho. rewrite <- (sqrt_Rsqr_abs (v1 q)), <- (sqrt_Rsqr_abs (v2 q)), <- (sqrt_Rsqr_abs (k * v3 q)). unfold Rsqr.
  repeat split; apply sqrt_le_1_alt; destruct Hk as [E|E]; rewrite E; nra.
Qed.
(** off the centre *)
Lemma grad_pos F F1 q : 0 < rho q -> is_derive F (rho q) F1 -> is_grad (fun p => F (rho p)) q (gradK q F1).
Proof.
  intros H D. unfold gradK. cbv zeta. rewrite Req_b_f by lra. eapply is_grad_eq; [|apply (comp_grad F F1 rho q); [exact D|apply rho_grad, H]].
  unfold v1, v2, v3; cbn [fst snd]. apply v_eq; ring.
Qed.
Lemma kv3_grad q : is_grad (fun p => k * v3 p) q (0, 0, k).
Proof. destruct q as [[x y] z]. gcurve. auto_derive; [gside|]. gfin. ring. Qed.
Lemma hess_pos F F1 p der2 : 0 < rho p -> locally (rho p) (fun r => is_derive F r (F1 r)) -> is_derive F1 (rho p) der2 ->
  is_hess (fun q => F (rho q)) p (gradK p (F1 (rho p))) (hessK p (F1 (rho p)) der2).
Proof.
  intros H L D. exists (fun q => gradK q (F1 (rho q))). split; [reflexivity|].
  assert (LP : locally p (fun q => 0 < rho q)) by (apply locally_pos_U; [apply rho_cont|exact H]).
  set (KF := fun r => F1 r / r). assert (DK : is_derive KF (rho p) ((der2 - F1 (rho p) / rho p) / rho p)).
  { unfold KF. assert (E : Derive (fun x : R => F1 x) (rho p) = der2) by (apply is_derive_unique; exact D). auto_derive; [split; [eexists; exact D|split; [lra|trivial]]|]. rewrite E. field. lra. }
  pose proof (comp_grad KF _ rho p _ DK (rho_grad p H)) as GK.
  assert (EQ : forall (f g : vec3 -> R), (forall q, 0 < rho q -> f q = g q) -> locally p (fun q => f q = g q)) by (intros f g Hfg; revert LP; apply filter_imp; exact Hfg).
  unfold hessK. cbv zeta. rewrite (Req_b_f (rho p) 0) by lra. split; [|split; [|split]]; cbn [h11 h22 h33 h12 h23 h13].
  - generalize (filter_and _ _ LP (rho_cont p _ L)). apply filter_imp. intros q (Hq & Dq). apply grad_pos; assumption.
  - apply is_grad_ext_loc with (fun q => KF (rho q) * v1 q).
    { apply EQ. intros q Hq. unfold gradK. cbv zeta. rewrite Req_b_f by lra. unfold KF, v1, v2, v3; cbn [fst snd]. field. lra. }
    eapply is_grad_mult'; [exact GK|apply v1_grad|]. unfold KF, pow_2, v1, v2, v3; cbn [fst snd]. apply v_eq; field; lra.
  - apply is_grad_ext_loc with (fun q => KF (rho q) * v2 q).
    { apply EQ. intros q Hq. unfold gradK. cbv zeta. rewrite Req_b_f by lra. unfold KF, v1, v2, v3; cbn [fst snd]. field. lra. }
    eapply is_grad_mult'; [exact GK|apply v2_grad|]. unfold KF, pow_2, v1, v2, v3; cbn [fst snd]. apply v_eq; field; lra.
  - apply is_grad_ext_loc with (fun q => KF (rho q) * (k * v3 q)).
    { apply EQ. intros q Hq. unfold gradK. cbv zeta. rewrite Req_b_f by lra. unfold KF, v1, v2, v3; cbn [fst snd]. field. lra. }
    eapply is_grad_mult'; [exact GK|apply kv3_grad|]. unfold KF, pow_2, v1, v2, v3; cbn [fst snd]. pose proof k2 as K2. apply v_eq; field [K2]; lra.
Qed.
(** at the centre, for F'(0)=0 *)
(** f(r) r with f continuous at 0 *)
Lemma grad_center F q : rho q = 0 -> is_derive F 0 0 -> is_grad (fun p => F (rho p)) q (0, 0, 0).
Proof.
  intros H D c1 c2 c3 t u1 u2 u3 Ep D1 D2 D3. unfold v1, v2, v3; cbn [fst snd]. replace (0 * u1 + 0 * u2 + 0 * u3) with 0 by ring.
  (* F(rho) = F 0 + Q(rho) rho, Q(rho)->0, and rho <= |c1-..|+...: use products with continuous factors *)
  set (Q := fun r => if Req_b r 0 then 0 else (F r - F 0) / r).
  assert (CQ : continuous Q 0). { apply (quot_cont (fun r => F r - F 0) 0); [ring|]. generalize (is_derive_minus (V := R_NormedModule) F (fun _ => F 0) 0 0 0 D (is_derive_const (V := R_NormedModule) (F 0) 0)). unfold minus, plus, opp; cbn. rewrite Ropp_0, Rplus_0_r. tauto. }
  assert (Q0 : Q 0 = 0) by (unfold Q; rewrite Req_b_t by reflexivity; reflexivity).
  pose proof (curve_continuous c1 c2 c3 t u1 u2 u3 D1 D2 D3) as CC.
  apply rho_0 in H. destruct H as (Z1 & Z2 & Z3). rewrite <- Ep in Z1, Z2, Z3. unfold v1, v2, v3 in Z1, Z2, Z3; cbn [fst snd] in Z1, Z2, Z3.
  assert (R0 : rho (c1 t, c2 t, c3 t) = 0). { unfold rho, v1, v2, v3; cbn [fst snd]. rewrite Z1, Z2. replace (0 * 0 + 0 * 0 + k * (c3 t * c3 t)) with ((k * c3 t) * c3 t) by ring. rewrite Z3. replace (0 * c3 t) with 0 by ring. apply sqrt_0. }
  assert (CR : continuous (fun s : R => rho (c1 s, c2 s, c3 s)) t) by (apply (continuous_comp (fun s : R => (c1 s, c2 s, c3 s) : vec3) rho t CC); apply rho_cont).
  assert (CQR : continuous (fun s : R => Q (rho (c1 s, c2 s, c3 s))) t) by (apply (continuous_comp (fun s : R => rho (c1 s, c2 s, c3 s)) Q t CR); rewrite R0; exact CQ).
  (* rho = (c1/rho) c1 + (c2/rho) c2 + (k c3/rho) (k c3); each Q * (ci/rho) is continuous at t with value 0 *)
  set (r := fun s : R => rho (c1 s, c2 s, c3 s)) in *. change (r t = 0) in R0. change (continuous (fun s : R => Q (r s)) t) in CQR.
  set (n := fun (c : R -> R) s => Q (r s) * (if Req_b (r s) 0 then 0 else c s / r s)).
  assert (CN : forall c : R -> R, (forall s, Rabs (c s) <= r s) -> continuous (n c) t).
  { intros c Hc P [eps HP]. assert (N0 : n c t = 0) by (unfold n; rewrite R0, Q0; ring). rewrite N0 in HP.
    assert (LQ : locally t (fun s => ball (Q (r t)) eps (Q (r s)))) by (apply CQR; apply locally_ball).
    unfold filtermap. revert LQ. apply filter_imp. intros s Bs. apply HP. rewrite R0, Q0 in Bs. change (Rabs (n c s - 0) < eps). change (Rabs (Q (r s) - 0) < eps) in Bs.
    rewrite Rminus_0_r in *. eapply Rle_lt_trans; [|exact Bs]. unfold n. rewrite Rabs_mult. rewrite <- (Rmult_1_r (Rabs (Q (r s)))) at 2. apply Rmult_le_compat_l; [apply Rabs_pos|].
    destruct (Req_EM_T (r s) 0) as [E|N]; [rewrite Req_b_t by exact E; rewrite Rabs_R0; lra|]. rewrite Req_b_f by exact N. assert (RP : 0 < r s) by (specialize (Hc s); pose proof (Rabs_pos (c s)); lra).
    unfold Rdiv. rewrite Rabs_mult, (Rabs_pos_eq (/ r s)) by (left; apply Rinv_0_lt_compat, RP). apply Rmult_le_reg_r with (r s); [exact RP|]. rewrite Rmult_assoc, Rinv_l, Rmult_1_r, Rmult_1_l by lra. apply Hc. }
  assert (DD : is_derive (fun s => n c1 s * c1 s + n c2 s * c2 s + n (fun s => k * c3 s) s * (k * c3 s)) t (n c1 t * u1 + n c2 t * u2 + n (fun s => k * c3 s) t * (k * u3))).
  { apply (is_derive_plus (V := R_NormedModule)); [apply (is_derive_plus (V := R_NormedModule))|].
    - apply derive_times_cont; [apply CN; intros s; apply (rho_le (c1 s, c2 s, c3 s))|exact D1|exact Z1].
    - apply derive_times_cont; [apply CN; intros s; apply (rho_le (c1 s, c2 s, c3 s))|exact D2|exact Z2].
    - apply (derive_times_cont (n (fun s => k * c3 s)) (fun s => k * c3 s)); [apply CN; intros s; apply (rho_le (c1 s, c2 s, c3 s))| |exact Z3].
      apply is_derive_scal. exact D3. }
  assert (NZ : forall c : R -> R, n c t = 0) by (intros c; unfold n; rewrite R0, Q0; ring). rewrite !NZ in DD. replace (0 * u1 + 0 * u2 + 0 * (k * u3)) with 0 in DD by ring.
  apply is_derive_ext with (fun s => F 0 + (n c1 s * c1 s + n c2 s * c2 s + n (fun s => k * c3 s) s * (k * c3 s))).
  - intros s. change (F 0 + (n c1 s * c1 s + n c2 s * c2 s + n (fun s => k * c3 s) s * (k * c3 s)) = F (r s)). unfold n. destruct (Req_EM_T (r s) 0) as [E|N].
    + rewrite !(Req_b_t (r s)) by exact E. rewrite E. ring.
    + rewrite !(Req_b_f (r s)) by exact N. unfold Q. rewrite Req_b_f by exact N.
      assert (S2 : c1 s * c1 s + c2 s * c2 s + k * (c3 s * c3 s) = r s * r s). { unfold r, rho. rewrite sqrt_sqrt by apply rho_nn. reflexivity. }
      transitivity (F 0 + (F (r s) - F 0) / r s * ((c1 s * c1 s + c2 s * c2 s + k * k * (c3 s * c3 s)) / r s)); [field; exact N|]. rewrite k2, S2. field. exact N.
  - generalize (is_derive_plus (V := R_NormedModule) (fun _ => F 0) _ t 0 _ (is_derive_const (V := R_NormedModule) (F 0) t) DD). unfold plus; cbn. rewrite Rplus_0_r. tauto.
Qed.
Lemma hess_center F F1 p der2 : rho p = 0 -> locally 0 (fun r => is_derive F r (F1 r)) -> is_derive F1 0 der2 -> F1 0 = 0 ->
  is_hess (fun q => F (rho q)) p (gradK p (F1 0)) (hessK p (F1 0) der2).
Proof.
  intros H L D E. exists (fun q => gradK q (F1 (rho q))). split; [rewrite H; reflexivity|].
  set (Q := fun r => if Req_b r 0 then der2 else F1 r / r). assert (CQ : continuous (fun q => Q (rho q)) p). { apply continuous_comp; [apply rho_cont|]. rewrite H. apply quot_cont; assumption. }
  assert (QP : Q (rho p) = der2) by (unfold Q; rewrite Req_b_t by exact H; reflexivity).
  destruct (rho_0 p H) as (Z1 & Z2 & Z3).
  assert (EQ1 : forall q, Q (rho q) * v1 q = v1 (gradK q (F1 (rho q))) /\ Q (rho q) * v2 q = v2 (gradK q (F1 (rho q))) /\ Q (rho q) * (k * v3 q) = v3 (gradK q (F1 (rho q)))).
  { intros q. unfold gradK, Q. cbv zeta. destruct (Req_EM_T (rho q) 0) as [E0|N].
    - rewrite !(Req_b_t (rho q)) by exact E0. destruct (rho_0 q E0) as (-> & -> & ->). unfold v1, v2, v3; cbn [fst snd]. repeat split; ring.
    - rewrite !(Req_b_f (rho q)) by exact N. unfold v1, v2, v3; cbn [fst snd]. repeat split; field; exact N. }
  unfold hessK. cbv zeta. rewrite !(Req_b_t (rho p)) by exact H. rewrite E. rewrite (Req_b_t 0) by reflexivity. split; [|split; [|split]]; cbn [h11 h22 h33 h12 h23 h13].
  - assert (L0 : locally (rho p) (fun r => is_derive F r (F1 r))) by (rewrite H; exact L).
    generalize (rho_cont p _ L0). unfold filtermap. apply filter_imp. intros q Dq. destruct (Req_EM_T (rho q) 0) as [E0|N].
    + rewrite E0 in *. rewrite E in *. unfold gradK. cbv zeta. rewrite Req_b_t by exact E0. eapply is_grad_eq; [|apply grad_center; assumption]. apply v_eq; ring.
    + apply grad_pos; [unfold rho in *; pose proof (sqrt_pos (v1 q * v1 q + v2 q * v2 q + k * (v3 q * v3 q))); lra|exact Dq].
  - apply is_grad_ext with (fun q => Q (rho q) * v1 q); [intros q; apply (EQ1 q)|]. eapply is_grad_eq; [|apply (grad_times (fun q => Q (rho q)) p (fun q => v1 q)); [exact CQ|exact Z1|apply v1_grad]]. cbv beta. rewrite QP. unfold pow_2, v1, v2, v3; cbn [fst snd]. apply v_eq; ring.
  - apply is_grad_ext with (fun q => Q (rho q) * v2 q); [intros q; apply (EQ1 q)|]. eapply is_grad_eq; [|apply (grad_times (fun q => Q (rho q)) p (fun q => v2 q)); [exact CQ|exact Z2|apply v2_grad]]. cbv beta. rewrite QP. unfold pow_2, v1, v2, v3; cbn [fst snd]. apply v_eq; ring.
  - apply is_grad_ext with (fun q => Q (rho q) * (k * v3 q)); [intros q; apply (EQ1 q)|]. eapply is_grad_eq; [|apply (grad_times (fun q => Q (rho q)) p (fun q => k * v3 q)); [exact CQ|exact Z3|apply kv3_grad]]. cbv beta. rewrite QP. unfold pow_2, v1, v2, v3; cbn [fst snd]. apply v_eq; ring.
Qed.
Lemma hess_any F F1 p der2 : locally (rho p) (fun r => is_derive F r (F1 r)) -> is_derive F1 (rho p) der2 -> (rho p = 0 -> F1 0 = 0) ->
  is_hess (fun q => F (rho q)) p (gradK p (F1 (rho p))) (hessK p (F1 (rho p)) der2).
Proof.
  intros L D Z. destruct (Req_EM_T (rho p) 0) as [E|N].
  - rewrite E in *. apply hess_center; auto.
  - apply hess_pos; auto. unfold rho in *. pose proof (sqrt_pos (v1 p * v1 p + v2 p * v2 p + k * (v3 p * v3 p))). lra.
Qed.
End RadK.

Lemma sph_hess_C (F F1 : R -> R) (p : vec3) (der2 : R) : let r := sphR_C p in locally r (fun s => is_derive F s (F1 s)) -> is_derive F1 r der2 -> (r = 0 -> F1 0 = 0) ->
  is_hess (fun q => F (sphR_C q)) p (sphGrad_C p (F1 r)) (sphHess_C p (F1 r) der2).
Proof.
  assert (ER : forall q, sphR_C q = rho 1 q) by (intros [[x y] z]; unfold sphR_C, rho, pow_2, v1, v2, v3; cbn [fst snd]; f_equal; ring).
  cbv zeta. rewrite ER. intros L D Z. generalize (hess_any 1 (or_intror eq_refl) F F1 p der2 L D Z). intros H.
  apply is_hess_ext_loc with (fun q => F (rho 1 q)); [apply filter_forall; intros q; rewrite ER; reflexivity|].
  eapply is_hess_eq; [exact H| |].
  - unfold gradK. rewrite <- ER. destruct p as [[x y] z]. unfold sphGrad_C. cbv zeta. destruct (Req_b _ _); unfold v1, v2, v3; cbn [fst snd]; rewrite ?Rmult_1_l; reflexivity.
  - unfold hessK. rewrite <- ER. destruct p as [[x y] z]. unfold sphHess_C. cbv zeta. destruct (Req_b (sphR_C (x, y, z)) 0); unfold v1, v2, v3; cbn [fst snd]; rewrite ?Rmult_1_l; reflexivity.
Qed.
Lemma sph_hess_Y (F F1 : R -> R) (p : vec3) (der2 : R) : let r := sphR_Y p in locally r (fun s => is_derive F s (F1 s)) -> is_derive F1 r der2 -> (r = 0 -> F1 0 = 0) ->
  is_hess (fun q => F (sphR_Y q)) p (sphGrad_Y p (F1 r)) (sphHess_Y p (F1 r) der2).
Proof.
  assert (ER : forall q, sphR_Y q = rho 0 q) by (intros [[x y] z]; unfold sphR_Y, rho, pow_2, v1, v2, v3; cbn [fst snd]; f_equal; ring).
  cbv zeta. rewrite ER. intros L D Z. generalize (hess_any 0 (or_introl eq_refl) F F1 p der2 L D Z). intros H.
  apply is_hess_ext_loc with (fun q => F (rho 0 q)); [apply filter_forall; intros q; rewrite ER; reflexivity|].
  eapply is_hess_eq; [exact H| |].
  - unfold gradK. rewrite <- ER. destruct p as [[x y] z]. unfold sphGrad_Y. cbv zeta. destruct (Req_b _ _); unfold v1, v2, v3; cbn [fst snd]; apply v_eq; try reflexivity; unfold Rdiv; ring.
  - unfold hessK. rewrite <- ER. destruct p as [[x y] z]. unfold sphHess_Y. cbv zeta. destruct (Req_b (sphR_Y (x, y, z)) 0); unfold v1, v2, v3, pow_2; cbn [fst snd]; apply hess6_eq; cbn [h11 h22 h33 h12 h23 h13]; try reflexivity; unfold Rdiv; ring.
Qed.
Lemma sph_hess_S (F F1 : R -> R) (p : vec3) (der2 : R) : let r := v1 p in locally r (fun s => is_derive F s (F1 s)) -> is_derive F1 r der2 ->
  is_hess (fun q => F (v1 q)) p (sphGrad_S p (F1 r)) (sphHess_S p (F1 r) der2).
Proof.
  cbv zeta. intros L D. exists (fun q => sphGrad_S q (F1 (v1 q))). split; [reflexivity|]. unfold sphHess_S, sphGrad_S; split; [|split; [|split]]; cbn [h11 h22 h33 h12 h23 h13].
  - generalize (continuous_v1 p _ L). unfold filtermap. apply filter_imp. intros q Dq. eapply is_grad_eq; [|apply (comp_grad F (F1 (v1 q)) (fun q => v1 q) q (1, 0, 0)); [exact Dq|apply v1_grad]]. unfold v1, v2, v3; cbn [fst snd]. apply v_eq; ring.
  - eapply is_grad_eq; [|apply (comp_grad F1 der2 (fun q => v1 q) p (1, 0, 0)); [exact D|apply v1_grad]]. unfold v1, v2, v3; cbn [fst snd]. apply v_eq; ring.
  - exact (is_grad_const 0 _).
  - exact (is_grad_const 0 _).
Qed.
