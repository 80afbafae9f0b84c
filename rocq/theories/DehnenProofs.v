(** Spherical Dehnen model *)
From Coq Require Import Reals Lra Psatz Bool.
From Coquelicot Require Import Coquelicot.
From Verif Require Import RandReal RandRealProofs PolyModel PolyProofs CoordModel CoordSpec CoordCalc CoordAtan CoordMaps CoordMaps2 CoordProofs CoordVel RootProofs PotModel PotSpec DiskModel DiskProofs2 DfProofs DfProofs2 FerrersModel FerrersSpec FerrersProofs.
Local Open Scope R_scope.

Section Rad.
Variables V V1 V2 : R -> R.
Hypothesis HV1 : forall r, 0 < r -> is_derive V r (V1 r).
Hypothesis HV2 : forall r, 0 < r -> is_derive V1 r (V2 r).
Definition rr (q : vec3) := sqrt (v1 q * v1 q + v2 q * v2 q + v3 q * v3 q).
Definition off (q : vec3) := 0 < v1 q * v1 q + v2 q * v2 q + v3 q * v3 q.
Definition RG (q : vec3) : vec3 := (V1 (rr q) * v1 q / rr q, V1 (rr q) * v2 q / rr q, V1 (rr q) * v3 q / rr q).
Definition RH (q : vec3) : hess6 := let k := V2 (rr q) / rr q ^ 2 - V1 (rr q) / rr q ^ 3 in
  mkH (k * v1 q ^ 2 + V1 (rr q) / rr q) (k * v2 q ^ 2 + V1 (rr q) / rr q) (k * v3 q ^ 2 + V1 (rr q) / rr q) (k * v1 q * v2 q) (k * v2 q * v3 q) (k * v1 q * v3 q).
Lemma off_open q : off q -> locally q off.
Proof. intros H. apply (locally_pos_U (fun q : vec3 => v1 q * v1 q + v2 q * v2 q + v3 q * v3 q)); [cont|exact H]. Qed.
Lemma rr_grad q : off q -> is_grad rr q (v1 q / rr q, v2 q / rr q, v3 q / rr q).
Proof. destruct q as [[x y] z]. intros H. gcurve. unfold rr, off, CoordModel.v1, v2, v3 in *. cbn [fst snd] in *. pose proof (sqrt_lt_R0 _ H). auto_derive; [gside|]. gfin. field. lra. Qed.
Lemma grad_of_r (f f' : R -> R) q : off q -> (forall r, 0 < r -> is_derive f r (f' r)) -> is_grad (fun p => f (rr p)) q (f' (rr q) * v1 q / rr q, f' (rr q) * v2 q / rr q, f' (rr q) * v3 q / rr q).
Proof.
  intros H F c1 c2 c3 t u1 u2 u3 Ep E1 E2 E3. pose proof (rr_grad q H c1 c2 c3 t u1 u2 u3 Ep E1 E2 E3) as G. assert (Rp : 0 < rr q) by (apply sqrt_lt_R0, H).
  pose proof (comp_derive f (fun s => rr (c1 s, c2 s, c3 s)) t _ _ (eq_ind_r (fun p => is_derive f (rr p) (f' (rr q))) (F (rr q) Rp) Ep) G) as D. cbv beta in D. unfold v1, v2, v3 in *. cbn [fst snd] in *.
  match type of D with is_derive _ _ ?e => match goal with |- is_derive _ _ ?g => replace g with e; [exact D|] end end. field. lra.
Qed.
Lemma Gv1 q : is_grad v1 q (1, 0, 0). Proof. intros c1 c2 c3 t u1 u2 u3 Ep E1 E2 E3. cbn. eapply eqd; [exact E1|ring]. Qed.
Lemma Gv2 q : is_grad v2 q (0, 1, 0). Proof. intros c1 c2 c3 t u1 u2 u3 Ep E1 E2 E3. cbn. eapply eqd; [exact E2|ring]. Qed.
Lemma Gv3 q : is_grad v3 q (0, 0, 1). Proof. intros c1 c2 c3 t u1 u2 u3 Ep E1 E2 E3. cbn. eapply eqd; [exact E3|ring]. Qed.
Lemma rad_hess q : off q -> is_hess (fun p => V (rr p)) q (RG q) (RH q).
Proof.
  intros H. exists RG. split; [reflexivity|]. apply (hess_open off); [apply off_open, H|intros p Hp; apply (grad_of_r V V1 p Hp HV1)| | |].
  all: assert (Rp : 0 < rr q) by (apply sqrt_lt_R0, H).
  all: assert (Dk : forall r, 0 < r -> is_derive (fun s => V1 s / s) r (V2 r / r - V1 r / r ^ 2)) by (intros r Hr; pose proof (HV2 r Hr) as D; auto_derive; [repeat split; [eexists; exact D|lra]|der V1 D; field; lra]).
  all: assert (GK := grad_of_r (fun s => V1 s / s) (fun r => V2 r / r - V1 r / r ^ 2) q H Dk); cbv beta in GK.
  - eapply (is_grad_ext (fun p => (V1 (rr p) / rr p) * v1 p)); [intros p; unfold RG; cbn [v1 fst snd]; unfold Rdiv; unfold v1; cbn; ring|].
    eapply is_grad_eq; [|exact (is_grad_mult _ v1 q _ (1, 0, 0) GK (Gv1 q))].
    unfold RH. cbv zeta. cbn [h11 h12 h13]. destruct q as [[x y] z]. unfold v1, v2, v3 in *. cbn [fst snd] in *. set (r := rr (x, y, z)) in *. clearbody r. apply v_eq; field; lra.
  - eapply (is_grad_ext (fun p => (V1 (rr p) / rr p) * v2 p)); [intros p; unfold RG; cbn [v2 fst snd]; unfold Rdiv; unfold v2; cbn; ring|].
    eapply is_grad_eq; [|exact (is_grad_mult _ v2 q _ (0, 1, 0) GK (Gv2 q))].
    unfold RH. cbv zeta. cbn [h22 h12 h23]. destruct q as [[x y] z]. unfold v1, v2, v3 in *. cbn [fst snd] in *. set (r := rr (x, y, z)) in *. clearbody r. apply v_eq; field; lra.
  - eapply (is_grad_ext (fun p => (V1 (rr p) / rr p) * v3 p)); [intros p; unfold RG; cbn [v3 fst snd]; unfold Rdiv; unfold v3; cbn; ring|].
    eapply is_grad_eq; [|exact (is_grad_mult _ v3 q _ (0, 0, 1) GK (Gv3 q))].
    unfold RH. cbv zeta. cbn [h33 h13 h23]. destruct q as [[x y] z]. unfold v1, v2, v3 in *. cbn [fst snd] in *. set (r := rr (x, y, z)) in *. clearbody r. apply v_eq; field; lra.
Qed.
Lemma rad_trace q : off q -> trace (RH q) = V2 (rr q) + 2 * V1 (rr q) / rr q.
Proof.
  intros H. assert (Rp : 0 < rr q) by (apply sqrt_lt_R0, H). assert (E : v1 q ^ 2 + v2 q ^ 2 + v3 q ^ 2 = rr q ^ 2) by (unfold rr; rewrite pow2_sqrt by (unfold off in H; lra); ring).
  unfold trace, RH. cbv zeta. cbn [h11 h22 h33]. set (k := _ - _). transitivity (k * (v1 q ^ 2 + v2 q ^ 2 + v3 q ^ 2) + 3 * V1 (rr q) / rr q); [unfold Rdiv; ring|]. rewrite E. unfold k. field. lra.
Qed.
End Rad.

Section Deh.
Variables M a g : R.
Hypothesis Ha : 0 < a.
Definition dV (r : R) : R := M / a * (if Req_EM_T g 2 then - ln (1 + a / r) else (1 - Rpower (1 + a / r) (g - 2)) / (g - 2)).
Definition dV1 (r : R) : R := M * Rpower r (1 - g) * Rpower (r + a) (g - 3).
Definition dV2 (r : R) : R := dV1 r * ((1 - g) / r + (g - 3) / (r + a)).
Lemma rp (x y : R) : 0 < x -> is_derive (fun s => Rpower s y) x (y * Rpower x y / x).
Proof.
  intros Hx. unfold Rpower. auto_derive; [exact Hx|]. unfold Rdiv. ring.
Qed.
Lemma dV_der r : 0 < r -> is_derive dV r (dV1 r).
Proof.
  intros Hr. unfold dV. assert (A1 : 0 < a / r) by (apply Rdiv_lt_0_compat; assumption).
  assert (E1 : 1 + a / r = (r + a) / r) by (field; lra).
  assert (EP : forall y, Rpower (1 + a / r) y = Rpower (r + a) y * Rpower r (- y)).
  { intros y. rewrite E1. unfold Rpower. unfold Rdiv. rewrite ln_mult by (try apply Rinv_0_lt_compat; lra). rewrite ln_Rinv by lra. rewrite <- exp_plus. f_equal. ring. }
  destruct (Req_EM_T g 2) as [Eg|N].
  - auto_derive; [repeat split; [lra|lra]|]. unfold dV1. replace (1 - g) with (Ropp 1) by lra. replace (g - 3) with (Ropp 1) by lra. rewrite !Rpower_Ropp, !Rpower_1 by lra. field. repeat split; try lra. 
  - assert (D0 : is_derive (fun s => 1 + a / s) r (- a / r ^ 2)) by (auto_derive; [lra|field; lra]).
    pose proof (comp_derive (fun s => Rpower s (g - 2)) (fun s => 1 + a / s) r _ _ (rp (1 + a / r) (g - 2) ltac:(lra)) D0) as D. cbv beta in D.
    set (h := fun s => Rpower (1 + a / s) (g - 2)) in *. apply (is_derive_ext (fun s => M / a * ((1 - h s) / (g - 2)))); [reflexivity|].
    change (is_derive h r ((g - 2) * Rpower (1 + a / r) (g - 2) / (1 + a / r) * (- a / r ^ 2))) in D.
    auto_derive; [eexists; exact D|]. der h D. unfold dV1. rewrite EP, E1.
    replace (- (g - 2)) with ((1 - g) + 1) by ring. rewrite (Rpower_plus (1 - g) 1), Rpower_1 by lra. replace (g - 2) with ((g - 3) + 1) at 2 by ring. rewrite (Rpower_plus (g - 3) 1), Rpower_1 by lra.
    set (u := Rpower r (1 - g)). set (w := Rpower (r + a) (g - 3)). clearbody u w. field. repeat split; lra.
Qed.
Lemma dV1_der r : 0 < r -> is_derive dV1 r (dV2 r).
Proof.
  intros Hr. unfold dV1, dV2, dV1. pose proof (rp r (1 - g) Hr) as E1.
  assert (E2 : is_derive (fun s => Rpower (s + a) (g - 3)) r ((g - 3) * Rpower (r + a) (g - 3) / (r + a) * 1)) by (apply (comp_derive (fun s => Rpower s (g - 3)) (fun s => s + a) r); [apply rp; lra|auto_derive; [exact Logic.I|ring]]).
  set (h1 := fun s => Rpower s (1 - g)) in *. set (h2 := fun s => Rpower (s + a) (g - 3)) in *. change (is_derive h1 r ((1 - g) * h1 r / r)) in E1. change (is_derive h2 r ((g - 3) * h2 r / (r + a) * 1)) in E2.
  apply (is_derive_ext (fun s => M * h1 s * h2 s)); [reflexivity|]. auto_derive; [split; [eexists; exact E1|split; [eexists; exact E2|exact Logic.I]]|]. der h1 E1. der h2 E2. change (Rpower r (1 - g)) with (h1 r). change (Rpower (r + a) (g - 3)) with (h2 r). field. split; lra.
Qed.
Lemma deh_rest q : off q -> let '(_, gr, h) := dehSph M a g q in gr = RG dV1 q /\ h = RH dV1 dV2 q.
Proof.
  destruct q as [[x y] z]. intros H. unfold off, CoordModel.v1, v2, v3 in H. cbn [fst snd] in H. unfold dehSph, RG, RH, rr. unfold CoordModel.v1, v2, v3. cbn [fst snd]. pose proof (sqrt_lt_R0 _ H) as Rp. set (r := sqrt _) in *. clearbody r.
  cbv zeta. rewrite !(Rlt_b_t 0 r) by exact Rp. rewrite !mpow_pos by lra. unfold dV2, dV1. set (p1 := Rpower r (1 - g)). set (p2 := Rpower (r + a) (g - 3)). clearbody p1 p2. split.
  - apply v_eq; field; lra.
  - apply hess6_eq; cbn [h11 h22 h33 h12 h13 h23]; field; lra.
Qed.
Lemma deh_pot q : off q -> 0.002 / (4 - g) < a / rr q -> fst (fst (dehSph M a g q)) = dV (rr q).
Proof.
  destruct q as [[x y] z]. intros H K. unfold off, CoordModel.v1, v2, v3 in H. cbn [fst snd] in H. pose proof (sqrt_lt_R0 _ H) as Rp. unfold dehSph, rr in *. unfold CoordModel.v1, v2, v3 in *. cbn [fst snd] in *. cbv zeta. rewrite Rlt_b_t by exact K. unfold dV. set (r := sqrt _) in *.
  assert (0 < a / r) by (apply Rdiv_lt_0_compat; assumption).
  destruct (Req_EM_T g 2) as [E|E]; [rewrite (Req_b_t g 2) by exact E; reflexivity|rewrite (Req_b_f g 2) by exact E]. rewrite mpow_pos by lra. reflexivity.
Qed.
Lemma deh_dens q : off q -> dehDensity M a g 1 1 q = (dV2 (rr q) + 2 * dV1 (rr q) / rr q) / (4 * PI).
Proof.
  destruct q as [[x y] z]. intros H. unfold off, CoordModel.v1, v2, v3 in H. cbn [fst snd] in H. pose proof (sqrt_lt_R0 _ H) as Rp. pose proof PI_RGT_0 as Pp. unfold dehDensity, rr in *. unfold CoordModel.v1, v2, v3 in *. cbn [fst snd] in *. cbv zeta.
  replace (pow_2 x + pow_2 (y / 1) + pow_2 (z / 1)) with (x * x + y * y + z * z) by (unfold pow_2; field). set (r := sqrt _) in *. clearbody r. rewrite !mpow_pos by lra. unfold dV2, dV1.
  assert (Q1 : Rpower r (1 - g) = Rpower r (- g) * r) by (replace (1 - g) with (- g + 1) by ring; rewrite (Rpower_plus (- g) 1), Rpower_1 by lra; reflexivity).
  assert (Q2 : Rpower (r + a) (g - 3) = Rpower (r + a) (g - 4) * (r + a)) by (replace (g - 3) with (g - 4 + 1) by ring; rewrite (Rpower_plus (g - 4) 1), Rpower_1 by lra; reflexivity). rewrite Q1, Q2. replace (a + r) with (r + a) by ring.
  set (p1 := Rpower r (- g)). set (p2 := Rpower (r + a) (g - 4)). clearbody p1 p2. field. repeat split; lra.
Qed.
End Deh.
Lemma rr_spec pos : sqrt (v1 pos ^ 2 + v2 pos ^ 2 + v3 pos ^ 2) = rr pos.
Proof. unfold rr. f_equal. ring. Qed.
Lemma dV_spec M a g pos : 0 < a -> off pos -> dV M a g (rr pos) = dehnen_Phi M a g pos.
Proof.
  intros Ha H. assert (Rp : 0 < rr pos) by (apply sqrt_lt_R0, H). unfold dV, dehnen_Phi. rewrite rr_spec. cbv zeta. set (r := rr pos) in *. clearbody r. assert (0 < a / r) by (apply Rdiv_lt_0_compat; assumption).
  assert (E : r / (r + a) = / (1 + a / r)) by (field; split; lra). rewrite E. destruct (Req_EM_T g 2) as [N|N].
  - rewrite ln_Rinv by lra. reflexivity.
  - replace (Rpower (/ (1 + a / r)) (2 - g)) with (Rpower (1 + a / r) (g - 2)); [field; repeat split; lra|]. unfold Rpower. rewrite ln_Rinv by lra. f_equal. ring.
Qed.
Lemma rho_spec M a g pos : 0 < a -> off pos -> dehDensity M a g 1 1 pos = dehnen_rho M a g pos.
Proof.
  destruct pos as [[x y] z]. intros Ha H. unfold off, CoordModel.v1, v2, v3 in H. cbn [fst snd] in H. pose proof (sqrt_lt_R0 _ H) as Rp. unfold dehDensity, dehnen_rho, CoordModel.v1, v2, v3. cbn [fst snd].
  replace (pow_2 x + pow_2 (y / 1) + pow_2 (z / 1)) with (x * x + y * y + z * z) by (unfold pow_2; field). replace (x ^ 2 + y ^ 2 + z ^ 2) with (x * x + y * y + z * z) by ring. set (r := sqrt _) in *. clearbody r. cbv zeta. pose proof PI_RGT_0. rewrite !mpow_pos by lra. 
  rewrite Rpower_Ropp. replace (g - 4) with (- (4 - g)) by ring. rewrite Rpower_Ropp. replace (a + r) with (r + a) by ring.
  assert (0 < Rpower r g) by apply exp_pos. assert (0 < Rpower (r + a) (4 - g)) by apply exp_pos. field. repeat split; lra.
Qed.
Lemma dehnen_main M a g pos : 0 < a -> 0 <= g <= 2 -> off pos -> let '(v, gr, h) := dehSph M a g pos in
  is_hess (dehnen_Phi M a g) pos gr h /\ dehnen_rho M a g pos = trace h / (4 * PI) /\ (0.002 / (4 - g) < a / rr pos -> v = dehnen_Phi M a g pos).
Proof.
  intros Ha Hg H. pose proof (deh_rest M a g Ha pos H) as R0. pose proof (deh_pot M a g Ha pos H) as R1. destruct (dehSph M a g pos) as [[v gr] h]. destruct R0 as (-> & ->). cbn [fst] in R1. split; [|split].
  - destruct (rad_hess (dV M a g) (dV1 M a g) (dV2 M a g) (dV_der M a g Ha) (dV1_der M a g Ha) pos H) as (G & G1 & G2). exists G. split; [exact G1|]. destruct G2 as (G2 & G3). split; [|exact G3].
    pose proof (off_open pos H) as L. apply locally_locally in L. generalize (filter_and _ _ L G2). apply filter_imp. intros q (L1 & L2). apply (is_grad_ext_loc (fun p => dV M a g (rr p))); [|exact L2]. generalize L1. apply filter_imp. intros u Hu. apply dV_spec; assumption.
  - rewrite <- rho_spec by assumption. rewrite deh_dens by assumption. rewrite rad_trace by assumption. reflexivity.
  - intros K. rewrite (R1 K). apply dV_spec; assumption.
Qed.
Lemma dehConstruct_iff a g : dehConstruct a g = true <-> 0 < a /\ 0 <= g <= 2.
Proof.
  unfold dehConstruct. rewrite andb_true_iff, !negb_true_iff, orb_false_iff. split.
  - intros (A & B & C). assert (~ a <= 0) by (intros K; rewrite Rle_b_t in A by exact K; discriminate). assert (~ g < 0) by (intros K; rewrite Rlt_b_t in B by exact K; discriminate). assert (~ 2 < g) by (intros K; rewrite Rlt_b_t in C by exact K; discriminate). lra.
  - intros (A & B & C). rewrite Rle_b_f by exact A. rewrite !Rlt_b_f by lra. tauto.
Qed.
