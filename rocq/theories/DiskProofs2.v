(** Disk models: radial and vertical functions *)
From Coq Require Import Reals Lra Psatz Lia Bool ZArith List.
From Coquelicot Require Import Coquelicot.
From Verif Require Import RandReal RandRealProofs PolyModel PolyProofs CoordModel RootProofs AnalyticSpec DiskModel DiskSpec.
Import ListNotations.
Local Open Scope R_scope.

Lemma mpow_pos x n : 0 < x -> mpow x n = Rpower x n.
Proof.
  intros K. unfold mpow.
  assert (H05 : 0.5 = / 2) by lra. assert (Hm05 : -0.5 = - / 2) by lra.
  repeat (match goal with |- (if Req_b ?a ?b then _ else _) = _ => let E := fresh "E" in destruct (Req_EM_T a b) as [E|E]; [rewrite (Req_b_t _ _ E); clear - K E H05 Hm05|rewrite (Req_b_f _ _ E); clear E] end).
  - subst n. rewrite Rpower_O; lra.
  - subst n. rewrite Rpower_1; lra.
  - subst n. replace (-1) with (- (1)) by lra. rewrite Rpower_Ropp, Rpower_1 by lra. unfold Rdiv; ring.
  - subst n. replace 2 with (INR 2) by (simpl; lra). rewrite Rpower_pow by lra. simpl; ring.
  - subst n. replace (-2) with (- (INR 2)) by (simpl; lra). rewrite Rpower_Ropp, Rpower_pow by lra. simpl. unfold Rdiv. rewrite Rmult_1_l, Rmult_1_r. reflexivity.
  - subst n. rewrite H05, Rpower_sqrt by lra. reflexivity.
  - subst n. rewrite Hm05, Rpower_Ropp, Rpower_sqrt by lra. unfold Rdiv. ring.
  - subst n. replace 3 with (INR 3) by (simpl; lra). rewrite Rpower_pow by lra. simpl; ring.
  - subst n. replace (-3) with (- (INR 3)) by (simpl; lra). rewrite Rpower_Ropp, Rpower_pow by lra. simpl. unfold Rdiv. rewrite Rmult_1_l, Rmult_1_r. f_equal; ring.
  - lra.
  - reflexivity.
Qed.
Lemma mpow_0 n : 0 < n -> mpow 0 n = 0.
Proof.
  intros K. unfold mpow. rewrite (Req_b_f n 0) by lra.
  repeat (match goal with |- (if Req_b ?a ?b then _ else _) = _ => let E := fresh "E" in destruct (Req_EM_T a b) as [E|E]; [rewrite (Req_b_t _ _ E)|rewrite (Req_b_f _ _ E)] end); try lra.
  apply sqrt_0.
Qed.

Section Radial.
Variable P : diskParam.
Let S0 := surfaceDensity P. Let Rd := scaleRadius P. Let R0 := innerCutoffRadius P. Let eps := modulationAmplitude P. Let n := sersicIndex P.
Hypothesis V : valid P.
Let VR : 0 < Rd. Proof. apply V. Qed.
Let Vn : 0 < n. Proof. apply V. Qed.
Definition L1 (r : R) := R0 / r ^ 2 - 1 / n * (Rpower (r / Rd) (1 / n) / r) - eps * sin (r / Rd) / Rd.
Definition L2 (r : R) := - 2 * R0 / r ^ 3 + 1 / n * (1 - 1 / n) * (Rpower (r / Rd) (1 / n) / r ^ 2) - eps * cos (r / Rd) / Rd ^ 2.
Definition Sig1 (r : R) := Sigma P r * L1 r.
Definition Sig2 (r : R) := Sigma P r * (L1 r ^ 2 + L2 r).
Lemma rpow_derive (a r : R) : 0 < r -> is_derive (fun s => Rpower (s / Rd) a) r (a * (Rpower (r / Rd) a / r)).
Proof.
  intros K. unfold Rpower. auto_derive; [apply Rmult_lt_0_compat; [exact K|apply Rinv_0_lt_compat, VR]|]. pose proof VR. unfold Rdiv. set (e := exp _). clearbody e. field. split; lra.
Qed.
Lemma sigma_derive r : 0 < r -> is_derive (Sigma P) r (Sig1 r).
Proof.
  intros K. pose proof (rpow_derive (1 / n) r K) as D. pose proof VR. pose proof Vn. unfold Sigma, Sig1, L1. fold S0 Rd R0 eps n.
  set (p := fun s => Rpower (s / Rd) (1 / n)) in *.
  assert (D' : is_derive p r (1 / n * (p r / r))) by exact D.
  apply (is_derive_ext (fun s => S0 * exp (- p s - R0 / s + eps * cos (s / Rd)))); [reflexivity|].
  assert (X : ex_derive (fun s => p s) r) by (eexists; exact D'). assert (U : Derive (fun s => p s) r = 1 / n * (p r / r)) by (apply is_derive_unique; exact D'). unfold Sigma. fold S0 Rd R0 eps n.
  change (Rpower (r / Rd) (1 / n)) with (p r). auto_derive; [repeat split; [exact X|lra]|]. rewrite U. unfold Rdiv. set (e := exp _). clearbody e p. field. lra.
Qed.
Lemma L1_derive r : 0 < r -> is_derive L1 r (L2 r).
Proof.
  intros K. pose proof (rpow_derive (1 / n) r K) as D. pose proof VR. pose proof Vn. 
  set (p := fun s => Rpower (s / Rd) (1 / n)) in *.
  assert (D' : is_derive p r (1 / n * (p r / r))) by exact D.
  apply (is_derive_ext (fun s => R0 / s ^ 2 - 1 / n * (p s / s) - eps * sin (s / Rd) / Rd)); [reflexivity|].
  assert (X : ex_derive (fun s => p s) r) by (eexists; exact D'). assert (U : Derive (fun s => p s) r = 1 / n * (p r / r)) by (apply is_derive_unique; exact D').
  unfold L2. change (Rpower (r / Rd) (1 / n)) with (p r). auto_derive; [repeat split; [nra|exact X|lra]|]. rewrite U. clearbody p. unfold Rdiv. field. lra.
Qed.
Lemma sig1_derive r : 0 < r -> is_derive Sig1 r (Sig2 r).
Proof.
  intros K. unfold Sig1, Sig2. pose proof (sigma_derive r K) as D. pose proof (L1_derive r K) as E.
  replace (Sigma P r * (L1 r ^ 2 + L2 r)) with (Sig1 r * L1 r + Sigma P r * L2 r) by (unfold Sig1; ring).
  apply (is_derive_mult (K := R_AbsRing) (Sigma P) L1); [exact D|exact E|intros a b; apply Rmult_comm].
Qed.
Lemma rich_eval r : 0 < r -> radialRich P r = (Fin (Sigma P r), Fin (Sig1 r), Fin (Sig2 r)).
Proof.
  intros K. pose proof VR. pose proof Vn. unfold radialRich. fold S0 Rd R0 eps n. rewrite (Req_b_f r 0) by lra. rewrite andb_false_r. unfold ninv. rewrite (Req_b_f r 0) by lra.
  rewrite (Rlt_b_t _ _ K). replace (r * (1 / Rd)) with (r / Rd) by (unfold Rdiv; ring). rewrite mpow_pos by (apply Rdiv_lt_0_compat; lra).
  set (p := Rpower (r / Rd) (1 / n)). cbv zeta.
  replace (if negb (Req_b R0 0) then nmul (Fin R0) (Fin (1 / r)) else Fin 0) with (Fin (R0 / r)).
  2:{ destruct (Req_EM_T R0 0) as [E|E]; [rewrite (Req_b_t _ _ E), E|rewrite (Req_b_f _ _ E)]; cbn [negb nmul]; f_equal; unfold Rdiv; ring. }
  replace (if negb (Req_b eps 0) then eps * cos (r / Rd) else 0) with (eps * cos (r / Rd)).
  2:{ destruct (Req_EM_T eps 0) as [E|E]; [rewrite (Req_b_t _ _ E), E|rewrite (Req_b_f _ _ E)]; cbn [negb]; ring. }
  replace (if negb (Req_b eps 0) then eps * sin (r / Rd) else 0) with (eps * sin (r / Rd)).
  2:{ destruct (Req_EM_T eps 0) as [E|E]; [rewrite (Req_b_t _ _ E), E|rewrite (Req_b_f _ _ E)]; cbn [negb]; ring. }
  replace (if Req_b (1 / n) 1 then Fin 0 else (nmul (Fin p) (Fin (1 / r)) * Fin (1 / r) * Fin (1 / n) * Fin (1 - 1 / n))%num) with (Fin (1 / n * (1 - 1 / n) * (p / r ^ 2))).
  2:{ destruct (Req_EM_T (1 / n) 1) as [E|E]; [rewrite (Req_b_t _ _ E), E|rewrite (Req_b_f _ _ E)]; cbn [nmul]; f_equal; field; lra. }
  cbn [nmul nadd nsub nopp nexp nonzero].
  assert (ES : S0 * exp (- (R0 / r) + - p + eps * cos (r / Rd)) = Sigma P r) by (unfold Sigma; fold S0 Rd R0 eps n p; do 2 f_equal; ring). rewrite ES.
  assert (H1 : R0 / r * (1 / r) + - (1 / n * (p * (1 / r))) + - (eps * sin (r / Rd) * (1 / Rd)) = L1 r) by (unfold L1; fold p; field; lra). rewrite H1.
  destruct (Req_EM_T (Sigma P r) 0) as [Z|Z]; [rewrite (Req_b_t _ _ Z)|rewrite (Req_b_f _ _ Z)]; cbn [negb].
  - unfold Sig1, Sig2. rewrite Z. rewrite !Rmult_0_l. reflexivity.
  - unfold Sig1, Sig2, L2. fold p. cbn [nmul]. apply (f_equal2 pair); [apply (f_equal2 pair); [reflexivity|f_equal; ring]|]. f_equal. unfold pow_2. set (l := L1 r). clearbody l p. field. lra.
Qed.
Lemma exp_eval : R0 = 0 -> eps = 0 -> n = 1 -> forall r, 0 < r -> radialExp P r = (Fin (Sigma P r), Fin (Sig1 r), Fin (Sig2 r)).
Proof.
  intros E1 E2 E3 r K. pose proof VR. unfold Sig1, Sig2, L1, L2, Sigma, radialExp. fold S0 Rd R0 eps n. rewrite E1, E2, E3. replace (1 / 1) with 1 by field. rewrite Rpower_1 by (apply Rdiv_lt_0_compat; lra).
  replace (- (r / Rd) - 0 / r + 0 * cos (r / Rd)) with (- r * (1 / Rd)) by (field; lra). unfold pow_2. set (e := exp _). set (c := cos _). set (s := sin _). clearbody e c s.
  apply (f_equal2 pair); [apply (f_equal2 pair); [reflexivity|]|]; f_equal; field; lra.
Qed.
End Radial.

Lemma createRadial_valid P : (exists g, createRadial P = Some g) <-> valid P.
Proof.
  unfold createRadial, valid. split.
  - intros (g & E). destruct (Rle_lt_dec (scaleRadius P) 0) as [K1|K1]; [rewrite (Rle_b_t _ _ K1) in E; discriminate|]. rewrite (Rle_b_f _ _ K1) in E.
    destruct (Rlt_le_dec (innerCutoffRadius P) 0) as [K2|K2]; [rewrite (Rlt_b_t _ _ K2) in E; discriminate|]. rewrite (Rlt_b_f _ _ K2) in E.
    destruct (Rle_lt_dec (sersicIndex P) 0) as [K3|K3]; [rewrite (Rle_b_t _ _ K3) in E; discriminate|]. tauto.
  - intros (K1 & K2 & K3). rewrite (Rle_b_f _ _ K1), (Rlt_b_f _ _ K2), (Rle_b_f _ _ K3). destruct (_ && _); eexists; reflexivity.
Qed.
Lemma createRadial_eval P g : createRadial P = Some g -> forall r, 0 < r -> g r = (Fin (Sigma P r), Fin (Sig1 P r), Fin (Sig2 P r)).
Proof.
  intros E. assert (V : valid P) by (apply createRadial_valid; exists g; exact E). pose proof V as (K1 & K2 & K3). unfold createRadial in E. rewrite (Rle_b_f _ _ K1), (Rlt_b_f _ _ K2), (Rle_b_f _ _ K3) in E.
  destruct (Req_EM_T (innerCutoffRadius P) 0) as [E1|E1]; [rewrite (Req_b_t _ _ E1) in E|rewrite (Req_b_f _ _ E1) in E].
  destruct (Req_EM_T (modulationAmplitude P) 0) as [E2|E2]; [rewrite (Req_b_t _ _ E2) in E|rewrite (Req_b_f _ _ E2) in E].
  destruct (Req_EM_T (sersicIndex P) 1) as [E3|E3]; [rewrite (Req_b_t _ _ E3) in E|rewrite (Req_b_f _ _ E3) in E].
  all: cbn [andb] in E; injection E as <-; intros r K; first [apply rich_eval; assumption|apply exp_eval; assumption].
Qed.
(** in the centre: with a hole everything is zero *)
Lemma createRadial_hole P g : createRadial P = Some g -> innerCutoffRadius P <> 0 -> g 0 = (Fin 0, Fin 0, Fin 0).
Proof.
  intros E N. assert (V : valid P) by (apply createRadial_valid; exists g; exact E). pose proof V as (K1 & K2 & K3). unfold createRadial in E. rewrite (Rle_b_f _ _ K1), (Rlt_b_f _ _ K2), (Rle_b_f _ _ K3), (Req_b_f _ _ N) in E. cbn [andb] in E. injection E as <-.
  unfold radialRich. rewrite (Req_b_f _ _ N), (Req_b_t 0 0) by reflexivity. reflexivity.
Qed.
(** without: the value is right, the derivatives are NaN *)
Lemma rich_zero P : valid P -> innerCutoffRadius P = 0 -> surfaceDensity P <> 0 -> 
  radialRich P 0 = (Fin (surfaceDensity P * exp (modulationAmplitude P)), NaN, NaN).
Proof.
  intros (K1 & K2 & K3) E N. unfold radialRich. rewrite (Req_b_t _ _ E). cbn [negb andb]. unfold ninv. rewrite (Req_b_t 0 0) by reflexivity. rewrite Rmult_0_l.
  rewrite mpow_0 by (apply Rdiv_lt_0_compat; lra). rewrite (Rlt_b_f 0 0) by lra. cbv zeta. rewrite cos_0, sin_0.
  set (q := if Req_b (1 / sersicIndex P) 1 then Fin 1 else _).
  replace (if negb (Req_b (modulationAmplitude P) 0) then modulationAmplitude P * 1 else 0) with (modulationAmplitude P).
  2:{ destruct (Req_EM_T (modulationAmplitude P) 0) as [E1|E1]; [rewrite (Req_b_t _ _ E1), E1|rewrite (Req_b_f _ _ E1)]; cbn [negb]; ring. }
  cbn [nmul nadd nsub nopp nexp]. rewrite (Req_b_t 0 0) by reflexivity. cbn [nadd nmul].
  replace (- 0 + - 0 + modulationAmplitude P) with (modulationAmplitude P) by ring. set (v := surfaceDensity P * exp (modulationAmplitude P)).
  assert (NV : v <> 0) by (unfold v; pose proof (exp_pos (modulationAmplitude P)); apply Rmult_integral_contrapositive_currified; lra).
  unfold nonzero. rewrite (Req_b_f _ _ NV). cbn [negb nmul nadd]. unfold nsub. cbn [nadd nmul nopp]. reflexivity.
Qed.
