(** Ferrers potential: gradient, Hessian and Poisson equation off the sphere r = 10 a *)
From Coq Require Import Reals Lra Psatz Bool.
From Coquelicot Require Import Coquelicot.
From Verif Require Import RandReal RandRealProofs PolyModel PolyProofs CoordModel CoordSpec CoordCalc CoordAtan CoordMaps RootProofs PotModel PotSpec DiskModel DfProofs DfProofs2 FerrersModel FerrersSpec FerrersProofs FerrersProofs2 FerrersProofs3.
Local Open Scope R_scope.

Opaque computeW.
Section F.
Variable P : ferrers.
Hypothesis V : fvalid P.
Variable root : vec3 -> R.
Hypothesis HR : is_root P root.
Local Notation lam := (lamOf P root).
Definition Nval (p : vec3) : R := nval P (computeW P (lam p)) p.
Definition Ngrad (p : vec3) : vec3 := ngrad P (computeW P (lam p)) p.
Definition Nhess (p : vec3) : hess6 := nhess P (computeW P (lam p)) p.

Lemma cont2_dn l0 t : 0 <= l0 -> continuous (fun z : R * R => dn P (snd z)) (t, l0).
Proof.
  intros L. apply (continuous_comp (fun z : R * R => snd z) (dn P)); [apply continuous_snd|]. cbn [snd]. apply (ex_derive_continuous (dn P)). eexists. apply (dn_derive P V). apply ge_c; assumption.
Qed.
Lemma cont2_snd l0 t m : continuous (fun z : R * R => m + snd z) (t, l0).
Proof. apply (continuous_plus (fun _ : R * R => m) (fun z : R * R => snd z)); [apply continuous_const|apply continuous_snd]. Qed.
Lemma cont2_fst (c : R -> R) t l0 u : is_derive c t u -> continuous (fun z : R * R => c (fst z)) (t, l0).
Proof. intros D. apply (continuous_comp (fun z : R * R => fst z) c); [apply continuous_fst|]. cbn [fst]. apply (ex_derive_continuous c). eexists; exact D. Qed.
Lemma cont_inv' {U : UniformSpace} (f : U -> R) (x : U) : continuous f x -> f x <> 0 -> continuous (fun y => / f y) x.
Proof. intros C N. apply (continuous_comp f Rinv); [exact C|]. apply (continuous_Rinv (f x)). exact N. Qed.
Lemma cont2_ell (c1 c2 c3 : R -> R) (t l0 u1 u2 u3 : R) : 0 <= l0 -> is_derive c1 t u1 -> is_derive c2 t u2 -> is_derive c3 t u3 -> continuous (fun z : R * R => ell P (c1 (fst z), c2 (fst z), c3 (fst z)) (snd z)) (t, l0).
Proof.
  intros L D1 D2 D3. destruct (sq_pos P V) as (S1 & S2 & S3). unfold ell, v1, v2, v3. cbn [fst snd].
  assert (Q : forall (c : R -> R) u m, is_derive c t u -> 0 < m -> continuous (fun z : R * R => c (fst z) ^ 2 / (m + snd z)) (t, l0)).
  { intros c u m D M. unfold Rdiv. apply (continuous_mult (fun z : R * R => c (fst z) ^ 2) (fun z : R * R => / (m + snd z))).
    - cbn [pow]. apply (continuous_mult (fun z : R * R => c (fst z)) (fun z : R * R => c (fst z) * 1)); [eapply cont2_fst; exact D|]. apply (continuous_mult (fun z : R * R => c (fst z)) (fun z : R * R => 1)); [eapply cont2_fst; exact D|apply continuous_const].
    - apply (cont_inv' (fun z : R * R => m + snd z)); [apply cont2_snd|cbn [snd]; lra]. }
  apply (continuous_plus (fun z : R * R => c1 (fst z) ^ 2 / (fa P ^ 2 + snd z) + c2 (fst z) ^ 2 / (fb P ^ 2 + snd z)) (fun z : R * R => c3 (fst z) ^ 2 / (fc P ^ 2 + snd z))); [|eapply Q; eassumption].
  apply (continuous_plus (fun z : R * R => c1 (fst z) ^ 2 / (fa P ^ 2 + snd z)) (fun z : R * R => c2 (fst z) ^ 2 / (fb P ^ 2 + snd z))); eapply Q; eassumption.
Qed.
Lemma cont_pow' {U : UniformSpace} (f : U -> R) (x : U) (n : nat) : continuous f x -> continuous (fun y => f y ^ n) x.
Proof. intros C. induction n as [|n IH]; cbn [pow]; [apply continuous_const|]. apply (continuous_mult f (fun y => f y ^ n)); assumption. Qed.
(** any expression which depends on lambda only through terms that vanish on the confocal ellipsoid *)
Lemma through (Fn : wtab -> vec3 -> R) (G : wtab -> vec3 -> vec3) (k : vec3 -> R) (m : R) (n : nat) (p : vec3) :
  (forall W q, is_grad (Fn W) q (G W q)) -> (forall x, continuous k x) ->
  (0 < m) -> (forall q l, - (fc P * fc P) < l -> is_derive (fun s => Fn (computeW P s) q) l (k q * ((1 - ell P q l) ^ S n / (dn P l * m)))) \/
  (0 < m) /\ (forall q l, - (fc P * fc P) < l -> is_derive (fun s => Fn (computeW P s) q) l (k q * ((1 - ell P q l) ^ S n / (dn P l * (l + m))))) ->
  is_grad (fun q => Fn (computeW P (lam q)) q) p (G (computeW P (lam p)) p).
Proof.
  intros HG HK Mp HD0.
  assert (HD : exists w : R -> R, (forall l0 (t : R), 0 <= l0 -> continuous (fun z : R * R => w (snd z)) (t, l0) /\ 0 < w l0) /\ forall q l, - (fc P * fc P) < l -> is_derive (fun s => Fn (computeW P s) q) l (k q * ((1 - ell P q l) ^ S n / (dn P l * w l)))).
  { destruct HD0 as [H|(_ & H)]; [exists (fun _ => m)|exists (fun l => l + m)]; (split; [intros l0 t L0; split|exact H]); [apply continuous_const|exact Mp| |lra].
    apply (continuous_plus (fun z : R * R => snd z) (fun _ => m)); [apply continuous_snd|apply continuous_const]. }
  clear HD0. destruct HD as (w & Hw & HD).
  destruct (Rlt_dec (ell P p 0) 1) as [I|O].
  - (* inside *)
    apply (is_grad_ext_loc (Fn (computeW P 0))); [|rewrite (lam_in P V root) by lra; apply HG].
    destruct (sq_pos P V) as (S1 & S2 & S3).
    assert (CE : continuous (fun q : vec3 => ell P q 0 - 1) p).
    { unfold ell. apply (continuous_minus (fun q : vec3 => v1 q ^ 2 / (fa P ^ 2 + 0) + v2 q ^ 2 / (fb P ^ 2 + 0) + v3 q ^ 2 / (fc P ^ 2 + 0)) (fun _ => 1)); [|apply continuous_const]. unfold Rdiv. cbn [pow]. cont. }
    generalize (locally_neg_U _ p CE ltac:(cbn; lra)). apply filter_imp. intros q Hq. rewrite (lam_in P V root) by lra. reflexivity.
  - (* outside or on the boundary *)
    destruct p as [[x y] z]. intros c1 c2 c3 t u1 u2 u3 Ep D1 D2 D3. set (l0 := lam (x, y, z)).
    assert (HO : 1 <= ell P (c1 t, c2 t, c3 t) 0) by (rewrite Ep; lra). destruct (lam_lip P V root HR c1 c2 c3 t u1 u2 u3 D1 D2 D3 HO) as (C & L). pose proof (lam_ge P V root HR (x, y, z)) as G0. fold l0 in G0. rewrite Ep in L. fold l0 in L.
    assert (Mc : 0 < fc P * fc P) by (destruct V as (V1 & _); apply Rmult_lt_0_compat; exact V1). destruct (Hw l0 t G0) as (Hw1 & Hw2). destruct (dn_pos P V l0 (ge_c P V l0 G0)) as (Np & _).
    apply (lip_zero (fun s l => Fn (computeW P l) (c1 s, c2 s, c3 s)) (fun s l => k (c1 s, c2 s, c3 s) * ((1 - ell P (c1 s, c2 s, c3 s) l) ^ S n / (dn P l * w l))) (fun s => lam (c1 s, c2 s, c3 s)) t l0 _ C (fc P * fc P)).
    + rewrite Ep. reflexivity.
    + exact Mc.
    + exact L.
    + intros s l Hl. apply HD. apply Rabs_def2 in Hl. lra.
    + cbn [fst snd]. apply (continuous_mult (fun z : R * R => k (c1 (fst z), c2 (fst z), c3 (fst z))) (fun z : R * R => (1 - ell P (c1 (fst z), c2 (fst z), c3 (fst z)) (snd z)) ^ S n / (dn P (snd z) * w (snd z)))).
      * apply (continuous_comp (fun z : R * R => (c1 (fst z), c2 (fst z), c3 (fst z))) k); [|apply HK]. apply (triple_continuous (fun z : R * R => c1 (fst z)) (fun z : R * R => c2 (fst z)) (fun z : R * R => c3 (fst z))); eapply cont2_fst; eassumption.
      * unfold Rdiv. apply (continuous_mult (fun z : R * R => (1 - ell P (c1 (fst z), c2 (fst z), c3 (fst z)) (snd z)) ^ S n) (fun z : R * R => / (dn P (snd z) * w (snd z)))).
        -- apply (cont_pow' (fun z : R * R => 1 - ell P (c1 (fst z), c2 (fst z), c3 (fst z)) (snd z))). apply (continuous_minus (fun _ : R * R => 1) (fun z : R * R => ell P (c1 (fst z), c2 (fst z), c3 (fst z)) (snd z))); [apply continuous_const|eapply cont2_ell; eassumption].
        -- apply (cont_inv' (fun z : R * R => dn P (snd z) * w (snd z))); [apply (continuous_mult (fun z : R * R => dn P (snd z)) (fun z : R * R => w (snd z))); [apply cont2_dn; exact G0|exact Hw1]|]. cbn [snd]. apply Rmult_integral_contrapositive_currified; lra.
    + rewrite Ep. unfold l0 at 1. rewrite (lam_ell P V root HR) by lra. replace (1 - 1) with 0 by ring. rewrite pow_i by (apply PeanoNat.Nat.lt_0_succ). unfold Rdiv. ring.
    + apply (HG (computeW P l0) (x, y, z) c1 c2 c3 t u1 u2 u3 Ep D1 D2 D3).
Qed.
Lemma Ngrad_ok p : is_grad Nval p (Ngrad p).
Proof.
  apply (through (nval P) (ngrad P) (fun _ => PI * frho0 P * fa P * fb P * fc P / 3) 1 2).
  - intros W q. apply near_grad.
  - intros x. apply continuous_const.
  - lra.
  - left. intros [[x y] z] l H. pose proof (nval_l P V x y z l H) as D. rewrite Rmult_1_r. exact D.
Qed.
Lemma kcont1 k : forall x : vec3, continuous (fun q : vec3 => - 2 * k * v1 q) x. Proof. intros x. cont. Qed.
Lemma kcont2 k : forall x : vec3, continuous (fun q : vec3 => - 2 * k * v2 q) x. Proof. intros x. cont. Qed.
Lemma kcont3 k : forall x : vec3, continuous (fun q : vec3 => - 2 * k * v3 q) x. Proof. intros x. cont. Qed.
Lemma Nh1_ok p : is_grad (fun q => v1 (Ngrad q)) p (h11 (Nhess p), h12 (Nhess p), h13 (Nhess p)).
Proof.
  destruct V as (V1 & V2 & V3).
  apply (through (fun W q => v1 (ngrad P W q)) (fun W q => (h11 (nhess P W q), h12 (nhess P W q), h13 (nhess P W q))) (fun q => - 2 * (PI * frho0 P * fa P * fb P * fc P) * v1 q) (fa P * fa P) 1).
  - intros W q. apply near_h1.
  - apply kcont1.
  - apply Rmult_lt_0_compat; lra.
  - right. split; [apply Rmult_lt_0_compat; lra|]. intros [[x y] z] l H. exact (ngrad1_l P V x y z l H).
Qed.
Lemma Nh2_ok p : is_grad (fun q => v2 (Ngrad q)) p (h12 (Nhess p), h22 (Nhess p), h23 (Nhess p)).
Proof.
  destruct V as (V1 & V2 & V3).
  apply (through (fun W q => v2 (ngrad P W q)) (fun W q => (h12 (nhess P W q), h22 (nhess P W q), h23 (nhess P W q))) (fun q => - 2 * (PI * frho0 P * fa P * fb P * fc P) * v2 q) (fb P * fb P) 1).
  - intros W q. apply near_h2.
  - apply kcont2.
  - apply Rmult_lt_0_compat; lra.
  - right. split; [apply Rmult_lt_0_compat; lra|]. intros [[x y] z] l H. exact (ngrad2_l P V x y z l H).
Qed.
Lemma Nh3_ok p : is_grad (fun q => v3 (Ngrad q)) p (h13 (Nhess p), h23 (Nhess p), h33 (Nhess p)).
Proof.
  destruct V as (V1 & V2 & V3).
  apply (through (fun W q => v3 (ngrad P W q)) (fun W q => (h13 (nhess P W q), h23 (nhess P W q), h33 (nhess P W q))) (fun q => - 2 * (PI * frho0 P * fa P * fb P * fc P) * v3 q) (fc P * fc P) 1).
  - intros W q. apply near_h3.
  - apply kcont3.
  - apply Rmult_lt_0_compat; lra.
  - right. split; [apply Rmult_lt_0_compat; lra|]. intros [[x y] z] l H. exact (ngrad3_l P V x y z l H).
Qed.
Lemma N_hess p : is_hess_with Nval Ngrad p (Nhess p).
Proof. split; [apply filter_forall; intros q; apply Ngrad_ok|]. split; [apply Nh1_ok|]. split; [apply Nh2_ok|apply Nh3_ok]. Qed.
Lemma N_trace p : trace (Nhess p) = 4 * PI * ferDensity P p.
Proof.
  unfold Nhess. rewrite (near_trace P V p) by (apply ge_c, lam_ge; assumption). destruct V as (V1 & V2 & V3). assert (Pp : 0 < PI) by apply PI_RGT_0.
  assert (ED : ferDensity P p = if Rlt_b 1 (ell P p 0) then 0 else frho0 P * (1 - ell P p 0) ^ 2).
  { destruct p as [[x y] z]. unfold ferDensity. replace (pow_2 (x / fa P) + pow_2 (y / fb P) + pow_2 (z / fc P)) with (ell P (x, y, z) 0) by (unfold ell, CoordModel.v1, v2, v3, pow_2; cbn [fst snd]; field; repeat split; lra). unfold pow_2. cbn [pow]. rewrite Rmult_1_r. reflexivity. }
  rewrite ED. destruct (Rlt_dec 1 (ell P p 0)) as [H|H].
  - rewrite Rlt_b_t by exact H. rewrite (lam_ell P V root HR) by lra. unfold Rdiv. ring.
  - rewrite Rlt_b_f by lra. rewrite (lam_in P V root) by lra. unfold dn. rewrite !Rplus_0_l. replace (fa P * fa P * (fb P * fb P) * (fc P * fc P)) with ((fa P * fb P * fc P) * (fa P * fb P * fc P)) by ring. rewrite sqrt_square by (left; repeat apply Rmult_lt_0_compat; lra). field. repeat split; lra.
Qed.

(** far branch *)
Definition Fval (p : vec3) : R := fst (fst (ferFar P p)).
Definition Fgrad (p : vec3) : vec3 := snd (fst (ferFar P p)).
Definition Fhess (p : vec3) : hess6 := snd (ferFar P p).
Definition far (p : vec3) : Prop := 0 < v1 p * v1 p + v2 p * v2 p + v3 p * v3 p.
Lemma far_open p : far p -> locally p far.
Proof. intros H. apply (locally_pos_U (fun q : vec3 => v1 q * v1 q + v2 q * v2 q + v3 q * v3 q)); [cont|exact H]. Qed.
Ltac fcurve H := gcurve; unfold far, Fval, Fgrad, Fhess, ferFar, pow_2, CoordModel.v1, v2, v3 in *; cbn [fst snd h11 h12 h13 h22 h23 h33] in *; pose proof (sqrt_lt_R0 _ H) as S0; pose proof (sqrt_sqrt _ (Rlt_le _ _ H)) as S2.
Ltac ffin H S0 S2 := clear - H S0 S2; set (d := sqrt _) in *; clearbody d;
  match goal with c1 : R -> R, c2 : R -> R, c3 : R -> R, t : R |- _ => idtac end.
Lemma Fgrad_ok p : far p -> is_grad Fval p (Fgrad p).
Proof.
  destruct p as [[x y] z]. intros H. fcurve H. assert (N1 : 0 < (c1 t * c1 t + c2 t * c2 t + c3 t * c3 t) * (c1 t * c1 t + c2 t * c2 t + c3 t * c3 t)) by (apply Rmult_lt_0_compat; exact H).
  auto_derive; [repeat split; try assumption; try (apply Rgt_not_eq; assumption)|]. gfin.
  set (d := sqrt _) in *. set (k := 32 * PI / 105 * frho0 P * fa P * fb P * fc P). clear - H S0 S2. clearbody d k. assert (E : c1 t * c1 t + c2 t * c2 t + c3 t * c3 t = d * d) by lra. rewrite !E.
  set (X := c1 t) in *. set (Y := c2 t) in *. set (Zz := c3 t) in *. clearbody X Y Zz. assert (E' : Zz * Zz = d * d - X * X - Y * Y) by lra. assert (E'' : Zz ^ 2 = d * d - X * X - Y * Y) by lra. field_simplify_eq; [|lra]. ring [E' E''].
Qed.
Ltac fgo H S0 S2 :=
  match goal with c1 : R -> R, c2 : R -> R, c3 : R -> R, t : R |- _ =>
  assert (N1 : 0 < (c1 t * c1 t + c2 t * c2 t + c3 t * c3 t) * (c1 t * c1 t + c2 t * c2 t + c3 t * c3 t)) by (apply Rmult_lt_0_compat; exact H);
  auto_derive; [repeat split; try assumption; try (apply Rgt_not_eq; assumption)|]; gfin;
  set (d := sqrt _) in *; set (k := 32 * PI / 105 * frho0 P * fa P * fb P * fc P); clear - H S0 S2; clearbody d k; assert (E : c1 t * c1 t + c2 t * c2 t + c3 t * c3 t = d * d) by lra; rewrite !E;
  let X := fresh "X" in let Y := fresh "Y" in let Zz := fresh "Zz" in
  set (X := c1 t) in *; set (Y := c2 t) in *; set (Zz := c3 t) in *; clearbody X Y Zz; assert (E' : Zz ^ 2 = d * d - X * X - Y * Y) by lra; field_simplify_eq; [|lra];
  assert (E3 : Zz ^ 3 = Zz * (d * d - X * X - Y * Y)) by (rewrite <- E'; ring);
  assert (E4 : Zz ^ 4 = (d * d - X * X - Y * Y) ^ 2) by (rewrite <- E'; ring);
  assert (E5 : Zz ^ 5 = Zz * (d * d - X * X - Y * Y) ^ 2) by (rewrite <- E'; ring);
  assert (E6 : Zz ^ 6 = (d * d - X * X - Y * Y) ^ 3) by (rewrite <- E'; ring);
  ring [E' E3 E4 E5 E6] end.
Lemma Fh1_ok p : far p -> is_grad (fun q => v1 (Fgrad q)) p (h11 (Fhess p), h12 (Fhess p), h13 (Fhess p)).
Proof. destruct p as [[x y] z]. intros H. fcurve H. fgo H S0 S2. Qed.
Lemma Fh2_ok p : far p -> is_grad (fun q => v2 (Fgrad q)) p (h12 (Fhess p), h22 (Fhess p), h23 (Fhess p)).
Proof. destruct p as [[x y] z]. intros H. fcurve H. fgo H S0 S2. Qed.
Lemma Fh3_ok p : far p -> is_grad (fun q => v3 (Fgrad q)) p (h13 (Fhess p), h23 (Fhess p), h33 (Fhess p)).
Proof. destruct p as [[x y] z]. intros H. fcurve H. fgo H S0 S2. Qed.
Lemma F_hess p : far p -> is_hess_with Fval Fgrad p (Fhess p).
Proof. intros H. apply (hess_open far); [apply far_open, H|apply Fgrad_ok|apply Fh1_ok, H|apply Fh2_ok, H|apply Fh3_ok, H]. Qed.
Lemma F_trace p : far p -> trace (Fhess p) = 0.
Proof.
  destruct p as [[x y] z]. intros H. unfold trace, far, Fhess, ferFar, pow_2, CoordModel.v1, v2, v3 in *; cbn [fst snd h11 h12 h13 h22 h23 h33] in *. pose proof (sqrt_lt_R0 _ H) as S0. pose proof (sqrt_sqrt _ (Rlt_le _ _ H)) as S2.
  set (d := sqrt _) in *. set (k := 32 * PI / 105 * frho0 P * fa P * fb P * fc P). clear - H S0 S2. clearbody d k. rewrite <- !S2.
  assert (E' : z ^ 2 = d * d - x * x - y * y) by lra. field_simplify_eq; [|lra].
  assert (E3 : z ^ 3 = z * (d * d - x * x - y * y)) by (rewrite <- E'; ring). assert (E4 : z ^ 4 = (d * d - x * x - y * y) ^ 2) by (rewrite <- E'; ring).
  ring [E' E3 E4].
Qed.
End F.
