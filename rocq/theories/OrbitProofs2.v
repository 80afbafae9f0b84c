(** Newton's equation for the output of the orbit integrators; integrals of motion *)
From Coq Require Import Reals Lra Psatz Bool ZArith Lia.
From Coquelicot Require Import Coquelicot.
From Verif Require Import RandReal RandRealProofs PolyModel PolyProofs MathModel MathProofs CoordModel CoordSpec CoordCalc CoordAtan CoordMaps CoordMaps2 CoordProofs CoordVel OrientModel OrientSpec PotModel PotSpec OrbitModel OrbitSpec OrbitProofs RootProofs.
Local Open Scope R_scope.

Ltac ntr H := match type of H with is_derive ?f ?t ?l => match goal with |- is_derive _ _ ?r => replace r with l; [exact H|] end end.
(** ---- Cartesian ---- *)
Lemma is_derive3_ext X X' t v : (forall s, X s = X' s) -> is_derive3 X t v -> is_derive3 X' t v.
Proof. intros E (A & B & C). split; [|split]; (eapply is_derive_ext; [intros s; rewrite <- E; reflexivity|]); assumption. Qed.
Lemma newton_ext Phi Om out out' t : (forall s, out s = out' s) -> newton Phi Om out t -> newton Phi Om out' t.
Proof.
  intros E (A & g & B & C). split.
  - cbn [inertial fst snd] in *. rewrite <- E. revert A. apply is_derive3_ext. intros s. rewrite E. reflexivity.
  - exists g. cbn [inertial fst snd] in *. rewrite <- E. split; [exact B|]. revert C. apply is_derive3_ext. intros s. rewrite E. reflexivity.
Qed.
Lemma eval_Car_eq c Om t x : let a := Om * t in
  eval_Car c Om t x = (snd x, let g := gof (p_eval c Car gradOnly t (rotZ a (fst x))) in (- v1 g * cos a + v2 g * sin a, - v2 g * cos a - v1 g * sin a, - v3 g)).
Proof.
  destruct x as [[[x y] z] [[vx vy] vz]]. cbv zeta. unfold eval_Car. destruct (Req_EM_T Om 0) as [-> | N].
  - rewrite Req_b_t by reflexivity. rewrite Rmult_0_l. unfold rotZ. rewrite cos_0, sin_0. unv.
    replace (x * 1 + y * 0, y * 1 - x * 0, z) with (1 * x + 0 * y, - 0 * x + 1 * y, z) by (apply v_eq; ring). destruct (gof _) as [[gx gy] gz]. reflexivity.
  - rewrite Req_b_f by exact N. unfold rotZ. unv.
    replace (x * cos (Om * t) + y * sin (Om * t), y * cos (Om * t) - x * sin (Om * t), z) with (cos (Om * t) * x + sin (Om * t) * y, - sin (Om * t) * x + cos (Om * t) * y, z) by (apply v_eq; ring).
    destruct (gof _) as [[gx gy] gz]. reflexivity.
Qed.
Lemma out_Car_eq Om t d : out_Car Om t d = (rotZ (Om * t) (fst d), rotZ (Om * t) (snd d)).
Proof.
  destruct d as [[[x y] z] [[vx vy] vz]]. unfold out_Car, getSol_Car, rotZ. destruct (Req_EM_T Om 0) as [-> | N].
  - rewrite Req_b_t by reflexivity. rewrite Rmult_0_l, cos_0, sin_0. unv. apply pv_eq; cbn [fst snd]; apply v_eq; ring.
  - rewrite Req_b_f by exact N. unv. apply pv_eq; cbn [fst snd]; apply v_eq; ring.
Qed.
Lemma rotZ_inv a v : rotZ (- a) (rotZ a v) = v.
Proof. destruct v as [[x y] z]. unfold rotZ. rewrite cos_neg, sin_neg. unv. pose proof (cs1 a) as CS. csgen a. apply v_eq; ring [CS]. Qed.
Lemma rotZ_inv' a v : rotZ a (rotZ (- a) v) = v.
Proof. destruct v as [[x y] z]. unfold rotZ. rewrite cos_neg, sin_neg. unv. pose proof (cs1 a) as CS. csgen a. apply v_eq; ring [CS]. Qed.
Lemma newton_Car c Phi Om y t gc : represents c Phi t Car (rotZ (Om * t) (fst (y t))) -> is_grad (Phi t) (rotZ (Om * t) (fst (y t))) gc ->
  ode (eval_Car c Om) y t -> newton Phi Om (fun s => out_Car Om s (y s)) t.
Proof.
  intros Rp G (D1 & D2). rewrite eval_Car_eq in D1, D2. cbv zeta in D2. cbn [fst snd] in D1, D2.
  rewrite (returned_grad c Phi t Car _ gc Rp) in D2 by (revert G; apply is_grad_ext; intros [[a b] d]; reflexivity).
  assert (EX : forall s, rotZ (- (Om * s)) (fst (out_Car Om s (y s))) = fst (y s)) by (intros s; rewrite out_Car_eq; apply rotZ_inv).
  assert (EV : forall s, rotZ (- (Om * s)) (snd (out_Car Om s (y s))) = snd (y s)) by (intros s; rewrite out_Car_eq; apply rotZ_inv).
  split; cbn [inertial fst snd].
  - rewrite EV. revert D1. apply is_derive3_ext. intros s. symmetry. apply EX.
  - destruct gc as [[gx gy] gz]. rewrite EX. exists (gx * cos (Om * t) - gy * sin (Om * t), gx * sin (Om * t) + gy * cos (Om * t), gz). split.
    + apply grad_rot. exact G.
    + unv. apply (is_derive3_ext (fun s => snd (y s))); [intros s; symmetry; apply EV|]. destruct D2 as (A & B & C). unfold is_derive3. unv. split; [|split]; [ntr A|ntr B|ntr C]; ring.
Qed.
(** ---- cylindrical: Newton's equation in terms of the derivatives of the coordinates and velocities ---- *)
Lemma motion_cyl Phi Om (Rc z phi vR vz vp : R -> R) (t R' z' p' vR' vz' vp' gx gy gz : R) :
  is_derive Rc t R' -> is_derive z t z' -> is_derive phi t p' -> is_derive vR t vR' -> is_derive vz t vz' -> is_derive vp t vp' ->
  is_grad (Phi t) (cart Cyl (Rc t, z t, phi t)) (gx, gy, gz) ->
  let w := p' + Om in let c := cos (phi t) in let s := sin (phi t) in
  R' = vR t -> z' = vz t -> Rc t * w = vp t ->
  vR' = - (gx * c + gy * s) + vp t * w -> vz' = - gz -> vp' = - (- gx * s + gy * c) - vR t * w ->
  newton Phi Om (fun s => toPosVel_YC ((Rc s, z s, phi s), (vR s, vz s, vp s))) t.
Proof.
  intros D1 D2 D3 D4 D5 D6 G w c s E1 E2 E3 E4 E5 E6. split; cbn [inertial fst snd]; [|exists (gx * cos (Om * t) - gy * sin (Om * t), gx * sin (Om * t) + gy * cos (Om * t), gz); split].
  - unfold is_derive3, rotZ, toPosVel_YC. unv. split; [|split]; [| |rewrite <- E2; exact D2].
    + dcurve. der. rewrite cos_neg, sin_neg. rewrite <- E3. unfold w. subst R'. ring.
    + dcurve. der. rewrite cos_neg, sin_neg. rewrite <- E3. unfold w. subst R'. ring.
  - apply grad_rot. rewrite rotZ_inv'. exact G.
  - unfold is_derive3, rotZ, toPosVel_YC. unv. split; [|split]; [| |rewrite <- E5; exact D5].
    + dcurve. der. rewrite cos_neg, sin_neg. subst vR' vp'. fold c s. pose proof (cs1 (phi t)) as CS. fold c s in CS. clearbody c s. unfold w. ring [CS].
    + dcurve. der. rewrite cos_neg, sin_neg. subst vR' vp'. fold c s. pose proof (cs1 (phi t)) as CS. fold c s in CS. clearbody c s. unfold w. ring [CS].
Qed.
Lemma motion_sph Phi Om (r th phi vr vt vp : R -> R) (t r' th' p' vr' vt' vp' gx gy gz : R) :
  is_derive r t r' -> is_derive th t th' -> is_derive phi t p' -> is_derive vr t vr' -> is_derive vt t vt' -> is_derive vp t vp' ->
  is_grad (Phi t) (cart Sph (r t, th t, phi t)) (gx, gy, gz) ->
  let w := p' + Om in let c := cos (phi t) in let s := sin (phi t) in let C := cos (th t) in let S := sin (th t) in
  r' = vr t -> r t * th' = vt t -> r t * S * w = vp t ->
  vr' = - ((gx * c + gy * s) * S + gz * C) + vt t * th' + vp t * S * w ->
  vt' = - ((gx * c + gy * s) * C - gz * S) - vr t * th' + vp t * C * w ->
  vp' = - (- gx * s + gy * c) - vr t * S * w - vt t * C * w ->
  newton Phi Om (fun s => toPosVel_SC ((r s, th s, phi s), (vr s, vt s, vp s))) t.
Proof.
  intros D1 D2 D3 D4 D5 D6 G w c s C S0 E1 E2 E3 E4 E5 E6.
  apply (newton_ext _ _ (fun u => toPosVel_YC ((r u * sin (th u), r u * cos (th u), phi u), (vr u * sin (th u) + vt u * cos (th u), vr u * cos (th u) - vt u * sin (th u), vp u)))).
  { intros u. rewrite SC_eq. reflexivity. }
  apply (motion_cyl Phi Om (fun u => r u * sin (th u)) (fun u => r u * cos (th u)) phi (fun u => vr u * sin (th u) + vt u * cos (th u)) (fun u => vr u * cos (th u) - vt u * sin (th u)) vp t
    (r' * S0 + r t * C * th') (r' * C - r t * S0 * th') p' (vr' * S0 + vr t * C * th' + vt' * C - vt t * S0 * th') (vr' * C - vr t * S0 * th' - vt' * S0 - vt t * C * th') vp' gx gy gz).
  - dcurve. der. fold C S0. ring.
  - dcurve. der. fold C S0. ring.
  - exact D3.
  - dcurve. der. fold C S0. ring.
  - dcurve. der. fold C S0. ring.
  - exact D6.
  - replace (cart Cyl _) with (cart Sph (r t, th t, phi t)); [exact G|]. cbn [cart]. apply v_eq; ring.
  - cbv beta. fold C S0. subst r'. rewrite <- E2. ring.
  - cbv beta. fold C S0. subst r'. rewrite <- E2. ring.
  - cbv beta zeta. fold C S0. fold w. rewrite <- E3. ring.
  - cbv beta zeta. fold C S0 c s w. subst vr' vt'. pose proof (cs1 (th t)) as CS. fold C S0 in CS. clearbody C S0. ring [CS].
  - cbv beta zeta. fold C S0 c s w. subst vr' vt'. pose proof (cs1 (th t)) as CS. fold C S0 in CS. clearbody C S0. ring [CS].
  - cbv beta zeta. fold C S0 c s w. subst vp'. ring.
Qed.
Lemma posvel_eta (d : posvel) : d = ((v1 (fst d), v2 (fst d), v3 (fst d)), (v1 (snd d), v2 (snd d), v3 (snd d))).
Proof. destruct d as [[[a b] c] [[e f] g]]. reflexivity. Qed.
Lemma newton_Cyl c Phi Om y t gx gy gz : let d := getSol_Cyl (y t) in
  represents c Phi t Cyl (fst d) -> is_grad (Phi t) (cart Cyl (fst d)) (gx, gy, gz) ->
  0 < v1 (fst (y t)) \/ (v3 (snd (y t)) = 0 /\ - gx * sin (v3 (fst (y t))) + gy * cos (v3 (fst (y t))) = 0) ->
  ode (eval_Cyl c Om) y t -> newton Phi Om (fun s => out_Cyl (y s)) t.
Proof.
  intros d Rp G Cd (D1 & D2). apply (newton_ext _ _ (fun s => toPosVel_YC (y s))); [intros s; symmetry; apply getSol_Cyl_same|].
  apply (newton_ext _ _ (fun s => toPosVel_YC ((v1 (fst (y s)), v2 (fst (y s)), v3 (fst (y s))), (v1 (snd (y s)), v2 (snd (y s)), v3 (snd (y s)))))); [intros s; rewrite <- posvel_eta; reflexivity|].
  assert (EC : cart Cyl (fst d) = cart Cyl (v1 (fst (y t)), v2 (fst (y t)), v3 (fst (y t)))).
  { unfold d. destruct (y t) as [[[x0 x1] x2] [[vR vz] vphi]]. unfold getSol_Cyl. destruct (Rlt_b x0 0); unv; cbn [cart]; [rewrite neg_cos, neg_sin|]; apply v_eq; ring. }
  assert (Eg : gof (p_eval c Cyl gradOnly t (fst d)) = (gx * cos (v3 (fst d)) + gy * sin (v3 (fst d)), gz, v1 (fst d) * (- gx * sin (v3 (fst d)) + gy * cos (v3 (fst d))))).
  { apply (returned_grad c Phi t Cyl _ _ Rp). apply grad_cyl. exact G. }
  rewrite EC in G. clear Rp EC. destruct D1 as (A1 & A2 & A3), D2 as (B1 & B2 & B3). eapply (motion_cyl Phi Om); try eassumption; clear A1 A2 A3 B1 B2 B3 G; unfold d in *; clear d;
  destruct (y t) as [[[x0 x1] x2] [[vR vz] vphi]]; unfold eval_Cyl, getSol_Cyl in *;
  (destruct (Rlt_le_dec x0 0) as [H|H]; [rewrite Rlt_b_t in * by exact H|rewrite Rlt_b_f in * by exact H]); unv; rewrite Eg; cbn [fst snd]; try reflexivity; rewrite ?neg_cos, ?neg_sin; unfold pow_2.
  all: try (destruct Cd as [Cd|(Cd1 & Cd2)]; [exfalso; lra|]).
  all: try (rewrite (Req_b_f (- x0)) by lra).
  all: try (destruct Cd as [Cd|(Cd1 & Cd2)]; [rewrite Req_b_f by lra|subst vphi]).
  all: try (subst vphi).
  all: try (field; lra).
  all: try (destruct (Req_EM_T x0 0) as [-> | N]; [rewrite Req_b_t by reflexivity|rewrite Req_b_f by exact N]).
  all: try (field; lra).
  - replace (- gx * - sin x2 + gy * - cos x2) with (- (- gx * sin x2 + gy * cos x2)) by ring. rewrite Cd2. field. lra.
  - rewrite Cd2. ring.
Qed.
Lemma newton_Sph c Phi Om y t gx gy gz : let p := fst (fst (normSph (v1 (fst (y t))) (v2 (fst (y t))) (v3 (fst (y t))))) in
  represents c Phi t Sph p -> is_grad (Phi t) (cart Sph p) (gx, gy, gz) ->
  let r := v1 (fst (y t)) in let th := v2 (fst (y t)) in let phi := v3 (fst (y t)) in
  let noPhi := v3 (snd (y t)) = 0 /\ - gx * sin phi + gy * cos phi = 0 in
  let noTheta := v2 (snd (y t)) = 0 /\ (gx * cos phi + gy * sin phi) * cos th - gz * sin th = 0 in
  (0 < r /\ 0 < sin th) \/ (0 < r /\ noPhi) \/ (noTheta /\ noPhi) ->
  ode (eval_Sph c Om) y t -> newton Phi Om (fun s => out_Sph (y s)) t.
Proof.
  intros p Rp G r th phi noPhi noTheta Cd (D1 & D2). apply (newton_ext _ _ (fun s => toPosVel_SC (y s))); [intros s; symmetry; apply getSol_Sph_same|].
  apply (newton_ext _ _ (fun s => toPosVel_SC ((v1 (fst (y s)), v2 (fst (y s)), v3 (fst (y s))), (v1 (snd (y s)), v2 (snd (y s)), v3 (snd (y s)))))); [intros s; rewrite <- posvel_eta; reflexivity|].
  assert (Eg := returned_grad c Phi t Sph p _ Rp (grad_sph _ _ _ _ _ G)). clear Rp.
  unfold p in *. clear p. destruct (normSph_ok (v1 (fst (y t))) (v2 (fst (y t))) (v3 (fst (y t)))) as (r' & th' & phi' & sr & st & EN & Hr & Ht & Er & Rn & Tr & Si & S1 & C1 & Sp & Cp).
  rewrite EN in *. cbn [fst snd] in *.
  assert (EC : cart Sph (r', th', phi') = cart Sph (v1 (fst (y t)), v2 (fst (y t)), v3 (fst (y t)))).
  { cbn [cart]. rewrite S1, C1, Sp, Cp, Er. destruct Hr as [-> | ->], Ht as [-> | ->]; apply v_eq; ring. }
  rewrite EC in G. clear EC. destruct D1 as (A1 & A2 & A3), D2 as (B1 & B2 & B3).
  eapply (motion_sph Phi Om); try eassumption; clear A1 A2 A3 B1 B2 B3 G;
  (destruct (y t) as [[[x0 x1] x2] [[vr vt] vp]]; unfold eval_Sph; unfold v1, v2, v3 in *; cbn [fst snd] in *; subst r th phi noPhi noTheta; rewrite EN, Eg; cbn [fst snd]; try reflexivity); unfold pow_2; rewrite ?S1, ?C1, ?Sp, ?Cp, ?Er.
  all: assert (T0 : 0 <= sin th') by (apply sin_ge_0; lra); rewrite S1 in T0; clear EN Eg S1 C1 Sp Cp.
  all: set (S0 := sin x1) in *; set (C := cos x1) in *; set (s := sin x2) in *; set (k := cos x2) in *; clearbody S0 C s k.
  all: destruct Cd as [(P & Q)|[(P & N1 & N2)|((M1 & M2) & N1 & N2)]].
  all: try (assert (Esr : sr = 1) by (destruct Hr as [|Hr]; [assumption|destruct Si as [Si _]; specialize (Si Hr); lra]); subst sr; rewrite (Req_b_f (1 * x0)) by lra).
  all: try (assert (Est : st = 1) by (destruct Ht as [|Ht]; [assumption|subst st; nra]); subst st; rewrite (Req_b_f (1 * S0)) by lra; field; lra).
  all: try subst vp. all: try subst vt.
  all: try (field; lra).
  all: repeat match goal with |- context [if Req_b ?a 0 then 0 else 1 / ?a] => generalize (if Req_b a 0 then 0 else 1 / a); intros end.
  all: try ring.
  all: try (destruct Hr as [-> | ->]); destruct Ht as [-> | ->]; try ring; try (field; lra).
  all: try match goal with |- context [- ?gx * (?a * ?b * ?s) + ?gy * (?a * ?b * ?k)] => replace (- gx * (a * b * s) + gy * (a * b * k)) with (a * b * (- gx * s + gy * k)) by ring end.
  all: try match goal with N2 : _ = 0 |- _ => rewrite N2 end; try (field; lra).
  all: try match goal with |- context [(?gx * (?a * ?b * ?k) + ?gy * (?a * ?b * ?s)) * (?d * ?C) - ?gz * (?b * ?S0)] => replace ((gx * (a * b * k) + gy * (a * b * s)) * (d * C) - gz * (b * S0)) with (b * ((gx * k + gy * s) * C - gz * S0)) by ring end.
  all: repeat match goal with N2 : _ = 0 |- _ => rewrite N2 end; try ring.
Qed.
