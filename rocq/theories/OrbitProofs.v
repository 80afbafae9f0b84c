(** Correctness of the equations of motion in the three coordinate systems *)
From Coq Require Import Reals Lra Psatz Bool ZArith Lia.
From Coquelicot Require Import Coquelicot.
From Verif Require Import RandReal RandRealProofs PolyModel PolyProofs MathModel MathProofs CoordModel CoordSpec CoordCalc CoordAtan CoordMaps CoordMaps2 CoordProofs CoordVel OrientModel OrientSpec PotModel PotSpec OrbitModel OrbitSpec RootProofs.
Local Open Scope R_scope.

Ltac unv := unfold v1, v2, v3 in *; cbn [fst snd] in *.
Ltac der := auto_derive; [gside|gfin].
(** ---- gradients ---- *)
Lemma grad_cyl f p gx gy gz : is_grad f (cart Cyl p) (gx, gy, gz) ->
  is_grad (fun q => f (cart Cyl q)) p (gx * cos (v3 p) + gy * sin (v3 p), gz, v1 p * (- gx * sin (v3 p) + gy * cos (v3 p))).
Proof.
  intros H c1 c2 c3 t u1 u2 u3 E D1 D2 D3. destruct p as [[a b] c]. injection E as <- <- <-. unv.
  assert (K : is_derive (fun s => f (c1 s * cos (c3 s), c1 s * sin (c3 s), c2 s)) t (gx * (u1 * cos (c3 t) - c1 t * sin (c3 t) * u3) + gy * (u1 * sin (c3 t) + c1 t * cos (c3 t) * u3) + gz * u2)).
  { apply (H (fun s => c1 s * cos (c3 s)) (fun s => c1 s * sin (c3 s)) c2 t); [reflexivity| | |exact D2]; dcurve; der; ring. }
  cbn [cart]. match goal with K : is_derive ?g _ ?l |- is_derive ?g' _ ?r => replace r with l; [exact K|] end. ring.
Qed.
Lemma grad_sph f p gx gy gz : is_grad f (cart Sph p) (gx, gy, gz) ->
  is_grad (fun q => f (cart Sph q)) p
   ((gx * cos (v3 p) + gy * sin (v3 p)) * sin (v2 p) + gz * cos (v2 p),
    v1 p * ((gx * cos (v3 p) + gy * sin (v3 p)) * cos (v2 p) - gz * sin (v2 p)),
    v1 p * sin (v2 p) * (- gx * sin (v3 p) + gy * cos (v3 p))).
Proof.
  intros H c1 c2 c3 t u1 u2 u3 E D1 D2 D3. destruct p as [[a b] c]. injection E as <- <- <-. unv.
  assert (K : is_derive (fun s => f (c1 s * (sin (c2 s) * cos (c3 s)), c1 s * (sin (c2 s) * sin (c3 s)), c1 s * cos (c2 s))) t
     (gx * (u1 * (sin (c2 t) * cos (c3 t)) + c1 t * (cos (c2 t) * u2 * cos (c3 t) - sin (c2 t) * sin (c3 t) * u3))
    + gy * (u1 * (sin (c2 t) * sin (c3 t)) + c1 t * (cos (c2 t) * u2 * sin (c3 t) + sin (c2 t) * cos (c3 t) * u3)) + gz * (u1 * cos (c2 t) - c1 t * sin (c2 t) * u2))).
  { apply (H (fun s => c1 s * (sin (c2 s) * cos (c3 s))) (fun s => c1 s * (sin (c2 s) * sin (c3 s))) (fun s => c1 s * cos (c2 s)) t); [reflexivity| | |]; dcurve; der; ring. }
  cbn [cart]. match goal with K : is_derive ?g _ ?l |- is_derive ?g' _ ?r => replace r with l; [exact K|] end. ring.
Qed.
Lemma grad_rot f a x gx gy gz : is_grad f (rotZ a x) (gx, gy, gz) ->
  is_grad (fun q => f (rotZ a q)) x (gx * cos a - gy * sin a, gx * sin a + gy * cos a, gz).
Proof.
  intros H c1 c2 c3 t u1 u2 u3 E D1 D2 D3. destruct x as [[x y] z]. injection E as <- <- <-. unfold rotZ in *. unv.
  assert (K : is_derive (fun s => f (cos a * c1 s + sin a * c2 s, - sin a * c1 s + cos a * c2 s, c3 s)) t (gx * (cos a * u1 + sin a * u2) + gy * (- sin a * u1 + cos a * u2) + gz * u3)).
  { apply (H (fun s => cos a * c1 s + sin a * c2 s) (fun s => - sin a * c1 s + cos a * c2 s) c3 t); [reflexivity| | |exact D3]; dcurve; der; ring. }
  match goal with K : is_derive ?g _ ?l |- is_derive ?g' _ ?r => replace r with l; [exact K|] end. ring.
Qed.
(** the gradient that an object returns, expressed through the Cartesian gradient of the function that it computes *)
Lemma returned_grad c Phi t s p g : represents c Phi t s p -> is_grad (fun q => Phi t (cart s q)) p g -> gof (p_eval c s gradOnly t p) = g.
Proof.
  intros (g' & h & Rt & (G & <- & L & _)) H. rewrite (Rt gradOnly). cbn [gof outputs gradOnly]. apply (is_grad_unique _ _ _ _ (locally_singleton _ _ L) H).
Qed.
(** ---- normalisation ---- *)
Lemma fmod_ok x P : 0 < P -> - P < fmod x P < P /\ exists k : Z, fmod x P = x - P * IZR k.
Proof.
  intros HP. unfold fmod. assert (E : x = P * (x / P)) by (field; lra). set (w := x / P) in *. clearbody w.
  destruct (Rle_lt_dec 0 w) as [H|H].
  - destruct (trunc_pos w H) as ((A & B) & _ & k & K). split; [|exists k; rewrite K; reflexivity]. rewrite K in *. subst x. nra.
  - destruct (trunc_neg w H) as ((A & B) & _ & k & K). split; [|exists k; rewrite K; reflexivity]. rewrite K in *. subst x. nra.
Qed.
Lemma cos_kZ x k : cos (x - 2 * PI * IZR k) = cos x /\ sin (x - 2 * PI * IZR k) = sin x.
Proof.
  assert (N : forall n y, cos (y + 2 * INR n * PI) = cos y /\ sin (y + 2 * INR n * PI) = sin y) by (intros; split; [apply cos_period|apply sin_period]).
  destruct (Z_le_gt_dec 0 k) as [H|H].
  - destruct (N (Z.to_nat k) (x - 2 * PI * IZR k)) as (A & B). rewrite INR_IZR_INZ, Z2Nat.id in A, B by lia. rewrite <- A, <- B. split; f_equal; ring.
  - destruct (N (Z.to_nat (- k)) x) as (A & B). rewrite INR_IZR_INZ, Z2Nat.id, opp_IZR in A, B by lia. rewrite <- A, <- B. split; f_equal; ring.
Qed.
Lemma normSph_ok r th phi : exists r' th' phi' sr st, normSph r th phi = ((r', th', phi'), sr, st) /\
  (sr = 1 \/ sr = -1) /\ (st = 1 \/ st = -1) /\ r' = sr * r /\ 0 <= r' /\ 0 <= th' <= PI /\ (sr = -1 <-> r < 0) /\
  sin th' = st * sin th /\ cos th' = sr * cos th /\ sin phi' = sr * st * sin phi /\ cos phi' = sr * st * cos phi.
Proof.
  pose proof PI_RGT_0 as HPI. unfold normSph. destruct (fmod_ok th (2 * PI)) as ((A & B) & k & K); [lra|]. destruct (cos_kZ th k) as (Ec & Es). rewrite <- K in Ec, Es.
  set (w := fmod th (2 * PI)) in *. clearbody w. clear K k.
  assert (X : exists th' st, (if Rlt_b w (- PI) then (w + 2 * PI, 1) else if Rlt_b w 0 then (- w, -1) else if Rlt_b PI w then (2 * PI - w, -1) else (w, 1)) = (th', st) /\
     (st = 1 \/ st = -1) /\ 0 <= th' <= PI /\ sin th' = st * sin th /\ cos th' = cos th).
  { destruct (Rlt_le_dec w (- PI)) as [H|H]; [rewrite Rlt_b_t by exact H|rewrite Rlt_b_f by exact H].
    { do 2 eexists; split; [reflexivity|]. split; [left; reflexivity|]. split; [lra|]. rewrite <- Es, <- Ec, sin_plus, cos_plus, sin_2PI, cos_2PI. split; ring. }
    destruct (Rlt_le_dec w 0) as [H0|H0]; [rewrite Rlt_b_t by exact H0|rewrite Rlt_b_f by exact H0].
    { do 2 eexists; split; [reflexivity|]. split; [right; reflexivity|]. split; [lra|]. rewrite <- Es, <- Ec, sin_neg, cos_neg. split; ring. }
    destruct (Rlt_le_dec PI w) as [H1|H1]; [rewrite Rlt_b_t by exact H1|rewrite Rlt_b_f by exact H1].
    { do 2 eexists; split; [reflexivity|]. split; [right; reflexivity|]. split; [lra|]. rewrite <- Es, <- Ec, sin_minus, cos_minus, sin_2PI, cos_2PI. split; ring. }
    do 2 eexists; split; [reflexivity|]. split; [left; reflexivity|]. split; [lra|]. rewrite <- Es, <- Ec. split; ring. }
  destruct X as (th1 & st & -> & St & Rg & S1 & C1).
  destruct (Rlt_le_dec r 0) as [H|H]; [rewrite Rlt_b_t by exact H|rewrite Rlt_b_f by exact H].
  - rewrite (Req_b_t (-1)) by reflexivity. assert (Sp : sin (PI - th1) = st * sin th) by (rewrite sin_minus, sin_PI, cos_PI; rewrite <- S1; ring).
    assert (Cp : cos (PI - th1) = -1 * cos th) by (rewrite cos_minus, sin_PI, cos_PI; rewrite <- C1; ring).
    destruct St as [-> | ->]; [rewrite Req_b_f by lra|rewrite Req_b_t by lra]; cbn [xorb]; do 5 eexists; (split; [reflexivity|]);
    (split; [right; reflexivity|]); (split; [auto|]); (split; [ring|]); (split; [lra|]); (split; [lra|]); (split; [split; [intros; exact H|reflexivity]|]); (split; [exact Sp|]); (split; [exact Cp|]).
    + rewrite neg_sin, neg_cos. split; ring.
    + split; ring.
  - rewrite (Req_b_f 1 (-1)) by lra.
    assert (Cp : cos th1 = 1 * cos th) by (rewrite C1; ring).
    destruct St as [-> | ->]; [rewrite Req_b_f by lra|rewrite Req_b_t by lra]; cbn [xorb]; do 5 eexists; (split; [reflexivity|]);
    (split; [left; reflexivity|]); (split; [auto|]); (split; [ring|]); (split; [lra|]); (split; [lra|]); (split; [split; [intros; lra|intros; lra]|]); (split; [exact S1|]); (split; [exact Cp|]).
    + split; ring.
    + rewrite neg_sin, neg_cos. split; ring.
Qed.
(** the normalised solution represents the same position and velocity *)
Lemma getSol_Cyl_same d : toPosVel_YC (getSol_Cyl d) = toPosVel_YC d /\ 0 <= v1 (fst (getSol_Cyl d)).
Proof.
  destruct d as [[[d0 d1] d2] [[d3 d4] d5]]. unfold getSol_Cyl. destruct (Rlt_le_dec d0 0) as [H|H]; [rewrite Rlt_b_t by exact H|rewrite Rlt_b_f by exact H; split; [reflexivity|exact H]].
  split; [|unv; lra]. unfold toPosVel_YC. rewrite neg_cos, neg_sin. apply pv_eq; cbn [fst snd]; apply v_eq; ring.
Qed.
Lemma getSol_Sph_same d : toPosVel_SC (getSol_Sph d) = toPosVel_SC d /\ 0 <= v1 (fst (getSol_Sph d)) /\ 0 <= v2 (fst (getSol_Sph d)) <= PI /\ 0 <= v3 (fst (getSol_Sph d)) < 2 * PI.
Proof.
  pose proof PI_RGT_0 as HPI. destruct d as [[[d0 d1] d2] [[d3 d4] d5]]. unfold getSol_Sph.
  destruct (normSph_ok d0 d1 d2) as (r & th & phi & sr & st & -> & Hr & Ht & -> & Rp & Tr & _ & S1 & C1 & Sp & Cp).
  destruct (wrapAngle_ok (2 * PI) phi) as (W & k & K); [lra|]. unfold v1, v2, v3; cbn [fst snd]. split; [|auto].
  destruct (cos_kZ phi k) as (Ec & Es). rewrite <- K in Ec, Es.
  unfold toPosVel_SC. cbv zeta. rewrite Ec, Es, Sp, Cp, S1, C1. destruct Hr as [-> | ->], Ht as [-> | ->]; apply pv_eq; cbn [fst snd]; apply v_eq; ring.
Qed.
