(** C66: Perfect Ellipsoid potentials and spheroidal coordinates *)
From Coq Require Import Reals Lra Psatz Bool.
From Coquelicot Require Import Coquelicot.
From Verif Require Import RandReal PolyModel PolyProofs CoordModel EllipProofs EllipProofs2 EllipProofs3 EllipProofs4 EllipProofs5 EllipProofs6 EllipProofs7 EllipProofs8 EllipProofs9 EllipModel.
Local Open Scope R_scope.

(** In all statements: [A], [B] are the scale radii of the density
      rho = mass / (pi^2 A^2 B (1 + R^2/A^2 + z^2/B^2)^2);
    [regularPt A B R z]: off the symmetry axis, and off the disc z = 0, R^2 <= B^2 - A^2 inside the focal ring;
    [focalDist2]: squared distance to the focal points (0, +-sqrt(A^2-B^2)) if A > B, to the ring R = sqrt(B^2-A^2), z = 0 otherwise;
    [focalRadius]: the distance below which the code switches to the expansion. *)

(** gradient and Hessian returned by the code are the derivatives of the value and of the gradient *)
Theorem C66_derivatives mass A B Rc z : 0 < A -> 0 < B -> regularPt A B Rc z -> focalRadius A B ^ 2 < focalDist2 A B Rc z ->
  is_derive (fun x => cval (evalCyl mass A B x z)) Rc (cdR (evalCyl mass A B Rc z)) /\
  is_derive (fun y => cval (evalCyl mass A B Rc y)) z (cdz (evalCyl mass A B Rc z)) /\
  is_derive (fun x => cdR (evalCyl mass A B x z)) Rc (cdR2 (evalCyl mass A B Rc z)) /\
  is_derive (fun y => cdR (evalCyl mass A B Rc y)) z (cdRdz (evalCyl mass A B Rc z)) /\
  is_derive (fun y => cdz (evalCyl mass A B Rc y)) z (cdz2 (evalCyl mass A B Rc z)).
Proof.
  intros HA HB H1 H2. split; [apply eval_grad_R; assumption|]. split; [apply eval_grad_z; assumption|]. split; [apply eval_hess_RR; assumption|].
  split; [apply eval_hess_Rz; assumption|apply eval_hess_zz; assumption].
Qed.
(** Poisson's equation in cylindrical coordinates, with the density written out *)
Theorem C66_poisson mass A B Rc z : 0 < A -> 0 < B -> regularPt A B Rc z -> focalRadius A B ^ 2 <= focalDist2 A B Rc z ->
  cdR2 (evalCyl mass A B Rc z) + cdR (evalCyl mass A B Rc z) / Rc + cdz2 (evalCyl mass A B Rc z) = 4 * PI * densityCyl mass A B Rc z /\
  densityCyl mass A B Rc z = mass / (PI ^ 2 * A ^ 2 * B * (1 + Rc ^ 2 / A ^ 2 + z ^ 2 / B ^ 2) ^ 2).
Proof.
  intros HA HB H1 H2. split; [apply eval_poisson; assumption|]. unfold densityCyl, pow_2. pose proof PI_neq0.
  replace (Rc / A * (Rc / A) + z / B * (z / B) + 1) with (1 + Rc ^ 2 / A ^ 2 + z ^ 2 / B ^ 2) by (field; lra).
  assert (0 < 1 + Rc ^ 2 / A ^ 2 + z ^ 2 / B ^ 2).
  { assert (0 <= Rc ^ 2 / A ^ 2) by (apply Rmult_le_pos; [apply pow2_ge_0|left; apply Rinv_0_lt_compat, pow_lt; exact HA]).
    assert (0 <= z ^ 2 / B ^ 2) by (apply Rmult_le_pos; [apply pow2_ge_0|left; apply Rinv_0_lt_compat, pow_lt; exact HB]). lra. }
  set (m := 1 + Rc ^ 2 / A ^ 2 + z ^ 2 / B ^ 2) in *. clearbody m. field. repeat split; lra.
Qed.
(** the closed form of an oblate potential, through the two roots of t^2 - (R^2 + z^2 + A^2 - B^2) t + (A^2 - B^2) z^2 *)
Theorem C66_value mass A B Rc z : 0 < B -> B < A -> 0 < Rc -> focalRadius A B ^ 2 <= focalDist2 A B Rc z ->
  exists u v, u + v = Rc ^ 2 + z ^ 2 + (A ^ 2 - B ^ 2) /\ u * v = (A ^ 2 - B ^ 2) * z ^ 2 /\ 0 <= v <= A ^ 2 - B ^ 2 /\ A ^ 2 - B ^ 2 <= u /\ v < u /\
    cval (evalCyl mass A B Rc z) = - (2 * mass / PI) * ((sqrt u * atan (sqrt u / B) - sqrt v * atan (sqrt v / B)) / (u - v)).
Proof.
  intros HB HA HR HF. rewrite (eval_out mass A B ltac:(lra) HB Rc z HF). assert (DP : 0 < dD2 A B) by (apply D2_gt; lra).
  destruct (code_value mass B (dD2 A B) Rc z HB DP) as (E & E1 & E2 & E3 & E4 & E5); [split; [exact HR|right; pose proof (pow_lt Rc 2 HR); lra]|].
  assert (ED : A ^ 2 - B ^ 2 = dD2 A B) by (unfold dD2, pow_2; ring). rewrite ED. exists (psiOf (dD2 A B) Rc z ^ 2), (dD2 A B * cosOf (dD2 A B) Rc z ^ 2). repeat split; try tauto. 
Qed.
(** near the focal points the code uses a third-order expansion; its gradient and Hessian are the derivatives of the expansion wherever the sign convention holds:
    for A > B off the equatorial plane, for A = B everywhere, for A < B above the equatorial plane *)
Theorem C66_focal_derivatives mass A B Rc z : 0 < A -> 0 < B -> focalDist2 A B Rc z < focalRadius A B ^ 2 ->
  ((B < A /\ z <> 0) \/ A = B \/ (A < B /\ 0 < z)) ->
  is_derive (fun x => cval (evalCyl mass A B x z)) Rc (cdR (evalCyl mass A B Rc z)) /\
  is_derive (fun y => cval (evalCyl mass A B Rc y)) z (cdz (evalCyl mass A B Rc z)) /\
  is_derive (fun x => cdR (evalCyl mass A B x z)) Rc (cdR2 (evalCyl mass A B Rc z)) /\
  is_derive (fun y => cdR (evalCyl mass A B Rc y)) z (cdRdz (evalCyl mass A B Rc z)) /\
  is_derive (fun y => cdz (evalCyl mass A B Rc y)) z (cdz2 (evalCyl mass A B Rc z)).
Proof. intros HA HB H HS. apply taylor_derivs; try assumption. unfold signOk. destruct (Rle_dec A B); lra. Qed.
(** refutation: for A < B and z < 0 the sign of the radial derivative is wrong: the code returns the opposite of the derivative of its own value, and it is not zero *)
Theorem C66_focal_sign_refuted mass A B : 0 < mass -> 0 < A < B -> exists Rc z, focalDist2 A B Rc z < focalRadius A B ^ 2 /\ 
  cdR (evalCyl mass A B Rc z) < 0 /\ is_derive (fun x => cval (evalCyl mass A B x z)) Rc (- cdR (evalCyl mass A B Rc z)).
Proof.
  intros Hm [HA HL]. assert (HB : 0 < B) by lra. exists (sqrt (B ^ 2 - A ^ 2)), (- (B / 20000)).
  destruct (sign_nonzero mass A B HA HB (- (B / 20000)) Hm HL) as [H1 H2]; [split; lra|]. split; [exact H1|]. split; [exact H2|]. apply sign_wrong; try assumption. lra.
Qed.
(** coefficients of the expansion: Taylor coefficients of f(t) = sqrt t atan (sqrt t / B) at t = A^2 - B^2 (for A > B), or at 0 *)
Theorem C66_focal_coefs A B : 0 < A -> 0 < B ->
  (A <= B -> taylorK A B = (1 / B, - 1 / (3 * B ^ 3), 1 / (5 * B ^ 5), - 1 / (7 * B ^ 7))) /\
  (B < A -> exists f1 f2 f3 f4 : R -> R, (forall t, 0 < t -> is_derive (fun t => sqrt t * atan (sqrt t / B)) t (f1 t) /\ is_derive f1 t (f2 t) /\ is_derive f2 t (f3 t) /\ is_derive f3 t (f4 t)) /\
    let t := A ^ 2 - B ^ 2 in taylorK A B = (f1 t, f2 t / 2, f3 t / 6, f4 t / 24)).
Proof.
  intros HA HB. split; [apply taylorK_prolate; assumption|]. intros L. exists (kz1 B), (kz2 B), (kz3 B), (kz4 B). split; [|apply taylorK_oblate; assumption].
  intros t Ht. split; [apply kz_d1; assumption|]. split; [apply kz_d2; assumption|]. split; [apply kz_d3; assumption|apply kz_d4; assumption].
Qed.
(** and the expansion is that of (f(u) - f(v)) / (u - v) about u = v = the focal value up to the third order of the displacement: [s] is the sum, [p] the product of the displacements of u and v *)
Theorem C66_focal_expansion mass A B Rc z : 0 < A -> 0 < B -> focalDist2 A B Rc z < focalRadius A B ^ 2 ->
  let D2 := A ^ 2 - B ^ 2 in let D := sqrt (Rabs D2) in
  let s := if Rle_dec A B then Rc ^ 2 + z ^ 2 + D2 else Rc ^ 2 + z ^ 2 - D2 in
  let p := if Rle_dec A B then D2 * z ^ 2 else - D2 * Rc ^ 2 in
  let along := (if Rle_dec A B then Rc else Rabs z) - D in
  let d2 := focalDist2 A B Rc z in
  let '(K0, K1, K2, K3) := taylorK A B in
  cval (evalCyl mass A B Rc z) = - (2 * mass / PI) * (K0 + K1 * s + K2 * (s ^ 2 - p) + K3 * (s ^ 3 - 2 * s * p)
    - d2 * (K2 * d2 + K3 * (2 * D ^ 2 * d2 + 10 * D ^ 2 * along ^ 2 + 6 * D * along * d2 + d2 ^ 2))).
Proof.
  intros HA HB H D2 D s p along d2. assert (ED : D2 = dD2 A B) by (unfold D2, dD2, pow_2; ring). pose proof (Rabs_pos D2) as AP. pose proof (sqrt_sqrt _ AP) as DD. fold D in DD.
  assert (T : forall P Q, tval mass A B P Q = let '(K0, K1, K2, K3) := taylorK A B in let S1 := 2 * D * P + P ^ 2 + Q ^ 2 in let P1 := - D ^ 2 * Q ^ 2 in let S2 := P ^ 2 + Q ^ 2 in
    - (2 * mass / PI) * (K0 + K1 * S1 + K2 * (S1 ^ 2 - P1) + K3 * (S1 ^ 3 - 2 * S1 * P1) - S2 * (K2 * S2 + K3 * (12 * D ^ 2 * P ^ 2 + 2 * D ^ 2 * Q ^ 2 + 6 * D * P * S2 + S2 ^ 2)))).
  { intros P Q. rewrite (tval_expansion mass A B P Q). rewrite <- ED. fold D. unfold tK0, tK1, tK2, tK3, normOf. destruct (taylorK A B) as [[[K0 K1] K2] K3]. cbv zeta. unfold Rdiv. ring. }
  destruct (Rle_dec A B) as [L|L].
  - rewrite (form_le mass A B HA HB Rc z L H). cbv zeta. cbn [cval]. rewrite <- ED. fold D. rewrite (T (Rc - D) z). destruct (taylorK A B) as [[[K0 K1] K2] K3]. cbv zeta.
    assert (N : Rabs D2 = - D2) by (apply Rabs_left1; rewrite ED; apply D2_le; assumption). rewrite N in DD.
    assert (E1 : 2 * D * (Rc - D) + (Rc - D) ^ 2 + z ^ 2 = s) by (unfold s; replace D2 with (- (D * D)) by lra; ring). rewrite E1.
    assert (E2 : - D ^ 2 * z ^ 2 = p) by (unfold p; replace D2 with (- (D * D)) by lra; ring). rewrite E2.
    assert (E3 : d2 = (Rc - D) ^ 2 + z ^ 2).
    { unfold d2, focalDist2. destruct (Rle_dec A B); [|contradiction]. replace (B ^ 2 - A ^ 2) with (Rabs D2) by (rewrite N; unfold D2; ring). reflexivity. }
    rewrite E3. unfold along. ring.
  - rewrite (form_gt mass A B HA HB Rc z ltac:(lra) H). cbv zeta. cbn [cval]. rewrite <- ED. fold D. rewrite (T (Rabs z - D) Rc). destruct (taylorK A B) as [[[K0 K1] K2] K3]. cbv zeta.
    assert (N : Rabs D2 = D2) by (apply Rabs_right; rewrite ED; pose proof (D2_gt A B HA HB ltac:(lra)); lra). rewrite N in DD.
    assert (Az : Rabs z ^ 2 = z ^ 2) by (rewrite pow2_abs; reflexivity).
    assert (E1 : 2 * D * (Rabs z - D) + (Rabs z - D) ^ 2 + Rc ^ 2 = s) by (unfold s; rewrite <- DD, <- Az; ring). rewrite E1.
    assert (E2 : - D ^ 2 * Rc ^ 2 = p) by (unfold p; rewrite <- DD; ring). rewrite E2.
    assert (E3 : d2 = (Rabs z - D) ^ 2 + Rc ^ 2).
    { unfold d2, focalDist2. destruct (Rle_dec A B); [contradiction|]. replace (A ^ 2 - B ^ 2) with (Rabs D2) by (rewrite N; reflexivity). fold D. ring. }
    rewrite E3. unfold along. ring.
Qed.
(** spheroidal coordinates: converting a point to (rho, nu) and back gives the same point; the derivatives are those of the coordinates *)
Theorem C66_coordinates D2 Rc z : 0 < Rc -> (z <> 0 \/ 0 < Rc ^ 2 + D2) ->
  (let '(rho, cot) := posAxi D2 Rc z in axiToCyl D2 rho cot = (Rc, z)) /\
  (0 < D2 -> exists u v, prolSph D2 Rc z = (u, v * (if Rle_b 0 z then 1 else -1)) /\ u + v = Rc ^ 2 + z ^ 2 + D2 /\ u * v = D2 * z ^ 2 /\ 0 <= v <= D2 /\ D2 <= u).
Proof.
  intros H1 H2. split; [apply pos_inverse; split; assumption|]. intros HD. exists (psiOf D2 Rc z ^ 2), (D2 * cosOf D2 Rc z ^ 2). split; [apply prol_closed; assumption|].
  destruct (code_value 1 1 D2 Rc z ltac:(lra) HD) as (_ & E1 & E2 & E3 & E4 & _); [split; assumption|]. tauto.
Qed.
(** OblatePerfectEllipsoid: the constructor accepts exactly 0 < minor < major *)
Theorem C66_oblate_construct major minor : (forall d, oblConstruct major minor = Some d -> 0 < minor < major /\ d = major ^ 2 - minor ^ 2) /\ (0 < minor < major -> oblConstruct major minor <> None).
Proof.
  split; [intros d H; split; [apply obl_construct_iff; exists d; exact H|apply obl_construct_val; exact H]|]. intros H. apply obl_construct_iff in H. destruct H as [d ->]. discriminate.
Qed.
(** the two classes give the same potential away from the focal points (except where the argument of the auxiliary function is so small that its limit is used) *)
Theorem C66_oblate_value mass A B Rc z : 0 < B < A -> B ^ 2 / 10 ^ 16 < A ^ 2 - B ^ 2 -> 0 < Rc -> focalRadius A B ^ 2 <= focalDist2 A B Rc z ->
  let '(lambda, nu) := prolSph (A ^ 2 - B ^ 2) Rc z in (nu = 0 \/ B ^ 2 / 10 ^ 16 < Rabs nu) ->
  exists r, oblScalar mass B (A ^ 2 - B ^ 2) lambda nu = Some r /\ oval r = cval (evalCyl mass A B Rc z).
Proof.
  intros [HB HA] HT HR HF. rewrite (eval_out mass A B ltac:(lra) HB Rc z HF). assert (ED : dD2 A B = A ^ 2 - B ^ 2) by (unfold dD2, pow_2; ring). rewrite ED.
  apply obl_value; try assumption. nra.
Qed.
(** its derivatives with respect to (lambda, nu) *)
Theorem C66_oblate_derivatives mass B D2 la nu : 0 < B -> B ^ 2 / 10 ^ 5 < Rabs nu < D2 -> D2 < la ->
  let F f := fun l n => match oblScalar mass B D2 l n with Some r => f r | None => 0 end in
  exists r, oblScalar mass B D2 la nu = Some r /\
  is_derive (fun l => F oval l nu) la (olam r) /\ is_derive (fun n => F oval la n) nu (onu r) /\
  is_derive (fun l => F olam l nu) la (olam2 r) /\ is_derive (fun n => F olam la n) nu (olamnu r) /\ is_derive (fun n => F onu la n) nu (onu2 r).
Proof. intros HB H1 H2 F. exact (obl_derivs mass B D2 la nu HB H1 H2). Qed.

(** ** examples *)
Example ex_regular : regularPt 5 3 1 2 /\ focalRadius 5 3 ^ 2 < focalDist2 5 3 1 2.
Proof.
  split; [split; [lra|left; lra]|]. unfold focalRadius, focalDist2. destruct (Rle_dec 5 3); [lra|]. replace (5 ^ 2 - 3 ^ 2) with (4 ^ 2) by ring. rewrite sqrt_pow2 by lra. rewrite Rabs_right by lra. lra.
Qed.
Example ex_poisson : cdR2 (evalCyl 1 5 3 1 2) + cdR (evalCyl 1 5 3 1 2) / 1 + cdz2 (evalCyl 1 5 3 1 2) = 4 * PI * densityCyl 1 5 3 1 2.
Proof. destruct ex_regular as [H1 H2]. apply C66_poisson; try lra; assumption. Qed.
Example ex_focal : focalDist2 3 5 4 (1 / 10000) < focalRadius 3 5 ^ 2.
Proof.
  unfold focalRadius, focalDist2. destruct (Rle_dec 3 5); [|lra]. replace (5 ^ 2 - 3 ^ 2) with (4 ^ 2) by ring. rewrite sqrt_pow2 by lra. lra.
Qed.
Example ex_focal_derivative : is_derive (fun x => cval (evalCyl 1 3 5 x (1 / 10000))) 4 (cdR (evalCyl 1 3 5 4 (1 / 10000))).
Proof. apply (C66_focal_derivatives 1 3 5 4 (1 / 10000)); [lra|lra|exact ex_focal|right; right; lra]. Qed.
Example ex_sign : exists Rc z, cdR (evalCyl 1 3 5 Rc z) < 0 /\ is_derive (fun x => cval (evalCyl 1 3 5 x z)) Rc (- cdR (evalCyl 1 3 5 Rc z)).
Proof. destruct (C66_focal_sign_refuted 1 3 5) as (Rc & z & _ & H1 & H2); [lra|lra|]. exists Rc, z. split; assumption. Qed.
Example ex_oblate : oblConstruct 5 3 <> None /\ oblConstruct 3 5 = None.
Proof.
  split; [apply C66_oblate_construct; lra|]. destruct (oblConstruct 3 5) eqn:E; [|reflexivity]. apply C66_oblate_construct in E. lra.
Qed.
Example ex_oblate_deriv : exists r, oblScalar 1 3 16 20 (-4) = Some r.
Proof. destruct (C66_oblate_derivatives 1 3 16 20 (-4)) as (r & H & _); [lra|rewrite Rabs_left by lra; lra|lra|]. exists r. exact H. Qed.

Print Assumptions C66_derivatives.
Print Assumptions C66_poisson.
Print Assumptions C66_value.
Print Assumptions C66_focal_derivatives.
Print Assumptions C66_focal_sign_refuted.
Print Assumptions C66_focal_coefs.
Print Assumptions C66_focal_expansion.
Print Assumptions C66_coordinates.
Print Assumptions C66_oblate_construct.
Print Assumptions C66_oblate_value.
Print Assumptions C66_oblate_derivatives.
