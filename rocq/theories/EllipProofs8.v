From Coq Require Import Reals Lra Psatz Bool.
From Coquelicot Require Import Coquelicot.
From Verif Require Import RandReal PolyModel PolyProofs CoordModel EllipModel EllipProofs EllipProofs2 EllipProofs3 EllipProofs4 EllipProofs5 EllipProofs6.
Local Open Scope R_scope.

(** ** the function of one variable from which the potential is built *)
Definition kuzmin (B t : R) : R := sqrt t * atan (sqrt t / B).
Definition kz1 (B t : R) : R := (kuzmin B t / t + B / (B ^ 2 + t)) / 2.
Definition kz2 (B t : R) : R := (B ^ 3 / (B ^ 2 + t) ^ 2 - kz1 B t) / (2 * t).
Definition kz3 (B t : R) : R := (- 2 * B ^ 3 / (B ^ 2 + t) ^ 3 - 3 * kz2 B t) / (2 * t).
Definition kz4 (B t : R) : R := (6 * B ^ 3 / (B ^ 2 + t) ^ 4 - 5 * kz3 B t) / (2 * t).
Section Kz.
  Variables B t : R.
  Hypothesis HB : 0 < B.
  Hypothesis Ht : 0 < t.
  Lemma Bt : B ^ 2 + t <> 0. Proof. pose proof (pow_lt B 2 HB). lra. Qed.
  Lemma kz_d1 : is_derive (kuzmin B) t (kz1 B t).
  Proof.
    pose proof Bt as N. pose proof (sqrt_lt_R0 t Ht) as P. pose proof (sqrt_sqrt t ltac:(lra)) as E. unfold kuzmin, kz1, kuzmin.
    auto_derive; [repeat split; exact Ht|]. assert (E2 : sqrt t ^ 2 = t) by (simpl; lra). set (q := sqrt t) in *. clearbody q. subst t. clear E2. change (q / B) with (q * / B). set (a0 := atan (q * / B)). clearbody a0. field. repeat split; try lra; nra.
  Qed.
  Lemma kz_d2 : is_derive (kz1 B) t (kz2 B t).
  Proof.
    pose proof Bt as N. pose proof kz_d1 as H. unfold kz1. auto_derive; [split; [eexists; exact H|repeat split; try lra; simpl; simpl in N; exact N]|].
    rewrite (is_derive_unique (fun y : R => kuzmin B y) t _ H). unfold kz2, kz1. field. repeat split; try lra.
  Qed.
  Lemma kz_d3 : is_derive (kz2 B) t (kz3 B t).
  Proof.
    pose proof Bt as N. pose proof kz_d2 as H. unfold kz2. auto_derive; [split; [|split; [eexists; exact H|split; [lra|exact Logic.I]]]; simpl in N |- *; rewrite ?Rmult_1_r in *; apply Rmult_integral_contrapositive_currified; exact N|].
    rewrite (is_derive_unique (fun y : R => kz1 B y) t _ H). unfold kz3, kz2. field. repeat split; try lra.
  Qed.
  Lemma kz_d4 : is_derive (kz3 B) t (kz4 B t).
  Proof.
    pose proof Bt as N. pose proof kz_d3 as H. unfold kz3. auto_derive; [split; [|split; [eexists; exact H|split; [lra|exact Logic.I]]]; simpl in N |- *; rewrite ?Rmult_1_r in *; repeat apply Rmult_integral_contrapositive_currified; exact N|].
    rewrite (is_derive_unique (fun y : R => kz2 B y) t _ H). unfold kz4, kz3. field. repeat split; try lra.
  Qed.
End Kz.
(** the coefficients of the expansion for A > B *)
Lemma taylorK_oblate A B : 0 < B -> B < A -> let D2 := A ^ 2 - B ^ 2 in
  taylorK A B = (kz1 B D2, kz2 B D2 / 2, kz3 B D2 / 6, kz4 B D2 / 24).
Proof.
  intros HB HA D2. assert (DP : 0 < D2) by (unfold D2; nra). unfold taylorK. cbv zeta. replace (pow_2 A - pow_2 B) with D2 by (unfold D2, pow_2; ring). rewrite Rle_b_f by lra.
  rewrite Rabs_right by lra. pose proof (sqrt_lt_R0 D2 DP) as P. pose proof (sqrt_sqrt D2 ltac:(lra)) as E.
  assert (E0 : 0.5 * (atan (sqrt D2 / B) / sqrt D2 + B / pow_2 A) = kz1 B D2).
  { unfold kz1, kuzmin, pow_2. replace (B ^ 2 + D2) with (A ^ 2) by (unfold D2; ring). set (a0 := atan (sqrt D2 / B)).
    replace (sqrt D2 * a0 / D2) with (a0 / sqrt D2); [assert (Hh : 0.5 = 1 / 2) by lra; rewrite Hh; field; lra|].
    apply (Rmult_eq_reg_r (sqrt D2 * D2)); [|nra]. replace (a0 / sqrt D2 * (sqrt D2 * D2)) with (a0 * D2) by (field; lra). rewrite <- E at 1. field. lra. }
  assert (EA : B ^ 2 + D2 = A ^ 2) by (unfold D2; ring).
  assert (E1 : (- 1 / 4 * kz1 B D2 + 1 / 4 * B ^ 3 / pow_2 (pow_2 A)) / D2 = kz2 B D2 / 2) by (unfold kz2, pow_2; rewrite EA; field; lra).
  assert (E2 : (- 3 / 6 * (kz2 B D2 / 2) - 1 / 6 * (B / pow_2 A) ^ 3) / D2 = kz3 B D2 / 6) by (unfold kz3, pow_2; rewrite EA; field; lra).
  assert (E3 : (- 5 / 8 * (kz3 B D2 / 6) + 1 / 8 * (B / pow_2 A) ^ 3 / pow_2 A) / D2 = kz4 B D2 / 24) by (unfold kz4, pow_2; rewrite EA; field; lra).
  rewrite E0, E1, E2, E3. reflexivity.
Qed.
Lemma taylorK_prolate A B : 0 < A -> 0 < B -> A <= B -> taylorK A B = (1 / B, - 1 / (3 * B ^ 3), 1 / (5 * B ^ 5), - 1 / (7 * B ^ 7)).
Proof.
  intros HA HB L. unfold taylorK. cbv zeta. rewrite Rle_b_t by (apply (D2_le A B HA HB L)). unfold pow_2. f_equal; [f_equal; [f_equal|]|]; field; lra.
Qed.
(** the potential outside the expansion region, for A > B *)
Lemma code_value mass B D2 Rc z : 0 < B -> 0 < D2 -> regular D2 Rc z ->
  let u := psiOf D2 Rc z ^ 2 in let v := D2 * cosOf D2 Rc z ^ 2 in
  cval (codeResult mass B D2 Rc z) = - (2 * mass / PI) * ((kuzmin B u - kuzmin B v) / (u - v)) /\ u + v = Rc ^ 2 + z ^ 2 + D2 /\ u * v = D2 * z ^ 2 /\ 0 <= v <= D2 /\ D2 <= u /\ v < u.
Proof.
  intros HB HD Hreg u v. destruct (code_grad mass B D2 Rc z HB ltac:(pose proof (pow_lt B 2 HB); lra) Hreg) as (E & _). rewrite E. clear E.
  destruct (frame D2 Rc z Hreg) as (P & C & Sp & F & E & HR & HZ & XP & XE). destruct (den_pos B D2 Rc z HB ltac:(pose proof (pow_lt B 2 HB); lra) Hreg) as (_ & _ & X0).
  unfold u, v. clear u v. set (psi := psiOf D2 Rc z) in *. set (c := cosOf D2 Rc z) in *. set (chi := chiOf D2 Rc z) in *. set (s := sinOf D2 Rc z) in *. clearbody psi c chi s. clear XP XE Hreg.
  pose proof (pow2_ge_0 s). pose proof (pow2_ge_0 c). pose proof (pow2_ge_0 chi).
  split; [|split; [|split; [|split; [|split]]]].
  - unfold clV, clW, kuzmin, normOf, FvOf. cbv zeta. rewrite Rle_b_t by lra. rewrite Rabs_right by lra. rewrite sqrt_pow2 by lra.
    rewrite sqrt_mult by lra. assert (Q : sqrt (c ^ 2) = Rabs c) by (rewrite <- (sqrt_Rsqr_abs c); f_equal; unfold Rsqr; ring). rewrite Q.
    set (D := sqrt D2). assert (Q2 : D * Rabs c * atan (D * Rabs c / B) = c * (D * atan (D / B * c))).
    { unfold Rabs. destruct (Rcase_abs c); [replace (D * - c / B) with (- (D / B * c)) by (field; lra); rewrite atan_opp; ring|replace (D * c / B) with (D / B * c) by (field; lra); ring]. }
    rewrite Q2. pose proof PI_neq0. field. lra.
  - rewrite HR, HZ. replace ((chi * s) ^ 2) with (chi ^ 2 * s ^ 2) by ring. rewrite F. rewrite E. ring.
  - rewrite HZ. ring.
  - nra.
  - lra.
  - lra.
Qed.

(** ** the coordinate transformation *)
Lemma mul_eq x y : mul x y = x * y.
Proof. unfold mul. destruct (Req_EM_T y 0) as [->|N]; [rewrite Req_b_t by reflexivity; ring|rewrite Req_b_f by exact N; reflexivity]. Qed.
Lemma pos_inverse D2 Rc z : regular D2 Rc z -> let '(rho, cot) := posAxi D2 Rc z in axiToCyl D2 rho cot = (Rc, z).
Proof.
  intros H. unfold posAxi. rewrite (pos_closed _ _ _ H). destruct (frame D2 Rc z H) as (P & C & Sp & F & E & HR & HZ & _).
  set (psi := psiOf D2 Rc z) in *. set (c := cosOf D2 Rc z) in *. set (chi := chiOf D2 Rc z) in *. set (s := sinOf D2 Rc z) in *.
  rewrite (Req_b_f s 0) by lra. unfold axiToCyl. rewrite (sincos_fin c s Sp F), !mul_eq. cbv zeta.
  destruct (Rle_dec 0 D2) as [L|L].
  - rewrite !(Rle_b_t 0 D2) by exact L. rewrite Rabs_right by lra. replace (pow_2 chi + D2) with (psi ^ 2) by (unfold pow_2; lra). rewrite sqrt_pow2 by lra. f_equal; lra.
  - rewrite !(Rle_b_f 0 D2) by lra. rewrite Rabs_left by lra. replace (pow_2 psi + - D2) with (chi ^ 2) by (unfold pow_2; lra). rewrite sqrt_pow2 by lra. f_equal; lra.
Qed.
