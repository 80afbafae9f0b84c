From Coq Require Import Reals Lra Psatz Bool.
From Coquelicot Require Import Coquelicot.
From Verif Require Import RandReal PolyModel PolyProofs CoordModel EllipModel.
Local Open Scope R_scope.

(** ** geometry of spheroidal coordinates *)
Definition sumOf (D2 Rc z : R) : R := (Rc ^ 2 + z ^ 2 + D2) / 2.
Definition difOf (D2 Rc z : R) : R := (Rc ^ 2 + z ^ 2 - D2) / 2.
Definition detOf (D2 Rc z : R) : R := sqrt ((difOf D2 Rc z) ^ 2 + Rc ^ 2 * D2).
Definition psiOf D2 Rc z : R := sqrt (detOf D2 Rc z + sumOf D2 Rc z).
Definition chiOf D2 Rc z : R := sqrt (detOf D2 Rc z + difOf D2 Rc z).
Definition cosOf D2 Rc z : R := z / psiOf D2 Rc z.
Definition sinOf D2 Rc z : R := Rc / chiOf D2 Rc z.
(** points off the symmetry axis and off the focal disc *)
Definition regular (D2 Rc z : R) : Prop := 0 < Rc /\ (z <> 0 \/ 0 < Rc ^ 2 + D2).

Lemma det_sq D2 Rc z : 0 <= difOf D2 Rc z ^ 2 + Rc ^ 2 * D2.
Proof.
  destruct (Rle_dec 0 D2) as [H|H]; [apply Rplus_le_le_0_compat; [apply pow2_ge_0|apply Rmult_le_pos; [apply pow2_ge_0|lra]]|]. unfold difOf.
  replace (((Rc ^ 2 + z ^ 2 - D2) / 2) ^ 2 + Rc ^ 2 * D2) with (((Rc ^ 2 + z ^ 2 + D2) / 2) ^ 2 + z ^ 2 * - D2) by field.
  apply Rplus_le_le_0_compat; [apply pow2_ge_0|apply Rmult_le_pos; [apply pow2_ge_0|lra]].
Qed.
Lemma det2 D2 Rc z : detOf D2 Rc z * detOf D2 Rc z = difOf D2 Rc z ^ 2 + Rc ^ 2 * D2.
Proof. apply sqrt_sqrt, det_sq. Qed.
Lemma det2' D2 Rc z : detOf D2 Rc z * detOf D2 Rc z = sumOf D2 Rc z ^ 2 - z ^ 2 * D2.
Proof. rewrite det2. unfold sumOf, difOf. field. Qed.
Lemma det_nonneg D2 Rc z : 0 <= detOf D2 Rc z.
Proof. apply sqrt_pos. Qed.
Lemma abs_det a d : 0 <= d -> a ^ 2 < d * d -> 0 < d + a.
Proof. intros. nra. Qed.
Lemma regular_pos D2 Rc z : regular D2 Rc z -> 0 < detOf D2 Rc z /\ 0 < detOf D2 Rc z + sumOf D2 Rc z /\ 0 < detOf D2 Rc z + difOf D2 Rc z.
Proof.
  intros [HR HZ]. pose proof (det2 D2 Rc z) as E1. pose proof (det2' D2 Rc z) as E2. pose proof (det_nonneg D2 Rc z) as P.
  assert (HR2 : 0 < Rc ^ 2) by (apply pow_lt; exact HR).
  assert (Q1 : 0 < detOf D2 Rc z + sumOf D2 Rc z).
  { destruct (Rlt_dec 0 (sumOf D2 Rc z)) as [L|L]; [lra|]. apply abs_det; [exact P|]. rewrite E2.
    assert (D2 < 0) by (unfold sumOf in L; pose proof (pow2_ge_0 z); lra).
    destruct HZ as [HZ|HZ]; [|unfold sumOf in L; pose proof (pow2_ge_0 z); lra]. assert (0 < z ^ 2) by (rewrite <- Rsqr_pow2; apply Rsqr_pos_lt; exact HZ). nra. }
  assert (Q2 : 0 < detOf D2 Rc z + difOf D2 Rc z).
  { destruct (Rlt_dec 0 (difOf D2 Rc z)) as [L|L]; [lra|]. apply abs_det; [exact P|]. rewrite E1.
    assert (0 < D2) by (unfold difOf in L; pose proof (pow2_ge_0 z); lra). nra. }
  split; [|split; assumption]. destruct (Rle_lt_or_eq_dec 0 _ P) as [L|L]; [exact L|exfalso].
  rewrite <- L in *. rewrite Rplus_0_l in Q1, Q2. assert (0 < sumOf D2 Rc z ^ 2) by (apply pow_lt; exact Q1). assert (0 < difOf D2 Rc z ^ 2) by (apply pow_lt; exact Q2).
  assert (D2 < 0) by nra. pose proof (pow2_ge_0 z). nra.
Qed.
Lemma psi2 D2 Rc z : regular D2 Rc z -> 0 < psiOf D2 Rc z /\ psiOf D2 Rc z * psiOf D2 Rc z = detOf D2 Rc z + sumOf D2 Rc z.
Proof. intros H. destruct (regular_pos D2 Rc z H) as (_ & A & _). split; [apply sqrt_lt_R0; exact A|apply sqrt_sqrt; lra]. Qed.
Lemma chi2 D2 Rc z : regular D2 Rc z -> 0 < chiOf D2 Rc z /\ chiOf D2 Rc z * chiOf D2 Rc z = detOf D2 Rc z + difOf D2 Rc z.
Proof. intros H. destruct (regular_pos D2 Rc z H) as (_ & _ & A). split; [apply sqrt_lt_R0; exact A|apply sqrt_sqrt; lra]. Qed.

(** the relations between coordinates *)
Lemma geometry D2 Rc z : regular D2 Rc z -> let psi := psiOf D2 Rc z in let chi := chiOf D2 Rc z in let c := cosOf D2 Rc z in let s := sinOf D2 Rc z in
  0 < psi /\ 0 < chi /\ 0 < s /\ s ^ 2 = 1 - c ^ 2 /\ D2 = psi ^ 2 - chi ^ 2 /\ Rc = chi * s /\ z = psi * c /\
  chi ^ 2 * c ^ 2 + psi ^ 2 * s ^ 2 = 2 * detOf D2 Rc z.
Proof.
  intros H psi chi c s. destruct (psi2 D2 Rc z H) as [P1 P2]. destruct (chi2 D2 Rc z H) as [C1 C2]. fold psi in P1, P2. fold chi in C1, C2.
  destruct (regular_pos D2 Rc z H) as (Dp & _ & _). pose proof (det2 D2 Rc z) as E1. unfold sumOf in P2. unfold difOf in C2, E1.
  assert (Hc : psi * c = z) by (unfold c, cosOf; fold psi; field; lra). assert (Hs : chi * s = Rc) by (unfold s, sinOf; fold chi; field; lra).
  assert (E : D2 = psi ^ 2 - chi ^ 2) by (simpl; lra).
  assert (F : s ^ 2 + c ^ 2 = 1).
  { assert (psi ^ 2 * chi ^ 2 * (s ^ 2 + c ^ 2) = psi ^ 2 * chi ^ 2).
    { replace (psi ^ 2 * chi ^ 2 * (s ^ 2 + c ^ 2)) with ((psi * psi) * (chi * s) ^ 2 + (chi * chi) * (psi * c) ^ 2) by ring.
      replace (psi ^ 2 * chi ^ 2) with ((psi * psi) * (chi * chi)) by ring. rewrite Hs, Hc, P2, C2.
      set (d := detOf D2 Rc z) in *. apply Rminus_diag_uniq.
      match goal with |- ?e = 0 => replace e with (((Rc ^ 2 + z ^ 2 - D2) / 2) ^ 2 + Rc ^ 2 * D2 - d * d) by field end. lra. }
    assert (0 < psi ^ 2 * chi ^ 2) by (apply Rmult_lt_0_compat; apply pow_lt; assumption). apply Rmult_eq_reg_l with (psi ^ 2 * chi ^ 2); [lra|lra]. }
  split; [exact P1|]. split; [exact C1|]. split; [unfold s, sinOf; apply Rdiv_lt_0_compat; [apply H|exact C1]|].
  split; [lra|]. split; [exact E|]. split; [lra|]. split; [lra|].
  replace (chi ^ 2 * c ^ 2 + psi ^ 2 * s ^ 2) with ((chi * chi) * c ^ 2 + (psi * psi) * s ^ 2) by ring.
  replace (s ^ 2) with (1 - c ^ 2) by lra. replace ((chi * chi) * c ^ 2 + (psi * psi) * (1 - c ^ 2)) with (psi * psi - (psi ^ 2 - chi ^ 2) * c ^ 2) by ring.
  rewrite <- E. pose proof (det2' D2 Rc z) as E2. unfold sumOf in E2. set (d := detOf D2 Rc z) in *.
  (* D2 c^2 psi^2 = D2 z^2 *)
  apply Rmult_eq_reg_l with (psi * psi); [|nra].
  replace (psi * psi * (psi * psi - D2 * c ^ 2)) with ((psi * psi) * (psi * psi) - D2 * (psi * c) ^ 2) by ring. rewrite Hc, P2. nra.
Qed.
Lemma pos_closed D2 Rc z : regular D2 Rc z -> getPosAxi D2 Rc z = (chiOf D2 Rc z, psiOf D2 Rc z, cosOf D2 Rc z, sinOf D2 Rc z).
Proof.
  intros H. destruct (geometry D2 Rc z H) as (P & C & Sp & F & E & HR & HZ & G). destruct (psi2 D2 Rc z H) as [_ P2]. destruct (chi2 D2 Rc z H) as [_ C2].
  unfold getPosAxi. cbv zeta.
  assert (ED : (if Rle_b 0 D2 then sqrt (pow_2 (0.5 * (pow_2 Rc + pow_2 z - D2)) + mul (pow_2 Rc) D2) else sqrt (pow_2 (0.5 * (pow_2 Rc + pow_2 z + D2)) - mul (pow_2 z) D2)) = detOf D2 Rc z).
  { assert (M : forall x y, mul x y = x * y) by (intros x y; unfold mul; destruct (Req_EM_T y 0) as [->|N]; [rewrite Req_b_t by reflexivity; ring|rewrite Req_b_f by exact N; reflexivity]).
    rewrite !M. unfold detOf, difOf, pow_2. destruct (Rle_b 0 D2); f_equal; lra. }
  rewrite ED. clear ED. replace (0.5 * (pow_2 Rc + pow_2 z + D2)) with (sumOf D2 Rc z) by (unfold sumOf, pow_2; lra).
  replace (0.5 * (pow_2 Rc + pow_2 z - D2)) with (difOf D2 Rc z) by (unfold difOf, pow_2; lra).
  set (d := detOf D2 Rc z) in *. fold (psiOf D2 Rc z). set (psi := psiOf D2 Rc z) in *. set (chi := chiOf D2 Rc z) in *.
  change (sqrt (d + sumOf D2 Rc z)) with psi. change (sqrt (d + difOf D2 Rc z)) with chi.
  set (c := cosOf D2 Rc z) in *. set (s := sinOf D2 Rc z) in *.
  assert (A1 : (if Rle_b 0 (sumOf D2 Rc z) then (psi, if Req_b z 0 then 0 else z / psi)
    else (z / (sqrt ((d - sumOf D2 Rc z) / - D2) * (if Rle_b 0 z then 1 else -1)), sqrt ((d - sumOf D2 Rc z) / - D2) * (if Rle_b 0 z then 1 else -1))) = (psi, c)).
  { destruct (Rle_dec 0 (sumOf D2 Rc z)) as [L|L]; [rewrite Rle_b_t by exact L|rewrite Rle_b_f by lra].
    - f_equal. unfold c, cosOf. fold psi. destruct (Req_EM_T z 0) as [Z|Z]; [rewrite Req_b_t by exact Z; rewrite Z; unfold Rdiv; ring|rewrite Req_b_f by exact Z; reflexivity].
    - assert (D2 < 0) by (unfold sumOf in L; pose proof (pow2_ge_0 z); pose proof (pow2_ge_0 Rc); lra).
      assert (z <> 0). { destruct H as [H1 [H2|H2]]; [exact H2|]. unfold sumOf in L. pose proof (pow2_ge_0 z). lra. }
      assert (K : (d - sumOf D2 Rc z) / - D2 = c ^ 2).
      { apply Rmult_eq_reg_r with (- D2); [|lra]. unfold Rdiv. rewrite Rmult_assoc, Rinv_l by lra.
        assert (d = psi ^ 2 - sumOf D2 Rc z) by (simpl; lra). apply Rmult_eq_reg_l with (psi ^ 2); [|nra].
        replace (psi ^ 2 * (c ^ 2 * - D2)) with (- D2 * (psi * c) ^ 2) by ring. rewrite <- HZ.
        pose proof (det2' D2 Rc z) as E2. fold d in E2. replace (psi ^ 2) with (d + sumOf D2 Rc z) by (simpl; lra). nra. }
      rewrite K. rewrite <- Rsqr_pow2, sqrt_Rsqr_abs.
      assert (K2 : Rabs c * (if Rle_b 0 z then 1 else -1) = c).
      { destruct (Rle_dec 0 z) as [Lz|Lz]; [rewrite Rle_b_t by exact Lz; rewrite Rabs_right; [ring|]|rewrite Rle_b_f by lra; rewrite Rabs_left; [ring|]].
        - apply Rle_ge. unfold c, cosOf. fold psi. apply Rmult_le_pos; [exact Lz|left; apply Rinv_0_lt_compat; exact P].
        - assert (0 < - c) by (unfold c, cosOf; fold psi; replace (- (z / psi)) with (- z / psi) by (field; lra); apply Rdiv_lt_0_compat; lra). lra. }
      rewrite K2. f_equal. assert (c <> 0) by (intros Q; rewrite Q in HZ; lra). rewrite HZ at 1. field. assumption. }
  rewrite A1. 
  assert (A2 : (if Rle_b 0 (difOf D2 Rc z) then (chi, if Req_b Rc 0 then 0 else Rc / chi)
    else (Rc / sqrt ((d - difOf D2 Rc z) / D2), sqrt ((d - difOf D2 Rc z) / D2))) = (chi, s)).
  { destruct H as [HRc _]. destruct (Rle_dec 0 (difOf D2 Rc z)) as [L|L]; [rewrite Rle_b_t by exact L|rewrite Rle_b_f by lra].
    - rewrite Req_b_f by lra. reflexivity.
    - assert (0 < D2) by (unfold difOf in L; pose proof (pow2_ge_0 z); pose proof (pow2_ge_0 Rc); lra).
      assert (K : (d - difOf D2 Rc z) / D2 = s ^ 2).
      { apply Rmult_eq_reg_r with D2; [|lra]. unfold Rdiv. rewrite Rmult_assoc, Rinv_l by lra.
        apply Rmult_eq_reg_l with (chi ^ 2); [|nra].
        replace (chi ^ 2 * (s ^ 2 * D2)) with (D2 * (chi * s) ^ 2) by ring. rewrite <- HR.
        pose proof (det2 D2 Rc z) as E2. fold d in E2. replace (chi ^ 2) with (d + difOf D2 Rc z) by (simpl; lra). nra. }
      rewrite K. rewrite sqrt_pow2 by lra. f_equal. rewrite HR at 1. field. lra. }
  rewrite A2. reflexivity.
Qed.
