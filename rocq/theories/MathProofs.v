From Coq Require Import Nsatz.
From Coquelicot Require Import Coquelicot.
From Verif Require Import PolyModel PolyProofs MathModel.
Import ListNotations.
Local Open Scope R_scope.

(* ---- integer power ---- *)
Lemma powLoop_ok fuel : forall r x n, (0 <= n < 2 ^ Z.of_nat fuel)%Z -> (1 <= fuel)%nat -> powLoop fuel r x n = Some (r * powerRZ x n).
Proof.
  induction fuel as [|f IH]; intros r x n H F; [lia|]. cbn [powLoop].
  assert (S : Z.shiftr n 1 = (n / 2)%Z) by (rewrite Z.shiftr_div_pow2 by lia; reflexivity). rewrite S.
  pose proof (Z.div_mod n 2 ltac:(lia)) as DM. pose proof (Z.mod_pos_bound n 2 ltac:(lia)) as MB.
  assert (RM : Z.rem n 2 = (n mod 2)%Z) by (apply Z.rem_mod_nonneg; lia). rewrite RM.
  assert (Q0 : (0 <= n / 2)%Z) by (apply Z.div_pos; lia).
  assert (PW : powerRZ x n = powerRZ (x * x) (n / 2) * powerRZ x (n mod 2)).
  { clear - DM MB Q0. set (q := (n / 2)%Z) in *. set (b := (n mod 2)%Z) in *. clearbody q b. subst n.
    rewrite <- (Z2Nat.id q) by exact Q0. rewrite <- (Z2Nat.id b) by lia. set (Q := Z.to_nat q). set (B := Z.to_nat b).
    replace (2 * Z.of_nat Q + Z.of_nat B)%Z with (Z.of_nat (2 * Q + B)) by lia. rewrite <- !pow_powerRZ.
    rewrite pow_add, pow_mult. f_equal. f_equal. ring. }
  destruct (Z.eqb_spec (n / 2) 0) as [E|E].
  - rewrite PW, E. change (powerRZ (x * x) 0) with 1. destruct (Z.eqb_spec (n mod 2) 0) as [E2|E2]; [rewrite E2; change (powerRZ x 0) with 1; f_equal; ring|].
    replace (n mod 2)%Z with 1%Z by lia. rewrite powerRZ_1. f_equal. ring.
  - assert (f <> 0)%nat. { intros ->. apply E. apply Z.div_small. change (2 ^ Z.of_nat 1)%Z with 2%Z in H. lia. }
    rewrite IH; [|split; [exact Q0|]|lia].
    + f_equal. rewrite PW. destruct (Z.eqb_spec (n mod 2) 0) as [E2|E2]; [rewrite E2; change (powerRZ x 0) with 1; ring|].
      replace (n mod 2)%Z with 1%Z by lia. rewrite powerRZ_1. ring.
    + apply Z.div_lt_upper_bound; [lia|]. rewrite Nat2Z.inj_succ, Z.pow_succ_r in H by lia. lia.
Qed.
Lemma pow_int_ok x n : (- 2 ^ 31 < n < 2 ^ 31)%Z -> (x <> 0 \/ (0 <= n)%Z) -> pow_int 31 x n = Some (powerRZ x n).
Proof.
  intros H N. unfold pow_int. destruct (Z.ltb_spec n 0) as [L|L].
  - destruct (Z.eqb_spec n (- 2 ^ 31)) as [E|E]; [lia|]. rewrite powLoop_ok by (try lia; change (2 ^ Z.of_nat 31)%Z with (2 ^ 31)%Z; lia). f_equal. rewrite Rmult_1_l.
    destruct N as [N|N]; [|lia]. destruct n as [|p|p]; try lia. cbn [powerRZ Z.opp]. unfold Rdiv. rewrite Rmult_1_l. apply pow_inv.
  - rewrite powLoop_ok by (try lia; change (2 ^ Z.of_nat 31)%Z with (2 ^ 31)%Z; lia). f_equal. ring.
Qed.
Lemma powLoop_diverges fuel : forall r x, powLoop fuel r x (- 1) = None.
Proof. induction fuel as [|f IH]; intros r x; [reflexivity|]. cbn [powLoop]. change (Z.shiftr (-1) 1) with (-1)%Z. change (Z.rem (-1) 2 =? 0)%Z with false. cbv iota. apply IH. Qed.

Lemma pow_real_ok x n : 0 < x -> pow_real x n = Rpower x n.
Proof.
  intros X. unfold pow_real.
  assert (P1 : Rpower x 1 = x) by (apply Rpower_1; exact X).
  assert (P2 : Rpower x 2 = x * x) by (replace 2 with (1 + 1) by ring; rewrite Rpower_plus, P1; reflexivity).
  assert (P3 : Rpower x 3 = x * x * x) by (replace 3 with (2 + 1) by ring; rewrite Rpower_plus, P1, P2; reflexivity).
  assert (PH : Rpower x (1 / 2) = sqrt x) by (replace (1 / 2) with (/ 2) by field; apply Rpower_sqrt; exact X).
  assert (PI' : forall y, Rpower x (- y) = 1 / Rpower x y) by (intros y; rewrite Rpower_Ropp; unfold Rdiv; rewrite Rmult_1_l; reflexivity).
  unfold Req_b.
  destruct (Req_EM_T n 0) as [->|_]; [symmetry; apply Rpower_O; exact X|].
  destruct (Req_EM_T n 1) as [->|_]; [symmetry; exact P1|].
  destruct (Req_EM_T n (-1)) as [->|_]; [rewrite <- P1 at 1; symmetry; apply (PI' 1)|].
  destruct (Req_EM_T n 2) as [->|_]; [symmetry; exact P2|].
  destruct (Req_EM_T n (-2)) as [->|_]; [rewrite <- P2; symmetry; apply (PI' 2)|].
  destruct (Req_EM_T n (1 / 2)) as [->|_]; [symmetry; exact PH|].
  destruct (Req_EM_T n (- (1 / 2))) as [->|_]; [rewrite <- PH; symmetry; apply (PI' (1 / 2))|].
  destruct (Req_EM_T n 3) as [->|_]; [symmetry; exact P3|].
  destruct (Req_EM_T n (-3)) as [->|_]; [rewrite <- P3; symmetry; apply (PI' 3)|]. reflexivity.
Qed.

(* ---- angles ---- *)
Lemma wrapAngle_ok P x : 0 < P -> 0 <= wrapAngle P x < P /\ exists k : Z, wrapAngle P x = x - P * IZR k.
Proof.
  intros H. unfold wrapAngle. cbv zeta. destruct (base_Int_part (1 / P * x)) as [A B]. set (k := Int_part (1 / P * x)) in *. clearbody k.
  assert (E : P * (1 / P * x) = x) by (field; lra).
  assert (A' : P * IZR k <= x) by (rewrite <- E; apply Rmult_le_compat_l; lra).
  assert (B' : x - P < P * IZR k). { rewrite <- E at 1. replace (P * (1 / P * x) - P) with (P * (1 / P * x - 1)) by ring. apply Rmult_lt_compat_l; lra. }
  rewrite Rle_b_t by lra. rewrite Rlt_b_t by lra. cbn [andb]. split; [lra|]. exists k. reflexivity.
Qed.
Lemma mod_unique P a b (k : Z) : 0 <= a < P -> 0 <= b < P -> a = b + P * IZR k -> a = b.
Proof.
  intros A B E. assert (K : (- 1 < k < 1)%Z). { split; apply lt_IZR; nra. } replace k with 0%Z in E by lia. lra.
Qed.
Lemma trunc_pos x : 0 <= x -> trunc x <= x < trunc x + 1 /\ 0 <= trunc x /\ exists k, trunc x = IZR k.
Proof.
  intros H. unfold trunc. rewrite Rle_b_t by exact H. destruct (base_Int_part x) as [A B]. split; [lra|]. split; [|eauto]. apply (IZR_le 0). 
  assert (-1 < Int_part x)%Z by (apply lt_IZR; lra). lia.
Qed.
Lemma trunc_neg x : x < 0 -> x <= trunc x < x + 1 /\ trunc x <= 0 /\ exists k, trunc x = IZR k.
Proof.
  intros H. unfold trunc. rewrite Rle_b_f by exact H. destruct (base_Int_part (- x)) as [A B]. split; [lra|]. split; [|exists (- Int_part (- x))%Z; rewrite opp_IZR; reflexivity].
  assert (0 <= IZR (Int_part (- x))); [|lra]. apply (IZR_le 0). assert (-1 < Int_part (- x))%Z by (apply lt_IZR; lra). lia.
Qed.
Lemma unwrapAngle_ok P x xprev : 0 < P -> Rabs (unwrapAngle P x xprev - xprev) <= P / 2 /\ exists k : Z, unwrapAngle P x xprev = x - P * IZR k.
Proof.
  intros H. unfold unwrapAngle. cbv zeta. set (d := (x - xprev) / P). assert (E : x = xprev + P * d) by (unfold d; field; lra). clearbody d.
  destruct (Rlt_le_dec (1 / 2) d) as [L|L]; [rewrite Rlt_b_t by exact L|rewrite Rlt_b_f by exact L].
  - destruct (trunc_pos (d + 1 / 2)) as [A [_ [k K]]]; [lra|]. split; [|exists k; rewrite K; reflexivity]. rewrite E. set (w := trunc (d + 1 / 2)) in *.
    replace (xprev + P * d - P * w - xprev) with (P * (d - w)) by ring. rewrite Rabs_mult, (Rabs_right P) by lra. 
    replace (P / 2) with (P * / 2) by reflexivity. apply Rmult_le_compat_l; [lra|]. apply Rabs_le. lra.
  - destruct (Rlt_le_dec d (- (1 / 2))) as [M|M]; [rewrite Rlt_b_t by exact M|rewrite Rlt_b_f by exact M].
    + destruct (trunc_neg (d - 1 / 2)) as [A [_ [k K]]]; [lra|]. split; [|exists k; rewrite K; reflexivity]. rewrite E. set (w := trunc (d - 1 / 2)) in *.
      replace (xprev + P * d - P * w - xprev) with (P * (d - w)) by ring. rewrite Rabs_mult, (Rabs_right P) by lra.
      replace (P / 2) with (P * / 2) by reflexivity. apply Rmult_le_compat_l; [lra|]. apply Rabs_le. lra.
    + split; [|exists 0%Z; reflexivity]. rewrite E. replace (xprev + P * d - P * 0 - xprev) with (P * d) by ring. rewrite Rabs_mult, (Rabs_right P) by lra.
      replace (P / 2) with (P * / 2) by reflexivity. apply Rmult_le_compat_l; [lra|]. apply Rabs_le. lra.
Qed.
Lemma unwrapSeq_length P xp l : length (unwrapSeq P xp l) = length l.
Proof. revert xp; induction l as [|x l IH]; intros; cbn; [reflexivity|now rewrite IH]. Qed.
Lemma unwrapSeq_ok P : 0 < P -> forall l xp i, (i < length l)%nat ->
  (exists k : Z, nth i (unwrapSeq P xp l) 0 = nth i l 0 - P * IZR k) /\
  Rabs (nth i (unwrapSeq P xp l) 0 - nth i (xp :: unwrapSeq P xp l) 0) <= P / 2.
Proof.
  intros H. induction l as [|x l IH]; intros xp i L; [cbn in L; lia|]. cbn [unwrapSeq].
  destruct (unwrapAngle_ok P x xp H) as [A B]. destruct i as [|i].
  - cbn [nth]. split; [exact B|exact A].
  - cbn [length] in L. exact (IH (unwrapAngle P x xp) i ltac:(lia)).
Qed.

(* ---- averages ---- *)
Definition sumR (l : list R) : R := fold_right Rplus 0 l.
Definition meanR (l : list R) : R := sumR l / INR (length l).
Definition ssqR (l : list R) : R := sumR (map (fun x => (x - meanR l) ^ 2) l).
Lemma sumR_app l1 l2 : sumR (l1 ++ l2) = sumR l1 + sumR l2.
Proof. unfold sumR. induction l1 as [|a l IH]; cbn [app fold_right]; [ring|]. rewrite IH. ring. Qed.
Lemma sum_sq_shift c l : sumR (map (fun x => (x - c) ^ 2) l) = sumR (map (fun x => x ^ 2) l) - 2 * c * sumR l + INR (length l) * c ^ 2.
Proof. induction l as [|a l IH]; [cbn [map sumR fold_right length INR]; ring|]. cbn [map sumR fold_right length]. fold (sumR l) (sumR (map (fun x => (x - c) ^ 2) l)) (sumR (map (fun x => x ^ 2) l)). rewrite IH, S_INR. ring. Qed.
Lemma avg_fold l : l <> [] -> fold_left avg_add l avg_init = (meanR l, ssqR l, length l).
Proof.
  induction l as [|v l IH] using rev_ind; [congruence|]. intros _. rewrite fold_left_app. cbn [fold_left].
  destruct l as [|a l'].
  - unfold meanR, ssqR, meanR. cbn [app fold_left avg_init avg_add sumR fold_right map length INR]. f_equal. f_equal; field.
  - set (l := a :: l') in *. rewrite IH by discriminate. unfold avg_add.
    assert (Np : 0 < INR (length l)) by (apply (lt_INR 0); cbn; lia).
    assert (Ln : INR (length (l ++ v :: nil)) = INR (length l) + 1) by (rewrite app_length, plus_INR; cbn; ring).
    assert (M : meanR l + (v - meanR l) / (INR (length l) + 1) = meanR (l ++ v :: nil)).
    { unfold meanR. rewrite Ln, sumR_app. cbn [sumR fold_right]. field. lra. }
    rewrite M. replace (length (l ++ v :: nil)) with (S (length l)) by (rewrite app_length; cbn; lia). f_equal. f_equal.
    unfold ssqR. rewrite !sum_sq_shift, Ln. rewrite map_app, !sumR_app. cbn [map sumR fold_right]. rewrite <- M.
    assert (E : sumR l = INR (length l) * meanR l) by (unfold meanR; field; lra). rewrite E. set (n := INR (length l)) in *. set (mu := meanR l).
    set (q := sumR (map (fun x => x ^ 2) l)). clearbody n mu q. clear - Np. field. lra.
Qed.

(* ---- interpolation ---- *)
Lemma hermite_derive x1 x2 y1 y2 d1 d2 x : x1 <> x2 ->
  is_derive (fun x => hermiteInterp x x1 x2 y1 y2 d1 d2) x
   (let t := (x - x1) / (x2 - x1) in 6 * t * (1 - t) * (y2 - y1) / (x2 - x1) + (1 - t) * (1 - 3 * t) * d1 + t * (3 * t - 2) * d2).
Proof. intros N. unfold hermiteInterp, pow_2. auto_derive; [lra|]. field. lra. Qed.

Definition poly5 (c0 c1 c2 c3 c4 c5 x1 x : R) : R := let h := x - x1 in c0 + c1 * h + c2 * h ^ 2 + c3 * h ^ 3 + c4 * h ^ 4 + c5 * h ^ 5.
Definition dpoly5 (c1 c2 c3 c4 c5 x1 x : R) : R := let h := x - x1 in c1 + 2 * c2 * h + 3 * c3 * h ^ 2 + 4 * c4 * h ^ 3 + 5 * c5 * h ^ 4.
Lemma poly5_derive c0 c1 c2 c3 c4 c5 x1 x : is_derive (poly5 c0 c1 c2 c3 c4 c5 x1) x (dpoly5 c1 c2 c3 c4 c5 x1 x).
Proof. unfold poly5, dpoly5. auto_derive; [auto|]. ring. Qed.
Lemma hermiteDerivs_poly c0 c1 c2 c3 c4 c5 x0 x1 x2 : x0 <> x1 -> x1 <> x2 -> x0 <> x2 ->
  let p := poly5 c0 c1 c2 c3 c4 c5 x1 in let p' := dpoly5 c1 c2 c3 c4 c5 x1 in
  hermiteDerivs x0 x1 x2 (p x0) (p x1) (p x2) (p' x0) (p' x1) (p' x2) =
  (2 * c2, if Req_b (x2 - x1 - (x1 - x0)) 0 then None else Some (6 * c3), 24 * c4, 120 * c5).
Proof.
  intros N1 N2 N3 p p'. unfold hermiteDerivs, p, p', poly5, dpoly5. cbv zeta.
  assert (A1 : x1 - x0 <> 0) by lra. assert (A2 : x2 - x1 <> 0) by lra. assert (A3 : x2 - x0 <> 0) by lra.
  f_equal; [f_equal; [f_equal|]|].
  - field. lra.
  - unfold Req_b. destruct (Req_EM_T (x2 - x1 - (x1 - x0)) 0) as [E|E]; [reflexivity|]. f_equal. field. lra.
  - field. lra.
  - field. lra.
Qed.

(* ---- function objects ---- *)
Definition derivs_ok (f : fnc) (x : R) : Prop := is_derive (fv f) x (fd f x) /\ is_derive (fd f) x (fd2 f x).
Lemma product_ok f g x : derivs_ok f x -> derivs_ok g x -> derivs_ok (fncProduct f g) x.
Proof.
  intros [F1 F2] [G1 G2]. split; cbn [fv fd fd2 fncProduct].
  - evar_last; [apply (is_derive_mult (fv f) (fv g) x _ _ F1 G1); intros; apply Rmult_comm|]. cbn. unfold plus, mult; cbn. ring.
  - evar_last; [apply (is_derive_plus (fun x => fv f x * fd g x) (fun x => fv g x * fd f x)); [apply (is_derive_mult (fv f) (fd g) x _ _ F1 G2)|apply (is_derive_mult (fv g) (fd f) x _ _ G1 F2)]; intros; apply Rmult_comm|].
    unfold plus, mult; cbn; unfold plus, mult; cbn. ring.
Qed.
Lemma shifted_ok f dx dy x : derivs_ok f (x - dx) -> derivs_ok (fncShifted f dx dy) x.
Proof.
  intros [F1 F2]. split; cbn [fv fd fd2 fncShifted].
  - evar_last; [apply (is_derive_minus (fun x => fv f (x - dx)) (fun _ => dy)); [|apply is_derive_const]; apply (is_derive_comp (fv f) (fun x => x - dx)); [exact F1|]; auto_derive; [auto|reflexivity]|].
    unfold minus, plus, opp, scal, zero; cbn; unfold mult; cbn. ring.
  - evar_last; [apply (is_derive_comp (fd f) (fun x => x - dx)); [exact F2|]; auto_derive; [auto|reflexivity]|].
    unfold scal; cbn; unfold mult; cbn. ring.
Qed.
Lemma loglog_d1 f u : fv f (exp u) > 0 -> derivs_ok f (exp u) -> is_derive (fv (fncLogLog f)) u (fd (fncLogLog f) u).
Proof.
  intros P [F1 _]. cbn [fv fd fncLogLog].
  evar_last; [apply (is_derive_comp ln (fun u => fv f (exp u))); [apply is_derive_ln; exact P|apply (is_derive_comp (fv f) exp); [exact F1|apply is_derive_exp]]|].
  unfold scal; cbn; unfold mult; cbn. field. lra.
Qed.
Lemma loglog_d2 f u : fv f (exp u) > 0 -> derivs_ok f (exp u) ->
  is_derive (fd (fncLogLog f)) u ((fd2 f (exp u) * exp u - fd f (exp u) * (fd f (exp u) * exp u / fv f (exp u) - 1)) * exp u / fv f (exp u)).
Proof.
  intros P [F1 F2]. cbn [fv fd fd2 fncLogLog].
  assert (E := is_derive_exp u).
  assert (D1 : is_derive (fun u => fd f (exp u)) u (exp u * fd2 f (exp u))) by (apply (is_derive_comp (fd f) exp); assumption).
  assert (D0 : is_derive (fun u => fv f (exp u)) u (exp u * fd f (exp u))) by (apply (is_derive_comp (fv f) exp); assumption).
  evar_last; [apply (is_derive_div (fun u => fd f (exp u) * exp u) (fun u => fv f (exp u))); [apply (is_derive_mult (fun u => fd f (exp u)) exp u _ _ D1 E); intros; apply Rmult_comm|exact D0|lra]|].
  unfold plus, mult; cbn. unfold plus, mult; cbn. field. lra.
Qed.

Lemma powerRZ_derive m x : x <> 0 -> is_derive (fun x => powerRZ x m) x (IZR m * powerRZ x (m - 1)).
Proof.
  intros N. destruct m as [|p|p].
  - cbn [powerRZ]. evar_last; [apply is_derive_const|]. unfold zero; cbn. ring.
  - cbn [powerRZ]. evar_last; [apply is_derive_pow, is_derive_id|]. unfold one.
    pose proof (Pos2Nat.is_pos p). replace (Z.pos p - 1)%Z with (Z.of_nat (pred (Pos.to_nat p))) by lia. rewrite <- pow_powerRZ.
    rewrite INR_IZR_INZ, positive_nat_Z. cbn. ring.
  - assert (PN : forall z, z <> 0 -> z ^ Pos.to_nat p <> 0) by (intros; apply pow_nonzero; assumption).
    cbn [powerRZ]. evar_last; [apply (is_derive_inv (fun x => x ^ Pos.to_nat p)); [apply is_derive_pow, is_derive_id|apply PN, N]|].
    unfold one; cbn [Z.sub]. cbn. rewrite INR_IZR_INZ, positive_nat_Z. rewrite Pos2Nat.inj_add. change (Pos.to_nat 1) with 1%nat. rewrite (Nat.add_1_r (Pos.to_nat p)).
    change (IZR (Z.neg p)) with (- IZR (Z.pos p)). destruct (Pos.to_nat p) as [|k] eqn:K; [pose proof (Pos2Nat.is_pos p); lia|].
    cbn [pred pow]. assert (x ^ k <> 0) by (apply pow_nonzero; exact N). field. split; assumption.
Qed.
Lemma powerRZ_derive_pos m x : (1 <= m)%Z -> is_derive (fun x => powerRZ x m) x (IZR m * powerRZ x (m - 1)).
Proof.
  intros M. destruct m as [|p|p]; try lia. cbn [powerRZ]. evar_last; [apply is_derive_pow, is_derive_id|]. unfold one.
  pose proof (Pos2Nat.is_pos p). replace (Z.pos p - 1)%Z with (Z.of_nat (pred (Pos.to_nat p))) by lia. rewrite <- pow_powerRZ.
  rewrite INR_IZR_INZ, positive_nat_Z. cbn. ring.
Qed.
Lemma powerRZ_der m x : (x <> 0 \/ (0 <= m)%Z) -> is_derive (fun x => powerRZ x m) x (if Z.eqb m 0 then 0 else IZR m * powerRZ x (m - 1)).
Proof.
  intros H. destruct (Z.eqb_spec m 0) as [->|N]; [exact (is_derive_const 1 x)|]. destruct H as [H|H]; [apply powerRZ_derive, H|apply powerRZ_derive_pos; lia].
Qed.
Lemma monomial_ok m x : (x <> 0 \/ (0 <= m)%Z) -> derivs_ok (monomial m) x.
Proof.
  intros H. split; [apply powerRZ_der, H|]. cbn [fd fd2 monomial]. destruct (Z.eqb_spec m 0) as [E|N]; cbn [orb]; [exact (is_derive_const 0 x)|].
  assert (D : is_derive (fun x => powerRZ x (m - 1)) x (if Z.eqb (m - 1) 0 then 0 else IZR (m - 1) * powerRZ x (m - 1 - 1))) by (apply powerRZ_der; destruct H; [left; assumption|right; lia]).
  evar_last; [apply is_derive_scal, D|]. destruct (Z.eqb_spec m 1) as [->|N1]; [cbn; ring|]. destruct (Z.eqb_spec (m - 1) 0); [lia|]. rewrite mult_IZR. replace (m - 1 - 1)%Z with (m - 2)%Z by lia. ring.
Qed.
Lemma gaussian_ok sigma x : sigma <> 0 -> derivs_ok (gaussian sigma) x.
Proof.
  intros N. pose proof (sqrt_lt_R0 2 ltac:(lra)). pose proof (sqrt_lt_R0 PI PI_RGT_0). split; cbn [fv fd fd2 gaussian]; unfold pow_2.
  - auto_derive; [repeat split; lra|]. change (x * / sigma) with (x / sigma). set (E := exp _). field. lra.
  - auto_derive; [repeat split; lra|]. change (x * / sigma) with (x / sigma). set (E := exp _). field. lra.
Qed.
