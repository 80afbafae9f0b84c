(** C69: Gauss-Hermite expansions. *)
From Verif Require Import Base GaussHermModel GaussHermProofs GaussHermProofs2.
From Coq Require Import Reals Lra Lia List Psatz.
From Coquelicot Require Import Coquelicot.
Import ListNotations.
Local Open Scope R_scope.
(** ** the polynomials: [hermite n] are the physicists' ones, H(n+2)=2xH(n+1)-2(n+1)H(n); the array contains them divided by sqrt(2^n n!) *)
Theorem C69_polynomials : forall nmax x, length (hermiteArray nmax x) = S nmax /\
  forall n, (n <= nmax)%nat -> nth n (hermiteArray nmax x) 0 = hermite n x / sqrt (2 ^ n * INR (fact n)).
Proof. intros. split; [apply hermiteArray_length|]. intros n Hn. exact (hermiteArray_nth nmax x n Hn). Qed.
(** documented: dH_n/dx = sqrt(2n) H_{n-1} *)
Theorem C69_derivative : forall nmax n x, (S n <= nmax)%nat ->
  is_derive (fun t => nth (S n) (hermiteArray nmax t) 0) x (sqrt (2 * INR (S n)) * nth n (hermiteArray nmax x) 0).
Proof.
  intros nmax n x Hn. rewrite hermiteArray_nth by lia. pose proof (pos_INR n). rewrite S_INR, sqrt_mult by lra.
  apply (is_derive_ext (h (S n))); [intros; rewrite hermiteArray_nth by lia; reflexivity|apply h_diff].
Qed.
Lemma h_continuous : forall n x, continuous (h n) x.
Proof. intros. apply (ex_derive_continuous (h n) x), h_ex. Qed.
(** documented: orthogonal with the weight exp(-x^2), all with the same norm as that of H_0 (the Gaussian itself) *)
Theorem C69_orthonormal : forall nmax n m, (n <= nmax)%nat -> (m <= nmax)%nat ->
  integralIs (fun x => (nth n (hermiteArray nmax x) 0 * nth m (hermiteArray nmax x) 0 - (if Nat.eqb n m then 1 else 0)) * exp (- (x * x))) 0.
Proof.
  intros nmax n m Hn Hm. destruct (ortho n m) as (P & T & D). apply integral_zero with P; [| |exact T].
  - intros x. rewrite !hermiteArray_nth by assumption. apply D.
  - intros x. apply (continuous_ext (fun x => (h n x * h m x - delta n m) * g2 x)); [intros; rewrite !hermiteArray_nth by assumption; reflexivity|].
    apply (ex_derive_continuous (fun x => (h n x * h m x - delta n m) * g2 x) x). apply ex_derive_mult; [apply (@ex_derive_minus R_AbsRing R_NormedModule); [apply ex_derive_mult; apply h_ex|apply ex_derive_const]|eexists; apply g2_diff].
Qed.
(** ** the expansion: [gauss center width] is the normalized Gaussian *)
Definition gauss (center width x : R) : R := 1 / (sqrt (2 * PI) * width) * exp (- (1 / 2) * (((x - center) / width) * ((x - center) / width))).
Theorem C69_value : forall moments ampl center width x, 0 < width ->
  ghValue moments ampl center width x = ampl * gauss center width x * sumProd moments (map (fun n => hermite n ((x - center) / width) / sqrt (2 ^ n * INR (fact n))) (seq 0 (length moments))).
Proof.
  intros moments ampl center width x Hw. unfold ghValue. destruct moments as [|a M]; [unfold sumProd; simpl; ring|]. cbv zeta.
  rewrite hermiteArray_map. replace (S (length (a :: M) - 1)) with (length (a :: M)) by (simpl; lia). unfold gauss. rewrite sqrt_mult by (pose proof PI_RGT_0; lra).
  pose proof sq2_pos. assert (0 < sqrt PI) by (apply sqrt_lt_R0, PI_RGT_0). unfold h, hnorm. field. repeat split; lra.
Qed.
(** norm() is the integral of the expansion over the real axis (in units of the integral of the normalized Gaussian, i.e. 1) *)
Theorem C69_norm : forall moments ampl center width, 0 < width ->
  integralIs (fun x => ghValue moments ampl center width x - ghNorm moments ampl * gauss center width x) 0.
Proof.
  intros M ampl c w Hw. destruct (sum_integral M 0) as (P & T & D). set (q := 1 / (sqrt (2 * PI) * w)).
  assert (Q : 0 < sqrt (2 * PI)) by (apply sqrt_lt_R0; pose proof PI_RGT_0; lra).
  assert (DD : forall x, is_derive (fun t => (ampl * q * w) * P ((t - c) / w)) x (ghValue M ampl c w x - ghNorm M ampl * gauss c w x)).
  { intros x. pose proof (is_derive_comp P (fun t => (t - c) / w) x _ (/ w) (D ((x - c) / w)) ltac:(auto_derive; [exact Logic.I|field; lra])) as E.
    pose proof (is_derive_scal _ x (ampl * q * w) _ E) as F. match type of F with is_derive _ _ ?e => match goal with |- is_derive _ _ ?g => replace g with e; [exact F|] end end.
    rewrite C69_value by exact Hw. unfold ghNorm. rewrite !sumProd_dotp. unfold gauss. fold q. unfold h, hnorm, gs. set (y := (x - c) / w).
    set (u := dotp M (map (fun n => _) _)). set (v := dotp M (map normn _)).
    transitivity (ampl * q * w * (/ w * ((u - v) * exp (- (1 / 2) * (y * y))))); [reflexivity|]. toR. field. lra. }
  apply integral_zero with (1 := DD).
  - intros x. apply (ex_derive_continuous (fun x => ghValue M ampl c w x - ghNorm M ampl * gauss c w x) x). 
    apply (ex_derive_ext (fun x => (fun y => (ampl * q) * ((dotp M (map (fun n => h n y) (seq 0 (length M))) - dotp M (map normn (seq 0 (length M)))) * gs y)) ((x - c) / w))).
    { intros t. rewrite C69_value by exact Hw. unfold ghNorm. rewrite !sumProd_dotp. unfold gauss. fold q. unfold gs, h, hnorm. toR. ring. }
    set (V := dotp M (map normn (seq 0 (length M)))).
    assert (HD : forall y, ex_derive (fun y => dotp M (map (fun n => h n y) (seq 0 (length M)))) y).
    { clear. generalize 0%nat. induction M as [|a M IH]; intros k y; cbn [length seq map dotp]; [apply ex_derive_const|]. apply (@ex_derive_plus R_AbsRing R_NormedModule (fun y => a * h k y)); [apply (ex_derive_scal (h k) a), h_ex|apply IH]. }
    assert (HY : forall y, ex_derive (fun y => (ampl * q) * ((dotp M (map (fun n => h n y) (seq 0 (length M))) - V) * gs y)) y).
    { intros y. apply (ex_derive_scal (fun y => (dotp M (map (fun n => h n y) (seq 0 (length M))) - V) * gs y) (ampl * q)). apply (ex_derive_mult (fun y => dotp M (map (fun n => h n y) (seq 0 (length M))) - V) gs); [|eexists; apply gs_diff].
      apply (@ex_derive_minus R_AbsRing R_NormedModule (fun y => dotp M (map (fun n => h n y) (seq 0 (length M)))) (fun _ => V)); [apply HD|apply ex_derive_const]. }
    apply (ex_derive_comp (fun y => (ampl * q) * ((dotp M (map (fun n => h n y) (seq 0 (length M))) - V) * gs y)) (fun x => (x - c) / w)); [apply HY|auto_derive; exact Logic.I].
  - apply tends0_scal. exact (tends0_affine c w P Hw T).
Qed.
(** the literal values of normn used for n=4,6,8 *)
Theorem C69_normn_literals : forall n, Rabs (normnLiteral n - normn n) <= 1 / 10 ^ 16.
Proof.
  assert (B : forall lit s a, 0 <= lit -> 0 <= s -> 0 < a -> (lit - a) * (lit - a) <= s <= (lit + a) * (lit + a) -> 0 <= lit - a -> Rabs (lit - sqrt s) <= a).
  { intros lit s a L0 S0 A [H1 H2] LA. apply Rabs_le. split.
    - assert (sqrt s <= lit + a) by (rewrite <- (sqrt_square (lit + a)) by lra; apply sqrt_le_1_alt; exact H2). lra.
    - assert (lit - a <= sqrt s) by (rewrite <- (sqrt_square (lit - a)) by lra; apply sqrt_le_1_alt; exact H1). lra. }
  assert (N : forall n f d, (fact n = f)%nat -> dfact n = d -> Nat.odd n = false -> 0 < d -> normn n = sqrt (INR f / (d * d))).
  { intros n f d F E O D. unfold normn. rewrite O, F, E. rewrite sqrt_div; [rewrite sqrt_square by lra; reflexivity|apply pos_INR|apply Rmult_lt_0_compat; exact D]. }
  assert (Z : forall n, normnLiteral n = normn n -> Rabs (normnLiteral n - normn n) <= 1 / 10 ^ 16).
  { intros n ->. rewrite Rminus_diag_eq by reflexivity. rewrite Rabs_R0. apply Rlt_le, Rdiv_lt_0_compat; [lra|apply pow_lt; lra]. }
  assert (I24 : INR 24 = 24) by (simpl; ring). assert (I720 : INR 720 = 720) by (rewrite INR_IZR_INZ; reflexivity). assert (I40320 : INR (fact 8) = 40320) by (rewrite INR_IZR_INZ; f_equal).
  intros n. destruct n as [|[|[|[|[|[|[|[|[|n]]]]]]]]]; try (apply Z; reflexivity); cbn [normnLiteral].
  - rewrite (N 4%nat 24%nat 8); [rewrite I24; apply B; simpl pow; lra|reflexivity|simpl; ring|reflexivity|lra].
  - rewrite (N 6%nat 720%nat 48); [rewrite I720; apply B; simpl pow; lra|reflexivity|simpl; ring|reflexivity|lra].
  - rewrite (N 8%nat (fact 8) 384); [rewrite I40320; apply B; simpl pow; lra|reflexivity|simpl; ring|reflexivity|lra].
Qed.
Theorem C69_normn_values : normn 0 = 1 /\ normn 2 = 1 / sqrt 2 /\ (forall n, normn (2 * n + 1) = 0).
Proof.
  split; [unfold normn; simpl; rewrite sqrt_1; field|]. split.
  - rewrite normn_SS. unfold normn. simpl. rewrite sqrt_1. replace (0 + 1) with 1 by ring. replace (1 + 1) with 2 by ring. rewrite sqrt_1. field. pose proof sq2_pos. lra.
  - intros n. unfold normn. rewrite Nat.odd_add_mul_2 || replace (Nat.odd (2 * n + 1)) with true; [reflexivity|]. symmetry. rewrite Nat.odd_spec. exists n. reflexivity.
Qed.
(** ** moments of a generic function: quadrature over 99 points y = -7, -48/7, ..., 7 *)
Definition quadPoint (k : nat) : R := (INR k - 49) / 7.
Lemma h_parity : forall n x, h n (- x) = (if Nat.odd n then -1 else 1) * h n x.
Proof.
  assert (G : forall n x, hermite n (- x) = (if Nat.odd n then -1 else 1) * hermite n x /\ hermite (S n) (- x) = (if Nat.odd n then 1 else -1) * hermite (S n) x).
  { induction n as [|n IH]; intros x; [simpl; split; ring|]. destruct (IH x) as [A B]. rewrite Nat.odd_succ, <- Nat.negb_odd. split; [rewrite B; destruct (Nat.odd n); simpl negb; cbv iota; ring|]. rewrite !hermite_SS, A, B. destruct (Nat.odd n); simpl negb; cbv iota; ring. }
  intros n x. unfold h. rewrite (proj1 (G n x)). unfold Rdiv. ring.
Qed.
Theorem C69_moments : forall f order m ampl center width, (m <= order)%nat -> ampl <> 0 ->
  ghMoment f m order ampl center width =
  sqrt 2 * width / ampl * fold_right Rplus 0 (map (fun k => let y := quadPoint k in f (center + width * y) * exp (- (1 / 2) * (y * y)) * (hermite m y / sqrt (2 ^ m * INR (fact m))) / 7) (seq 0 99)).
Proof.
  intros f order m ampl c w Hm Ha.
  assert (FL : forall (F : nat -> R) l acc, fold_left (fun acc p => acc + F p) l acc = acc + fold_right Rplus 0 (map F l)) by (intros F; induction l as [|a l IH]; intros acc; simpl; [ring|rewrite IH; ring]).
  assert (FA : forall a b, fold_right Rplus 0 (a ++ b) = fold_right Rplus 0 a + fold_right Rplus 0 b) by (induction a as [|x a IH]; intros b; simpl; [ring|rewrite IH; ring]).
  assert (FR : forall a, fold_right Rplus 0 (rev a) = fold_right Rplus 0 a) by (induction a as [|x a IH]; simpl; [reflexivity|rewrite FA, IH; simpl; ring]).
  assert (FP : forall (F G : nat -> R) l, fold_right Rplus 0 (map F l) + fold_right Rplus 0 (map G l) = fold_right Rplus 0 (map (fun k => F k + G k) l)) by (intros F G; induction l as [|a l IH]; simpl; [ring|rewrite <- IH; ring]).
  assert (FS : forall K (F : nat -> R) l, K * fold_right Rplus 0 (map F l) = fold_right Rplus 0 (map (fun k => K * F k) l)) by (intros K F; induction l as [|a l IH]; simpl; [ring|rewrite <- IH; ring]).
  unfold ghMoment. rewrite FL, Rplus_0_l.
  set (G := fun y => f (c + w * y) * exp (- (1 / 2) * (y * y)) * (hermite m y / sqrt (2 ^ m * INR (fact m))) / 7).
  replace (seq 0 99) with (rev (map (fun p => (49 - p)%nat) (seq 1 49)) ++ (49 :: map (fun p => (49 + p)%nat) (seq 1 49))%nat) by reflexivity.
  change (map _ (rev (map (fun p => (49 - p)%nat) (seq 1 49)) ++ (49 :: map (fun p => (49 + p)%nat) (seq 1 49))%nat)) with (map (fun k => G (quadPoint k)) (rev (map (fun p => (49 - p)%nat) (seq 1 49)) ++ (49 :: map (fun p => (49 + p)%nat) (seq 1 49))%nat)).
  rewrite map_app, FA, map_rev, FR. cbn [map fold_right]. rewrite !map_map.
  change (seq 0 50) with (0 :: seq 1 49)%nat. cbn [map fold_right].
  assert (E7 : INR 49 = 49) by (rewrite INR_IZR_INZ; reflexivity).
  rewrite (Rplus_comm (G (quadPoint 49))), <- Rplus_assoc, FP, Rmult_plus_distr_l, FS, Rplus_comm. f_equal.
  - f_equal. apply map_ext_in. intros p Hp. apply in_seq in Hp. unfold ghMomentTerm. cbv zeta. rewrite hermiteArray_nth by exact Hm. destruct p as [|p]; [lia|]. set (y := INR (S p) * (1 / 7)).
    replace (quadPoint (49 - S p)) with (- y) by (unfold quadPoint, y; rewrite minus_INR, E7 by lia; field). replace (quadPoint (49 + S p)) with y by (unfold quadPoint, y; rewrite plus_INR, E7; field).
    unfold G. fold (hnorm m). change (hermite m (- y) / hnorm m) with (h m (- y)). change (hermite m y / hnorm m) with (h m y). rewrite h_parity. replace (- y * - y) with (y * y) by ring. replace (- (1 / 2) * y * y) with (- (1 / 2) * (y * y)) by ring.
    replace (c + w * - y) with (c - w * y) by ring. field. exact Ha.
  - unfold ghMomentTerm. cbv zeta. rewrite hermiteArray_nth by exact Hm. replace (quadPoint 49) with 0 by (unfold quadPoint; rewrite E7; field). unfold G. fold (hnorm m). change (hermite m 0 / hnorm m) with (h m 0).
    replace (INR 0 * (1 / 7)) with 0 by (simpl; ring). replace (- (1 / 2) * 0 * 0) with (- (1 / 2) * (0 * 0)) by ring. destruct (Nat.odd m); field; exact Ha.
Qed.
(** ** the fit of amplitude, centre and width: residual of a node with the square root of weight [w] and value [fv], and its true derivatives *)
Theorem C69_fit_residual : forall ampl center width node w fv, 0 < width -> fitValue ampl center width node w fv = w * (fv - ampl * gauss center width node).
Proof.
  intros. unfold fitValue, fitMult, gauss. cbv zeta. rewrite sqrt_mult by (pose proof PI_RGT_0; lra). pose proof sq2_pos. assert (0 < sqrt PI) by (apply sqrt_lt_R0, PI_RGT_0).
  rewrite (Rmult_assoc (- (1 / 2))). field. repeat split; lra.
Qed.
Theorem C69_fit_jacobian : forall ampl center width node w fv, 0 < width -> let '(da, dc, dw) := fitDerivs ampl center width node w in
  is_derive (fun a => fitValue a center width node w fv) ampl da /\ is_derive (fun c => fitValue ampl c width node w fv) center dc /\ is_derive (fun s => fitValue ampl center s node w fv) width dw.
Proof.
  intros ampl c s node w fv Hw. unfold fitDerivs. cbv zeta. pose proof sq2_pos. assert (0 < sqrt PI) by (apply sqrt_lt_R0, PI_RGT_0).
  unfold fitValue, fitMult. cbv zeta. set (k := 1 / sqrt 2 / sqrt PI).
  split; [|split]; auto_derive; try (repeat split; lra); unfold Rdiv, Rminus; try (field; lra).
Qed.
(** ** concrete cases *)
Example C69_ex_h2 : nth 2 (hermiteArray 3 1) 0 = 2 / sqrt 8.
Proof. rewrite (proj2 (C69_polynomials 3 1)) by lia. simpl. f_equal; [ring|f_equal; ring]. Qed.
Example C69_ex_norm : ghNorm [1; 0; 0; 0; 1] 2 = 2 * (1 + sqrt 24 / 8).
Proof. unfold ghNorm. rewrite sumProd_dotp. cbn [length seq map dotp]. unfold normn at 1 5. cbn -[sqrt INR fact normn]. simpl. rewrite sqrt_1. replace (sqrt _) with (sqrt 24) by (f_equal; ring). field. Qed.
Print Assumptions C69_norm.
Print Assumptions C69_fit_jacobian.
