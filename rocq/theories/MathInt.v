From Coquelicot Require Import Coquelicot.
From Verif Require Import PolyModel PolyProofs MathModel MathProofs.
Local Open Scope R_scope.

Lemma RInt_of_antider (F f : R -> R) a b : (forall x, Rmin a b <= x <= Rmax a b -> is_derive F x (f x)) ->
  (forall x, Rmin a b <= x <= Rmax a b -> continuous f x) -> is_RInt f a b (F b - F a).
Proof. intros D C. apply (is_RInt_derive F f a b D C). Qed.

Lemma powerRZ_cont m x : (x <> 0 \/ (0 <= m)%Z) -> continuous (fun x => powerRZ x m) x.
Proof. intros H. apply (ex_derive_continuous (fun x => powerRZ x m) x). eexists. apply powerRZ_der, H. Qed.

Lemma powerRZ_add' x m n : (x <> 0 \/ (0 <= m)%Z /\ (0 <= n)%Z) -> powerRZ x m * powerRZ x n = powerRZ x (m + n).
Proof.
  intros [H|[H1 H2]]; [symmetry; apply powerRZ_add, H|]. rewrite <- (Z2Nat.id m), <- (Z2Nat.id n) by assumption. rewrite <- Nat2Z.inj_add, <- !pow_powerRZ. symmetry. apply pow_add.
Qed.

Lemma monomial_integral m n x1 x2 : ((0 <= m)%Z /\ (0 <= n)%Z \/ 0 < x1 /\ 0 < x2 \/ x1 < 0 /\ x2 < 0) ->
  is_RInt (fun x => powerRZ x m * powerRZ x n) x1 x2 (monomial_integrate m x1 x2 n).
Proof.
  intros H. 
  assert (NZ : forall x, Rmin x1 x2 <= x <= Rmax x1 x2 -> x <> 0 \/ (0 <= m)%Z /\ (0 <= n)%Z).
  { intros x X. destruct H as [H|[[A B]|[A B]]]; [right; exact H|left|left]; unfold Rmin, Rmax in X; destruct (Rle_dec x1 x2); lra. }
  assert (S : forall x, Rmin x1 x2 < x < Rmax x1 x2 -> powerRZ x (m + n) = powerRZ x m * powerRZ x n) by (intros x X; symmetry; apply powerRZ_add', NZ; lra).
  apply (is_RInt_ext (fun x => powerRZ x (m + n))); [exact S|].
  assert (CT : forall x, Rmin x1 x2 <= x <= Rmax x1 x2 -> continuous (fun x => powerRZ x (m + n)) x).
  { intros x X. apply powerRZ_cont. destruct (NZ x X) as [Q|Q]; [left; exact Q|right; lia]. }
  unfold monomial_integrate. destruct (Z.eqb_spec (m + n + 1) 0) as [E|E].
  - assert (SG : 0 < x1 /\ 0 < x2 \/ x1 < 0 /\ x2 < 0). { destruct H as [H|H]; [lia|exact H]. }
    assert (E' : (m + n = -1)%Z) by lia.
    assert (LD : ln (x2 / x1) = ln (Rabs x2) - ln (Rabs x1)).
    { destruct SG as [[A B]|[A B]]; [rewrite !Rabs_right by lra|rewrite !Rabs_left by lra].
      - apply ln_div; assumption.
      - rewrite <- ln_div by lra. f_equal. field. lra. }
    rewrite LD. apply (RInt_of_antider (fun x => ln (Rabs x))); [|exact CT].
    intros x X. rewrite E'. destruct (NZ x X) as [Q|Q]; [|lia].
    assert (PM : powerRZ x (-1) = / x) by (change (powerRZ x (-1)) with (/ (x * 1)); f_equal; ring). rewrite PM.
    destruct SG as [[A B]|[A B]].
    + assert (0 < x) by (unfold Rmin, Rmax in X; destruct (Rle_dec x1 x2); lra).
      apply (is_derive_ext_loc ln); [|evar_last; [apply is_derive_ln; assumption|reflexivity]].
      exists (mkposreal x H0). intros y Y. unfold ball in Y; cbn in Y; unfold AbsRing_ball, abs, minus, plus, opp in Y; cbn in Y. apply Rabs_def2 in Y. rewrite Rabs_right by lra. reflexivity.
    + assert (x < 0) by (unfold Rmin, Rmax in X; destruct (Rle_dec x1 x2); lra).
      apply (is_derive_ext_loc (fun x => ln (- x))).
      * assert (P : 0 < - x) by lra. exists (mkposreal (- x) P). intros y Y. unfold ball in Y; cbn in Y; unfold AbsRing_ball, abs, minus, plus, opp in Y; cbn in Y. apply Rabs_def2 in Y. rewrite Rabs_left by lra. reflexivity.
      * auto_derive; [lra|]. field. lra.
  - set (k := (m + n + 1)%Z) in *. assert (IZR k <> 0) by (apply IZR_neq; exact E).
    replace ((powerRZ x2 k - powerRZ x1 k) / IZR k) with (powerRZ x2 k / IZR k - powerRZ x1 k / IZR k) by (field; assumption).
    apply (RInt_of_antider (fun x => powerRZ x k / IZR k)); [|exact CT].
    intros x X. assert (Q : x <> 0 \/ (0 <= k)%Z) by (destruct (NZ x X) as [Q|Q]; [left; exact Q|right; lia]).
    pose proof (powerRZ_der k x Q) as D. destruct (Z.eqb_spec k 0); [contradiction|].
    evar_last; [apply (is_derive_scal_l (fun x => powerRZ x k) x _ (/ IZR k) D)|]. unfold scal; cbn; unfold mult; cbn. replace (k - 1)%Z with (m + n)%Z by lia. field. assumption.
Qed.

Lemma gaussian_cont sigma n x : sigma <> 0 -> continuous (fun x => fv (gaussian sigma) x * x ^ n) x.
Proof.
  intros N. apply (continuous_mult (fv (gaussian sigma)) (fun x => x ^ n)).
  - apply (ex_derive_continuous (fv (gaussian sigma)) x). eexists. apply (gaussian_ok sigma x N).
  - apply (ex_derive_continuous (fun x => x ^ n) x). auto_derive. exact Logic.I.
Qed.
Definition gaussF (Phi : R -> R) (n : nat) (y : R) : R :=
  let e := exp (- (1 / 2) * y * y) in
  match n with
  | 0%nat => Phi y | 1%nat => - e | 2%nat => - (y * e) + Phi y | 3%nat => - ((2 + y * y) * e)
  | 4%nat => - (y * (3 + y * y) * e) + 3 * Phi y | 5%nat => - ((8 + y * y * (4 + y * y)) * e)
  | 6%nat => - (y * (15 + y * y * (5 + y * y)) * e) + 15 * Phi y
  | _ => - ((48 + y * y * (24 + y * y * (6 + y * y))) * e) end.
Lemma gaussF_derive Phi n y : (n <= 7)%nat -> is_derive Phi y (exp (- (1 / 2) * y * y)) -> is_derive (gaussF Phi n) y (y ^ n * exp (- (1 / 2) * y * y)).
Proof.
  intros N D. destruct n as [|[|[|[|[|[|[|[|n]]]]]]]]; [| | | | | | | |lia]; unfold gaussF.
  - evar_last; [exact D|]. cbn [pow]. lra.
  - auto_derive; [exact Logic.I|]. set (E := exp _). field.
  - evar_last; [apply (is_derive_plus (fun y => - (y * exp (- (1 / 2) * y * y))) Phi); [auto_derive; [exact Logic.I|reflexivity]|exact D]|]. unfold plus; cbn [plus AbelianGroup.plus]; cbn. set (E := exp _). field.
  - auto_derive; [exact Logic.I|]. set (E := exp _). field.
  - evar_last; [apply (is_derive_plus (fun y => - (y * (3 + y * y) * exp (- (1 / 2) * y * y))) (fun y => 3 * Phi y)); [auto_derive; [exact Logic.I|reflexivity]|apply is_derive_scal, D]|]. unfold plus; cbn. set (E := exp _). field.
  - auto_derive; [exact Logic.I|]. set (E := exp _). field.
  - evar_last; [apply (is_derive_plus (fun y => - (y * (15 + y * y * (5 + y * y)) * exp (- (1 / 2) * y * y))) (fun y => 15 * Phi y)); [auto_derive; [exact Logic.I|reflexivity]|apply is_derive_scal, D]|]. unfold plus; cbn. set (E := exp _). field.
  - auto_derive; [exact Logic.I|]. set (E := exp _). field.
Qed.
Lemma gaussF_even Phi n y : n mod 2 = 1%nat -> (n <= 7)%nat -> gaussF Phi n (- y) = gaussF Phi n y.
Proof.
  intros N L. destruct n as [|[|[|[|[|[|[|[|n]]]]]]]]; cbn in N; try lia; unfold gaussF; replace (- (1 / 2) * - y * - y) with (- (1 / 2) * y * y) by ring; ring.
Qed.
Lemma gaussian_integral Phi sigma x1 x2 n : sigma <> 0 -> (n <= 7)%nat -> (forall y, is_derive Phi y (exp (- (1 / 2) * y * y))) ->
  is_RInt (fun x => fv (gaussian sigma) x * x ^ n) x1 x2 (gaussian_integrate Phi sigma x1 x2 n).
Proof.
  intros N L D. pose proof (sqrt_lt_R0 2 ltac:(lra)). pose proof (sqrt_lt_R0 PI PI_RGT_0).
  set (K := sigma ^ n / (sqrt PI * sqrt 2)).
  assert (V : gaussian_integrate Phi sigma x1 x2 n = gaussF Phi n (x2 / sigma) * K - gaussF Phi n (x1 / sigma) * K).
  { unfold gaussian_integrate. destruct (Req_b (x1 + x2) 0 && (n mod 2 =? 1)%nat) eqn:E.
    - apply andb_prop in E. destruct E as [E1 E2]. unfold Req_b in E1. destruct (Req_EM_T (x1 + x2) 0) as [E3|]; [|discriminate]. apply Nat.eqb_eq in E2.
      replace (x1 / sigma) with (- (x2 / sigma)) by (replace x1 with (- x2) by lra; field; exact N). rewrite gaussF_even by assumption. ring.
    - unfold gaussF, K. destruct n as [|[|[|[|[|[|[|[|n]]]]]]]]; [| | | | | | | |lia]; unfold Rdiv; ring. }
  rewrite V. apply (RInt_of_antider (fun x => gaussF Phi n (x / sigma) * K)); [|intros; apply gaussian_cont, N].
  intros x _.
  assert (DC : is_derive (fun x => gaussF Phi n (x / sigma)) x (/ sigma * ((x / sigma) ^ n * exp (- (1 / 2) * (x / sigma) * (x / sigma))))).
  { apply (is_derive_comp (gaussF Phi n) (fun x => x / sigma)); [apply gaussF_derive; [exact L|apply D]|auto_derive; [exact Logic.I|field; exact N]]. }
  evar_last; [apply (is_derive_scal_l (fun x => gaussF Phi n (x / sigma)) x _ K DC)|].
  unfold scal; cbn; unfold mult; cbn. unfold K, pow_2. replace (- (1 / 2) * (x / sigma) * (x / sigma)) with (- (1 / 2) * (x / sigma * (x / sigma))) by ring.
  set (E := exp _). replace (x ^ n) with ((x / sigma) ^ n * sigma ^ n) by (rewrite <- Rpow_mult_distr; f_equal; field; exact N). set (Y := (x / sigma) ^ n). field. lra.
Qed.
