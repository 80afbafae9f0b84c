From Coq Require Import Sorting.Sorted Permutation Nsatz Lra Psatz.
From Verif Require Import PolyModel PolyProofs.
Local Open Scope R_scope.

(* -------- depressed cubic t^3 + 3 Q t - 2 R -------- *)
Definition dep (Q Rr t : R) : R := t * t * t + 3 * Q * t - 2 * Rr.
Lemma dep_cubic a3 a2 a1 a0 x : a3 <> 0 ->
  a3 * pow_3 x + a2 * pow_2 x + a1 * x + a0 = a3 * dep (cubicQ a3 a2 a1) (cubicR a3 a2 a1 a0) (x - cubicS a3 a2).
Proof. intros N. unfold dep, cubicQ, cubicR, cubicS, pow_3, pow_2. field. exact N. Qed.
Lemma dep_root a3 a2 a1 a0 x : a3 <> 0 ->
  a3 * pow_3 x + a2 * pow_2 x + a1 * x + a0 = 0 <-> dep (cubicQ a3 a2 a1) (cubicR a3 a2 a1 a0) (x - cubicS a3 a2) = 0.
Proof.
  intros N. rewrite dep_cubic by exact N. split; intros H; [|rewrite H; ring]. apply Rmult_integral in H. destruct H; [contradiction|assumption].
Qed.

Lemma cube_inj a b : a * a * a = b * b * b -> a = b.
Proof.
  intros H. destruct (Rtotal_order a b) as [L|[E|L]]; [|exact E|]; exfalso; assert (K : (a - b) * (a * a + a * b + b * b) = 0) by (transitivity (a * a * a - b * b * b); [ring|lra]);
  apply Rmult_integral in K; destruct K as [K|K]; try lra; assert (0 < (a - b) * (a - b)) by nra; assert (0 <= (a + b) * (a + b)) by apply Rle_0_sqr; lra.
Qed.
Lemma cbrt_pow x : 0 < x -> cbrt x * cbrt x * cbrt x = x /\ 0 < cbrt x.
Proof.
  intros H. unfold cbrt. rewrite Rlt_b_t by exact H. split; [|apply exp_pos].
  rewrite <- !Rpower_plus. replace (1 / 3 + 1 / 3 + 1 / 3) with 1 by field. apply Rpower_1. exact H.
Qed.

(** one real root *)
Lemma cubic_one Q Rr s : 0 < pow_3 Q + pow_2 Rr ->
  let a := (if Rle_b 0 Rr then 1 else -1) * cbrt (Rabs Rr + sqrt (pow_3 Q + pow_2 Rr)) in
  forall x, dep Q Rr (x - s) = 0 <-> x = a + - Q / a + s.
Proof.
  intros D. set (A := Rabs Rr + sqrt (pow_3 Q + pow_2 Rr)). intros a.
  pose proof (sqrt_lt_R0 _ D) as Sp. pose proof (sqrt_sqrt _ (Rlt_le _ _ D)) as Sq. set (sd := sqrt (pow_3 Q + pow_2 Rr)) in *.
  assert (Ap : 0 < A). { unfold A. pose proof (Rabs_pos Rr). lra. }
  destruct (cbrt_pow A Ap) as [C1 C2]. set (sg := if Rle_b 0 Rr then 1 else -1) in *.
  assert (Sg : sg * sg = 1 /\ sg * Rabs Rr = Rr). { unfold sg, Rle_b. destruct (Rle_dec 0 Rr); split; try lra; [rewrite Rabs_right; lra|rewrite Rabs_left; lra]. }
  destruct Sg as [Sg1 Sg2]. assert (Na : a <> 0). { unfold a. intros Z. apply Rmult_integral in Z. destruct Z as [Z|Z]; [rewrite Z in Sg1; lra|lra]. }
  assert (A3 : a * a * a = Rr + sg * sd). { unfold a. transitivity (sg * (sg * sg) * (cbrt A * cbrt A * cbrt A)); [ring|]. rewrite C1, Sg1. unfold A. lra. }
  set (b := - Q / a). assert (AB : a * b = - Q) by (unfold b; field; exact Na).
  assert (N3 : a * a * a <> 0). { intros Z. apply Rmult_integral in Z. destruct Z as [Z|Z]; [apply Rmult_integral in Z; destruct Z|]; contradiction. }
  assert (B3 : b * b * b = Rr - sg * sd). { apply Rmult_eq_reg_l with (a * a * a); [|exact N3]. rewrite A3 at 2.
    transitivity ((a * b) * (a * b) * (a * b)); [ring|]. rewrite AB. transitivity (Rr * Rr - sg * sg * (sd * sd)); [|ring]. rewrite Sg1, Sq. unfold pow_3, pow_2. ring. }
  assert (NE : a <> b). { intros Z. rewrite Z, B3 in A3. assert (K : sg * sd = 0) by lra. assert (sg * sg * sd = 0) by (rewrite Rmult_assoc, K; ring). rewrite Sg1 in H. lra. }
  intros x. fold b. unfold dep. set (t := x - s).
  assert (F : t * t * t + 3 * Q * t - 2 * Rr = (t - a - b) * (t * t + (a + b) * t + a * a - a * b + b * b)).
  { replace Q with (- (a * b)) by lra. replace (2 * Rr) with (a * a * a + b * b * b) by lra. ring. }
  rewrite F. split.
  - intros H. apply Rmult_integral in H. destruct H as [H|H]; [unfold t in H; lra|]. exfalso.
    assert (K : (2 * t + (a + b)) * (2 * t + (a + b)) + 3 * ((a - b) * (a - b)) = 0) by nra.
    assert (0 < (a - b) * (a - b)) by (apply Rlt_0_sqr; lra). pose proof (Rle_0_sqr (2 * t + (a + b))) as K2. unfold Rsqr in K2. lra.
  - intros H. replace (t - a - b) with 0 by (unfold t; lra). ring.
Qed.

(** a double root *)
Lemma cubic_two Q Rr s : pow_3 Q + pow_2 Rr = 0 -> ~ (Q = 0 /\ Rr = 0) ->
  s + Rr / Q <> s - Rr / Q * 2 /\ forall x, dep Q Rr (x - s) = 0 <-> x = s + Rr / Q \/ x = s - Rr / Q * 2.
Proof.
  intros D N. assert (NQ : Q <> 0). { intros Z. apply N. split; [exact Z|]. subst Q. unfold pow_3, pow_2 in D. assert (K : Rr * Rr = 0) by lra. apply Rmult_integral in K. destruct K; assumption. }
  set (u := Rr / Q). assert (U1 : Rr = u * Q) by (unfold u; field; exact NQ).
  assert (U2 : Q = - (u * u)). { apply Rmult_eq_reg_l with (Q * Q); [|intros Z; apply Rmult_integral in Z; destruct Z; contradiction]. unfold pow_3, pow_2 in D. rewrite U1 in D. clear - D. nsatz. }
  assert (NU : u <> 0). { intros Z. rewrite Z in U2. lra. }
  split; [lra|]. intros x. unfold dep. replace Rr with (- (u * u * u)) by (rewrite U1, U2; ring). rewrite U2.
  set (t := x - s). replace (t * t * t + 3 * - (u * u) * t - 2 * - (u * u * u)) with ((t - u) * (t - u) * (t + 2 * u)) by ring. split.
  - intros H. apply Rmult_integral in H. destruct H as [H|H]; [apply Rmult_integral in H; destruct H; left; unfold t in *; lra|right; unfold t in *; lra].
  - intros [H|H]; [replace (t - u) with 0 by (unfold t; lra)|replace (t + 2 * u) with 0 by (unfold t; lra)]; ring.
Qed.

Lemma cos_triple p : cos (3 * p) = 4 * (cos p * cos p * cos p) - 3 * cos p.
Proof.
  replace (3 * p) with (2 * p + p) by ring. rewrite cos_plus, cos_2a, sin_2a. pose proof (sin2_cos2 p) as H. unfold Rsqr in H.
  replace (sin p * sin p) with (1 - cos p * cos p) by lra. transitivity ((cos p * cos p - (1 - cos p * cos p)) * cos p - 2 * (sin p * sin p) * cos p); [ring|].
  replace (sin p * sin p) with (1 - cos p * cos p) by lra. ring.
Qed.
Lemma sqrt3_sq : sqrt 3 * sqrt 3 = 3. Proof. apply sqrt_sqrt. lra. Qed.
Lemma cos_2PI3' : cos (PI * 2 / 3) = - (1 / 2). Proof. replace (PI * 2 / 3) with (2 * (PI / 3)) by field. rewrite cos_2PI3. lra. Qed.
Lemma sin_2PI3' : sin (PI * 2 / 3) = sqrt 3 / 2. Proof. replace (PI * 2 / 3) with (2 * (PI / 3)) by field. apply sin_2PI3. Qed.
Lemma cos_4PI3' : cos (PI * 4 / 3) = - (1 / 2). Proof. replace (PI * 4 / 3) with (PI / 3 + PI) by field. rewrite neg_cos, cos_PI3. lra. Qed.
Lemma sin_4PI3' : sin (PI * 4 / 3) = - (sqrt 3 / 2). Proof. replace (PI * 4 / 3) with (PI / 3 + PI) by field. rewrite neg_sin, sin_PI3. lra. Qed.

(** three real roots *)
Lemma cubic_three Q Rr s : pow_3 Q + pow_2 Rr < 0 ->
  let a := sqrt (- Q) in let phi := 1 / 3 * acos (Rr / pow_3 a) in
  let r0 := 2 * a * cos (phi + PI * 2 / 3) + s in let r1 := 2 * a * cos (phi + PI * 4 / 3) + s in let r2 := 2 * a * cos phi + s in
  r0 < r1 < r2 /\ forall x, dep Q Rr (x - s) = 0 <-> x = r0 \/ x = r1 \/ x = r2.
Proof.
  intros D a phi r0 r1 r2. unfold pow_3, pow_2 in D.
  assert (NQ : Q < 0). { destruct (Rlt_le_dec Q 0) as [H|H]; [exact H|]. exfalso. assert (0 <= Q * Q * Q) by (apply Rmult_le_pos; [apply Rmult_le_pos|]; lra). nra. }
  assert (Aq : a * a = - Q) by (apply sqrt_sqrt; lra). assert (Ap : 0 < a) by (apply sqrt_lt_R0; lra). clearbody a.
  assert (A3 : 0 < pow_3 a) by (unfold pow_3; apply Rmult_lt_0_compat; [apply Rmult_lt_0_compat|]; exact Ap).
  set (k := Rr / pow_3 a) in *. assert (Rk : Rr = k * pow_3 a) by (unfold k; field; lra).
  assert (K2 : k * k < 1). { assert (E : (k * k - 1) * (pow_3 a * pow_3 a) < 0).
    { replace ((k * k - 1) * (pow_3 a * pow_3 a)) with (Q * Q * Q + Rr * Rr); [exact D|]. rewrite Rk. unfold pow_3. replace Q with (- (a * a)) by lra. ring. }
    assert (0 < pow_3 a * pow_3 a) by (apply Rmult_lt_0_compat; exact A3). nra. }
  assert (K1 : -1 < k < 1) by (split; nra).
  assert (Ph : 0 < phi < PI / 3). { unfold phi. destruct (acos_bound_lt k K1). lra. }
  assert (Ck : cos (3 * phi) = k). { unfold phi. replace (3 * (1 / 3 * acos k)) with (acos k) by field. apply cos_acos. lra. }
  rewrite cos_triple in Ck.
  pose proof PI_RGT_0 as Pp.
  assert (S0 : 0 < sin phi) by (apply sin_gt_0; lra).
  assert (C0 : 1 / 2 < cos phi). { rewrite <- cos_PI3. apply cos_decreasing_1; lra. }
  pose proof (sin2_cos2 phi) as SC. unfold Rsqr in SC.
  assert (q0 : 0 < sqrt 3) by (apply sqrt_lt_R0; lra). pose proof sqrt3_sq as qq.
  assert (SS : sin phi < sqrt 3 * cos phi). { destruct (Rlt_le_dec (sin phi) (sqrt 3 * cos phi)) as [H|H]; [exact H|]. exfalso.
    assert (0 <= sqrt 3 * cos phi) by (apply Rmult_le_pos; lra).
    assert (M : (sqrt 3 * cos phi) * (sqrt 3 * cos phi) <= sin phi * sin phi) by (apply Rmult_le_compat; assumption).
    replace ((sqrt 3 * cos phi) * (sqrt 3 * cos phi)) with (3 * (cos phi * cos phi)) in M by (rewrite <- qq at 1; ring).
    assert (1 / 2 * (1 / 2) < cos phi * cos phi) by (apply Rmult_le_0_lt_compat; lra). lra. }
  assert (E0 : r0 = a * (- cos phi - sqrt 3 * sin phi) + s). { unfold r0. rewrite cos_plus, cos_2PI3', sin_2PI3'. lra. }
  assert (E1 : r1 = a * (- cos phi + sqrt 3 * sin phi) + s). { unfold r1. rewrite cos_plus, cos_4PI3', sin_4PI3'. lra. }
  assert (E2 : r2 = a * (2 * cos phi) + s) by (unfold r2; lra). clearbody r0 r1 r2 phi.
  set (c := cos phi) in *. set (z := sin phi) in *. set (q := sqrt 3) in *. clearbody c z q.
  assert (QZ1 : 0 < q * z) by (apply Rmult_lt_0_compat; assumption). assert (QZ2 : q * z < q * (q * c)) by (apply Rmult_lt_compat_l; assumption). rewrite <- Rmult_assoc, qq in QZ2.
  split. { rewrite E0, E1, E2. split; apply Rplus_lt_compat_r; apply Rmult_lt_compat_l; lra. }
  intros x. set (t := x - s).
  assert (F : dep Q Rr t = (t - (r0 - s)) * (t - (r1 - s)) * (t - (r2 - s))).
  { rewrite E0, E1, E2. unfold dep. rewrite Rk, <- Ck. replace Q with (- (a * a)) by lra. unfold pow_3. clear - SC qq. nsatz. }
  rewrite F. unfold t. split.
  - intros H. apply Rmult_integral in H. destruct H as [H|H]; [apply Rmult_integral in H; destruct H|]; [left|right;left|right;right]; lra.
  - intros [H|[H|H]]; rewrite H; ring.
Qed.

(** the condition under which the multiplicity decision of the code is exact (D has the meaning of minus the discriminant / (108 a3^4)) *)
Definition cubicOk (Q Rr : R) : Prop := pow_3 Q + pow_2 Rr = 0 \/ 2 * deps * pow_2 Rr < Rabs (pow_3 Q + pow_2 Rr).

Lemma cubicRoots_ok s Q Rr : ~ (Q = 0 /\ Rr = 0) -> cubicOk Q Rr ->
  NoDup (cubicRoots s Q Rr) /\ (length (cubicRoots s Q Rr) <= 3)%nat /\ forall x, In x (cubicRoots s Q Rr) <-> dep Q Rr (x - s) = 0.
Proof.
  intros N K. unfold cubicRoots. cbv zeta. set (D := pow_3 Q + pow_2 Rr) in *.
  assert (P2 : 0 <= pow_2 Rr) by apply Rle_0_sqr. pose proof deps_pos as dp. destruct K as [K|K]; fold D in K.
  - rewrite Rle_b_t by (rewrite K, Rabs_R0; apply Rmult_le_pos; [lra|exact P2]).
    destruct (cubic_two Q Rr s K N) as [A B]. split; [|split].
    + constructor; [cbn; intros [H|[]]; congruence|]. constructor; [intros []|constructor].
    + cbn. lia.
    + intros x. rewrite B. cbn. intuition auto.
  - rewrite Rle_b_f by exact K. destruct (Rlt_le_dec 0 D) as [H|H].
    + rewrite Rlt_b_t by exact H. pose proof (cubic_one Q Rr s H) as B. cbv zeta in B. fold D in B. split; [|split].
      * constructor; [intros []|constructor].
      * cbn; lia.
      * intros x. rewrite B. cbn. intuition auto.
    + rewrite Rlt_b_f by exact H. assert (H' : D < 0). { destruct H as [H|H]; [exact H|]. exfalso. rewrite H, Rabs_R0 in K. 
        assert (0 <= 2 * deps * pow_2 Rr) by (apply Rmult_le_pos; [lra|exact P2]). lra. }
      pose proof (cubic_three Q Rr s H') as B. cbv zeta in B. destruct B as [[B1 B2] B]. split; [|split].
      * constructor; [cbn; intros [E|[E|[]]]; lra|]. constructor; [cbn; intros [E|[]]; lra|]. constructor; [intros []|constructor].
      * cbn; lia.
      * intros x. rewrite B. cbn. intuition auto.
Qed.

Lemma map_id_on {A} (f : A -> A) l : (forall x, In x l -> f x = x) -> map f l = l.
Proof. induction l as [|a l IH]; intros H; [reflexivity|]. cbn. rewrite H by (left; reflexivity). rewrite IH; [reflexivity|]. intros; apply H; right; assumption. Qed.

Lemma solveCubic_ok a3 a2 a1 a0 : a3 <> 0 -> cubicOk (cubicQ a3 a2 a1) (cubicR a3 a2 a1 a0) ->
  StronglySorted Rlt (solveCubic a3 a2 a1 a0) /\ (length (solveCubic a3 a2 a1 a0) <= 3)%nat /\
  forall x, In x (solveCubic a3 a2 a1 a0) <-> a3 * pow_3 x + a2 * pow_2 x + a1 * x + a0 = 0.
Proof.
  intros N K. unfold solveCubic. rewrite (Req_b_f a3 0 N). cbv zeta. set (s := cubicS a3 a2). set (Q := cubicQ a3 a2 a1) in *. set (Rr := cubicR a3 a2 a1 a0) in *.
  assert (DR : forall x, a3 * pow_3 x + a2 * pow_2 x + a1 * x + a0 = 0 <-> dep Q Rr (x - s) = 0) by (intros x; apply dep_root; exact N).
  destruct (Req_EM_T Q 0) as [EQ|NQ]; [destruct (Req_EM_T Rr 0) as [ER|NR]|].
  - rewrite (Req_b_t Q 0 EQ), (Req_b_t Rr 0 ER). cbn [andb]. split; [repeat constructor|]. split; [cbn; lia|]. intros x. rewrite DR, EQ, ER. unfold dep. cbn. split.
    + intros [<-|[]]. ring.
    + intros H. left. assert (E : (x - s) * (x - s) * (x - s) = 0 * 0 * 0) by lra. apply cube_inj in E. lra.
  - rewrite (Req_b_f Rr 0 NR), andb_false_r. apply and_assoc. revert DR. generalize s; clear s; intros s DR.
    assert (NN : ~ (Q = 0 /\ Rr = 0)) by tauto. destruct (cubicRoots_ok s Q Rr NN K) as [A [B C]].
    rewrite map_id_on by (intros x Hx; apply polish3_root; apply DR, C, Hx). destruct (sort3_perm _ B) as [P S]. split; [split|].
    + apply Sorted_NoDup_strict; [exact S|]. apply (Permutation_NoDup (Permutation_sym P) A).
    + rewrite (Permutation_length P). exact B.
    + intros x. rewrite DR, <- C. split; apply Permutation_in; [exact P|apply Permutation_sym; exact P].
  - rewrite (Req_b_f Q 0 NQ). cbn [andb]. apply and_assoc. revert DR. generalize s; clear s; intros s DR.
    assert (NN : ~ (Q = 0 /\ Rr = 0)) by tauto. destruct (cubicRoots_ok s Q Rr NN K) as [A [B C]].
    rewrite map_id_on by (intros x Hx; apply polish3_root; apply DR, C, Hx). destruct (sort3_perm _ B) as [P S]. split; [split|].
    + apply Sorted_NoDup_strict; [exact S|]. apply (Permutation_NoDup (Permutation_sym P) A).
    + rewrite (Permutation_length P). exact B.
    + intros x. rewrite DR, <- C. split; apply Permutation_in; [exact P|apply Permutation_sym; exact P].
Qed.
