(** the decimal tables PREFACT and COEF of legendrePmm agree with the formulas used in SphModel *)
From Coq Require Import Reals Lra Lia Psatz Arith List Bool Machin.
From Verif Require Import RandReal SphModel SphArray.
Import ListNotations.
Local Open Scope R_scope.

(** math_sphharm.cpp:26-36, the literals digit by digit *)
Definition PREFACT : list R := [ 0.2820947917738782;
  0.3454941494713355;    0.1287580673410632;    0.02781492157551894;   0.004214597070904597;
  0.0004911451888263050; 4.647273819914057e-05; 3.700296470718545e-06; 2.542785532478802e-07;
  1.536743406172476e-08; 8.287860012085477e-10; 4.035298721198747e-11; 1.790656309174350e-12;
  7.299068453727266e-14; 2.751209457796109e-15; 9.643748535232993e-17; 3.159120301003413e-18 ].
Definition COEF : list R := [ 0.2820947917738782;
  -0.3454941494713355; 0.3862742020231896; -0.4172238236327841; 0.4425326924449826;
  -0.4641322034408582; 0.4830841135800662; -0.5000395635705506; 0.5154289843972843;
  -0.5295529414924496; 0.5426302919442215; -0.5548257538066191; 0.5662666637421912;
  -0.5770536647012670; 0.5872677968601020; -0.5969753602424046; 0.6062313441538353 ].

Lemma pi_bounds : 3.1415926535897932 <= PI <= 3.1415926535897933.
Proof.
  destruct (PI_2_3_7_ineq 9) as (A & B).
  cbn [Nat.mul Nat.add sum_f_R0] in A, B. unfold tg_alt, PI_2_3_7_tg, Ratan_seq in A, B.
  cbn [pow Nat.mul Nat.add] in A, B. repeat rewrite INR_IZR_INZ in A. repeat rewrite INR_IZR_INZ in B. cbn [Z.of_nat Pos.of_succ_nat Pos.succ] in A, B.
  split; lra.
Qed.

Lemma close_of_sq (a b eps : R) : 0 < a -> 0 < b -> 0 <= eps -> Rabs (a * a - b * b) <= eps * (b * b) -> Rabs (a - b) <= eps * b.
Proof.
  intros Ha Hb He H. apply (Rmult_le_reg_r (a + b)); [lra|]. rewrite <- (Rabs_pos_eq (a + b)) at 1 by lra. rewrite <- Rabs_mult. replace ((a - b) * (a + b)) with (a * a - b * b) by ring.
  apply (Rle_trans _ _ _ H). assert (0 <= eps * (b * a)) by (apply Rmult_le_pos; nra). nra.
Qed.
Lemma pref_sq m : pmm_prefact m * pmm_prefact m = (2 * INR m + 1) / (4 * PI * INR (fact (2 * m))).
Proof.
  unfold pmm_prefact. assert (P : 0 < PI) by apply PI_RGT_0. assert (F : 0 < INR (fact (2 * m))) by apply INR_fact_lt_0. pose proof (pos_INR m).
  assert (S1 : sqrt PI * sqrt PI = PI) by (apply sqrt_sqrt; lra). assert (S2 : sqrt ((2 * INR m + 1) / INR (fact (2 * m))) * sqrt ((2 * INR m + 1) / INR (fact (2 * m))) = (2 * INR m + 1) / INR (fact (2 * m))) by (apply sqrt_sqrt; apply Rlt_le, Rdiv_lt_0_compat; lra).
  assert (0 < sqrt PI) by (apply sqrt_lt_R0; lra).
  transitivity (/ (4 * (sqrt PI * sqrt PI)) * (sqrt ((2 * INR m + 1) / INR (fact (2 * m))) * sqrt ((2 * INR m + 1) / INR (fact (2 * m))))); [field; lra|]. rewrite S1, S2. field. lra.
Qed.
Lemma pref_pos m : 0 < pmm_prefact m.
Proof.
  unfold pmm_prefact. pose proof PI_RGT_0. pose proof (INR_fact_lt_0 (2 * m)). pose proof (pos_INR m). assert (0 < sqrt PI) by (apply sqrt_lt_R0; lra).
  apply Rmult_lt_0_compat; [apply Rdiv_lt_0_compat; lra|apply sqrt_lt_R0, Rdiv_lt_0_compat; lra].
Qed.
(** [k] and [K]: (2m+1) and (2m)! as integers *)
Lemma check a m k K : 2 * INR m + 1 = IZR k -> INR (fact (2 * m)) = IZR K -> (0 < k)%Z -> (0 < K)%Z -> 0 < a ->
  Rabs (a * a * (4 * PI) * IZR K - IZR k) <= 1e-15 * IZR k -> Rabs (a - pmm_prefact m) <= 1e-15 * pmm_prefact m.
Proof.
  intros E1 E2 Hk HK Ha H. apply close_of_sq; [exact Ha|apply pref_pos|lra|]. rewrite pref_sq, E1, E2. pose proof PI_RGT_0. apply IZR_lt in Hk, HK.
  assert (D : 0 < 4 * PI * IZR K) by (apply Rmult_lt_0_compat; lra).
  apply (Rmult_le_reg_r (4 * PI * IZR K)); [exact D|]. 
  replace (Rabs (a * a - IZR k / (4 * PI * IZR K)) * (4 * PI * IZR K)) with (Rabs (a * a - IZR k / (4 * PI * IZR K)) * Rabs (4 * PI * IZR K)) by (f_equal; apply Rabs_pos_eq; lra). rewrite <- Rabs_mult.
  replace ((a * a - IZR k / (4 * PI * IZR K)) * (4 * PI * IZR K)) with (a * a * (4 * PI) * IZR K - IZR k) by (field; lra).
  replace (1e-15 * (IZR k / (4 * PI * IZR K)) * (4 * PI * IZR K)) with (1e-15 * IZR k) by (field; lra). exact H.
Qed.
Lemma fact_IZR n : INR (fact n) = IZR (Z.of_nat (fact n)). Proof. apply INR_IZR_INZ. Qed.
Fixpoint factZ (n : nat) : Z := match n with O => 1%Z | S n' => (Z.of_nat n * factZ n')%Z end.
Lemma factZ_ok n : INR (fact n) = IZR (factZ n).
Proof. induction n as [|n IH]; [reflexivity|]. change (fact (S n)) with (S n * fact n)%nat. rewrite mult_INR, IH. change (factZ (S n)) with (Z.of_nat (S n) * factZ n)%Z. rewrite mult_IZR, <- INR_IZR_INZ. reflexivity. Qed.
Lemma table_prefact m : (m <= 16)%nat -> Rabs (nth m PREFACT 0 - pmm_prefact m) <= 1e-15 * pmm_prefact m.
Proof.
  intros H. pose proof pi_bounds.
  do 17 (destruct m as [|m]; [cbn [PREFACT nth];
   match goal with |- Rabs (_ - pmm_prefact ?m) <= _ => let k := eval vm_compute in (Z.of_nat (2 * m + 1)) in let K := eval vm_compute in (factZ (2 * m)) in
     apply (check _ _ k K); [rewrite INR_IZR_INZ; cbn; lra|rewrite factZ_ok; reflexivity|lia|lia|lra|apply Rabs_le; lra] end|]). lia.
Qed.
Fixpoint dfZ (m : nat) : Z := match m with O => 1%Z | S m' => ((2 * Z.of_nat m - 1) * dfZ m')%Z end.
Lemma dfZ_ok m : dfact_odd m = IZR (dfZ m).
Proof. induction m as [|m IH]; [reflexivity|]. cbn [dfact_odd dfZ]. rewrite IH, mult_IZR, minus_IZR, mult_IZR, INR_IZR_INZ. ring. Qed.
Lemma table_coef m : (m <= 16)%nat -> Rabs (nth m COEF 0 - pmm_coef m) <= 2e-15 * Rabs (pmm_coef m).
Proof.
  intros H. pose proof (table_prefact m H) as P. unfold pmm_coef. rewrite dfZ_ok. pose proof (pref_pos m) as Q. generalize dependent (pmm_prefact m).
  intros p P Q. 
  do 17 (destruct m as [|m]; [cbn [PREFACT COEF nth] in *; repeat match goal with |- context [dfZ ?m] => let v := eval vm_compute in (dfZ m) in change (dfZ m) with v end; repeat match goal with |- context [Nat.odd ?m] => let v := eval vm_compute in (Nat.odd m) in change (Nat.odd m) with v end; cbv iota; apply Rcomplements.Rabs_le_between in P; 
   match goal with |- Rabs _ <= _ * Rabs (?x * ?s) => match s with 1 => rewrite (Rabs_pos_eq (x * s)) by lra | _ => rewrite (Rabs_left (x * s)) by lra end end; apply Rabs_le; lra|]). lia.
Qed.
