From Coq Require Import Nsatz.
From Verif Require Import RandReal.
Local Open Scope R_scope.

Definition dot (a b : vec3) : R := let '(x, y, z) := a in let '(u, v, w) := b in x * u + y * v + z * w.
Definition det3 (m : vec3 * vec3 * vec3) : R :=
  let '(r0, r1, r2) := m in let '(a, b, c) := r0 in let '(d, e, f) := r1 in let '(g, h, i) := r2 in
  a * (e * i - f * h) - b * (d * i - f * g) + c * (d * h - e * g).
Definition transp (m : vec3 * vec3 * vec3) : vec3 * vec3 * vec3 :=
  let '(r0, r1, r2) := m in let '(a, b, c) := r0 in let '(d, e, f) := r1 in let '(g, h, i) := r2 in ((a, d, g), (b, e, h), (c, f, i)).
Definition orthonormal_rows (m : vec3 * vec3 * vec3) : Prop :=
  let '(r0, r1, r2) := m in dot r0 r0 = 1 /\ dot r1 r1 = 1 /\ dot r2 r2 = 1 /\ dot r0 r1 = 0 /\ dot r0 r2 = 0 /\ dot r1 r2 = 0.

Lemma sc t : sin t * sin t + cos t * cos t = 1.
Proof. exact (sin2_cos2 t). Qed.
Lemma sqrt_sq x : 0 <= x -> sqrt x * sqrt x = x. Proof. apply sqrt_sqrt. Qed.

Lemma unit_vector p1 p2 : 0 <= p1 <= 1 -> dot (getRandomUnitVector p1 p2) (getRandomUnitVector p1 p2) = 1.
Proof.
  intros H. unfold getRandomUnitVector, dot, pow_2. cbv zeta. set (c := p1 * 2 - 1). pose proof (sc (2 * PI * p2)) as E.
  assert (C : 0 <= 1 - c * c) by (unfold c; nra). pose proof (sqrt_sq _ C) as S. set (s := sqrt _) in *. set (a := sin _) in *. set (b := cos _) in *.
  replace (s * b * (s * b) + s * a * (s * a) + c * c) with (s * s * (a * a + b * b) + c * c) by ring. rewrite E, S. ring.
Qed.
Lemma angle_exists x y : x * x + y * y = 1 -> exists p, 0 <= p <= 1 /\ cos (2 * PI * p) = x /\ sin (2 * PI * p) = y.
Proof.
  intros E. assert (X : -1 <= x <= 1) by nra. pose proof (acos_bound x) as A. pose proof PI_RGT_0 as P.
  assert (S : sqrt (1 - Rsqr x) = Rabs y). { rewrite <- sqrt_Rsqr_abs. f_equal. unfold Rsqr. lra. }
  destruct (Rle_lt_dec 0 y) as [Y|Y].
  - exists (acos x / (2 * PI)). split.
    + split; [apply Rmult_le_pos; [lra|apply Rlt_le, Rinv_0_lt_compat; lra]|]. apply Rmult_le_reg_r with (2 * PI); [lra|]. unfold Rdiv. rewrite Rmult_assoc, Rinv_l by lra. lra.
    + replace (2 * PI * (acos x / (2 * PI))) with (acos x) by (field; lra). split; [apply cos_acos; exact X|]. rewrite sin_acos by exact X. rewrite S. apply Rabs_pos_eq. exact Y.
  - exists (1 - acos x / (2 * PI)). assert (B : 0 <= acos x / (2 * PI) <= 1).
    { split; [apply Rmult_le_pos; [lra|apply Rlt_le, Rinv_0_lt_compat; lra]|]. apply Rmult_le_reg_r with (2 * PI); [lra|]. unfold Rdiv. rewrite Rmult_assoc, Rinv_l by lra. lra. }
    split; [lra|]. replace (2 * PI * (1 - acos x / (2 * PI))) with (- acos x + 2 * PI) by (field; lra).
    rewrite cos_plus, sin_plus, cos_2PI, sin_2PI, cos_neg, sin_neg, cos_acos, sin_acos by exact X. rewrite S, Rabs_left by exact Y. split; ring.
Qed.
Lemma unit_vector_surj v : dot v v = 1 -> exists p1 p2, 0 <= p1 <= 1 /\ 0 <= p2 <= 1 /\ getRandomUnitVector p1 p2 = v.
Proof.
  destruct v as [[x y] z]. unfold dot. intros E. set (p1 := (z + 1) / 2). assert (Z : -1 <= z <= 1) by nra. assert (P1 : 0 <= p1 <= 1) by (unfold p1; lra).
  assert (Ec : p1 * 2 - 1 = z) by (unfold p1; lra). set (s := sqrt (1 - pow_2 z)). assert (S2 : s * s = 1 - z * z) by (apply sqrt_sq; unfold pow_2; nra).
  destruct (Req_dec s 0) as [S0|S0].
  - exists p1, 0. split; [exact P1|]. split; [lra|]. unfold getRandomUnitVector. cbv zeta. rewrite Ec. fold s. rewrite S0 in *.
    assert (X0 : x * x + y * y = 0) by lra. assert (x = 0) by nra. assert (y = 0) by nra. subst x y. f_equal; f_equal; ring.
  - destruct (angle_exists (x / s) (y / s)) as (p & Hp & Cx & Sy). { replace (x / s * (x / s) + y / s * (y / s)) with ((x * x + y * y) / (s * s)) by (field; exact S0). rewrite S2. replace (x * x + y * y) with (1 - z * z) by lra. field. rewrite <- S2. nra. }
    exists p1, p. split; [exact P1|]. split; [exact Hp|]. unfold getRandomUnitVector. cbv zeta. rewrite Ec. fold s. rewrite Cx, Sy. f_equal. f_equal; field; exact S0.
Qed.

Lemma perp_vector v p1 p2 : 0 <= p2 <= 1 -> let '(w, m) := getRandomPerpendicularVector v p1 p2 in dot v w = 0 /\ dot w w = 1 /\ m = sqrt (dot v v).
Proof.
  destruct v as [[x y] z]. intros H. unfold getRandomPerpendicularVector. cbv zeta. pose proof (sc (2 * PI * p1)) as E. set (a := sin _) in *. set (b := cos _) in *.
  assert (NZ : forall q m, 0 < q -> m = sqrt (x * x + q) -> q = y * y + z * z ->
     let w := (1 / sqrt q / m * (a * (x * x - m * m)), 1 / sqrt q / m * (a * x * y - b * m * z), 1 / sqrt q / m * (a * x * z + b * m * y)) in dot (x, y, z) w = 0 /\ dot w w = 1).
  { intros q m Q Em Eq w. assert (M2 : m * m = x * x + q) by (rewrite Em; apply sqrt_sq; nra). assert (M0 : m <> 0) by (intros C; rewrite C in M2; nra).
    pose proof (sqrt_sq q ltac:(lra)) as R2. set (r := sqrt q) in *. assert (R0 : r <> 0) by (intros C; rewrite C in R2; lra).
    unfold w, dot. split.
    - replace (x * (1 / r / m * (a * (x * x - m * m))) + y * (1 / r / m * (a * x * y - b * m * z)) + z * (1 / r / m * (a * x * z + b * m * y)))
        with (1 / r / m * a * x * (x * x - m * m + (y * y + z * z))) by ring. rewrite M2, <- Eq. ring.
    - replace (x * x - m * m) with (- q) by lra.
      replace (1 / r / m * (a * - q) * (1 / r / m * (a * - q)) + 1 / r / m * (a * x * y - b * m * z) * (1 / r / m * (a * x * y - b * m * z)) + 1 / r / m * (a * x * z + b * m * y) * (1 / r / m * (a * x * z + b * m * y)))
        with ((a * a * (q * q + x * x * (y * y + z * z)) + b * b * (m * m) * (y * y + z * z)) / (r * r) / (m * m)) by (field; split; assumption).
      rewrite <- Eq, R2. replace (a * a * (q * q + x * x * q) + b * b * (m * m) * q) with ((a * a + b * b) * (q * (m * m))) by (rewrite M2; ring).
      rewrite E. field. split; [lra|exact M0]. }
  assert (Main : forall w m, y <> 0 \/ z <> 0 -> w = (1 / sqrt (pow_2 y + pow_2 z) / m * (a * (pow_2 x - pow_2 m)), 1 / sqrt (pow_2 y + pow_2 z) / m * (a * x * y - b * m * z), 1 / sqrt (pow_2 y + pow_2 z) / m * (a * x * z + b * m * y)) ->
     m = sqrt (pow_2 x + pow_2 y + pow_2 z) -> dot (x, y, z) w = 0 /\ dot w w = 1 /\ m = sqrt (dot (x, y, z) (x, y, z))).
  { intros w m D Ew Em. unfold pow_2 in *. destruct (NZ (y * y + z * z) m) as [A B]; [destruct D; nra|rewrite Em; f_equal; ring|reflexivity|].
    rewrite Ew. split; [exact A|]. split; [exact B|]. rewrite Em. reflexivity. }
  destruct (Req_EM_T y 0) as [Ey|Ny].
  - destruct (Req_EM_T z 0) as [Ez|Nz].
    + subst y z. destruct (Req_EM_T x 0) as [Ex|Nx].
      * subst x. split; [unfold dot; ring|]. split; [|unfold dot; replace (0 * 0 + 0 * 0 + 0 * 0) with 0 by ring; symmetry; apply sqrt_0].
        unfold dot, pow_2. set (c := p2 * 2 - 1). assert (C : 0 <= 1 - c * c) by (unfold c; nra). pose proof (sqrt_sq _ C) as S. set (s := sqrt (1 - c * c)) in *.
        replace (s * b * (s * b) + s * a * (s * a) + c * c) with (s * s * (a * a + b * b) + c * c) by ring. rewrite E, S. ring.
      * unfold dot. split; [ring|]. split; [lra|]. replace (x * x + 0 * 0 + 0 * 0) with (x²) by (unfold Rsqr; ring). symmetry. apply sqrt_Rsqr_abs.
    + apply Main; [right; exact Nz|reflexivity|reflexivity].
  - apply Main; [left; exact Ny|reflexivity|reflexivity].
Qed.

Lemma rotation_ok p1 p2 p3 : 0 <= p3 <= 1 -> let M := getRandomRotationMatrix p1 p2 p3 in orthonormal_rows M /\ orthonormal_rows (transp M) /\ det3 M = 1.
Proof.
  intros H. unfold getRandomRotationMatrix. cbv zeta. pose proof (sc (2 * PI * p1)) as E1. pose proof (sc (2 * PI * p2)) as E2.
  pose proof (sqrt_sq (p3 * 2) ltac:(lra)) as N2. pose proof (sqrt_sq (2 - p3 * 2) ltac:(lra)) as Z2.
  set (st := sin (2 * PI * p1)) in *. set (ct := cos (2 * PI * p1)) in *. set (sp := sin (2 * PI * p2)) in *. set (cp := cos (2 * PI * p2)) in *.
  set (nu := sqrt (p3 * 2)) in *. set (vz := sqrt (2 - p3 * 2)) in *. set (mu := p3 * 2) in *. clearbody st ct sp cp nu vz mu.
  set (vx := sp * nu). set (vy := cp * nu).
  assert (V : vx * vx + vy * vy = mu) by (unfold vx, vy; replace (sp * nu * (sp * nu) + cp * nu * (cp * nu)) with ((sp * sp + cp * cp) * (nu * nu)) by ring; rewrite E2, N2; ring).
  clearbody vx vy. assert (Q1 : st * st + ct * ct = 1) by lra. assert (Q2 : vx * vx + vy * vy + vz * vz = 2) by lra. assert (Em : mu = 2 - vz * vz) by lra.
  clear E1 E2 N2 Z2 V H. subst mu. unfold orthonormal_rows, transp, det3, dot. repeat split; nsatz.
Qed.
Lemma normal_numbers p1 p2 : 0 < p1 <= 1 -> let '(a, b) := getNormalRandomNumbers p1 p2 in exp (- (a * a + b * b) / 2) = p1.
Proof.
  intros H. unfold getNormalRandomNumbers. cbv zeta. destruct (Rlt_dec 0 p1) as [L|L]; [|lra]. pose proof (sc (2 * PI * p2)) as E.
  set (u := sin _) in *. set (v := cos _) in *. assert (N : 0 <= -2 * ln p1).
  { assert (ln p1 <= 0); [|lra]. rewrite <- ln_1. destruct (Req_dec p1 1) as [->|]; [lra|]. apply Rlt_le, ln_increasing; lra. }
  pose proof (sqrt_sq _ N) as S. set (r := sqrt _) in *. replace (- (r * u * (r * u) + r * v * (r * v)) / 2) with (- (r * r * (u * u + v * v)) / 2) by field.
  rewrite E, S. replace (- (-2 * ln p1 * 1) / 2) with (ln p1) by field. apply exp_ln. exact L.
Qed.

(** ---- Halton ---- *)
(** the radical inverse: n = sum d_i b^i  =>  value = sum d_i b^(-i-1) *)
Fixpoint numval (b : N) (ds : list N) : N := match ds with [] => 0 | d :: r => d + b * numval b r end.
Fixpoint radval (b : R) (ds : list N) : R := match ds with [] => 0 | d :: r => (IZR (Z.of_N d) + radval b r) / b end.

Section Halton.
  Variable b : N.
  Hypothesis Hb : (2 <= b)%N.
  Let B : R := IZR (Z.of_N b).
  Lemma B2 : 2 <= B. Proof. unfold B. apply (IZR_le 2). lia. Qed.
  Lemma loop_val ds : Forall (fun d => (d < b)%N) ds -> forall fuel fac val, (N.to_nat (N.size (numval b ds)) <= fuel)%nat ->
    halton_loop fuel (numval b ds) b fac (1 / B) val = Ok (val + fac * radval B ds).
  Proof.
    pose proof B2 as HB. induction ds as [|d ds IH]; intros HF fuel fac val Hf.
    - cbn [numval radval]. destruct fuel; cbn [halton_loop]; rewrite N.eqb_refl, Rmult_0_r, Rplus_0_r; reflexivity.
    - inversion HF as [|? ? Hd HF']; subst. destruct (N.eq_dec (numval b (d :: ds)) 0) as [Z0|N0].
      + assert (R0 : forall l, numval b l = 0%N -> radval B l = 0).
        { clear - Hb. induction l as [|x l IHl]; intros E; cbn [numval radval] in *; [reflexivity|]. assert (x = 0%N) by lia. assert (numval b l = 0%N) by nia. subst x. rewrite IHl by assumption. cbn. unfold Rdiv. rewrite Rplus_0_r, Rmult_0_l. reflexivity. }
        rewrite (R0 _ Z0), Z0. destruct fuel; cbn [halton_loop]; rewrite N.eqb_refl, Rmult_0_r, Rplus_0_r; reflexivity.
      + set (n := numval b (d :: ds)) in *. assert (En : n = (d + b * numval b ds)%N) by reflexivity.
        assert (Q : (n / b = numval b ds)%N). { symmetry. apply N.div_unique with (r := d); [exact Hd|]. rewrite En. lia. }
        assert (M : (n mod b = d)%N). { symmetry. apply N.mod_unique with (q := numval b ds); [exact Hd|]. rewrite En. lia. }
        destruct fuel as [|fuel]. { exfalso. rewrite N.size_log2 in Hf by exact N0. lia. }
        cbn [halton_loop]. rewrite (proj2 (N.eqb_neq n 0) N0), (proj2 (N.eqb_neq b 0)) by lia. cbv zeta. rewrite Q, M.
        rewrite IH; [|exact HF'|].
        * cbn [radval]. f_equal. field. lra.
        * assert (S : (N.size (numval b ds) < N.size n)%N).
          { destruct (N.eq_dec (numval b ds) 0) as [E0|E0]; [rewrite E0, (N.size_log2 n N0); cbn [N.size]; lia|].
            rewrite !N.size_log2 by assumption. apply -> N.succ_lt_mono. apply N.log2_lt_pow2; [lia|].
            pose proof (N.log2_spec n ltac:(lia)) as [_ L]. rewrite N.pow_succ_r' in L. nia. }
          lia.
  Qed.
  Lemma radval_range ds : Forall (fun d => (d < b)%N) ds -> 0 <= radval B ds < 1.
  Proof.
    pose proof B2 as HB. induction ds as [|d ds IH]; intros HF; cbn [radval]; [lra|]. inversion HF as [|? ? Hd HF']; subst. specialize (IH HF').
    assert (D : 0 <= IZR (Z.of_N d) <= B - 1). { split; [apply (IZR_le 0); lia|]. unfold B. rewrite <- minus_IZR. apply IZR_le. lia. }
    split; [apply Rmult_le_pos; [lra|apply Rlt_le, Rinv_0_lt_compat; lra]|]. apply Rmult_lt_reg_r with B; [lra|]. unfold Rdiv. rewrite Rmult_assoc, Rinv_l by lra. lra.
  Qed.
  Lemma digits_exist n : exists ds, Forall (fun d => (d < b)%N) ds /\ numval b ds = n.
  Proof.
    induction n as [n IH] using (well_founded_induction N.lt_wf_0). destruct (N.eq_dec n 0) as [->|N0]; [exists []; split; [constructor|reflexivity]|].
    destruct (IH (n / b)%N) as (ds & F & E); [apply N.div_lt; lia|]. exists (n mod b :: ds)%N. split; [constructor; [apply N.mod_lt; lia|exact F]|].
    cbn [numval]. rewrite E. rewrite (N.div_mod' n b) at 3. lia.
  Qed.
  (** the value as a function of the index *)
  Definition phi (n : N) : R := match quasiRandomHalton (N.to_nat (N.size n)) n b with Ok v => v | _ => 0 end.
  Lemma halton_eq ds fuel : Forall (fun d => (d < b)%N) ds -> (N.to_nat (N.size (numval b ds)) <= fuel)%nat -> quasiRandomHalton fuel (numval b ds) b = Ok (radval B ds).
  Proof. intros F L. unfold quasiRandomHalton. rewrite loop_val by assumption. f_equal. ring. Qed.
  Lemma phi_digits ds : Forall (fun d => (d < b)%N) ds -> phi (numval b ds) = radval B ds.
  Proof. intros F. unfold phi. rewrite halton_eq by (assumption || lia). reflexivity. Qed.
  Lemma halton_phi n fuel : (N.to_nat (N.size n) <= fuel)%nat -> quasiRandomHalton fuel n b = Ok (phi n).
  Proof. intros L. destruct (digits_exist n) as (ds & F & <-). rewrite phi_digits by exact F. apply halton_eq; assumption. Qed.
  Lemma phi_range n : 0 <= phi n < 1.
  Proof. destruct (digits_exist n) as (ds & F & <-). rewrite phi_digits by exact F. apply radval_range. exact F. Qed.
  Lemma phi_step d q : (d < b)%N -> phi (d + b * q) = (IZR (Z.of_N d) + phi q) / B.
  Proof.
    intros H. destruct (digits_exist q) as (ds & F & <-). change (d + b * numval b ds)%N with (numval b (d :: ds)). rewrite !phi_digits; [reflexivity|exact F|constructor; assumption].
  Qed.
  (** stratification: each of the b^k consecutive indices m*b^k + r falls in its own interval of width b^-k *)
  Lemma strat k : forall m j, (j < b ^ k)%N -> exists i, (m * b ^ k <= i < (m + 1) * b ^ k)%N /\ IZR (Z.of_N j) <= phi i * IZR (Z.of_N (b ^ k)) < IZR (Z.of_N j) + 1 /\ forall i', (m * b ^ k <= i' < (m + 1) * b ^ k)%N -> IZR (Z.of_N j) <= phi i' * IZR (Z.of_N (b ^ k)) < IZR (Z.of_N j) + 1 -> i' = i.
  Proof.
    pose proof B2 as HB. induction k as [|k IH] using N.peano_ind; intros m j Hj.
    - rewrite N.pow_0_r in *. assert (j = 0%N) by lia. subst j. exists m. cbn [Z.of_N]. pose proof (phi_range m). split; [lia|]. split; [lra|]. intros i' Hi _. lia.
    - rewrite N.pow_succ_r' in *. set (P := (b ^ k)%N) in *. assert (P0 : (P <> 0)%N) by (apply N.pow_nonzero; lia).
      set (d := (j / P)%N). set (j' := (j mod P)%N). assert (Hd : (d < b)%N) by (apply N.div_lt_upper_bound; lia). assert (Hj' : (j' < P)%N) by (apply N.mod_lt; exact P0).
      assert (Ej : j = (P * d + j')%N) by apply N.div_mod'.
      destruct (IH m j' Hj') as (q & Hq & Hv & Hu).
      set (RP := IZR (Z.of_N P)) in *. assert (RP1 : 1 <= RP) by (apply (IZR_le 1); lia).
      assert (EB : IZR (Z.of_N (b * P)) = B * RP). { rewrite N2Z.inj_mul, mult_IZR. reflexivity. }
      assert (Ejr : IZR (Z.of_N j) = RP * IZR (Z.of_N d) + IZR (Z.of_N j')). { rewrite Ej, N2Z.inj_add, N2Z.inj_mul, plus_IZR, mult_IZR. reflexivity. }
      assert (V : forall d' q', (d' < b)%N -> phi (d' + b * q') * (B * RP) = RP * IZR (Z.of_N d') + phi q' * RP). { intros d' q' H'. rewrite phi_step by exact H'. field. lra. }
      exists (d + b * q)%N. split; [|split].
      + split; nia.
      + rewrite EB, V, Ejr by exact Hd. lra.
      + intros i' Hi Hv'. set (q' := (i' / b)%N). set (d' := (i' mod b)%N). assert (Hd' : (d' < b)%N) by (apply N.mod_lt; lia).
        assert (Ei : i' = (d' + b * q')%N) by (rewrite (N.div_mod' i' b); unfold d', q'; lia). rewrite Ei in Hi, Hv'. rewrite EB, V, Ejr in Hv' by exact Hd'.
        pose proof (phi_range q') as Rq.
        assert (Dd : d' = d).
        { assert (J0 : 0 <= IZR (Z.of_N j') /\ IZR (Z.of_N j') + 1 <= RP). { split; [apply (IZR_le 0); lia|]. unfold RP. rewrite <- plus_IZR. apply IZR_le. lia. }
          assert (X : RP * IZR (Z.of_N d) < RP * (IZR (Z.of_N d') + 1)) by nra. assert (Y : RP * IZR (Z.of_N d') < RP * (IZR (Z.of_N d) + 1)) by nra.
          apply Rmult_lt_reg_l in X; [|lra]. apply Rmult_lt_reg_l in Y; [|lra]. rewrite <- plus_IZR in X, Y. apply lt_IZR in X, Y. lia. }
        rewrite Dd in *. rewrite Ei. f_equal. f_equal. apply Hu; [|lra]. split; nia.
  Qed.
  Lemma phi_inj n n' : phi n = phi n' -> n = n'.
  Proof.
    intros E. assert (G : forall x, exists k, (x < b ^ k)%N). { intros x. exists x. apply N.pow_gt_lin_r. lia. }
    destruct (G (n + n')%N) as [k Hk]. set (P := (b ^ k)%N) in *.
    assert (P1 : 1 <= IZR (Z.of_N P)) by (apply (IZR_le 1); lia).
    set (y := phi n * IZR (Z.of_N P)). pose proof (phi_range n) as Rn.
    assert (exists j, (j < P)%N /\ IZR (Z.of_N j) <= y < IZR (Z.of_N j) + 1) as (j & Hj & Jy).
    { pose proof (archimed y) as [A1 A2]. set (u := up y) in *. assert (U : (1 <= u <= Z.of_N P)%Z).
      { assert (0 <= y) by (apply Rmult_le_pos; lra). assert (y < IZR (Z.of_N P)) by (unfold y; nra). split.
        - assert (0 < u)%Z by (apply lt_IZR; lra). lia.
        - assert (u < Z.of_N P + 1)%Z by (apply lt_IZR; rewrite plus_IZR; lra). lia. }
      exists (Z.to_N (u - 1)). split; [lia|]. rewrite Z2N.id by lia. rewrite minus_IZR. lra. }
    destruct (strat k 0%N j Hj) as (i & _ & _ & U). fold P in U. rewrite (U n), (U n'); [reflexivity|lia|rewrite <- E; exact Jy|lia|exact Jy].
  Qed.
End Halton.
Lemma halton_base1 fuel ind : (ind <> 0)%N -> quasiRandomHalton fuel ind 1 = Fuel.
Proof.
  intros H. unfold quasiRandomHalton. generalize 1 at 1. generalize 0 at 1. induction fuel as [|f IH]; intros v fac; cbn [halton_loop]; rewrite (proj2 (N.eqb_neq ind 0) H); [reflexivity|].
  cbn [N.eqb Pos.eqb]. cbv zeta. rewrite N.div_1_r. apply IH.
Qed.
