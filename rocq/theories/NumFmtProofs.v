From Verif Require Import NumFmtModel.
From Coq Require Import Lqa Qround.
Local Open Scope Z_scope.

(** ---- powers of ten ---- *)
Lemma p10_pos k : (0 < p10 k)%Q.
Proof. apply Qpower_0_lt. reflexivity. Qed.
Lemma p10_nz k : ~ (p10 k == 0)%Q.
Proof. pose proof (p10_pos k). intro E. rewrite E in H. discriminate. Qed.
Lemma p10_plus a b : (p10 (a + b) == p10 a * p10 b)%Q.
Proof. apply Qpower_plus. discriminate. Qed.
Lemma p10_0 : (p10 0 == 1)%Q. Proof. reflexivity. Qed.
Lemma p10_1 : (p10 1 == 10)%Q. Proof. reflexivity. Qed.
Lemma p10_Z k : 0 <= k -> (p10 k == inject_Z (10 ^ k))%Q.
Proof. intros H. unfold p10. rewrite Zpower_Qpower by exact H. reflexivity. Qed.
Lemma p10_opp k : (p10 k * p10 (- k) == 1)%Q.
Proof. rewrite <- p10_plus. replace (k + - k) with 0 by lia. reflexivity. Qed.
Lemma p10_le a b : a <= b -> (p10 a <= p10 b)%Q.
Proof. intros H. apply Qpower_le_compat_l; [exact H|discriminate]. Qed.
Lemma p10_lt_inv a b : (p10 a < p10 b)%Q -> a < b.
Proof. intros H. destruct (Z.lt_ge_cases a b); [assumption|]. exfalso. pose proof (p10_le b a H0). lra. Qed.
Lemma pow10_pos k : 0 < 10 ^ k \/ 10 ^ k = 0.
Proof. destruct (Z.le_gt_cases 0 k); [left; apply Z.pow_pos_nonneg; lia|right; apply Z.pow_neg_r; lia]. Qed.
Lemma pow10_pos' k : 0 <= k -> 0 < 10 ^ k.
Proof. intros; apply Z.pow_pos_nonneg; lia. Qed.

(** ---- counting digits ---- *)
Lemma ndig_loop_spec fuel n : 0 < n < 2 ^ (Z.of_nat fuel + 1) ->
  10 ^ (Z.of_nat (ndig_loop fuel n) - 1) <= n < 10 ^ Z.of_nat (ndig_loop fuel n) /\ (1 <= ndig_loop fuel n)%nat.
Proof.
  revert n; induction fuel as [|f IH]; intros n Hn; cbn [ndig_loop].
  { change (2 ^ (Z.of_nat 0 + 1)) with 2 in Hn. cbn. lia. }
  destruct (Z.ltb_spec n 10) as [H|H]. { cbn. lia. }
  assert (A : 0 < n / 10 < 2 ^ (Z.of_nat f + 1)).
  { split; [apply Z.div_str_pos; lia|]. apply Z.div_lt_upper_bound; [lia|].
    replace (Z.of_nat (S f) + 1) with (Z.of_nat f + 1 + 1) in Hn by lia.
    rewrite (Z.pow_add_r 2 _ 1) in Hn by lia. assert (0 < 2 ^ (Z.of_nat f + 1)) by (apply Z.pow_pos_nonneg; lia). lia. }
  destruct (IH _ A) as [[L U] G]. split; [|lia].
  set (k := ndig_loop f (n / 10)) in *.
  pose proof (Z.div_mod n 10 ltac:(lia)) as DM. pose proof (Z.mod_pos_bound n 10 ltac:(lia)) as MB.
  replace (Z.of_nat (S k) - 1) with (Z.of_nat k - 1 + 1) by lia. replace (Z.of_nat (S k)) with (Z.of_nat k + 1) by lia.
  rewrite !Z.pow_add_r by lia. lia.
Qed.
Lemma ndig_spec n : 0 < n -> 10 ^ (Z.of_nat (ndig n) - 1) <= n < 10 ^ Z.of_nat (ndig n) /\ (1 <= ndig n)%nat.
Proof.
  intros H. apply ndig_loop_spec. pose proof (Z.log2_nonneg n). rewrite Z2Nat.id by lia.
  pose proof (Z.log2_spec n H). replace (Z.log2 n + 1) with (Z.succ (Z.log2 n)) by lia. lia.
Qed.

(** ---- rounding division ---- *)
Lemma rdiv_spec a b : 0 < b -> 2 * Z.abs (rdiv a b * b - a) <= b.
Proof.
  intros H. unfold rdiv. pose proof (Z.div_mod a b ltac:(lia)) as D. pose proof (Z.mod_pos_bound a b H) as M.
  set (q := a / b) in *. set (r := a mod b) in *.
  destruct (Z.ltb_spec (2 * r) b); [nia|]. destruct (Z.ltb_spec b (2 * r)); [nia|]. destruct (Z.even q); nia.
Qed.
Lemma rdiv_exact q b : 0 < b -> rdiv (q * b) b = q.
Proof.
  intros H. unfold rdiv. rewrite Z.div_mul, Z.mod_mul by lia. rewrite (proj2 (Z.ltb_lt _ _)) by lia. reflexivity.
Qed.

Definition posQ (n d : Z) : Q := (inject_Z n / inject_Z d)%Q.

Lemma injpos d : 0 < d -> (0 < inject_Z d)%Q.
Proof. intros H. unfold Qlt, inject_Z. cbn. lia. Qed.
Lemma posQ_mul n d : 0 < d -> (posQ n d * inject_Z d == inject_Z n)%Q.
Proof. intros H. unfold posQ. field. pose proof (injpos d H). intro E. rewrite E in H0. discriminate. Qed.
Lemma injlt a b : a < b <-> (inject_Z a < inject_Z b)%Q.
Proof. split; intros H; [unfold Qlt, inject_Z; cbn; lia|unfold Qlt, inject_Z in H; cbn in H; lia]. Qed.
Lemma injle a b : a <= b <-> (inject_Z a <= inject_Z b)%Q.
Proof. split; intros H; [unfold Qle, inject_Z; cbn; lia|unfold Qle, inject_Z in H; cbn in H; lia]. Qed.

(** comparison of n/d with a power of ten *)
Lemma cmp_spec n d k : 0 < d ->
  (if 0 <=? k then d * 10 ^ k <=? n else d <=? n * 10 ^ (- k)) = true <-> (p10 k <= posQ n d)%Q.
Proof.
  intros Hd. pose proof (injpos d Hd) as Pd. pose proof (posQ_mul n d Hd) as M.
  destruct (Z.leb_spec 0 k) as [K|K].
  - rewrite Z.leb_le, injle, inject_Z_mult, <- p10_Z by exact K. rewrite <- M. rewrite (Qmult_comm (inject_Z d)).
    split; intros H; [apply Qmult_lt_0_le_reg_r in H; assumption|apply Qmult_le_compat_r; [assumption|lra]].
  - rewrite Z.leb_le, injle, inject_Z_mult, <- p10_Z by lia. rewrite <- M.
    pose proof (p10_opp k) as O. pose proof (p10_pos (- k)) as T.
    split; intros H.
    + apply Qmult_lt_0_le_reg_r with (z := (inject_Z d * p10 (- k))%Q); [apply Qmult_lt_0_compat; assumption|].
      setoid_replace (p10 k * (inject_Z d * p10 (- k)))%Q with (inject_Z d * (p10 k * p10 (- k)))%Q by ring.
      rewrite O. lra.
    + apply Qmult_le_compat_r with (z := (inject_Z d * p10 (- k))%Q) in H; [|apply Qlt_le_weak, Qmult_lt_0_compat; assumption].
      setoid_replace (p10 k * (inject_Z d * p10 (- k)))%Q with (inject_Z d * (p10 k * p10 (- k)))%Q in H by ring.
      rewrite O in H. lra.
Qed.
Lemma dexp_spec n d : 0 < n -> 0 < d -> (p10 (dexp n d) <= posQ n d)%Q /\ (posQ n d < p10 (dexp n d + 1))%Q.
Proof.
  intros Hn Hd. destruct (ndig_spec n Hn) as [[Ln Un] Gn]. destruct (ndig_spec d Hd) as [[Ld Ud] Gd].
  unfold dexp. set (a := Z.of_nat (ndig n)) in *. set (b := Z.of_nat (ndig d)) in *.
  assert (Ga : 1 <= a) by (unfold a; lia). assert (Gb : 1 <= b) by (unfold b; lia).
  pose proof (injpos d Hd) as Pd. pose proof (posQ_mul n d Hd) as M.
  apply injlt in Un. apply injlt in Ud. apply injle in Ln. apply injle in Ld.
  rewrite <- p10_Z in Un, Ud, Ln, Ld by lia.
  assert (UB : (posQ n d < p10 (a - b + 1))%Q).
  { apply Qmult_lt_r with (z := inject_Z d); [exact Pd|]. rewrite M.
    apply Qlt_le_trans with (p10 a); [exact Un|].
    replace a with (a - b + 1 + (b - 1)) at 1 by lia. rewrite p10_plus.
    rewrite (Qmult_comm _ (p10 (b - 1))), (Qmult_comm _ (inject_Z d)). apply Qmult_le_compat_r; [exact Ld|].
    apply Qlt_le_weak, p10_pos. }
  assert (LB : (p10 (a - b - 1) <= posQ n d)%Q).
  { apply Qmult_lt_0_le_reg_r with (z := inject_Z d); [exact Pd|]. rewrite M.
    apply Qle_trans with (p10 (a - 1)); [|exact Ln].
    replace (a - 1) with (a - b - 1 + b) by lia. rewrite p10_plus.
    rewrite !(Qmult_comm (p10 (a - b - 1))). apply Qmult_le_compat_r; [lra|].
    apply Qlt_le_weak, p10_pos. }
  pose proof (cmp_spec n d (a - b) Hd) as C.
  destruct (if 0 <=? a - b then d * 10 ^ (a - b) <=? n else d <=? n * 10 ^ (- (a - b))).
  - split; [apply C; reflexivity|exact UB].
  - split; [exact LB|]. replace (a - b - 1 + 1) with (a - b) by lia. apply Qnot_le_lt. intros H. apply C in H. discriminate.
Qed.
Lemma dexp_unique n d k : 0 < n -> 0 < d -> (p10 k <= posQ n d)%Q -> (posQ n d < p10 (k + 1))%Q -> dexp n d = k.
Proof.
  intros Hn Hd L U. destruct (dexp_spec n d Hn Hd) as [L' U'].
  assert (k < dexp n d + 1) by (apply p10_lt_inv; lra). assert (dexp n d < k + 1) by (apply p10_lt_inv; lra). lia.
Qed.
Lemma absZ_le z b : 2 * Z.abs z <= b -> (Qabs (inject_Z z) <= (1 # 2) * inject_Z b)%Q.
Proof. intros H. unfold Qle, Qabs, inject_Z, Qmult. cbn [Qnum Qden]. lia. Qed.
Lemma rdivQ a b : 0 < b -> (Qabs (inject_Z (rdiv a b) - posQ a b) <= 1 # 2)%Q.
Proof.
  intros H. pose proof (rdiv_spec a b H) as E. pose proof (injpos b H) as Pb. pose proof (posQ_mul a b H) as M.
  apply Qmult_lt_0_le_reg_r with (z := inject_Z b); [exact Pb|].
  rewrite <- (Qabs_pos (inject_Z b)) at 1 by lra. rewrite <- Qabs_Qmult.
  setoid_replace ((inject_Z (rdiv a b) - posQ a b) * inject_Z b)%Q with (inject_Z (rdiv a b * b - a))%Q.
  - apply absZ_le; lia.
  - unfold Zminus. rewrite inject_Z_plus, inject_Z_mult, inject_Z_opp. rewrite <- M. ring.
Qed.
Lemma scaled_spec n d s : 0 < d -> (Qabs (inject_Z (scaled n d s) - posQ n d * p10 s) <= 1 # 2)%Q.
Proof.
  intros Hd. pose proof (injpos d Hd) as Pd. assert (Nd : ~ (inject_Z d == 0)%Q) by (intro E; rewrite E in Pd; discriminate).
  unfold scaled. destruct (Z.leb_spec 0 s) as [K|K].
  - setoid_replace (posQ n d * p10 s)%Q with (posQ (n * 10 ^ s) d); [apply rdivQ; exact Hd|].
    unfold posQ. rewrite inject_Z_mult, <- p10_Z by exact K. field. exact Nd.
  - assert (T : 0 < 10 ^ (- s)) by (apply pow10_pos'; lia).
    setoid_replace (posQ n d * p10 s)%Q with (posQ n (d * 10 ^ (- s))); [apply rdivQ; nia|].
    unfold posQ. rewrite inject_Z_mult, <- p10_Z by lia. pose proof (p10_opp s) as O. pose proof (p10_nz (- s)).
    setoid_replace (p10 s) with (/ p10 (- s))%Q by (rewrite <- (Qmult_1_l (/ p10 (- s))); rewrite <- O; field; assumption).
    field. split; assumption.
Qed.
(** significant digits *)
Lemma sig_spec P n d : 1 <= P -> 0 < n -> 0 < d ->
  let (D, X) := sig P n d in
  10 ^ (P - 1) <= D < 10 ^ P /\
  exists k, (p10 (k + P - 1) <= posQ n d)%Q /\
    (Qabs (inject_Z D * p10 (X - P + 1) - posQ n d) <= (1 # 2) * p10 k)%Q.
Proof.
  intros HP Hn Hd. unfold sig. destruct (dexp_spec n d Hn Hd) as [L U]. set (X := dexp n d) in *.
  pose proof (scaled_spec n d (P - 1 - X) Hd) as A. set (D := scaled n d (P - 1 - X)) in *.
  set (v := posQ n d) in *.
  pose proof (p10_pos (P - 1 - X)) as PP. pose proof (p10_pos (X - P + 1)) as PQ.
  assert (O : (p10 (P - 1 - X) * p10 (X - P + 1) == 1)%Q).
  { rewrite <- p10_plus. replace (P - 1 - X + (X - P + 1)) with 0 by lia. reflexivity. }
  assert (LD : (p10 (P - 1) <= v * p10 (P - 1 - X))%Q).
  { replace (P - 1) with (X + (P - 1 - X)) at 1 by lia. rewrite p10_plus. apply Qmult_le_compat_r; [exact L|lra]. }
  assert (UD : (v * p10 (P - 1 - X) < p10 P)%Q).
  { replace P with (X + 1 + (P - 1 - X)) at 2 by lia. rewrite p10_plus. apply Qmult_lt_r; assumption. }
  rewrite (p10_Z (P - 1)) in LD by lia. rewrite (p10_Z P) in UD by lia.
  assert (DL : 10 ^ (P - 1) <= D).
  { destruct (Z.le_gt_cases (10 ^ (P - 1)) D) as [|G]; [assumption|]. exfalso.
    assert (D + 1 <= 10 ^ (P - 1)) by lia. apply injle in H. rewrite inject_Z_plus in H.
    change (inject_Z 1) with 1%Q in H. apply Qabs_Qle_condition in A. lra. }
  assert (DU : D <= 10 ^ P).
  { destruct (Z.le_gt_cases D (10 ^ P)) as [|G]; [assumption|]. exfalso.
    assert (10 ^ P + 1 <= D) by lia. apply injle in H. rewrite inject_Z_plus in H.
    change (inject_Z 1) with 1%Q in H. apply Qabs_Qle_condition in A. lra. }
  assert (ERR : (Qabs (inject_Z D * p10 (X - P + 1) - v) <= (1 # 2) * p10 (X - P + 1))%Q).
  { setoid_replace (inject_Z D * p10 (X - P + 1) - v)%Q with ((inject_Z D - v * p10 (P - 1 - X)) * p10 (X - P + 1))%Q.
    - rewrite Qabs_Qmult, (Qabs_pos (p10 _)) by lra. apply Qmult_le_compat_r; [exact A|lra].
    - setoid_replace ((inject_Z D - v * p10 (P - 1 - X)) * p10 (X - P + 1))%Q with
        (inject_Z D * p10 (X - P + 1) - v * (p10 (P - 1 - X) * p10 (X - P + 1)))%Q by ring. rewrite O. ring. }
  assert (P1 : 10 ^ P = 10 * 10 ^ (P - 1)).
  { replace P with (1 + (P - 1)) at 1 by lia. rewrite Z.pow_add_r by lia. reflexivity. }
  pose proof (pow10_pos' (P - 1) ltac:(lia)) as T1.
  destruct (Z.eqb_spec D (10 ^ P)) as [E|E].
  - split; [lia|]. exists (X - P + 1). split; [replace (X - P + 1 + P - 1) with X by lia; exact L|].
    replace (X + 1 - P + 1) with (1 + (X - P + 1)) by lia. rewrite p10_plus, p10_1.
    setoid_replace (inject_Z (10 ^ (P - 1)) * (10 * p10 (X - P + 1)))%Q with (inject_Z D * p10 (X - P + 1))%Q; [exact ERR|].
    rewrite E, P1, inject_Z_mult. change (inject_Z 10) with 10%Q. ring.
  - split; [lia|]. exists (X - P + 1). split; [replace (X - P + 1 + P - 1) with X by lia; exact L|exact ERR].
Qed.

(** ---- strings of digits ---- *)
Lemma digit_isdig d : 0 <= d < 10 -> isdig (digit d) = true /\ dval (digit d) = d.
Proof.
  intros H. unfold isdig, dval, digit. rewrite N_ascii_embedding by lia.
  assert (E : Z.to_N (48 + d) = (48 + Z.to_N d)%N) by lia. rewrite E.
  split; [|lia]. apply andb_true_intro. split; apply N.leb_le; lia.
Qed.
Lemma dig_length p n : length (dig p n) = p.
Proof. revert n; induction p; intros n; cbn; [reflexivity|]. rewrite app_length, IHp. cbn. lia. Qed.
Lemma dig_isdig p n : Forall (fun c => isdig c = true) (dig p n).
Proof.
  revert n; induction p; intros n; cbn; [constructor|]. apply Forall_app. split; [apply IHp|].
  constructor; [|constructor]. apply digit_isdig. apply Z.mod_pos_bound. lia.
Qed.
Lemma digits_val_snoc s c : digits_val (s ++ [c]) = 10 * digits_val s + dval c.
Proof. unfold digits_val. rewrite fold_left_app. reflexivity. Qed.
Lemma digits_val_app a b : digits_val (a ++ b) = digits_val a * 10 ^ Z.of_nat (length b) + digits_val b.
Proof.
  induction b as [|c b IH] using rev_ind. { rewrite app_nil_r. cbn. lia. }
  rewrite app_assoc, !digits_val_snoc, IH, app_length. cbn [length].
  replace (Z.of_nat (length b + 1)) with (Z.of_nat (length b) + 1) by lia. rewrite Z.pow_add_r by lia. lia.
Qed.
Lemma dig_val p n : 0 <= n -> digits_val (dig p n) = n mod 10 ^ Z.of_nat p.
Proof.
  revert n; induction p; intros n Hn. { cbn. rewrite Z.mod_1_r. reflexivity. }
  cbn [dig]. rewrite digits_val_snoc. rewrite IHp by (apply Z.div_pos; lia).
  rewrite (proj2 (digit_isdig _ (Z.mod_pos_bound n 10 ltac:(lia)))).
  replace (Z.of_nat (S p)) with (1 + Z.of_nat p) by lia. rewrite Z.pow_add_r by lia. rewrite Z.pow_1_r.
  rewrite (Z.rem_mul_r n 10) by (try apply Z.pow_nonzero; lia). lia.
Qed.
Lemma dig_val_small p n : 0 <= n < 10 ^ Z.of_nat p -> digits_val (dig p n) = n.
Proof. intros H. rewrite dig_val by lia. apply Z.mod_small. exact H. Qed.
Lemma zeros_val k : digits_val (repeat "0"%char k) = 0.
Proof. induction k; [reflexivity|]. replace (S k) with (k + 1)%nat by lia. rewrite repeat_app. cbn [repeat].
  rewrite digits_val_snoc, IHk. reflexivity. Qed.
Lemma strip0_spec s : exists k, s = strip0 s ++ repeat "0"%char k.
Proof.
  induction s as [|c s [k IH]]. { exists 0%nat. reflexivity. }
  cbn [strip0]. destruct (strip0 s) as [|x t] eqn:E.
  - unfold ceqb. destruct (Ascii.eqb_spec c "0"%char) as [->|].
    + exists (S k). cbn. f_equal. exact IH.
    + exists k. cbn. f_equal. exact IH.
  - exists k. cbn. f_equal. exact IH.
Qed.

Lemma span_app p a b : Forall (fun c => p c = true) a -> (match b with c :: _ => p c = false | [] => True end) ->
  span p (a ++ b) = (a, b).
Proof.
  induction a as [|c a IH]; intros Ha Hb; cbn.
  - destruct b as [|c b]; [reflexivity|]. cbn. rewrite Hb. reflexivity.
  - inversion Ha; subst. rewrite H1, IH by assumption. reflexivity.
Qed.

(** exponent suffix: nothing, or e followed by the exponent field *)
Definition ends_ok (b : str) (E : Z) : Prop :=
  expo b = (E, []) /\ match b with c :: _ => isdig c = false /\ ceqb c "."%char = false | [] => True end.
Lemma ends_nil : ends_ok [] 0. Proof. split; [reflexivity|exact Logic.I]. Qed.
Lemma ndig_bound n k : 0 <= n -> (ndig n <= k)%nat -> n < 10 ^ Z.of_nat k.
Proof.
  intros H K. destruct (Z.eq_dec n 0) as [->|N]; [apply pow10_pos'; lia|].
  destruct (ndig_spec n ltac:(lia)) as [[_ U] _]. eapply Z.lt_le_trans; [exact U|]. apply Z.pow_le_mono_r; lia.
Qed.
Lemma ends_exp X : ends_ok ("e"%char :: expfield X) X.
Proof.
  split; [|split; reflexivity]. unfold expo, expfield. cbn [ceqb]. change (ceqb "e" "e" || ceqb "e" "E") with true. cbv iota.
  set (p := Nat.max 2 (ndig (Z.abs X))).
  assert (V : digits_val (dig p (Z.abs X)) = Z.abs X).
  { apply dig_val_small. split; [lia|]. apply ndig_bound; [lia|unfold p; lia]. }
  assert (S0 : span isdig (dig p (Z.abs X)) = (dig p (Z.abs X), [])).
  { rewrite <- (app_nil_r (dig p (Z.abs X))) at 1. apply span_app; [apply dig_isdig|exact Logic.I]. }
  assert (NE : exists c t, dig p (Z.abs X) = c :: t).
  { pose proof (dig_length p (Z.abs X)). assert (2 <= p)%nat by apply Nat.le_max_l. clearbody p. clear V S0. destruct (dig p (Z.abs X)); [cbn in H; lia|eauto]. }
  destruct NE as (c & t & NE).
  destruct (Z.ltb_spec X 0) as [L|L].
  - change (sign ("-"%char :: dig p (Z.abs X))) with (true, dig p (Z.abs X)). cbv iota beta.
    rewrite S0. rewrite V. rewrite NE. f_equal. lia.
  - change (sign ("+"%char :: dig p (Z.abs X))) with (false, dig p (Z.abs X)). cbv iota beta.
    rewrite S0. rewrite V. rewrite NE. f_equal. lia.
Qed.
Lemma strtod_plain ip fs b E : ip <> [] -> Forall (fun c => isdig c = true) ip -> Forall (fun c => isdig c = true) fs ->
  ends_ok b E -> exists q, strtod_u (ip ++ frac fs ++ b) = Some (q, []) /\
    (q == inject_Z (digits_val (ip ++ fs)) * p10 (E - Z.of_nat (length fs)))%Q.
Proof.
  intros Hne Hip Hfs [He Hb]. unfold frac. destruct (strip0_spec fs) as [k Hk].
  assert (Fs : Forall (fun c => isdig c = true) (strip0 fs)).
  { rewrite Hk in Hfs. apply Forall_app in Hfs. tauto. }
  assert (VAL : forall t, strip0 fs = t ->
    (inject_Z (digits_val (ip ++ t)) * p10 (E - Z.of_nat (length t)) ==
     inject_Z (digits_val (ip ++ fs)) * p10 (E - Z.of_nat (length fs)))%Q).
  { intros t <-. rewrite Hk at 3 4. rewrite app_assoc, (digits_val_app (ip ++ strip0 fs)), zeros_val, app_length, repeat_length.
    rewrite Z.add_0_r, inject_Z_mult, <- p10_Z by lia.
    rewrite <- Qmult_assoc, <- p10_plus. replace (Z.of_nat k + (E - Z.of_nat (length (strip0 fs) + k))) with (E - Z.of_nat (length (strip0 fs))) by lia.
    reflexivity. }
  destruct (strip0 fs) as [|x t] eqn:ES.
  - pose proof (VAL [] eq_refl) as VAL'. cbn [app]. unfold strtod_u. rewrite span_app; [|assumption|destruct b; tauto].
    rewrite app_nil_r in VAL'. destruct ip as [|c ip]; [contradiction|].
    destruct b as [|x b]; cbv beta iota; [|rewrite (proj2 Hb)]; rewrite app_nil_r, He; eexists; (split; [reflexivity|exact VAL']).
  - unfold strtod_u. rewrite span_app; [|assumption|reflexivity].
    change (("."%char :: x :: t) ++ b) with ("."%char :: ((x :: t) ++ b)). cbv iota. change (ceqb "." ".") with true. cbv iota.
    rewrite span_app; [|assumption|destruct b; tauto]. cbv iota beta.
    destruct ip as [|c ip]; [contradiction|]. cbn [app]. rewrite He.
    eexists. split; [reflexivity|]. rewrite <- (VAL (x :: t) eq_refl). reflexivity.
Qed.
Lemma firstn_skipn_val m s : digits_val (firstn m s ++ skipn m s) = digits_val s.
Proof. rewrite firstn_skipn. reflexivity. Qed.
Lemma Forall_firstn {A} (p : A -> Prop) m l : Forall p l -> Forall p (firstn m l).
Proof. intros H. rewrite <- (firstn_skipn m l) in H. apply Forall_app in H. tauto. Qed.
Lemma Forall_skipn {A} (p : A -> Prop) m l : Forall p l -> Forall p (skipn m l).
Proof. intros H. rewrite <- (firstn_skipn m l) in H. apply Forall_app in H. tauto. Qed.

Lemma gstyle_shape P D X : 1 <= P -> 0 <= D < 10 ^ P -> exists ip fs b E,
  gstyle P D X = ip ++ frac fs ++ b /\ ip <> [] /\ Forall (fun c => isdig c = true) ip /\ Forall (fun c => isdig c = true) fs /\
  ends_ok b E /\ (b = [] \/ b = "e"%char :: expfield X) /\
  digits_val (ip ++ fs) = D /\ E - Z.of_nat (length fs) = X - P + 1.
Proof.
  intros HP HD. unfold gstyle. set (ds := dig (Z.to_nat P) D).
  assert (V : digits_val ds = D) by (apply dig_val_small; rewrite Z2Nat.id by lia; lia).
  assert (L : length ds = Z.to_nat P) by apply dig_length.
  pose proof (dig_isdig (Z.to_nat P) D) as F. fold ds in F.
  assert (NZ : forall m, (1 <= m)%nat -> firstn m ds <> []).
  { intros m Hm. destruct ds; [cbn in L; lia|]. destruct m; [lia|discriminate]. }
  destruct (Z.leb_spec (-4) X) as [A|A]; [destruct (Z.ltb_spec X P) as [B|B]|]; cbn [andb].
  - destruct (Z.leb_spec 0 X) as [C|C].
    + exists (firstn (Z.to_nat (X + 1)) ds), (skipn (Z.to_nat (X + 1)) ds), [], 0.
      rewrite app_nil_r. repeat split; auto using Forall_firstn, Forall_skipn.
      * apply NZ. lia.
      * rewrite firstn_skipn. exact V.
      * rewrite skipn_length, L. lia.
    + exists ["0"%char], (repeat "0"%char (Z.to_nat (- X - 1)) ++ ds), [], 0.
      rewrite app_nil_r. repeat split; auto.
      * discriminate.
      * apply Forall_app. split; [|assumption]. clear. induction (Z.to_nat (- X - 1)); cbn; constructor; auto.
      * rewrite digits_val_app. change (digits_val ["0"%char]) with 0. rewrite digits_val_app, zeros_val, V. lia.
      * rewrite app_length, repeat_length, L. lia.
  - exists (firstn 1 ds), (skipn 1 ds), ("e"%char :: expfield X), X.
    repeat split; auto using Forall_firstn, Forall_skipn.
    * exact (proj1 (ends_exp X)).
    * rewrite firstn_skipn. exact V.
    * rewrite skipn_length, L. lia.
  - exists (firstn 1 ds), (skipn 1 ds), ("e"%char :: expfield X), X.
    repeat split; auto using Forall_firstn, Forall_skipn.
    * exact (proj1 (ends_exp X)).
    * rewrite firstn_skipn. exact V.
    * rewrite skipn_length, L. lia.
Qed.
Lemma strtod_gstyle P D X : 1 <= P -> 0 <= D < 10 ^ P -> exists q,
  strtod_u (gstyle P D X) = Some (q, []) /\ (q == inject_Z D * p10 (X - P + 1))%Q.
Proof.
  intros HP HD. destruct (gstyle_shape P D X HP HD) as (ip & fs & b & E & -> & N & A & B & C & _ & V & K).
  destruct (strtod_plain ip fs b E N A B C) as (q & H1 & H2). exists q. split; [exact H1|]. rewrite H2, V, K. reflexivity.
Qed.

(** ---- printed numbers ---- *)
Definition prec (w : Z) : Z := if w =? 0 then 1 else w.
Lemma prec_pos w : 0 <= w -> 1 <= prec w.
Proof. unfold prec. destruct (Z.eqb_spec w 0); lia. Qed.
Lemma sig_fix P n d D X : 1 <= P -> 0 < n -> 0 < d -> 10 ^ (P - 1) <= D < 10 ^ P ->
  (posQ n d == inject_Z D * p10 (X - P + 1))%Q -> sig P n d = (D, X).
Proof.
  intros HP Hn Hd HD E. pose proof (p10_pos (X - P + 1)) as PQ.
  assert (LX : (p10 X <= posQ n d)%Q).
  { rewrite E. replace X with (P - 1 + (X - P + 1)) at 1 by lia. rewrite p10_plus. apply Qmult_le_compat_r; [|lra].
    rewrite p10_Z by lia. apply (proj1 (injle _ _)). lia. }
  assert (UX : (posQ n d < p10 (X + 1))%Q).
  { rewrite E. replace (X + 1) with (P + (X - P + 1)) by lia. rewrite (p10_plus P (X - P + 1)). apply Qmult_lt_r; [exact PQ|].
    rewrite p10_Z by lia. apply (proj1 (injlt _ _)). lia. }
  unfold sig. rewrite (dexp_unique n d X Hn Hd LX UX).
  pose proof (scaled_spec n d (P - 1 - X) Hd) as S1.
  setoid_replace (posQ n d * p10 (P - 1 - X))%Q with (inject_Z D) in S1.
  - assert (scaled n d (P - 1 - X) = D).
    { apply Qabs_Qle_condition in S1. destruct S1 as [S1 S2]. 
      destruct (Z.lt_trichotomy (scaled n d (P - 1 - X)) D) as [H|[H|H]]; [|exact H|]; exfalso.
      - assert (H' : scaled n d (P - 1 - X) + 1 <= D) by lia. apply injle in H'. rewrite inject_Z_plus in H'. change (inject_Z 1) with 1%Q in H'. lra.
      - assert (H' : D + 1 <= scaled n d (P - 1 - X)) by lia. apply injle in H'. rewrite inject_Z_plus in H'. change (inject_Z 1) with 1%Q in H'. lra. }
    rewrite H. destruct (Z.eqb_spec D (10 ^ P)); [lia|reflexivity].
  - rewrite E, <- Qmult_assoc, <- p10_plus. replace (X - P + 1 + (P - 1 - X)) with 0 by lia. rewrite p10_0. ring.
Qed.

Lemma posQ_make n d : (n # d == posQ n (Zpos d))%Q.
Proof. unfold posQ. rewrite Qmake_Qdiv. reflexivity. Qed.

(** every printed number parses back, completely, to a value with the stated accuracy, and printing any
    representation of that value again gives the same string *)
Lemma gprint_roundtrip w v : 0 <= w -> exists q,
  strtod (gprint w v) = Some (q, []) /\
  (Qabs (q - v) <= (1 # 2) * p10 (1 - prec w) * Qabs v)%Q /\
  (forall v', (v' == q)%Q -> gprint w v' = gprint w v).
Proof.
  intros Hw. pose proof (prec_pos w Hw) as HP. destruct v as [n d].
  unfold gprint. fold (prec w). cbn [Qnum Qden].
  assert (ACC : forall n, let (D, X) := sig (prec w) (Zpos n) (Zpos d) in
    (Qabs (inject_Z D * p10 (X - prec w + 1) - (Zpos n # d)) <= (1 # 2) * p10 (1 - prec w) * (Zpos n # d))%Q /\ 10 ^ (prec w - 1) <= D < 10 ^ prec w).
  { intros m. pose proof (sig_spec (prec w) (Zpos m) (Zpos d) HP eq_refl eq_refl) as S1.
    destruct (sig (prec w) (Zpos m) (Zpos d)) as [D X]. destruct S1 as [S1 (k & S2 & S3)]. split; [|exact S1].
    rewrite (posQ_make (Zpos m) d). eapply Qle_trans; [exact S3|].
    rewrite <- Qmult_assoc. rewrite !(Qmult_comm (1 # 2)). apply Qmult_le_compat_r; [|lra].
    replace k with (1 - prec w + (k + prec w - 1)) at 1 by lia. rewrite p10_plus.
    rewrite !(Qmult_comm (p10 (1 - prec w))). apply Qmult_le_compat_r; [exact S2|]. apply Qlt_le_weak, p10_pos. }
  destruct n as [|n|n].
  - exists 0%Q. split; [reflexivity|]. split.
    + setoid_replace (0 # d)%Q with 0%Q by reflexivity. cbn. rewrite Qmult_0_r. lra.
    + intros v' E. destruct v' as [n' d']. unfold Qeq in E. cbn in E. assert (n' = 0) by lia. subst. reflexivity.
  - specialize (ACC n). destruct (sig (prec w) (Zpos n) (Zpos d)) as [D X]. destruct ACC as [A B].
    pose proof (pow10_pos' (prec w - 1) ltac:(lia)) as T.
    destruct (strtod_gstyle (prec w) D X HP ltac:(lia)) as (q & Q1 & Q2). exists q.
    assert (NS : sign (gstyle (prec w) D X) = (false, gstyle (prec w) D X)).
    { destruct (gstyle_shape (prec w) D X HP ltac:(lia)) as (ip & fs & b & E & -> & N & A1 & _).
      destruct ip as [|c ip]; [contradiction|]. inversion A1; subst. cbn [app sign].
      destruct (ceqb c "-") eqn:E1; [apply Ascii.eqb_eq in E1; subst; discriminate|].
      destruct (ceqb c "+") eqn:E2; [apply Ascii.eqb_eq in E2; subst; discriminate|]. reflexivity. }
    split; [|split].
    + unfold strtod. rewrite NS, Q1. reflexivity.
    + rewrite Q2. rewrite (Qabs_pos (Zpos n # d)) by discriminate. exact A.
    + intros v' E. rewrite Q2 in E.
      assert (VP : (0 < v')%Q).
      { rewrite E. apply Qmult_lt_0_compat; [apply injpos; lia|apply p10_pos]. }
      destruct v' as [n' d']. unfold Qlt in VP. cbn in VP. destruct n' as [|n'|n']; [lia| |lia]. cbn [Qnum Qden].
      rewrite (sig_fix (prec w) (Zpos n') (Zpos d') D X HP eq_refl eq_refl B); [reflexivity|].
      rewrite <- posQ_make. exact E.
  - specialize (ACC n). destruct (sig (prec w) (Zpos n) (Zpos d)) as [D X]. destruct ACC as [A B].
    pose proof (pow10_pos' (prec w - 1) ltac:(lia)) as T.
    destruct (strtod_gstyle (prec w) D X HP ltac:(lia)) as (q & Q1 & Q2). exists (- q)%Q.
    split; [|split].
    + unfold strtod. cbn [sign]. change (ceqb "-" "-") with true. cbv iota. rewrite Q1. reflexivity.
    + rewrite Q2. setoid_replace (Zneg n # d)%Q with (- (Zpos n # d))%Q by reflexivity.
      rewrite Qabs_opp, (Qabs_pos (Zpos n # d)) by discriminate.
      setoid_replace (- (inject_Z D * p10 (X - prec w + 1)) - - (Zpos n # d))%Q with (- (inject_Z D * p10 (X - prec w + 1) - (Zpos n # d)))%Q by ring.
      rewrite Qabs_opp. exact A.
    + intros v' E. rewrite Q2 in E.
      assert (VP : (v' < 0)%Q).
      { rewrite E. assert (0 < inject_Z D * p10 (X - prec w + 1))%Q by (apply Qmult_lt_0_compat; [apply injpos; lia|apply p10_pos]). lra. }
      destruct v' as [n' d']. unfold Qlt in VP. cbn in VP. destruct n' as [|n'|n']; [lia|lia|]. cbn [Qnum Qden].
      rewrite (sig_fix (prec w) (Zpos n') (Zpos d') D X HP eq_refl eq_refl B); [reflexivity|].
      rewrite <- posQ_make. setoid_replace (Zpos n' # d')%Q with (- (Zneg n' # d'))%Q by reflexivity. rewrite E. ring.
Qed.

(** the alphabet of printed numbers *)
Definition numchar (c : ascii) : bool := isdig c || mem c (lit "+-.e").
Definition startchar (s : str) : Prop := match s with c :: _ => isdig c = true \/ c = "-"%char | [] => False end.
Lemma isdig_num l : Forall (fun c => isdig c = true) l -> Forall (fun c => numchar c = true) l.
Proof. apply Forall_impl. intros c H. unfold numchar. rewrite H. reflexivity. Qed.
Lemma gstyle_chars P D X : 1 <= P -> 0 <= D < 10 ^ P ->
  Forall (fun c => numchar c = true) (gstyle P D X) /\ match gstyle P D X with c :: _ => isdig c = true | [] => False end.
Proof.
  intros HP HD. destruct (gstyle_shape P D X HP HD) as (ip & fs & b & E & -> & N & A & B & _ & C & _).
  split.
  - apply Forall_app. split; [apply isdig_num; exact A|]. apply Forall_app. split.
    + unfold frac. destruct (strip0_spec fs) as [k Hk]. rewrite Hk in B. apply Forall_app in B.
      destruct (strip0 fs); constructor; [reflexivity|]. apply isdig_num. tauto.
    + destruct C as [->| ->]; constructor; [reflexivity|]. unfold expfield. constructor; [destruct (X <? 0); reflexivity|].
      apply isdig_num, dig_isdig.
  - destruct ip; [contradiction|]. inversion A; subst. exact H1.
Qed.
Lemma gprint_chars w v : 0 <= w -> Forall (fun c => numchar c = true) (gprint w v) /\ startchar (gprint w v).
Proof.
  intros Hw. pose proof (prec_pos w Hw) as HP. unfold gprint. fold (prec w).
  assert (S1 : forall n, let (D, X) := sig (prec w) (Zpos n) (Zpos (Qden v)) in 0 <= D < 10 ^ prec w).
  { intros n. pose proof (sig_spec (prec w) (Zpos n) (Zpos (Qden v)) HP eq_refl eq_refl) as S.
    destruct (sig (prec w) (Zpos n) (Zpos (Qden v))) as [D X]. pose proof (pow10_pos' (prec w - 1) ltac:(lia)). lia. }
  destruct (Qnum v) as [|n|n].
  - split; [repeat constructor|left; reflexivity].
  - specialize (S1 n). destruct (sig _ _ _) as [D X]. destruct (gstyle_chars _ D X HP S1) as [A B]. split; [exact A|].
    destruct (gstyle (prec w) D X); [exact B|left; exact B].
  - specialize (S1 n). destruct (sig _ _ _) as [D X]. destruct (gstyle_chars _ D X HP S1) as [A B]. split; [|right; reflexivity].
    constructor; [reflexivity|exact A].
Qed.

(** length: numbers in the range of finite doubles fit into the buffer *)
Definition in_double_range (v : Q) : Prop := (v == 0)%Q \/ (p10 (-324) <= Qabs v /\ Qabs v < p10 309)%Q.
Lemma strip0_length s : (length (strip0 s) <= length s)%nat.
Proof. destruct (strip0_spec s) as [k H]. rewrite H at 2. rewrite app_length. lia. Qed.
Lemma frac_length s : (length (frac s) <= S (length s))%nat.
Proof. unfold frac. pose proof (strip0_length s). destruct (strip0 s); cbn in *; lia. Qed.
Lemma gstyle_length P D X : 1 <= P -> -324 <= X <= 309 -> (length (gstyle P D X) <= Z.to_nat P + 6)%nat.
Proof.
  intros HP HX. unfold gstyle. set (ds := dig (Z.to_nat P) D). assert (L : length ds = Z.to_nat P) by apply dig_length.
  assert (EX : (length (expfield X) <= 4)%nat).
  { unfold expfield. cbn [length]. rewrite dig_length.
    assert (ndig (Z.abs X) <= 3)%nat; [|lia].
    destruct (Z.eq_dec X 0) as [->|N]; [vm_compute; lia|]. destruct (ndig_spec (Z.abs X) ltac:(lia)) as [[A B] C].
    destruct (Nat.le_gt_cases (ndig (Z.abs X)) 3); [assumption|]. exfalso.
    assert (10 ^ 3 <= 10 ^ (Z.of_nat (ndig (Z.abs X)) - 1)) by (apply Z.pow_le_mono_r; lia). lia. }
  assert (SCI : (length (firstn 1 ds ++ frac (skipn 1 ds) ++ "e"%char :: expfield X) <= Z.to_nat P + 6)%nat).
  { rewrite !app_length. cbn [length]. pose proof (frac_length (skipn 1 ds)). rewrite skipn_length in H. rewrite firstn_length. lia. }
  destruct (Z.leb_spec (-4) X) as [A|A]; [destruct (Z.ltb_spec X P) as [B|B]|]; cbn [andb]; try exact SCI.
  destruct (Z.leb_spec 0 X) as [C|C].
  - rewrite app_length. pose proof (frac_length (skipn (Z.to_nat (X + 1)) ds)). rewrite skipn_length in H. rewrite firstn_length. lia.
  - cbn [length]. match goal with |- context [frac ?x] => pose proof (frac_length x) as F end.
    rewrite app_length, repeat_length, L in F. lia.
Qed.
Lemma gprint_length w v : 0 <= w -> in_double_range v -> (length (gprint w v) <= Z.to_nat (prec w) + 7)%nat.
Proof.
  intros Hw HV. pose proof (prec_pos w Hw) as HP. unfold gprint. fold (prec w).
  assert (S1 : forall n, Qabs v = (Zpos n # Qden v)%Q -> let (D, X) := sig (prec w) (Zpos n) (Zpos (Qden v)) in -324 <= X <= 309).
  { intros n A. unfold sig. destruct (dexp_spec (Zpos n) (Zpos (Qden v)) eq_refl eq_refl) as [L U].
    rewrite <- posQ_make, <- A in L, U.
    destruct HV as [Z0|[V1 V2]].
    { assert (Z1 : (Qabs v == 0)%Q) by (rewrite Z0; reflexivity). pose proof (p10_pos (dexp (Zpos n) (Zpos (Qden v)))). lra. }
    assert (-324 < dexp (Zpos n) (Zpos (Qden v)) + 1) by (apply p10_lt_inv; lra).
    assert (dexp (Zpos n) (Zpos (Qden v)) < 309) by (apply p10_lt_inv; lra).
    destruct (_ =? _); lia. }
  destruct v as [n d]. cbn [Qnum Qden] in *. destruct n as [|n|n].
  - cbn. lia.
  - specialize (S1 n eq_refl). destruct (sig _ _ _) as [D X]. pose proof (gstyle_length (prec w) D X HP S1). lia.
  - specialize (S1 n eq_refl). destruct (sig _ _ _) as [D X]. pose proof (gstyle_length (prec w) D X HP S1). cbn [length]. lia.
Qed.
Lemma c_str_num s : Forall (fun c => numchar c = true) s -> c_str s = s.
Proof.
  induction 1 as [|c s H _ IH]; [reflexivity|]. cbn. destruct (ceqb c NUL) eqn:E.
  - apply Ascii.eqb_eq in E. subst. discriminate.
  - rewrite IH. reflexivity.
Qed.
Lemma toString_no_trunc w v : 0 <= w <= 92 -> in_double_range v -> toString_double w v = gprint w v.
Proof.
  intros Hw HV. apply firstn_all2. pose proof (gprint_length w v ltac:(lia) HV) as L. unfold prec in L.
  destruct (Z.eqb_spec w 0); lia.
Qed.
Lemma toString_toDouble w v : 0 <= w <= 92 -> in_double_range v -> exists q,
  toDouble (toString_double w v) = Ok q /\
  (Qabs (q - v) <= (1 # 2) * p10 (1 - prec w) * Qabs v)%Q /\
  (forall v', (v' == q)%Q -> gprint w v' = gprint w v).
Proof.
  intros Hw HV. rewrite toString_no_trunc by assumption.
  destruct (gprint_roundtrip w v ltac:(lia)) as (q & A & B & C). exists q. split; [|split; assumption].
  destruct (gprint_chars w v ltac:(lia)) as [G1 G2]. unfold toDouble. rewrite (c_str_num _ G1).
  destruct (gprint w v); [contradiction|]. rewrite A. reflexivity.
Qed.
