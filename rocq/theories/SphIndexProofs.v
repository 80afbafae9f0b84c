From Coq Require Import ZArith Reals Lra Lia Psatz Bool List FinFun.
From Verif Require Import Base Arr FloatBase PotModel SphIndexModel SphIndexSpec.
Import ListNotations.
Local Open Scope Z_scope.

(* ---------- flags as bits ---------- *)
Lemma flag_bit s k : 0 <= k -> Z.eqb (Z.land s (2 ^ k)) (2 ^ k) = Z.testbit s k.
Proof.
  intros Hk. destruct (Z.testbit s k) eqn:E.
  - apply Z.eqb_eq. apply Z.bits_inj'. intros n Hn. rewrite Z.land_spec, Z.pow2_bits_eqb by assumption. destruct (Z.eqb_spec k n) as [<-|]; [rewrite E; reflexivity|apply andb_false_r].
  - apply Z.eqb_neq. intros H. apply (f_equal (fun z => Z.testbit z k)) in H. rewrite Z.land_spec, E, Z.pow2_bits_eqb, Z.eqb_refl in H by assumption. discriminate.
Qed.
Lemma bX s : isXReflSymmetric s = Z.testbit s 0. Proof. exact (flag_bit s 0 ltac:(lia)). Qed.
Lemma bY s : isYReflSymmetric s = Z.testbit s 1. Proof. exact (flag_bit s 1 ltac:(lia)). Qed.
Lemma bZ s : isZReflSymmetric s = Z.testbit s 2. Proof. exact (flag_bit s 2 ltac:(lia)). Qed.
Lemma bR s : isReflSymmetric s = Z.testbit s 3. Proof. exact (flag_bit s 3 ltac:(lia)). Qed.
Lemma bB s : isBisymmetric s = Z.testbit s 2 && Z.testbit s 3.
Proof.
  unfold isBisymmetric. change ST_BISYMMETRIC with 12. destruct (Z.testbit s 2) eqn:E2, (Z.testbit s 3) eqn:E3; cbn [andb].
  1: apply Z.eqb_eq; apply Z.bits_inj'; intros n Hn; rewrite Z.land_spec; assert (n = 2 \/ n = 3 \/ (n <> 2 /\ n <> 3)) as [->|[->|[A B]]] by lia; [rewrite E2; reflexivity|rewrite E3; reflexivity|].
  1: { replace (Z.testbit 12 n) with false; [apply andb_false_r|]. change 12 with (Z.lor (2^2) (2^3)). rewrite Z.lor_spec, !Z.pow2_bits_eqb by lia. symmetry. apply orb_false_iff; split; apply Z.eqb_neq; lia. }
  all: apply Z.eqb_neq; intros H; pose proof (f_equal (fun z => Z.testbit z 2) H) as H2; pose proof (f_equal (fun z => Z.testbit z 3) H) as H3; cbv beta in H2, H3; rewrite Z.land_spec in H2, H3; rewrite ?E2, ?E3 in *; cbn in H2, H3; congruence.
Qed.
Lemma lor_bit s k n : 0 <= k -> 0 <= n -> Z.testbit (Z.lor s (2 ^ k)) n = Z.testbit s n || (k =? n).
Proof. intros. rewrite Z.lor_spec, Z.pow2_bits_eqb by assumption. reflexivity. Qed.
Lemma clear_bit s k n : 0 <= k -> 0 <= n -> Z.testbit (clear s (2 ^ k)) n = Z.testbit s n && negb (k =? n).
Proof. intros. unfold clear. rewrite Z.ldiff_spec, Z.pow2_bits_eqb by assumption. reflexivity. Qed.
Lemma bits_lt64 s : 0 <= s < 64 -> forall n, 6 <= n -> Z.testbit s n = false.
Proof. intros H n Hn. destruct (Z.eq_dec s 0) as [->|N]; [apply Z.bits_0|]. apply Z.bits_above_log2; [lia|]. assert (Z.log2 s < 6); [|lia]. apply Z.log2_lt_pow2; [lia|]. exact (proj2 H). Qed.
Lemma lt64_bits s : 0 <= s -> (forall n, 6 <= n -> Z.testbit s n = false) -> s < 64.
Proof. intros H B. destruct (Z_lt_ge_dec s 64) as [L|G]; [exact L|]. exfalso. assert (6 <= Z.log2 s) by (change 6 with (Z.log2 64); apply Z.log2_le_mono; lia). pose proof (Z.bit_log2 s ltac:(lia)) as Q. rewrite B in Q by assumption. discriminate. Qed.

(* ---------- parity ---------- *)
Lemma rem2 m : negb (Z.rem m 2 =? 0) = Z.odd m.
Proof. rewrite (Z.rem_eq m 2) by lia. pose proof (Z.quot_rem' m 2). pose proof (Z.rem_bound_abs m 2 ltac:(lia)) as B. destruct (Z.eqb_spec (m - 2 * Z.quot m 2) 0) as [E|E]; cbn [negb].
  - symmetry. rewrite <- Z.negb_even. apply negb_false_iff. apply Z.even_spec. exists (Z.quot m 2). lia.
  - symmetry. apply Z.odd_spec. assert (Z.rem m 2 = 1 \/ Z.rem m 2 = -1) as [R|R] by lia; [exists (Z.quot m 2)|exists (Z.quot m 2 - 1)]; lia. Qed.
Lemma rem2_1 m : 0 <= m -> (Z.rem m 2 =? 1) = Z.odd m.
Proof. intros H. rewrite <- rem2. rewrite Z.rem_mod_nonneg by lia. pose proof (Z.mod_pos_bound m 2 ltac:(lia)). destruct (Z.eqb_spec (m mod 2) 1), (Z.eqb_spec (m mod 2) 0); cbn; try reflexivity; lia. Qed.
Lemma odd_add2 a b : Z.odd (a + b * 2) = Z.odd a.
Proof. rewrite Z.odd_add, Z.odd_mul. cbn. rewrite andb_false_r. apply xorb_false_r. Qed.

(* ---------- integer square root in double precision ---------- *)
Lemma sqrt_between l c : 0 <= l -> l * l <= c < (l + 1) * (l + 1) -> (l + 1) * (l + 1) <= 2 ^ 32 -> index_l c = l.
Proof.
  intros Hl Hc Hb. unfold index_l.
  destruct (fofZ_correct c) as [V F]. { assert (0 <= c) by nia. assert (2 ^ 32 < 2 ^ 53) by (vm_compute; reflexivity). lia. }
  pose proof (Bsqrt_correct fprec femax _ _ mode_NE (fofZ c)) as (S & _). cbn [round_mode] in S. rewrite V in S.
  apply eq_IZR. rewrite Btrunc_correct by reflexivity. rewrite S. unfold round at 1. unfold F2R, scaled_mantissa, cexp, FIX_exp; cbn [Fnum Fexp]. change (bpow radix2 (- 0)) with 1%R. change (bpow radix2 0) with 1%R. rewrite !Rmult_1_r. f_equal.
  assert (L16 : l + 1 <= 2 ^ 16). { destruct (Z_le_gt_dec (l + 1) (2 ^ 16)) as [A|A]; [exact A|]. exfalso. assert ((2 ^ 16 + 1) * (2 ^ 16 + 1) <= (l + 1) * (l + 1)) by (apply Z.mul_le_mono_nonneg; lia). lia. }
  assert (P0 : (0 <= IZR l)%R) by (apply IZR_le; exact Hl).
  assert (A : (IZR l <= rnd (sqrt (IZR c)))%R).
  { rewrite <- (rnd_fmt (IZR l)) by (apply fmt_IZR; assert (2 ^ 16 < 2 ^ 53) by (vm_compute; reflexivity); lia). apply rnd_le.
    rewrite <- (sqrt_Rsqr (IZR l)) by exact P0. apply sqrt_le_1_alt. unfold Rsqr. rewrite <- mult_IZR. apply IZR_le. lia. }
  set (B := ((IZR (l + 1) * 2 ^ 20 - 1) / 2 ^ 20)%R).
  assert (FB : generic_format radix2 fexp B).
  { replace B with (F2R (Float radix2 ((l + 1) * 2 ^ 20 - 1) (-20))).
    2: { unfold F2R, B; cbn [Fnum Fexp]. rewrite minus_IZR, mult_IZR. change (bpow radix2 (-20)) with (/ IZR (2 ^ 20))%R. replace (IZR (2 ^ 20)) with (2 ^ 20)%R by (change (2 ^ 20) with 1048576; lra). unfold Rdiv. reflexivity. }
    apply generic_format_F2R. intros Hn. unfold cexp. rewrite fexp_is_FLT. unfold FLT_exp. cbn [Fnum Fexp].
    assert (mag radix2 (F2R (Float radix2 ((l + 1) * 2 ^ 20 - 1) (-20))) <= 17)%Z; [|lia]. apply mag_le_bpow; [apply F2R_neq_0; exact Hn|].
    rewrite <- F2R_Zabs. unfold F2R; cbn [Fnum Fexp]. rewrite Z.abs_eq by lia.
    change (bpow radix2 (-20)) with (/ IZR (2 ^ 20))%R. change (bpow radix2 17) with (IZR (2 ^ 17)).
    apply (Rmult_lt_reg_r (IZR (2 ^ 20))); [apply IZR_lt; reflexivity|]. rewrite Rmult_assoc, Rinv_l by (apply not_0_IZR; discriminate). rewrite Rmult_1_r, <- mult_IZR. apply IZR_lt. change (2 ^ 17 * 2 ^ 20) with (2 * 2 ^ 16 * 2 ^ 20). nia. }
  assert (U : (rnd (sqrt (IZR c)) <= B)%R).
  { rewrite <- (rnd_fmt B FB). apply rnd_le. assert (HL : (1 <= IZR (l + 1) <= 65536)%R) by (split; apply IZR_le; lia).
    assert (B0 : (0 <= B)%R) by (unfold B; apply Rmult_le_pos; [lra|apply Rlt_le, Rinv_0_lt_compat; lra]).
    rewrite <- (sqrt_Rsqr B) by exact B0. apply sqrt_le_1_alt.
    assert (C1 : (IZR c <= IZR (l + 1) * IZR (l + 1) - 1)%R) by (rewrite <- mult_IZR, <- minus_IZR; apply IZR_le; lia).
    eapply Rle_trans; [exact C1|]. unfold Rsqr, B. set (x := IZR (l + 1)) in *.
    replace ((x * 2 ^ 20 - 1) / 2 ^ 20)%R with (x - / 2 ^ 20)%R by (field; lra). assert (E : (/ 2 ^ 20 = / 1048576)%R) by (f_equal; lra). rewrite E. nra. }
  assert (LT : (rnd (sqrt (IZR c)) < IZR (l + 1))%R). { eapply Rle_lt_trans; [exact U|]. unfold B. apply (Rmult_lt_reg_r (2 ^ 20)); [lra|]. unfold Rdiv. rewrite Rmult_assoc, Rinv_l by lra. lra. }
  rewrite Ztrunc_floor by lra. apply Zfloor_imp. split; assumption.
Qed.

Lemma decode l m : Z.abs m <= l -> (l + 1) * (l + 1) <= 2 ^ 32 -> index_l (sh_index l m) = l /\ index_m (sh_index l m) = m.
Proof. intros H B. assert (E : index_l (sh_index l m) = l) by (apply sqrt_between; unfold sh_index; nia). split; [exact E|]. unfold index_m. rewrite E. unfold sh_index. ring. Qed.
Lemma encode c : 0 <= c < 2 ^ 32 -> 0 <= index_l c /\ Z.abs (index_m c) <= index_l c /\ sh_index (index_l c) (index_m c) = c.
Proof.
  intros H. pose proof (Z.sqrt_spec c ltac:(lia)) as S. pose proof (Z.sqrt_nonneg c). set (l := Z.sqrt c) in *. unfold Z.succ in S.
  assert (E : index_l c = l).
  { destruct (Z_le_gt_dec ((l + 1) * (l + 1)) (2 ^ 32)) as [A|A]; [apply sqrt_between; [assumption|lia|exact A]|]. exfalso. assert (l * l < 2 ^ 16 * 2 ^ 16) by lia. assert (l < 2 ^ 16) by nia. nia. }
  unfold index_m. rewrite E. unfold sh_index. repeat split; [assumption| |ring]. nia.
Qed.

(* ---------- the constructor ---------- *)
Lemma fill_spec mmax f : 0 <= mmax -> exists a, for_ (- mmax) (mmax + 1) (fun m a => aset a (m + mmax) (f m)) (anew (2 * mmax + 1) 0) = Ok a /\ alen a = 2 * mmax + 1 /\ forall m, - mmax <= m <= mmax -> afn a (m + mmax) = f m.
Proof.
  intros H. destruct (for_total (fun i a => alen a = 2 * mmax + 1 /\ forall m, - mmax <= m < i -> afn a (m + mmax) = f m) (- mmax) (mmax + 1) (fun m a => aset a (m + mmax) (f m)) (anew (2 * mmax + 1) 0)) as (a & E & L & P).
  - lia.
  - split; [reflexivity|]. intros. lia.
  - intros i s Hi (L & P). eexists. split; [apply aset_ok; lia|]. split; [exact L|]. cbn [afn]. intros m Hm. destruct (Z.eq_dec m i) as [->|N]; [apply upd_same|]. rewrite upd_other by lia. apply P. lia.
  - exists a. split; [exact E|]. split; [exact L|]. intros m Hm. apply P. lia.
Qed.
Definition sym_of (lmax mmax sym0 : Z) : Z :=
  let sym1 := if mmax =? 0 then Z.lor (Z.lor (Z.lor sym0 ST_ZROTATION) ST_XREFLECTION) ST_YREFLECTION else sym0 in
  if lmax =? 0 then Z.lor (Z.lor (Z.lor sym1 ST_ROTATION) ST_ZREFLECTION) ST_REFLECTION else sym1.
Definition refused (lmax mmax sym : Z) : Prop := lmax < 0 \/ mmax < 0 \/ lmax < mmax \/ ~ valid_sym sym \/
  (Z.testbit sym 0 = true /\ Z.testbit sym 1 = true /\ Z.testbit sym 2 = true /\ Z.testbit sym 3 = false).
Lemma ctor lmax mmax sym : (refused lmax mmax sym /\ SphHarmIndices lmax mmax sym = Throw) \/
  (~ refused lmax mmax sym /\ exists i, SphHarmIndices lmax mmax sym = Ok i /\ i_lmax i = lmax /\ i_mmax i = mmax /\ i_sym i = sym_of lmax mmax sym /\
    i_step i = (if Z.testbit sym 2 || Z.testbit sym 3 then 2 else 1) /\ alen (i_lmin_arr i) = 2 * mmax + 1 /\
    forall m, - mmax <= m <= mmax -> lmin i m = lminm lmax (sym_of lmax mmax sym) m).
Proof.
  unfold SphHarmIndices, refused, valid_sym, isUnknown. rewrite bX, bY, bZ, bR. change ST_SPHERICAL with 63.
  destruct (Z.ltb_spec lmax 0); cbn [orb]; [left; split; [tauto|reflexivity]|].
  destruct (Z.ltb_spec mmax 0); cbn [orb]; [left; split; [tauto|reflexivity]|].
  destruct (Z.ltb_spec lmax mmax); [left; split; [tauto|reflexivity]|].
  destruct (Z.ltb_spec sym 0); cbn [orb]; [left; split; [do 3 right; left; lia|reflexivity]|].
  destruct (Z.ltb_spec 63 sym); [left; split; [do 3 right; left; lia|reflexivity]|].
  destruct (Z.testbit sym 0 && Z.testbit sym 1 && Z.testbit sym 2 && negb (Z.testbit sym 3)) eqn:E.
  - left. split; [|reflexivity]. rewrite !andb_true_iff, negb_true_iff in E. tauto.
  - right. split.
    + intros [?|[?|[?|[?|(A & B & C & D)]]]]; try lia. rewrite A, B, C, D in E. discriminate.
    + fold (sym_of lmax mmax sym). destruct (fill_spec mmax (lminm lmax (sym_of lmax mmax sym))) as (a & F & L & P); [assumption|]. 
      eexists. split; [unfold sym_of in F |- *; cbv zeta in F |- *; rewrite F; cbn [bind]; reflexivity|]. cbn [i_lmax i_mmax i_sym i_step i_lmin_arr]. repeat (split; [reflexivity || exact L|]).
      intros m Hm. unfold lmin; cbn [i_lmax i_mmax i_sym i_step i_lmin_arr]. rewrite (proj2 (Z.leb_le _ _)), (proj2 (Z.leb_le _ _)) by lia. cbn [andb]. rewrite aget_ok by lia. apply P. exact Hm.
Qed.
Lemma sym_bits lmax mmax sym : Z.testbit (sym_of lmax mmax sym) 0 = Z.testbit sym 0 || (mmax =? 0) /\ Z.testbit (sym_of lmax mmax sym) 1 = Z.testbit sym 1 || (mmax =? 0) /\
  Z.testbit (sym_of lmax mmax sym) 2 = Z.testbit sym 2 || (lmax =? 0) /\ Z.testbit (sym_of lmax mmax sym) 3 = Z.testbit sym 3 || (lmax =? 0) /\
  Z.testbit (sym_of lmax mmax sym) 4 = Z.testbit sym 4 || (mmax =? 0) /\ Z.testbit (sym_of lmax mmax sym) 5 = Z.testbit sym 5 || (lmax =? 0).
Proof.
  unfold sym_of. cbv zeta. change ST_ZROTATION with (2 ^ 4). change ST_XREFLECTION with (2 ^ 0). change ST_YREFLECTION with (2 ^ 1). change ST_ROTATION with (2 ^ 5). change ST_ZREFLECTION with (2 ^ 2). change ST_REFLECTION with (2 ^ 3).
  destruct (mmax =? 0), (lmax =? 0); rewrite ?lor_bit by lia; cbn [Z.eqb Pos.eqb]; rewrite ?orb_true_r, ?orb_false_r; tauto.
Qed.

(* ---------- ranges ---------- *)
Lemma in_range lo hi step v : 0 < step -> In v (range lo hi step) <-> exists k, 0 <= k /\ v = lo + k * step /\ v <= hi.
Proof.
  intros S. unfold range. rewrite in_map_iff. split.
  - intros (k & <- & H). apply in_seq in H. exists (Z.of_nat k). repeat split; [lia|]. assert (Z.of_nat k <= (hi - lo) / step) by lia. pose proof (Z.mul_div_le (hi - lo) step S). nia.
  - intros (k & K & -> & H). exists (Z.to_nat k). rewrite Z2Nat.id by assumption. split; [reflexivity|]. apply in_seq. assert (k <= (hi - lo) / step) by (apply Z.div_le_lower_bound; lia). lia.
Qed.
Lemma range_nodup lo hi step : 0 < step -> NoDup (range lo hi step).
Proof. intros S. unfold range. apply FinFun.Injective_map_NoDup; [|apply seq_NoDup]. intros a b H. nia. Qed.
Lemma flat_map_nodup {A B} (f : A -> list B) (l : list A) : NoDup l -> (forall a, In a l -> NoDup (f a)) -> (forall a b x, In x (f a) -> In x (f b) -> a = b) -> NoDup (flat_map f l).
Proof.
  intros N F D. induction l as [|a l IH]; cbn; [constructor|]. inversion N; subst.
  assert (G : forall u v : list B, NoDup u -> NoDup v -> (forall x, In x u -> In x v -> False) -> NoDup (u ++ v)).
  { induction u as [|x u IHu]; cbn; intros v Nu Nv Dj; [exact Nv|]. inversion Nu; subst. constructor; [rewrite in_app_iff; intros [?|?]; [contradiction|]; apply (Dj x); [left; reflexivity|assumption]|]. apply IHu; auto. intros y Y1 Y2. apply (Dj y); [right; assumption|assumption]. }
  apply G; [apply F; left; reflexivity|apply IH; auto; intros; apply F; right; assumption|]. intros x X1 X2. apply in_flat_map in X2. destruct X2 as (b & B1 & B2). assert (a = b) by (eapply D; eassumption). subst. contradiction.
Qed.
Lemma in_visited i l m : 0 < i_step i -> In (l, m) (visited i) <-> (mmin i <= m <= i_mmax i /\ exists k, 0 <= k /\ l = lmin i m + k * i_step i /\ l <= i_lmax i).
Proof.
  intros S. unfold visited. rewrite in_flat_map. split.
  - intros (m' & M & H). apply in_map_iff in H. destruct H as (l' & E & H). injection E as -> ->. apply in_range in H; [|exact S]. apply in_range in M; [|lia]. destruct M as (k & K & E & U). split; [lia|exact H].
  - intros (M & H). exists m. split; [apply in_range; [lia|]; exists (m - mmin i); lia|]. apply in_map_iff. exists l. split; [reflexivity|]. apply in_range; assumption.
Qed.
Lemma visited_nodup i : 0 < i_step i -> NoDup (visited i).
Proof.
  intros S. unfold visited. apply flat_map_nodup; [apply range_nodup; lia| |].
  - intros a _. apply FinFun.Injective_map_NoDup; [intros x y E; injection E; auto|apply range_nodup; exact S].
  - intros a b x X1 X2. apply in_map_iff in X1, X2. destruct X1 as (p & <- & _), X2 as (q & E & _). injection E; auto.
Qed.

(* ---------- selection rules ---------- *)
Lemma allowed_iff sym l m : allowed sym l m <-> (Z.testbit sym 0 = true -> if m <? 0 then Z.Odd m else Z.Even m) /\ (Z.testbit sym 1 = true -> 0 <= m) /\ (Z.testbit sym 2 = true -> Z.Even (l + m)) /\
  (Z.testbit sym 3 = true -> Z.Even l) /\ (Z.testbit sym 4 = true -> m = 0) /\ (Z.testbit sym 5 = true -> l = 0).
Proof.
  split.
  - intros H. repeat split; intros B; [exact (H 0 ltac:(lia) B)|exact (H 1 ltac:(lia) B)|exact (H 2 ltac:(lia) B)|exact (H 3 ltac:(lia) B)|exact (H 4 ltac:(lia) B)|exact (H 5 ltac:(lia) B)].
  - intros (H0 & H1 & H2 & H3 & H4 & H5) b Hb B. assert (b = 0 \/ b = 1 \/ b = 2 \/ b = 3 \/ b = 4 \/ b = 5) as D by lia. destruct D as [->|[->|[->|[->|[->| ->]]]]]; [exact (H0 B)|exact (H1 B)|exact (H2 B)|exact (H3 B)|exact (H4 B)|exact (H5 B)].
Qed.
(** the reflection part of the rule *)
Definition allowed4 (sym l m : Z) : Prop := (Z.testbit sym 0 = true -> if m <? 0 then Z.Odd m else Z.Even m) /\ (Z.testbit sym 1 = true -> 0 <= m) /\ (Z.testbit sym 2 = true -> Z.Even (l + m)) /\
  (Z.testbit sym 3 = true -> Z.Even l).
Lemma even_odd n : (Z.Even n <-> Z.odd n = false) /\ (Z.Odd n <-> Z.odd n = true).
Proof. rewrite <- Z.even_spec, <- Z.odd_spec, <- Z.negb_even. destruct (Z.even n); cbn; intuition congruence. Qed.
Definition allowed4b (sym l m : Z) : Prop := (Z.testbit sym 0 = true -> xorb (m <? 0) (Z.odd m) = false) /\ (Z.testbit sym 1 = true -> (m <? 0) = false) /\ (Z.testbit sym 2 = true -> xorb (Z.odd l) (Z.odd m) = false) /\
  (Z.testbit sym 3 = true -> Z.odd l = false).
Lemma allowed4_b sym l m : allowed4 sym l m <-> allowed4b sym l m.
Proof.
  unfold allowed4, allowed4b. rewrite <- Z.odd_add, Z.ltb_ge. pose proof (proj1 (even_odd m)). pose proof (proj2 (even_odd m)). pose proof (proj1 (even_odd l)). pose proof (proj1 (even_odd (l + m))).
  destruct (m <? 0); destruct (Z.odd m); cbn [xorb]; intuition congruence.
Qed.
Lemma steps_even lo l : lo <= l -> Z.odd l = Z.odd lo -> exists k, 0 <= k /\ l = lo + k * 2.
Proof. intros H P. assert (E : Z.odd (l - lo) = false) by (rewrite Z.odd_sub, P; apply xorb_nilpotent). apply even_odd in E. destruct E as (k & E). exists k. lia. Qed.
Lemma visited4 lmax mmax sym i : SphHarmIndices lmax mmax sym = Ok i -> forall l m, In (l, m) (visited i) <-> in_triangle lmax mmax l m /\ allowed4 sym l m.
Proof.
  intros HC l m. destruct (ctor lmax mmax sym) as [(_ & T)|(NR & i' & E & Lm & Mm & Sy & St & _ & LM)]; [congruence|]. rewrite HC in E. injection E as <-.
  assert (S0 : 0 < i_step i) by (rewrite St; destruct (_ || _); lia). rewrite in_visited by exact S0.
  unfold refused in NR. assert (H0 : 0 <= mmax <= lmax) by lia. assert (XYZ : ~ (Z.testbit sym 0 = true /\ Z.testbit sym 1 = true /\ Z.testbit sym 2 = true /\ Z.testbit sym 3 = false)) by tauto.
  destruct (sym_bits lmax mmax sym) as (B0 & B1 & B2 & B3 & _ & _).
  unfold mmin. rewrite bY, Sy, B1, Lm, Mm. clear Lm Mm Sy HC. rewrite allowed4_b. unfold in_triangle, allowed4b.
  assert (AM : Z.odd (Z.abs m) = Z.odd m) by (destruct (Z.abs_eq_or_opp m) as [-> | ->]; [reflexivity|apply Z.odd_opp]).
  destruct (Z_le_gt_dec (Z.abs m) mmax) as [HM|HM].
  2: { split; [|lia]. intros (A & _). destruct (Z.testbit sym 1 || (mmax =? 0)); lia. }
  assert (HM' : - mmax <= m <= mmax) by lia. rewrite (LM m HM'). unfold lminm. rewrite bX, bY, bR, bB, B0, B1, B2, B3, rem2, St. clear LM B0 B1 B2 B3 St S0 NR.
  destruct (Z.eqb_spec lmax 0) as [L0|L0].
  { subst lmax. assert (mmax = 0) by lia. subst mmax. assert (m = 0) by lia. subst m. cbn [Z.eqb Z.ltb Z.compare Z.odd Z.abs xorb]. rewrite !orb_true_r. cbn [andb orb]. split.
    - intros (_ & k & K & E & U). assert (L00 : l = 0) by (destruct (_ || _); lia). clear E. subst l. cbn. repeat split; try lia; reflexivity.
    - intros ((T & _) & _). assert (l = 0) by lia. split; [lia|]. exists 0. destruct (_ || _); lia. }
  rewrite !orb_false_r.
  assert (NE : Z.odd m = false -> Z.odd (Z.abs m + 1) = true) by (intros; rewrite Z.odd_add, AM, H; reflexivity).
  assert (NO : Z.odd m = true -> Z.odd (Z.abs m + 1) = false) by (intros; rewrite Z.odd_add, AM, H; reflexivity).
  assert (M0 : mmax = 0 -> m = 0) by lia.
  destruct (Z.eqb_spec mmax 0) as [MZ|MZ]; [specialize (M0 MZ); subst m|clear M0]; rewrite ?orb_true_r, ?orb_false_r.
  all: destruct (Z.ltb_spec m 0) as [N|N] || idtac.
  all: destruct (Z.odd m) eqn:OM || idtac.
  all: destruct (Z.testbit sym 0), (Z.testbit sym 1), (Z.testbit sym 2), (Z.testbit sym 3); cbn [orb andb xorb Z.ltb Z.compare Z.odd Z.abs] in *; try (exfalso; apply XYZ; repeat split; reflexivity); split.
  all: try (intros (M & k & K & E & U); lia).
  all: try (intros (M & k & K & E & U); subst l; rewrite ?odd_add2, ?AM, ?NO, ?NE by (assumption || reflexivity); cbn; repeat split; intros; try lia; try discriminate; reflexivity).
  all: try (intros (M & k & K & E & U); repeat split; intros; try lia; try discriminate; reflexivity).
  all: intros ((T & _) & A0 & A1 & A2 & A3); try (specialize (A0 eq_refl)); try (specialize (A1 eq_refl)); try (specialize (A2 eq_refl)); try (specialize (A3 eq_refl)); try discriminate; try lia; try (rewrite A3 in A2; cbn in A2; discriminate).
  all: split; [lia|].
  all: rewrite ?xorb_false_r, ?xorb_true_r, ?negb_false_iff in *.
  all: match goal with
    | |- exists k, _ /\ ?x = ?lo + k * 1 /\ _ => exists (x - lo); lia
    | |- exists k, _ /\ ?x = 0 + k * 2 /\ _ => destruct (steps_even 0 x) as (kk & KK & EE); [lia|change (Z.odd 0) with false; auto|exists kk; lia]
    | AM : Z.odd (Z.abs ?m) = _ |- exists k, _ /\ ?x = Z.abs ?m + k * 2 /\ _ => destruct (steps_even (Z.abs m) x) as (kk & KK & EE); [lia|congruence|exists kk; lia]
    | AM : Z.odd (Z.abs ?m) = _, NO : _ -> Z.odd (Z.abs ?m + 1) = false |- exists k, _ /\ ?x = Z.abs ?m + 1 + k * 2 /\ _ =>
        destruct (steps_even (Z.abs m + 1) x) as (kk & KK & EE); [assert (x <> Z.abs m) by congruence; lia|rewrite NO by reflexivity; congruence|exists kk; lia]
    end.
Qed.
