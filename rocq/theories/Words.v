(** 64-bit unsigned machine words as N below 2^64, with wrap-around, and facts on the mixing operations used by the
    random number generators and the hash function. *)
From Coq Require Export NArith Lia Bool List.
Export ListNotations.
Local Open Scope N_scope.

Definition W : N := 18446744073709551616.           (* 2^64 *)
Definition word (x : N) : Prop := x < W.
(** uint64_t arithmetic *)
Definition wadd (x y : N) : N := (x + y) mod W.
Definition wmul (x y : N) : N := (x * y) mod W.
Definition wshl (x k : N) : N := (N.shiftl x k) mod W.
Definition wshr (x k : N) : N := N.shiftr x k.

Lemma W_pow : W = 2 ^ 64. Proof. reflexivity. Qed.
Lemma W_pos : W <> 0. Proof. discriminate. Qed.
Lemma wadd_word x y : word (wadd x y). Proof. apply N.mod_lt. discriminate. Qed.
Lemma wmul_word x y : word (wmul x y). Proof. apply N.mod_lt. discriminate. Qed.
Lemma wshl_word x k : word (wshl x k). Proof. apply N.mod_lt. discriminate. Qed.
Lemma word_bits x : word x <-> forall i, 64 <= i -> N.testbit x i = false.
Proof.
  unfold word. split.
  - intros H i Hi. destruct (N.eq_dec x 0) as [->|N0]; [apply N.bits_0|]. apply N.bits_above_log2.
    apply N.log2_lt_pow2; [lia|]. rewrite W_pow in H. eapply N.lt_le_trans; [exact H|]. apply N.pow_le_mono_r; lia.
  - intros H. destruct (N.eq_dec x 0) as [->|N0]; [reflexivity|]. rewrite W_pow. apply N.log2_lt_pow2; [lia|].
    destruct (N.lt_ge_cases (N.log2 x) 64) as [L|L]; [exact L|]. pose proof (N.bit_log2 x N0) as B. rewrite (H _ L) in B. discriminate.
Qed.
Lemma word_shr x k : word x -> word (wshr x k).
Proof. rewrite !word_bits. intros H i Hi. unfold wshr. rewrite N.shiftr_spec by lia. apply H. lia. Qed.
Lemma word_lxor x y : word x -> word y -> word (N.lxor x y).
Proof. rewrite !word_bits. intros H1 H2 i Hi. rewrite N.lxor_spec, H1, H2 by exact Hi. reflexivity. Qed.
Lemma word_lor x y : word x -> word y -> word (N.lor x y).
Proof. rewrite !word_bits. intros H1 H2 i Hi. rewrite N.lor_spec, H1, H2 by exact Hi. reflexivity. Qed.
Lemma wshl_spec x k i : N.testbit (wshl x k) i = (i <? 64) && (k <=? i) && N.testbit x (i - k).
Proof.
  unfold wshl. rewrite W_pow. destruct (N.ltb_spec i 64) as [H|H].
  - rewrite N.mod_pow2_bits_low by exact H. destruct (N.leb_spec k i) as [G|G]; cbn [andb].
    + rewrite N.shiftl_spec_high by lia. reflexivity.
    + rewrite N.shiftl_spec_low by lia. reflexivity.
  - rewrite N.mod_pow2_bits_high by exact H. reflexivity.
Qed.
Lemma wshr_spec x k i : N.testbit (wshr x k) i = N.testbit x (i + k).
Proof. unfold wshr. apply N.shiftr_spec. lia. Qed.

(** x ^ (x >> k) is injective for k > 0 *)
Lemma xorshift_inj k x y : 0 < k -> N.lxor x (N.shiftr x k) = N.lxor y (N.shiftr y k) -> x = y.
Proof.
  intros Hk E. set (B := N.max (N.size x) (N.size y)).
  assert (HB : forall i, B <= i -> N.testbit x i = false /\ N.testbit y i = false).
  { intros i Hi. split; (match goal with |- N.testbit ?z i = false => destruct (N.eq_dec z 0) as [->|N0]; [apply N.bits_0|]; apply N.bits_above_log2; pose proof (N.size_log2 z N0) end); lia. }
  assert (forall n i, B <= i + N.of_nat n -> N.testbit x i = N.testbit y i) as K.
  { induction n as [|n IH]; intros i Hi.
    - destruct (HB i ltac:(lia)) as [-> ->]. reflexivity.
    - pose proof (f_equal (fun z => N.testbit z i) E) as Ei. cbn beta in Ei. rewrite !N.lxor_spec, !N.shiftr_spec in Ei by lia.
      rewrite (IH (i + k)) in Ei by lia. destruct (N.testbit x i), (N.testbit y i), (N.testbit y (i + k)); cbn in Ei; congruence. }
  apply N.bits_inj. intros i. apply (K (N.to_nat B) i). lia.
Qed.
(** multiplication by an odd constant is injective modulo 2^64 *)
Lemma wmul_inj m mi x y : wmul m mi = 1 -> word x -> word y -> wmul x m = wmul y m -> x = y.
Proof.
  unfold wmul, word. intros H Hx Hy E.
  assert (forall z, z < W -> ((z * m) mod W * mi) mod W = z) as K.
  { intros z Hz. rewrite N.mul_mod_idemp_l by discriminate. rewrite <- N.mul_assoc, <- N.mul_mod_idemp_r by discriminate.
    rewrite H, N.mul_1_r. apply N.mod_small. exact Hz. }
  rewrite <- (K x Hx), <- (K y Hy), E. reflexivity.
Qed.
Lemma wadd_inj c x y : word x -> word y -> wadd x c = wadd y c -> x = y.
Proof.
  unfold wadd, word. intros Hx Hy E. assert (W > 0) by (unfold W; lia).
  assert (forall z, z < W -> (((z + c) mod W) + (W - c mod W)) mod W = z) as K.
  { intros z Hz. pose proof (N.mod_lt c W ltac:(discriminate)). rewrite N.add_mod_idemp_l by discriminate.
    rewrite <- (N.add_mod_idemp_l (z + c)) by discriminate. rewrite <- (N.add_mod_idemp_r z c) by discriminate. rewrite N.add_mod_idemp_l by discriminate.
    replace (z + c mod W + (W - c mod W)) with (z + 1 * W) by lia. rewrite N.mod_add by discriminate. apply N.mod_small. exact Hz. }
  rewrite <- (K x Hx), <- (K y Hy), E. reflexivity.
Qed.
Lemma lxor_inj_l a x y : N.lxor a x = N.lxor a y -> x = y.
Proof. intros E. rewrite <- (N.lxor_0_l x), <- (N.lxor_0_l y), <- (N.lxor_nilpotent a), !N.lxor_assoc, E. reflexivity. Qed.
Lemma lxor_inj_r a x y : N.lxor x a = N.lxor y a -> x = y.
Proof. rewrite !(N.lxor_comm _ a). apply lxor_inj_l. Qed.
