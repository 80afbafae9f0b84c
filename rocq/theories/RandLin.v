(** Linearity over GF(2) of the two shift-register generators, and their exact periods. *)
From Verif Require Import Words RandModel Gf2 Order.
Local Open Scope N_scope.

Definition inV2 (s : st2) : Prop := word (fst s) /\ word (snd s).
Definition z2 : st2 := (0, 0).

Ltac bits := let i := fresh "i" in apply N.bits_inj; intros i; unfold rot;
  repeat (rewrite ?N.lxor_spec, ?N.lor_spec, ?wshl_spec, ?wshr_spec).
Ltac bt := repeat match goal with |- context [N.testbit ?x ?i] => destruct (N.testbit x i) end; reflexivity || (cbn; reflexivity).

Lemma rot_lin x y a b : a + b = 64 -> word x -> word y -> rot (N.lxor x y) a b = N.lxor (rot x a b) (rot y a b).
Proof.
  intros Hab Hx Hy. rewrite word_bits in Hx, Hy. bits. destruct (N.ltb_spec i 64) as [L|L]; cbn [andb].
  - destruct (N.leb_spec a i) as [G|G]; cbn [andb orb].
    + rewrite (Hx (i + b)), (Hy (i + b)) by lia. cbn. rewrite !orb_false_r. reflexivity.
    + reflexivity.
  - reflexivity.
Qed.
Lemma wshl_lin x y k : wshl (N.lxor x y) k = N.lxor (wshl x k) (wshl y k).
Proof. bits. destruct ((i <? 64) && (k <=? i)); reflexivity. Qed.
Lemma wshr_lin x y k : wshr (N.lxor x y) k = N.lxor (wshr x k) (wshr y k).
Proof. bits. reflexivity. Qed.

Lemma lx4 a b c d : N.lxor (N.lxor a b) (N.lxor c d) = N.lxor (N.lxor a c) (N.lxor b d).
Proof. apply N.bits_inj; intros i. rewrite !N.lxor_spec. destruct (N.testbit a i), (N.testbit b i), (N.testbit c i), (N.testbit d i); reflexivity. Qed.
Lemma rot_word x a b : word x -> word (rot x a b).
Proof. intros H. apply word_lor; [apply wshl_word|apply word_shr; exact H]. Qed.
Lemma step_in s : inV2 s -> inV2 (xoro_step s).
Proof.
  intros [H0 H1]. unfold xoro_step. cbv zeta. assert (Hx : word (N.lxor (snd s) (fst s))) by (apply word_lxor; assumption).
  split; cbn [fst snd]; [apply word_lxor; [apply word_lxor|]|]; try apply rot_word; try apply wshl_word; assumption.
Qed.
(** for words; out-of-range pairs are reduced first so that the map is linear everywhere (only used in range) *)
Definition stepW (s : st2) : st2 := xoro_step (fst s mod W, snd s mod W).
Lemma modW_lxor x y : (N.lxor x y) mod W = N.lxor (x mod W) (y mod W).
Proof.
  apply N.bits_inj. intros i. rewrite N.lxor_spec, W_pow. destruct (N.lt_ge_cases i 64) as [G|G].
  - rewrite !N.mod_pow2_bits_low by exact G. apply N.lxor_spec.
  - rewrite !N.mod_pow2_bits_high by exact G. reflexivity.
Qed.
Lemma modW_word x : word (x mod W). Proof. apply N.mod_lt. discriminate. Qed.
Lemma modW_id x : word x -> x mod W = x. Proof. apply N.mod_small. Qed.
Lemma stepW_eq s : inV2 s -> stepW s = xoro_step s.
Proof. intros [H0 H1]. unfold stepW. rewrite !modW_id by assumption. destruct s; reflexivity. Qed.
Lemma stepW_in s : inV2 (stepW s).
Proof. apply step_in. split; apply modW_word. Qed.
Lemma stepW_lin a b : stepW (xor2 a b) = xor2 (stepW a) (stepW b).
Proof.
  unfold stepW, xor2. cbn [fst snd]. rewrite !modW_lxor. set (a0 := fst a mod W). set (a1 := snd a mod W). set (b0 := fst b mod W). set (b1 := snd b mod W).
  assert (word a0 /\ word a1 /\ word b0 /\ word b1) as (A0 & A1 & B0 & B1) by (repeat split; apply modW_word).
  unfold xoro_step. cbv zeta. cbn [fst snd]. rewrite (lx4 a1 b1 a0 b0).
  set (x := N.lxor a1 a0). set (y := N.lxor b1 b0). assert (word x /\ word y) as [Hx Hy] by (split; apply word_lxor; assumption).
  rewrite !rot_lin, wshl_lin by (assumption || reflexivity). f_equal. rewrite (lx4 (rot a0 55 9)). apply lx4.
Qed.
Lemma xor2_assoc a b c : xor2 a (xor2 b c) = xor2 (xor2 a b) c.
Proof. unfold xor2. cbn [fst snd]. rewrite !N.lxor_assoc. reflexivity. Qed.
Lemma xor2_comm a b : xor2 a b = xor2 b a.
Proof. unfold xor2. rewrite (N.lxor_comm (fst a)), (N.lxor_comm (snd a)). reflexivity. Qed.
Lemma xor2_0 a : xor2 z2 a = a.
Proof. unfold xor2, z2. cbn [fst snd]. rewrite !N.lxor_0_l. destruct a; reflexivity. Qed.
Lemma xor2_self a : xor2 a a = z2.
Proof. unfold xor2, z2. rewrite !N.lxor_nilpotent. reflexivity. Qed.
Lemma inV2_add a b : inV2 a -> inV2 b -> inV2 (xor2 a b).
Proof. intros [A B] [C D]. split; apply word_lxor; assumption. Qed.
Lemma inV2_0 : inV2 z2. Proof. split; reflexivity. Qed.

Notation pev2 := (peval z2 xor2 stepW).
(** a map that is additive and vanishes on all powers of two vanishes on all words *)
Lemma additive_zero {V} (v0 : V) (vadd : V -> V -> V) (g : N -> V) :
  (forall a b, g (N.lxor a b) = vadd (g a) (g b)) -> (forall a, vadd v0 a = a) -> g 0 = v0 ->
  forall n, (forall i, (i < n)%nat -> g (2 ^ N.of_nat i) = v0) -> forall x, x < 2 ^ N.of_nat n -> g x = v0.
Proof.
  intros Ga V0 G0. induction n as [|n IH]; intros H x Hx.
  - cbn in Hx. replace x with 0 by lia. exact G0.
  - destruct (N.lt_ge_cases x (2 ^ N.of_nat n)) as [L|L]; [apply IH; [intros; apply H; lia|exact L]|].
    rewrite Nat2N.inj_succ, N.pow_succ_r' in Hx.
    assert (E : x = N.lxor (2 ^ N.of_nat n) (x mod 2 ^ N.of_nat n)).
    { apply N.bits_inj. intros i. rewrite N.lxor_spec, N.pow2_bits_eqb.
      assert (Q : x / 2 ^ N.of_nat n = 1). { symmetry. apply N.div_unique with (r := x - 2 ^ N.of_nat n); lia. }
      destruct (N.lt_trichotomy i (N.of_nat n)) as [C|[C|C]].
      - rewrite N.mod_pow2_bits_low by exact C. rewrite (proj2 (N.eqb_neq _ _)) by lia. symmetry; apply xorb_false_l.
      - subst i. rewrite N.eqb_refl, N.mod_pow2_bits_high by lia. pose proof (N.div_pow2_bits x (N.of_nat n) 0) as B. rewrite Q, N.add_0_l in B. rewrite <- B. reflexivity.
      - rewrite N.mod_pow2_bits_high by lia. rewrite (proj2 (N.eqb_neq _ _)) by lia.
        pose proof (N.div_pow2_bits x (N.of_nat n) (i - N.of_nat n)) as B. rewrite Q in B. replace (i - N.of_nat n + N.of_nat n) with i in B by lia. rewrite <- B.
        destruct (i - N.of_nat n) as [|p] eqn:P; [lia|]. cbn. destruct p; reflexivity. }
    rewrite E, Ga, (H n) by lia. rewrite V0. apply IH; [intros; apply H; lia|]. apply N.mod_lt. apply N.pow_nonzero. discriminate.
Qed.

Definition P128 : N := 340808024664656551940088912187419115521.
Lemma pev2_lin p a b : pev2 p (xor2 a b) = xor2 (pev2 p a) (pev2 p b).
Proof.
  destruct p as [|p]; cbn [peval]; [symmetry; apply xor2_self|]. revert a b. induction p as [p IH|p IH|]; intros a b; cbn [pevalp].
  - rewrite stepW_lin, IH. rewrite !xor2_assoc. f_equal. rewrite <- !xor2_assoc. f_equal. apply xor2_comm.
  - rewrite stepW_lin, IH. reflexivity.
  - reflexivity.
Qed.
(** the same map with masks instead of remainders, for evaluation *)
Definition mask : N := 18446744073709551615.
Definition shlF (x k : N) : N := N.land (N.shiftl x k) mask.
Definition stepF (s : st2) : st2 :=
  let s0 := N.land (fst s) mask in
  let s1 := N.lxor (N.land (snd s) mask) s0 in
  (N.lxor (N.lxor (N.lor (shlF s0 55) (N.shiftr s0 9)) s1) (shlF s1 14), N.lor (shlF s1 36) (N.shiftr s1 28)).
Lemma mask_mod x : N.land x mask = x mod W.
Proof. change mask with (N.ones 64). rewrite N.land_ones. reflexivity. Qed.
Lemma stepF_eq s : stepF s = stepW s.
Proof. unfold stepF, stepW, xoro_step, rot, wshl, wshr, shlF. cbv zeta. cbn [fst snd]. rewrite !mask_mod. reflexivity. Qed.
Lemma peval_ext {V} v0 (vadd : V -> V -> V) (M M' : V -> V) : (forall v, M v = M' v) -> forall p v, peval v0 vadd M p v = peval v0 vadd M' p v.
Proof.
  intros E [|p] v; [reflexivity|]. cbn [peval]. revert v. induction p as [p IH|p IH|]; intros v; cbn [pevalp]; rewrite ?E, ?IH; reflexivity.
Qed.
Lemma P128_basisF : forallb (fun i => match peval z2 xor2 stepF P128 (2 ^ N.of_nat i, 0), peval z2 xor2 stepF P128 (0, 2 ^ N.of_nat i) with (0, 0), (0, 0) => true | _, _ => false end) (seq 0 64) = true.
Proof. vm_compute. reflexivity. Qed.
Lemma P128_basis i : (i < 64)%nat -> pev2 P128 (2 ^ N.of_nat i, 0) = z2 /\ pev2 P128 (0, 2 ^ N.of_nat i) = z2.
Proof.
  intros Hi. pose proof P128_basisF as B. rewrite forallb_forall in B. specialize (B i ltac:(apply in_seq; lia)).
  rewrite !(peval_ext z2 xor2 stepF stepW stepF_eq) in B.
  destruct (pev2 P128 (2 ^ N.of_nat i, 0)) as [[|?] [|?]]; try discriminate; destruct (pev2 P128 (0, 2 ^ N.of_nat i)) as [[|?] [|?]]; try discriminate. split; reflexivity.
Qed.
Lemma P128_zero s : inV2 s -> pev2 P128 s = z2.
Proof.
  intros [H0 H1]. 
  assert (Es : s = xor2 (fst s, 0) (0, snd s)). { unfold xor2. cbn [fst snd]. rewrite N.lxor_0_r, N.lxor_0_l. destruct s; reflexivity. }
  assert (Z0 : pev2 P128 (0, 0) = z2). { pose proof (pev2_lin P128 (0, 0) (0, 0)) as K. rewrite xor2_self in K. exact K. }
  rewrite Es, pev2_lin.
  assert (A : pev2 P128 (fst s, 0) = z2).
  { apply (additive_zero z2 xor2 (fun x => pev2 P128 (x, 0))) with (n := 64%nat).
    - intros a b. rewrite <- pev2_lin. unfold xor2. cbn [fst snd]. rewrite N.lxor_0_l. reflexivity.
    - exact xor2_0.
    - exact Z0.
    - intros i Hi. apply P128_basis. exact Hi.
    - exact H0. }
  assert (B : pev2 P128 (0, snd s) = z2).
  { apply (additive_zero z2 xor2 (fun x => pev2 P128 (0, x))) with (n := 64%nat).
    - intros a b. rewrite <- pev2_lin. unfold xor2. cbn [fst snd]. rewrite N.lxor_0_l. reflexivity.
    - exact xor2_0.
    - exact Z0.
    - intros i Hi. apply P128_basis. exact Hi.
    - exact H1. }
  rewrite A, B. apply xor2_self.
Qed.

(** iteration of the actual step function *)
Lemma iter_stepW k s : inV2 s -> N.iter k stepW s = N.iter k xoro_step s /\ inV2 (N.iter k xoro_step s).
Proof.
  intros H. induction k as [|k IH] using N.peano_ind; [split; [reflexivity|exact H]|]. rewrite !N.iter_succ. destruct IH as [-> I].
  split; [apply stepW_eq; exact I|apply step_in; exact I].
Qed.
Notation pow128 := (powxp P128 128).
Notation mul128 := (mulmod P128 128).
Lemma pev2_pow k s : inV2 s -> pev2 (pow128 k) s = N.iter (Npos k) xoro_step s.
Proof.
  intros H. destruct (iter_stepW (Npos k) s H) as [E _].
  rewrite (peval_powxp z2 xor2 stepW inV2 xor2_assoc xor2_comm xor2_0 xor2_self stepW_lin (fun a _ => stepW_in a) P128 128 P128_zero k s H).
  exact E.
Qed.
Lemma pev2_mul p q s : inV2 s -> pev2 (mul128 p q) s = pev2 p (pev2 q s).
Proof. intros H. apply (peval_mulmod z2 xor2 stepW inV2 xor2_assoc xor2_comm xor2_0 xor2_self stepW_lin P128 128 P128_zero); exact H. Qed.
Lemma pev2_lxor p q s : pev2 (N.lxor p q) s = xor2 (pev2 p s) (pev2 q s).
Proof. apply peval_lxor; [exact xor2_assoc|exact xor2_comm|exact xor2_0|exact xor2_self]. Qed.

Definition n128 : N := 340282366920938463463374607431768211455.   (* 2^128-1 *)
Definition primes128 : list N := [3; 5; 17; 257; 641; 65537; 274177; 6700417; 67280421310721].
(** inverse of x^(n/p)+1 modulo P128 for each prime p: (p, n/p, inverse) *)
Definition cert128 : list (N * positive * N) :=
 [ (3, 113427455640312821154458202477256070485%positive, 0xff8cefb76846895353ca0f0fe69d9ac1);
   (5, 68056473384187692692674921486353642291%positive, 0x44746645e1e994f5f0fe77cc421dfaaa);
   (17, 20016609818878733144904388672456953615%positive, 0x32c47704c6cdf7931acf2a818a19f62d);
   (257, 1324055902416102970674609367438786815%positive, 0x96f288cba5870497fd983bf5d14bdbeb);
   (641, 530861726865738632548166314246128255%positive, 0xa7e437605ed5e3ae3e409dba24fc1dcd);
   (65537, 5192217631581220737344928932233215%positive, 0xecb57a9ef6f5a6fff4387293b32f3b0c);
   (274177, 1241104713090224429705535502364415%positive, 0xe9e260cf9faf324aeb4d0d5da638cf50);
   (6700417, 50785252159819077448966923615615%positive, 0x14ca8334099b25f5a6585d516b1fd6f1);
   (67280421310721, 5057672949897463733145855%positive, 0x139bd4d8ba1f6134c128219c7d36e79d) ].
Lemma cert128_ok : forallb (fun c => match c with (p, k, i) => (n128 / p =? Npos k) && (mul128 i (N.lxor (pow128 k) 1) =? 1) end) cert128 = true.
Proof. vm_compute. reflexivity. Qed.
Lemma full128 : pow128 340282366920938463463374607431768211455 = 1.
Proof. vm_compute. reflexivity. Qed.
Lemma jump128 : pow128 18446744073709551616 = 0xd86b048b86aa9922beac0467eba5facb.
Proof. vm_compute. reflexivity. Qed.

Lemma pev2_in p s : inV2 s -> inV2 (pev2 p s).
Proof. apply peval_in; [intros; apply stepW_in|exact inV2_add|exact inV2_0]. Qed.
Lemma pev2_0 p : pev2 p z2 = z2.
Proof. pose proof (pev2_lin p z2 z2) as K. rewrite !xor2_self in K. exact K. Qed.

(** primality of the factors of 2^128-1 *)
Ltac trial B := apply (Nprime_trial _ B); [reflexivity|reflexivity|vm_compute; reflexivity].
Lemma prime_2 : Nprime 2. Proof. trial 0%nat. Qed.
Lemma prime_3 : Nprime 3. Proof. trial 0%nat. Qed.
Lemma prime_5 : Nprime 5. Proof. trial 1%nat. Qed.
Lemma prime_17 : Nprime 17. Proof. trial 3%nat. Qed.
Lemma prime_257 : Nprime 257. Proof. trial 15%nat. Qed.
Lemma prime_641 : Nprime 641. Proof. trial 24%nat. Qed.
Lemma prime_65537 : Nprime 65537. Proof. trial 255%nat. Qed.
Lemma prime_274177 : Nprime 274177. Proof. trial 522%nat. Qed.
Lemma prime_6700417 : Nprime 6700417. Proof. trial 2588%nat. Qed.
Lemma prime_2998279 : Nprime 2998279. Proof. trial 1731%nat. Qed.
Lemma prime_big : Nprime 67280421310721.
Proof.
  apply (pocklington 67280421310721 3 2 2998279 8 1 767559424).
  - reflexivity.
  - exact prime_2.
  - exact prime_2998279.
  - exists 262814145745; reflexivity.
  - exists 22439680; vm_compute; reflexivity.
  - reflexivity.
  - reflexivity.
  - reflexivity.
  - vm_compute; reflexivity.
  - change (67280421310721 - 1) with (Npos 67280421310720). rewrite <- powmodp_ok by discriminate. vm_compute; reflexivity.
  - change ((67280421310721 - 1) / 2) with (Npos 33640210655360). rewrite <- powmodp_ok by discriminate. vm_compute. split; [reflexivity|discriminate].
  - change ((67280421310721 - 1) / 2998279) with (Npos 22439680). rewrite <- powmodp_ok by discriminate. vm_compute. split; [reflexivity|discriminate].
  - reflexivity.
Qed.
Lemma primes128_ok : Forall Nprime primes128.
Proof.
  exact (Forall_cons _ prime_3 (Forall_cons _ prime_5 (Forall_cons _ prime_17 (Forall_cons _ prime_257 (Forall_cons _ prime_641
    (Forall_cons _ prime_65537 (Forall_cons _ prime_274177 (Forall_cons _ prime_6700417 (Forall_cons _ prime_big (Forall_nil _)))))))))).
Qed.
Lemma primes128_prod : fold_right N.mul 1 primes128 = n128. Proof. vm_compute. reflexivity. Qed.

Theorem xoro_period s : inV2 s -> s <> z2 -> forall k, N.iter k xoro_step s = s <-> (n128 | k).
Proof.
  intros Hs Nz. apply (exact_period xoro_step s n128 primes128).
  - reflexivity.
  - unfold fix_at. change n128 with (Npos 340282366920938463463374607431768211455). rewrite <- pev2_pow, full128 by exact Hs. reflexivity.
  - rewrite <- primes128_prod. apply product_primes. exact primes128_ok.
  - intros p Ip. assert (exists k i, In (p, k, i) cert128) as (k & i & Ic).
    { unfold primes128 in Ip. unfold cert128. cbn [In] in Ip |- *. repeat (destruct Ip as [<-|Ip]; [eexists; eexists; tauto|]). destruct Ip. }
    pose proof cert128_ok as C. rewrite forallb_forall in C. specialize (C _ Ic). cbn beta iota in C. apply andb_prop in C. destruct C as [C1 C2].
    apply N.eqb_eq in C1, C2. unfold fix_at. rewrite C1. intros F. rewrite <- pev2_pow in F by exact Hs.
    apply Nz. change s with (pev2 1 s). rewrite <- C2, pev2_mul, pev2_lxor, F by exact Hs. change (pev2 1 s) with s. rewrite xor2_self. apply pev2_0.
Qed.

(** jump: the bits of the two constants are the coefficients of x^(2^64) modulo P128 *)
Fixpoint pbits (l : list bool) : N := match l with [] => 0 | true :: r => N.succ_double (pbits r) | false :: r => N.double (pbits r) end.
Definition bit_step (a : st2 * st2) (b : bool) : st2 * st2 := ((if b then xor2 (fst a) (snd a) else fst a), xoro_step (snd a)).
Lemma bit_steps l acc s : inV2 s -> fst (fold_left bit_step l (acc, s)) = xor2 acc (pev2 (pbits l) s).
Proof.
  revert acc s. induction l as [|b l IH]; intros acc s H; cbn [fold_left pbits].
  - cbn. rewrite xor2_comm, xor2_0. reflexivity.
  - unfold bit_step at 2. cbn [fst snd]. rewrite IH by (apply step_in; exact H). rewrite <- (stepW_eq s H). destruct b.
    + rewrite (peval_sdouble z2 xor2 stepW xor2_comm xor2_0). rewrite xor2_assoc. reflexivity.
    + rewrite peval_double. reflexivity.
Qed.
Definition wbits (w : N) : list bool := map (fun b => N.testbit w (N.of_nat b)) (seq 0 64).
Lemma jump_word w a : fold_left (jump_bit w) (seq 0 64) a = fold_left bit_step (wbits w) a.
Proof.
  unfold wbits. revert a. induction (seq 0 64) as [|b l IH]; intros a; [reflexivity|]. cbn [fold_left map]. rewrite <- IH. f_equal.
  unfold jump_bit, bit_step. destruct a. reflexivity.
Qed.
Lemma fold_flat_map {A B C} (f : A -> list B) (g : C -> B -> C) l : forall a, fold_left (fun x w => fold_left g (f w) x) l a = fold_left g (flat_map f l) a.
Proof. induction l as [|x l IH]; intros a; [reflexivity|]. cbn [fold_left flat_map]. rewrite fold_left_app. apply IH. Qed.
Lemma fold_ext {A B} (g h : A -> B -> A) l : (forall a b, g a b = h a b) -> forall a, fold_left g l a = fold_left h l a.
Proof. intros E. induction l as [|x l IH]; intros a; [reflexivity|]. cbn [fold_left]. rewrite E. apply IH. Qed.
Lemma jump_bits : pbits (flat_map wbits JUMP) = 0xd86b048b86aa9922beac0467eba5facb.
Proof. vm_compute. reflexivity. Qed.
Theorem xoro_jump_eq s : inV2 s -> xoro_jump s = N.iter (2 ^ 64) xoro_step s.
Proof.
  intros H. unfold xoro_jump. rewrite (fold_ext _ (fun a w => fold_left bit_step (wbits w) a)) by (intros; apply jump_word).
  rewrite fold_flat_map, bit_steps by exact H. rewrite xor2_0, jump_bits, <- jump128, pev2_pow by exact H. reflexivity.
Qed.
Lemma jump_in s : inV2 s -> inV2 (xoro_jump s).
Proof. intros H. rewrite xoro_jump_eq by exact H. apply iter_stepW. exact H. Qed.
