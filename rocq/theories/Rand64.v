(** Exact period of the xorshift64* generator (same method as in RandLin). *)
From Verif Require Import Words RandModel Gf2 Order RandLin.
Local Open Scope N_scope.

Lemma xs64_lin a b : xs64_step (N.lxor a b) = N.lxor (xs64_step a) (xs64_step b).
Proof.
  unfold xs64_step. cbv zeta. rewrite (wshr_lin a b), lx4. set (x := N.lxor a (wshr a 12)). set (y := N.lxor b (wshr b 12)).
  rewrite (wshl_lin x y), lx4. set (x' := N.lxor x _). set (y' := N.lxor y _). rewrite wshr_lin, lx4. reflexivity.
Qed.
Lemma xs64_in a : word a -> word (xs64_step a).
Proof.
  intros H. unfold xs64_step. cbv zeta. assert (H1 : word (N.lxor a (wshr a 12))) by (apply word_lxor; [exact H|apply word_shr; exact H]).
  set (x := N.lxor a _) in *. assert (H2 : word (N.lxor x (wshl x 25))) by (apply word_lxor; [exact H1|apply wshl_word]).
  apply word_lxor; [exact H2|apply word_shr; exact H2].
Qed.
Definition xs64F (x : N) : N :=
  let x := N.lxor x (N.shiftr x 12) in let x := N.lxor x (shlF x 25) in N.lxor x (N.shiftr x 27).
Lemma xs64F_eq x : xs64F x = xs64_step x.
Proof. unfold xs64F, xs64_step, wshr, wshl, shlF. cbv zeta. rewrite mask_mod. reflexivity. Qed.

Definition P64 : N := 0x10018b73aa7cc9b71.
Notation pev1 := (peval 0 N.lxor xs64_step).
Lemma la a b c : N.lxor a (N.lxor b c) = N.lxor (N.lxor a b) c. Proof. symmetry. apply N.lxor_assoc. Qed.
Lemma P64_basisF : forallb (fun i => peval 0 N.lxor xs64F P64 (2 ^ N.of_nat i) =? 0) (seq 0 64) = true.
Proof. vm_compute. reflexivity. Qed.
Lemma pev1_lin p a b : pev1 p (N.lxor a b) = N.lxor (pev1 p a) (pev1 p b).
Proof.
  destruct p as [|p]; cbn [peval]; [reflexivity|]. revert a b. induction p as [p IH|p IH|]; intros a b; cbn [pevalp].
  - rewrite xs64_lin, IH. apply lx4.
  - rewrite xs64_lin, IH. reflexivity.
  - reflexivity.
Qed.
Lemma P64_zero s : word s -> pev1 P64 s = 0.
Proof.
  intros H. apply (additive_zero 0 N.lxor (pev1 P64)) with (n := 64%nat).
  - apply pev1_lin.
  - exact N.lxor_0_l.
  - pose proof (pev1_lin P64 0 0) as K. rewrite N.lxor_nilpotent in K. cbn [N.lxor] in K. exact K.
  - intros i Hi. pose proof P64_basisF as B. rewrite forallb_forall in B. specialize (B i ltac:(apply in_seq; lia)).
    rewrite (peval_ext 0 N.lxor xs64F xs64_step xs64F_eq) in B. apply N.eqb_eq. exact B.
  - exact H.
Qed.
Notation pow64 := (powxp P64 64).
Notation mul64 := (mulmod P64 64).
Lemma pev1_pow k s : word s -> pev1 (pow64 k) s = N.iter (Npos k) xs64_step s.
Proof. intros H. apply (peval_powxp 0 N.lxor xs64_step word la N.lxor_comm N.lxor_0_l N.lxor_nilpotent xs64_lin xs64_in P64 64 P64_zero k s H). Qed.
Lemma pev1_mul p q s : word s -> pev1 (mul64 p q) s = pev1 p (pev1 q s).
Proof. intros H. apply (peval_mulmod 0 N.lxor xs64_step word la N.lxor_comm N.lxor_0_l N.lxor_nilpotent xs64_lin P64 64 P64_zero p q s H). Qed.
Lemma pev1_lxor p q s : pev1 (N.lxor p q) s = N.lxor (pev1 p s) (pev1 q s).
Proof. apply peval_lxor; [exact la|exact N.lxor_comm|exact N.lxor_0_l|exact N.lxor_nilpotent]. Qed.
Lemma pev1_0 p : pev1 p 0 = 0.
Proof. pose proof (pev1_lin p 0 0) as K. rewrite !N.lxor_nilpotent in K. exact K. Qed.

Definition n64 : N := 18446744073709551615.
Definition primes64 : list N := [3; 5; 17; 257; 641; 65537; 6700417].
Definition cert64 : list (N * positive * N) :=
 [ (3, 6148914691236517205%positive, 0x60e71579575698b8); (5, 3689348814741910323%positive, 0x2dfd563d8df4dacb);
   (17, 1085102592571150095%positive, 0x0e1abb9b6d5614b7); (257, 71777214294589695%positive, 0x1934106f6e3c47a3);
   (641, 28778071877862015%positive, 0x52d7e7e1fc2212ef); (65537, 281470681808895%positive, 0x6e23c80b59c2baa2);
   (6700417, 2753074036095%positive, 0x77bd2fdf157c6fc9) ].
Lemma cert64_ok : forallb (fun c => match c with (p, k, i) => (n64 / p =? Npos k) && (mul64 i (N.lxor (pow64 k) 1) =? 1) end) cert64 = true.
Proof. vm_compute. reflexivity. Qed.
Lemma full64 : pow64 18446744073709551615 = 1. Proof. vm_compute. reflexivity. Qed.
Lemma primes64_ok : Forall Nprime primes64.
Proof.
  exact (Forall_cons _ prime_3 (Forall_cons _ prime_5 (Forall_cons _ prime_17 (Forall_cons _ prime_257 (Forall_cons _ prime_641
    (Forall_cons _ prime_65537 (Forall_cons _ prime_6700417 (Forall_nil _)))))))).
Qed.
Lemma primes64_prod : fold_right N.mul 1 primes64 = n64. Proof. vm_compute. reflexivity. Qed.
Theorem xs64_period s : word s -> s <> 0 -> forall k, N.iter k xs64_step s = s <-> (n64 | k).
Proof.
  intros Hs Nz. apply (exact_period xs64_step s n64 primes64).
  - reflexivity.
  - unfold fix_at. change n64 with (Npos 18446744073709551615). rewrite <- pev1_pow, full64 by exact Hs. reflexivity.
  - rewrite <- primes64_prod. apply product_primes. exact primes64_ok.
  - intros p Ip. assert (exists k i, In (p, k, i) cert64) as (k & i & Ic).
    { unfold primes64 in Ip. unfold cert64. cbn [In] in Ip |- *. repeat (destruct Ip as [<-|Ip]; [eexists; eexists; tauto|]). destruct Ip. }
    pose proof cert64_ok as C. rewrite forallb_forall in C. specialize (C _ Ic). cbn beta iota in C. apply andb_prop in C. destruct C as [C1 C2].
    apply N.eqb_eq in C1, C2. unfold fix_at. rewrite C1. intros F. rewrite <- pev1_pow in F by exact Hs.
    apply Nz. change s with (pev1 1 s). rewrite <- C2, pev1_mul, pev1_lxor, F by exact Hs. change (pev1 1 s) with s. rewrite N.lxor_nilpotent. apply pev1_0.
Qed.
