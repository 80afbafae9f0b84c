(** Exact periods of iterated maps, and the primes needed for 2^64-1 and 2^128-1. *)
From Coq Require Import NArith Lia Bool List.
Import ListNotations.
Local Open Scope N_scope.

Definition Nprime (p : N) : Prop := 1 < p /\ forall d, (d | p) -> d = 1 \/ d = p.

Lemma Ndivide_le a b : (a | b) -> b <> 0 -> a <= b.
Proof. intros [c ->] H. destruct c; [lia|]. nia. Qed.
Lemma Nprime_trial p (B : nat) : 1 < p -> p < (N.of_nat B + 2) * (N.of_nat B + 2) ->
  forallb (fun d => negb (p mod N.of_nat d =? 0)) (seq 2 B) = true -> Nprime p.
Proof.
  intros Hp HB T. split; [exact Hp|].
  assert (S : forall d, 1 < d -> d < N.of_nat B + 2 -> ~ (d | p)).
  { intros d H1 H2 C. rewrite forallb_forall in T. specialize (T (N.to_nat d)). rewrite N2Nat.id in T.
    assert (G : In (N.to_nat d) (seq 2 B)) by (apply in_seq; lia). apply T in G. apply negb_true_iff, N.eqb_neq in G.
    apply G. apply N.mod_divide; [lia|exact C]. }
  intros d [c Hc]. assert (d <> 0) by (intros ->; nia). assert (c <> 0) by (intros ->; nia).
  destruct (N.eq_dec d 1) as [E|N1]; [auto|]. destruct (N.eq_dec c 1) as [->|N2]; [right; lia|]. exfalso.
  destruct (N.lt_ge_cases d (N.of_nat B + 2)) as [G|G]; [apply (S d); [lia|exact G|exists c; exact Hc]|].
  destruct (N.lt_ge_cases c (N.of_nat B + 2)) as [G2|G2]; [apply (S c); [lia|exact G2|exists d; lia]|]. nia.
Qed.
Lemma prime_coprime p c : Nprime p -> ~ (p | c) -> N.gcd p c = 1.
Proof.
  intros [_ H] N. destruct (H (N.gcd p c) (N.gcd_divide_l p c)) as [E|E]; [exact E|]. exfalso. apply N. rewrite <- E. apply N.gcd_divide_r.
Qed.
Lemma prime_mul p a b : Nprime p -> (p | a * b) -> (p | a) \/ (p | b).
Proof.
  intros H D. destruct (N.eq_dec (a mod p) 0) as [E|E].
  - left. apply N.mod_divide; [destruct H; lia|exact E].
  - right. apply (N.gauss p a b D). apply prime_coprime; [exact H|]. intros C. apply E. apply N.mod_divide; [destruct H; lia|exact C].
Qed.
Lemma prime_pow_divides p e g c : Nprime p -> (p ^ e | g * c) -> ~ (p | c) -> (p ^ e | g).
Proof.
  intros H D N. apply (N.gauss (p ^ e) c g). { rewrite N.mul_comm. exact D. }
  revert c D N. induction e as [|e IH] using N.peano_ind; intros c D N; [rewrite N.pow_0_r; apply N.gcd_1_l|].
  assert (G : forall x y, N.gcd x c = 1 -> N.gcd y c = 1 -> N.gcd (x * y) c = 1).
  { intros x y Gx Gy. set (g' := N.gcd (x * y) c). assert (D1 : (g' | x * y)) by apply N.gcd_divide_l. assert (D2 : (g' | c)) by apply N.gcd_divide_r.
    assert (D3 : N.gcd g' x = 1).
    { assert (K : (N.gcd g' x | N.gcd x c)). { apply N.gcd_greatest; [apply N.gcd_divide_r|]. eapply N.divide_trans; [apply N.gcd_divide_l|exact D2]. }
      rewrite Gx in K. apply N.divide_1_r in K. exact K. }
    pose proof (N.gauss g' x y D1 D3) as D4. assert (K : (g' | N.gcd y c)) by (apply N.gcd_greatest; assumption). rewrite Gy in K. apply N.divide_1_r in K. exact K. }
  rewrite N.pow_succ_r'. apply G; [apply prime_coprime; assumption|]. apply IH; [|exact N].
  eapply N.divide_trans; [|exact D]. exists p. rewrite N.pow_succ_r'. reflexivity.
Qed.
Lemma prime_divisor c : 1 < c -> exists p, Nprime p /\ (p | c).
Proof.
  induction c as [c IH] using (well_founded_induction N.lt_wf_0). intros H.
  assert (D : (forall d, 1 < d -> d < c -> c mod d <> 0) \/ (exists d, 1 < d /\ d < c /\ c mod d = 0)).
  { clear IH. assert (G : forall n : nat, (forall d, 1 < d -> d < N.of_nat n -> c mod d <> 0) \/ (exists d, 1 < d /\ d < N.of_nat n /\ c mod d = 0)).
    { induction n as [|n IHn]; [left; intros; lia|]. destruct IHn as [A|A].
      - destruct (N.eq_dec (c mod N.of_nat n) 0) as [E|E].
        + destruct (N.lt_ge_cases 1 (N.of_nat n)) as [G|G].
          * right. exists (N.of_nat n). split; [exact G|]. split; [lia|exact E].
          * left. intros d H1 H2. apply A; lia.
        + left. intros d H1 H2. destruct (N.eq_dec d (N.of_nat n)) as [->|]; [exact E|]. apply A; lia.
      - right. destruct A as (d & A1 & A2 & A3). exists d. split; [exact A1|]. split; [lia|exact A3]. }
    specialize (G (N.to_nat c)). rewrite N2Nat.id in G. exact G. }
  destruct D as [D|(d & D1 & D2 & D3)].
  - exists c. split; [|apply N.divide_refl]. split; [exact H|]. intros d Hd. destruct (N.eq_dec d 1) as [|N1]; [auto|]. right.
    pose proof (Ndivide_le d c Hd ltac:(lia)). destruct (N.eq_dec d c) as [|N2]; [assumption|]. exfalso.
    assert (d <> 0) by (intros ->; destruct Hd; lia). apply (D d); [lia|lia|]. apply N.mod_divide; assumption.
  - destruct (IH d D2 D1) as (p & Hp & Hd). exists p. split; [exact Hp|]. eapply N.divide_trans; [exact Hd|]. apply N.mod_divide; [lia|exact D3].
Qed.

(** ---- periods ---- *)
Section Orbit.
  Context {X : Type}.
  Variables (f : X -> X) (v : X).
  Definition fix_at (k : N) : Prop := N.iter k f v = v.
  Lemma iter_add a b (x : X) : N.iter (a + b) f x = N.iter a f (N.iter b f x).
  Proof. apply N.iter_add. Qed.
  Lemma fix_mul k q : fix_at k -> fix_at (q * k).
  Proof.
    intros H. unfold fix_at. induction q as [|q IH] using N.peano_ind; [reflexivity|].
    rewrite N.mul_succ_l, iter_add, H. exact IH.
  Qed.
  Lemma fix_mod j k : k <> 0 -> fix_at j -> fix_at k -> fix_at (j mod k).
  Proof.
    intros K J H. unfold fix_at in *. rewrite (N.div_mod' j k) in J. rewrite N.add_comm, iter_add in J. rewrite N.mul_comm in J.
    rewrite (fix_mul k (j / k) H) in J. exact J.
  Qed.
  Lemma fix_gcd j k : fix_at j -> fix_at k -> fix_at (N.gcd j k).
  Proof.
    revert j. induction k as [k IH] using (well_founded_induction N.lt_wf_0). intros j J K.
    destruct (N.eq_dec k 0) as [->|N0]; [rewrite N.gcd_0_r; exact J|].
    rewrite N.gcd_comm, <- N.gcd_mod by exact N0. rewrite N.gcd_comm. apply IH; [apply N.mod_lt; exact N0|exact K|apply fix_mod; assumption].
  Qed.
  Lemma exact_period n (ps : list N) : 0 < n -> fix_at n -> (forall c, 1 < c -> (c | n) -> exists p, In p ps /\ 0 < p /\ (p | c)) ->
    (forall p, In p ps -> ~ fix_at (n / p)) -> forall k, fix_at k <-> (n | k).
  Proof.
    intros Hn F Hps HN k. split.
    - intros K. pose proof (fix_gcd _ _ F K) as G. destruct (N.gcd_divide_l n k) as [c Hc]. set (g := N.gcd n k) in *.
      assert (c <> 0) by (intros ->; lia). destruct (N.eq_dec c 1) as [->|C1].
      + rewrite N.mul_1_l in Hc. rewrite Hc. apply N.gcd_divide_r.
      + exfalso. destruct (Hps c ltac:(lia)) as (p & Ip & Pp & [c' Hc']). { exists g. lia. }
        apply (HN p Ip). replace (n / p) with (c' * g). { apply fix_mul. exact G. }
        rewrite Hc, Hc'. replace (c' * p * g) with ((c' * g) * p) by lia. rewrite N.div_mul by lia. reflexivity.
    - intros [q ->]. apply fix_mul. exact F.
  Qed.
End Orbit.

(** divisors of a product of listed primes *)
Lemma product_primes ps : Forall Nprime ps -> forall c, 1 < c -> (c | fold_right N.mul 1 ps) -> exists p, In p ps /\ 0 < p /\ (p | c).
Proof.
  intros H c Hc D. destruct (prime_divisor c Hc) as (q & Hq & Dq). pose proof (N.divide_trans _ _ _ Dq D) as D2. clear D.
  assert (G : exists p, In p ps /\ p = q).
  { clear Dq. induction ps as [|p ps IH]; cbn [fold_right] in D2. { destruct Hq. apply N.divide_1_r in D2. lia. }
    inversion H; subst. destruct (prime_mul q p _ Hq D2) as [E|E].
    - exists p. split; [left; reflexivity|]. destruct H2 as [_ H2]. destruct (H2 q E); [destruct Hq; lia|congruence].
    - destruct (IH H3 E) as (p' & I & Ep). exists p'. split; [right; exact I|exact Ep]. }
  destruct G as (p & Ip & ->). exists q. destruct Hq. repeat split; [exact Ip|lia|exact Dq].
Qed.

(** ---- Pocklington-type certificate for the largest prime factor of 2^64+1 ---- *)
Fixpoint powmodp (a : N) (k : positive) (m : N) : N :=
  match k with xH => a mod m | xO k' => let r := powmodp a k' m in (r * r) mod m
  | xI k' => let r := powmodp a k' m in (a * ((r * r) mod m)) mod m end.
Lemma powmodp_ok a k m : m <> 0 -> powmodp a k m = a ^ Npos k mod m.
Proof.
  intros Hm. induction k as [k IH|k IH|]; cbn [powmodp]; cbv zeta.
  - rewrite IH. replace (Npos k~1) with (N.succ (Npos k + Npos k)) by lia. rewrite N.pow_succ_r', N.pow_add_r.
    rewrite <- N.mul_mod by exact Hm. rewrite N.mul_mod_idemp_r by exact Hm. reflexivity.
  - rewrite IH. replace (Npos k~0) with (Npos k + Npos k) by lia. rewrite N.pow_add_r, <- N.mul_mod by exact Hm. reflexivity.
  - rewrite N.pow_1_r. reflexivity.
Qed.
Lemma iter_pow a r k : r <> 0 -> N.iter k (fun x => (a * x) mod r) (1 mod r) = a ^ k mod r.
Proof.
  intros Hr. induction k as [|k IH] using N.peano_ind; [reflexivity|]. rewrite N.iter_succ, IH, N.pow_succ_r', N.mul_mod_idemp_r by exact Hr. reflexivity.
Qed.
Lemma mod_mod_divide x L r : r <> 0 -> L <> 0 -> (r | L) -> (x mod L) mod r = x mod r.
Proof.
  intros Hr HL [c Hc]. rewrite (N.div_mod' x L) at 2. rewrite Hc at 2. rewrite N.add_comm, N.mul_comm, N.mul_assoc, N.mod_add by exact Hr. reflexivity.
Qed.
Lemma NoDup_map_seq {A} (g : nat -> A) s n : (forall i j, (s <= i < j)%nat -> (j < s + n)%nat -> g i <> g j) -> NoDup (map g (seq s n)).
Proof.
  revert s. induction n as [|n IH]; intros s H; cbn [seq map]; [constructor|]. constructor.
  - intros C. apply in_map_iff in C. destruct C as (j & E & I). apply in_seq in I. apply (H s j); [lia|lia|congruence].
  - apply IH. intros i j Hi Hj. apply H; lia.
Qed.

Lemma mul_pred_divide r x y : r <> 0 -> y <> 0 -> x mod r = (x * y) mod r -> (r | x * (y - 1)).
Proof.
  intros Hr Hy E. exists (x * y / r - x / r). pose proof (N.div_mod' (x * y) r) as H1. pose proof (N.div_mod' x r) as H2. rewrite <- E in H1.
  rewrite N.mul_sub_distr_l, N.mul_sub_distr_r, N.mul_1_r. remember (x * y) as z eqn:Ez. clear E Ez.
  remember (x mod r) as m. rewrite (N.mul_comm _ r), (N.mul_comm (x / r) r). lia.
Qed.
Section Pock.
  (** a^(L-1) = 1 mod L, and for each listed prime power q^e dividing L-1: gcd(a^((L-1)/q)-1, L)=1 *)
  Variables (L a q1 q2 e1 e2 F : N).
  Hypothesis HL : 2 < L.
  Hypothesis Hq1 : Nprime q1.
  Hypothesis Hq2 : Nprime q2.
  Hypothesis D1 : (q1 ^ e1 | L - 1).
  Hypothesis D2 : (q2 ^ e2 | L - 1).
  Hypothesis E1 : 0 < e1.
  Hypothesis E2 : 0 < e2.
  Hypothesis HF : F = q1 ^ e1 * q2 ^ e2.
  Hypothesis Hcop : N.gcd (q1 ^ e1) (q2 ^ e2) = 1.
  Hypothesis Hfer : a ^ (L - 1) mod L = 1.
  Hypothesis Hg1 : N.gcd (a ^ ((L - 1) / q1) mod L - 1) L = 1 /\ a ^ ((L - 1) / q1) mod L <> 0.
  Hypothesis Hg2 : N.gcd (a ^ ((L - 1) / q2) mod L - 1) L = 1 /\ a ^ ((L - 1) / q2) mod L <> 0.
  Hypothesis Hsq : L < F * F.

  Section R.
    Variable r : N.
    Hypothesis Hr : 1 < r.
    Hypothesis Dr : (r | L).
    Let S (k : N) : Prop := a ^ k mod r = 1.
    Lemma r0 : r <> 0. Proof. lia. Qed.
    Lemma S_fix k : S k <-> fix_at (fun x => (a * x) mod r) (1 mod r) k.
    Proof. unfold S, fix_at. rewrite iter_pow by exact r0. rewrite (N.mod_small 1 r) by lia. reflexivity. Qed.
    Lemma S_L1 : S (L - 1).
    Proof. unfold S. rewrite <- (mod_mod_divide _ L r r0 ltac:(lia) Dr), Hfer. apply N.mod_small. lia. Qed.
    Lemma no_S q : N.gcd (a ^ ((L - 1) / q) mod L - 1) L = 1 /\ a ^ ((L - 1) / q) mod L <> 0 -> ~ S ((L - 1) / q).
    Proof.
      intros [G N] C. unfold S in C. rewrite <- (mod_mod_divide _ L r r0 ltac:(lia) Dr) in C. set (x := a ^ ((L - 1) / q) mod L) in *.
      assert (D : (r | x - 1)). { exists (x / r). pose proof (N.div_mod' x r). rewrite C in H. nia. }
      assert (K : (r | N.gcd (x - 1) L)) by (apply N.gcd_greatest; assumption). rewrite G in K. apply N.divide_1_r in K. lia.
    Qed.
    Lemma S_mult q e k : Nprime q -> 0 < e -> (q ^ e | L - 1) -> ~ S ((L - 1) / q) -> S k -> (q ^ e | N.gcd (L - 1) k).
    Proof.
      intros Pq He Dq Ns Sk. set (g := N.gcd (L - 1) k). assert (Sg : S g). { apply S_fix. apply fix_gcd; apply S_fix; [exact S_L1|exact Sk]. }
      destruct (N.gcd_divide_l (L - 1) k) as [c Hc]. fold g in Hc.
      apply (prime_pow_divides q e g c Pq). { rewrite N.mul_comm, <- Hc. exact Dq. }
      intros [c' Hc']. apply Ns. apply S_fix. replace ((L - 1) / q) with (c' * g). { apply fix_mul. apply S_fix. exact Sg. }
      rewrite Hc, Hc'. replace (c' * q * g) with ((c' * g) * q) by lia. rewrite N.div_mul; [reflexivity|]. destruct Pq; lia.
    Qed.
    Lemma F_le k : 0 < k -> S k -> F <= k.
    Proof.
      intros Hk Sk. pose proof (S_mult q1 e1 k Hq1 E1 D1 (no_S q1 Hg1) Sk) as A. pose proof (S_mult q2 e2 k Hq2 E2 D2 (no_S q2 Hg2) Sk) as B.
      destruct A as [x Hx]. rewrite Hx in B. rewrite N.mul_comm in B. apply N.gauss in B; [|rewrite N.gcd_comm; exact Hcop]. destruct B as [y Hy].
      assert (K : (F | k)). { eapply N.divide_trans; [|apply (N.gcd_divide_r (L - 1) k)]. exists y. rewrite Hx, Hy, HF. lia. }
      apply Ndivide_le; [exact K|lia].
    Qed.
    Lemma F_lt : F < r.
    Proof.
      destruct (N.lt_ge_cases F r) as [G|G]; [exact G|]. exfalso.
      set (g := fun i : nat => a ^ N.of_nat i mod r).
      assert (IV : forall i, N.gcd (a ^ i) r = 1).
      { intros i. assert (X : (a ^ i * a ^ (i * (L - 2))) mod r = 1).
        { rewrite <- N.pow_add_r. replace (i + i * (L - 2)) with (i * (L - 1)) by nia. apply S_fix. apply fix_mul. apply S_fix. exact S_L1. }
        set (d := N.gcd (a ^ i) r). assert (Dd : (d | 1)).
        { assert (Y : a ^ i * a ^ (i * (L - 2)) = r * ((a ^ i * a ^ (i * (L - 2))) / r) + 1) by (pose proof (N.div_mod' (a ^ i * a ^ (i * (L - 2))) r) as Y; rewrite X in Y; exact Y).
          apply (N.divide_add_cancel_r d (r * ((a ^ i * a ^ (i * (L - 2))) / r)) 1).
          - apply N.divide_mul_l. apply N.gcd_divide_r.
          - rewrite <- Y. apply N.divide_mul_l. apply N.gcd_divide_l. }
        apply N.divide_1_r in Dd. exact Dd. }
      assert (ND : NoDup (map g (seq 0 (N.to_nat r)))).
      { apply NoDup_map_seq. intros i j Hi Hj E. unfold g in E.
        assert (Sk : S (N.of_nat j - N.of_nat i)).
        { unfold S. set (k := N.of_nat j - N.of_nat i) in *. assert (Ek : N.of_nat j = N.of_nat i + k) by (clear - Hi; unfold k; lia). rewrite Ek in E. rewrite N.pow_add_r in E.
          set (x := a ^ N.of_nat i) in *. set (y := a ^ k) in *.
          (* x = x*y mod r, gcd x r = 1 *)
          assert (Y0 : y <> 0). { intros Y0. rewrite Y0, N.mul_0_r, N.mod_0_l in E by exact r0. pose proof (IV (N.of_nat i)) as G1. fold x in G1.
            assert (C : (r | N.gcd x r)). { apply N.gcd_greatest; [apply N.mod_divide; [exact r0|exact E]|apply N.divide_refl]. } rewrite G1 in C. apply N.divide_1_r in C. lia. }
          assert (D : (r | x * (y - 1))).
          { apply mul_pred_divide; [exact r0|exact Y0|exact E]. }
          apply N.gauss in D; [|rewrite N.gcd_comm; apply (IV (N.of_nat i))]. destruct D as [c Hc].
          assert (Ey : y = 1 + c * r) by (clear - Hc Y0; lia). rewrite Ey. rewrite N.mod_add by exact r0. apply N.mod_small. lia. }
        assert (Kp : 0 < N.of_nat j - N.of_nat i) by (clear - Hi; lia). pose proof (F_le _ Kp Sk) as Kf. clear - Kf Hi Hj G. lia. }
      assert (IN : incl (map g (seq 0 (N.to_nat r))) (map N.of_nat (seq 1 (N.to_nat r - 1)))).
      { intros x Hx. apply in_map_iff in Hx. destruct Hx as (i & <- & Hi). apply in_map_iff. exists (N.to_nat (g i)). split; [apply N2Nat.id|].
        apply in_seq. pose proof (N.mod_lt (a ^ N.of_nat i) r r0). fold (g i) in H.
        assert (g i <> 0). { intros Z0. unfold g in Z0. assert (C : (r | N.gcd (a ^ N.of_nat i) r)) by (apply N.gcd_greatest; [apply N.mod_divide; [exact r0|exact Z0]|apply N.divide_refl]).
          rewrite IV in C. apply N.divide_1_r in C. lia. }
        lia. }
      pose proof (NoDup_incl_length ND IN) as Len. rewrite !map_length, !seq_length in Len. lia.
    Qed.
  End R.
  Lemma pocklington : Nprime L.
  Proof.
    split; [lia|]. intros d [c Hc]. assert (d <> 0) by (intros ->; lia). assert (c <> 0) by (intros ->; lia).
    destruct (N.eq_dec d 1) as [|N1]; [auto|]. destruct (N.eq_dec c 1) as [->|N2]; [right; lia|]. exfalso.
    pose proof (F_lt d ltac:(lia) ltac:(exists c; exact Hc)) as Y1. pose proof (F_lt c ltac:(lia) ltac:(exists d; lia)) as Y2. clear - Y1 Y2 Hc Hsq. rewrite Hc in Hsq. pose proof (N.mul_lt_mono _ _ _ _ Y2 Y1). lia.
  Qed.
End Pock.
