From Coq Require Import ZArith Reals Lra Lia Psatz Bool List FinFun.
From Verif Require Import Base Arr FloatBase PotModel SphIndexModel SphIndexSpec SphIndexProofs.
Import ListNotations.
Local Open Scope Z_scope.

Definition invb (bit l m : Z) : bool :=
  match bit with 0 => negb (xorb (m <? 0) (Z.odd m)) | 1 => negb (m <? 0) | 2 => negb (Z.odd (l + m)) | 3 => negb (Z.odd l) | 4 => m =? 0 | 5 => l =? 0 | _ => true end.
Lemma bit_cases b : 0 <= b < 6 -> b = 0 \/ b = 1 \/ b = 2 \/ b = 3 \/ b = 4 \/ b = 5. Proof. lia. Qed.
Lemma invb_spec b l m : 0 <= b < 6 -> invb b l m = true <-> invariant b l m.
Proof.
  intros H. destruct (bit_cases b H) as [->|[->|[->|[->|[->| ->]]]]]; cbn [invb invariant].
  - pose proof (even_odd m) as [A B]. destruct (m <? 0), (Z.odd m); cbn; intuition congruence.
  - rewrite negb_true_iff. apply Z.ltb_ge.
  - rewrite negb_true_iff. symmetry. apply even_odd.
  - rewrite negb_true_iff. symmetry. apply even_odd.
  - apply Z.eqb_eq.
  - apply Z.eqb_eq.
Qed.
Lemma coef_step_true c sym mm : Z.abs (index_m c) <= index_l c -> 0 <= sym < 64 -> 0 <= mm -> exists sym', coef_step true c (sym, mm) = (sym', Z.max mm (Z.abs (index_m c))) /\ 0 <= sym' < 64 /\
  forall b, 0 <= b < 6 -> Z.testbit sym' b = Z.testbit sym b && invb b (index_l c) (index_m c).
Proof.
  intros Hm Hs Hmm. unfold coef_step. set (l := index_l c) in *. set (m := index_m c) in *. clearbody l m. rewrite !rem2_1 by lia. rewrite rem2.
  change ST_ZROTATION with (2 ^ 4). change ST_XREFLECTION with (2 ^ 0). change ST_YREFLECTION with (2 ^ 1). change ST_ROTATION with (2 ^ 5). change ST_ZREFLECTION with (2 ^ 2). change ST_REFLECTION with (2 ^ 3).
  match goal with |- context [if Z.odd l then clear sym (2^3) else sym] => set (s1 := if Z.odd l then clear sym (2^3) else sym) end.
  set (s2 := if m <? 0 then clear s1 (2^1) else s1). set (s3 := if Z.odd (l + m) then clear s2 (2^2) else s2). set (s4 := if xorb (m <? 0) (Z.odd m) then clear s3 (2^0) else s3).
  set (s5 := if negb (m =? 0) then clear s4 (2^4) else s4). set (s6 := if 0 <? l then clear s5 (2^5) else s5).
  assert (CB : forall s k (q : bool) n, 0 <= k -> 0 <= n -> Z.testbit (if q then clear s (2^k) else s) n = Z.testbit s n && negb (q && (k =? n))).
  { intros s k q n K N. destruct q; cbn [andb negb]; [rewrite clear_bit by assumption; reflexivity|rewrite andb_true_r; reflexivity]. }
  assert (BB : forall n, 0 <= n -> Z.testbit s6 n = Z.testbit sym n && negb (Z.odd l && (3 =? n)) && negb ((m <? 0) && (1 =? n)) && negb (Z.odd (l + m) && (2 =? n)) && negb (xorb (m <? 0) (Z.odd m) && (0 =? n)) && negb (negb (m =? 0) && (4 =? n)) && negb ((0 <? l) && (5 =? n))).
  { intros n N. unfold s6, s5, s4, s3, s2, s1. rewrite !CB by lia. reflexivity. }
  exists s6. split; [|split].
  - unfold s6, s5. destruct (m =? 0) eqn:M0; cbn [negb].
    + apply Z.eqb_eq in M0. subst m. rewrite Z.max_l by lia. reflexivity.
    + destruct (Z.ltb_spec mm (Z.abs m)); [rewrite Z.max_r by lia|rewrite Z.max_l by lia]; reflexivity.
  - assert (P : forall s k (q : bool), 0 <= s -> 0 <= (if q then clear s k else s)) by (intros s k [] ?; [unfold clear; apply Z.ldiff_nonneg; left; assumption|assumption]).
    assert (0 <= s6) by (unfold s6, s5, s4, s3, s2, s1; repeat apply P; lia). split; [assumption|]. apply lt64_bits; [assumption|]. intros n N. rewrite BB by lia. rewrite (bits_lt64 sym Hs n N). reflexivity.
  - intros b Hb. rewrite BB by lia.
    destruct (bit_cases b Hb) as [->|[->|[->|[->|[->| ->]]]]]; cbn [Z.eqb Pos.eqb invb]; rewrite ?andb_true_r, ?andb_false_r; cbn [negb]; rewrite ?andb_true_r, ?negb_involutive; try reflexivity.
    f_equal. destruct (Z.ltb_spec 0 l), (Z.eqb_spec l 0); try reflexivity; lia.
Qed.

(** C[c] is a nonzero coefficient *)
Definition nonzero (C : list coef) (c : Z) : Prop := get C c = Ok CNonzero.
Definition all_finite (C : list coef) : Prop := forall c, get C c <> Ok CNotFinite.
Definition infer_inv (C : list coef) (i : Z) (st : Z * Z) : Prop := let '(sym, mm) := st in 0 <= sym < 64 /\ 0 <= mm /\
  (forall b, 0 <= b < 6 -> Z.testbit sym b = true <-> (forall c, 0 <= c < i -> nonzero C c -> invariant b (index_l c) (index_m c))) /\
  (forall c, 0 <= c < i -> nonzero C c -> Z.abs (index_m c) <= mm) /\ (mm = 0 \/ exists c, 0 <= c < i /\ nonzero C c /\ Z.abs (index_m c) = mm).
Lemma infer_loop C : zlen C <= 2 ^ 32 -> all_finite C -> exists st,
  for_ 0 (zlen C) (fun c st => x <- get C c ;; match x with CNotFinite => Throw | CZero => Ok (coef_step false c st) | CNonzero => Ok (coef_step true c st) end) (ST_SPHERICAL, 0) = Ok st /\ infer_inv C (zlen C) st.
Proof.
  intros HL HF. apply (for_total (infer_inv C)); [unfold zlen; lia| |].
  - unfold infer_inv. change ST_SPHERICAL with 63. repeat split; try lia.
    intros _. destruct (bit_cases b H) as [->|[->|[->|[->|[->| ->]]]]]; reflexivity.
  - intros c [sym mm] Hc (S & M & B & A & W). destruct (get_ok C c Hc) as (x & G & _). rewrite G. cbn [bind]. destruct (encode c ltac:(lia)) as (L0 & ML & _).
    destruct x; [exfalso; exact (HF c G)| |].
    + cbn [coef_step]. eexists. split; [reflexivity|]. unfold infer_inv. split; [exact S|]. split; [exact M|].
      assert (NN : forall c', 0 <= c' < c + 1 -> nonzero C c' -> 0 <= c' < c). { intros c' R N. destruct (Z.eq_dec c' c) as [->|]; [unfold nonzero in N; rewrite G in N; discriminate|lia]. }
      split; [|split].
      * intros b Hb. rewrite (B b Hb). split; intros H c' R N; [apply H; [apply NN; assumption|exact N]|apply H; [lia|exact N]].
      * intros c' R N. apply A; [apply NN; assumption|exact N].
      * destruct W as [W|(c' & R & N & E)]; [left; exact W|right; exists c'; split; [lia|tauto]].
    + destruct (coef_step_true c sym mm ML S M) as (sym' & E & S' & B'). rewrite E. eexists. split; [reflexivity|]. unfold infer_inv. split; [exact S'|]. split; [lia|]. split; [|split].
      * intros b Hb. rewrite (B' b Hb), andb_true_iff, (B b Hb), invb_spec by exact Hb. split.
        -- intros (H & I) c' R N. destruct (Z.eq_dec c' c) as [->|]; [exact I|apply H; [lia|exact N]].
        -- intros H. split; [intros c' R N; apply H; [lia|exact N]|apply H; [lia|exact G]].
      * intros c' R N. destruct (Z.eq_dec c' c) as [->|]; [lia|]. pose proof (A c' ltac:(lia) N). lia.
      * destruct (Z_le_gt_dec (Z.abs (index_m c)) mm) as [Q|Q].
        -- rewrite Z.max_l by lia. destruct W as [W|(c' & R & N & E')]; [left; exact W|right; exists c'; split; [lia|tauto]].
        -- rewrite Z.max_r by lia. right. exists c. split; [lia|]. split; [exact G|reflexivity].
Qed.
Lemma infer_ok C l : 0 <= l -> zlen C = (l + 1) * (l + 1) -> (l + 2) * (l + 2) <= 2 ^ 32 -> all_finite C ->
  exists i, getIndicesFromCoefs C = Ok i /\ i_lmax i = l /\
  (forall c, nonzero C c -> Z.abs (index_m c) <= i_mmax i) /\ (i_mmax i = 0 \/ exists c, nonzero C c /\ Z.abs (index_m c) = i_mmax i) /\
  (forall b, 0 <= b < 6 -> Z.testbit (i_sym i) b = true <-> (forall c, nonzero C c -> invariant b (index_l c) (index_m c))) /\
  (forall c, nonzero C c -> In (index_l c, index_m c) (visited i)).
Proof.
  intros Hl HZ HB HF. unfold getIndicesFromCoefs. cbv zeta.
  assert (EL : index_l (zlen C) = l + 1) by (rewrite HZ; apply sqrt_between; lia). rewrite EL. replace (l + 1 - 1) with l by ring.
  rewrite (proj2 (Z.ltb_ge l 0)) by lia. cbn [orb]. rewrite HZ, Z.eqb_refl. cbn [negb]. rewrite <- HZ.
  destruct (infer_loop C) as ([sym mm] & E & S & M & B & A & W); [nia|exact HF|]. rewrite E. cbn [bind fst snd].
  assert (NR : forall c, nonzero C c -> 0 <= c < zlen C) by (intros c N; apply get_Ok_inv in N; tauto).
  assert (NL : forall c, nonzero C c -> Z.abs (index_m c) <= index_l c <= l).
  { intros c N. pose proof (NR c N). destruct (encode c) as (P & Q & R); [nia|]. split; [exact Q|]. unfold sh_index in R. destruct (Z_le_gt_dec (index_l c) l); [assumption|]. exfalso. assert ((l + 1) * (l + 2) <= index_l c * (index_l c + 1)) by (apply Z.mul_le_mono_nonneg; lia). nia. }
  assert (ML : mm <= l). { destruct W as [->|(c & R & N & <-)]; [lia|]. pose proof (NL c N). lia. }
  destruct (ctor l mm sym) as [([R|[R|[R|[R|R]]]] & _)|(_ & i & EI & L' & M' & SY & ST & _ & LM)]; try lia; try (unfold valid_sym in R; lia).
  - exfalso. destruct R as (R0 & R1 & R2 & R3). rewrite (B 0) in R0 by lia. rewrite (B 1) in R1 by lia. rewrite (B 2) in R2 by lia. assert (R3' : Z.testbit sym 3 = true); [|congruence]. apply B; [lia|].
    intros c R N. specialize (R0 c R N). specialize (R1 c R N). specialize (R2 c R N). cbn [invariant] in *. rewrite (proj2 (Z.ltb_ge _ _)) in R0 by exact R1. destruct R0 as (p & Hp), R2 as (q & Hq). exists (q - p). lia.
  - exists i. split; [exact EI|]. split; [exact L'|]. rewrite M', SY. split; [intros c N; apply A; [apply NR; exact N|exact N]|].
    split; [destruct W as [W|(c & R & N & E')]; [left; exact W|right; exists c; tauto]|].
    assert (BB : forall b, 0 <= b < 6 -> Z.testbit sym b = true <-> (forall c, nonzero C c -> invariant b (index_l c) (index_m c))).
    { intros b Hb. rewrite (B b Hb). split; [intros H c N; apply H; [apply NR; exact N|exact N]|intros H c _ N; apply H; exact N]. }
    destruct (sym_bits l mm sym) as (C0 & C1 & C2 & C3 & C4 & C5). split.
    + intros b Hb. rewrite <- (BB b Hb).
      assert (M0 : mm = 0 -> forall c, nonzero C c -> index_m c = 0). { intros Z0 c N. pose proof (A c (NR c N) N). lia. }
      assert (L0 : l = 0 -> forall c, nonzero C c -> index_l c = 0). { intros Z0 c N. pose proof (NL c N). lia. }
      assert (G : forall (p : bool), (p = true -> Z.testbit sym b = true) -> Z.testbit sym b || p = true <-> Z.testbit sym b = true). { intros p Hp. destruct (Z.testbit sym b); cbn; [tauto|]. split; [exact Hp|discriminate]. }
      destruct (bit_cases b Hb) as [->|[->|[->|[->|[->| ->]]]]]; rewrite ?C0, ?C1, ?C2, ?C3, ?C4, ?C5; apply G; intros Q; apply Z.eqb_eq in Q; apply BB; try lia; intros c N; cbn [invariant]; try pose proof (M0 Q c N) as M1; try pose proof (L0 Q c N) as L1; pose proof (NL c N).
      * rewrite M1. exists 0. reflexivity.
      * lia.
      * replace (index_l c + index_m c) with 0 by lia. exists 0. reflexivity.
      * rewrite L1. exists 0. reflexivity.
      * exact M1.
      * exact L1.
    + intros c N. apply (visited4 l mm sym i EI). pose proof (NL c N). pose proof (A c (NR c N) N). split; [split; [lia|lia]|].
      unfold allowed4. repeat split; intros Q; [apply (proj1 (BB 0 ltac:(lia)))|apply (proj1 (BB 1 ltac:(lia)))|apply (proj1 (BB 2 ltac:(lia)))|apply (proj1 (BB 3 ltac:(lia)))]; assumption.
Qed.

(* ---------- azimuthal indices ---------- *)
Definition azim_ok (sym m : Z) : Prop := (Z.testbit sym 2 = true /\ Z.testbit sym 3 = true -> Z.Even m) /\ (Z.testbit sym 1 = true -> 0 <= m) /\ (Z.testbit sym 0 = true -> if m <? 0 then Z.Odd m else Z.Even m).
Lemma azim_step_spec sym m r : 1 <= m -> exists a, azim_step sym m r = r ++ a /\ NoDup a /\ forall k, In k a <-> Z.abs k = m /\ azim_ok sym k.
Proof.
  intros H. unfold azim_step. rewrite bB, bX, bY, rem2, rem2_1 by lia.
  assert (OK : forall k, Z.abs k = m -> azim_ok sym k <-> ((Z.testbit sym 2 && Z.testbit sym 3 && Z.odd m)%bool = false /\ (Z.testbit sym 1 && (k <? 0))%bool = false /\ (Z.testbit sym 0 && xorb (k <? 0) (Z.odd m))%bool = false)).
  { intros k Hk. unfold azim_ok. assert (O : Z.odd k = Z.odd m) by (rewrite <- Hk; destruct (Z.abs_eq_or_opp k) as [-> | ->]; [reflexivity|symmetry; apply Z.odd_opp]).
    pose proof (proj1 (even_odd k)) as E1. pose proof (proj2 (even_odd k)) as E2. rewrite O in E1, E2. rewrite <- Z.ltb_ge.
    destruct (Z.testbit sym 0), (Z.testbit sym 1), (Z.testbit sym 2), (Z.testbit sym 3), (k <? 0), (Z.odd m); cbn; intuition congruence. }
  assert (KK : forall k, Z.abs k = m -> k = m \/ k = - m) by lia.
  pose proof (OK m ltac:(lia)) as OP. pose proof (OK (- m) ltac:(lia)) as ON. rewrite (proj2 (Z.ltb_ge m 0)) in OP by lia. rewrite (proj2 (Z.ltb_lt (- m) 0)) in ON by lia. cbn [xorb] in OP, ON. rewrite !andb_true_r, ?andb_false_r in *.
  assert (F : forall (p q : bool), (p = true <-> azim_ok sym m) -> (q = true <-> azim_ok sym (- m)) -> exists a, (if p then (if q then r ++ [- m] else r) ++ [m] else if q then r ++ [- m] else r) = r ++ a /\ NoDup a /\ forall k, In k a <-> Z.abs k = m /\ azim_ok sym k).
  { intros p q P Q. destruct p, q; [exists [- m; m]; rewrite <- app_assoc|exists [m]|exists [- m]|exists []; rewrite app_nil_r]; (split; [reflexivity|]); (split; [repeat constructor; cbn; intuition lia|]); intros k; cbn [In]; split.
    1: intros [<-|[<-|[]]]; (split; [lia|]); [apply Q|apply P]; reflexivity.
    2: intros [<-|[]]; (split; [lia|]); apply P; reflexivity.
    3: intros [<-|[]]; (split; [lia|]); apply Q; reflexivity.
    4: intros [].
    all: intros (A & B); destruct (KK k A) as [->| ->]; auto; exfalso; (apply P in B || apply Q in B); discriminate. }
  assert (Z0 : forall x, (true = true <-> x) <-> x) by tauto.
  destruct (Z.testbit sym 2 && Z.testbit sym 3 && Z.odd m)%bool eqn:E0.
  - destruct (F false false) as (a & A & B); [split; [discriminate|intros G; apply OP in G; destruct G as (G & _); congruence]|split; [discriminate|intros G; apply ON in G; destruct G as (G & _); congruence]|]. exists a. split; [exact A|exact B].
  - destruct (F (negb (Z.testbit sym 0 && Z.odd m)) (negb (Z.testbit sym 1) && negb (Z.testbit sym 0 && negb (Z.odd m)))) as (a & A & B).
    + rewrite OP. destruct (Z.testbit sym 0), (Z.testbit sym 1), (Z.odd m); cbn; intuition congruence.
    + rewrite ON. destruct (Z.testbit sym 0), (Z.testbit sym 1), (Z.odd m); cbn; intuition congruence.
    + exists a. split; [|exact B]. rewrite <- A. destruct (Z.testbit sym 0), (Z.testbit sym 1), (Z.odd m); reflexivity.
Qed.
Lemma azim_loop sym mmax : 0 <= mmax -> exists r, for_ 1 (mmax + 1) (fun m r => Ok (azim_step sym m r)) [0] = Ok r /\ NoDup r /\ forall k, In k r <-> (k = 0 \/ 1 <= Z.abs k <= mmax /\ azim_ok sym k).
Proof.
  intros H. destruct (for_total (fun i r => NoDup r /\ forall k, In k r <-> (k = 0 \/ 1 <= Z.abs k < i /\ azim_ok sym k)) 1 (mmax + 1) (fun m r => Ok (azim_step sym m r)) [0]) as (r & E & N & I).
  - lia.
  - split; [repeat constructor; cbn; tauto|]. intros k. cbn. split; [intros [<-|[]]; tauto|]. intros [->|[? _]]; [tauto|lia].
  - intros i r Hi (N & I). destruct (azim_step_spec sym i r ltac:(lia)) as (a & A & NA & IA). eexists. split; [reflexivity|]. rewrite A. split.
    + assert (G : forall u v : list Z, NoDup u -> NoDup v -> (forall x, In x u -> In x v -> False) -> NoDup (u ++ v)).
      { induction u as [|x u IHu]; cbn; intros v Nu Nv Dj; [exact Nv|]. inversion Nu; subst. constructor; [rewrite in_app_iff; intros [?|?]; [contradiction|]; apply (Dj x); [left; reflexivity|assumption]|]. apply IHu; auto. intros y Y1 Y2. apply (Dj y); [right; assumption|assumption]. }
      apply G; auto. intros x X1 X2. apply I in X1. apply IA in X2. lia.
    + intros k. rewrite in_app_iff, I, IA. split; [intros [[->|(R & O)]|(R & O)]; [tauto|right; split; [lia|exact O]|right; split; [lia|exact O]]|].
      intros [->|(R & O)]; [tauto|]. destruct (Z.eq_dec (Z.abs k) i) as [Q|Q]; [right; tauto|left; right; split; [lia|exact O]].
  - exists r. split; [exact E|]. split; [exact N|]. intros k. rewrite I. split; (intros [->|(R & O)]; [tauto|right; split; [lia|exact O]]).
Qed.
