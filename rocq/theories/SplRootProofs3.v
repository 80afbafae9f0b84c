(** Roots and extrema of piecewise polynomials *)
From Coquelicot Require Import Coquelicot.
From Coq Require Import Sorting.
From Verif Require Import Arr BinSearchModel SplineModel SplineGlue SplineProofs SplineProofs2 SplIntModel PolyModel PolyProofs PolyProofs2 PropsPoly RootProofs SplRootModel BsplSpec BsplProofs BsplProofs2 BsplProofs3 SplineSpec SplRootSpec SplRootProofs SplRootProofs2.
Local Open Scope R_scope.

Lemma solveQ_len p q r : (length (solveQuadratic p q r) <= 2)%nat.
Proof. unfold solveQuadratic, solveLinear. cbv zeta. repeat match goal with |- context [if ?b then _ else _] => destruct b end; cbn; lia. Qed.
Definition zero3 (a b c : R) : bool := Req_b a 0 && Req_b b 0 && Req_b c 0.
Lemma zero3_t a b c : zero3 a b c = true -> a = 0 /\ b = 0 /\ c = 0.
Proof. unfold zero3, Req_b. destruct (Req_EM_T a 0), (Req_EM_T b 0), (Req_EM_T c 0); cbn; intros; try discriminate; auto. Qed.
Lemma zero3_f a b c : zero3 a b c = false -> ~ (a = 0 /\ b = 0 /\ c = 0).
Proof. unfold zero3, Req_b. destruct (Req_EM_T a 0), (Req_EM_T b 0), (Req_EM_T c 0); cbn; intros; try discriminate; tauto. Qed.
Lemma solveQ_zero : solveQuadratic 0 0 0 = [0].
Proof. apply C32_zero_equation_all_points_refuted. Qed.
Lemma solveQ_sorted a b c : StronglySorted Rlt (solveQuadratic a b c).
Proof.
  destruct (zero3 a b c) eqn:E; [apply zero3_t in E; destruct E as (-> & -> & ->); rewrite solveQ_zero; repeat constructor|]. apply zero3_f in E. apply (C32_quadratic a b c E).
Qed.

Section Gen.
  Variable x : arr R.
  Hypothesis Hx : increasing x.
  Hypothesis Hn : (2 <= alen x)%Z.
  Lemma gen_roots rf (F : R -> R) y (ca cb cc cd : Z -> R) x1 x2 : let a := lower x x1 x2 in let b := upper x x1 x2 in a < b ->
    (forall i, (0 <= i <= alen x - 2)%Z -> rf i = Ok (solveCubic (ca i) (cb i) (cc i) (cd i - y))) ->
    (forall i r, (0 <= i <= alen x - 2)%Z -> afn x i <= r <= afn x (i + 1)%Z -> F r = ca i * (r - afn x i) ^ 3 + cb i * (r - afn x i) ^ 2 + cc i * (r - afn x i) + cd i) ->
    (forall i, (0 <= i <= alen x - 2)%Z -> ca i = 0 \/ discr3_clear (ca i) (cb i) (cc i) (cd i - y)) ->
    exists L, findRoots x rf x1 x2 = Ok L /\ roots_of x F y a b L.
  Proof.
    intros a b Hab Hrf HF HC. set (rs := fun i => solveCubic (ca i) (cb i) (cc i) (cd i - y)).
    (* what the solver does on each segment *)
    assert (K : forall i, (0 <= i <= alen x - 2)%Z -> (length (rs i) <= 4)%nat /\ StronglySorted Rlt (rs i) /\
      ((forall t, In t (rs i) <-> ca i * t ^ 3 + cb i * t ^ 2 + cc i * t + (cd i - y) = 0) \/ ca i = 0 /\ cb i = 0 /\ cc i = 0 /\ cd i - y = 0 /\ rs i = [0])).
    { intros i Hi. unfold rs. destruct (Req_dec (ca i) 0) as [Z0|N].
      - rewrite Z0, C32_cubic_lower_degree. split; [pose proof (solveQ_len (cb i) (cc i) (cd i - y)); lia|]. split; [apply solveQ_sorted|].
        destruct (zero3 (cb i) (cc i) (cd i - y)) eqn:E.
        + right. apply zero3_t in E. destruct E as (E1 & E2 & E3). rewrite E1, E2, E3, solveQ_zero. auto.
        + left. intros t. apply zero3_f in E. rewrite (proj2 (C32_quadratic _ _ _ E) t). split; intros; lra.
      - destruct (HC i Hi) as [|C]; [contradiction|]. destruct (solveCubic_ok _ _ _ _ N (discr3_ok _ _ _ _ N C)) as (S1 & S2 & _). destruct (C32_cubic_partial _ _ _ _ N C) as (_ & S3).
        split; [lia|]. split; [exact S1|]. left. intros t. rewrite S3. reflexivity. }
    destruct (findRoots_spec x Hx Hn rf rs ltac:(intros i Hi; split; [apply Hrf; exact Hi|split; apply K; exact Hi]) x1 x2 Hab) as (L & E & S1 & S2 & S3). exists L. split; [exact E|]. fold a b in S2, S3. split; [exact S1|]. split.
    - intros r Hr. destruct (S2 r Hr) as (H1 & i & Hi & H2 & H3). split; [exact H1|]. rewrite (HF i r Hi H2). destruct (K i Hi) as (_ & _ & [Q|(-> & -> & -> & Q & _)]); [apply Q in H3; lra|lra].
    - intros r Hr Fr. assert (W : within x r) by (destruct (bounds x x1 x2); unfold within; unfold a, b in *; lra). destruct (seg_of x Hx Hn r W) as (m & _ & Hm & M1 & M2). rewrite !knot_in in * by lia.
      assert (M3 : r <= afn x (m + 1)%Z) by (destruct M2 as [M2|[_ M2]]; lra). destruct (K m Hm) as (_ & _ & [Q|(Q1 & Q2 & Q3 & Q4 & Q5)]).
      + left. destruct (S3 m r Hm Hr M1 M2) as (r' & R1 & _ & R2); [|exists r'; auto]. apply Q. rewrite (HF m r Hm ltac:(lra)) in Fr. lra.
      + right. exists m. split; [exact Hm|]. split; [lra|]. split; [intros t Ht; rewrite (HF m t Hm Ht), Q1, Q2, Q3; lra|]. intros Ha.
        destruct (S3 m (afn x m) Hm ltac:(lra) ltac:(lra)) as (r' & R1 & _ & R2); [left; apply Hx; lia|rewrite Q5; left; ring|exists r'; auto].
  Qed.
  Lemma gen_extrema rf ev (F F1 : R -> R) (qa qb qc : Z -> R) x1 x2 : let a := lower x x1 x2 in let b := upper x x1 x2 in a < b ->
    (forall i, (0 <= i <= alen x - 2)%Z -> rf i = Ok (solveQuadratic (qa i) (qb i) (qc i))) ->
    (forall t, within x t -> ev t = Ok (F t)) -> (forall t, within x t -> is_derive F t (F1 t)) -> (forall t, within x t -> continuity_pt F1 t) ->
    (forall i r, (0 <= i <= alen x - 2)%Z -> afn x i <= r <= afn x (i + 1)%Z -> F1 r = qa i * (r - afn x i) ^ 2 + qb i * (r - afn x i) + qc i) ->
    exists L, findExtrema x ev rf x1 x2 = Ok L /\ (forall p, In p L -> a <= p <= b /\ (p = a \/ p = b \/ F1 p = 0)) /\ (separated F F1 a b -> extrema_of F a b L).
  Proof.
    intros a b Hab Hrf Hev HD HC HF. set (rs := fun i => solveQuadratic (qa i) (qb i) (qc i)).
    assert (T : forall i r, (0 <= i <= alen x - 2)%Z -> zero3 (qa i) (qb i) (qc i) = true -> afn x i <= r <= afn x (i + 1)%Z -> F1 r = 0).
    { intros i r Hi E Hr. rewrite (HF i r Hi Hr). apply zero3_t in E. destruct E as (-> & -> & ->). ring. }
    apply (findExtrema_spec x Hx Hn rf rs) with (F1 := F1) (flat := fun i => zero3 (qa i) (qb i) (qc i)); try assumption.
    - intros i Hi. split; [apply Hrf; exact Hi|]. split; [pose proof (solveQ_len (qa i) (qb i) (qc i)); unfold rs; lia|apply solveQ_sorted].
    - intros i r Hi Hr Hin. destruct (zero3 (qa i) (qb i) (qc i)) eqn:E; [apply (T i); assumption|]. apply zero3_f in E. rewrite (HF i r Hi Hr). apply (C32_quadratic _ _ _ E). exact Hin.
    - intros i Hi E. apply zero3_t in E. unfold rs. destruct E as (-> & -> & ->). rewrite solveQ_zero. left. reflexivity.
    - intros i r Hi E Hr H0. apply zero3_f in E. apply (C32_quadratic _ _ _ E). rewrite <- (HF i r Hi Hr). exact H0.
  Qed.
End Gen.

(** Taylor series of polynomials *)
Lemma same_derive (g h g1 : R -> R) c u : (forall t, is_derive g t (g1 t)) -> (forall t, is_derive h t (g1 t)) -> g c = h c -> g u = h u.
Proof.
  intros D1 D2 E. assert (D : forall t, is_derive (fun t => g t - h t) t 0). { intros t. replace 0 with (g1 t - g1 t) by ring. apply (is_derive_minus g h t (g1 t) (g1 t)); [apply D1|apply D2]. }
  assert (M : forall p q, p < q -> g q - h q = g p - h p).
  { intros p q L. destruct (MVT_cor2 (fun t => g t - h t) (fun _ => 0) p q L) as (z & Ez & _); [intros t _; apply is_derive_Reals, D|]. lra. }
  destruct (Rtotal_order c u) as [L|[->|L]]; [specialize (M c u L); lra|exact E|specialize (M u c L); lra].
Qed.
Lemma taylor3 (g0 g1 g2 g3 : R -> R) c u : (forall t, is_derive g0 t (g1 t)) -> (forall t, is_derive g1 t (g2 t)) -> (forall t, is_derive g2 t (g3 t)) -> (forall t, is_derive g3 t 0) ->
  g0 u = 1 / 6 * g3 c * (u - c) ^ 3 + 1 / 2 * g2 c * (u - c) ^ 2 + g1 c * (u - c) + g0 c /\ g1 u = 1 / 2 * g3 c * (u - c) ^ 2 + g2 c * (u - c) + g1 c.
Proof.
  intros D0 D1 D2 D3.
  assert (T3 : forall u, g3 u = g3 c). { intros v. apply (same_derive g3 (fun _ => g3 c) (fun _ => 0) c v D3); [intros t; apply (is_derive_const (g3 c) t)|reflexivity]. }
  assert (T2 : forall u, g2 u = g3 c * (u - c) + g2 c).
  { intros v. apply (same_derive g2 (fun u => g3 c * (u - c) + g2 c) g3 c v D2); [intros t; rewrite (T3 t); auto_derive; [exact Logic.I|ring]|ring]. }
  assert (T1 : forall u, g1 u = 1 / 2 * g3 c * (u - c) ^ 2 + g2 c * (u - c) + g1 c).
  { intros v. apply (same_derive g1 (fun u => 1 / 2 * g3 c * (u - c) ^ 2 + g2 c * (u - c) + g1 c) g2 c v D1); [intros t; rewrite (T2 t); auto_derive; [exact Logic.I|field]|ring]. }
  split; [|apply T1].
  apply (same_derive g0 (fun u => 1 / 6 * g3 c * (u - c) ^ 3 + 1 / 2 * g2 c * (u - c) ^ 2 + g1 c * (u - c) + g0 c) g1 c u D0); [intros t; rewrite (T1 t); auto_derive; [exact Logic.I|field]|ring].
Qed.
Lemma dn_high x m n : forall o j t, (n < o)%nat -> dn x m n o j t = 0.
Proof.
  induction n as [|n IH]; intros o j t H; (destruct o as [|o]; [lia|]); cbn [dn]; [reflexivity|]. rewrite !IH by lia. unfold Rdiv. ring.
Qed.
Lemma sp_high x a N o m t : (N < o)%nat -> sp x a N o m t = 0.
Proof. intros H. unfold sp. apply zsum_0. intros j _. rewrite dn_high by assumption. ring. Qed.

Section Bs.
  Variables x A : arr R.
  Variable N : nat.
  Hypothesis Hx : increasing x.
  Hypothesis Hn : (2 <= alen x)%Z.
  Hypothesis La : alen A = nbasis N x.
  Lemma sp_taylor m c u : (N <= 3)%nat -> (0 <= m <= alen x - 2)%Z ->
    sp x A N 0 m u = 1 / 6 * sp x A N 3 m c * (u - c) ^ 3 + 1 / 2 * sp x A N 2 m c * (u - c) ^ 2 + sp x A N 1 m c * (u - c) + sp x A N 0 m c /\
    sp x A N 1 m u = 1 / 2 * sp x A N 3 m c * (u - c) ^ 2 + sp x A N 2 m c * (u - c) + sp x A N 1 m c.
  Proof.
    intros H3 Hm. apply (taylor3 (sp x A N 0 m) (sp x A N 1 m) (sp x A N 2 m) (sp x A N 3 m)); intros t; try (apply (sp_derive x A N Hx Hn); assumption).
    rewrite <- (sp_high x A N 4 m t) by lia. apply (sp_derive x A N Hx Hn); assumption.
  Qed.
  Lemma Fo_seg o m t : (o < N)%nat -> (0 <= m <= alen x - 2)%Z -> afn x m <= t <= afn x (m + 1)%Z -> Fo x A N o t = sp x A N o m t.
  Proof.
    intros Ho Hm Ht. rewrite (pieced_at x Hx _ (piece x A N o) m t (Fo_pieced x A N Hx Hn o)).
    - unfold piece, clampseg. f_equal. lia.
    - apply (piece_match x A N Hx Hn); assumption.
    - repeat split; try lia; intros; lra.
  Qed.
  Lemma coef_ok o m t : (0 <= m <= alen x - 2)%Z -> bsplDeriv N o (mkBW x A) t m = Ok (sp x A N o m t).
  Proof. intros Hm. apply (deriv_eval x A N Hx Hn La); auto. Qed.
  Lemma rf_bspline y i : (1 <= N <= 3)%nat -> (0 <= i <= alen x - 2)%Z ->
    rootsBspline N 0 x A y i = Ok (solveCubic (1 / 6 * sp x A N 3 i (afn x i)) (1 / 2 * sp x A N 2 i (afn x i)) (sp x A N 1 i (afn x i)) (sp x A N 0 i (afn x i) - y)).
  Proof.
    intros HN Hi. unfold rootsBspline. rewrite aget_ok by lia. cbn [bind]. assert (C : N = 1%nat \/ N = 2%nat \/ N = 3%nat) by lia.
    destruct C as [E|[E|E]]; [replace (N - 0)%nat with 1%nat by lia|replace (N - 0)%nat with 2%nat by lia|replace (N - 0)%nat with 3%nat by lia]; cbn [Nat.add]; rewrite !coef_ok by assumption; cbn [bind]; [| |reflexivity].
    - rewrite (sp_high x A N 3), (sp_high x A N 2) by lia. f_equal. rewrite !Rmult_0_r, C32_cubic_lower_degree. unfold solveQuadratic. rewrite (Req_b_t 0 0 eq_refl). reflexivity.
    - rewrite (sp_high x A N 3) by lia. f_equal. rewrite Rmult_0_r, C32_cubic_lower_degree. reflexivity.
  Qed.
  Lemma rf_bspline1 i : (2 <= N <= 3)%nat -> (0 <= i <= alen x - 2)%Z ->
    rootsBspline N 1 x A 0 i = Ok (solveQuadratic (1 / 2 * sp x A N 3 i (afn x i)) (sp x A N 2 i (afn x i)) (sp x A N 1 i (afn x i))).
  Proof.
    intros HN Hi. unfold rootsBspline. rewrite aget_ok by lia. cbn [bind]. assert (C : N = 2%nat \/ N = 3%nat) by lia.
    destruct C as [E|E]; [replace (N - 1)%nat with 1%nat by lia|replace (N - 1)%nat with 2%nat by lia]; cbn [Nat.add]; rewrite !coef_ok by assumption; cbn [bind]; rewrite Rminus_0_r; [|reflexivity].
    rewrite (sp_high x A N 3) by lia. f_equal. rewrite Rmult_0_r. unfold solveQuadratic. rewrite (Req_b_t 0 0 eq_refl). reflexivity.
  Qed.
End Bs.
(** cubic Hermite splines *)
Section Cu.
  Variables x f d : arr R.
  Hypothesis Hx : increasing x.
  Hypothesis Hn : (2 <= alen x)%Z.
  Hypothesis Hf : alen f = alen x.
  Hypothesis Hd : alen d = alen x.
  Definition kA i := (afn d i + afn d (i + 1)%Z - 2 * (afn f (i + 1)%Z - afn f i) / (afn x (i + 1)%Z - afn x i)) / pow_2 (afn x (i + 1)%Z - afn x i).
  Definition kB i := (3 * (afn f (i + 1)%Z - afn f i) / (afn x (i + 1)%Z - afn x i) - 2 * afn d i - afn d (i + 1)%Z) / (afn x (i + 1)%Z - afn x i).
  Lemma cub_seg i t : (0 <= i <= alen x - 2)%Z -> afn x i <= t <= afn x (i + 1)%Z ->
    cF x f d t = kA i * (t - afn x i) ^ 3 + kB i * (t - afn x i) ^ 2 + afn d i * (t - afn x i) + afn f i /\
    cF1 x f d t = 3 * kA i * (t - afn x i) ^ 2 + 2 * kB i * (t - afn x i) + afn d i.
  Proof.
    intros Hi Ht. pose proof (inc_lt x Hx i (i + 1) ltac:(lia) ltac:(lia) ltac:(lia)). assert (I : inseg x i t) by (repeat split; try lia; intros; lra).
    unfold cF, cF1. rewrite (pieced_at x Hx _ _ i t (pieced_Fp x Hx ltac:(lia) (cpiece x f d) v_f) (cm_f x f d Hx t) I). rewrite (pieced_at x Hx _ _ i t (pieced_Fp x Hx ltac:(lia) (cpiece x f d) v_d) (cm_d x f d Hx t) I).
    unfold cpiece. destruct (Z.ltb_spec i 0); [lia|]. destruct (Z.geb_spec i (alen x - 1)); [lia|]. unfold evalCubic, kA, kB, pow_2. cbn. split; field; lra.
  Qed.
  Lemma rf_cubic y i : (0 <= i <= alen x - 2)%Z -> rootsCubic 0 x f d y i = Ok (solveCubic (kA i) (kB i) (afn d i) (afn f i - y)).
  Proof. intros Hi. unfold rootsCubic. rewrite !aget_ok by lia. reflexivity. Qed.
  Lemma rf_cubic1 i : (0 <= i <= alen x - 2)%Z -> rootsCubic 1 x f d 0 i = Ok (solveQuadratic (3 * kA i) (2 * kB i) (afn d i)).
  Proof. intros Hi. unfold rootsCubic. rewrite !aget_ok by lia. reflexivity. Qed.
  Lemma cF1_cont t : continuity_pt (cF1 x f d) t.
  Proof.
    apply (cont_at x Hx _ (fun k t => v_d (cpiece x f d k t))); [apply pieced_Fp; (assumption || lia)|apply cm_d; (assumption || lia)|]. intros k Hk.
    assert (D : is_derive (fun t => v_d (cpiece x f d k t)) t (v_d2 (cpiece x f d k t))) by (apply cp_d; assumption).
    apply is_derive_Reals in D. apply derivable_continuous_pt. eexists. exact D.
  Qed.
End Cu.
(** the linear interpolator is a B-spline of degree 1 *)
Lemma lin_sp x f i t : increasing x -> (2 <= alen x)%Z -> (0 <= i <= alen x - 2)%Z ->
  sp x f 1 0 i t = afn f i + (afn f (i + 1)%Z - afn f i) * ((t - afn x i) / (afn x (i + 1)%Z - afn x i)).
Proof.
  intros Hx Hn Hi. unfold sp, zsum. replace (Z.to_nat (i + 1 - (i - Z.of_nat 1))) with 2%nat by lia. cbn [zsumn dn].
  rewrite !(cox_S x Hx Hn i Hi). cbn [cox]. replace (i - Z.of_nat 1)%Z with (i - 1)%Z by lia. replace (i - 1 + 1)%Z with i by lia.
  replace (i - 1 =? i)%Z with false by (symmetry; apply Z.eqb_neq; lia). rewrite Z.eqb_refl. replace (i + 1 =? i)%Z with false by (symmetry; apply Z.eqb_neq; lia).
  change (Z.of_nat 0) with 0%Z. change (Z.of_nat 1) with 1%Z. replace (i - 1 + 0 + 2)%Z with (i + 1)%Z by lia. replace (i - 1 + 0 + 1)%Z with i by lia. replace (i + 0 + 1)%Z with (i + 1)%Z by lia. replace (i - 1 + 1)%Z with i by lia.
  rewrite !Rmult_0_r, !(knot_in x i), !(knot_in x (i + 1)%Z) by lia. pose proof (inc_lt x Hx i (i + 1) ltac:(lia) ltac:(lia) ltac:(lia)). field. lra.
Qed.

(** consequences of the description of extrema *)
Lemma last_in (q : R) l d : In (last (q :: l) d) (q :: l).
Proof. revert q. induction l as [|r l IH]; intros q; [left; reflexivity|]. right. apply (IH r). Qed.
Lemma last_any (q : R) l d e : last (q :: l) d = last (q :: l) e.
Proof. revert q. induction l as [|r l IH]; intros q; [reflexivity|]. apply (IH r). Qed.
Lemma zigzag_pieces F up l : zigzag F up l -> monotone_pieces F l.
Proof. induction 1; constructor; try assumption; try lra; auto. Qed.
Lemma extrema_turns F a b l : extrema_of F a b l -> turns_of F a b l.
Proof. intros (H1 & (up & H2) & H3). split; [exact H1|]. split; [apply (zigzag_pieces F up l H2)|exact H3]. Qed.
Lemma zigzag_cover F : forall l p t, monotone_pieces F (p :: l) -> p <= t <= last (p :: l) p -> In t (p :: l) \/ exists q r, In q (p :: l) /\ In r (p :: l) /\ q < t < r /\ (non_decreasing F q r \/ non_increasing F q r).
Proof.
  induction l as [|q l IH]; intros p t Hz Ht; [left; left; cbn in Ht; lra|].
  assert (EL : last (p :: q :: l) p = last (q :: l) q) by (change (last (p :: q :: l) p) with (last (q :: l) p); apply last_any).
  rewrite EL in Ht. destruct (Rlt_dec t q) as [L|L].
  - destruct (Req_dec p t) as [->|N]; [left; left; reflexivity|]. right. exists p, q. split; [left; reflexivity|]. split; [right; left; reflexivity|]. split; [lra|]. inversion Hz; subst; auto.
  - assert (Hz' : monotone_pieces F (q :: l)) by (inversion Hz; assumption).
    destruct (IH q t Hz' ltac:(lra)) as [H|(q0 & r0 & H1 & H2 & H3)]; [left; right; exact H|]. right. exists q0, r0. split; [right; exact H1|]. split; [right; exact H2|]. exact H3.
Qed.
Lemma extrema_strict F a b l p : turns_of F a b l -> strict_extremum F a b p -> In p l.
Proof.
  intros ((l' & ->) & Hz & Hb & Hc) (Hp & e & He & HS).
  assert (LI : last (a :: l') a = last l' a) by (destruct l'; reflexivity).
  assert (NM : forall q r, q < p -> p < r -> r <= b -> a <= q -> non_decreasing F q r \/ non_increasing F q r -> False).
  { intros q r H1 H2 H3 H4 M. set (u := Rmax q (p - e / 2)). set (v := Rmin r (p + e / 2)).
    assert (Hu : q <= u < p) by (unfold u; split; [apply Rmax_l|apply Rmax_lub_lt; lra]). assert (Hv : p < v <= r) by (unfold v; split; [apply Rmin_glb_lt; lra|apply Rmin_l]).
    assert (p - e / 2 <= u) by apply Rmax_r. assert (v <= p + e / 2) by apply Rmin_r.
    assert (Au : 0 < Rabs (u - p) < e) by (rewrite Rabs_left by lra; lra). assert (Av : 0 < Rabs (v - p) < e) by (rewrite Rabs_right by lra; lra).
    destruct M as [M|M]; pose proof (M u p ltac:(lra) ltac:(lra) ltac:(lra)); pose proof (M p v ltac:(lra) ltac:(lra) ltac:(lra)); destruct HS as [HS|HS]; pose proof (HS u Au); pose proof (HS v Av); lra. }
  destruct (Rle_dec p (last (a :: l') a)) as [L|L].
  - destruct (zigzag_cover F l' a p Hz ltac:(lra)) as [H|(q & r & H1 & H2 & H3 & H4)]; [exact H|]. exfalso. apply (NM q r); try lra; [apply Hb; exact H2|apply Hb; exact H1|exact H4].
  - exfalso. assert (LB : a <= last (a :: l') a <= b). { apply Hb, last_in. }
    apply (NM (last (a :: l') a) b); try lra. left. apply const_nd. exact Hc.
Qed.
Lemma extrema_range F a b l t : turns_of F a b l -> a <= t <= b -> exists p q, In p l /\ In q l /\ F p <= F t <= F q.
Proof.
  intros ((l' & ->) & Hz & Hb & Hc) Ht.
  assert (LIn : In (last (a :: l') a) (a :: l')). { apply last_in. }
  destruct (Rle_dec t (last (a :: l') a)) as [L|L].
  - destruct (zigzag_cover F l' a t Hz ltac:(lra)) as [H|(q & r & H1 & H2 & H3 & [M|M])].
    + exists t, t. split; [exact H|]. split; [exact H|lra].
    + exists q, r. split; [exact H1|]. split; [exact H2|]. split; apply M; lra.
    + exists r, q. split; [exact H2|]. split; [exact H1|]. split; apply M; lra.
  - exists (last (a :: l') a), (last (a :: l') a). split; [exact LIn|]. split; [exact LIn|]. rewrite (Hc t) by lra. lra.
Qed.
