From Verif Require Import Arr BandModel BandSpec BandSolve.
Local Open Scope Z_scope.

Ltac arrs := repeat (first [rewrite aget_ok by (cbn [alen afn fst snd]; lia) | rewrite aset_ok by (cbn [alen afn fst snd]; lia)]; cbn [bind alen afn fst snd]).

(** outcome of processing one row: either the pivot is zero, or the factorization is extended *)
Definition row_outcome (N B : Z) (a rhs : Z -> R) (i : Z) (U : arr R) (r : res (arr R * arr R)) : Prop :=
  exists L : Z -> R,
    (forall c, 0 <= c <= 2 * B -> L c = (a (i * (B * 2 + 1) + c)%Z - redsum B (afn U) L i c)%R) /\
    ((L B = 0%R /\ r = Throw) \/
     (L B <> 0%R /\ exists U' x', r = Ok (U', x') /\ Inv N B a rhs (i + 1) (U', x') /\
        (forall p, 0 <= p < i * B -> afn U' p = afn U p) /\
        (forall c, B < c <= 2 * B -> afn U' (i * B + c - B - 1) = (L c * (1 / L B))%R))).

Lemma row_safe N B a rhs i U r : row_outcome N B a rhs i U r -> safe r (Inv N B a rhs (i + 1)).
Proof. intros (L & _ & [[_ ->]|(_ & U' & x' & -> & H & _)]); [exact I|exact H]. Qed.

Section Gen.
  Variables (N B : Z) (HB : 0 <= B < N).
  Variables (data rhs : arr R).
  Hypothesis Hdata : alen data = N * (B * 2 + 1).
  Hypothesis Hrhs : alen rhs = N.
  Notation a := (afn data).
  Notation w := (B * 2 + 1).

  Lemma idx_U k c : 0 <= k < N -> 0 <= c < B -> 0 <= k * B + c < N * B.
  Proof. intros. nia. Qed.
  Lemma idx_data k c : 0 <= k < N -> 0 <= c < w -> 0 <= k * w + c < N * w.
  Proof. intros. nia. Qed.

  Lemma gen_row i U x : 0 <= i < N -> Inv N B a (afn rhs) i (U, x) ->
    row_outcome N B a (afn rhs) i U (solve_gen_row B data i (U, x)).
  Proof.
    intros Hi HI. pose proof HI as (LU & Lx & HL & Hx). cbn [fst snd] in *.
    unfold solve_gen_row. cbv zeta.
    (* copying the row *)
    destruct (for_total (fun k (L : arr R) => alen L = w /\ forall c, 0 <= c < k -> afn L c = a (i * w + c)) 0 w
      (fun c L => d <- aget data (i * w + c) ;; aset L c d) (anew w 0%R)) as (L0 & -> & LL0 & EL0); try lia.
    { split; [reflexivity|intros; lia]. }
    { intros c L Hc (E1 & E2). pose proof (idx_data i c Hi Hc). rewrite aget_ok by lia. cbn [bind]. rewrite aset_ok by lia.
      eexists. split; [reflexivity|]. cbn [alen afn]. split; [exact E1|]. intros c' Hc'.
      destruct (Z.eq_dec c' c) as [->|Hne]; [apply upd_same|rewrite upd_other by exact Hne; apply E2; lia]. }
    cbn [bind].
    (* reduction *)
    set (J := fun cur (L : arr R) => alen L = w /\
        (forall c, 0 <= c < Z.min cur w -> afn L c = (a (i * w + c) - redsum B (afn U) (afn L) i c)%R) /\
        (forall c, cur <= c < w -> afn L c = a (i * w + c))).
    destruct (for_total_max J 1 (2 * B)
      (fun c L => for_ (Z.max 0 (Z.max (B - i) (c - B))) (Z.min B c) (fun r L =>
           lc <- aget L c ;; lr <- aget L r ;; u <- aget U ((i - B + r) * B + c - r - 1) ;;
           aset L c (lc - lr * u)%R) L) L0) as (L & -> & LL & EL1 & EL2).
    { split; [exact LL0|]. split.
      - intros c Hc. assert (c = 0) by lia. subst c. rewrite EL0 by lia. unfold redsum.
        rewrite zsum_nil; [ring|]. unfold rmin, rmax. lia.
      - intros c Hc. apply EL0. lia. }
    { intros c L Hc (E1 & E2 & E3).
      set (lo := Z.max 0 (Z.max (B - i) (c - B))). set (hi := Z.min B c).
      set (K := fun r (M : arr R) => alen M = w /\ (forall c', c' <> c -> afn M c' = afn L c') /\
         afn M c = (a (i * w + c) - zsum lo r (fun r => afn L r * afn U ((i - B + r) * B + c - r - 1)%Z))%R).
      destruct (for_total_max K lo hi
         (fun r M => lc <- aget M c ;; lr <- aget M r ;; u <- aget U ((i - B + r) * B + c - r - 1) ;;
           aset M c (lc - lr * u)%R) L) as (M & EM & K1 & K2 & K3).
      { split; [exact E1|]. split; [reflexivity|]. rewrite zsum_nil by lia. rewrite E3 by lia. ring. }
      { intros r M Hr (K1 & K2 & K3). unfold lo, hi in Hr.
        assert (HU : 0 <= (i - B + r) * B + (c - r - 1) < N * B) by (apply idx_U; lia).
        arrs. eexists. split; [reflexivity|]. split; [exact K1|]. cbn [afn]. split.
        - intros c' Hc'. rewrite upd_other by exact Hc'. apply K2. exact Hc'.
        - rewrite upd_same, K3. rewrite zsum_last by (unfold lo; lia). rewrite K2 by lia. ring. }
      exists M. split; [exact EM|]. split; [exact K1|].
      assert (RS : forall c', 0 <= c' <= c -> redsum B (afn U) (afn M) i c' = redsum B (afn U) (afn L) i c').
      { intros c' Hc'. apply redsum_ext; auto. intros r Hr. apply K2. unfold rmin, rmax in Hr. lia. }
      split.
      - intros c' Hc'. rewrite RS by lia. destruct (Z.eq_dec c' c) as [->|Hne].
        + rewrite K3. unfold redsum, rmin, rmax. fold lo hi.
          destruct (Z_le_gt_dec lo hi); [rewrite Z.max_r by lia; reflexivity|].
          rewrite Z.max_l by lia. rewrite !zsum_nil by lia. reflexivity.
        + rewrite K2 by exact Hne. apply E2. lia.
      - intros c' Hc'. rewrite K2 by lia. apply E3. lia. }
    cbn [bind].
    assert (EL : forall c, 0 <= c <= 2 * B -> afn L c = (a (i * w + c) - redsum B (afn U) (afn L) i c)%R).
    { intros c Hc. destruct (Z_lt_le_dec c (Z.max 1 (2 * B))) as [H|H]; [apply EL1; lia|].
      rewrite EL2 by lia. unfold redsum. rewrite zsum_nil by (unfold rmin, rmax; lia). ring. }
    clear EL1 EL2 J EL0 LL0 L0.
    exists (afn L). split; [exact EL|].
    rewrite aget_ok by lia. cbn [bind]. unfold rinv. destruct (Req_EM_T (afn L B) 0) as [E0|Hp]; [left; auto|right; split; [exact Hp|]]. cbn [bind].
    set (ip := (1 / afn L B)%R).
    (* storing U *)
    destruct (for_total_max (fun k (V : arr R) => alen V = N * B /\ (forall p, 0 <= p < i * B -> afn V p = afn U p) /\
        (forall c, B < c < k -> afn V (i * B + c - B - 1) = (afn L c * ip)%R)) (B + 1) (2 * B + 1)
      (fun c U => lc <- aget L c ;; aset U (i * B + c - B - 1) (lc * ip)%R) U) as (V & -> & LV & V1 & V2).
    { split; [exact LU|]. split; [auto|]. intros; lia. }
    { intros c V Hc (P1 & P2 & P3). pose proof (idx_U i (c - B - 1) Hi ltac:(lia)).
      arrs. eexists. split; [reflexivity|]. cbn [alen afn]. split; [exact P1|]. split.
      - intros p Hp'. rewrite upd_other by nia. apply P2. exact Hp'.
      - intros c' Hc'. destruct (Z.eq_dec c' c) as [->|Hne]; [apply upd_same|]. rewrite upd_other by lia. apply P3. lia. }
    cbn [bind]. rewrite Z.max_r in V2 by lia.
    (* forward substitution *)
    set (lo := Z.max 0 (B - i)).
    destruct (for_total_max (fun k (z : arr R) => alen z = N /\ (forall p, p <> i -> afn z p = afn x p) /\
        afn z i = (afn x i - zsum lo k (fun c => afn L c * afn x (i - B + c)%Z))%R) lo B
      (fun c x => xi <- aget x i ;; lc <- aget L c ;; xc <- aget x (i - B + c) ;; aset x i (xi - lc * xc)%R) x) as (z & -> & Lz & Z1 & Z2).
    { split; [exact Lx|]. split; [auto|]. rewrite zsum_nil by lia. ring. }
    { intros c z Hc (P1 & P2 & P3). unfold lo in *. arrs. eexists. split; [reflexivity|]. cbn [alen afn]. split; [exact P1|]. split.
      - intros p Hp'. rewrite upd_other by exact Hp'. apply P2. exact Hp'.
      - rewrite upd_same, P3, zsum_last by lia. rewrite (P2 (i - B + c)) by lia. ring. }
    cbn [bind]. arrs. do 2 eexists. split; [reflexivity|].
    split; [|split; [exact V1|intros c Hc; apply V2; lia]].
    apply Inv_step with (U := U) (x := x) (L := afn L); auto; cbn [alen afn].
    { intros p Hp1 Hp2. rewrite upd_other by exact Hp2. apply Z1. exact Hp2. }
    assert (RS : forall c, redsum B (afn V) (afn L) i c = redsum B (afn U) (afn L) i c).
    { intros c. apply redsum_ext; auto. intros r Hr. apply V1. unfold rmin, rmax in Hr.
      pose proof (Z.mul_nonneg_nonneg (i - B + r) B). nia. }
    split; [exact Hp|]. split; [|split].
    - intros c Hc. rewrite RS, (EL c) by lia. ring.
    - intros c Hc. rewrite RS. rewrite V2 by lia. rewrite (EL c) at 1 by lia. unfold ip. field. exact Hp.
    - rewrite upd_same, Z2. unfold ip. rewrite <- (Hx i) by lia.
      assert (E : zsum (Z.max 0 (B - i)) B (fun c => (afn L c * upd (afn z) i ((afn x i - zsum lo (Z.max lo B) (fun c0 => afn L c0 * afn x (i - B + c0)%Z)) * (1 / afn L B)) (i - B + c)%Z))%R
         = zsum lo (Z.max lo B) (fun c0 => afn L c0 * afn x (i - B + c0)%Z)%R).
      { unfold lo. replace (Z.max (Z.max 0 (B - i)) B) with B by lia. apply zsum_ext. intros c Hc.
        rewrite upd_other by lia. rewrite Z1 by lia. reflexivity. }
      rewrite E. field. exact Hp.
  Qed.

  (** back-substitution *)
  Lemma gen_back U y : alen U = N * B -> alen y = N ->
    exists x, fordown (N - 2) 0 (fun i x =>
      fordown (Z.min (B - 1) (N - 2 - i)) 0 (fun j x =>
        xi <- aget x i ;; xj <- aget x (i + j + 1) ;; u <- aget U (i * B + j) ;;
        aset x i (xi - xj * u)%R) x) y = Ok x /\ alen x = N /\
      forall m, 0 <= m < N -> afn y m = zsum 0 N (fun j => Uf B (afn U) m j * afn x j)%R.
  Proof.
    intros LU Ly.
    set (I := fun i (x : arr R) => alen x = N /\ (forall m, 0 <= m <= i -> afn x m = afn y m) /\
       (forall m, i < m < N -> afn y m = zsum 0 N (fun j => Uf B (afn U) m j * afn x j)%R)).
    destruct (fordown_total I (N - 2) 0 (fun i x =>
      fordown (Z.min (B - 1) (N - 2 - i)) 0 (fun j x =>
        xi <- aget x i ;; xj <- aget x (i + j + 1) ;; u <- aget U (i * B + j) ;;
        aset x i (xi - xj * u)%R) x) y) as (x & -> & Lx & _ & Hx).
    - lia.
    - split; [exact Ly|]. split; [auto|]. intros m Hm. assert (m = N - 1) by lia. subst m.
      rewrite (zsum_extend (N - 1) (N - 1 + 1) 0 N); try lia.
      + rewrite zsum_one, Uf_diag. ring.
      + intros k Hk. rewrite Uf_out by lia. ring.
    - intros i x Hi (Lx & E1 & E2).
      set (top := Z.min (B - 1) (N - 2 - i)).
      set (K := fun j (z : arr R) => alen z = N /\ (forall p, p <> i -> afn z p = afn x p) /\
         afn z i = (afn x i - zsum (j + 1) (top + 1) (fun j => afn x (i + j + 1)%Z * afn U (i * B + j)%Z))%R).
      destruct (fordown_total K top 0 (fun j x =>
        xi <- aget x i ;; xj <- aget x (i + j + 1) ;; u <- aget U (i * B + j) ;; aset x i (xi - xj * u)%R) x)
        as (z & Ez & Lz & Z1 & Z2).
      + unfold top; lia.
      + split; [exact Lx|]. split; [auto|]. rewrite zsum_nil by lia. ring.
      + intros j z Hj (P1 & P2 & P3). unfold top in *. pose proof (idx_U i j ltac:(lia) ltac:(lia)).
        arrs. eexists. split; [reflexivity|]. cbn [alen afn]. split; [exact P1|]. split.
        * intros p Hp. cbn [afn]. rewrite upd_other by exact Hp. apply P2. exact Hp.
        * cbn [afn]. rewrite upd_same, P3. replace (j - 1 + 1) with j by lia. rewrite (zsum_first j) by lia. rewrite (P2 (i + j + 1)) by lia. ring.
      + exists z. split; [exact Ez|]. split; [exact Lz|]. split.
        * intros m Hm. rewrite Z1 by lia. apply E1. lia.
        * intros m Hm. destruct (Z.eq_dec m i) as [->|Hne].
          -- rewrite (zsum_extend i (i + top + 2) 0 N); try (unfold top; lia).
             ++ rewrite zsum_first by (unfold top; lia). rewrite Uf_diag, Z2, <- E1 by lia.
                replace (0 - 1 + 1) with 0 by lia.
                rewrite (zsum_shift 0 (top + 1) (i + 1)).
                replace (0 + (i + 1)) with (i + 1) by lia. replace (top + 1 + (i + 1)) with (i + top + 2) by lia.
                match goal with |- _ = (1 * (_ - ?A) + ?B)%R => assert (Q : A = B) end.
                { apply zsum_ext. intros p Hp. unfold top in Hp. rewrite Uf_in by lia. rewrite Z1 by lia.
                  rewrite Rmult_comm. f_equal; f_equal; lia. }
                rewrite Q. ring.
             ++ intros k Hk. rewrite Uf_out by lia. ring.
             ++ intros k Hk. unfold top in Hk. rewrite Uf_out by lia. ring.
          -- rewrite (E2 m) by lia. apply zsum_ext. intros p Hp.
             destruct (Z.eq_dec p i) as [->|Hpi]; [rewrite Uf_out by lia; ring|rewrite Z1 by exact Hpi; reflexivity].
    - exists x. split; [reflexivity|]. split; [exact Lx|]. intros m Hm. apply Hx. lia.
  Qed.

  Lemma solve_gen_correct : safe (solve_gen N B data rhs)
    (fun x => alen x = N /\ forall k, 0 <= k < N -> zsum 0 N (fun j => dense B a k j * afn x j)%R = afn rhs k).
  Proof.
    unfold solve_gen. apply safe_bind with (P := Inv N B a (afn rhs) N).
    - apply for_safe; try lia.
      + split; [reflexivity|]. split; [exact Hrhs|]. cbn [fst snd]. split; [|auto]. exists (fun _ _ => 0%R). intros; lia.
      + intros i [U x] Hi HI. apply row_safe with (U := U), gen_row; assumption.
    - intros [U y] (LU & Ly & (Lm & HL) & _). cbn [fst snd] in *.
      destruct (gen_back U y LU Ly) as (x & -> & Lx & Hx). cbn [safe]. split; [exact Lx|].
      exact (solution N B HB a (afn rhs) (afn U) (afn y) (afn x) Lm HL Hx).
  Qed.
End Gen.

Section Tri.
  Variables (N : Z) (HN : 1 < N) (data rhs : arr R).
  Hypothesis Hdata : alen data = N * (1 * 2 + 1).
  Hypothesis Hrhs : alen rhs = N.
  Notation a := (afn data).

  Lemma redsum0 U L k : redsum 1 U L k 0 = 0%R.
  Proof. unfold redsum. rewrite zsum_nil; [reflexivity|]. unfold rmin, rmax. lia. Qed.
  Lemma redsum2 U L k : redsum 1 U L k 2 = 0%R.
  Proof. unfold redsum. rewrite zsum_nil; [reflexivity|]. unfold rmin, rmax. lia. Qed.
  Lemma redsum1 U L k : 0 < k -> redsum 1 U L k 1 = (L 0%Z * U (k - 1)%Z)%R.
  Proof.
    intros H. unfold redsum. replace (rmin 1 k 1) with 0 by (unfold rmin; lia). change (rmax 1 1) with (0 + 1).
    rewrite zsum_one. do 2 f_equal. lia.
  Qed.
  Lemma redsum10 U L : redsum 1 U L 0 1 = 0%R.
  Proof. unfold redsum. rewrite zsum_nil; [reflexivity|]. unfold rmin, rmax. lia. Qed.

  Lemma tri_row i U x : 0 <= i < N -> Inv N 1 a (afn rhs) i (U, x) ->
    row_outcome N 1 a (afn rhs) i U (solve_tri_row data rhs i (U, x)).
  Proof.
    intros Hi HI. pose proof HI as (LU & Lx & HL & Hx). cbn [fst snd] in *. unfold solve_tri_row.
    rewrite aget_ok by lia. cbn [bind].
    set (t := (if i >? 0 then a (i * 3) * afn U (i - 1)%Z else 0)%R).
    assert (Et : (if i >? 0 then d <- aget data (i * 3);; u <- aget U (i - 1);; Ok (d * u)%R else Ok 0%R) = Ok t).
    { unfold t. rewrite Z.gtb_ltb. destruct (0 <? i) eqn:E; [|reflexivity]. apply Z.ltb_lt in E. arrs. reflexivity. }
    set (L := fun c => if c =? 1 then (a (i * 3 + 1) - t)%R else a (i * 3 + c)).
    assert (L0 : L 0 = a (i * 3)) by (unfold L; cbn; f_equal; lia).
    assert (L1 : L 1 = (a (i * 3 + 1) - t)%R) by reflexivity.
    exists L. split.
    { intros c Hc. change (1 * 2 + 1) with 3. assert (c = 0 \/ c = 1 \/ c = 2) as [-> |[-> | ->]] by lia.
      - rewrite redsum0, L0, Z.add_0_r. ring.
      - rewrite L1. unfold t. rewrite Z.gtb_ltb. destruct (0 <? i) eqn:E.
        + apply Z.ltb_lt in E. rewrite redsum1 by lia. rewrite L0. ring.
        + apply Z.ltb_ge in E. assert (i = 0) by lia. subst i. rewrite redsum10. ring.
      - rewrite redsum2. unfold L. cbn. ring. }
    rewrite Et. cbn [bind]. unfold rinv. rewrite L1.
    destruct (Req_EM_T (a (i * 3 + 1) - t) 0) as [E0|Hp]; [left; auto|right; split; [exact Hp|]]. cbn [bind].
    rewrite (aget_ok data (i * 3 + 2)) by lia. cbn [bind]. rewrite aset_ok by lia. cbn [bind]. rewrite (aget_ok rhs i) by lia. cbn [bind].
    set (t2 := (if i >? 0 then a (i * 3) * afn x (i - 1)%Z else 0)%R).
    assert (Et2 : (if i >? 0 then d <- aget data (i * 3);; u <- aget x (i - 1);; Ok (d * u)%R else Ok 0%R) = Ok t2).
    { unfold t2. rewrite Z.gtb_ltb. destruct (0 <? i) eqn:E; [|reflexivity]. apply Z.ltb_lt in E. arrs. reflexivity. }
    rewrite Et2. cbn [bind]. arrs. do 2 eexists. split; [reflexivity|]. cbn [afn].
    split; [|split; [intros p Hp'; rewrite upd_other by lia; reflexivity|
       intros c Hc; assert (c = 2) by lia; subst c; replace (i * 1 + 2 - 1 - 1) with i by lia; rewrite upd_same; reflexivity]].
    apply Inv_step with (U := U) (x := x) (L := L); auto; cbn [alen afn]; try lia.
    { intros k Hk. rewrite upd_other by lia. reflexivity. }
    { intros k Hk Hne. rewrite upd_other by lia. reflexivity. }
    change (1 * 2 + 1) with 3 in *.
    split; [exact Hp|]. split; [|split].
    - intros c Hc. assert (c = 0 \/ c = 1) as [-> | ->] by lia.
      + rewrite redsum0, L0. change (1 * 2 + 1) with 3. rewrite Z.add_0_r. ring.
      + change (1 * 2 + 1) with 3. rewrite L1. unfold t. rewrite Z.gtb_ltb. destruct (0 <? i) eqn:E.
        * apply Z.ltb_lt in E. rewrite redsum1 by lia. rewrite upd_other by lia. rewrite L0. ring.
        * apply Z.ltb_ge in E. assert (i = 0) by lia. subst i. rewrite redsum10. ring.
    - intros c Hc. assert (c = 2) by lia. subst c. rewrite redsum2, L1. change (1 * 2 + 1) with 3.
      replace (i * 1 + 2 - 1 - 1) with i by lia. rewrite upd_same. field. exact Hp.
    - rewrite upd_same, L1. unfold t2. rewrite Z.gtb_ltb. destruct (0 <? i) eqn:E.
      + apply Z.ltb_lt in E. replace (Z.max 0 (1 - i)) with 0 by lia. rewrite (zsum_one 0).
        replace (i - 1 + 0) with (i - 1) by lia. rewrite upd_other by lia. rewrite L0. field. exact Hp.
      + apply Z.ltb_ge in E. rewrite zsum_nil by lia. field. exact Hp.
  Qed.

  Lemma tri_back U y : alen U = N -> alen y = N ->
    exists x, fordown (N - 2) 0 (fun i x =>
       xi <- aget x i ;; u <- aget U i ;; xn <- aget x (i + 1) ;; aset x i (xi - u * xn)%R) y = Ok x /\ alen x = N /\
      forall m, 0 <= m < N -> afn y m = zsum 0 N (fun j => Uf 1 (afn U) m j * afn x j)%R.
  Proof.
    intros LU Ly.
    set (I := fun i (x : arr R) => alen x = N /\ (forall m, 0 <= m <= i -> afn x m = afn y m) /\
       (forall m, i < m < N -> afn y m = zsum 0 N (fun j => Uf 1 (afn U) m j * afn x j)%R)).
    destruct (fordown_total I (N - 2) 0 (fun i x =>
       xi <- aget x i ;; u <- aget U i ;; xn <- aget x (i + 1) ;; aset x i (xi - u * xn)%R) y) as (x & -> & Lx & _ & Hx).
    - lia.
    - split; [exact Ly|]. split; [auto|]. intros m Hm. assert (m = N - 1) by lia. subst m.
      rewrite (zsum_extend (N - 1) (N - 1 + 1) 0 N); try lia.
      + rewrite zsum_one, Uf_diag. ring.
      + intros k Hk. rewrite Uf_out by lia. ring.
    - intros i x Hi (Lx & E1 & E2). arrs. eexists. split; [reflexivity|]. split; [exact Lx|]. cbn [afn]. split.
      + intros m Hm. rewrite upd_other by lia. apply E1. lia.
      + intros m Hm. destruct (Z.eq_dec m i) as [->|Hne].
        * rewrite (zsum_extend i (i + 1 + 1) 0 N); try lia.
          -- rewrite zsum_first by lia. rewrite zsum_one, Uf_diag, upd_same, upd_other, Uf_in by lia.
             rewrite <- E1 by lia. replace (i * 1 + (i + 1) - i - 1) with i by lia. ring.
          -- intros k Hk. rewrite Uf_out by lia. ring.
          -- intros k Hk. rewrite Uf_out by lia. ring.
        * rewrite (E2 m) by lia. apply zsum_ext. intros p Hp.
          destruct (Z.eq_dec p i) as [->|Hpi]; [rewrite Uf_out by lia; ring|rewrite upd_other by exact Hpi; reflexivity].
    - exists x. split; [reflexivity|]. split; [exact Lx|]. intros m Hm. apply Hx. lia.
  Qed.

  Lemma solve_tri_correct : safe (solve_tri N data rhs)
    (fun x => alen x = N /\ forall k, 0 <= k < N -> zsum 0 N (fun j => dense 1 a k j * afn x j)%R = afn rhs k).
  Proof.
    unfold solve_tri. apply safe_bind with (P := Inv N 1 a (afn rhs) N).
    - apply for_safe; try lia.
      + split; [cbn; lia|]. split; [exact Hrhs|]. cbn [fst snd]. split; [|auto]. exists (fun _ _ => 0%R). intros; lia.
      + intros i [U x] Hi HI. apply row_safe with (U := U), tri_row; assumption.
    - intros [U y] (LU & Ly & (Lm & HL) & _). cbn [fst snd] in *.
      destruct (tri_back U y ltac:(lia) Ly) as (x & -> & Lx & Hx). cbn [safe]. split; [exact Lx|].
      exact (solution N 1 ltac:(lia) a (afn rhs) (afn U) (afn y) (afn x) Lm HL Hx).
  Qed.
End Tri.
