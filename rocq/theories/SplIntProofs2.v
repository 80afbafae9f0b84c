From Coquelicot Require Import Coquelicot.
From Verif Require Import Arr BinSearchModel SplineModel SplineGlue SplIntModel PolyProofs RootProofs SplineSpec SplIntSpec SplIntProofs.
Local Open Scope R_scope.

Lemma zsum_sum_swap lo hi n (f : Z -> nat -> R) : zsum lo hi (fun j => sum_f_R0 (fun k => f j k) n) = sum_f_R0 (fun k => zsum lo hi (fun j => f j k)) n.
Proof. induction n as [|n IH]; cbn [sum_f_R0]; [reflexivity|]. rewrite zsum_plus, IH. reflexivity. Qed.
Lemma for_sum (lo hi : Z) (body : Z -> R -> res R) (g : Z -> R) r : (lo <= hi)%Z ->
  (forall k r, (lo <= k < hi)%Z -> body k r = Ok (r + g k)) -> for_ lo hi body r = Ok (r + zsum lo hi g).
Proof.
  intros L H. destruct (for_total (fun i s => s = r + zsum lo i g) lo hi body r L) as (s & E & ->).
  - rewrite zsum_nil by lia. ring.
  - intros i s Hi ->. rewrite (H i) by lia. eexists. split; [reflexivity|]. rewrite zsum_last by lia. ring.
  - exact E.
Qed.
Lemma zsum_abs lo hi f : Rabs (zsum lo hi f) <= zsum lo hi (fun i => Rabs (f i)).
Proof.
  unfold zsum. generalize (Z.to_nat (hi - lo)) as n. intros n. revert lo. induction n as [|n IH]; intros l; cbn [zsumn]; [rewrite Rabs_R0; lra|].
  eapply Rle_trans; [apply Rabs_triang|]. apply Rplus_le_compat_l, IH.
Qed.
Lemma zsum_minus lo hi f g : zsum lo hi f - zsum lo hi g = zsum lo hi (fun i => f i - g i).
Proof.
  unfold Rminus at 1. rewrite <- (Rmult_1_l (zsum lo hi g)), Ropp_mult_distr_l, <- zsum_scal, <- zsum_plus. apply zsum_ext. intros. ring.
Qed.
Lemma zsum_nonneg lo hi f : (forall k, (lo <= k < hi)%Z -> 0 <= f k) -> 0 <= zsum lo hi f.
Proof. intros H. pose proof (zsum_le lo hi (fun _ => 0) f H) as L. rewrite zsum_0 in L by reflexivity. exact L. Qed.
Lemma sum_abs_le f n : Rabs (sum_f_R0 f n) <= sum_f_R0 (fun k => Rabs (f k)) n.
Proof. apply Rsum_abs. Qed.

(** one segment of the Gauss-Legendre quadrature *)
Lemma gl_seg T order e K c : (1 <= order)%Z -> rule_within T order e -> (Z.of_nat K <= 2 * order - 1)%Z ->
  Rabs (zsum 0 order (fun j => glw T order j * poly K c (glp T order j)) - sum_f_R0 (fun k => c k / INR (k + 1)) K) <= e * sum_f_R0 (fun k => Rabs (c k)) K.
Proof.
  intros Ho [_ Re] HK.
  rewrite (zsum_ext 0 order _ (fun j => sum_f_R0 (fun k => c k * (glw T order j * glp T order j ^ k)) K)).
  2:{ intros j _. unfold poly. rewrite scal_sum. apply sum_eq. intros. ring. }
  rewrite zsum_sum_swap, <- minus_sum. eapply Rle_trans; [apply sum_abs_le|]. rewrite scal_sum. apply sum_Rle. intros k Hk.
  rewrite zsum_scal. replace (c k * zsum 0 order (fun j => glw T order j * glp T order j ^ k) - c k / INR (k + 1))
    with (c k * (zsum 0 order (fun j => glw T order j * glp T order j ^ k) - 1 / INR (k + 1))) by (field; apply not_0_INR; lia).
  rewrite Rabs_mult. apply Rmult_le_compat_l; [apply Rabs_pos|]. apply Re. lia.
Qed.

Section Power.
  Variables (T : gltab) (N : nat) (S : interp) (F : R -> R).
  Notation x := (i_x S).
  Hypothesis Hx : increasing x.
  Hypothesis Hn : (2 <= alen x)%Z.
  Hypothesis HF : computes S F.
  Hypothesis HP : piecewise_poly N x F.
  Variable n : Z.
  Hypothesis Hnn : (0 <= n)%Z.
  Notation order := ((Z.of_nat N + n) / 2 + 1)%Z.
  Hypothesis Hord : (order <= MAX_GL_TABLE)%Z.
  Variable e : R.
  Hypothesis HT : rule_within T order e.
  Notation K := (N + Z.to_nat n)%nat.

  Lemma order_ge1 : (1 <= order)%Z. Proof. pose proof (Z.div_pos (Z.of_nat N + n) 2 ltac:(lia) ltac:(lia)). lia. Qed.
  Lemma order_K : (Z.of_nat K <= 2 * order - 1)%Z.
  Proof. pose proof (Z.mod_pos_bound (Z.of_nat N + n) 2 ltac:(lia)). pose proof (Z.div_mod (Z.of_nat N + n) 2 ltac:(lia)). lia. Qed.
  Lemma in_grid i t : (0 <= i < alen x - 1)%Z -> afn x i <= t <= afn x (i + 1)%Z -> x_first x <= t <= x_last x.
  Proof.
    intros Hi Ht. unfold x_first, x_last. pose proof (inc_le x Hx 0 i ltac:(lia) ltac:(lia) ltac:(lia)). pose proof (inc_le x Hx (i + 1) (alen x - 1) ltac:(lia) ltac:(lia) ltac:(lia)). lra.
  Qed.
  (** coefficients of S(u+t(v-u)) (u+t(v-u))^n on a part [u,v] of a segment *)
  Lemma seg_coefs i u v : (0 <= i < alen x - 1)%Z -> afn x i <= u -> u < v -> v <= afn x (i + 1)%Z ->
    exists c, forall t, 0 <= t <= 1 -> F (u + t * (v - u)) * (u + t * (v - u)) ^ Z.to_nat n = poly K c t.
  Proof.
    intros Hi Hu Huv Hv. destruct (HP i Hi) as (a & Ha). destruct (poly_pow N (Z.to_nat n) a) as (b & Hb). destruct (poly_affine K b u (v - u)) as (c & Hc).
    exists c. intros t Ht. rewrite <- Hc, (Rmult_comm (v - u) t), <- Hb. f_equal. apply Ha. nra.
  Qed.
  Section Range.
    Variables (x1 x2 : R) (i1 i2 : Z).
    Hypothesis H12 : x1 < x2.
    Hypothesis Hi1 : (0 <= i1 < i2)%Z.
    Hypothesis Hi2 : (i2 < alen x)%Z.
    Hypothesis P1 : afn x i1 <= x1 < afn x (i1 + 1)%Z.
    Hypothesis P2 : afn x (i2 - 1)%Z < x2 <= afn x i2.
    Lemma power_loop : exists r I c,
      for_ i1 i2 (fun i result =>
        yl <- aget x i ;; yh <- aget x (i + 1)%Z ;;
        for_ 0%Z order (fun k result =>
          s <- i_ev S (Rmax yl x1 + glp T order k * (Rmin yh x2 - Rmax yl x1)) ;;
          Ok (result + s * (Rmax yl x1 + glp T order k * (Rmin yh x2 - Rmax yl x1)) ^ Z.to_nat n * (Rmin yh x2 - Rmax yl x1) * glw T order k)) result) 0 = Ok r /\
      is_RInt (fun t => F t * t ^ Z.to_nat n) x1 x2 I /\
      (forall i, (i1 <= i < i2)%Z -> forall t, 0 <= t <= 1 ->
         let u := Rmax (afn x i) x1 in let v := Rmin (afn x (i + 1)%Z) x2 in F (u + t * (v - u)) * (u + t * (v - u)) ^ Z.to_nat n = poly K (c i) t) /\
      Rabs (r - I) <= e * zsum i1 i2 (fun i => (Rmin (afn x (i + 1)%Z) x2 - Rmax (afn x i) x1) * sum_f_R0 (fun k => Rabs (c i k)) K).
    Proof.
      pose proof (seg_pts x Hx x1 x2 i1 i2 H12 Hi1 Hi2 P1 P2) as SP.
      assert (C : exists c : Z -> nat -> R, forall i, (i1 <= i < i2)%Z -> forall t, 0 <= t <= 1 -> let u := pt x x1 x2 i in let v := pt x x1 x2 (i + 1) in F (u + t * (v - u)) * (u + t * (v - u)) ^ Z.to_nat n = poly K (c i) t).
      { assert (G : forall m : nat, exists c : Z -> nat -> R, forall i, (i1 <= i < i1 + Z.of_nat m)%Z -> (i < i2)%Z -> forall t, 0 <= t <= 1 -> let u := pt x x1 x2 i in let v := pt x x1 x2 (i + 1) in F (u + t * (v - u)) * (u + t * (v - u)) ^ Z.to_nat n = poly K (c i) t).
        { induction m as [|m [c IH]]; [exists (fun _ _ => 0); intros; lia|]. destruct (Z_lt_le_dec (i1 + Z.of_nat m) i2) as [L|L]; [|exists c; intros i A B; apply IH; lia].
          destruct (SP (i1 + Z.of_nat m)%Z ltac:(lia)) as (_ & _ & Q1 & Q2 & Q3).
          destruct (seg_coefs (i1 + Z.of_nat m) _ _ ltac:(lia) Q2 Q1 Q3) as (c' & Hc'). exists (fun i => if (i =? i1 + Z.of_nat m)%Z then c' else c i).
          intros i A B. destruct (Z.eqb_spec i (i1 + Z.of_nat m)) as [->|Ne]; [exact Hc'|apply IH; lia]. }
        destruct (G (Z.to_nat (i2 - i1))) as (c & Hc). exists c. intros i Hi. apply Hc; lia. }
      destruct C as (c & Hc).
      set (dd := fun i => pt x x1 x2 (i + 1) - pt x x1 x2 i).
      exists (zsum i1 i2 (fun i => dd i * zsum 0 order (fun j => glw T order j * poly K (c i) (glp T order j)))),
             (zsum i1 i2 (fun i => dd i * sum_f_R0 (fun k => c i k / INR (k + 1)) K)), c.
      split; [|split; [|split]].
      - match goal with |- ?l = Ok ?s => rewrite <- (Rplus_0_l s) end. apply for_sum; [lia|]. intros i r Hi. destruct (SP i Hi) as (Q4 & Q5 & Q1 & Q2 & Q3).
        rewrite !aget_ok by lia. cbn [bind]. rewrite Q4, Q5. rewrite <- (zsum_scal 0 order (dd i)). apply for_sum; [pose proof order_ge1; lia|]. intros k r' Hk.
        pose proof (proj1 HT k Hk) as Pk. rewrite HF.
        + cbn [bind]. rewrite <- (Hc i Hi _ Pk). unfold dd. f_equal. cbv zeta. ring.
        + apply (in_grid i); [lia|]. pose proof (Rmult_le_compat_r (pt x x1 x2 (i + 1) - pt x x1 x2 i) _ _ ltac:(lra) (proj2 Pk)). pose proof (Rmult_le_pos _ (pt x x1 x2 (i + 1) - pt x x1 x2 i) (proj1 Pk) ltac:(lra)). lra.
      - apply (parts_RInt x x1 x2 i1 i2 H12 Hi1 P1 P2). intros i Hi. destruct (SP i Hi) as (_ & _ & Q1 & Q2 & Q3). apply (RI_affine _ (poly K (c i))); [exact Q1|apply (Hc i Hi)|apply RI_poly01].
      - intros i Hi t Ht. cbv zeta. destruct (SP i Hi) as (-> & -> & _). exact (Hc i Hi t Ht).
      - rewrite zsum_minus. eapply Rle_trans; [apply zsum_abs|]. rewrite <- zsum_scal. apply zsum_le. intros i Hi. destruct (SP i Hi) as (-> & -> & Q1 & _). fold (dd i). assert (0 < dd i) by (unfold dd; lra).
        rewrite <- Rmult_minus_distr_l, Rabs_mult, (Rabs_pos_eq (dd i)) by lra. rewrite <- Rmult_assoc, (Rmult_comm e), Rmult_assoc. apply Rmult_le_compat_l; [lra|]. apply gl_seg; [apply order_ge1|exact HT|apply order_K].
    Qed.
  End Range.
  (** the integral over any interval: the value returned differs from the integral by at most e times the sum of the absolute values of the
      coefficients of the integrand expanded in powers of the normalised coordinate of each segment *)
  Lemma integratePower_bound a b : exists r I c, integratePower T (Z.of_nat N) S a b n = Ok r /\ is_RInt (fun t => cut x F t * t ^ Z.to_nat n) a b I /\
    (let lo := Rmax (Rmin a b) (x_first x) in let hi := Rmin (Rmax a b) (x_last x) in
     let u i := Rmax (afn x i) lo in let v i := Rmin (afn x (i + 1)%Z) hi in
     (forall i, (0 <= i < alen x - 1)%Z -> u i < v i -> forall t, 0 <= t <= 1 -> F (u i + t * (v i - u i)) * (u i + t * (v i - u i)) ^ Z.to_nat n = poly K (c i) t) /\
     Rabs (r - I) <= e * zsum 0 (alen x - 1) (fun i => Rmax 0 (v i - u i) * sum_f_R0 (fun k => Rabs (c i k)) K)).
  Proof.
    assert (E0 : 0 <= e).
    { pose proof (proj2 HT 0%nat ltac:(pose proof order_ge1; lia)) as H. eapply Rle_trans; [apply Rabs_pos|exact H]. }
    assert (B : forall p q, p <= q -> exists r I c,
      (let lo := Rmax p (x_first x) in let hi := Rmin q (x_last x) in
       (if Rle_b hi lo then Ok 0 else
        ij <- segRange x lo hi ;;
        for_ (fst ij) (snd ij) (fun i result =>
          yl <- aget x i ;; yh <- aget x (i + 1)%Z ;;
          for_ 0%Z order (fun k result =>
            s <- i_ev S (Rmax yl lo + glp T order k * (Rmin yh hi - Rmax yl lo)) ;;
            Ok (result + s * (Rmax yl lo + glp T order k * (Rmin yh hi - Rmax yl lo)) ^ Z.to_nat n * (Rmin yh hi - Rmax yl lo) * glw T order k)) result) 0) = Ok r) /\
      is_RInt (fun t => cut x F t * t ^ Z.to_nat n) p q I /\
      (let lo := Rmax p (x_first x) in let hi := Rmin q (x_last x) in
       let u i := Rmax (afn x i) lo in let v i := Rmin (afn x (i + 1)%Z) hi in
       (forall i, (0 <= i < alen x - 1)%Z -> u i < v i -> forall t, 0 <= t <= 1 -> F (u i + t * (v i - u i)) * (u i + t * (v i - u i)) ^ Z.to_nat n = poly K (c i) t) /\
       Rabs (r - I) <= e * zsum 0 (alen x - 1) (fun i => Rmax 0 (v i - u i) * sum_f_R0 (fun k => Rabs (c i k)) K))).
    { intros p q Hpq. cbv zeta. set (lo := Rmax p (x_first x)). set (hi := Rmin q (x_last x)).
      assert (Lx : forall i, (0 <= i < alen x - 1)%Z -> x_first x <= afn x i /\ afn x (i + 1)%Z <= x_last x).
      { intros i Hi. split; apply inc_le; try assumption; lia. }
      destruct (Rle_lt_dec hi lo) as [L|L].
      - rewrite (Rle_b_t hi lo L). exists 0, 0, (fun _ _ => 0). split; [reflexivity|]. split; [|split].
        + apply cut_RInt; try assumption; fold lo; fold hi; [intros; lra|reflexivity].
        + intros i Hi Huv. exfalso. pose proof (Rmax_r (afn x i) lo). pose proof (Rmin_r (afn x (i + 1)%Z) hi). lra.
        + rewrite Rminus_0_r, Rabs_R0. apply Rmult_le_pos; [exact E0|]. apply zsum_nonneg. intros i _. apply Rmult_le_pos; [apply Rmax_l|]. apply cond_pos_sum. intros. first [apply Rabs_pos|lra].
      - rewrite (Rle_b_f hi lo L). assert (A1 : x_first x <= lo) by apply Rmax_r. assert (A2 : hi <= x_last x) by apply Rmin_r.
        destruct (segRange_ok x Hx Hn lo hi A1 L A2) as (i1 & i2 & Es & Hi1 & Hi2 & P1 & P2). rewrite Es. cbn [bind fst snd].
        destruct (power_loop lo hi i1 i2 L Hi1 Hi2 P1 P2) as (r & I & c & El & Hi & Hc & He). exists r, I, c. split; [exact El|]. split; [|split].
        + apply cut_RInt; try assumption; fold lo; fold hi; [intros; exact Hi|lra].
        + intros i Hii Huv. apply (Hc i). pose proof (Rmax_l (afn x i) lo). pose proof (Rmax_r (afn x i) lo). pose proof (Rmin_l (afn x (i + 1)%Z) hi). pose proof (Rmin_r (afn x (i + 1)%Z) hi).
          split.
          * destruct (Z_le_gt_dec i1 i) as [?|G]; [assumption|]. pose proof (inc_le x Hx (i + 1) i1 ltac:(lia) ltac:(lia) ltac:(lia)). lra.
          * destruct (Z_lt_le_dec i i2) as [?|G]; [assumption|]. pose proof (inc_le x Hx i2 i ltac:(lia) ltac:(lia) ltac:(lia)). lra.
        + eapply Rle_trans; [exact He|]. apply Rmult_le_compat_l; [exact E0|].
          rewrite (zsum_split 0 i1 (alen x - 1)) by lia. rewrite (zsum_split i1 i2 (alen x - 1)) by lia.
          assert (NN : forall p q, 0 <= zsum p q (fun i => Rmax 0 (Rmin (afn x (i + 1)%Z) hi - Rmax (afn x i) lo) * sum_f_R0 (fun k => Rabs (c i k)) K)).
          { intros p' q'. apply zsum_nonneg. intros i _. apply Rmult_le_pos; [apply Rmax_l|]. apply cond_pos_sum. intros. first [apply Rabs_pos|lra]. }
          pose proof (NN 0%Z i1). pose proof (NN i2 (alen x - 1)%Z).
          assert (zsum i1 i2 (fun i => (Rmin (afn x (i + 1)%Z) hi - Rmax (afn x i) lo) * sum_f_R0 (fun k => Rabs (c i k)) K) <= zsum i1 i2 (fun i => Rmax 0 (Rmin (afn x (i + 1)%Z) hi - Rmax (afn x i) lo) * sum_f_R0 (fun k => Rabs (c i k)) K)).
          { apply zsum_le. intros i _. apply Rmult_le_compat_r; [apply cond_pos_sum; intros; apply Rabs_pos|apply Rmax_r]. }
          lra. }
    unfold integratePower. rewrite (proj2 (Z.ltb_ge MAX_GL_TABLE order)) by lia. rewrite (proj2 (Z.ltb_ge (alen x) 2)) by lia.
    rewrite !aget_ok by lia. cbn [bind]. fold (x_first x). fold (x_last x).
    destruct (Rle_lt_dec a b) as [L|L].
    - unfold Rlt_b. destruct (Rlt_dec b a); [lra|]. destruct (B a b L) as (r & I & c & E1 & HI & Hc & He). exists r, I, c.
      cbv zeta in *. rewrite (Rmin_left a b), (Rmax_right a b) by lra. split; [|split; [exact HI|split; assumption]].
      destruct (Rle_b (Rmin b (x_last x)) (Rmax a (x_first x))); [exact E1|]. destruct (segRange x (Rmax a (x_first x)) (Rmin b (x_last x))); cbn [bind] in *; try discriminate. rewrite E1. reflexivity.
    - unfold Rlt_b. destruct (Rlt_dec b a); [|lra]. destruct (B b a ltac:(lra)) as (r' & I & c & E1 & HI & Hc & He). exists (- r'), (- I), c.
      cbv zeta in *. rewrite (Rmin_right a b), (Rmax_left a b) by lra. split; [|split; [apply RI_swap; exact HI|split; [exact Hc|]]].
      + destruct (Rle_b (Rmin a (x_last x)) (Rmax b (x_first x))).
        * injection E1 as <-. f_equal. ring.
        * destruct (segRange x (Rmax b (x_first x)) (Rmin a (x_last x))); cbn [bind] in *; try discriminate. rewrite E1. reflexivity.
      + replace (- r' - - I) with (- (r' - I)) by ring. rewrite Rabs_Ropp. exact He.
  Qed.
End Power.
Lemma integratePower_exact T N S F n : increasing (i_x S) -> (2 <= alen (i_x S))%Z -> computes S F -> piecewise_poly N (i_x S) F -> (0 <= n)%Z ->
  ((Z.of_nat N + n) / 2 + 1 <= MAX_GL_TABLE)%Z -> rule_exact T ((Z.of_nat N + n) / 2 + 1) ->
  forall a b, exists r, integratePower T (Z.of_nat N) S a b n = Ok r /\ is_RInt (fun t => cut (i_x S) F t * t ^ Z.to_nat n) a b r.
Proof.
  intros Hx Hn HF HP Hnn Ho HT a b. destruct (integratePower_bound T N S F Hx Hn HF HP n Hnn Ho 0 HT a b) as (r & I & c & E & HI & _ & He).
  exists r. split; [exact E|]. rewrite Rmult_0_l in He. assert (r - I = 0). { apply Rabs_eq_0. pose proof (Rabs_pos (r - I)). lra. }
  replace r with I by lra. exact HI.
Qed.
