(** integrateBspline *)
From Coquelicot Require Import Coquelicot.
From Verif Require Import Arr BinSearchModel SplineModel SplineGlue SplIntModel PolyProofs RootProofs SplIntProofs SplIntProofs2 SplIntProofs5 BsplModel SplineSpec SplIntSpec BsplSpec BsplProofs BsplProofs2 BsplProofs3.
Local Open Scope R_scope.

Lemma cox_poly x m n : increasing x -> (2 <= alen x)%Z -> (0 <= m <= alen x - 2)%Z -> forall j, exists c, forall t, cox x m n j t = poly n c t.
Proof.
  intros Hx Hn Hm. induction n as [|n IH]; intros j.
  - exists (fun _ => if (j =? m)%Z then 1 else 0). intros t. unfold poly. cbn. ring.
  - destruct (IH j) as (c1 & H1). destruct (IH (j + 1)%Z) as (c2 & H2).
    set (A := knot x (j + Z.of_nat n + 1)%Z - knot x j). set (B := knot x (j + Z.of_nat n + 2)%Z - knot x (j + 1)%Z).
    exists (fun k => / A * (match k with O => 0 | S j => c1 j end) + - (knot x j / A) * (if (k <=? n)%nat then c1 k else 0)
              + (knot x (j + Z.of_nat n + 2)%Z / B * (if (k <=? n)%nat then c2 k else 0) + - / B * (match k with O => 0 | S j => c2 j end))).
    intros t. rewrite (cox_S x Hx Hn m Hm). rewrite H1, H2. fold A B. rewrite <- !poly_add, <- !poly_scal. rewrite <- !poly_tmul. rewrite <- !(poly_pad n (S n)) by lia. unfold Rdiv. ring.
Qed.
Lemma sp_poly x a N m : increasing x -> (2 <= alen x)%Z -> (0 <= m <= alen x - 2)%Z -> exists c, forall t, sp x a N 0 m t = poly N c t.
Proof.
  intros Hx Hn Hm. unfold sp, zsum. generalize (Z.to_nat (m + 1 - (m - Z.of_nat N))) as p. generalize (m - Z.of_nat N)%Z as lo. intros lo p. revert lo. induction p as [|p IH]; intros lo; cbn [zsumn dn].
  - exists (fun _ => 0). intros t. symmetry. unfold poly. apply sum_eq_R0. intros. ring.
  - destruct (IH (lo + 1)%Z) as (c1 & H1). destruct (cox_poly x m N Hx Hn Hm lo) as (c2 & H2). exists (fun k => afn a (lo + Z.of_nat N)%Z * c2 k + c1 k).
    intros t. rewrite <- poly_add, <- poly_scal, <- H1, <- H2. cbn [dn]. ring.
Qed.
Lemma for_sum' (lo hi : Z) (body : Z -> R -> res R) (g : Z -> R) r :
  (forall i r, (lo <= i < hi)%Z -> body i r = Ok (r + g i)) -> for_ lo hi body r = Ok (r + zsum lo hi g).
Proof.
  intros H. destruct (Z_le_gt_dec lo hi); [apply for_sum; assumption|]. rewrite for_empty, zsum_nil by lia. f_equal. ring.
Qed.
Lemma chain (f : R -> R) (u : Z -> R) (I : Z -> R) i1 i2 : (i1 <= i2)%Z -> (forall i, (i1 <= i < i2)%Z -> is_RInt f (u i) (u (i + 1)%Z) (I i)) -> is_RInt f (u i1) (u i2) (zsum i1 i2 I).
Proof.
  intros H. replace i2 with (i1 + Z.of_nat (Z.to_nat (i2 - i1)))%Z by lia. generalize (Z.to_nat (i2 - i1)) as p. intros p. induction p as [|p IH]; intros HI.
  - rewrite zsum_nil by lia. rewrite Z.add_0_r. apply RI_point.
  - replace (i1 + Z.of_nat (S p))%Z with (i1 + Z.of_nat p + 1)%Z in * by lia. rewrite zsum_last by lia. apply (RI_chasles f _ (u (i1 + Z.of_nat p)%Z)); [apply IH|apply HI; lia]. intros i Hi. apply HI. lia.
Qed.

Section Int.
  Variable (T : gltab) (x A : arr R) (N : nat) (n : Z) (e : R).
  Hypothesis Hx : increasing x.
  Hypothesis Hn : (2 <= alen x)%Z.
  Hypothesis LA : alen A = (alen x + Z.of_nat N - 1)%Z.
  Hypothesis Hnn : (0 <= n)%Z.
  Notation order := ((Z.of_nat N + n) / 2 + 1)%Z.
  Hypothesis Hord : (order < MAX_GL_TABLE)%Z.
  Hypothesis HT : rule_within T order e.
  Notation K := (N + Z.to_nat n)%nat.
  Let F := combination N x A.

  Lemma F_seg i t : (0 <= i <= alen x - 2)%Z -> afn x i < t < afn x (i + 1)%Z -> F t = sp x A N 0 i t.
  Proof.
    intros Hi Ht. unfold F.
    assert (W : within x t). { unfold within, x_first, x_last. pose proof (inc_le x Hx 0 i ltac:(lia) ltac:(lia) ltac:(lia)). pose proof (inc_le x Hx (i + 1) (alen x - 1) ltac:(lia) ltac:(lia) ltac:(lia)). lra. }
    rewrite <- (Fo_comb x A N Hx Hn t W). destruct (Fo_pieced x A N Hx Hn 0 t) as (k & Hk & ->). rewrite (sinseg_unique x Hx i k t); [|split; [lia|split; intros; lra]|exact Hk].
    unfold piece, clampseg. f_equal. lia.
  Qed.
  Lemma bspl_loop a b : a <= b -> exists r I c,
    (b1 <- binSearchR a (alist x) ;; b2 <- binSearchR b (alist x) ;;
     for_ (Z.max b1 0) (Z.min b2 (alen x - 2) + 1) (fun i result =>
      yl <- aget x i ;; yh <- aget x (i + 1)%Z ;;
      for_ 0%Z order (fun k result =>
        bspl <- bsplineValues (Z.of_nat N) (Rmax yl a + glp T order k * (Rmin yh b - Rmax yl a)) i x ;;
        fval <- bsplSum N bspl A i ;;
        Ok (result + fval * (Rmax yl a + glp T order k * (Rmin yh b - Rmax yl a)) ^ Z.to_nat n * (Rmin yh b - Rmax yl a) * glw T order k)) result) 0) = Ok r /\
    is_RInt (fun t => cut x F t * t ^ Z.to_nat n) a b I /\
    (let u i := Rmax (afn x i) a in let v i := Rmin (afn x (i + 1)%Z) b in
     (forall i, (0 <= i < alen x - 1)%Z -> u i < v i -> forall t, 0 < t < 1 -> F (u i + t * (v i - u i)) * (u i + t * (v i - u i)) ^ Z.to_nat n = poly K (c i) t) /\
     Rabs (r - I) <= e * zsum 0 (alen x - 1) (fun i => Rmax 0 (v i - u i) * sum_f_R0 (fun k => Rabs (c i k)) K)).
  Proof.
    intros Hab.
    assert (O1 : (1 <= order)%Z) by (pose proof (Z.div_pos (Z.of_nat N + n) 2 ltac:(lia) ltac:(lia)); lia).
    assert (OK : (Z.of_nat K <= 2 * order - 1)%Z) by (pose proof (Z.mod_pos_bound (Z.of_nat N + n) 2 ltac:(lia)); pose proof (Z.div_mod (Z.of_nat N + n) 2 ltac:(lia)); lia).
    assert (E0 : 0 <= e).
    { pose proof (proj2 HT 0%nat ltac:(lia)) as H. eapply Rle_trans; [apply Rabs_pos|exact H]. }
    destruct (bin_inseg x Hx ltac:(lia) a) as (k1 & E1 & (A1 & B1 & C1) & _ & D1 & D1').
    destruct (bin_inseg x Hx ltac:(lia) b) as (k2 & E2 & (A2 & B2 & C2) & _ & D2 & D2').
    rewrite E1, E2. cbn [bind]. set (i1 := Z.max k1 0). set (i2 := Z.min k2 (alen x - 2)).
    set (u := fun i => Rmax (afn x i) a). set (v := fun i => Rmin (afn x (i + 1)%Z) b).
    (* coefficients *)
    assert (CC : exists c : Z -> nat -> R, forall i, (0 <= i < alen x - 1)%Z -> forall t, sp x A N 0 i (u i + t * (v i - u i)) * (u i + t * (v i - u i)) ^ Z.to_nat n = poly K (c i) t).
    { assert (G : forall p : nat, exists c : Z -> nat -> R, forall i, (0 <= i < Z.of_nat p)%Z -> (i < alen x - 1)%Z -> forall t, sp x A N 0 i (u i + t * (v i - u i)) * (u i + t * (v i - u i)) ^ Z.to_nat n = poly K (c i) t).
      { induction p as [|p [c IH]]; [exists (fun _ _ => 0); intros; lia|]. destruct (Z_lt_le_dec (Z.of_nat p) (alen x - 1)) as [L|L]; [|exists c; intros i P Q; apply IH; lia].
        destruct (sp_poly x A N (Z.of_nat p) Hx Hn ltac:(lia)) as (a0 & Ha0). destruct (poly_pow N (Z.to_nat n) a0) as (b0 & Hb0).
        destruct (poly_affine K b0 (u (Z.of_nat p)) (v (Z.of_nat p) - u (Z.of_nat p))) as (c' & Hc').
        exists (fun i => if (i =? Z.of_nat p)%Z then c' else c i). intros i P Q t. destruct (Z.eqb_spec i (Z.of_nat p)) as [->|Ne]; [|apply IH; lia].
        rewrite Ha0, Hb0, <- Hc'. f_equal. ring. }
      destruct (G (Z.to_nat (alen x - 1))) as (c & Hc). exists c. intros i Hi. apply Hc; lia. }
    destruct CC as (c & Hc).
    set (Q := fun i => (v i - u i) * zsum 0 order (fun j => glw T order j * poly K (c i) (glp T order j))).
    set (J := fun i => (v i - u i) * sum_f_R0 (fun k => c i k / INR (k + 1)) K).
    assert (EL : forall i, (i1 <= i < i2 + 1)%Z -> (0 <= i < alen x - 1)%Z) by (unfold i1, i2; intros; lia).
    assert (Huv : forall i, (i1 <= i < i2 + 1)%Z -> u i <= v i).
    { intros i Hi. pose proof (EL i Hi). unfold u, v. unfold i1, i2 in Hi. pose proof (inc_lt x Hx i (i + 1) ltac:(lia) ltac:(lia) ltac:(lia)).
      specialize (B2 ltac:(lia)). specialize (C1 ltac:(lia)). pose proof (inc_le x Hx i k2 ltac:(lia) ltac:(lia) ltac:(lia)). pose proof (inc_le x Hx (k1 + 1) (i + 1) ltac:(lia) ltac:(lia) ltac:(lia)).
      apply Rmax_lub; apply Rmin_glb; lra. }
    exists (zsum i1 (i2 + 1) Q), (zsum i1 (i2 + 1) J), c. split; [|split; [|split]].
    - rewrite <- (Rplus_0_l (zsum i1 (i2 + 1) Q)). apply for_sum'. intros i r Hi. pose proof (EL i Hi) as Hi'. rewrite !aget_ok by lia. cbn [bind]. fold (u i). fold (v i).
      unfold Q. rewrite <- (zsum_scal 0 order (v i - u i)). apply for_sum'. intros k r' Hk.
      destruct (values_ok x Hx Hn i ltac:(lia) N (u i + glp T order k * (v i - u i))) as (B & -> & LB & VB). cbn [bind].
      rewrite (bsplSum_ok x i ltac:(lia) N B A LB LA). cbn [bind].
      replace (zsum 0 (Z.of_nat N + 1) (fun i0 => afn B i0 * afn A (i0 + i)%Z)) with (sp x A N 0 i (u i + glp T order k * (v i - u i))).
      + rewrite <- (Hc i Hi'). f_equal. ring.
      + unfold sp. transitivity (zsum (0 + (i - Z.of_nat N)) (Z.of_nat N + 1 + (i - Z.of_nat N)) (fun j => dn x i N 0 j (u i + glp T order k * (v i - u i)) * afn A (j + Z.of_nat N)%Z)); [f_equal; lia|].
        rewrite <- (zsum_shift 0 (Z.of_nat N + 1) (i - Z.of_nat N) (fun j => dn x i N 0 j (u i + glp T order k * (v i - u i)) * afn A (j + Z.of_nat N)%Z)).
        apply zsum_ext. intros q Hq. rewrite VB by lia. cbn [dn]. f_equal; f_equal; lia.
    - (* integral *)
      set (f := fun t => cut x F t * t ^ Z.to_nat n).
      assert (Out : forall p q, (forall t, Rmin p q < t < Rmax p q -> t < x_first x \/ x_last x < t) -> is_RInt f p q 0).
      { intros p q H. apply (RI_ext (fun _ => 0)); [|apply RI_zero]. intros t Ht. unfold f, cut. specialize (H t Ht). destruct (Rle_dec (x_first x) t); [|ring]. destruct (Rle_dec t (x_last x)); [lra|ring]. }
      assert (Seg : forall i, (i1 <= i < i2 + 1)%Z -> is_RInt f (u i) (v i) (J i)).
      { intros i Hi. pose proof (EL i Hi) as Hi'. destruct (Huv i Hi) as [L|L].
        - unfold J. apply (RI_ext (fun t => sp x A N 0 i t * t ^ Z.to_nat n)).
          + intros t Ht. rewrite Rmin_left, Rmax_right in Ht by lra. unfold f, cut.
            assert (P : afn x i < t < afn x (i + 1)%Z). { pose proof (Rmax_l (afn x i) a). pose proof (Rmin_l (afn x (i + 1)%Z) b). unfold u, v in Ht. lra. }
            unfold x_first, x_last. pose proof (inc_le x Hx 0 i ltac:(lia) ltac:(lia) ltac:(lia)). pose proof (inc_le x Hx (i + 1) (alen x - 1) ltac:(lia) ltac:(lia) ltac:(lia)).
            destruct (Rle_dec (afn x 0%Z) t); [|lra]. destruct (Rle_dec t (afn x (alen x - 1)%Z)); [|lra]. rewrite (F_seg i t ltac:(lia) P). reflexivity.
          + apply (RI_affine _ (poly K (c i))); [exact L|intros t _; apply (Hc i Hi')|apply RI_poly01].
        - rewrite L. unfold J. rewrite L, Rminus_diag_eq, Rmult_0_l by reflexivity. apply RI_point. }
      destruct (Z_le_gt_dec (i2 + 1) i1) as [Emp|Ne].
      + (* empty loop *) rewrite zsum_nil by lia. unfold i1, i2 in Emp.
        apply Out. intros t Ht. rewrite Rmin_left, Rmax_right in Ht by lra. unfold x_first, x_last.
        destruct (Z.eq_dec k2 (-1)) as [K2|K2]; [left; specialize (D2' K2); lra|]. destruct (Z.eq_dec k1 (alen x - 1)) as [K1|K1]; [right; destruct (D1 K1); [lia|lra]|]. exfalso.
        (* k1 > k2 is impossible *)
        assert (k2 < k1)%Z by lia. specialize (B1 ltac:(lia)). specialize (C2 ltac:(lia)). pose proof (inc_le x Hx (k2 + 1) k1 ltac:(lia) ltac:(lia) ltac:(lia)).
        assert (a = b) by lra. subst b. lra.
      + set (w := fun i => if (i =? i2 + 1)%Z then v i2 else u i).
        assert (W1 : w i1 = u i1) by (unfold w; rewrite (proj2 (Z.eqb_neq i1 (i2 + 1))) by lia; reflexivity).
        assert (W2 : w (i2 + 1)%Z = v i2) by (unfold w; rewrite Z.eqb_refl; reflexivity).
        assert (Mid : is_RInt f (u i1) (v i2) (zsum i1 (i2 + 1) J)).
        { rewrite <- W1, <- W2. apply chain; [lia|]. intros i Hi.
          replace (w i) with (u i) by (unfold w; rewrite (proj2 (Z.eqb_neq i (i2 + 1))) by lia; reflexivity).
          replace (w (i + 1)%Z) with (v i); [apply Seg; lia|]. unfold w. destruct (Z.eqb_spec (i + 1) (i2 + 1)) as [E|E]; [f_equal; lia|].
          unfold v, u. unfold i1, i2 in Hi, E. specialize (B2 ltac:(lia)). specialize (C1 ltac:(lia)).
          pose proof (inc_le x Hx (i + 1) k2 ltac:(lia) ltac:(lia) ltac:(lia)). pose proof (inc_le x Hx (k1 + 1) (i + 1) ltac:(lia) ltac:(lia) ltac:(lia)).
          rewrite Rmin_left, Rmax_left by lra. reflexivity. }
        assert (Lft : is_RInt f a (u i1) 0).
        { unfold u, i1. destruct (Z.eq_dec k1 (-1)) as [K1|K1].
          - specialize (D1' K1). rewrite K1. change (Z.max (-1) 0) with 0%Z. rewrite Rmax_left by lra. apply Out. intros t Ht. rewrite Rmin_left, Rmax_right in Ht by lra. left. unfold x_first. lra.
          - rewrite Z.max_l by lia. specialize (B1 ltac:(lia)). rewrite Rmax_right by lra. apply RI_point. }
        assert (Rgt : is_RInt f (v i2) b 0).
        { unfold v, i2 in *. destruct (Z_le_gt_dec k2 (alen x - 2)) as [K2|K2].
          - rewrite Z.min_l in * by lia. specialize (C2 K2). rewrite Rmin_right by lra. apply RI_point.
          - rewrite Z.min_r in * by lia. replace (alen x - 2 + 1)%Z with (alen x - 1)%Z by lia. destruct (D2 ltac:(lia)) as [|D]; [lia|]. rewrite Rmin_left by lra.
            apply Out. intros t Ht. rewrite Rmin_left, Rmax_right in Ht by lra. right. unfold x_last. lra. }
        pose proof (RI_chasles f _ _ _ _ _ Lft (RI_chasles f _ _ _ _ _ Mid Rgt)) as R0. eapply RI_val; [exact R0|ring].
    - intros i Hi L t Ht. rewrite <- (Hc i Hi). fold (u i) in *. fold (v i) in *. f_equal. apply F_seg; [lia|].
      pose proof (Rmax_l (afn x i) a). pose proof (Rmin_l (afn x (i + 1)%Z) b). fold (u i) in *. fold (v i) in *.
      assert (0 < t * (v i - u i) < v i - u i) by nra. lra.
    - rewrite zsum_minus. eapply Rle_trans; [apply zsum_abs|]. rewrite <- zsum_scal.
      assert (Nonneg : forall k, 0 <= e * (Rmax 0 (v k - u k) * sum_f_R0 (fun q => Rabs (c k q)) K)).
      { intros k. apply Rmult_le_pos; [exact E0|]. apply Rmult_le_pos; [apply Rmax_l|]. apply cond_pos_sum. intros; apply Rabs_pos. }
      apply Rle_trans with (zsum i1 (i2 + 1) (fun i => e * (Rmax 0 (v i - u i) * sum_f_R0 (fun q => Rabs (c i q)) K))).
      + apply zsum_le. intros i Hi. unfold Q, J. rewrite <- Rmult_minus_distr_l, Rabs_mult. pose proof (Huv i Hi). rewrite (Rabs_pos_eq (v i - u i)) by lra. rewrite (Rmax_right 0 (v i - u i)) by lra.
        rewrite <- Rmult_assoc, (Rmult_comm e), Rmult_assoc. apply Rmult_le_compat_l; [lra|]. apply gl_seg; assumption.
      + destruct (Z_le_gt_dec (i2 + 1) i1) as [Emp|Ne]; [rewrite (zsum_nil i1) by lia; apply zsum_nonneg; intros; apply Nonneg|].
        rewrite (zsum_split 0 i1 (alen x - 1)) by (unfold i1, i2 in *; lia). rewrite (zsum_split i1 (i2 + 1) (alen x - 1)) by (unfold i1, i2 in *; lia).
        pose proof (zsum_nonneg 0 i1 _ (fun k _ => Nonneg k)). pose proof (zsum_nonneg (i2 + 1) (alen x - 1) _ (fun k _ => Nonneg k)). unfold u, v in *. lra.
  Qed.
  Lemma integrateBspline_bound a b : exists r I c, integrateBspline T N x A a b n = Ok r /\ is_RInt (fun t => cut x F t * t ^ Z.to_nat n) a b I /\
    (let u i := Rmax (afn x i) (Rmin a b) in let v i := Rmin (afn x (i + 1)%Z) (Rmax a b) in
     (forall i, (0 <= i < alen x - 1)%Z -> u i < v i -> forall t, 0 < t < 1 -> F (u i + t * (v i - u i)) * (u i + t * (v i - u i)) ^ Z.to_nat n = poly K (c i) t) /\
     Rabs (r - I) <= e * zsum 0 (alen x - 1) (fun i => Rmax 0 (v i - u i) * sum_f_R0 (fun k => Rabs (c i k)) K)).
  Proof.
    unfold integrateBspline. rewrite (proj2 (Z.leb_gt MAX_GL_TABLE order)) by lia. unfold Rlt_b. destruct (Rlt_dec b a) as [L|L].
    - destruct (bspl_loop b a ltac:(lra)) as (r & I & c & E & HI & Hc & He). exists (- r), (- I), c. rewrite (Rmin_right a b), (Rmax_left a b) by lra. split; [|split; [apply RI_swap; exact HI|split; [exact Hc|]]].
      + destruct (binSearchR b (alist x)); cbn [bind] in *; try discriminate. destruct (binSearchR a (alist x)); cbn [bind] in *; try discriminate. rewrite E. reflexivity.
      + cbv zeta in *. replace (- r - - I) with (- (r - I)) by ring. rewrite Rabs_Ropp. exact He.
    - destruct (bspl_loop a b ltac:(lra)) as (r & I & c & E & HI & Hc & He). exists r, I, c. rewrite (Rmin_left a b), (Rmax_right a b) by lra. split; [|split; [exact HI|split; assumption]].
      destruct (binSearchR a (alist x)); cbn [bind] in *; try discriminate. destruct (binSearchR b (alist x)); cbn [bind] in *; try discriminate. rewrite E. reflexivity.
  Qed.
End Int.
