From Verif Require Import Arr BandModel BandSpec BandSolve BandSolve2 BandDom BandStore.
Local Open Scope Z_scope.

Lemma elt_dense m r c : bm_wf m -> 0 <= r < bN m -> 0 <= c < bN m -> elt m r c = dense (bB m) (afn (bdata m)) r c.
Proof.
  intros W Hr Hc. unfold elt, dense. rewrite !Z.gtb_ltb.
  destruct (r + bB m <? c) eqn:E1; cbn [orb].
  - apply Z.ltb_lt in E1. rewrite at_out by (auto; lia). reflexivity.
  - apply Z.ltb_ge in E1. destruct (c + bB m <? r) eqn:E2.
    + apply Z.ltb_lt in E2. rewrite at_out by (auto; lia). reflexivity.
    + apply Z.ltb_ge in E2. rewrite at_in by (auto; lia). reflexivity.
Qed.

Lemma raw_ok {T} (m : band_matrix T) : bm_wf m -> bm_raw m = Ok (bdata m).
Proof.
  intros [W1 W2]. unfold bm_raw, bm_ref, bm_inrange.
  rewrite (proj2 (Z.ltb_lt 0 (bN m))) by lia. rewrite (proj2 (Z.leb_le 0 (0 + bB m))) by lia. cbn [andb negb].
  rewrite aget_ok by nia. reflexivity.
Qed.

(** solveBand *)
Lemma solveBand_safe m rhs : bm_wf m -> alen rhs = bN m ->
  safe (solveBand m rhs) (fun x => alen x = bN m /\ forall r, 0 <= r < bN m -> mat_vec m (afn x) r = afn rhs r).
Proof.
  intros W Hr. pose proof W as [W1 W2]. unfold solveBand. rewrite (proj2 (Z.eqb_eq _ _) Hr). cbn [negb]. rewrite raw_ok by exact W. cbn [bind].
  assert (C : forall x : arr R, (alen x = bN m /\ forall k, 0 <= k < bN m -> zsum 0 (bN m) (fun j => dense (bB m) (afn (bdata m)) k j * afn x j)%R = afn rhs k) ->
    alen x = bN m /\ forall r, 0 <= r < bN m -> mat_vec m (afn x) r = afn rhs r).
  { intros x [L H]. split; [exact L|]. intros r Hrr. rewrite <- (H r Hrr). unfold mat_vec. apply zsum_ext. intros c Hc. rewrite elt_dense by assumption. reflexivity. }
  destruct (bB m =? 1) eqn:E.
  - apply Z.eqb_eq in E. eapply safe_mono; [exact C|]. rewrite E. apply solve_tri_correct; try lia.
  - eapply safe_mono; [exact C|]. apply solve_gen_correct; try lia.
Qed.

Lemma solveBand_total m rhs : bm_wf m -> alen rhs = bN m -> dominant m -> exists x, solveBand m rhs = Ok x.
Proof.
  intros W Hr D. pose proof W as [W1 W2]. unfold solveBand. rewrite (proj2 (Z.eqb_eq _ _) Hr). cbn [negb]. rewrite raw_ok by exact W. cbn [bind].
  assert (D' : forall i, 0 <= i < bN m -> (zsum 0 i (fun c => Rabs (dense (bB m) (afn (bdata m)) i c)) + zsum (i + 1) (bN m) (fun c => Rabs (dense (bB m) (afn (bdata m)) i c)) < Rabs (dense (bB m) (afn (bdata m)) i i))%R).
  { intros i Hi. specialize (D i Hi). rewrite elt_dense in D by (auto; lia).
    rewrite (zsum_ext 0 i _ (fun c => Rabs (dense (bB m) (afn (bdata m)) i c))) in D by (intros; rewrite elt_dense by (auto; lia); reflexivity).
    rewrite (zsum_ext (i + 1) (bN m) _ (fun c => Rabs (dense (bB m) (afn (bdata m)) i c))) in D by (intros; rewrite elt_dense by (auto; lia); reflexivity).
    exact D. }
  destruct (bB m =? 1) eqn:E.
  - apply Z.eqb_eq in E. rewrite E in D'. unfold solve_tri.
    destruct (elim_total (bN m) 1 ltac:(lia) (afn (bdata m)) (afn rhs) (solve_tri_row (bdata m) rhs) (anew (bN m) 0%R, rhs)) as ([U y] & -> & LU & Ly & _).
    + intros i U x Hi HI. apply tri_row; auto; lia.
    + exact D'.
    + split; [cbn; lia|]. split; [exact Hr|]. cbn [fst snd]. split; [|auto]. exists (fun _ _ => 0%R). intros; lia.
    + cbn [bind]. cbn [fst snd] in *. destruct (tri_back (bN m) ltac:(lia) U y ltac:(lia) Ly) as (x & -> & _). eauto.
  - unfold solve_gen.
    destruct (elim_total (bN m) (bB m) ltac:(lia) (afn (bdata m)) (afn rhs) (solve_gen_row (bB m) (bdata m)) (anew (bN m * bB m) 0%R, rhs)) as ([U y] & -> & LU & Ly & _).
    + intros i U x Hi HI. apply gen_row; auto; lia.
    + exact D'.
    + split; [reflexivity|]. split; [exact Hr|]. cbn [fst snd]. split; [|auto]. exists (fun _ _ => 0%R). intros; lia.
    + cbn [bind]. cbn [fst snd] in *. destruct (gen_back (bN m) (bB m) ltac:(lia) U y LU Ly) as (x & -> & _). eauto.
Qed.

(** blas_dgemv *)
Lemma dgemv_ok trans alpha m vec beta result : bm_wf m -> alen vec = bN m -> alen result = bN m ->
  exists res', bm_dgemv trans alpha m vec beta result = Ok res' /\ alen res' = bN m /\
    forall i, 0 <= i < bN m ->
      afn res' i = (alpha * (if trans then matT_vec m (afn vec) i else mat_vec m (afn vec) i)
                    + (if Req_EM_T beta 0 then 0 else beta * afn result i))%R.
Proof.
  intros W Hv Hr. pose proof W as [W1 W2]. unfold bm_dgemv. cbv zeta. rewrite Hv, Hr, Z.eqb_refl. cbn [andb negb].
  set (b0 := fun i => (if Req_EM_T beta 0 then 0 else beta * afn result i)%R).
  assert (S0 : exists r0, (if Req_EM_T beta 0 then Ok (anew (bN m) 0%R) else for_ 0 (bN m) (fun i r => ri <- aget r i ;; aset r i (ri * beta)%R) result) = Ok r0
     /\ alen r0 = bN m /\ forall i, 0 <= i < bN m -> afn r0 i = b0 i).
  { unfold b0. destruct (Req_EM_T beta 0); [eexists; split; [reflexivity|]; split; reflexivity|].
    destruct (for_total (fun k (r : arr R) => alen r = bN m /\ (forall i, 0 <= i < k -> afn r i = (beta * afn result i)%R) /\ (forall i, k <= i < bN m -> afn r i = afn result i))
       0 (bN m) (fun i r => ri <- aget r i ;; aset r i (ri * beta)%R) result) as (r0 & E & L & P & _); try lia.
    - split; [exact Hr|]. split; [intros; lia|auto].
    - intros i r Hi (L & P1 & P2). arrs. eexists. split; [reflexivity|]. cbn [alen afn]. split; [exact L|]. split.
      + intros k Hk. destruct (Z.eq_dec k i) as [->|Hne]; [rewrite upd_same, P2 by lia; ring|rewrite upd_other by exact Hne; apply P1; lia].
      + intros k Hk. rewrite upd_other by lia. apply P2. lia.
    - exists r0. auto. }
  destruct S0 as (r0 & -> & Lr0 & Er0). cbn [bind]. rewrite raw_ok by exact W. cbn [bind].
  assert (Idx : forall r c, 0 <= r < bN m -> Z.max 0 (r - bB m) <= c < Z.min (bN m - 1) (r + bB m) + 1 ->
     aget (bdata m) (r * (bB m * 2 + 1) + Z.max 0 (r - bB m) - r + bB m + (c - Z.max 0 (r - bB m))) = Ok (elt m r c)).
  { intros r c Hrr Hc. pose proof (pos_ok m W r c ltac:(lia) ltac:(lia) ltac:(lia)) as P. rewrite aget_ok by lia. f_equal.
    rewrite elt_dense by (auto; lia). rewrite dense_in by lia. f_equal. lia. }
  destruct trans.
  - set (I := fun r (z : arr R) => alen z = bN m /\ forall c, 0 <= c < bN m -> afn z c = (b0 c + zsum 0 r (fun r => alpha * afn vec r * elt m r c))%R).
    destruct (for_total I 0 (bN m) (fun r result =>
        vr <- aget vec r ;;
        for_ (Z.max 0 (r - bB m)) (Z.min (bN m - 1) (r + bB m) + 1) (fun c result =>
          d <- aget (bdata m) (r * (bB m * 2 + 1) + Z.max 0 (r - bB m) - r + bB m + (c - Z.max 0 (r - bB m))) ;;
          rc <- aget result c ;; aset result c (rc + (alpha * vr) * d)%R) result) r0) as (z & -> & Lz & Hz).
    + lia.
    + split; [exact Lr0|]. intros c Hc. rewrite zsum_nil by lia. rewrite Er0 by exact Hc. ring.
    + intros r z Hrr (Lz & Hz). rewrite aget_ok by lia. cbn [bind].
      set (lo := Z.max 0 (r - bB m)). set (hi := Z.min (bN m - 1) (r + bB m) + 1).
      destruct (for_total (fun k (y : arr R) => alen y = bN m /\ (forall c, 0 <= c < bN m -> afn y c = (afn z c + (if (lo <=? c) && (c <? k) then alpha * afn vec r * elt m r c else 0))%R)) lo hi
         (fun c result =>
          d <- aget (bdata m) (r * (bB m * 2 + 1) + lo - r + bB m + (c - lo)) ;;
          rc <- aget result c ;; aset result c (rc + (alpha * afn vec r) * d)%R) z) as (y & -> & Ly & Hy).
      * unfold lo, hi; lia.
      * split; [exact Lz|]. intros c Hc. replace ((lo <=? c) && (c <? lo)) with false; [ring|]. symmetry. apply andb_false_iff. rewrite Z.leb_gt, Z.ltb_ge. lia.
      * intros c y Hc (Ly & Hy). unfold lo in *. rewrite Idx by (unfold hi in *; lia). cbn [bind]. unfold hi in *. arrs.
        eexists. split; [reflexivity|]. cbn [alen afn]. split; [exact Ly|]. intros c' Hc'.
        destruct (Z.eq_dec c' c) as [->|Hne].
        -- rewrite upd_same, Hy by lia.
           replace (c <? c) with false by (symmetry; apply Z.ltb_ge; lia). rewrite andb_false_r.
           rewrite (proj2 (Z.leb_le _ c)) by lia. rewrite (proj2 (Z.ltb_lt c (c + 1))) by lia. cbn [andb]. ring.
        -- rewrite upd_other by exact Hne. rewrite Hy by exact Hc'. f_equal.
           replace (c' <? c + 1) with (c' <? c); [reflexivity|]. destruct (c' <? c) eqn:E; symmetry; [apply Z.ltb_lt in E; apply Z.ltb_lt; lia|apply Z.ltb_ge in E; apply Z.ltb_ge; lia].
      * exists y. split; [reflexivity|]. split; [exact Ly|]. intros c Hc. rewrite Hy by exact Hc. rewrite Hz by exact Hc.
        rewrite zsum_last by lia. rewrite Rplus_assoc. f_equal. f_equal.
        destruct ((lo <=? c) && (c <? hi))%bool eqn:E; [reflexivity|]. apply andb_false_iff in E. rewrite Z.leb_gt, Z.ltb_ge in E.
        rewrite elt_dense by (auto; lia). rewrite dense_out by (unfold lo, hi in E; lia). ring.
    + exists z. split; [reflexivity|]. split; [exact Lz|]. intros i Hi. rewrite Hz by exact Hi. unfold matT_vec. rewrite <- zsum_scal.
      rewrite Rplus_comm. f_equal. apply zsum_ext. intros; ring.
  - set (I := fun r (z : arr R) => alen z = bN m /\ (forall i, 0 <= i < r -> afn z i = (b0 i + alpha * mat_vec m (afn vec) i)%R) /\ (forall i, r <= i < bN m -> afn z i = b0 i)).
    destruct (for_total I 0 (bN m) (fun r result =>
        for_ (Z.max 0 (r - bB m)) (Z.min (bN m - 1) (r + bB m) + 1) (fun c result =>
          vc <- aget vec c ;;
          d <- aget (bdata m) (r * (bB m * 2 + 1) + Z.max 0 (r - bB m) - r + bB m + (c - Z.max 0 (r - bB m))) ;;
          rr <- aget result r ;; aset result r (rr + alpha * vc * d)%R) result) r0) as (z & -> & Lz & Hz & _).
    + lia.
    + split; [exact Lr0|]. split; [intros; lia|]. exact Er0.
    + intros r z Hrr (Lz & Hz1 & Hz2).
      set (lo := Z.max 0 (r - bB m)). set (hi := Z.min (bN m - 1) (r + bB m) + 1).
      destruct (for_total (fun k (y : arr R) => alen y = bN m /\ (forall i, i <> r -> afn y i = afn z i) /\ afn y r = (afn z r + zsum lo k (fun c => alpha * (elt m r c * afn vec c)))%R) lo hi
         (fun c result => vc <- aget vec c ;;
          d <- aget (bdata m) (r * (bB m * 2 + 1) + lo - r + bB m + (c - lo)) ;;
          rr <- aget result r ;; aset result r (rr + alpha * vc * d)%R) z) as (y & -> & Ly & Hy1 & Hy2).
      * unfold lo, hi; lia.
      * split; [exact Lz|]. split; [auto|]. rewrite zsum_nil by lia. ring.
      * intros c y Hc (Ly & H1 & H2). unfold lo in *. unfold hi in *. rewrite aget_ok by lia. cbn [bind]. rewrite Idx by lia. cbn [bind]. arrs.
        eexists. split; [reflexivity|]. cbn [alen afn]. split; [exact Ly|]. split.
        -- intros i Hne. rewrite upd_other by exact Hne. apply H1. exact Hne.
        -- rewrite upd_same, H2, zsum_last by lia. ring.
      * exists y. split; [reflexivity|]. split; [exact Ly|]. split.
        -- intros i Hi. destruct (Z.eq_dec i r) as [->|Hne]; [|rewrite Hy1 by exact Hne; apply Hz1; lia].
           rewrite Hy2, Hz2 by lia. f_equal. rewrite zsum_scal. f_equal. unfold mat_vec. symmetry.
           apply zsum_extend; unfold lo, hi; try lia; intros k Hk; rewrite elt_dense by (auto; lia); rewrite dense_out by lia; ring.
        -- intros i Hi. rewrite Hy1 by lia. apply Hz2. lia.
    + exists z. split; [reflexivity|]. split; [exact Lz|]. intros i Hi. rewrite Hz by exact Hi. unfold b0. ring.
Qed.

(** element-wise operations *)
Lemma dmul_ok alpha Y : bm_wf Y -> exists Y', bm_dmul alpha Y = Ok Y' /\ bm_wf Y' /\ bN Y' = bN Y /\ bB Y' = bB Y /\
  forall r c, 0 <= r < bN Y -> 0 <= c < bN Y -> elt Y' r c = (alpha * elt Y r c)%R.
Proof.
  intros W. pose proof W as [W1 W2]. unfold bm_dmul. rewrite raw_ok by exact W. cbn [bind].
  destruct (for_total (fun k (d : arr R) => alen d = alen (bdata Y) /\ (forall i, 0 <= i < k -> afn d i = (alpha * afn (bdata Y) i)%R) /\ (forall i, k <= i -> afn d i = afn (bdata Y) i))
    0 (bN Y * (bB Y * 2 + 1)) (fun i y => yi <- aget y i ;; aset y i (yi * alpha)%R) (bdata Y)) as (d & -> & Ld & Hd & _).
  - nia.
  - repeat split; auto; intros; lia.
  - intros i d Hi (L & P1 & P2). arrs. eexists. split; [reflexivity|]. cbn [alen afn]. split; [exact L|]. split.
    + intros k Hk. destruct (Z.eq_dec k i) as [->|Hne]; [rewrite upd_same, P2 by lia; ring|rewrite upd_other by exact Hne; apply P1; lia].
    + intros k Hk. rewrite upd_other by lia. apply P2. lia.
  - cbn [bind]. eexists. split; [reflexivity|]. cbn [bN bB bdata].
    assert (W' : bm_wf (mkBand (bN Y) (bB Y) d)) by (split; cbn [bN bB bdata]; lia).
    split; [exact W'|]. split; [reflexivity|]. split; [reflexivity|]. intros r c Hr Hc.
    rewrite !elt_dense by assumption. cbn [bN bB bdata]. unfold dense. destruct ((c >? r + bB Y) || (r >? c + bB Y))%bool eqn:E; [ring|].
    apply orb_false_iff in E. rewrite !Z.gtb_ltb, !Z.ltb_ge in E. apply Hd. nia.
Qed.
Lemma daxpy_ok alpha X Y : bm_wf X -> bm_wf Y -> bN X = bN Y -> bB X = bB Y ->
  exists Y', bm_daxpy alpha X Y = Ok Y' /\ bm_wf Y' /\ bN Y' = bN Y /\ bB Y' = bB Y /\
  forall r c, 0 <= r < bN Y -> 0 <= c < bN Y -> elt Y' r c = (elt Y r c + alpha * elt X r c)%R.
Proof.
  intros WX WY EN EB. pose proof WX as [X1 X2]. pose proof WY as [Y1 Y2]. unfold bm_daxpy.
  rewrite EN, EB, !Z.eqb_refl. cbn [andb negb]. destruct (Req_EM_T alpha 0) as [->|_].
  { exists Y. split; [reflexivity|]. split; [exact WY|]. split; [reflexivity|]. split; [reflexivity|]. intros. ring. }
  rewrite !raw_ok by assumption. cbn [bind].
  destruct (for_total (fun k (d : arr R) => alen d = alen (bdata Y) /\ (forall i, 0 <= i < k -> afn d i = (afn (bdata Y) i + alpha * afn (bdata X) i)%R) /\ (forall i, k <= i -> afn d i = afn (bdata Y) i))
    0 (bN Y * (bB Y * 2 + 1)) (fun i y => xi <- aget (bdata X) i ;; yi <- aget y i ;; aset y i (yi + alpha * xi)%R) (bdata Y)) as (d & -> & Ld & Hd & _).
  - nia.
  - repeat split; auto; intros; lia.
  - intros i d Hi (L & P1 & P2). rewrite EN, EB in X2. arrs. eexists. split; [reflexivity|]. cbn [alen afn]. split; [exact L|]. split.
    + intros k Hk. destruct (Z.eq_dec k i) as [->|Hne]; [rewrite upd_same, P2 by lia; ring|rewrite upd_other by exact Hne; apply P1; lia].
    + intros k Hk. rewrite upd_other by lia. apply P2. lia.
  - cbn [bind]. eexists. split; [reflexivity|]. cbn [bN bB bdata].
    assert (W' : bm_wf (mkBand (bN Y) (bB Y) d)) by (split; cbn [bN bB bdata]; lia).
    split; [exact W'|]. split; [reflexivity|]. split; [reflexivity|]. intros r c Hr Hc.
    rewrite (elt_dense X) by (auto; lia). rewrite !elt_dense by assumption. cbn [bN bB bdata]. unfold dense. rewrite EB.
    destruct ((c >? r + bB Y) || (r >? c + bB Y))%bool eqn:E; [ring|].
    apply orb_false_iff in E. rewrite !Z.gtb_ltb, !Z.ltb_ge in E. apply Hd. nia.
Qed.
