(** The linear system built by constructQuinticSpline (values and first derivatives given) and its solution. *)
From Verif Require Import Arr BandModel BandSpec SplineModel SplineBand SplineSpec SplineCons.
Local Open Scope Z_scope.

Section Quintic.
  Variables (x f g : arr R).
  Let n := alen x.
  Hypothesis Hx : increasing x.
  Hypothesis Hn : 2 <= n.
  Hypothesis Hf : alen f = n.
  Hypothesis Hg : alen g = n.
  Let hi k := (1 / (afn x (k + 1)%Z - afn x k))%R.
  (** contributions of segment k to its right and left ends *)
  Let qr k := (- ((20 * (afn f (k + 1)%Z - afn f k) * hi k - 12 * afn g (k + 1)%Z - 8 * afn g k) * hi k * hi k))%R.
  Let ql k := ((20 * (afn f (k + 1)%Z - afn f k) * hi k - 12 * afn g k - 8 * afn g (k + 1)%Z) * hi k * hi k)%R.
  Let b0 := ((30 * (afn f 1 - afn f 0) * hi 0 - 14 * afn g 1 - 16 * afn g 0) * hi 0 * hi 0)%R.
  Let bN := ((- 30 * (afn f (n - 1)%Z - afn f (n - 2)%Z) * hi (n - 2)%Z + 14 * afn g (n - 2)%Z + 16 * afn g (n - 1)%Z) * hi (n - 2)%Z * hi (n - 2)%Z)%R.

  Lemma hi_pos k : 0 <= k < n - 1 -> (0 < hi k)%R.
  Proof. intros Hk. unfold hi, Rdiv. rewrite Rmult_1_l. apply Rinv_0_lt_compat. specialize (Hx k (k + 1) ltac:(lia) ltac:(lia)). lra. Qed.

  Let LO i r := if r <=? i then (- hi (r - 1)%Z)%R else 0%R.
  Let UP i r := if r + 1 <? i then (- hi r)%R else 0%R.
  Let fdi r := ((if (0 <? r)%Z then 3 * hi (r - 1)%Z else 0) + (if (r <? n - 1)%Z then 3 * hi r else 0))%R.
  Let frh r := ((if (0 <? r)%Z then qr (r - 1)%Z else 0) + (if (r <? n - 1)%Z then ql r else 0))%R.
  Let DI i r := if r <? i then fdi r else 0%R.
  Let RH i r := if r <? i then frh r else 0%R.

  Lemma quintic_loop : exists m0, bm_new n 1 0%R = Ok m0 /\ exists st, for_ 0 n (quintic_row x f g) (m0, anew n 0%R) = Ok st /\
    tri_is (fst st) n (LO n) (DI n) (UP n) /\ alen (snd st) = n /\ forall r, 0 <= r < n -> afn (snd st) r = RH n r.
  Proof.
    destruct (tri_new n Hn) as (m0 & E0 & T0). exists m0. split; [exact E0|].
    destruct (for_total (fun i st => tri_is (fst st) n (fun r => if r <=? i then (if r =? 0 then 0 else - hi (r - 1)%Z)%R else 0%R) (DI i) (UP i) /\ alen (snd st) = n /\ forall r, 0 <= r < n -> afn (snd st) r = RH i r)
      0 n (quintic_row x f g) (m0, anew n 0%R)) as (st & E & T & L & V); [lia| | |exists st; split; [exact E|]; split; [|split; [exact L|exact V]]].
    - cbn [fst snd]. split; [|split; [reflexivity|]].
      + eapply tri_ext; [exact T0| | |]; intros r Hr; unfold LO, DI, UP; bsplit; try lia; try reflexivity; ring.
      + intros r Hr. cbn. unfold RH. bsplit; try lia; ring.
    - intros i [mat rhs] Hi (T & L & V). cbn [fst snd] in T, L, V. cbv beta iota delta [quintic_row]. fold n.
      assert (A : exists m1 v1, (if i >? 0 then
           x1 <- aget x i ;; x0 <- aget x (i - 1)%Z ;; f1 <- aget f i ;; f0 <- aget f (i - 1)%Z ;;
           d1 <- aget g i ;; d0 <- aget g (i - 1)%Z ;;
           let hi := (1 / (x1 - x0))%R in
           mat <- bm_add mat i i (hi * 3)%R ;;
           mat <- bm_set mat (i - 1)%Z i (- hi)%R ;;
           rhs <- aadd rhs i (- ((20 * (f1 - f0) * hi - 12 * d1 - 8 * d0) * hi * hi))%R ;;
           Ok (mat, rhs)
         else Ok (mat, rhs)) = Ok (m1, v1) /\
         tri_is m1 n (fun r => if r <=? i then (if r =? 0 then 0 else - hi (r - 1)%Z)%R else 0%R) (upd (DI i) i (if 0 <? i then 3 * hi (i - 1)%Z else 0)%R) (UP (i + 1)) /\
         alen v1 = n /\ forall r, 0 <= r < n -> afn v1 r = upd (RH i) i (if 0 <? i then qr (i - 1)%Z else 0)%R r).
      { rewrite Z.gtb_ltb. destruct (Z.ltb_spec 0 i).
        - rewrite !aget_ok by lia. cbn [bind]. cbv zeta.
          destruct (tri_add _ _ _ _ _ i (hi (i - 1) * 3)%R T ltac:(lia)) as (m1 & E1 & T1). unfold hi in E1 at 1. replace (i - 1 + 1) with i in E1 by lia. rewrite E1. clear E1. cbn [bind].
          destruct (tri_set _ _ _ _ _ (i - 1) i (- hi (i - 1)%Z)%R T1 ltac:(lia) ltac:(lia) ltac:(lia)) as (m2 & E2 & T2). unfold hi in E2 at 1. replace (i - 1 + 1) with i in E2 by lia. rewrite E2. clear E2. cbn [bind].
          rewrite aadd_ok by lia. cbn [bind]. do 2 eexists. split; [reflexivity|]. split; [|split; [exact L|]].
          + replace (i - 1 + 1) with i in T2 by lia. rewrite Z.eqb_refl, (proj2 (Z.eqb_neq i (i - 1 - 1))), (proj2 (Z.eqb_neq i (i - 1))) in T2 by lia.
            eapply tri_ext; [exact T2| | |]; intros r Hr; unfold upd, DI, UP; bsplit; subst; try lia; try reflexivity; ring.
          + intros r Hr. cbn [afn]. unfold upd. rewrite !V by lia. unfold RH, qr. replace (i - 1 + 1) with i by lia. unfold hi. replace (i - 1 + 1) with i by lia. bsplit; subst; try lia; try reflexivity. ring.
        - do 2 eexists. split; [reflexivity|]. split; [|split; [exact L|]].
          + eapply tri_ext; [exact T| | |]; intros r Hr; unfold upd, DI, UP; bsplit; subst; try lia; try reflexivity.
          + intros r Hr. unfold upd. rewrite V by lia. unfold RH. bsplit; subst; try lia; reflexivity. }
      destruct A as (m1 & v1 & EA & T1 & L1 & V1). cbv zeta in EA |- *. rewrite EA. clear EA. cbn [bind].
      destruct (Z.ltb_spec i (n - 1)) as [Q|Q].
      + rewrite !aget_ok by lia. cbn [bind]. cbv zeta.
        destruct (tri_add _ _ _ _ _ i (hi i * 3)%R T1 ltac:(lia)) as (m2 & E1 & T2). unfold hi in E1 at 1. rewrite E1. clear E1. cbn [bind].
        destruct (tri_set _ _ _ _ _ (i + 1) i (- hi i)%R T2 ltac:(lia) ltac:(lia) ltac:(lia)) as (m3 & E2 & T3). unfold hi in E2 at 1. rewrite E2. clear E2. cbn [bind].
        rewrite aadd_ok by lia. cbn [bind]. eexists. split; [reflexivity|]. cbn [fst snd alen afn]. split; [|split; [exact L1|]].
        * replace (i + 1 - 1) with i in T3 by lia. rewrite Z.eqb_refl, (proj2 (Z.eqb_neq i (i + 1 + 1))), (proj2 (Z.eqb_neq i (i + 1))) in T3 by lia.
          eapply tri_ext; [exact T3| | |]; intros r Hr; unfold upd, DI, fdi; bsplit; subst; try lia; try (replace (i + 1 - 1) with i by lia); try reflexivity; ring.
        * intros r Hr. unfold upd. rewrite !V1 by lia. unfold upd, RH, frh, ql, qr. bsplit; subst; try lia; try reflexivity; unfold hi; ring.
      + eexists. split; [reflexivity|]. cbn [fst snd]. split; [|split; [exact L1|]].
        * eapply tri_ext; [exact T1| | |]; intros r Hr; unfold upd, DI, fdi; bsplit; subst; try lia; try reflexivity; ring.
        * intros r Hr. rewrite V1 by lia. unfold upd, RH, frh. bsplit; subst; try lia; try reflexivity; ring.
    - eapply tri_ext; [exact T| | |]; intros r Hr; try reflexivity. unfold LO. bsplit; try lia; reflexivity.
  Qed.

  Definition qlo r := if r =? n - 1 then (- 2 * hi (r - 1)%Z)%R else (- hi (r - 1)%Z)%R.
  Definition qup r := if r =? 0 then (- 2 * hi r)%R else (- hi r)%R.
  Definition qrh r := if r =? 0 then b0 else if r =? n - 1 then bN else frh r.
  Definition qrows (d : Z -> R) : Prop := forall r, 0 <= r < n -> tri_sum n qlo fdi qup d r = qrh r.
  Lemma quintic_dom : tri_dom n qlo fdi qup.
  Proof.
    intros r Hr. unfold qlo, qup, fdi.
    assert (P : forall k, 0 <= k < n - 1 -> (Rabs (- hi k) = hi k)%R) by (intros k Hk; rewrite Rabs_Ropp; apply Rabs_pos_eq; left; apply hi_pos; exact Hk).
    assert (P2 : forall k, 0 <= k < n - 1 -> (Rabs (- 2 * hi k) = 2 * hi k)%R).
    { intros k Hk. pose proof (hi_pos k Hk). replace (-2 * hi k)%R with (- (2 * hi k))%R by ring. rewrite Rabs_Ropp. apply Rabs_pos_eq. lra. }
    assert (P0 : forall k, 0 <= k < n - 1 -> (0 < hi k)%R) by exact hi_pos.
    destruct (Z.ltb_spec 0 r), (Z.ltb_spec r (n - 1)); try lia.
    - rewrite (proj2 (Z.eqb_neq r (n - 1))), (proj2 (Z.eqb_neq r 0)) by lia. rewrite !P by lia. pose proof (P0 r ltac:(lia)). pose proof (P0 (r - 1) ltac:(lia)). rewrite Rabs_pos_eq by lra. lra.
    - rewrite (proj2 (Z.eqb_eq r (n - 1))) by lia. rewrite P2 by lia. pose proof (P0 (r - 1) ltac:(lia)). rewrite Rabs_pos_eq by lra. lra.
    - rewrite (proj2 (Z.eqb_eq r 0)) by lia. rewrite P2 by lia. pose proof (P0 r ltac:(lia)). rewrite Rabs_pos_eq by lra. lra.
  Qed.
  Lemma construct_quintic : exists s, constructQuinticSpline x f g = Ok s /\ alen s = n /\ qrows (afn s).
  Proof.
    destruct quintic_loop as (m0 & E0 & [m v] & E & T & L & V). cbn [fst snd] in *.
    unfold constructQuinticSpline. fold n. rewrite (proj2 (Z.ltb_ge n 2)) by lia. rewrite E0. cbn [bind]. rewrite E. cbn [bind].
    rewrite !aget_ok by lia. cbn [bind]. cbv zeta.
    destruct (tri_set _ _ _ _ _ 0 1 (-2 * hi 0)%R T ltac:(lia) ltac:(lia) ltac:(lia)) as (m1 & E1 & T1). unfold hi in E1 at 1. change (0 + 1) with 1 in E1. rewrite E1. clear E1. cbn [bind].
    rewrite aset_ok by lia. cbn [bind].
    destruct (tri_set _ _ _ _ _ (n - 1) (n - 2) (-2 * hi (n - 2)%Z)%R T1 ltac:(lia) ltac:(lia) ltac:(lia)) as (m2 & E1 & T2). unfold hi in E1 at 1. replace (n - 2 + 1) with (n - 1) in E1 by lia. rewrite E1. clear E1. cbn [bind].
    rewrite aset_ok by (cbn [alen]; lia). cbn [bind alen afn].
    match goal with |- context [solveBand m2 ?v] => set (w := v) end.
    assert (T3 : tri_is m2 n qlo fdi qup).
    { rewrite (proj2 (Z.eqb_eq (n - 2) (n - 1 - 1))), (proj2 (Z.eqb_neq (n - 2) (n - 1))), (proj2 (Z.eqb_neq (n - 2) (n - 1 + 1))) in T2 by lia.
      cbn [Z.eqb Z.sub Z.opp Z.add Pos.add Pos.eqb] in T2.
      eapply tri_ext; [exact T2| | |]; intros r Hr; unfold upd, LO, DI, UP, qlo, qup; bsplit; subst; try lia; try reflexivity.
      replace (n - 1 - 1) with (n - 2) by lia. reflexivity. }
    destruct (tri_solve _ _ _ _ _ w T3 L quintic_dom) as (s & Es & Ls & Hs). exists s. split; [exact Es|]. split; [exact Ls|].
    intros r Hr. rewrite Hs by exact Hr. unfold w. cbn [afn]. unfold upd, qrh.
    destruct (Z.eqb_spec r (n - 1)) as [->|N1].
    - rewrite (proj2 (Z.eqb_neq (n - 1) 0)) by lia. unfold bN, hi. replace (n - 2 + 1) with (n - 1) by lia. reflexivity.
    - destruct (Z.eqb_spec r 0) as [->|N0]; [reflexivity|]. rewrite V by exact Hr. unfold RH. rewrite (proj2 (Z.ltb_lt r n)) by lia. reflexivity.
  Qed.
  Lemma qrows_interior s r : qrows s -> 0 < r < n - 1 ->
    (- hi (r - 1) * s (r - 1)%Z + 3 * (hi (r - 1) + hi r) * s r - hi r * s (r + 1)%Z = qr (r - 1) + ql r)%R.
  Proof.
    intros H Hr. specialize (H r ltac:(lia)). unfold tri_sum, qlo, fdi, qup, qrh, frh in H.
    rewrite (proj2 (Z.ltb_lt 0 r)), (proj2 (Z.ltb_lt r (n - 1))), (proj2 (Z.eqb_neq r 0)), (proj2 (Z.eqb_neq r (n - 1))) in H by lia. lra.
  Qed.
  Lemma qrows_left s : qrows s -> (3 * hi 0 * s 0%Z - 2 * hi 0 * s 1%Z = b0)%R.
  Proof.
    intros H. specialize (H 0 ltac:(lia)). unfold tri_sum, qlo, fdi, qup, qrh, frh in H.
    rewrite Z.ltb_irrefl, (proj2 (Z.ltb_lt 0 (n - 1))), Z.eqb_refl in H by lia. change (0 + 1) with 1 in H. lra.
  Qed.
  Lemma qrows_right s : qrows s -> (3 * hi (n - 2)%Z * s (n - 1)%Z - 2 * hi (n - 2)%Z * s (n - 2)%Z = bN)%R.
  Proof.
    intros H. specialize (H (n - 1) ltac:(lia)). unfold tri_sum, qlo, fdi, qup, qrh, frh in H.
    rewrite Z.ltb_irrefl, (proj2 (Z.ltb_lt 0 (n - 1))), Z.eqb_refl, (proj2 (Z.eqb_neq (n - 1) 0)) in H by lia.
    replace (n - 1 - 1) with (n - 2) in H by lia. lra.
  Qed.
End Quintic.
