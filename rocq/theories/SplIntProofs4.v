From Coquelicot Require Import Coquelicot.
From Verif Require Import Arr BinSearchModel SplineModel SplineGlue SplIntModel PolyProofs RootProofs SplineSpec SplIntSpec SplIntProofs SplIntProofs2 VanderProofs SplIntProofs3.
Local Open Scope R_scope.

Section Prod.
  Variables (N : nat) (S : interp) (G F : R -> R) (Fi : R -> R -> Z -> R).
  Notation x := (i_x S).
  Hypothesis Hx : increasing x.
  Hypothesis Hn : (2 <= alen x)%Z.
  Hypothesis HF : computes S G.
  Hypothesis HP : piecewise_poly N x G.
  Hypothesis HI : integrates F Fi.

  (** the part of integrateProduct after ordering the limits *)
  Definition prodCore p q : res R :=
    let lo := Rmax p (x_first x) in let hi := Rmin q (x_last x) in
    if Rle_b hi lo then Ok 0 else ij <- segRange x lo hi ;; integrateSegs (Z.of_nat N) false S Fi 0 lo hi (fst ij) (snd ij).
  Lemma prod_core a b : integrateProduct (Z.of_nat N) S Fi a b = if Rle_b a b then prodCore a b else (r <- prodCore b a ;; Ok (- r)).
  Proof.
    unfold integrateProduct, prodCore. rewrite (proj2 (Z.ltb_ge (alen x) 2)) by lia. rewrite !aget_ok by lia. cbn [bind]. fold (x_first x). fold (x_last x). cbv zeta.
    destruct (Rle_b a b); cbn [negb].
    - destruct (Rle_b (Rmin b (x_last x)) (Rmax a (x_first x))); [reflexivity|]. destruct (segRange x (Rmax a (x_first x)) (Rmin b (x_last x))) as [[i1 i2]| | |]; cbn [bind fst snd]; try reflexivity.
      destruct (integrateSegs _ _ _ _ _ _ _ _ _); reflexivity.
    - destruct (Rle_b (Rmin a (x_last x)) (Rmax b (x_first x))); cbn [bind]; [f_equal; ring|]. destruct (segRange x (Rmax b (x_first x)) (Rmin a (x_last x))) as [[i1 i2]| | |]; cbn [bind fst snd]; reflexivity.
  Qed.
  Lemma F_RInt a b : is_RInt F a b (Fi a b 0%Z).
  Proof. apply (RI_ext (fun t => F t * t ^ Z.to_nat 0)); [intros; cbn; ring|]. apply HI. lia. Qed.
  Lemma bin0 lo i : (0 <= i < alen x - 1)%Z -> afn x i <= lo < afn x (i + 1)%Z -> lo < afn x 1%Z -> i = 0%Z.
  Proof. intros Hi H L. destruct (Z.eq_dec i 0) as [|Ne]; [assumption|]. pose proof (inc_le x Hx 1 i ltac:(lia) ltac:(lia) ltac:(lia)). lra. Qed.
  Lemma prodCore_spec p q : p <= q -> Rmax p (x_first x) < afn x 1%Z ->
    exists r I, prodCore p q = Ok r /\ is_RInt (fun t => cut x G t * F t) p q I /\
      (let lo := Rmax p (x_first x) in let hi := Rmin q (x_last x) in
       ((forall i, (0 <= i < alen x - 1)%Z -> let u := Rmax lo (afn x i) in let v := Rmin hi (afn x (i + 1)%Z) in u < v -> Rabs (Fi lo hi 0%Z) * deps <= Rabs (Fi u v 0%Z)) -> r = I) /\
       (forall M, lo < hi -> (forall y, x_first x <= y <= x_last x -> Rabs (G y) <= M) -> (forall t, 0 <= F t) -> Rabs (r - I) <= IZR (alen x - 1) * M * deps * Fi lo hi 0%Z)).
  Proof.
    intros Hpq H1. unfold prodCore. set (lo := Rmax p (x_first x)) in *. set (hi := Rmin q (x_last x)) in *. cbv zeta.
    destruct (Rle_lt_dec hi lo) as [L|L].
    - rewrite (Rle_b_t hi lo L). exists 0, 0. split; [reflexivity|]. split; [|split; [reflexivity|intros; lra]].
      apply cut_RInt; try assumption; fold lo; fold hi; [intros; lra|reflexivity].
    - rewrite (Rle_b_f hi lo L). assert (A1 : x_first x <= lo) by apply Rmax_r. assert (A2 : hi <= x_last x) by apply Rmin_r.
      destruct (segRange_ok x Hx Hn lo hi A1 L A2) as (i1 & i2 & Es & Hi1 & Hi2 & P1 & P2). rewrite Es. cbn [bind fst snd].
      pose proof (bin0 lo i1 ltac:(lia) P1 H1) as E0. subst i1.
      pose proof (seg_pts x Hx lo hi 0 i2 L Hi1 Hi2 P1 P2) as SP.
      assert (Hseg : false = false -> forall i, (0 <= i < i2)%Z -> Rmax lo (afn x i) <= Rmin hi (afn x (i + 1)%Z)).
      { intros _ i Hi. destruct (SP i Hi) as (E1 & E2 & E3 & _). rewrite Rmax_comm, Rmin_comm, E1, E2. lra. }
      pose proof (segs_ok N false S G F Fi 0 lo hi i2 Hx ltac:(lia) HF HP HI Hseg) as SO.
      set (Jf := J false S G F 0 lo hi) in *. set (Qf := Q false S Fi 0 lo hi) in *.
      assert (JT : is_RInt (fun t => F t * G t) lo hi (zsum 0 i2 Jf)).
      { apply (parts_RInt x lo hi 0 i2 L Hi1 P1 P2). intros i Hi. pose proof (J_RInt N false S G F Fi 0 lo hi i2 Hx ltac:(lia) HP HI Hseg i Hi) as H. unfold tl, th, Sf in H.
        destruct (SP i Hi) as (E1 & E2 & _). rewrite Rmax_comm, E1 in H. rewrite (Rmin_comm hi), E2 in H. exact H. }
      assert (QT : zsum 0 i2 Qf = Fi lo hi 0%Z).
      { rewrite <- (RI_unique F lo hi (zsum 0 i2 Qf)); [apply RI_unique, F_RInt|]. apply (parts_RInt x lo hi 0 i2 L Hi1 P1 P2). intros i Hi. unfold Qf, Q, tl, th.
        destruct (SP i Hi) as (E1 & E2 & _). rewrite Rmax_comm, E1. rewrite (Rmin_comm hi), E2. apply F_RInt. }
      eexists. exists (zsum 0 i2 Jf). split; [exact SO|]. split; [|split].
      + apply cut_RInt; try assumption; fold lo; fold hi; [intros _|lra]. eapply RI_ext; [|exact JT]. intros; apply Rmult_comm.
      + intros NS. apply zsum_ext. intros i Hi. unfold Rlt_b. destruct (Rlt_dec _ _) as [B|_]; [exfalso|reflexivity].
        destruct (SP i Hi) as (E1 & E2 & E3 & _). rewrite QT in B. specialize (NS i ltac:(lia)). cbv zeta in NS. rewrite Rmax_comm, (Rmin_comm hi), E1, E2 in NS. specialize (NS E3).
        unfold Qf, Q, tl, th in B. rewrite Rmax_comm, (Rmin_comm hi), E1, E2 in B. lra.
      + intros M _ HM F0. pose proof (segs_err N false S G F Fi 0 lo hi i2 Hx ltac:(lia) HP HI Hseg M HM F0) as B. fold Jf in B. fold Qf in B. rewrite QT in *. eapply Rle_trans; [exact B|].
        assert (0 <= Fi lo hi 0%Z) by (eapply (is_RInt_ge_0 F); [|apply F_RInt|intros; apply F0]; lra).
        assert (0 <= M). { pose proof (inc_le x Hx 0 (alen x - 1) ltac:(lia) ltac:(lia) ltac:(lia)). specialize (HM (x_first x) ltac:(unfold x_first, x_last; lra)). pose proof (Rabs_pos (G (x_first x))). lra. }
        assert (0 <= deps) by (unfold deps; apply Rlt_le, Rinv_0_lt_compat, pow_lt; lra).
        apply Rmult_le_compat_r; [assumption|]. apply Rmult_le_compat_r; [assumption|]. apply Rmult_le_compat_r; [assumption|]. apply IZR_le. lia.
  Qed.
  Lemma integrateProduct_spec a b : Rmax (Rmin a b) (x_first x) < afn x 1%Z ->
    exists r I, integrateProduct (Z.of_nat N) S Fi a b = Ok r /\ is_RInt (fun t => cut x G t * F t) a b I /\
      (let lo := Rmax (Rmin a b) (x_first x) in let hi := Rmin (Rmax a b) (x_last x) in
       ((forall i, (0 <= i < alen x - 1)%Z -> let u := Rmax lo (afn x i) in let v := Rmin hi (afn x (i + 1)%Z) in u < v -> Rabs (Fi lo hi 0%Z) * deps <= Rabs (Fi u v 0%Z)) -> r = I) /\
       (forall M, lo < hi -> (forall y, x_first x <= y <= x_last x -> Rabs (G y) <= M) -> (forall t, 0 <= F t) -> Rabs (r - I) <= IZR (alen x - 1) * M * deps * Fi lo hi 0%Z)).
  Proof.
    intros H1. rewrite prod_core. unfold Rle_b. destruct (Rle_dec a b) as [L|L].
    - rewrite (Rmin_left a b), (Rmax_right a b) in * by lra. apply prodCore_spec; assumption.
    - rewrite (Rmin_right a b), (Rmax_left a b) in * by lra. destruct (prodCore_spec b a ltac:(lra) H1) as (r & I & E & HR & A1 & A2). exists (- r), (- I). rewrite E. split; [reflexivity|].
      split; [apply RI_swap; exact HR|]. cbv zeta in *. split.
      + intros H. f_equal. apply A1. exact H.
      + intros M HM1 HM2 F0. replace (- r - - I) with (- (r - I)) by ring. rewrite Rabs_Ropp. apply A2; assumption.
  Qed.
  (** reading an element of I0 which was not written yet, or does not exist *)
  Lemma segs_UB CONV xc lo hi i1 i2 : (0 < i1 < i2)%Z -> (i2 < alen x)%Z -> integrateSegs (Z.of_nat N) CONV S Fi xc lo hi i1 i2 = UB.
  Proof.
    intros H1 H2. unfold integrateSegs. cbv zeta. unfold for_ at 1. destruct (Z.to_nat (i2 - i1)) as [|m] eqn:Em; [lia|]. cbn [forn].
    rewrite !aget_ok by lia. cbn [bind]. rewrite Z.sub_diag. rewrite aset_ok by (cbn; lia). cbn [bind alen anew afn]. unfold oget, aget, inb. cbn [alen].
    destruct (Z.leb_spec 0 i1); [|lia]. destruct (Z.ltb_spec i1 (i2 - i1)); cbn [andb bind]; [|reflexivity]. cbn [afn]. unfold upd. destruct (Z.eqb_spec i1 0); [lia|]. reflexivity.
  Qed.
  Lemma integrateProduct_UB a b : afn x 1%Z <= Rmax (Rmin a b) (x_first x) -> Rmax (Rmin a b) (x_first x) < Rmin (Rmax a b) (x_last x) ->
    integrateProduct (Z.of_nat N) S Fi a b = UB.
  Proof.
    intros H1 H2. assert (C : forall p q, p <= q -> afn x 1%Z <= Rmax p (x_first x) -> Rmax p (x_first x) < Rmin q (x_last x) -> prodCore p q = UB).
    { intros p q Hpq A B. unfold prodCore. cbv zeta. rewrite (Rle_b_f _ _ B).
      destruct (segRange_ok x Hx Hn _ _ (Rmax_r p (x_first x)) B (Rmin_r q (x_last x))) as (i1 & i2 & Es & Hi1 & Hi2 & P1 & P2). rewrite Es. cbn [bind fst snd].
      apply segs_UB; [|lia]. split; [|lia]. destruct (Z.eq_dec i1 0) as [->|]; [|lia]. change (0 + 1)%Z with 1%Z in P1. lra. }
    rewrite prod_core. unfold Rle_b. destruct (Rle_dec a b) as [L|L].
    - rewrite (Rmin_left a b), (Rmax_right a b) in * by lra. apply C; assumption.
    - rewrite (Rmin_right a b), (Rmax_left a b) in * by lra. rewrite C by (assumption || lra). reflexivity.
  Qed.
  (** convolution *)
  Lemma convolve_spec xc : exists r I, convolve (Z.of_nat N) S Fi xc = Ok r /\ is_RInt (fun y => G y * F (xc - y)) (x_first x) (x_last x) I /\
    ((forall i, (0 <= i < alen x - 1)%Z -> Rabs (Fi (xc - x_last x) (xc - x_first x) 0%Z) * deps <= Rabs (Fi (xc - afn x (i + 1)%Z) (xc - afn x i) 0%Z)) -> r = I) /\
    (forall M, (forall y, x_first x <= y <= x_last x -> Rabs (G y) <= M) -> (forall t, 0 <= F t) -> Rabs (r - I) <= IZR (alen x - 1) * M * deps * Fi (xc - x_last x) (xc - x_first x) 0%Z).
  Proof.
    unfold convolve. rewrite (proj2 (Z.ltb_ge (alen x) 2)) by lia. rewrite !aget_ok by lia. cbn [bind].
    assert (Hseg : true = false -> forall i, (0 <= i < alen x - 1)%Z -> Rmax (afn x 0%Z) (afn x i) <= Rmin (afn x (alen x - 1)%Z) (afn x (i + 1)%Z)) by discriminate.
    pose proof (segs_ok N true S G F Fi xc (afn x 0%Z) (afn x (alen x - 1)%Z) (alen x - 1) Hx ltac:(lia) HF HP HI Hseg) as SO.
    set (Jf := J true S G F xc (afn x 0%Z) (afn x (alen x - 1)%Z)) in *. set (Qf := Q true S Fi xc (afn x 0%Z) (afn x (alen x - 1)%Z)) in *.
    assert (ch : forall (f : R -> R) (K : Z -> R), (forall i, (0 <= i < alen x - 1)%Z -> is_RInt f (afn x i) (afn x (i + 1)%Z) (K i)) -> is_RInt f (x_first x) (x_last x) (zsum 0 (alen x - 1) K)).
    { intros f K H. assert (G0 : forall m, (0 <= m)%Z -> (m <= alen x - 1)%Z -> is_RInt f (x_first x) (afn x m) (zsum 0 m K)).
      { intros m Hm. pattern m. apply natlike_ind; [| |exact Hm].
        - intros _. rewrite zsum_nil by lia. apply RI_point.
        - intros k Hk IH L. replace (Z.succ k) with (k + 1)%Z by lia. rewrite zsum_last by lia. eapply RI_chasles; [apply IH; lia|apply H; lia]. }
      apply G0; lia. }
    assert (refl : forall (f : R -> R) a b u, is_RInt f (xc - b) (xc - a) u -> is_RInt (fun y => f (xc - y)) a b u).
    { intros f a b u H. pose proof (is_RInt_comp_lin f (-1) xc a b (- u)) as C. replace (-1 * a + xc) with (xc - a) in C by ring. replace (-1 * b + xc) with (xc - b) in C by ring.
      specialize (C (RI_swap _ _ _ _ H)). apply (RI_ext (fun y => -1 * (-1 * f (-1 * y + xc)))).
      - intros y _. replace (-1 * y + xc) with (xc - y) by ring. ring.
      - eapply RI_val; [apply RI_scal; exact C|]. ring. }
    assert (JT : is_RInt (fun y => G y * F (xc - y)) (x_first x) (x_last x) (zsum 0 (alen x - 1) Jf)).
    { apply ch. intros i Hi. pose proof (J_RInt N true S G F Fi xc (afn x 0%Z) (afn x (alen x - 1)%Z) (alen x - 1) Hx ltac:(lia) HP HI Hseg i Hi) as H. unfold tl, th, Sf in H.
      apply refl in H. eapply RI_ext; [|exact H]. intros y _. cbv beta. replace (xc - (xc - y)) with y by ring. ring. }
    assert (QT : zsum 0 (alen x - 1) Qf = Fi (xc - x_last x) (xc - x_first x) 0%Z).
    { rewrite <- (RI_unique (fun y => F (xc - y)) (x_first x) (x_last x) (zsum 0 (alen x - 1) Qf)).
      - apply RI_unique, refl, F_RInt.
      - apply ch. intros i Hi. apply refl, F_RInt. }
    eexists. exists (zsum 0 (alen x - 1) Jf). split; [exact SO|]. split; [exact JT|]. split.
    - intros NS. apply zsum_ext. intros i Hi. unfold Rlt_b. destruct (Rlt_dec _ _) as [B|_]; [exfalso|reflexivity]. rewrite QT in B. specialize (NS i Hi). unfold Qf, Q, tl, th in B. lra.
    - intros M HM F0. rewrite <- QT. apply (segs_err N true S G F Fi xc (afn x 0%Z) (afn x (alen x - 1)%Z) (alen x - 1) Hx ltac:(lia) HP HI Hseg M HM F0).
  Qed.
End Prod.
