(** BsplineInterpolator1d *)
From Coquelicot Require Import Coquelicot.
From Verif Require Import Arr BinSearchModel SplineModel SplineGlue SplIntModel PolyProofs RootProofs SplIntProofs SplIntProofs2 SplIntProofs5 BsplModel SplineSpec SplIntSpec BsplSpec BsplProofs BsplProofs2 BsplProofs3 BsplProofs4.
Local Open Scope R_scope.

Section I1.
  Variable x : arr R.
  Hypothesis Hx : increasing x.
  Hypothesis Hn : (2 <= alen x)%Z.

  Lemma nonzero_in N t d : within x t -> (d <= N)%nat -> (d <= 3)%nat -> exists m B, binSearchR t (alist x) = Ok m /\ nonzeroComponents N x t d = Ok (m, B) /\ alen B = (Z.of_nat N + 1)%Z /\ (0 <= m <= alen x - 2)%Z /\
    knot x m <= t /\ (t < knot x (m + 1) \/ m = (alen x - 2)%Z /\ t = knot x (m + 1)) /\
    (forall i, (0 <= i <= Z.of_nat N)%Z -> afn B i = dn x m N d (m - Z.of_nat N + i) t).
  Proof.
    intros Ht H1 H2. destruct (seg_of x Hx Hn t Ht) as (m & E & Hm & T1 & T2). destruct (derivs_ok x Hx Hn m Hm d N t H1) as (B & EB & LB & VB).
    exists m, B. split; [exact E|]. split; [|auto]. unfold nonzeroComponents. rewrite E. cbn [bind].
    rewrite (proj2 (Z.ltb_ge m 0)), (proj2 (Z.leb_gt (alen x - 1) m)), (proj2 (Nat.ltb_ge N d)), (proj2 (Nat.ltb_ge 3 d)) by lia. cbn [orb]. rewrite EB. reflexivity.
  Qed.
  Lemma nonzero_out N t d : ~ within x t -> exists m, nonzeroComponents N x t d = Ok (m, anew (Z.of_nat N + 1) 0) /\ (0 <= m <= alen x - 2)%Z.
  Proof.
    intros Ht. unfold nonzeroComponents. destruct (bin_inseg x Hx ltac:(lia) t) as (k & -> & (P & Q & C) & D1 & D2 & D3). cbn [bind].
    assert (K : (k < 0 \/ alen x - 1 <= k)%Z).
    { destruct (Z_lt_le_dec k 0); [auto|]. destruct (Z_lt_le_dec k (alen x - 1)); [|auto]. exfalso. apply Ht. unfold within, x_first, x_last.
      specialize (Q ltac:(lia)). specialize (C ltac:(lia)). pose proof (inc_le x Hx 0 k ltac:(lia) ltac:(lia) ltac:(lia)). pose proof (inc_le x Hx (k + 1) (alen x - 1) ltac:(lia) ltac:(lia) ltac:(lia)). lra. }
    destruct (Z.ltb_spec k 0); [exists 0%Z; split; [reflexivity|lia]|]. rewrite (proj2 (Z.leb_le (alen x - 1) k)) by lia. cbn [orb]. eexists. split; [reflexivity|lia].
  Qed.
  Lemma nonzero_basis N t m B : binSearchR t (alist x) = Ok m -> within x t -> nonzeroComponents N x t 0 = Ok (m, B) -> (0 <= m <= alen x - 2)%Z -> knot x m <= t -> (t < knot x (m + 1) \/ m = (alen x - 2)%Z /\ t = knot x (m + 1)) ->
    (forall i, (0 <= i <= Z.of_nat N)%Z -> afn B i = dn x m N 0 (m - Z.of_nat N + i) t) ->
    forall k, (0 <= k < nbasis N x)%Z -> basis N x k t = if (m <=? k)%Z && (k <=? m + Z.of_nat N)%Z then afn B (k - m)%Z else 0.
  Proof.
    intros _ Ht _ Hm T1 T2 VB k Hk. unfold basis. rewrite (bspline_cox x Hx m Hm N _ t T1 T2).
    destruct (Z.leb_spec m k); cbn [andb]; [|apply cox_0; lia]. destruct (Z.leb_spec k (m + Z.of_nat N)); [|apply cox_0; lia].
    rewrite VB by lia. cbn [dn]. f_equal. lia.
  Qed.

  Lemma interpolate_in N A t d : alen A = nbasis N x -> within x t -> (d <= 3)%nat -> bi1Interpolate N x t A d = Ok (Fo x A N d t).
  Proof.
    intros LA Ht Hd. unfold bi1Interpolate, numComp. unfold nbasis in LA. rewrite LA, Z.eqb_refl. cbn [negb].
    destruct (seg_of x Hx Hn t Ht) as (m & E & Hm & T1 & T2).
    destruct (Nat.ltb_spec N d) as [L|L].
    - f_equal. pose proof (deriv_eval x A N Hx Hn LA (mkBW x A) d m t eq_refl eq_refl Hm) as D. unfold bsplDeriv in D. rewrite (proj2 (Nat.leb_gt d N)) in D by lia. injection D as D.
      unfold Fo. rewrite E. unfold piece. replace (clampseg x m) with m by (unfold clampseg; lia). exact D.
    - destruct (nonzero_in N t d Ht L Hd) as (m' & B & E' & -> & LB & _ & _ & _ & VB). rewrite E in E'. injection E' as <-. cbn [bind].
      pose proof (deriv_eval x A N Hx Hn LA (mkBW x A) d m t eq_refl eq_refl Hm) as D. unfold bsplDeriv in D. rewrite (proj2 (Nat.leb_le d N)) in D by lia.
      destruct (derivs_ok x Hx Hn m Hm d N t L) as (B' & EB & LB' & VB'). cbn [b_x b_a] in D. rewrite EB in D. cbn [bind] in D.
      rewrite (bsplSum_ok x m Hm N B A LB LA). rewrite (bsplSum_ok x m Hm N B' A LB' LA) in D. unfold Fo. rewrite E. unfold piece. replace (clampseg x m) with m by (unfold clampseg; lia).
      rewrite <- D. f_equal. apply zsum_ext. intros i Hi. rewrite VB, VB' by lia. reflexivity.
  Qed.
  Lemma interpolate_out N A t d : alen A = nbasis N x -> ~ within x t -> bi1Interpolate N x t A d = Ok 0.
  Proof.
    intros LA Ht. unfold bi1Interpolate, numComp. unfold nbasis in LA. rewrite LA, Z.eqb_refl. cbn [negb].
    destruct (N <? d)%nat; [reflexivity|]. destruct (nonzero_out N t d Ht) as (m & -> & Hm). cbn [bind]. rewrite (bsplSum_ok x m Hm N (anew (Z.of_nat N + 1) 0) A eq_refl LA). f_equal. apply zsum_0. intros; cbn; ring.
  Qed.
  Lemma addPoint_in N t mult V : within x t -> alen V = nbasis N x -> exists W, bi1AddPoint N x t mult V = Ok W /\ alen W = alen V /\ forall k, (0 <= k < nbasis N x)%Z -> afn W k = afn V k + mult * basis N x k t.
  Proof.
    intros Ht LV. unfold nbasis in LV. destruct (seg_of x Hx Hn t Ht) as (m & E & Hm & T1 & T2). destruct (values_ok x Hx Hn m Hm N t) as (B & EB & LB & VB).
    unfold bi1AddPoint. rewrite E. cbn [bind]. rewrite (proj2 (Z.ltb_ge m 0)), (proj2 (Z.leb_gt (alen x - 1) m)) by lia. cbn [orb]. rewrite EB. cbn [bind].
    match goal with |- context [for_ 0 _ ?f V] => destruct (for_total (fun i (W : arr R) => alen W = alen V /\ forall k, (0 <= k < nbasis N x)%Z -> afn W k = afn V k + (if (m <=? k)%Z && (k <? m + i)%Z then mult * afn B (k - m)%Z else 0)) 0 (Z.of_nat N + 1) f V) as (W & EW & LW & VW) end.
    - lia.
    - split; [reflexivity|]. intros k Hk. destruct (Z.leb_spec m k); [rewrite (proj2 (Z.ltb_ge k (m + 0))) by lia|]; cbn [andb]; ring.
    - intros i W Hi (LW & VW). rewrite !aget_ok by (unfold nbasis in *; lia). cbn [bind]. rewrite aset_ok by lia. eexists. split; [reflexivity|]. cbn [alen afn]. split; [exact LW|].
      intros k Hk. destruct (Z.eq_dec k (i + m)) as [->|Nk].
      + rewrite upd_same, VW by lia. rewrite (proj2 (Z.ltb_ge (i + m) (m + i))), (proj2 (Z.ltb_lt (i + m) (m + (i + 1)))), (proj2 (Z.leb_le m (i + m))) by lia. cbn [andb]. replace (i + m - m)%Z with i by lia. ring.
      + rewrite upd_other, VW by assumption. destruct (Z.leb_spec m k); cbn [andb]; [|reflexivity]. destruct (Z.ltb_spec k (m + i)), (Z.ltb_spec k (m + (i + 1))); try reflexivity; lia.
    - exists W. split; [exact EW|]. split; [exact LW|]. intros k Hk. rewrite VW by assumption. f_equal. unfold basis. rewrite (bspline_cox x Hx m Hm N _ t T1 T2).
      destruct (Z.leb_spec m k); cbn [andb]; [|rewrite cox_0 by lia; ring]. destruct (Z.ltb_spec k (m + (Z.of_nat N + 1))); [|rewrite cox_0 by lia; ring]. rewrite VB by lia. do 2 f_equal. lia.
  Qed.
  Lemma addPoint_out N t mult V : ~ within x t -> bi1AddPoint N x t mult V = Ok V.
  Proof.
    intros Ht. unfold bi1AddPoint. destruct (bin_inseg x Hx ltac:(lia) t) as (k & -> & (P & Q & C) & D1 & D2 & D3). cbn [bind].
    destruct (Z.ltb_spec k 0); [reflexivity|]. destruct (Z.leb_spec (alen x - 1) k); [reflexivity|]. exfalso. apply Ht. unfold within, x_first, x_last.
    specialize (Q ltac:(lia)). specialize (C ltac:(lia)). pose proof (inc_le x Hx 0 k ltac:(lia) ltac:(lia) ltac:(lia)). pose proof (inc_le x Hx (k + 1) (alen x - 1) ltac:(lia) ltac:(lia) ltac:(lia)). lra.
  Qed.

  (** differentiation of amplitudes *)
  Lemma knot_gap p k : (0 <= k < nbasis p x)%Z -> knot x (k - Z.of_nat p) < knot x (k + 1).
  Proof. intros Hk. unfold nbasis in Hk. unfold knot. apply Hx; lia. Qed.
  Lemma deriv_ok p A : alen A = nbasis (S p) x -> exists A', bi1Deriv (S p) x A = Ok A' /\ alen A' = nbasis p x /\
    forall k, (0 <= k < nbasis p x)%Z -> afn A' k = INR (S p) * (afn A (k + 1)%Z - afn A k) / (knot x (k + 1) - knot x (k - Z.of_nat p)).
  Proof.
    intros LA. unfold bi1Deriv, numComp. unfold nbasis in *. rewrite LA, Z.eqb_refl. cbn [negb].
    match goal with |- context [for_ 0 ?h ?f A] => destruct (for_total (fun i (B : arr R) => alen B = alen A /\ forall k, (0 <= k < alen A)%Z -> afn B k = if (k <? i)%Z then INR (S p) * (afn A (k + 1)%Z - afn A k) / (knot x (k + 1) - knot x (k - Z.of_nat p)) else afn A k) 0 h f A) as (B & EB & LB & VB) end.
    - lia.
    - split; [reflexivity|]. intros k Hk. rewrite (proj2 (Z.ltb_ge k 0)) by lia. reflexivity.
    - intros i B Hi (LB & VB). rewrite !aget_ok by lia. cbn [bind]. rewrite (denom_ok x Hn). cbn [bind]. rewrite aset_ok by lia. eexists. split; [reflexivity|]. cbn [alen afn]. split; [exact LB|].
      intros k Hk. destruct (Z.eq_dec k i) as [->|Nk].
      + rewrite upd_same. rewrite !VB by lia. rewrite (proj2 (Z.ltb_ge (i + 1) i)), (proj2 (Z.ltb_ge i i)), (proj2 (Z.ltb_lt i (i + 1))) by lia.
        replace (i - Z.of_nat (S p) + 1)%Z with (i - Z.of_nat p)%Z by lia. pose proof (knot_gap p i ltac:(unfold nbasis; lia)). rewrite Req_b_f by lra. field. lra.
      + rewrite upd_other by assumption. rewrite VB by assumption. destruct (Z.ltb_spec k i), (Z.ltb_spec k (i + 1)); try reflexivity; lia.
    - rewrite EB. cbn [bind]. eexists. split; [reflexivity|]. cbn [alen afn]. split; [lia|]. intros k Hk. rewrite VB by lia. rewrite (proj2 (Z.ltb_lt k _)) by lia. reflexivity.
  Qed.
  Lemma deriv_sp p A A' o m t : (0 <= m <= alen x - 2)%Z -> (forall k, (0 <= k < nbasis p x)%Z -> afn A' k = INR (S p) * (afn A (k + 1)%Z - afn A k) / (knot x (k + 1) - knot x (k - Z.of_nat p))) ->
    sp x A (S p) (S o) m t = sp x A' p o m t.
  Proof.
    intros Hm H. unfold sp. unfold nbasis in H.
    set (g := fun j => INR (S p) * dn x m p o j t / (knot x (j + Z.of_nat p + 1) - knot x j)).
    transitivity (zsum (m - Z.of_nat (S p)) (m + 1) (fun j => g j * afn A (j + Z.of_nat p + 1)%Z) - zsum (m - Z.of_nat (S p)) (m + 1) (fun j => g (j + 1)%Z * afn A (j + 1 + Z.of_nat p)%Z)).
    { rewrite zsum_minus. apply zsum_ext. intros j Hj. cbn [dn]. unfold g. replace (j + 1 + Z.of_nat p + 1)%Z with (j + Z.of_nat p + 2)%Z by lia.
      replace (j + Z.of_nat (S p))%Z with (j + Z.of_nat p + 1)%Z by lia. replace (j + 1 + Z.of_nat p)%Z with (j + Z.of_nat p + 1)%Z by lia. unfold Rdiv. ring. }
    rewrite (zsum_shift (m - Z.of_nat (S p)) (m + 1) 1 (fun j => g j * afn A (j + Z.of_nat p)%Z)).
    rewrite (zsum_extend (m - Z.of_nat p) (m + 1) (m - Z.of_nat (S p)) (m + 1)); try lia; [|intros k Hk; unfold g; rewrite dn_0 by lia; unfold Rdiv; ring].
    rewrite (zsum_extend (m - Z.of_nat p) (m + 1) (m - Z.of_nat (S p) + 1) (m + 1 + 1)); try lia; [|intros k Hk; unfold g; rewrite dn_0 by lia; unfold Rdiv; ring].
    rewrite zsum_minus. apply zsum_ext. intros j Hj. rewrite H by lia. unfold g. replace (j + Z.of_nat p - Z.of_nat p)%Z with j by lia. unfold Rdiv. ring.
  Qed.
  Lemma deriv_Fo p A A' o t : (forall k, (0 <= k < nbasis p x)%Z -> afn A' k = INR (S p) * (afn A (k + 1)%Z - afn A k) / (knot x (k + 1) - knot x (k - Z.of_nat p))) ->
    Fo x A (S p) (S o) t = Fo x A' p o t.
  Proof. intros H. unfold Fo. destruct (binSearchR t (alist x)); try reflexivity. unfold piece. apply deriv_sp; [unfold clampseg; lia|exact H]. Qed.

  (** integration of amplitudes *)
  Lemma antideriv_ok p A : alen A = nbasis p x -> exists A', bi1Antideriv p x A = Ok A' /\ alen A' = nbasis (S p) x /\ afn A' 0%Z = 0 /\
    forall k, (0 <= k < nbasis p x)%Z -> afn A' (k + 1)%Z = afn A' k + afn A k / INR (S p) * (knot x (k + 1) - knot x (k - Z.of_nat p)).
  Proof.
    intros LA. unfold bi1Antideriv, numComp. unfold nbasis in *. rewrite LA, Z.eqb_refl. cbn [negb].
    match goal with |- context [for_ 0 ?h ?f ?s] => destruct (for_total (fun i (B : arr R) => alen B = (alen x + Z.of_nat p - 1 + 1)%Z /\ afn B 0%Z = 0 /\ forall k, (0 <= k < i)%Z -> afn B (k + 1)%Z = afn B k + afn A k / INR (S p) * (knot x (k + 1) - knot x (k - Z.of_nat p))) 0 h f s) as (B & EB & LB & V0 & VB) end.
    - lia.
    - split; [reflexivity|]. split; [reflexivity|]. intros; lia.
    - intros i B Hi (LB & V0 & VB). rewrite !aget_ok by lia. cbn [bind]. rewrite (denom_ok x Hn). cbn [bind]. rewrite aset_ok by lia. eexists. split; [reflexivity|]. cbn [alen afn]. split; [exact LB|].
      split; [rewrite upd_other by lia; exact V0|]. intros k Hk. destruct (Z.eq_dec k i) as [->|Nk].
      + rewrite upd_same, upd_other by lia. pose proof (knot_gap p i ltac:(unfold nbasis; lia)). rewrite Req_b_f by lra. replace (p + 1)%nat with (S p) by lia. pose proof (lt_0_INR (S p) ltac:(lia)). field. split; lra.
      + rewrite !upd_other by lia. apply VB. lia.
    - exists B. split; [exact EB|]. split; [lia|]. split; [exact V0|exact VB].
  Qed.
  Lemma antideriv_Fo p A A' o t : alen A = nbasis p x -> (forall k, (0 <= k < nbasis p x)%Z -> afn A' (k + 1)%Z = afn A' k + afn A k / INR (S p) * (knot x (k + 1) - knot x (k - Z.of_nat p))) ->
    Fo x A' (S p) (S o) t = Fo x A p o t.
  Proof.
    intros LA H. apply deriv_Fo. intros k Hk. rewrite H by assumption. pose proof (knot_gap p k Hk). pose proof (lt_0_INR (S p) ltac:(lia)). field. split; lra.
  Qed.
  (** the value at the first node is the first amplitude *)
  Lemma cox_first n : forall j, (j <= 0)%Z -> cox x 0 n j (knot x 0) = if (j + Z.of_nat n =? 0)%Z then 1 else 0.
  Proof.
    assert (K0 : forall j, (j <= 0)%Z -> knot x j = knot x 0) by (intros j Hj; unfold knot; f_equal; lia).
    induction n as [|n IH]; intros j Hj; [cbn [cox]; rewrite Z.add_0_r; reflexivity|].
    rewrite (cox_S x Hx Hn 0 ltac:(lia)). rewrite (K0 j Hj). rewrite Rminus_eq_0. unfold Rdiv at 1. rewrite !Rmult_0_l, Rplus_0_l.
    destruct (Z.eq_dec j 0) as [->|N0]; [rewrite cox_0 by lia; rewrite (proj2 (Z.eqb_neq (0 + Z.of_nat (S n)) 0)) by lia; ring|].
    rewrite IH by lia. rewrite (K0 (j + 1)%Z) by lia. replace (j + 1 + Z.of_nat n)%Z with (j + Z.of_nat (S n))%Z by lia.
    destruct (Z.eqb_spec (j + Z.of_nat (S n)) 0) as [E|E]; [|ring].
    pose proof (knot_lt x Hx Hn 0 ltac:(lia) 0 (j + Z.of_nat n + 2) ltac:(lia)). field. lra.
  Qed.
  Lemma sp_first A N : sp x A N 0 0 (knot x 0) = afn A 0%Z.
  Proof.
    unfold sp. rewrite zsum_first by lia. rewrite zsum_0.
    - cbn [dn]. rewrite cox_first by lia. rewrite (proj2 (Z.eqb_eq (0 - Z.of_nat N + Z.of_nat N) 0)) by lia. replace (0 - Z.of_nat N + Z.of_nat N)%Z with 0%Z by lia. ring.
    - intros k Hk. cbn [dn]. rewrite cox_first by lia. rewrite (proj2 (Z.eqb_neq (k + Z.of_nat N) 0)) by lia. ring.
  Qed.
  Lemma Fo_seg A N i t : (0 <= i <= alen x - 2)%Z -> afn x i < t < afn x (i + 1)%Z -> Fo x A N 0 t = sp x A N 0 i t.
  Proof.
    intros Hi Ht. destruct (Fo_pieced x A N Hx Hn 0 t) as (k & Hk & ->). rewrite (sinseg_unique x Hx i k t); [|split; [lia|split; intros; lra]|exact Hk].
    unfold piece, clampseg. f_equal. lia.
  Qed.
  Lemma antideriv_RInt p A A' t : alen A = nbasis p x -> alen A' = nbasis (S p) x -> afn A' 0%Z = 0 ->
    (forall k, (0 <= k < nbasis p x)%Z -> afn A' (k + 1)%Z = afn A' k + afn A k / INR (S p) * (knot x (k + 1) - knot x (k - Z.of_nat p))) ->
    within x t -> is_RInt (combination p x A) (x_first x) t (combination (S p) x A' t).
  Proof.
    intros LA LA' H0 H Ht. unfold nbasis in LA, LA'.
    apply (RI_ext (Fo x A p 0)).
    { intros u Hu. rewrite Rmin_left, Rmax_right in Hu by apply Ht. apply Fo_comb; try assumption. unfold within in *. lra. }
    rewrite <- (Fo_comb x A' (S p) Hx Hn t Ht).
    (* on a part of one segment *)
    assert (S1 : forall i u v, (0 <= i <= alen x - 2)%Z -> afn x i <= u -> u <= v -> v <= afn x (i + 1)%Z -> is_RInt (Fo x A p 0) u v (Fo x A' (S p) 0 v - Fo x A' (S p) 0 u)).
    { intros i u v Hi Hu Huv Hv.
      assert (V : forall w, afn x i <= w <= afn x (i + 1)%Z -> Fo x A' (S p) 0 w = sp x A' (S p) 0 i w).
      { intros w Hw. rewrite (pieced_at x Hx _ (piece x A' (S p) 0) i w (Fo_pieced x A' (S p) Hx Hn 0) (piece_match x A' (S p) Hx Hn 0 w ltac:(lia))); [unfold piece, clampseg; f_equal; lia|].
        split; [lia|]. split; intros; lra. }
      rewrite !V by lra. apply (RI_ext (sp x A p 0 i)).
      - intros w Hw. rewrite Rmin_left, Rmax_right in Hw by lra. symmetry. apply Fo_seg; [lia|lra].
      - apply (is_RInt_derive (sp x A' (S p) 0 i) (sp x A p 0 i)).
        + intros w _. pose proof (sp_derive x A' (S p) Hx Hn 0 i w Hi) as D. rewrite (deriv_sp p A' A 0 i w Hi) in D; [exact D|].
          intros k Hk. rewrite H by assumption. pose proof (knot_gap p k Hk). pose proof (lt_0_INR (S p) ltac:(lia)). field. split; lra.
        + intros w _. apply (ex_derive_continuous (sp x A p 0 i)). eexists. apply (sp_derive x A p Hx Hn 0 i w Hi). }
    assert (G : forall i : nat, (Z.of_nat i <= alen x - 1)%Z -> is_RInt (Fo x A p 0) (x_first x) (afn x (Z.of_nat i)) (Fo x A' (S p) 0 (afn x (Z.of_nat i)))).
    { induction i as [|i IH]; intros Hi.
      - change (Z.of_nat 0) with 0%Z. unfold x_first.
        replace (Fo x A' (S p) 0 (afn x 0%Z)) with 0; [apply RI_point|].
        rewrite (pieced_at x Hx _ (piece x A' (S p) 0) 0 (afn x 0%Z) (Fo_pieced x A' (S p) Hx Hn 0) (piece_match x A' (S p) Hx Hn 0 _ ltac:(lia))); [|apply (node_seg x Hx); lia].
        unfold piece. replace (clampseg x 0) with 0%Z by (unfold clampseg; lia). rewrite <- (knot_in x 0 ltac:(lia)). rewrite sp_first. auto.
      - specialize (IH ltac:(lia)). pose proof (inc_lt x Hx (Z.of_nat i) (Z.of_nat i + 1) ltac:(lia) ltac:(lia) ltac:(lia)) as H1.
        replace (Z.of_nat (S i)) with (Z.of_nat i + 1)%Z by lia.
        eapply RI_val; [apply (RI_chasles _ _ _ _ _ _ IH (S1 (Z.of_nat i) (afn x (Z.of_nat i)) (afn x (Z.of_nat i + 1)%Z) ltac:(lia) (Rle_refl _) (Rlt_le _ _ H1) (Rle_refl _)))|ring]. }
    destruct (seg_of x Hx Hn t Ht) as (m & E & Hm & T1 & T2). rewrite !knot_in in * by lia.
    assert (T3 : t <= afn x (m + 1)%Z) by (destruct T2 as [T2 | [_ T2]]; lra).
    specialize (G (Z.to_nat m) ltac:(lia)). rewrite Z2Nat.id in G by lia.
    eapply RI_val; [apply (RI_chasles _ _ _ _ _ _ G (S1 m (afn x m) t ltac:(lia) (Rle_refl _) T1 T3))|ring].
  Qed.
End I1.
