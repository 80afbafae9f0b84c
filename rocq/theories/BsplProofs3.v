From Coquelicot Require Import Coquelicot.
From Verif Require Import Arr BinSearchModel SplineModel SplineGlue SplIntModel PolyProofs RootProofs SplIntProofs SplIntProofs2 SplIntProofs5 BsplModel SplineSpec SplIntSpec BsplSpec BsplProofs BsplProofs2.
Local Open Scope R_scope.

(** the polynomial (derivative of order o) on the segment m *)
Definition sp (x a : arr R) (N o : nat) (m : Z) (t : R) : R := zsum (m - Z.of_nat N) (m + 1) (fun j => dn x m N o j t * afn a (j + Z.of_nat N)%Z).
Definition clampseg (x : arr R) (k : Z) : Z := Z.max 0 (Z.min (alen x - 2) k).
Definition piece (x a : arr R) (N o : nat) (k : Z) (t : R) : R := sp x a N o (clampseg x k) t.
Definition Fo (x a : arr R) (N o : nat) (t : R) : R := match binSearchR t (alist x) with Ok k => piece x a N o k t | _ => 0 end.

Lemma zsum_derive lo hi (f : Z -> R -> R) (g : Z -> R) t : (forall k, (lo <= k < hi)%Z -> is_derive (f k) t (g k)) -> is_derive (fun u => zsum lo hi (fun k => f k u)) t (zsum lo hi g).
Proof.
  unfold zsum. remember (Z.to_nat (hi - lo)) as p eqn:Ep. revert lo Ep. induction p as [|p IH]; intros lo Ep H; cbn [zsumn]; [exact (is_derive_const 0 t)|].
  apply (is_derive_plus (f lo) (fun u => zsumn p (lo + 1) (fun k => f k u))); [apply H; lia|]. apply IH; [lia|]. intros k Hk. apply H. lia.
Qed.

Lemma derive_scal_r (f : R -> R) c t l : is_derive f t l -> is_derive (fun u => f u * c) t (l * c).
Proof.
  intros D. apply is_derive_Reals. apply is_derive_Reals in D. replace (l * c) with (l * c + f t * 0) by ring.
  exact (derivable_pt_lim_mult f (fun _ => c) t _ _ D (derivable_pt_lim_const c t)).
Qed.
Section SegOf.
  Variable x : arr R.
  Hypothesis Hx : increasing x.
  Hypothesis Hn : (2 <= alen x)%Z.
  Lemma seg_of t : within x t -> exists m, binSearchR t (alist x) = Ok m /\ (0 <= m <= alen x - 2)%Z /\ knot x m <= t /\ (t < knot x (m + 1) \/ m = (alen x - 2)%Z /\ t = knot x (m + 1)).
  Proof.
    intros [H1 H2]. unfold x_first, x_last in *. destruct (bin_inseg x Hx ltac:(lia) t) as (k & E & (A & B & C) & D1 & D2 & D3). exists k.
    assert (K0 : (0 <= k)%Z). { destruct (Z_lt_le_dec k 0); [|assumption]. assert (k = -1)%Z by lia. specialize (D3 H). lra. }
    assert (K1 : (k <= alen x - 2)%Z). { destruct (Z_le_gt_dec k (alen x - 2)); [assumption|]. destruct (D2 ltac:(lia)); [lia|lra]. }
    split; [exact E|]. split; [lia|]. rewrite !knot_in by lia. split; [apply B; lia|]. specialize (C K1).
    destruct (Rlt_le_dec t (afn x (k + 1)%Z)) as [L|L]; [left; exact L|]. right. split; [|lra].
    (* at an inner node binSearch returns the segment to its right *)
    destruct (Z.eq_dec k (alen x - 2)); [assumption|]. exfalso.
    assert (Sx : BinSearchSpec.sorted Rle (alist x)).
    { intros i j u v Hu Hv Hij. apply alist_nth_inv in Hu; [|lia]. apply alist_nth_inv in Hv; [|lia]. destruct Hu as [? ->], Hv as [? ->]. apply (inc_le x Hx); lia. }
    destruct (PropsSearch.C05_binSearch_real t (alist x) Sx) as (k' & E' & B').
    { intros a0 aN L' Ha Hb. rewrite alist_len in *. change 0%nat with (Z.to_nat 0) in Ha. rewrite alist_nth in Ha by lia.
      replace (Z.to_nat (alen x) - 1)%nat with (Z.to_nat (alen x - 1)) in Hb by lia. rewrite alist_nth in Hb by lia. injection Ha as <-. injection Hb as <-. apply (inc_lt x Hx); lia. }
    rewrite E in E'. injection E' as <-. unfold BinSearchSpec.bin_spec, zlen in B'. rewrite alist_len in B'.
    destruct B' as [[B' _]|(a0 & aN & Ha & Hb & B')]. { apply (f_equal (@length R)) in B'. rewrite alist_len in B'. cbn in B'. lia. }
    change 0%nat with (Z.to_nat 0) in Ha. rewrite alist_nth in Ha by lia.
    replace (Z.to_nat (alen x) - 1)%nat with (Z.to_nat (alen x - 1)) in Hb by lia. rewrite alist_nth in Hb by lia. injection Ha as <-. injection Hb as <-. unfold BinSearchSpec.lt in B'.
    destruct B' as [(B1 & B2)|[(B1 & B2)|[(B1 & B2 & B3 & B4)|(B1 & B2 & B3 & ak & ak1 & E1 & E2 & L1 & L2 & L3)]]]; try lia.
    replace (Z.to_nat k + 1)%nat with (Z.to_nat (k + 1)) in E2 by lia. rewrite alist_nth in E2 by lia. injection E2 as <-. destruct L3 as [L3|L3]; [apply L3; lra|lia].
  Qed.
End SegOf.
Section Wrap.
  Variable x a : arr R.
  Variable N : nat.
  Hypothesis Hx : increasing x.
  Hypothesis Hn : (2 <= alen x)%Z.
  Hypothesis La : alen a = (alen x + Z.of_nat N - 1)%Z.

  Lemma sp_derive o m t : (0 <= m <= alen x - 2)%Z -> is_derive (sp x a N o m) t (sp x a N (S o) m t).
  Proof.
    intros Hm. unfold sp. apply (zsum_derive _ _ (fun j u => dn x m N o j u * afn a (j + Z.of_nat N)%Z) (fun j => dn x m N (S o) j t * afn a (j + Z.of_nat N)%Z)). intros j _.
    apply derive_scal_r, (dn_derive x Hx Hn m Hm).
  Qed.
  Lemma sp_match o m : (o < N)%nat -> (0 <= m)%Z -> (m + 1 <= alen x - 2)%Z -> sp x a N o m (knot x (m + 1)) = sp x a N o (m + 1) (knot x (m + 1)).
  Proof.
    intros Ho H0 H1. unfold sp.
    rewrite <- (zsum_extend (m - Z.of_nat N) (m + 1) (m - Z.of_nat N) (m + 2)); try lia; [|intros k Hk; rewrite dn_0 by lia; ring].
    rewrite <- (zsum_extend (m + 1 - Z.of_nat N) (m + 1 + 1) (m - Z.of_nat N) (m + 2)); try lia; [|intros k Hk; rewrite dn_0 by lia; ring].
    apply zsum_ext. intros j _. rewrite (dn_cont x Hx Hn m) by lia. reflexivity.
  Qed.
  Lemma piece_match o t : (o < N)%nat -> match_at x (piece x a N o) t.
  Proof.
    intros Ho i Hi E. unfold piece, clampseg. destruct (Z.eq_dec i 0) as [->|N0]; [f_equal; lia|]. destruct (Z.eq_dec i (alen x - 1)) as [->|N1]; [f_equal; lia|].
    replace (Z.max 0 (Z.min (alen x - 2) (i - 1))) with (i - 1)%Z by lia. replace (Z.max 0 (Z.min (alen x - 2) i)) with (i - 1 + 1)%Z by lia.
    replace t with (knot x (i - 1 + 1)); [apply sp_match; [assumption|lia|lia]|]. rewrite knot_in by lia. rewrite E. f_equal. lia.
  Qed.
  Lemma Fo_pieced o : pieced x (Fo x a N o) (piece x a N o).
  Proof. intros t. destruct (bin_inseg x Hx ltac:(lia) t) as (k & E & I & _). exists k. split; [exact I|]. unfold Fo. rewrite E. reflexivity. Qed.
  Lemma Fo_derive o t : (S o < N)%nat \/ ~ is_node x t -> is_derive (Fo x a N o) t (Fo x a N (S o) t).
  Proof.
    intros H. apply (glue_at x Hx _ _ (piece x a N o) (piece x a N (S o))); try apply Fo_pieced.
    - destruct H as [H|H]; [apply piece_match; lia|apply not_node_match; exact H].
    - destruct H as [H|H]; [apply piece_match; lia|apply not_node_match; exact H].
    - intros k Hk. apply sp_derive. unfold clampseg. lia.
  Qed.
  Lemma Fo_cont o t : (o < N)%nat \/ ~ is_node x t -> continuity_pt (Fo x a N o) t.
  Proof.
    intros H. apply (cont_at x Hx _ (piece x a N o)); [apply Fo_pieced| |].
    - destruct H as [H|H]; [apply piece_match; lia|apply not_node_match; exact H].
    - intros k Hk. apply derivable_continuous_pt. exists (piece x a N (S o) k t). apply is_derive_Reals. apply sp_derive. unfold clampseg. lia.
  Qed.
  Lemma deriv_eval s o m t : b_x s = x -> b_a s = a -> (0 <= m <= alen x - 2)%Z -> bsplDeriv N o s t m = Ok (sp x a N o m t).
  Proof.
    intros Es Ea Hm. unfold bsplDeriv. rewrite Es, Ea. destruct (Nat.leb_spec o N).
    - destruct (derivs_ok x Hx Hn m Hm o N t H) as (B & -> & LB & VB). cbn [bind]. rewrite (bsplSum_ok x m Hm N B a LB La). f_equal. unfold sp.
      transitivity (zsum (0 + (m - Z.of_nat N)) (Z.of_nat N + 1 + (m - Z.of_nat N)) (fun j => dn x m N o j t * afn a (j + Z.of_nat N)%Z)); [|f_equal; lia].
      rewrite <- (zsum_shift 0 (Z.of_nat N + 1) (m - Z.of_nat N) (fun j => dn x m N o j t * afn a (j + Z.of_nat N)%Z)).
      apply zsum_ext. intros i Hi. rewrite VB by lia. f_equal; f_equal; lia.
    - f_equal. symmetry. apply zsum_0. intros j Hj.
      assert (D : forall o n, (n < o)%nat -> forall j, dn x m n o j t = 0).
      { induction o0 as [|p IH]; intros n Hp j'; [lia|]. cbn [dn]. destruct n as [|n]; [reflexivity|]. rewrite !IH by lia. unfold Rdiv. ring. }
      rewrite D by assumption. ring.
  Qed.
  Lemma eval_in s t : b_x s = x -> b_a s = a -> within x t -> bsplEval N s t = Ok (Some (Fo x a N 0 t, Fo x a N 1 t, Fo x a N 2 t, Fo x a N 3 t)).
  Proof.
    intros Es Ea Ht. destruct (seg_of x Hx Hn t Ht) as (m & E & Hm & _). unfold bsplEval. rewrite Es. rewrite E. cbn [bind].
    rewrite (proj2 (Z.ltb_ge m 0)), (proj2 (Z.leb_gt (alen x - 1) m)) by lia. cbn [orb]. rewrite !(deriv_eval s _ m t Es Ea Hm). cbn [bind].
    unfold Fo. rewrite E. unfold piece. replace (clampseg x m) with m by (unfold clampseg; lia). reflexivity.
  Qed.
  Lemma eval_out s t : b_x s = x -> ~ within x t -> bsplEval N s t = Ok None.
  Proof.
    intros Es Ht. unfold bsplEval. rewrite Es. destruct (bin_inseg x Hx ltac:(lia) t) as (k & -> & (A & B & C) & D1 & D2 & D3). cbn [bind].
    destruct (Z.ltb_spec k 0); [reflexivity|]. destruct (Z.leb_spec (alen x - 1) k); [reflexivity|]. exfalso. apply Ht. unfold within, x_first, x_last.
    specialize (B H). specialize (C ltac:(lia)). pose proof (inc_le x Hx 0 k ltac:(lia) ltac:(lia) ltac:(lia)). pose proof (inc_le x Hx (k + 1) (alen x - 1) ltac:(lia) ltac:(lia) ltac:(lia)). lra.
  Qed.
  Lemma Fo_comb t : within x t -> Fo x a N 0 t = combination N x a t.
  Proof.
    intros Ht. destruct (seg_of x Hx Hn t Ht) as (m & E & Hm & T1 & T2). unfold Fo. rewrite E. unfold piece. replace (clampseg x m) with m by (unfold clampseg; lia).
    unfold sp, combination, nbasis, basis.
    transitivity (zsum (0 + - Z.of_nat N) (alen x + Z.of_nat N - 1 + - Z.of_nat N) (fun j => dn x m N 0 j t * afn a (j + Z.of_nat N)%Z)).
    - symmetry. apply zsum_extend; try lia; intros k Hk; rewrite dn_0 by lia; ring.
    - rewrite <- (zsum_shift 0 _ (- Z.of_nat N) (fun j => dn x m N 0 j t * afn a (j + Z.of_nat N)%Z)). apply zsum_ext. intros k Hk.
      rewrite (bspline_cox x Hx m Hm N _ t T1 T2). cbn [dn]. rewrite Rmult_comm. f_equal; f_equal; lia.
  Qed.
End Wrap.

Section Basis.
  Variable x : arr R.
  Variable N : nat.
  Hypothesis Hx : increasing x.
  Hypothesis Hn : (2 <= alen x)%Z.
  Lemma basis_nonneg k t : within x t -> 0 <= basis N x k t.
  Proof.
    intros Ht. destruct (seg_of x Hx Hn t Ht) as (m & E & Hm & T1 & T2). unfold basis. rewrite (bspline_cox x Hx m Hm N _ t T1 T2). apply (cox_nonneg x Hx Hn m Hm). lra.
  Qed.
  Lemma basis_sum t : within x t -> zsum 0 (nbasis N x) (fun k => basis N x k t) = 1.
  Proof.
    intros Ht. destruct (seg_of x Hx Hn t Ht) as (m & E & Hm & T1 & T2). unfold nbasis, basis.
    transitivity (zsum (0 + - Z.of_nat N) (alen x + Z.of_nat N - 1 + - Z.of_nat N) (fun j => cox x m N j t)).
    - rewrite <- (zsum_shift 0 _ (- Z.of_nat N) (fun j => cox x m N j t)). apply zsum_ext. intros k Hk. apply (bspline_cox x Hx m Hm N _ t T1 T2).
    - rewrite <- (cox_sum x Hx Hn m Hm N t). apply zsum_extend; try lia; intros k Hk; rewrite cox_0 by lia; reflexivity.
  Qed.
  Lemma basis_support k t : within x t -> t < knot x (k - Z.of_nat N)%Z \/ knot x (k + 1)%Z < t -> basis N x k t = 0.
  Proof.
    intros Ht H. destruct (seg_of x Hx Hn t Ht) as (m & E & Hm & T1 & T2). unfold basis. rewrite (bspline_cox x Hx m Hm N _ t T1 T2). apply cox_0.
    destruct H as [H|H].
    - right. destruct (Z_lt_le_dec m (k - Z.of_nat N)); [assumption|]. pose proof (knot_le x Hx Hn (k - Z.of_nat N) m ltac:(lia)). lra.
    - left. destruct (Z_lt_le_dec (k - Z.of_nat N) (m - Z.of_nat N)); [assumption|]. pose proof (knot_le x Hx Hn (m + 1) (k + 1) ltac:(lia)). lra.
  Qed.
  Lemma comb_bounds a lo hi t : within x t -> (forall k, (0 <= k < nbasis N x)%Z -> lo <= afn a k <= hi) -> lo <= combination N x a t <= hi.
  Proof.
    intros Ht H. assert (S : forall c, c = zsum 0 (nbasis N x) (fun k => c * basis N x k t)) by (intros c; rewrite zsum_scal, basis_sum by assumption; ring).
    rewrite (S lo) at 1. rewrite (S hi) at 1. unfold combination. split; apply zsum_le; intros k Hk; apply Rmult_le_compat_r; try apply basis_nonneg; try assumption; apply H; assumption.
  Qed.
End Basis.
