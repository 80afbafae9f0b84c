(** C06-C09: band matrices, band solver, matrix-vector products, sparse matrices. *)
From Verif Require Import Arr BinSearchModel BinSearchSpec BandModel BandSpec BandSolve BandSolve2 BandDom BandStore BandBlas SparseModel SparseSpec SparseProofs.
Local Open Scope Z_scope.

(** ---- C06 ---- *)
(** the constructor yields a matrix whose in-band elements are all equal to the given value, or throws *)
Theorem C06_constructor : forall (T : Type) (zero : T) N B v, 0 <= B ->
  (B >= N -> bm_new N B v = Throw) /\
  (B < N -> exists m, bm_new N B v = Ok m /\ bm_wf m /\ bN m = N /\ bB m = B /\
     forall r c, 0 <= r < N -> 0 <= c < N -> bm_at zero m r c = Ok (if (Z.abs (r - c) <=? B) then v else zero)).
Proof.
  intros T zero N B v HB. unfold bm_new. rewrite Z.geb_leb. split; intros H.
  - rewrite (proj2 (Z.leb_le _ _)) by lia. reflexivity.
  - rewrite (proj2 (Z.leb_gt _ _)) by lia. eexists. split; [reflexivity|]. cbn [bN bB].
    assert (W : bm_wf (mkBand N B (anew (N * (2 * B + 1)) v))) by (split; cbn; lia). split; [exact W|]. split; [reflexivity|]. split; [reflexivity|].
    intros r c Hr Hc. destruct (Z.abs (r - c) <=? B) eqn:E.
    + apply Z.leb_le in E. rewrite at_in by (auto; cbn [bN bB]; lia). reflexivity.
    + apply Z.leb_gt in E. rewrite at_out by (auto; cbn [bN bB]; lia). reflexivity.
Qed.
(** writing one element changes that element only; elements outside of the band cannot be written and read as zero *)
Theorem C06_write_then_read : forall (T : Type) (zero : T) (m : band_matrix T) r c v, bm_wf m ->
  0 <= r < bN m -> 0 <= c < bN m ->
  (Z.abs (r - c) <= bB m -> exists m', bm_set m r c v = Ok m' /\ bm_wf m' /\ bN m' = bN m /\ bB m' = bB m /\
     bm_at zero m' r c = Ok v /\
     forall r' c', 0 <= r' < bN m -> 0 <= c' < bN m -> (r', c') <> (r, c) -> bm_at zero m' r' c' = bm_at zero m r' c') /\
  (Z.abs (r - c) > bB m -> bm_set m r c v = Throw /\ bm_ref m r c = Throw /\ bm_at zero m r c = Ok zero).
Proof.
  intros T zero m r c v W Hr Hc. pose proof W as [W1 W2]. split; intros H.
  - unfold bm_set, bm_inrange. rewrite (proj2 (Z.ltb_lt r (bN m))), (proj2 (Z.ltb_lt c (bN m))), (proj2 (Z.leb_le c (r + bB m))), (proj2 (Z.leb_le r (c + bB m))) by lia. cbn [andb negb].
    rewrite aset_ok by (apply pos_ok; auto; lia). cbn [bind]. eexists. split; [reflexivity|]. cbn [bN bB].
    set (m' := mkBand _ _ _). assert (W' : bm_wf m') by (split; [exact W1 | exact W2]). split; [exact W'|]. split; [reflexivity|]. split; [reflexivity|]. split.
    + rewrite at_in by (auto; unfold m'; cbn [bN bB]; lia). unfold val, m'. cbn [bdata bB afn]. rewrite upd_same. reflexivity.
    + intros r' c' Hr' Hc' Hne. destruct (Z_le_gt_dec (Z.abs (r' - c')) (bB m)) as [I|O].
      * rewrite !at_in by (auto; unfold m'; cbn [bN bB]; lia). unfold val, m'. cbn [bdata bB afn]. rewrite upd_other; [reflexivity|].
        intros E. apply Hne. assert (r' = r) by nia. subst r'. f_equal. lia.
      * rewrite !at_out by (auto; unfold m'; cbn [bN bB]; lia). reflexivity.
  - unfold bm_set, bm_ref, bm_inrange. rewrite at_out by (auto; lia).
    assert (E : (r <? bN m) && (c <? bN m) && (c <=? r + bB m) && (r <=? c + bB m) = false).
    { rewrite !andb_false_iff, !Z.leb_gt. lia. }
    rewrite E. auto.
Qed.
(** values() lists every in-band element exactly once with its value, in number equal to size() *)
Theorem C06_values_complete : forall (T : Type) (zero : T) (m : band_matrix T), bm_wf m ->
  exists l, bm_values m = Ok l /\ zlen l = bm_size m /\ NoDup (map fst l) /\
    forall r c v, In (r, c, v) l <-> 0 <= r < bN m /\ 0 <= c < bN m /\ Z.abs (r - c) <= bB m /\ bm_at zero m r c = Ok v.
Proof.
  intros T zero m W. exists (all_list m (bN m)). split; [apply values_ok; exact W|]. split; [apply all_list_size; exact W|].
  split; [apply all_list_NoDup|]. intros r c v. rewrite all_list_In. split.
  - intros (A & B & C & ->). repeat split; try lia. rewrite at_in by (auto; lia). reflexivity.
  - intros (A & B & C & E). rewrite at_in in E by (auto; lia). injection E as <-. repeat split; lia.
Qed.
(** elem(k) is the k-th entry of values(), for every k < size(), provided that the matrix is at least twice as large as
    its bandwidth.  Partial: false otherwise, see the next theorem. *)
Theorem C06_elem_enumerates_partial : forall (T : Type) (m : band_matrix T) l, bm_wf m -> 2 * bB m <= bN m -> bm_values m = Ok l ->
  forall k, 0 <= k < bm_size m -> exists t, bm_elem m k = Ok t /\ nth_error l (Z.to_nat k) = Some t.
Proof. intros T m l W H E k Hk. rewrite values_ok in E by exact W. injection E as <-. apply elem_ok; assumption. Qed.
(** a 3x3 matrix with bandwidth 2 (all elements in band): elem(6) reports position (1,3), outside of the matrix *)
Theorem C06_elem_enumerates_refuted : exists m : band_matrix Z, bm_wf m /\ bm_size m = 9 /\
  exists v, bm_elem m 6 = Ok (1, 3, v) /\ bN m = 3.
Proof.
  exists (mkBand 3 2 (mkArr 15 (fun i => i))). split; [split; cbn; lia|]. split; [reflexivity|].
  eexists. split; vm_compute; reflexivity.
Qed.

(** ---- C07 ---- *)
(** whenever solveBand returns a finite vector x it satisfies matrix*x=rhs exactly (in exact arithmetic), and it never
    accesses memory out of bounds, for every matrix size, bandwidth and content of the unused storage cells *)
Theorem C07_solveBand_correct : forall (m : band_matrix R) (rhs : arr R), bm_wf m -> alen rhs = bN m ->
  solveBand m rhs <> UB /\
  forall x, solveBand m rhs = Ok x -> alen x = bN m /\ forall r, 0 <= r < bN m -> mat_vec m (afn x) r = afn rhs r.
Proof.
  intros m rhs W H. pose proof (solveBand_safe m rhs W H) as S. destruct (solveBand m rhs) as [y| | |]; cbn in S; try contradiction.
  - split; [discriminate|]. intros x E. injection E as <-. exact S.
  - split; [discriminate|]. intros x E. discriminate.
Qed.
(** it does return a solution for every strictly diagonally dominant matrix *)
Theorem C07_solveBand_dominant : forall (m : band_matrix R) (rhs : arr R), bm_wf m -> alen rhs = bN m -> dominant m ->
  exists x, solveBand m rhs = Ok x /\ forall r, 0 <= r < bN m -> mat_vec m (afn x) r = afn rhs r.
Proof.
  intros m rhs W H D. destruct (solveBand_total m rhs W H D) as (x & E). exists x. split; [exact E|].
  pose proof (solveBand_safe m rhs W H) as S. rewrite E in S. exact (proj2 S).
Qed.
(** a right-hand side of the wrong length is rejected *)
Theorem C07_solveBand_length : forall (m : band_matrix R) (rhs : arr R), alen rhs <> bN m -> solveBand m rhs = Throw.
Proof. intros m rhs H. unfold solveBand. rewrite (proj2 (Z.eqb_neq _ _) H). reflexivity. Qed.
(** non-vacuity: the 2x2 tridiagonal matrix (2 1; 1 2) *)
Definition ex_m : band_matrix R := mkBand 2 1 (mkArr 6 (fun i => if (i =? 1) || (i =? 4) then 2 else 1)%R).
Example C07_ex : bm_wf ex_m /\ dominant ex_m.
Proof.
  split; [split; cbn; lia|]. intros r Hr. cbn [bN ex_m] in *. assert (r = 0 \/ r = 1) as [-> | ->] by lia; unfold elt; cbn -[Rabs IZR]; change (Pos.to_nat 1) with 1%nat; cbn -[Rabs IZR]; rewrite ?(Rabs_pos_eq 1), ?(Rabs_pos_eq 2) by lra; lra.
Qed.

(** ---- C08 ---- *)
Theorem C08_dgemv_band : forall (m : band_matrix R) (trans : bool) alpha beta (vec result : arr R),
  bm_wf m -> alen vec = bN m -> alen result = bN m ->
  exists out, bm_dgemv trans alpha m vec beta result = Ok out /\ alen out = bN m /\
    forall i, 0 <= i < bN m ->
      afn out i = (alpha * (if trans then matT_vec m (afn vec) i else mat_vec m (afn vec) i) + beta * afn result i)%R.
Proof.
  intros m trans alpha beta vec result W Hv Hr. destruct (dgemv_ok trans alpha m vec beta result W Hv Hr) as (out & E & L & H).
  exists out. split; [exact E|]. split; [exact L|]. intros i Hi. rewrite (H i Hi). destruct (Req_EM_T beta 0) as [->|_]; [ring|reflexivity].
Qed.
Theorem C08_dgemv_length : forall (m : band_matrix R) (trans : bool) alpha beta (vec result : arr R),
  alen vec <> bN m \/ alen result <> bN m -> bm_dgemv trans alpha m vec beta result = Throw.
Proof.
  intros m trans alpha beta vec result H. unfold bm_dgemv. cbv zeta.
  replace ((alen vec =? bN m) && (alen result =? bN m))%bool with false; [reflexivity|]. symmetry. apply andb_false_iff. rewrite !Z.eqb_neq. exact H.
Qed.
Theorem C08_daxpy_band : forall alpha (X Y : band_matrix R), bm_wf X -> bm_wf Y -> bN X = bN Y -> bB X = bB Y ->
  exists Y', bm_daxpy alpha X Y = Ok Y' /\ bm_wf Y' /\ bN Y' = bN Y /\ bB Y' = bB Y /\
    forall r c, 0 <= r < bN Y -> 0 <= c < bN Y -> elt Y' r c = (elt Y r c + alpha * elt X r c)%R.
Proof. exact daxpy_ok. Qed.
Theorem C08_dmul_band : forall alpha (Y : band_matrix R), bm_wf Y ->
  exists Y', bm_dmul alpha Y = Ok Y' /\ bm_wf Y' /\ bN Y' = bN Y /\ bB Y' = bB Y /\
    forall r c, 0 <= r < bN Y -> 0 <= c < bN Y -> elt Y' r c = (alpha * elt Y r c)%R.
Proof. exact dmul_ok. Qed.
(** the solver and the product are inverse to each other *)
Theorem C08_product_undoes_solve : forall (m : band_matrix R) (rhs x zero_vec : arr R), bm_wf m -> alen rhs = bN m -> alen zero_vec = bN m ->
  solveBand m rhs = Ok x ->
  exists y, bm_dgemv false 1 m x 0 zero_vec = Ok y /\ forall i, 0 <= i < bN m -> afn y i = afn rhs i.
Proof.
  intros m rhs x z W Hr Hz E. destruct (C07_solveBand_correct m rhs W Hr) as [_ S]. destruct (S x E) as [L H].
  destruct (C08_dgemv_band m false 1 0 x z W L Hz) as (y & Ey & _ & Hy). exists y. split; [exact Ey|]. intros i Hi.
  rewrite (Hy i Hi), (H i Hi). ring.
Qed.

(** ---- C09 ---- *)
(** elem(k) reports the k-th stored value with its own row and the unique column owning the slot k *)
Theorem C09_elem_position : forall (T : Type) (m : csc T) k, csc_wf m -> 0 <= k < zlen (svals m) ->
  exists r c v, sp_elem m k = Ok (r, c, v) /\ stored m k r c v /\ forall r' c' v', stored m k r' c' v' -> (r', c', v') = (r, c, v).
Proof.
  intros T m k W Hk. destruct (sp_elem_ok m W k Hk) as (r & c & v & E & S). exists r, c, v. split; [exact E|]. split; [exact S|].
  intros r' c' v' S'. destruct (stored_col_unique m W _ _ _ _ _ _ _ S S') as (-> & -> & ->). reflexivity.
Qed.
Theorem C09_elem_range : forall (T : Type) (m : csc T) k, k >= zlen (svals m) -> sp_elem m k = Throw.
Proof. intros T m k H. unfold sp_elem. rewrite (proj2 (Z.ltb_ge k _)) by lia. rewrite andb_false_r. reflexivity. Qed.
Lemma nth_error_ext' (A : Type) (l l' : list A) : (forall n, nth_error l n = nth_error l' n) -> l = l'.
Proof.
  revert l'. induction l as [|a l IH]; intros [|b l'] H; [reflexivity|discriminate (H O)|discriminate (H O)|].
  pose proof (H O) as H0. injection H0 as ->. f_equal. apply IH. intros n. exact (H (Datatypes.S n)).
Qed.
(** both implementations of values() list exactly elem(0), elem(1), ... *)
Theorem C09_values_match_elem : forall (T : Type) (m : csc T), csc_wf m ->
  exists l, sp_values_eigen m = Ok l /\ sp_values_gsl m = Ok l /\ zlen l = zlen (svals m) /\
    forall k, 0 <= k < zlen (svals m) -> exists t, sp_elem m k = Ok t /\ nth_error l (Z.to_nat k) = Some t.
Proof.
  intros T m W. destruct (values_eigen_ok m W) as (l & E & L1 & L2). destruct (values_gsl_ok m W) as (l' & E' & L1' & L2').
  assert (l = l').
  { apply nth_error_ext'. intros n. destruct (Z_lt_le_dec (Z.of_nat n) (zlen (svals m))) as [H|H].
    - destruct (L2 (Z.of_nat n) ltac:(lia)) as (r & c & v & N1 & S1). destruct (L2' (Z.of_nat n) ltac:(lia)) as (r' & c' & v' & N2 & S2).
      rewrite Nat2Z.id in *. destruct (stored_col_unique m W _ _ _ _ _ _ _ S1 S2) as (-> & -> & ->). congruence.
    - rewrite !(proj2 (nth_error_None _ _)) by (unfold zlen in *; lia). reflexivity. }
  subst l'. exists l. split; [exact E|]. split; [exact E'|]. split; [exact L1|]. intros k Hk.
  destruct (L2 k Hk) as (r & c & v & N1 & S1). destruct (sp_elem_ok m W k Hk) as (r' & c' & v' & E2 & S2).
  exists (r', c', v'). split; [exact E2|]. destruct (stored_col_unique m W _ _ _ _ _ _ _ S1 S2) as (-> & -> & ->). exact N1.
Qed.
(** triplets: the GSL build sums duplicate entries; both builds agree (and give the sum) when positions are distinct *)
Theorem C09_triplets_distinct : forall nr nc (l : list (Z * Z * R)), in_range nr nc l -> NoDup (map fst l) ->
  exists g h, dense_accum nr nc l (fun _ _ => 0%R) = Ok g /\ dense_assign nr nc l (fun _ _ => 0%R) = Ok h /\
    forall i j, g i j = triplet_sum l i j /\ h i j = triplet_sum l i j.
Proof.
  intros nr nc l H ND. destruct (accum_ok nr nc l H (fun _ _ => 0%R)) as (g & Eg & Hg). destruct (assign_ok nr nc l H ND (fun _ _ => 0%R)) as (h & Eh & Hh).
  exists g, h. split; [exact Eg|]. split; [exact Eh|]. intros i j. split; [rewrite Hg; ring|]. destruct (Hh i j) as [H1 H2].
  destruct (in_dec (fun p q : Z * Z => ltac:(decide equality; apply Z.eq_dec)) (i, j) (map fst l)) as [I|I]; [apply H1; exact I|].
  rewrite H2 by exact I. symmetry. apply triplet_sum_absent. exact I.
Qed.
Theorem C09_triplets_accumulate : forall nr nc (l : list (Z * Z * R)), in_range nr nc l ->
  exists g, dense_accum nr nc l (fun _ _ => 0%R) = Ok g /\ forall i j, g i j = triplet_sum l i j.
Proof. intros nr nc l H. destruct (accum_ok nr nc l H (fun _ _ => 0%R)) as (g & Eg & Hg). exists g. split; [exact Eg|]. intros i j. rewrite Hg. ring. Qed.
(** with a duplicated position the Eigen build of Matrix(nRows,nCols,triplets) keeps only the last value *)
Theorem C09_triplets_duplicates_refuted : exists (l : list (Z * Z * R)) g h, in_range 1 1 l /\
  dense_accum 1 1 l (fun _ _ => 0%R) = Ok g /\ dense_assign 1 1 l (fun _ _ => 0%R) = Ok h /\ g 0 0 <> h 0 0.
Proof.
  exists [(0, 0, 1%R); (0, 0, 1%R)]. do 2 eexists. split; [intros i j v [E|[E|[]]]; injection E as <- <- <-; lia|].
  split; [reflexivity|]. split; [reflexivity|]. unfold upd2; cbn. lra.
Qed.
(** band -> dense conversions preserve every element: the dedicated constructor always, the generic one (through elem) when 2B <= N *)
Theorem C09_band_to_dense : forall (m : band_matrix R), bm_wf m -> exists g, dense_from_band 0%R m = Ok g /\
  forall i j, 0 <= i < bN m -> 0 <= j < bN m -> g i j = elt m i j.
Proof. exact dense_from_band_ok. Qed.
Theorem C09_band_to_dense_generic_partial : forall (m : band_matrix R), bm_wf m -> 2 * bB m <= bN m -> exists g,
  dense_from_elem 0%R (bN m) (bN m) (bm_size m) (bm_elem m) = Ok g /\
  forall i j, 0 <= i < bN m -> 0 <= j < bN m -> g i j = elt m i j.
Proof. exact dense_from_elem_ok. Qed.
(** non-vacuity *)
Definition ex_csc : csc Z := mkCsc 3 4 [0; 2; 2; 3; 3] [0; 2; 1] [10; 20; 30].
Example C09_ex : csc_wf ex_csc /\ sp_elem ex_csc 2 = Ok (1, 2, 30).
Proof.
  split; [|reflexivity]. unfold csc_wf. cbn. repeat split; try lia.
  - intros i j a b Hi Hj Hij. destruct i as [|[|[|[|[|i]]]]], j as [|[|[|[|[|j]]]]]; cbn in *; try discriminate; try lia; try (destruct i; discriminate); try (destruct j; discriminate);
    injection Hi as <-; injection Hj as <-; lia.
Qed.
Print Assumptions C07_solveBand_dominant.
Print Assumptions C06_elem_enumerates_partial.
Print Assumptions C09_values_match_elem.
