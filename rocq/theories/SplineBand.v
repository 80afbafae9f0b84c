(** Tridiagonal systems assembled and solved by the spline constructors: description of a band matrix of width 1 by its
    three diagonals, diagonal dominance, uniqueness of the solution. *)
From Verif Require Import Arr BandModel BandSpec BandSolve BandSolve2 BandDom BandStore PropsLinalg SplineModel.
Local Open Scope Z_scope.

Definition tri_is (m : band_matrix R) (n : Z) (lo di up : Z -> R) : Prop :=
  bm_wf m /\ bN m = n /\ bB m = 1 /\
  forall r c, 0 <= r < n -> 0 <= c < n ->
    bm_at 0%R m r c = Ok (if c =? r then di r else if c =? r - 1 then lo r else if c =? r + 1 then up r else 0%R).

Lemma tri_ext m n lo di up lo' di' up' : tri_is m n lo di up ->
  (forall r, 1 <= r < n -> lo r = lo' r) -> (forall r, 0 <= r < n -> di r = di' r) -> (forall r, 0 <= r < n - 1 -> up r = up' r) ->
  tri_is m n lo' di' up'.
Proof.
  intros (W & HN & HB & H) H1 H2 H3. repeat split; try assumption; try apply W. intros r c Hr Hc. rewrite H by assumption. f_equal.
  destruct (Z.eqb_spec c r); [apply H2; lia|]. destruct (Z.eqb_spec c (r - 1)); [apply H1; lia|].
  destruct (Z.eqb_spec c (r + 1)); [apply H3; lia|reflexivity].
Qed.
Lemma tri_new n : 2 <= n -> exists m, bm_new n 1 0%R = Ok m /\ tri_is m n (fun _ => 0%R) (fun _ => 0%R) (fun _ => 0%R).
Proof.
  intros Hn. destruct (C06_constructor R 0%R n 1 0%R ltac:(lia)) as [_ H]. destruct (H ltac:(lia)) as (m & E & W & HN & HB & V).
  exists m. split; [exact E|]. repeat split; try assumption; try apply W. intros r c Hr Hc. rewrite V by assumption. f_equal.
  destruct (_ <=? _), (c =? r), (c =? r - 1), (c =? r + 1); reflexivity.
Qed.
(** assignment of one element *)
Lemma tri_set m n lo di up r c v : tri_is m n lo di up -> 0 <= r < n -> 0 <= c < n -> Z.abs (r - c) <= 1 ->
  exists m', bm_set m r c v = Ok m' /\
    tri_is m' n (if c =? r - 1 then upd lo r v else lo) (if c =? r then upd di r v else di) (if c =? r + 1 then upd up r v else up).
Proof.
  intros (W & HN & HB & H) Hr Hc Hd.
  destruct (C06_write_then_read R 0%R m r c v W ltac:(lia) ltac:(lia)) as [K _].
  destruct (K ltac:(lia)) as (m' & E & W' & HN' & HB' & V & O). exists m'. split; [exact E|].
  repeat split; try lia; try apply W'. intros r' c' Hr' Hc'.
  destruct (Z.eq_dec r' r) as [->|Nr].
  - destruct (Z.eq_dec c' c) as [->|Nc].
    + rewrite V. f_equal. destruct (Z.eqb_spec c r); [rewrite upd_same; reflexivity|].
      destruct (Z.eqb_spec c (r - 1)); [rewrite upd_same; reflexivity|].
      destruct (Z.eqb_spec c (r + 1)); [rewrite upd_same; reflexivity|lia].
    + rewrite O by (try lia; intros E'; injection E'; lia). rewrite H by assumption. f_equal.
      destruct (Z.eqb_spec c' r), (Z.eqb_spec c r), (Z.eqb_spec c' (r - 1)), (Z.eqb_spec c (r - 1)), (Z.eqb_spec c' (r + 1)), (Z.eqb_spec c (r + 1)); try lia; reflexivity.
  - rewrite O by (try lia; intros E'; injection E'; lia). rewrite H by assumption. f_equal.
    destruct (Z.eqb_spec c r), (Z.eqb_spec c (r - 1)), (Z.eqb_spec c (r + 1)); try lia; rewrite ?upd_other by assumption; reflexivity.
Qed.
Lemma tri_ref m n lo di up r : tri_is m n lo di up -> 0 <= r < n -> bm_ref m r r = Ok (di r).
Proof.
  intros (W & HN & HB & H) Hr. specialize (H r r Hr Hr). rewrite Z.eqb_refl in H. rewrite <- H. unfold bm_ref, bm_at, bm_inrange.
  rewrite HN, HB. rewrite (proj2 (Z.ltb_lt r n)) by lia. rewrite (proj2 (Z.leb_le r (r + 1))) by lia. cbn [andb negb].
  rewrite Z.gtb_ltb, (proj2 (Z.ltb_ge (r + 1) r)) by lia. reflexivity.
Qed.
Lemma tri_add m n lo di up r v : tri_is m n lo di up -> 0 <= r < n ->
  exists m', bm_add m r r v = Ok m' /\ tri_is m' n lo (upd di r (di r + v)%R) up.
Proof.
  intros T Hr. unfold bm_add. rewrite (tri_ref _ _ _ _ _ r T Hr). cbn [bind].
  destruct (tri_set _ _ _ _ _ r r (di r + v)%R T Hr Hr ltac:(lia)) as (m' & E & T'). exists m'. split; [exact E|].
  rewrite Z.eqb_refl, (proj2 (Z.eqb_neq r (r - 1))), (proj2 (Z.eqb_neq r (r + 1))) in T' by lia. exact T'.
Qed.

(** ---- products ---- *)
Definition tri_sum (n : Z) (lo di up x : Z -> R) (r : Z) : R :=
  ((if (0 <? r)%Z then lo r * x (r - 1)%Z else 0) + di r * x r + (if (r <? n - 1)%Z then up r * x (r + 1)%Z else 0))%R.
Lemma zsum_three n r f : 0 <= r < n -> (forall c, 0 <= c < n -> c <> r -> c <> r - 1 -> c <> r + 1 -> f c = 0%R) ->
  zsum 0 n f = ((if (0 <? r)%Z then f (r - 1)%Z else 0) + f r + (if (r <? n - 1)%Z then f (r + 1)%Z else 0))%R.
Proof.
  intros Hr Z0. rewrite (zsum_split 0 r) by lia. rewrite (zsum_first r n) by lia.
  assert (A : zsum 0 r f = if 0 <? r then f (r - 1)%Z else 0%R).
  { destruct (Z.ltb_spec 0 r).
    - replace r with ((r - 1) + 1) at 1 by lia. rewrite zsum_last by lia. rewrite zsum_0; [ring|]. intros k Hk. apply Z0; lia.
    - rewrite zsum_nil by lia. reflexivity. }
  assert (B : zsum (r + 1) n f = if r <? n - 1 then f (r + 1)%Z else 0%R).
  { destruct (Z.ltb_spec r (n - 1)).
    - rewrite zsum_first by lia. rewrite zsum_0; [ring|]. intros k Hk. apply Z0; lia.
    - rewrite zsum_nil by lia. reflexivity. }
  rewrite A, B. ring.
Qed.
Lemma tri_elt m n lo di up r c : tri_is m n lo di up -> 0 <= r < n -> 0 <= c < n ->
  elt m r c = if c =? r then di r else if c =? r - 1 then lo r else if c =? r + 1 then up r else 0%R.
Proof. intros (W & HN & HB & H) Hr Hc. unfold elt. rewrite H by assumption. reflexivity. Qed.
Lemma tri_mat_vec m n lo di up x r : tri_is m n lo di up -> 0 <= r < n -> mat_vec m x r = tri_sum n lo di up x r.
Proof.
  intros T Hr. pose proof T as (W & HN & HB & _). unfold mat_vec. rewrite HN. rewrite (zsum_three n r) by
   (try assumption; intros c Hc N1 N2 N3; rewrite (tri_elt _ _ _ _ _ r c T Hr Hc);
    rewrite (proj2 (Z.eqb_neq c r)), (proj2 (Z.eqb_neq c (r - 1))), (proj2 (Z.eqb_neq c (r + 1))) by assumption; ring).
  unfold tri_sum. f_equal; [f_equal|].
  - destruct (Z.ltb_spec 0 r); [|reflexivity]. rewrite (tri_elt _ _ _ _ _ r _ T Hr) by lia.
    rewrite (proj2 (Z.eqb_neq (r - 1) r)), Z.eqb_refl by lia. reflexivity.
  - rewrite (tri_elt _ _ _ _ _ r _ T Hr) by lia. rewrite Z.eqb_refl. reflexivity.
  - destruct (Z.ltb_spec r (n - 1)); [|reflexivity]. rewrite (tri_elt _ _ _ _ _ r _ T Hr) by lia.
    rewrite (proj2 (Z.eqb_neq (r + 1) r)), (proj2 (Z.eqb_neq (r + 1) (r - 1))), Z.eqb_refl by lia. reflexivity.
Qed.
(** ---- dominance ---- *)
Definition tri_dom (n : Z) (lo di up : Z -> R) : Prop :=
  forall r, 0 <= r < n -> ((if (0 <? r)%Z then Rabs (lo r) else 0) + (if (r <? n - 1)%Z then Rabs (up r) else 0) < Rabs (di r))%R.
Lemma tri_dominant m n lo di up : tri_is m n lo di up -> tri_dom n lo di up -> dominant m.
Proof.
  intros T D. pose proof T as (W & HN & HB & _). intros r Hr. rewrite HN in *. specialize (D r Hr).
  set (f := fun c => if c =? r then 0%R else Rabs (elt m r c)).
  assert (E : (zsum 0 r (fun c => Rabs (elt m r c)) + zsum (r + 1) n (fun c => Rabs (elt m r c)) = zsum 0 n f)%R).
  { rewrite (zsum_split 0 r n f) by lia. rewrite (zsum_first r n f) by lia. unfold f at 2. rewrite Z.eqb_refl.
    rewrite (zsum_ext 0 r f (fun c => Rabs (elt m r c))) by (intros k Hk; unfold f; rewrite (proj2 (Z.eqb_neq k r)) by lia; reflexivity).
    rewrite (zsum_ext (r + 1) n f (fun c => Rabs (elt m r c))) by (intros k Hk; unfold f; rewrite (proj2 (Z.eqb_neq k r)) by lia; reflexivity).
    ring. }
  rewrite E. rewrite (zsum_three n r f).
  - unfold f. rewrite Z.eqb_refl. rewrite (tri_elt _ _ _ _ _ r r T Hr Hr), Z.eqb_refl.
    eapply Rle_lt_trans; [|exact D]. rewrite Rplus_0_r. apply Rplus_le_compat.
    + destruct (Z.ltb_spec 0 r); [|lra]. rewrite (proj2 (Z.eqb_neq (r - 1) r)) by lia. rewrite (tri_elt _ _ _ _ _ r _ T Hr) by lia.
      rewrite (proj2 (Z.eqb_neq (r - 1) r)), Z.eqb_refl by lia. lra.
    + destruct (Z.ltb_spec r (n - 1)); [|lra]. rewrite (proj2 (Z.eqb_neq (r + 1) r)) by lia. rewrite (tri_elt _ _ _ _ _ r _ T Hr) by lia.
      rewrite (proj2 (Z.eqb_neq (r + 1) r)), (proj2 (Z.eqb_neq (r + 1) (r - 1))), Z.eqb_refl by lia. lra.
  - exact Hr.
  - intros c Hc N1 N2 N3. unfold f. rewrite (proj2 (Z.eqb_neq c r)) by lia. rewrite (tri_elt _ _ _ _ _ r c T Hr Hc).
    rewrite (proj2 (Z.eqb_neq c r)), (proj2 (Z.eqb_neq c (r - 1))), (proj2 (Z.eqb_neq c (r + 1))) by lia. apply Rabs_R0.
Qed.
Lemma tri_solve m n lo di up rhs : tri_is m n lo di up -> alen rhs = n -> tri_dom n lo di up ->
  exists x, solveBand m rhs = Ok x /\ alen x = n /\ forall r, 0 <= r < n -> tri_sum n lo di up (afn x) r = afn rhs r.
Proof.
  intros T L D. pose proof T as (W & HN & HB & _).
  destruct (C07_solveBand_dominant m rhs W ltac:(lia) (tri_dominant _ _ _ _ _ T D)) as (x & E & H).
  destruct (C07_solveBand_correct m rhs W ltac:(lia)) as [_ K]. destruct (K x E) as [Lx _].
  exists x. split; [exact E|]. split; [lia|]. intros r Hr. rewrite <- (tri_mat_vec _ _ _ _ _ _ _ T Hr). apply H. lia.
Qed.
(** ---- uniqueness ---- *)
Lemma argmax (f : Z -> R) n : 1 <= n -> exists i, 0 <= i < n /\ forall j, 0 <= j < n -> (f j <= f i)%R.
Proof.
  intros Hn. assert (G : forall k : nat, exists i, 0 <= i <= Z.of_nat k /\ forall j, 0 <= j <= Z.of_nat k -> (f j <= f i)%R).
  { induction k as [|k (i & Hi & H)].
    - exists 0. split; [lia|]. intros j Hj. replace j with 0 by lia. lra.
    - destruct (Rle_dec (f (Z.of_nat (S k))) (f i)) as [Q|Q].
      + exists i. split; [lia|]. intros j Hj. destruct (Z.eq_dec j (Z.of_nat (S k))) as [->|]; [exact Q|apply H; lia].
      + exists (Z.of_nat (S k)). split; [lia|]. intros j Hj. destruct (Z.eq_dec j (Z.of_nat (S k))) as [->|]; [lra|].
        specialize (H j ltac:(lia)). lra. }
  destruct (G (Z.to_nat (n - 1))) as (i & Hi & H). exists i. split; [lia|]. intros j Hj. apply H. lia.
Qed.
Lemma tri_unique n lo di up x y : 1 <= n -> tri_dom n lo di up ->
  (forall r, 0 <= r < n -> tri_sum n lo di up x r = tri_sum n lo di up y r) -> forall r, 0 <= r < n -> x r = y r.
Proof.
  intros Hn D H. set (z := fun k => Rabs (x k - y k)%R). destruct (argmax z n Hn) as (i & Hi & M).
  specialize (D i Hi). specialize (H i Hi). unfold tri_sum in H.
  assert (Q : (di i * (x i - y i) = - (if (0 <? i)%Z then lo i * (x (i - 1)%Z - y (i - 1)%Z) else 0) - (if (i <? n - 1)%Z then up i * (x (i + 1)%Z - y (i + 1)%Z) else 0))%R).
  { destruct (0 <? i), (i <? n - 1); lra. }
  assert (P : (Rabs (di i) * z i <= ((if (0 <? i)%Z then Rabs (lo i) else 0) + (if (i <? n - 1)%Z then Rabs (up i) else 0)) * z i)%R).
  { unfold z at 1. rewrite <- Rabs_mult, Q. eapply Rle_trans; [apply Rabs_triang|]. rewrite !Rabs_Ropp. rewrite Rmult_plus_distr_r. apply Rplus_le_compat.
    - destruct (Z.ltb_spec 0 i); [rewrite Rabs_mult; apply Rmult_le_compat_l; [apply Rabs_pos|apply (M (i - 1)); lia]|rewrite Rabs_R0; lra].
    - destruct (Z.ltb_spec i (n - 1)); [rewrite Rabs_mult; apply Rmult_le_compat_l; [apply Rabs_pos|apply (M (i + 1)); lia]|rewrite Rabs_R0; lra]. }
  assert (Zi : z i = 0%R).
  { assert (0 <= z i)%R by apply Rabs_pos. destruct (Req_dec (z i) 0) as [E|E]; [exact E|].
    assert (0 < z i)%R by lra. apply Rmult_le_reg_r in P; lra. }
  intros r Hr. specialize (M r Hr). rewrite Zi in M. unfold z in M. pose proof (Rabs_pos (x r - y r)).
  assert (E : Rabs (x r - y r) = 0%R) by lra. destruct (Req_dec (x r - y r) 0) as [|N]; [lra|]. apply Rabs_no_R0 in N. contradiction.
Qed.
