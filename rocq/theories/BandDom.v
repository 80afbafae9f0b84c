(** Strict row diagonal dominance guarantees that no zero pivot arises in solveBand. *)
From Verif Require Import Arr BandModel BandSpec BandSolve BandSolve2.
Local Open Scope Z_scope.

Section Row.
  Variables (N B : Z) (HB : 0 <= B < N) (a : Z -> R) (U L : Z -> R) (i : Z) (Hi : 0 <= i < N).
  Hypothesis HL : forall c, 0 <= c <= 2 * B -> L c = (a (i * (B * 2 + 1) + c)%Z - redsum B U L i c)%R.
  Notation l := (Lf B (fun _ => L) i).
  Definition red (k j : Z) : R := (dense B a i j - zsum 0 k (fun m => l m * Uf B U m j))%R.

  Lemma red_min j : 0 <= j < N ->
    red (Z.min j i) j = if (i - B <=? j) && (j <=? i + B) then L (j - i + B) else 0%R.
  Proof.
    intros Hj. unfold red. destruct ((i - B <=? j) && (j <=? i + B))%bool eqn:E.
    - apply andb_true_iff in E. rewrite !Z.leb_le in E. rewrite dense_in by lia. rewrite (HL (j - i + B)) by lia. f_equal.
      set (c := j - i + B).
      assert (RS : redsum B U L i c = zsum (rmin B i c + (i - B)) (rmax B c + (i - B)) (fun m => l m * Uf B U m j)%R).
      { unfold redsum. rewrite (zsum_shift _ _ (i - B)). apply zsum_ext. intros m Hm. unfold rmin, rmax, c in *.
        rewrite Lf_in by lia. rewrite Uf_in by lia. f_equal; f_equal; lia. }
      rewrite RS. replace (rmax B c + (i - B)) with (Z.min j i) by (unfold rmax, c; lia).
      destruct (Z_le_gt_dec (rmin B i c + (i - B)) (Z.min j i)) as [Q|Q].
      + apply zsum_extend; unfold rmin, c in *; try (intros; lia).
        intros m Hm. destruct (Z_lt_le_dec m (i - B)); [rewrite Lf_out by lia; ring|rewrite Uf_out by lia; ring].
      + unfold rmin, c in *. lia.
    - apply andb_false_iff in E. rewrite !Z.leb_gt in E. rewrite dense_out by lia. rewrite zsum_0; [ring|].
      intros m Hm. destruct (Z_lt_le_dec m (i - B)); [rewrite Lf_out by lia; ring|]. rewrite Uf_out by lia. ring.
  Qed.
  Lemma red_diag k : 0 <= k < i -> red k k = l k.
  Proof.
    intros Hk. pose proof (red_min k ltac:(lia)) as E. rewrite Z.min_l in E by lia. rewrite E. unfold Lf.
    rewrite (proj2 (Z.leb_le k (i + B))) by lia. rewrite (proj2 (Z.leb_le k i)) by lia. reflexivity.
  Qed.
  Lemma red_succ k j : 0 <= k -> red (k + 1) j = (red k j - l k * Uf B U k j)%R.
  Proof. intros Hk. unfold red. rewrite zsum_last by lia. ring. Qed.

  Hypothesis HU : forall k, 0 <= k < i -> (zsum (k + 1) N (fun j => Rabs (Uf B U k j)) <= 1)%R.
  Hypothesis Hdom : (zsum 0 i (fun c => Rabs (dense B a i c)) + zsum (i + 1) N (fun c => Rabs (dense B a i c)) < Rabs (dense B a i i))%R.

  Lemma dom_step k : 0 <= k <= i ->
    (zsum k i (fun j => Rabs (red k j)) + zsum (i + 1) N (fun j => Rabs (red k j)) < Rabs (red k i))%R.
  Proof.
    intros Hk. assert (G : forall n, Z.of_nat n <= i ->
      (zsum (Z.of_nat n) i (fun j => Rabs (red (Z.of_nat n) j)) + zsum (i + 1) N (fun j => Rabs (red (Z.of_nat n) j)) < Rabs (red (Z.of_nat n) i))%R).
    2:{ specialize (G (Z.to_nat k)). rewrite Z2Nat.id in G by lia. apply G. lia. }
    induction n as [|n IH]; intros Hn.
    - change (Z.of_nat 0) with 0. assert (E : forall j, red 0 j = dense B a i j) by (intros j; unfold red; rewrite zsum_nil by lia; ring).
      rewrite (zsum_ext 0 i _ (fun c => Rabs (dense B a i c))) by (intros; rewrite E; reflexivity).
      rewrite (zsum_ext (i + 1) N _ (fun c => Rabs (dense B a i c))) by (intros; rewrite E; reflexivity).
      rewrite E. exact Hdom.
    - specialize (IH ltac:(lia)). set (q := Z.of_nat n) in *. replace (Z.of_nat (S n)) with (q + 1) by lia.
      assert (Hq : 0 <= q < i) by lia.
      set (v := Rabs (l q)). assert (Hv : (0 <= v)%R) by apply Rabs_pos.
      rewrite (zsum_first q i) in IH by lia. rewrite (red_diag q Hq) in IH. fold v in IH.
      assert (S1 : forall lo hi, (zsum lo hi (fun j => Rabs (red (q + 1) j)) <= zsum lo hi (fun j => Rabs (red q j)) + v * zsum lo hi (fun j => Rabs (Uf B U q j)))%R).
      { intros lo hi. rewrite <- zsum_scal, <- zsum_plus. apply zsum_le. intros j _. rewrite red_succ by lia.
        unfold v. rewrite <- Rabs_mult. unfold Rminus. eapply Rle_trans; [apply Rabs_triang|]. rewrite Rabs_Ropp. lra. }
      pose proof (S1 (q + 1) i) as A1. pose proof (S1 (i + 1) N) as A2.
      assert (A3 : (Rabs (red q i) - v * Rabs (Uf B U q i) <= Rabs (red (q + 1) i))%R).
      { rewrite red_succ by lia. unfold v. rewrite <- Rabs_mult. apply Rabs_triang_inv. }
      pose proof (HU q Hq) as A4. rewrite (zsum_split (q + 1) i N) in A4 by lia. rewrite (zsum_first i N) in A4 by lia.
      set (u1 := zsum (q + 1) i (fun j => Rabs (Uf B U q j))) in *. set (u2 := Rabs (Uf B U q i)) in *. set (u3 := zsum (i + 1) N (fun j => Rabs (Uf B U q j))) in *.
      assert (A5 : (v * (u1 + (u2 + u3)) <= v)%R). { rewrite <- (Rmult_1_r v) at 2. apply Rmult_le_compat_l; lra. }
      rewrite !Rmult_plus_distr_l in A5. lra.
  Qed.

  Lemma dom_pivot : L B <> 0%R.
  Proof.
    pose proof (dom_step i ltac:(lia)) as D. rewrite zsum_nil in D by lia.
    pose proof (red_min i Hi) as E. rewrite Z.min_id in E. rewrite (proj2 (Z.leb_le (i - B) i)) in E by lia.
    rewrite (proj2 (Z.leb_le i (i + B))) in E by lia. cbn [andb] in E. replace (i - i + B) with B in E by lia. rewrite E in D.
    intros H0. rewrite H0, Rabs_R0 in D.
    assert (0 <= zsum (i + 1) N (fun j => Rabs (red i j)))%R; [|lra].
    rewrite <- (zsum_0 (i + 1) N (fun _ => 0%R)) by auto. apply zsum_le. intros; apply Rabs_pos.
  Qed.
  Lemma dom_U (U' : Z -> R) : (forall c, B < c <= 2 * B -> U' (i * B + c - B - 1) = (L c * (1 / L B))%R) ->
    (zsum (i + 1) N (fun j => Rabs (Uf B U' i j)) <= 1)%R.
  Proof.
    intros HU'. pose proof dom_pivot as P. pose proof (dom_step i ltac:(lia)) as D. rewrite zsum_nil in D by lia. rewrite Rplus_0_l in D.
    pose proof (red_min i Hi) as E. rewrite Z.min_id in E. rewrite (proj2 (Z.leb_le (i - B) i)) in E by lia.
    rewrite (proj2 (Z.leb_le i (i + B))) in E by lia. cbn [andb] in E. replace (i - i + B) with B in E by lia. rewrite E in D.
    assert (Q : (0 < Rabs (L B))%R) by (apply Rabs_pos_lt; exact P).
    rewrite (zsum_ext (i + 1) N _ (fun j => / Rabs (L B) * Rabs (red i j))%R).
    - rewrite zsum_scal. apply Rmult_le_reg_l with (Rabs (L B)); [exact Q|].
      rewrite <- Rmult_assoc, Rinv_r by lra. lra.
    - intros j Hj. pose proof (red_min j ltac:(lia)) as Ej. rewrite Z.min_r in Ej by lia. rewrite Ej.
      rewrite (proj2 (Z.leb_le (i - B) j)) by lia. cbn [andb]. destruct (j <=? i + B) eqn:F.
      + apply Z.leb_le in F. rewrite Uf_in by lia. replace (i * B + j - i - 1) with (i * B + (j - i + B) - B - 1) by lia.
        rewrite HU' by lia. rewrite Rabs_mult. unfold Rdiv. rewrite Rmult_1_l, Rabs_inv. ring.
      + apply Z.leb_gt in F. rewrite Uf_out by lia. rewrite Rabs_R0. ring.
  Qed.
End Row.

(** the elimination succeeds on a dominant matrix *)
Lemma elim_total N B (HB : 0 <= B < N) a rhs (row : Z -> arr R * arr R -> res (arr R * arr R)) st0 :
  (forall i U x, 0 <= i < N -> Inv N B a rhs i (U, x) -> row_outcome N B a rhs i U (row i (U, x))) ->
  (forall i, 0 <= i < N -> (zsum 0 i (fun c => Rabs (dense B a i c)) + zsum (i + 1) N (fun c => Rabs (dense B a i c)) < Rabs (dense B a i i))%R) ->
  Inv N B a rhs 0 st0 ->
  exists st, for_ 0 N row st0 = Ok st /\ Inv N B a rhs N st.
Proof.
  intros Hrow Hdom H0.
  destruct (for_total (fun i st => Inv N B a rhs i st /\ forall k, 0 <= k < i -> (zsum (k + 1) N (fun j => Rabs (Uf B (afn (fst st)) k j)) <= 1)%R) 0 N row st0)
    as (st & E & HI & _); try lia.
  - split; [exact H0|]. intros; lia.
  - intros i [U x] Hi [HI HD]. cbn [fst] in HD.
    destruct (Hrow i U x Hi HI) as (L & EL & [[L0 _]|(_ & U' & x' & E & HI' & EU & EU')]).
    + exfalso. exact (dom_pivot N B HB a (afn U) L i Hi EL HD (Hdom i Hi) L0).
    + exists (U', x'). split; [exact E|]. split; [exact HI'|]. cbn [fst]. intros k Hk.
      destruct (Z.eq_dec k i) as [->|Hne].
      * exact (dom_U N B HB a (afn U) L i Hi EL HD (Hdom i Hi) (afn U') EU').
      * rewrite (zsum_ext _ _ _ (fun j => Rabs (Uf B (afn U) k j))); [apply HD; lia|]. intros j Hj. f_equal.
        destruct (Z_le_gt_dec j (k + B)).
        { rewrite !Uf_in by lia. apply EU. nia. }
        { rewrite !Uf_out by lia. reflexivity. }
  - eauto.
Qed.
