From Verif Require Import Arr BandModel BandSpec.
Local Open Scope Z_scope.

Section Factor.
  Variables (N B : Z) (HB : 0 <= B < N).
  (** storage of the matrix and of the right-hand side *)
  Variables (a : Z -> R) (rhs : Z -> R).
  Notation w := (B * 2 + 1).
  Definition rmin (i c : Z) := Z.max 0 (Z.max (B - i) (c - B)).
  Definition rmax (c : Z) := Z.min B c.
  Definition redsum (U : Z -> R) (L : Z -> R) (k c : Z) : R :=
    zsum (rmin k c) (rmax c) (fun r => L r * U ((k - B + r) * B + c - r - 1)%Z)%R.

  (** row k of the factorization *)
  Definition row_ok (U x : Z -> R) (L : Z -> R) (k : Z) : Prop :=
    L B <> 0%R /\
    (forall c, 0 <= c <= B -> a (k * w + c) = (L c + redsum U L k c)%R) /\
    (forall c, B < c <= 2 * B -> a (k * w + c) = (L B * U (k * B + c - B - 1)%Z + redsum U L k c)%R) /\
    rhs k = (L B * x k + zsum (Z.max 0 (B - k)) B (fun c => L c * x (k - B + c)%Z))%R.
  Definition Inv (i : Z) (st : arr R * arr R) : Prop :=
    alen (fst st) = N * B /\ alen (snd st) = N /\
    (exists Lm : Z -> Z -> R, forall k, 0 <= k < i -> row_ok (afn (fst st)) (afn (snd st)) (Lm k) k) /\
    (forall k, i <= k < N -> afn (snd st) k = rhs k).

  Lemma redsum_ext U U' L L' k c :
    (forall r, rmin k c <= r < rmax c -> L r = L' r) ->
    (forall r, rmin k c <= r < rmax c -> U ((k - B + r) * B + c - r - 1) = U' ((k - B + r) * B + c - r - 1)) ->
    redsum U L k c = redsum U' L' k c.
  Proof. clear HB. intros H1 H2. unfold redsum. apply zsum_ext. intros r Hr. rewrite H1, H2 by assumption. reflexivity. Qed.

  (** adding the row i *)
  Lemma Inv_step i U x U' x' L :
    0 <= i < N -> Inv i (U, x) -> alen U' = N * B -> alen x' = N ->
    (forall k, 0 <= k < i * B -> afn U' k = afn U k) ->
    (forall k, 0 <= k < N -> k <> i -> afn x' k = afn x k) ->
    row_ok (afn U') (afn x') L i -> Inv (i + 1) (U', x').
  Proof.
    intros Hi (H1 & H2 & (Lm & H3) & H4) LU Lx EU Ex Hrow. cbn [fst snd] in *.
    split; [exact LU|]. split; [exact Lx|]. cbn [fst snd]. split.
    - exists (fun k => if k =? i then L else Lm k). intros k Hk. destruct (k =? i) eqn:E.
      { apply Z.eqb_eq in E. subst k. exact Hrow. }
      apply Z.eqb_neq in E. destruct (H3 k ltac:(lia)) as (P & A1 & A2 & A3).
      split; [exact P|]. split; [|split].
      + intros c Hc. rewrite (A1 c Hc). f_equal. apply redsum_ext; auto. intros r Hr. symmetry. apply EU.
        unfold rmin, rmax in Hr. nia.
      + intros c Hc. rewrite (A2 c Hc). f_equal.
        * f_equal. symmetry. apply EU. nia.
        * apply redsum_ext; auto. intros r Hr. symmetry. apply EU. unfold rmin, rmax in Hr. nia.
      + rewrite A3. f_equal; [rewrite Ex by lia; reflexivity|].
        apply zsum_ext. intros c Hc. rewrite Ex by lia. reflexivity.
    - intros k Hk. rewrite Ex by lia. apply H4. lia.
  Qed.

  (** ---- from the factorization to the solution ---- *)
  Definition Uf (U : Z -> R) (m j : Z) : R :=
    if j =? m then 1%R else if (m <? j) && (j <=? m + B) then U (m * B + j - m - 1) else 0%R.
  Definition Lf (Lm : Z -> Z -> R) (k m : Z) : R :=
    if (k - B <=? m) && (m <=? k) then Lm k (m - k + B) else 0%R.
  Definition dense (k j : Z) : R :=
    if (j >? k + B) || (k >? j + B) then 0%R else a (k * (2 * B + 1) + j + B - k).

  Lemma Uf_diag U m : Uf U m m = 1%R. Proof. clear HB. unfold Uf. rewrite Z.eqb_refl. reflexivity. Qed.
  Lemma Uf_in U m j : m < j <= m + B -> Uf U m j = U (m * B + j - m - 1).
  Proof. clear HB. intros. unfold Uf. rewrite (proj2 (Z.eqb_neq _ _)) by lia. rewrite (proj2 (Z.ltb_lt _ _)) by lia. rewrite (proj2 (Z.leb_le _ _)) by lia. reflexivity. Qed.
  Lemma Uf_out U m j : 0 <= B -> j < m \/ j > m + B -> Uf U m j = 0%R.
  Proof. clear HB.
    intros HB0 H. unfold Uf. rewrite (proj2 (Z.eqb_neq _ _)) by lia.
    destruct H; [rewrite (proj2 (Z.ltb_ge m j)) by lia|rewrite (proj2 (Z.leb_gt j (m + B))) by lia; rewrite andb_false_r]; reflexivity.
  Qed.
  Lemma Lf_in Lm k m : k - B <= m <= k -> Lf Lm k m = Lm k (m - k + B).
  Proof. clear HB. intros. unfold Lf. rewrite (proj2 (Z.leb_le (k - B) m)) by lia. rewrite (proj2 (Z.leb_le m k)) by lia. reflexivity. Qed.
  Lemma Lf_out Lm k m : m < k - B \/ m > k -> Lf Lm k m = 0%R.
  Proof. clear HB.
    intros H. unfold Lf. destruct H; [rewrite (proj2 (Z.leb_gt (k - B) m)) by lia|rewrite (proj2 (Z.leb_gt m k)) by lia; rewrite andb_false_r]; reflexivity.
  Qed.
  Lemma dense_out k j : j > k + B \/ k > j + B -> dense k j = 0%R.
  Proof. clear HB.
    intros H. unfold dense. rewrite !Z.gtb_ltb. destruct H; [rewrite (proj2 (Z.ltb_lt (k + B) j)) by lia|rewrite (proj2 (Z.ltb_lt (j + B) k)) by lia; rewrite orb_true_r]; reflexivity.
  Qed.
  Lemma dense_in k j : k - B <= j <= k + B -> dense k j = a (k * w + (j - k + B)).
  Proof. clear HB.
    intros H. unfold dense. rewrite !Z.gtb_ltb. rewrite (proj2 (Z.ltb_ge (k + B) j)) by lia. rewrite (proj2 (Z.ltb_ge (j + B) k)) by lia.
    cbn [orb]. f_equal. lia.
  Qed.

  (** A = L U *)
  Lemma factor U x Lm : (forall k, 0 <= k < N -> row_ok U x (Lm k) k) ->
    forall k j, 0 <= k < N -> 0 <= j < N -> dense k j = zsum 0 N (fun m => Lf Lm k m * Uf U m j)%R.
  Proof.
    intros Hrow k j Hk Hj. destruct (Hrow k Hk) as (_ & A1 & A2 & _).
    destruct (Z_gt_le_dec j (k + B)) as [G|G1]; [|destruct (Z_gt_le_dec k (j + B)) as [G|G2]].
    - rewrite dense_out by lia. symmetry. apply zsum_0. intros m Hm.
      destruct (Z_gt_le_dec m k); [rewrite Lf_out by lia; ring|rewrite Uf_out by lia; ring].
    - rewrite dense_out by lia. symmetry. apply zsum_0. intros m Hm.
      destruct (Z_gt_le_dec m j); [rewrite Uf_out by lia; ring|rewrite Lf_out by lia; ring].
    - rewrite dense_in by lia. set (c := j - k + B).
      assert (RS : redsum U (Lm k) k c = zsum (rmin k c + (k - B)) (rmax c + (k - B)) (fun m => Lf Lm k m * Uf U m j)%R).
      { unfold redsum. rewrite (zsum_shift _ _ (k - B)). apply zsum_ext. intros m Hm. unfold rmin, rmax, c in *.
        rewrite Lf_in by lia. rewrite Uf_in by lia. f_equal; f_equal; lia. }
      assert (Hrr : 0 <= rmin k c + (k - B)) by (unfold rmin, rmax, c; lia).
      destruct (Z_le_gt_dec j k) as [J|J].
      + rewrite (A1 c) by (unfold c; lia). rewrite RS.
        (* sum up to j-1, then the j term *)
        assert (E1 : rmax c + (k - B) = j) by (unfold rmax, c; lia). rewrite E1.
        transitivity (zsum (rmin k c + (k - B)) (j + 1) (fun m => Lf Lm k m * Uf U m j)%R).
        * rewrite zsum_last by (unfold rmin, c; lia). rewrite Uf_diag, Lf_in by lia. fold c. ring.
        * symmetry. apply zsum_extend; try lia; unfold rmin, c in *.
          -- lia.
          -- intros m Hm. destruct (Z_lt_le_dec m (k - B)); [rewrite Lf_out by lia; ring|rewrite Uf_out by lia; ring].
          -- intros m Hm. rewrite Uf_out by lia. ring.
      + rewrite (A2 c) by (unfold c; lia). rewrite RS.
        assert (E1 : rmax c + (k - B) = k) by (unfold rmax, c; lia). rewrite E1.
        transitivity (zsum (rmin k c + (k - B)) (k + 1) (fun m => Lf Lm k m * Uf U m j)%R).
        * rewrite zsum_last by (unfold rmin, c; lia). rewrite Uf_in, Lf_in by lia.
          replace (k - k + B) with B by lia. replace (k * B + c - B - 1) with (k * B + j - k - 1) by (unfold c; lia). ring.
        * symmetry. apply zsum_extend; try lia; unfold rmin, c in *.
          -- lia.
          -- intros m Hm. destruct (Z_lt_le_dec m (k - B)); [rewrite Lf_out by lia; ring|rewrite Uf_out by lia; ring].
          -- intros m Hm. rewrite Lf_out by lia. ring.
  Qed.

  Lemma solution U y x Lm : (forall k, 0 <= k < N -> row_ok U y (Lm k) k) ->
    (forall m, 0 <= m < N -> y m = zsum 0 N (fun j => Uf U m j * x j)%R) ->
    forall k, 0 <= k < N -> zsum 0 N (fun j => dense k j * x j)%R = rhs k.
  Proof.
    intros Hrow Hy k Hk.
    rewrite (zsum_ext 0 N _ (fun j => zsum 0 N (fun m => Lf Lm k m * (Uf U m j * x j))%R)).
    2:{ intros j Hj. rewrite (factor U y Lm Hrow k j Hk Hj). rewrite Rmult_comm, <- zsum_scal.
        apply zsum_ext. intros; ring. }
    rewrite zsum_swap.
    rewrite (zsum_ext 0 N _ (fun m => Lf Lm k m * y m)%R).
    2:{ intros m Hm. rewrite zsum_scal. rewrite <- Hy by exact Hm. reflexivity. }
    destruct (Hrow k Hk) as (_ & _ & _ & A3). rewrite A3.
    rewrite (zsum_extend (Z.max 0 (k - B)) (k + 1) 0 N); try lia.
    - rewrite zsum_last by lia. rewrite Lf_in by lia. replace (k - k + B) with B by lia.
      rewrite Rplus_comm. f_equal. rewrite (zsum_shift (Z.max 0 (B - k)) B (k - B)).
      replace (Z.max 0 (B - k) + (k - B)) with (Z.max 0 (k - B)) by lia. replace (B + (k - B)) with k by lia.
      apply zsum_ext. intros m Hm. rewrite Lf_in by lia. f_equal; f_equal; lia.
    - intros m Hm. rewrite Lf_out by lia. ring.
    - intros m Hm. rewrite Lf_out by lia. ring.
  Qed.
End Factor.
