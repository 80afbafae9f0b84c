From Verif Require Import Arr BinSearchModel BinSearchSpec BinSearchProofs BandModel BandSpec BandStore BandBlas SparseModel SparseSpec PropsSearch.
Local Open Scope Z_scope.

Lemma get_nth {A} (l : list A) i a : 0 <= i -> nth_error l (Z.to_nat i) = Some a -> get l i = Ok a.
Proof. intros H E. unfold get. rewrite (proj2 (Z.ltb_ge i 0)) by lia. rewrite E. reflexivity. Qed.

Section S.
  Context {T : Type}.
  Variable m : csc T.
  Hypothesis WF : csc_wf m.
  Notation nnz := (zlen (svals m)).

  Lemma outer_get c : 0 <= c <= scols m -> exists o, nth_error (souter m) (Z.to_nat c) = Some o /\ get (souter m) c = Ok o.
  Proof.
    intros H. destruct WF as (W0 & W1 & _). destruct (get_ok (souter m) c) as (o & G & E); [lia|]. eauto.
  Qed.
  Lemma outer_mono c d o p : 0 <= c <= d -> nth_error (souter m) (Z.to_nat c) = Some o -> nth_error (souter m) (Z.to_nat d) = Some p -> o <= p.
  Proof. intros H E1 E2. destruct WF as (_ & _ & _ & _ & _ & S & _). apply (S _ _ _ _ E1 E2). lia. Qed.

  Lemma stored_col_unique k r c v r' c' v' : stored m k r c v -> stored m k r' c' v' -> r = r' /\ c = c' /\ v = v'.
  Proof.
    intros (C1 & R1 & V1 & lo & hi & L1 & H1 & K1) (C2 & R2 & V2 & lo' & hi' & L2 & H2 & K2).
    repeat split; try congruence. destruct (Z.lt_trichotomy c c') as [H|[H|H]]; auto; exfalso.
    - pose proof (outer_mono (c + 1) c' hi lo' ltac:(lia) H1 L2). lia.
    - pose proof (outer_mono (c' + 1) c hi' lo ltac:(lia) H2 L1). lia.
  Qed.

  Lemma sp_elem_ok k : 0 <= k < nnz -> exists r c v, sp_elem m k = Ok (r, c, v) /\ stored m k r c v.
  Proof.
    intros Hk. pose proof WF as (W0 & W1 & W2 & W3 & W4 & W5 & W6 & W7). unfold sp_elem.
    rewrite (proj2 (Z.leb_le 0 k)) by lia. rewrite (proj2 (Z.ltb_lt k nnz)) by lia. cbn [andb negb].
    destruct (get_ok (sinner m) k) as (r & -> & Nr); [lia|]. cbn [bind].
    destruct (get_ok (svals m) k) as (v & Gv & Nv); [lia|].
    destruct (C05_binSearch_int (-2^31) INTMAX k (souter m)) as (c & -> & BS); try lia; auto.
    { intros a0 aN _ E0 EN. rewrite W3 in E0. injection E0 as <-.
      replace (length (souter m) - 1)%nat with (Z.to_nat (scols m)) in EN by (unfold zlen in W1; lia).
      rewrite W4 in EN. injection EN as <-. unfold INTMAX. lia. }
    cbn [bind]. rewrite Gv. cbn [bind]. exists r, c, v. split; [reflexivity|].
    destruct BS as [[E _]|(a0 & aN & N0 & NN & BS)]; [rewrite E in W3; discriminate|].
    rewrite W3 in N0. injection N0 as <-.
    replace (length (souter m) - 1)%nat with (Z.to_nat (scols m)) in NN by (unfold zlen in W1; lia).
    rewrite W4 in NN. injection NN as <-.
    destruct BS as [[B _]|[[B _]|[(_ & _ & B & _)|(_ & _ & B & ak & ak1 & A1 & A2 & A3 & A4 & A5)]]]; unfold BinSearchSpec.lt in *; try lia.
    { unfold zlen in W1. rewrite B in W1. assert (scols m = 0) by lia. rewrite H in W4. change (Z.to_nat 0) with 0%nat in W4. rewrite W3 in W4. injection W4 as E. unfold zlen in *. lia. }
    split; [lia|]. split; [exact Nr|]. split; [exact Nv|]. exists ak, ak1.
    replace (Z.to_nat (c + 1)) with (Z.to_nat c + 1)%nat by lia. split; [exact A1|]. split; [exact A2|].
    split; [exact A3|]. destruct A5 as [A5|A5]; [lia|].
    replace (Z.to_nat c + 1)%nat with (Z.to_nat (scols m)) in A2 by lia. rewrite W4 in A2. injection A2 as <-. lia.
  Qed.

  Definition lists (l : list (Z * Z * T)) (n : Z) : Prop :=
    zlen l = n /\ forall k, 0 <= k < n -> exists r c v, nth_error l (Z.to_nat k) = Some (r, c, v) /\ stored m k r c v.
  Lemma lists_snoc l n r c v : 0 <= n -> lists l n -> stored m n r c v -> lists (l ++ [(r, c, v)]) (n + 1).
  Proof.
    intros Hn [H1 H2] S. split; [unfold zlen in *; rewrite app_length; cbn [length]; lia|].
    intros k Hk. destruct (Z.eq_dec k n) as [->|Hne].
    - exists r, c, v. split; [|exact S]. rewrite nth_error_app2 by (unfold zlen in H1; lia).
      replace (Z.to_nat n - length l)%nat with 0%nat by (unfold zlen in H1; lia). reflexivity.
    - destruct (H2 k ltac:(lia)) as (r' & c' & v' & E & S'). exists r', c', v'. split; [|exact S'].
      rewrite nth_error_app1; [exact E|]. apply nth_error_Some. congruence.
  Qed.
  Lemma inner_get k : 0 <= k < nnz -> exists r v, get (sinner m) k = Ok r /\ get (svals m) k = Ok v /\
     nth_error (sinner m) (Z.to_nat k) = Some r /\ nth_error (svals m) (Z.to_nat k) = Some v.
  Proof.
    intros Hk. destruct WF as (W0 & W1 & W2 & _). destruct (get_ok (sinner m) k) as (r & Gr & Nr); [lia|].
    destruct (get_ok (svals m) k) as (v & Gv & Nv); [lia|]. eauto 10.
  Qed.

  Lemma values_eigen_ok : exists l, sp_values_eigen m = Ok l /\ lists l nnz.
  Proof.
    pose proof WF as (W0 & W1 & W2 & W3 & W4 & W5 & W6 & W7). unfold sp_values_eigen.
    destruct (for_total (fun j l => exists o, nth_error (souter m) (Z.to_nat j) = Some o /\ lists l o) 0 (scols m)
      (fun j acc => o <- get (souter m) j ;; o1 <- get (souter m) (j + 1) ;;
      for_ o o1 (fun k acc => r <- get (sinner m) k ;; v <- get (svals m) k ;; Ok (acc ++ [(r, j, v)])) acc) []) as (l & -> & o & E & L).
    - exact W0.
    - exists 0. split; [exact W3|]. split; [reflexivity|intros; lia].
    - intros j l Hj (o & Eo & L). destruct (outer_get (j + 1) ltac:(lia)) as (o1 & Eo1 & G1).
      rewrite (get_nth (souter m) j o ltac:(lia) Eo). cbn [bind]. rewrite G1. cbn [bind].
      assert (O0 : 0 <= o) by (apply (outer_mono 0 j 0 o); [lia|exact W3|exact Eo]).
      assert (O1 : o <= o1) by (apply (outer_mono j (j + 1) o o1); auto; lia).
      assert (O2 : o1 <= nnz) by (apply (outer_mono (j + 1) (scols m) o1 nnz); auto; lia).
      destruct (for_total (fun k l => lists l k) o o1 (fun k acc => r <- get (sinner m) k ;; v <- get (svals m) k ;; Ok (acc ++ [(r, j, v)])) l) as (l' & -> & L'); auto.
      + intros k a Hk Ha. destruct (inner_get k ltac:(lia)) as (r & v & -> & -> & Nr & Nv). cbn [bind].
        eexists. split; [reflexivity|]. apply lists_snoc; [lia|exact Ha|]. repeat split; auto; try lia. exists o, o1. repeat split; auto; lia.
      + exists l'. split; [reflexivity|]. exists o1. auto.
    - exists l. split; [reflexivity|]. rewrite W4 in E. injection E as <-. exact L.
  Qed.

  Lemma skip_ok k : 0 <= k < nnz -> forall fuel col o, 0 <= col < scols m -> scols m - col <= Z.of_nat fuel ->
    nth_error (souter m) (Z.to_nat col) = Some o -> o <= k ->
    exists c lo hi, sp_skip fuel m col k = Ok c /\ col <= c < scols m /\ nth_error (souter m) (Z.to_nat c) = Some lo /\
      nth_error (souter m) (Z.to_nat (c + 1)) = Some hi /\ lo <= k < hi.
  Proof.
    intros Hk. pose proof WF as (W0 & W1 & W2 & W3 & W4 & W5 & W6 & W7).
    induction fuel as [|fuel IH]; intros col o Hc Hf Eo Ho; [lia|]. cbn [sp_skip].
    rewrite (proj2 (Z.ltb_lt col (scols m))) by lia. destruct (outer_get (col + 1) ltac:(lia)) as (p & Ep & ->). cbn [bind].
    destruct (p <=? k) eqn:E.
    - apply Z.leb_le in E. assert (col + 1 < scols m).
      { destruct (Z.eq_dec (col + 1) (scols m)) as [Q|Q]; [|lia]. rewrite Q, W4 in Ep. injection Ep as <-. lia. }
      destruct (IH (col + 1) p) as (c & lo & hi & R & ? & ?); auto; try lia. exists c, lo, hi. split; [exact R|]. intuition lia.
    - apply Z.leb_gt in E. exists col, o, p. repeat split; auto; lia.
  Qed.

  Lemma values_gsl_ok : exists l, sp_values_gsl m = Ok l /\ lists l nnz.
  Proof.
    pose proof WF as (W0 & W1 & W2 & W3 & W4 & W5 & W6 & W7). unfold sp_values_gsl.
    destruct (for_total (fun k (st : Z * list (Z * Z * T)) => lists (snd st) k /\ (k < nnz -> 0 <= fst st < scols m /\ exists o, nth_error (souter m) (Z.to_nat (fst st)) = Some o /\ o <= k)) 0 nnz
      (fun k st => let (col, acc) := st in
      col <- sp_skip (Z.to_nat (scols m)) m col k ;;
      r <- get (sinner m) k ;; v <- get (svals m) k ;; Ok (col, acc ++ [(r, col, v)])) (0, [])) as ([c l] & -> & L & _).
    - unfold zlen; lia.
    - cbn [fst snd]. split; [split; [reflexivity|intros; lia]|]. intros Hn. split.
      + destruct (Z.eq_dec (scols m) 0) as [Q|Q]; [|lia]. rewrite Q in W4. change (Z.to_nat 0) with 0%nat in W4. rewrite W3 in W4. injection W4 as E. lia.
      + exists 0. split; [exact W3|lia].
    - intros k [c l] Hk [L H]. cbn [fst snd] in *. destruct (H ltac:(lia)) as (Hc & o & Eo & Ho).
      destruct (skip_ok k Hk (Z.to_nat (scols m)) c o) as (c' & lo & hi & -> & C1 & C2 & C3 & C4); auto; try lia. cbn [bind].
      destruct (inner_get k Hk) as (r & v & -> & -> & Nr & Nv). cbn [bind]. eexists. split; [reflexivity|]. cbn [fst snd]. split.
      + apply lists_snoc; [lia|exact L|]. repeat split; auto; try lia. exists lo, hi. repeat split; auto; lia.
      + intros _. split; [lia|]. exists lo. split; [exact C2|lia].
    - exists l. split; [reflexivity|exact L].
  Qed.
End S.

(** ---- triplets ---- *)
Lemma accum_ok nr nc l : in_range nr nc l -> forall f, exists g, dense_accum nr nc l f = Ok g /\
  forall i j, g i j = (f i j + triplet_sum l i j)%R.
Proof.
  induction l as [|[[a b] v] l IH]; intros H f; cbn [dense_accum triplet_sum fold_right].
  - exists f. split; [reflexivity|]. intros; ring.
  - destruct (H a b v (or_introl eq_refl)) as [H1 H2].
    rewrite (proj2 (Z.leb_le 0 a)), (proj2 (Z.ltb_lt a nr)), (proj2 (Z.leb_le 0 b)), (proj2 (Z.ltb_lt b nc)) by lia. cbn [andb].
    destruct (IH (fun i j w Hi => H i j w (or_intror Hi)) (upd2 f a b (f a b + v)%R)) as (g & -> & Hg). exists g. split; [reflexivity|].
    intros i j. rewrite Hg. unfold upd2. rewrite (Z.eqb_sym a i), (Z.eqb_sym b j). destruct ((i =? a) && (j =? b))%bool eqn:E; [|reflexivity].
    apply andb_true_iff in E. rewrite !Z.eqb_eq in E. destruct E as [-> ->]. fold (triplet_sum l a b). ring.
Qed.
Lemma triplet_sum_absent l i j : ~ In (i, j) (map fst l) -> triplet_sum l i j = 0%R.
Proof.
  induction l as [|[[a b] v] l IH]; cbn [triplet_sum fold_right map fst In]; intros H; [reflexivity|].
  destruct ((a =? i) && (b =? j))%bool eqn:E.
  - apply andb_true_iff in E. rewrite !Z.eqb_eq in E. destruct E as [-> ->]. exfalso. apply H. left. reflexivity.
  - apply IH. tauto.
Qed.
Lemma assign_ok nr nc l : in_range nr nc l -> NoDup (map fst l) -> forall f, exists g, dense_assign nr nc l f = Ok g /\
  forall i j, (In (i, j) (map fst l) -> g i j = triplet_sum l i j) /\ (~ In (i, j) (map fst l) -> g i j = f i j).
Proof.
  induction l as [|[[a b] v] l IH]; intros H ND f; cbn [dense_assign triplet_sum fold_right map fst].
  - exists f. split; [reflexivity|]. intros; split; [intros []|auto].
  - destruct (H a b v (or_introl eq_refl)) as [H1 H2]. inversion ND as [|? ? N1 N2]; subst.
    rewrite (proj2 (Z.leb_le 0 a)), (proj2 (Z.ltb_lt a nr)), (proj2 (Z.leb_le 0 b)), (proj2 (Z.ltb_lt b nc)) by lia. cbn [andb].
    destruct (IH (fun i j w Hi => H i j w (or_intror Hi)) N2 (upd2 f a b v)) as (g & -> & Hg). exists g. split; [reflexivity|].
    intros i j. destruct (Hg i j) as [G1 G2]. fold (triplet_sum l i j). split.
    + intros [E|E].
      * injection E as <- <-. rewrite (Z.eqb_refl a), (Z.eqb_refl b). cbn [andb]. rewrite G2 by exact N1. unfold upd2. rewrite !Z.eqb_refl. cbn [andb].
        rewrite triplet_sum_absent by exact N1. ring.
      * rewrite G1 by exact E. destruct ((a =? i) && (b =? j))%bool eqn:Q; [|reflexivity].
        apply andb_true_iff in Q. rewrite !Z.eqb_eq in Q. destruct Q as [-> ->]. tauto.
    + intros E. rewrite G2 by (intros X; apply E; right; exact X). unfold upd2. destruct ((i =? a) && (j =? b))%bool eqn:Q; [|reflexivity].
      apply andb_true_iff in Q. rewrite !Z.eqb_eq in Q. destruct Q as [-> ->]. exfalso. apply E. left. reflexivity.
Qed.

(** ---- band matrix to dense ---- *)
Lemma dense_from_band_ok m : bm_wf m -> exists g, dense_from_band 0%R m = Ok g /\
  forall i j, 0 <= i < bN m -> 0 <= j < bN m -> g i j = elt m i j.
Proof.
  intros W. pose proof W as [W1 W2]. unfold dense_from_band. rewrite raw_ok by exact W. cbn [bind].
  set (P := fun r k (g : Z -> Z -> R) => forall i j, 0 <= i < bN m -> 0 <= j < bN m ->
      g i j = if (i <? r) || ((i =? r) && (j <? k)) then elt m i j else 0%R).
  assert (OUT : forall r c, 0 <= r < bN m -> 0 <= c < bN m -> c > r + bB m \/ r > c + bB m -> elt m r c = 0%R).
  { intros r c Hr Hc H. unfold elt. rewrite at_out by auto. reflexivity. }
  destruct (for_total (fun r g => P r 0 g) 0 (bN m) (fun r f =>
    for_ (Z.max 0 (r - bB m)) (Z.min (bN m - 1) (r + bB m) + 1) (fun c f =>
      d <- aget (bdata m) (r * (bB m * 2 + 1) + Z.max 0 (r - bB m) - r + bB m + (c - Z.max 0 (r - bB m))) ;; Ok (upd2 f r c d)) f) (fun _ _ => 0%R)) as (g & -> & Hg).
  - lia.
  - intros i j Hi Hj. rewrite (proj2 (Z.ltb_ge i 0)), (proj2 (Z.ltb_ge j 0)) by lia. rewrite andb_false_r. reflexivity.
  - intros r g Hr Hg. set (lo := Z.max 0 (r - bB m)). set (hi := Z.min (bN m - 1) (r + bB m) + 1).
    destruct (for_total (fun k g => P r k g) lo hi (fun c f =>
      d <- aget (bdata m) (r * (bB m * 2 + 1) + lo - r + bB m + (c - lo)) ;; Ok (upd2 f r c d)) g) as (g' & -> & Hg').
    + unfold lo, hi; lia.
    + intros i j Hi Hj. rewrite (Hg i j Hi Hj). rewrite (proj2 (Z.ltb_ge j 0)) by lia. rewrite andb_false_r, orb_false_r.
      destruct (i <? r) eqn:E; cbn [orb]; [reflexivity|]. destruct (i =? r) eqn:E2; cbn [andb]; [|reflexivity].
      apply Z.eqb_eq in E2. subst i. destruct (j <? lo) eqn:E3; [|reflexivity]. apply Z.ltb_lt in E3. symmetry. apply OUT; auto. unfold lo in E3; lia.
    + intros c f Hc Hf. pose proof (pos_ok m W r c ltac:(lia) ltac:(unfold lo, hi in *; lia) ltac:(unfold lo, hi in *; lia)) as Q.
      rewrite aget_ok by (unfold lo; lia). cbn [bind]. eexists. split; [reflexivity|]. intros i j Hi Hj. unfold upd2.
      destruct ((i =? r) && (j =? c))%bool eqn:E.
      * apply andb_true_iff in E. rewrite !Z.eqb_eq in E. destruct E as [-> ->]. rewrite Z.eqb_refl. rewrite (proj2 (Z.ltb_lt c (c + 1))) by lia.
        rewrite (proj2 (Z.ltb_ge r r)) by lia. cbn [orb andb]. unfold elt. rewrite at_in by (auto; unfold lo, hi in *; lia). unfold val. f_equal. lia.
      * rewrite (Hf i j Hi Hj). apply andb_false_iff in E. rewrite !Z.eqb_neq in E.
        destruct (i <? r) eqn:E1; cbn [orb]; [reflexivity|]. destruct (i =? r) eqn:E2; cbn [andb]; [|reflexivity].
        apply Z.eqb_eq in E2. replace (j <? c + 1) with (j <? c); [reflexivity|].
        destruct (j <? c) eqn:F; symmetry; [apply Z.ltb_lt in F; apply Z.ltb_lt; lia|apply Z.ltb_ge in F; apply Z.ltb_ge; lia].
    + exists g'. split; [reflexivity|]. intros i j Hi Hj. rewrite (Hg' i j Hi Hj). rewrite (proj2 (Z.ltb_ge j 0)) by lia. rewrite andb_false_r, orb_false_r.
      destruct (i <? r) eqn:E; cbn [orb].
      * apply Z.ltb_lt in E. rewrite (proj2 (Z.ltb_lt i (r + 1))) by lia. reflexivity.
      * apply Z.ltb_ge in E. destruct (i =? r) eqn:E2; cbn [andb].
        -- apply Z.eqb_eq in E2. subst i. rewrite (proj2 (Z.ltb_lt r (r + 1))) by lia. destruct (j <? hi) eqn:E3; [reflexivity|].
           apply Z.ltb_ge in E3. symmetry. apply OUT; auto. unfold hi in E3; lia.
        -- apply Z.eqb_neq in E2. rewrite (proj2 (Z.ltb_ge i (r + 1))) by lia. reflexivity.
  - exists g. split; [reflexivity|]. intros i j Hi Hj. rewrite (Hg i j Hi Hj). rewrite (proj2 (Z.ltb_lt i (bN m))) by lia. reflexivity.
Qed.

Lemma dense_from_elem_ok m : bm_wf m -> 2 * bB m <= bN m -> exists g,
  dense_from_elem 0%R (bN m) (bN m) (bm_size m) (bm_elem m) = Ok g /\
  forall i j, 0 <= i < bN m -> 0 <= j < bN m -> g i j = elt m i j.
Proof.
  intros W H2. pose proof W as [W1 W2]. unfold dense_from_elem.
  pose proof (all_list_size m W) as SZ. set (l := all_list m (bN m)) in *.
  destruct (for_total (fun k (g : Z -> Z -> R) => forall i j,
      (In (i, j) (map fst (firstn (Z.to_nat k) l)) -> g i j = val m i j) /\ (~ In (i, j) (map fst (firstn (Z.to_nat k) l)) -> g i j = 0%R))
    0 (bm_size m) (fun k f => t <- bm_elem m k ;; let '(i, j, v) := t in
    if (0 <=? i) && (i <? bN m) && (0 <=? j) && (j <? bN m) then Ok (upd2 f i j v) else UB) (fun _ _ => 0%R)) as (g & E & Hg).
  - rewrite <- SZ. unfold zlen. lia.
  - intros i j. cbn. split; [intros []|auto].
  - intros k g Hk Hg. destruct (elem_ok m W k H2 Hk) as ([[r c] v] & -> & Nt). cbn [bind].
    pose proof (nth_error_In _ _ Nt) as IN. apply all_list_In in IN. destruct IN as (A & B & C & ->).
    rewrite (proj2 (Z.leb_le 0 r)), (proj2 (Z.ltb_lt r (bN m))), (proj2 (Z.leb_le 0 c)), (proj2 (Z.ltb_lt c (bN m))) by lia. cbn [andb].
    eexists. split; [reflexivity|]. intros i j. fold l in Nt.
    assert (F : firstn (Z.to_nat (k + 1)) l = firstn (Z.to_nat k) l ++ [(r, c, val m r c)]).
    { replace (Z.to_nat (k + 1)) with (S (Z.to_nat k)) by lia. revert Nt. generalize (Z.to_nat k) as q. intros q. generalize l. induction q as [|q IH]; intros [|y l'] E; cbn in *; try discriminate; [injection E as ->; reflexivity|]. f_equal. apply IH. exact E. }
    rewrite F, map_app, in_app_iff. cbn [map fst In]. destruct (Hg i j) as [G1 G2]. unfold upd2.
    destruct ((i =? r) && (j =? c))%bool eqn:E.
    + apply andb_true_iff in E. rewrite !Z.eqb_eq in E. destruct E as [-> ->]. split; [reflexivity|]. intros Q. exfalso. apply Q. auto.
    + split.
      * intros [Q|[Q|[]]]; [apply G1; exact Q|]. injection Q as -> ->. rewrite !Z.eqb_refl in E. discriminate.
      * intros Q. apply G2. tauto.
  - exists g. split; [exact E|]. intros i j Hi Hj. destruct (Hg i j) as [G1 G2].
    assert (Q : firstn (Z.to_nat (bm_size m)) l = l) by (apply firstn_all2; unfold zlen in SZ; lia). rewrite Q in *.
    unfold elt. destruct (Z_gt_le_dec j (i + bB m)) as [P|P]; [|destruct (Z_gt_le_dec i (j + bB m)) as [P'|P']].
    + rewrite at_out by auto. apply G2. intros IN. apply in_map_iff in IN. destruct IN as ([[r c] v] & E1 & IN). cbn in E1. injection E1 as -> ->.
      apply all_list_In in IN. lia.
    + rewrite at_out by auto. apply G2. intros IN. apply in_map_iff in IN. destruct IN as ([[r c] v] & E1 & IN). cbn in E1. injection E1 as -> ->.
      apply all_list_In in IN. lia.
    + rewrite at_in by (auto; lia). apply G1. apply in_map_iff. exists (i, j, val m i j). split; [reflexivity|]. apply all_list_In. repeat split; lia.
Qed.
