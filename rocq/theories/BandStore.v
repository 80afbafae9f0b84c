From Verif Require Import Arr BandModel BandSpec.
From Coq Require FinFun.
Local Open Scope Z_scope.

(** integers lo, lo+1, ..., hi-1 *)
Fixpoint zrangen (n : nat) (lo : Z) : list Z := match n with O => [] | S n' => lo :: zrangen n' (lo + 1) end.
Definition zrange (lo hi : Z) : list Z := zrangen (Z.to_nat (hi - lo)) lo.
Lemma zrangen_snoc n lo : zrangen (S n) lo = zrangen n lo ++ [lo + Z.of_nat n].
Proof.
  revert lo. induction n as [|n IH]; intros lo; [cbn; f_equal; lia|].
  change (zrangen (S (S n)) lo) with (lo :: zrangen (S n) (lo + 1)). rewrite IH. cbn [zrangen app]. do 3 f_equal. lia.
Qed.
Lemma zrange_snoc lo hi : lo <= hi -> zrange lo (hi + 1) = zrange lo hi ++ [hi].
Proof.
  intros H. unfold zrange. replace (Z.to_nat (hi + 1 - lo)) with (S (Z.to_nat (hi - lo))) by lia.
  rewrite zrangen_snoc. do 2 f_equal. lia.
Qed.
Lemma zrange_nil lo hi : hi <= lo -> zrange lo hi = [].
Proof. intros. unfold zrange. replace (Z.to_nat (hi - lo)) with O by lia. reflexivity. Qed.
Lemma zrangen_length n lo : length (zrangen n lo) = n.
Proof. revert lo; induction n as [|n IH]; intros lo; cbn; [reflexivity|rewrite IH; reflexivity]. Qed.
Lemma zrange_length lo hi : lo <= hi -> zlen (zrange lo hi) = hi - lo.
Proof. intros. unfold zlen, zrange. rewrite zrangen_length. lia. Qed.
Lemma zrangen_nth n lo k : (k < n)%nat -> nth_error (zrangen n lo) k = Some (lo + Z.of_nat k).
Proof.
  revert lo k. induction n as [|n IH]; intros lo [|k] H; try lia; cbn [zrangen nth_error].
  - f_equal. lia.
  - rewrite IH by lia. f_equal. lia.
Qed.
Lemma zrange_nth lo hi k : 0 <= k < hi - lo -> nth_error (zrange lo hi) (Z.to_nat k) = Some (lo + k).
Proof. intros H. unfold zrange. rewrite zrangen_nth by lia. f_equal. lia. Qed.
Lemma zrangen_In n lo x : In x (zrangen n lo) <-> lo <= x < lo + Z.of_nat n.
Proof.
  revert lo. induction n as [|n IH]; intros lo; cbn [zrangen In]; [lia|]. rewrite IH. lia.
Qed.
Lemma zrange_In lo hi x : In x (zrange lo hi) <-> lo <= x < hi.
Proof. unfold zrange. rewrite zrangen_In. lia. Qed.
Lemma zrangen_NoDup n lo : NoDup (zrangen n lo).
Proof. revert lo; induction n as [|n IH]; intros lo; cbn [zrangen]; constructor; [rewrite zrangen_In; lia|apply IH]. Qed.

Lemma half_even b : 2 * (b * (b + 1) / 2) = b * (b + 1).
Proof.
  destruct (Z.Even_or_Odd b) as [[q ->]|[q ->]].
  - replace (2 * q * (2 * q + 1)) with (q * (2 * q + 1) * 2) by ring. rewrite Z.div_mul by lia. ring.
  - replace ((2 * q + 1) * (2 * q + 1 + 1)) with ((2 * q + 1) * (q + 1) * 2) by ring. rewrite Z.div_mul by lia. ring.
Qed.

Section S.
  Context {T : Type} (zero : T).
  Variable m : band_matrix T.
  Hypothesis WF : bm_wf m.
  Notation N := (bN m). Notation B := (bB m).
  Definition cl (r : Z) := Z.max 0 (r - B).
  Definition cr (r : Z) := Z.min (N - 1) (r + B).
  Definition val (r c : Z) : T := afn (bdata m) (r * (2 * B + 1) + c + B - r).

  Lemma pos_ok r c : 0 <= r < N -> 0 <= c < N -> r - B <= c <= r + B -> 0 <= r * (2 * B + 1) + c + B - r < alen (bdata m).
  Proof. intros. destruct WF as [W1 W2]. rewrite W2. nia. Qed.

  Lemma at_in r c : 0 <= r < N -> 0 <= c < N -> r - B <= c <= r + B -> bm_at zero m r c = Ok (val r c).
  Proof.
    intros Hr Hc Hb. unfold bm_at. rewrite (proj2 (Z.ltb_lt r N)) by lia. rewrite (proj2 (Z.ltb_lt c N)) by lia. cbn [andb negb].
    rewrite !Z.gtb_ltb. rewrite (proj2 (Z.ltb_ge (r + B) c)) by lia. rewrite (proj2 (Z.ltb_ge (c + B) r)) by lia. cbn [orb].
    rewrite aget_ok by (apply pos_ok; lia). reflexivity.
  Qed.
  Lemma at_out r c : 0 <= r < N -> 0 <= c < N -> c > r + B \/ r > c + B -> bm_at zero m r c = Ok zero.
  Proof.
    intros Hr Hc Hb. unfold bm_at. rewrite (proj2 (Z.ltb_lt r N)) by lia. rewrite (proj2 (Z.ltb_lt c N)) by lia. cbn [andb negb].
    rewrite !Z.gtb_ltb. destruct Hb; [rewrite (proj2 (Z.ltb_lt (r + B) c)) by lia|rewrite (proj2 (Z.ltb_lt (c + B) r)) by lia; rewrite orb_true_r]; reflexivity.
  Qed.

  Definition row_list (r : Z) : list (Z * Z * T) := map (fun c => (r, c, val r c)) (zrange (cl r) (cr r + 1)).
  Definition all_list (R : Z) : list (Z * Z * T) := flat_map row_list (zrange 0 R).

  Lemma row_values_ok r acc : 0 <= r < N -> bm_row_values m r acc = Ok (acc ++ row_list r).
  Proof.
    intros Hr. unfold bm_row_values. cbv zeta. fold (cl r) (cr r). destruct WF as [W1 W2].
    destruct (for_total (fun c a => a = acc ++ map (fun c => (r, c, val r c)) (zrange (cl r) c)) (cl r) (cr r + 1)
      (fun c acc => v <- aget (bdata m) (r * width m + cl r - r + B + (c - cl r)) ;; Ok (acc ++ [(r, c, v)])) acc) as (a & -> & ->).
    - unfold cl, cr; lia.
    - rewrite zrange_nil by lia. cbn. rewrite app_nil_r. reflexivity.
    - intros c a Hc ->. unfold cl, cr, width in *. pose proof (pos_ok r c ltac:(lia) ltac:(lia) ltac:(lia)).
      rewrite aget_ok by lia. cbn [bind]. eexists. split; [reflexivity|].
      rewrite zrange_snoc by lia. rewrite map_app. cbn [map]. rewrite app_assoc. do 4 f_equal. unfold val. f_equal. lia.
    - reflexivity.
  Qed.
  Lemma values_ok : bm_values m = Ok (all_list N).
  Proof.
    unfold bm_values. destruct WF as [W1 W2].
    destruct (for_total (fun r a => a = all_list r) 0 N (bm_row_values m) []) as (a & -> & ->); try lia; auto.
    intros r a Hr ->. rewrite row_values_ok by lia. eexists. split; [reflexivity|].
    unfold all_list. rewrite zrange_snoc by lia. rewrite flat_map_app. cbn [flat_map]. rewrite app_nil_r. reflexivity.
  Qed.

  Lemma all_list_In r c v : In (r, c, v) (all_list N) <-> 0 <= r < N /\ 0 <= c < N /\ r - B <= c <= r + B /\ v = val r c.
  Proof.
    unfold all_list. rewrite in_flat_map. split.
    - intros (r' & H1 & H2). apply zrange_In in H1. unfold row_list in H2. apply in_map_iff in H2. destruct H2 as (c' & E & H2).
      apply zrange_In in H2. injection E as -> -> <-. unfold cl, cr in H2. repeat split; lia.
    - intros (H1 & H2 & H3 & ->). exists r. split; [apply zrange_In; lia|]. unfold row_list. apply in_map_iff. exists c.
      split; [reflexivity|]. apply zrange_In. unfold cl, cr. lia.
  Qed.
  Lemma all_list_NoDup R : NoDup (map fst (all_list R)).
  Proof.
    unfold all_list, zrange. generalize (Z.to_nat (R - 0)) as n. intros n.
    assert (G : forall n lo, NoDup (map fst (flat_map row_list (zrangen n lo))) /\
       forall p, In p (map fst (flat_map row_list (zrangen n lo))) -> lo <= fst p).
    2:{ apply (G n 0). }
    clear n. induction n as [|n IH]; intros lo; cbn [zrangen flat_map].
    - split; [constructor|intros p []].
    - destruct (IH (lo + 1)) as [I1 I2]. rewrite map_app.
      assert (E : map fst (row_list lo) = map (fun c => (lo, c)) (zrange (cl lo) (cr lo + 1))) by (unfold row_list; rewrite map_map; reflexivity).
      split.
      + rewrite E. assert (ND : NoDup (map (fun c : Z => (lo, c)) (zrange (cl lo) (cr lo + 1)))).
        { apply FinFun.Injective_map_NoDup; [intros x y H; congruence|apply zrangen_NoDup]. }
        revert ND. generalize (zrange (cl lo) (cr lo + 1)) as l. intros l. induction l as [|c l IHl]; intros ND; cbn [map app]; [exact I1|].
        cbn [map] in ND. inversion ND as [|? ? ND1 ND2]; subst. constructor; [|apply IHl; exact ND2].
        rewrite in_app_iff. intros [H|H]; [exact (ND1 H)|]. apply I2 in H. cbn [fst] in H. lia.
      + intros p Hp. apply in_app_or in Hp. destruct Hp as [Hp|Hp].
        * rewrite E in Hp. apply in_map_iff in Hp. destruct Hp as (c & <- & _). cbn. lia.
        * apply I2 in Hp. lia.
  Qed.

  (** number of stored elements before row r *)
  Definition f1 (r : Z) : Z := if r <=? B then r * (2 * B - r + 1) else B * (B + 1).
  Definition f2 (r : Z) : Z := if r <=? N - B then 0 else (r - N + B) * (r - N + B + 1).
  Lemma all_list_len r : 0 <= r <= N -> 2 * zlen (all_list r) = 2 * r * (2 * B + 1) - f1 r - f2 r.
  Proof.
    intros Hr. destruct WF as [W1 W2].
    assert (G : forall n, Z.of_nat n <= N -> 2 * zlen (all_list (Z.of_nat n)) = 2 * Z.of_nat n * (2 * B + 1) - f1 (Z.of_nat n) - f2 (Z.of_nat n)).
    2:{ specialize (G (Z.to_nat r)). rewrite Z2Nat.id in G by lia. apply G. lia. }
    induction n as [|n IH]; intros Hn.
    - change (Z.of_nat 0) with 0. unfold all_list. rewrite zrange_nil by lia. unfold f1, f2. cbn [flat_map].
      change (zlen []) with 0. rewrite (proj2 (Z.leb_le _ _)) by lia. rewrite (proj2 (Z.leb_le _ _)) by lia. lia.
    - specialize (IH ltac:(lia)). set (q := Z.of_nat n) in *. replace (Z.of_nat (S n)) with (q + 1) by lia.
      assert (E : all_list (q + 1) = all_list q ++ row_list q).
      { unfold all_list. rewrite zrange_snoc by lia. rewrite flat_map_app. cbn [flat_map]. rewrite app_nil_r. reflexivity. }
      assert (RL : zlen (row_list q) = cr q + 1 - cl q).
      { unfold zlen, row_list. rewrite map_length. fold (zlen (zrange (cl q) (cr q + 1))). apply zrange_length. unfold cl, cr. lia. }
      rewrite E. unfold zlen in *. rewrite app_length, Nat2Z.inj_add, RL.
      rewrite Z.mul_add_distr_l, IH. unfold f1, f2, cl, cr.
      destruct (q <=? B) eqn:A1; destruct (q + 1 <=? B) eqn:A2; destruct (q <=? N - B) eqn:A3; destruct (q + 1 <=? N - B) eqn:A4;
        rewrite ?Z.leb_le, ?Z.leb_gt in *; try lia; try (rewrite ?Z.max_l, ?Z.max_r, ?Z.min_l, ?Z.min_r by lia);
        try (assert (q = B) by lia; subst B); try nia.
      all: try (destruct (Z.max_spec 0 (q - B)) as [[? ->]|[? ->]]; destruct (Z.min_spec (N - 1) (q + B)) as [[? ->]|[? ->]]; try lia; nia).
  Qed.
  Lemma all_list_size : zlen (all_list N) = bm_size m.
  Proof.
    pose proof (all_list_len N) as H. destruct WF as [W1 W2]. specialize (H ltac:(lia)). unfold bm_size. unfold f1, f2 in H.
    rewrite (proj2 (Z.leb_gt _ _)) in H by lia. destruct (N <=? N - B) eqn:E.
    - apply Z.leb_le in E. assert (B = 0) by lia. rewrite H0 in *. lia.
    - nia.
  Qed.

  (** position of the element (r,c) in the enumeration *)
  Lemma all_list_nth r c : 0 <= r < N -> cl r <= c <= cr r ->
    nth_error (all_list N) (Z.to_nat (zlen (all_list r) + (c - cl r))) = Some (r, c, val r c).
  Proof.
    intros Hr Hc.
    assert (E : all_list N = all_list r ++ row_list r ++ flat_map row_list (zrange (r + 1) N)).
    { unfold all_list. replace (row_list r ++ flat_map row_list (zrange (r + 1) N)) with (flat_map row_list (zrange r N)).
      2:{ unfold zrange. replace (Z.to_nat (N - r)) with (S (Z.to_nat (N - (r + 1)))) by lia. reflexivity. }
      rewrite <- flat_map_app. f_equal. unfold zrange.
      assert (Z : forall a b lo, zrangen (a + b) lo = zrangen a lo ++ zrangen b (lo + Z.of_nat a)).
      { induction a as [|a IHa]; intros b lo; cbn [zrangen Nat.add app]; [f_equal; lia|]. rewrite IHa. do 3 f_equal. lia. }
      replace (Z.to_nat (N - 0)) with (Z.to_nat (r - 0) + Z.to_nat (N - r))%nat by lia. rewrite Z. do 2 f_equal. lia. }
    rewrite E. rewrite nth_error_app2 by (unfold zlen; lia).
    replace (Z.to_nat (zlen (all_list r) + (c - cl r)) - length (all_list r))%nat with (Z.to_nat (c - cl r)) by (unfold zlen; lia).
    rewrite nth_error_app1.
    - unfold row_list. rewrite nth_error_map, zrange_nth by lia. cbn [option_map]. do 2 f_equal. 2:f_equal; lia. f_equal. lia.
    - unfold row_list. rewrite map_length. pose proof (zrange_length (cl r) (cr r + 1) ltac:(lia)). unfold zlen in H. lia.
  Qed.

  (** the while loop of elem() *)
  Lemma clip_loop_ok : 0 <= B -> forall fuel row col, 0 <= row -> 0 <= col <= Z.of_nat fuel ->
    exists r c, clip_loop fuel B row col = Ok (r, c) /\ row <= r /\ 0 <= c <= r + B /\
      2 * r * (B + 1) + r * (r - 1) + 2 * c = 2 * row * (B + 1) + row * (row - 1) + 2 * col.
  Proof.
    intros HB. induction fuel as [|fuel IH]; intros row col Hr Hc; cbn [clip_loop].
    - assert (col = 0) by lia. subst col. rewrite Z.geb_leb. rewrite (proj2 (Z.leb_gt (row + B + 1) 0)) by lia.
      exists row, 0. repeat split; lia.
    - rewrite Z.geb_leb. destruct (row + B + 1 <=? col) eqn:E.
      + apply Z.leb_le in E. destruct (IH (row + 1) (col - (row + B + 1))) as (r & c & -> & H1 & H2 & H3); try lia.
        exists r, c. repeat split; try lia; nia.
      + apply Z.leb_gt in E. exists row, col. repeat split; lia.
  Qed.

  Lemma elem_ok index : 2 * B <= N -> 0 <= index < bm_size m ->
    exists t, bm_elem m index = Ok t /\ nth_error (all_list N) (Z.to_nat index) = Some t.
  Proof.
    intros H2 Hi. pose proof WF as [W1 W2].
    assert (Fin : forall r c, 0 <= r < N -> cl r <= c <= cr r -> 2 * index = 2 * zlen (all_list r) + 2 * (c - cl r) ->
       exists t, (v <- aget (bdata m) (r * (2 * B + 1) + c + B - r) ;; Ok (r, c, v)) = Ok t /\ nth_error (all_list N) (Z.to_nat index) = Some t).
    { intros r c Hr Hc E. unfold cl, cr in Hc. rewrite aget_ok by (apply pos_ok; lia). cbn [bind]. eexists. split; [reflexivity|].
      replace index with (zlen (all_list r) + (c - cl r)) by lia. apply all_list_nth; auto; unfold cl, cr; lia. }
    unfold bm_elem. cbv zeta. fold (bm_size m). set (total := bm_size m) in *.
    set (nclip := B * B + B * (B + 1) / 2).
    assert (Hclip : 2 * nclip = 3 * B * B + B).
    { unfold nclip. pose proof (half_even B). lia. }
    assert (Htot : total = N * (2 * B + 1) - B * (B + 1)) by reflexivity.
    destruct (index <? nclip) eqn:E1.
    - apply Z.ltb_lt in E1. destruct (clip_loop_ok ltac:(lia) (Z.to_nat index) 0 index ltac:(lia) ltac:(lia)) as (r & c & -> & R1 & R2 & R3).
      cbn [bind]. assert (r < B) by nia. apply Fin.
      + lia.
      + unfold cl, cr. lia.
      + rewrite all_list_len by lia. unfold f1, f2. rewrite (proj2 (Z.leb_le r B)) by lia. rewrite (proj2 (Z.leb_le r (N - B))) by lia.
        unfold cl. rewrite Z.max_l by lia. nia.
    - apply Z.ltb_ge in E1. destruct (index + nclip <? total) eqn:E2.
      + apply Z.ltb_lt in E2. cbn [bind]. set (q := (index - nclip) / (2 * B + 1)). set (t := (index - nclip) mod (2 * B + 1)).
        pose proof (Z.div_mod (index - nclip) (2 * B + 1) ltac:(lia)) as DM. fold q t in DM.
        pose proof (Z.mod_pos_bound (index - nclip) (2 * B + 1) ltac:(lia)) as TB. fold t in TB.
        assert (0 <= q) by (apply Z.div_pos; lia).
        assert (q < N - 2 * B) by nia.
        apply Fin.
        * lia.
        * unfold cl, cr. lia.
        * rewrite all_list_len by lia. unfold f1, f2. rewrite (proj2 (Z.leb_le (q + B) (N - B))) by lia.
          unfold cl. rewrite Z.max_r by lia. destruct (q + B <=? B) eqn:E3; [apply Z.leb_le in E3; assert (q = 0) by lia; nia|nia].
      + apply Z.ltb_ge in E2. rewrite (proj2 (Z.ltb_lt index total)) by lia.
        destruct (clip_loop_ok ltac:(lia) (Z.to_nat (total - 1 - index)) 0 (total - 1 - index) ltac:(lia) ltac:(lia)) as (r & c & -> & R1 & R2 & R3).
        cbn [bind fst snd]. assert (r < B) by nia.
        apply Fin.
        * lia.
        * unfold cl, cr. lia.
        * rewrite all_list_len by lia. unfold f1, f2. unfold cl. rewrite Z.max_r by lia.
          destruct (N - 1 - r <=? B) eqn:E3; destruct (N - 1 - r <=? N - B) eqn:E4; rewrite ?Z.leb_le, ?Z.leb_gt in *.
          -- assert (r + 1 = B) by lia. assert (N = 2 * B) by lia. nia.
          -- assert (N - 1 - r = B) by lia. nia.
          -- assert (r + 1 = B) by lia. nia.
          -- nia.
  Qed.
  Lemma elem_range index : ~ (index < bm_size m) -> 0 <= B -> bm_elem m index = Throw \/ index < B * B + B * (B + 1) / 2.
  Proof.
    intros H HB. unfold bm_elem. cbv zeta. fold (bm_size m). destruct (index <? B * B + B * (B + 1) / 2) eqn:E1; [right; apply Z.ltb_lt; exact E1|left].
    apply Z.ltb_ge in E1. rewrite (proj2 (Z.ltb_ge _ (bm_size m))).
    - rewrite (proj2 (Z.ltb_ge index _)) by lia. reflexivity.
    - assert (0 <= B * (B + 1) / 2) by (apply Z.div_pos; nia). nia.
  Qed.
End S.
