(** Functions defined by pieces on the segments of a grid: differentiability across the nodes. *)
From Coquelicot Require Import Coquelicot.
From Verif Require Import Arr BinSearchModel BinSearchSpec PropsSearch SplineModel SplineSpec SplineCons.
Local Open Scope Z_scope.

Lemma is_derive_glue (f g h : R -> R) t l d : (0 < d)%R ->
  (forall u, (t - d < u <= t)%R -> f u = g u) -> (forall u, (t <= u < t + d)%R -> f u = h u) ->
  is_derive g t l -> is_derive h t l -> is_derive f t l.
Proof.
  intros Hd A B Dg Dh. apply is_derive_Reals. apply is_derive_Reals in Dg. apply is_derive_Reals in Dh.
  intros eps He. destruct (Dg eps He) as (d1 & H1). destruct (Dh eps He) as (d2 & H2).
  assert (P : (0 < Rmin d (Rmin d1 d2))%R) by (repeat apply Rmin_pos; try assumption; [apply (cond_pos d1)|apply (cond_pos d2)]).
  exists (mkposreal _ P). intros w Nw Hw. cbn [pos] in Hw.
  pose proof (Rmin_l d (Rmin d1 d2)). pose proof (Rmin_r d (Rmin d1 d2)). pose proof (Rmin_l d1 d2). pose proof (Rmin_r d1 d2).
  destruct (Rlt_dec w 0) as [N|N].
  - rewrite Rabs_left in Hw by lra. rewrite (A (t + w)%R), (A t) by lra. apply H1; [assumption|]. rewrite Rabs_left by lra. lra.
  - rewrite Rabs_pos_eq in Hw by lra. rewrite (B (t + w)%R), (B t) by lra. apply H2; [assumption|]. rewrite Rabs_pos_eq by lra. lra.
Qed.

Section Glue.
  Variable x : arr R.
  Let n := alen x.
  Hypothesis Hx : increasing x.
  Hypothesis Hn : 1 <= n.

  Lemma inc_lt i j : 0 <= i -> i < j -> j < n -> (afn x i < afn x j)%R.
  Proof. intros. apply Hx; lia. Qed.
  Lemma inc_le i j : 0 <= i -> i <= j -> j < n -> (afn x i <= afn x j)%R.
  Proof. intros A B C. destruct (Z.eq_dec i j) as [->|]; [lra|]. left. apply Hx; lia. Qed.

  (** t belongs to the closed segment k: k=-1 is to the left of the grid, k=n-1 is to the right *)
  Definition inseg (k : Z) (t : R) : Prop := -1 <= k <= n - 1 /\ (0 <= k -> (afn x k <= t)%R) /\ (k <= n - 2 -> (t <= afn x (k + 1)%Z)%R).

  Lemma alist_len : length (alist x) = Z.to_nat n.
  Proof. unfold alist. rewrite map_length, seq_length. reflexivity. Qed.
  Lemma alist_nth i : 0 <= i < n -> nth_error (alist x) (Z.to_nat i) = Some (afn x i).
  Proof.
    intros H. unfold alist. rewrite nth_error_map. rewrite (nth_error_nth' _ O) by (rewrite seq_length; fold n; lia).
    rewrite seq_nth by (fold n; lia). cbn. rewrite Z2Nat.id by lia. reflexivity.
  Qed.
  Lemma alist_nth_inv (k : nat) v : nth_error (alist x) k = Some v -> Z.of_nat k < n /\ v = afn x (Z.of_nat k).
  Proof.
    intros H. assert (k < length (alist x))%nat by (apply nth_error_Some; congruence). rewrite alist_len in H0.
    split; [lia|]. rewrite <- (Nat2Z.id k) in H. rewrite alist_nth in H by lia. congruence.
  Qed.
  Lemma bin_inseg t : exists k, binSearchR t (alist x) = Ok k /\ inseg k t /\ (n = 1 -> k = -1 \/ k = 0) /\ (k = n - 1 -> k = 0 \/ (afn x (n - 1)%Z < t)%R) /\ (k = -1 -> (t < afn x 0)%R).
  Proof.
    assert (Sx : sorted Rle (alist x)).
    { intros i j a b Ha Hb Hij. apply alist_nth_inv in Ha, Hb. destruct Ha as [? ->], Hb as [? ->]. apply inc_le; lia. }
    destruct (C05_binSearch_real t (alist x) Sx) as (k & E & B).
    { intros a0 aN L Ha Hb. rewrite alist_len in *. change 0%nat with (Z.to_nat 0) in Ha. rewrite alist_nth in Ha by lia.
      replace (Z.to_nat n - 1)%nat with (Z.to_nat (n - 1)) in Hb by lia. rewrite alist_nth in Hb by lia.
      injection Ha as <-. injection Hb as <-. apply inc_lt; lia. }
    exists k. split; [exact E|]. unfold bin_spec, zlen in B. rewrite alist_len in B.
    destruct B as [[B _]|(a0 & aN & Ha & Hb & B)].
    { apply (f_equal (@length R)) in B. rewrite alist_len in B. cbn in B. lia. }
    change 0%nat with (Z.to_nat 0) in Ha. rewrite alist_nth in Ha by lia.
    replace (Z.to_nat n - 1)%nat with (Z.to_nat (n - 1)) in Hb by lia. rewrite alist_nth in Hb by lia.
    injection Ha as <-. injection Hb as <-. unfold inseg. unfold BinSearchSpec.lt in B.
    destruct B as [(B & ->)|[(B & ->)|[(B1 & B2 & B3 & ->)|(B1 & B2 & B3 & ak & ak1 & E1 & E2 & L1 & L2 & L3)]]].
    - repeat split; try lia; intros; try lia; try change (-1 + 1) with 0; lra.
    - replace (Z.of_nat (Z.to_nat n) - 1) with (n - 1) by lia. repeat split; try lia; intros; try lia; [lra|]. right. lra.
    - repeat split; try lia; intros; try lia. lra.
    - rewrite alist_nth in E1 by lia. replace (Z.to_nat k + 1)%nat with (Z.to_nat (k + 1)) in E2 by lia. rewrite alist_nth in E2 by lia.
      injection E1 as <-. injection E2 as <-. repeat split; try lia; intros; try assumption; lia.
  Qed.

  Definition sinseg (k : Z) (t : R) : Prop := -1 <= k <= n - 1 /\ (0 <= k -> (afn x k < t)%R) /\ (k <= n - 2 -> (t < afn x (k + 1)%Z)%R).
  Lemma sinseg_unique k j t : sinseg k t -> inseg j t -> j = k.
  Proof.
    intros (A & B & C) (A' & B' & C'). destruct (Z.lt_trichotomy j k) as [H|[H|H]]; [|exact H|]; exfalso.
    - specialize (B ltac:(lia)). specialize (C' ltac:(lia)). pose proof (inc_le (j + 1) k ltac:(lia) ltac:(lia) ltac:(lia)). lra.
    - specialize (C ltac:(lia)). specialize (B' ltac:(lia)). pose proof (inc_le (k + 1) j ltac:(lia) ltac:(lia) ltac:(lia)). lra.
  Qed.
  Lemma right_seg k t : inseg k t -> exists r d, (0 < d)%R /\ inseg r t /\ (forall u, (t < u < t + d)%R -> sinseg r u).
  Proof.
    intros (A & B & C). destruct (Z_le_gt_dec k (n - 2)) as [Hk|Hk].
    - destruct (Rlt_dec t (afn x (k + 1))) as [L|L].
      + exists k, (afn x (k + 1)%Z - t)%R. split; [lra|]. split; [repeat split; auto; lia|]. intros u Hu. repeat split; try lia; intros; [specialize (B ltac:(lia)); lra|lra].
      + specialize (C Hk). destruct (Z_le_gt_dec (k + 1) (n - 2)) as [H2|H2].
        * pose proof (inc_lt (k + 1) (k + 1 + 1) ltac:(lia) ltac:(lia) ltac:(lia)).
          exists (k + 1), (afn x (k + 1 + 1)%Z - t)%R. split; [lra|]. split; [repeat split; try lia; intros; lra|]. intros u Hu. repeat split; try lia; intros; lra.
        * exists (k + 1), 1%R. split; [lra|]. split; [repeat split; try lia; intros; try lra; lia|]. intros u Hu. repeat split; try lia; intros; try lra; lia.
    - exists k, 1%R. split; [lra|]. split; [repeat split; auto; lia|]. intros u Hu. repeat split; try lia; intros; try lia. specialize (B ltac:(lia)). lra.
  Qed.
  Lemma left_seg k t : inseg k t -> exists r d, (0 < d)%R /\ inseg r t /\ (forall u, (t - d < u < t)%R -> sinseg r u).
  Proof.
    intros (A & B & C). destruct (Z_le_gt_dec 0 k) as [Hk|Hk].
    - destruct (Rlt_dec (afn x k) t) as [L|L].
      + exists k, (t - afn x k)%R. split; [lra|]. split; [repeat split; auto; lia|]. intros u Hu. repeat split; try lia; intros; [lra|specialize (C ltac:(lia)); lra].
      + specialize (B Hk). destruct (Z_le_gt_dec 0 (k - 1)) as [H2|H2].
        * pose proof (inc_lt (k - 1) k ltac:(lia) ltac:(lia) ltac:(lia)).
          exists (k - 1), (t - afn x (k - 1)%Z)%R. replace (k - 1 + 1) with k by lia. split; [lra|].
          split; [repeat split; try lia; intros; replace (k - 1 + 1) with k by lia; lra|]. intros u Hu. repeat split; try lia; intros; replace (k - 1 + 1) with k by lia; lra.
        * exists (k - 1), 1%R. split; [lra|]. split; [repeat split; try lia; intros; try lia; replace (k - 1 + 1) with k by lia; lra|].
          intros u Hu. repeat split; try lia; intros; try lia; replace (k - 1 + 1) with k by lia; lra.
    - exists k, 1%R. split; [lra|]. split; [repeat split; auto; lia|]. intros u Hu. repeat split; try lia; intros; try lia. specialize (C ltac:(lia)). lra.
  Qed.
  (** pieces that match at the nodes *)
  Definition match_at (G : Z -> R -> R) (t : R) : Prop := forall i, 0 <= i < n -> t = afn x i -> G (i - 1) t = G i t.
  Lemma agree G t j k : match_at G t -> inseg j t -> inseg k t -> G j t = G k t.
  Proof.
    intros M. assert (W : forall a b, inseg a t -> inseg b t -> a < b -> G a t = G b t).
    { intros a b (A1 & B1 & C1) (A2 & B2 & C2) L. specialize (C1 ltac:(lia)). specialize (B2 ltac:(lia)).
      destruct (Z.eq_dec (a + 1) b) as [<-|N].
      - replace a with (a + 1 - 1) at 1 by lia. apply M; [lia|lra].
      - pose proof (inc_lt (a + 1) b ltac:(lia) ltac:(lia) ltac:(lia)). lra. }
    intros Hj Hk. destruct (Z.lt_trichotomy j k) as [H|[->|H]]; [apply W; assumption|reflexivity|symmetry; apply W; assumption].
  Qed.
  Definition pieced (F : R -> R) (G : Z -> R -> R) : Prop := forall t, exists k, inseg k t /\ F t = G k t.
  Lemma pieced_at F G k t : pieced F G -> match_at G t -> inseg k t -> F t = G k t.
  Proof. intros P M H. destruct (P t) as (j & Hj & ->). apply agree; assumption. Qed.

  Lemma glue_at F F1 P P1 t : pieced F P -> pieced F1 P1 -> match_at P t -> match_at P1 t ->
    (forall k, -1 <= k <= n - 1 -> is_derive (P k) t (P1 k t)) -> is_derive F t (F1 t).
  Proof.
    intros HF HF1 M M1 D. destruct (HF1 t) as (k & Hk & ->).
    destruct (right_seg k t Hk) as (r & dr & Pr & Ir & Sr). destruct (left_seg k t Hk) as (l & dl & Pl & Il & Sl).
    assert (Pd : (0 < Rmin dl dr)%R) by (apply Rmin_pos; assumption). pose proof (Rmin_l dl dr). pose proof (Rmin_r dl dr).
    assert (At : forall j, inseg j t -> F t = P j t) by (intros j Hj; apply pieced_at; assumption).
    apply (is_derive_glue F (P l) (P r) t _ _ Pd).
    - intros u Hu. destruct (Req_dec u t) as [->|N]; [apply At; exact Il|]. destruct (HF u) as (j & Hj & ->).
      rewrite (sinseg_unique l j u); [reflexivity|apply Sl; lra|exact Hj].
    - intros u Hu. destruct (Req_dec u t) as [->|N]; [apply At; exact Ir|]. destruct (HF u) as (j & Hj & ->).
      rewrite (sinseg_unique r j u); [reflexivity|apply Sr; lra|exact Hj].
    - rewrite (agree P1 t k l M1 Hk Il). apply D. apply Il.
    - rewrite (agree P1 t k r M1 Hk Ir). apply D. apply Ir.
  Qed.
  Lemma cont_at F P t : pieced F P -> match_at P t -> (forall k, -1 <= k <= n - 1 -> continuity_pt (P k) t) -> continuity_pt F t.
  Proof.
    intros HF M D. destruct (HF t) as (k & Hk & _).
    destruct (right_seg k t Hk) as (r & dr & Pr & Ir & Sr). destruct (left_seg k t Hk) as (l & dl & Pl & Il & Sl).
    assert (At : forall j, inseg j t -> F t = P j t) by (intros j Hj; apply pieced_at; assumption).
    intros eps He. destruct (D l (proj1 Il) eps He) as (d1 & H1 & K1). destruct (D r (proj1 Ir) eps He) as (d2 & H2 & K2).
    exists (Rmin (Rmin dl dr) (Rmin d1 d2)). split; [repeat apply Rmin_pos; assumption|].
    intros u [Hu Du]. cbn in *. unfold R_dist in *.
    pose proof (Rmin_l (Rmin dl dr) (Rmin d1 d2)). pose proof (Rmin_r (Rmin dl dr) (Rmin d1 d2)). pose proof (Rmin_l dl dr). pose proof (Rmin_r dl dr). pose proof (Rmin_l d1 d2). pose proof (Rmin_r d1 d2).
    destruct (HF u) as (j & Hj & ->). destruct (Rlt_dec u t) as [L|L].
    - assert (Sj : sinseg l u) by (apply Sl; rewrite Rabs_left in Du by lra; lra). rewrite (sinseg_unique l j u Sj Hj). rewrite (At l Il). apply K1. split; [exact Hu|lra].
    - destruct (Req_dec u t) as [->|N]; [rewrite (At j Hj), Rminus_diag_eq, Rabs_R0 by reflexivity; exact He|].
      assert (Sj : sinseg r u) by (apply Sr; rewrite Rabs_pos_eq in Du by lra; lra). rewrite (sinseg_unique r j u Sj Hj). rewrite (At r Ir). apply K2. split; [exact Hu|lra].
  Qed.
  Lemma not_node_match G t : ~ is_node x t -> match_at G t.
  Proof. intros N i Hi E. exfalso. apply N. exists i. auto. Qed.
  Lemma node_seg i : 0 <= i < n -> inseg i (afn x i) /\ inseg (i - 1) (afn x i).
  Proof. intros Hi. split; repeat split; try lia; intros; try lra; [left; apply inc_lt; lia| left; apply inc_lt; lia|replace (i - 1 + 1) with i by lia; lra]. Qed.
End Glue.
