From Coq Require Import Reals Lra Lia Bool List Arith Psatz.
From Verif Require Import RandReal PolyModel PolyProofs CoordModel DiskModel RagaModel RagaSpec RagaProofs.
Import ListNotations.
Local Open Scope R_scope.

(** ** output schedule *)
Lemma outputs_gap I : forall calls p l1 a b l2, outputs I (Some p) calls = l1 ++ a :: b :: l2 -> a + I * 0.999999 <= b.
Proof.
  assert (Hfirst : forall calls p b l2, outputs I (Some p) calls = b :: l2 -> p + I * 0.999999 <= b).
  { induction calls as [|t r IH]; intros p b l2 H; [discriminate|]. cbn [outputs] in H. destruct (Rle_dec (p + I * 0.999999) t) as [L|L].
    - rewrite out_some in H by exact L. injection H as E _. subst. exact L.
    - rewrite out_none in H by lra. eapply IH. exact H. }
  induction calls as [|t r IH]; intros p l1 a b l2 H; [destruct l1; discriminate|]. cbn [outputs] in H.
  destruct (Rle_dec (p + I * 0.999999) t) as [L|L].
  - rewrite out_some in H by exact L. destruct l1 as [|y l1].
    + injection H as E H. subst. eapply Hfirst. exact H.
    + injection H as _ H. eapply IH. exact H.
  - rewrite out_none in H by lra. eapply IH. exact H.
Qed.
Fixpoint nondecr (t : R) (l : list R) : Prop := match l with [] => True | x :: r => t <= x /\ nondecr x r end.
Lemma outputs_cover I : forall calls p q, p <= q -> nondecr q calls ->
  forall t, In t calls -> exists s, (s = p \/ In s (outputs I (Some p) calls)) /\ s <= t /\ (s = t \/ t < s + I * 0.999999).
Proof.
  induction calls as [|u r IH]; intros p q Hp Hn t Ht; [destruct Ht|]. destruct Hn as [Hu Hn]. cbn [outputs].
  destruct (Rle_dec (p + I * 0.999999) u) as [L|L].
  - rewrite out_some by exact L. destruct Ht as [->|Ht].
    + exists t. split; [right; left; reflexivity|]. split; [lra|left; reflexivity].
    + destruct (IH u u (Rle_refl u) Hn t Ht) as (s & [Hs|Hs] & H2); exists s.
      * subst s. split; [right; left; reflexivity|exact H2].
      * split; [right; right; exact Hs|exact H2].
  - rewrite out_none by lra. destruct Ht as [->|Ht].
    + exists p. split; [left; reflexivity|]. split; [lra|right; lra].
    + apply (IH p u); [lra|exact Hn|exact Ht].
Qed.

Lemma outputs_equal (k : nat) L : 0 < L -> (1 <= k)%nat -> INR k < 1000000 -> forall n i tb, (i < k)%nat ->
  outputs (INR k * L) (Some (tb - INR i * L)) (episodeCalls n L tb) = map (fun j => tb + (INR (k * (j + 1)) - INR i) * L) (seq 0 ((n + i) / k)).
Proof.
  intros HL Hk HkR n. induction n as [|n IH]; intros i tb Hi.
  - cbn [episodeCalls outputs Nat.add]. rewrite Nat.div_small by exact Hi. reflexivity.
  - cbn [episodeCalls outputs].
    assert (Hik : INR i <= INR k - 1) by (replace (INR k - 1) with (INR (k - 1)) by (rewrite minus_INR by lia; reflexivity); apply le_INR; lia).
    assert (HiR : 0 <= INR i) by apply pos_INR.
    rewrite out_none.
    2:{ assert (0 < (INR k * 0.999999 - INR i) * L); [apply Rmult_lt_0_compat; lra|lra]. }
    destruct (Nat.eq_dec (i + 1) k) as [E|E].
    + rewrite out_some.
      2:{ assert (Ei : INR i = INR k - 1) by (replace i with (k - 1)%nat by lia; rewrite minus_INR by lia; reflexivity). rewrite Ei.
          assert (0 <= INR k * L * (1 - 0.999999)); [|lra]. apply Rmult_le_pos; [apply Rmult_le_pos; lra|lra]. }
      replace (S n + i)%nat with (n + 0 + 1 * k)%nat by lia. rewrite Nat.div_add by lia. rewrite Nat.add_1_r. cbn [seq map].
      assert (Ei : INR (k * (0 + 1)) - INR i = 1) by (replace (k * (0 + 1))%nat with (i + 1)%nat by lia; rewrite plus_INR; cbn; ring).
      rewrite Ei, Rmult_1_l. f_equal. specialize (IH 0%nat (tb + L)). cbn [INR] in IH. rewrite Rmult_0_l, Rminus_0_r in IH. rewrite IH by lia.
      rewrite <- seq_shift, map_map. apply map_ext. intros j. replace (k * (S j + 1))%nat with (k * (j + 1) + (i + 1))%nat by nia. rewrite !plus_INR. cbn [INR]. ring.
    + rewrite out_none.
      2:{ assert (Hik2 : INR i <= INR k - 2).
          { replace (INR k - 2) with (INR (k - 2)) by (rewrite minus_INR by lia; cbn; ring). apply le_INR. lia. }
          assert (0 < (INR k * 0.999999 - INR i - 1) * L) by (apply Rmult_lt_0_compat; lra). lra. }
      replace (tb - INR i * L) with (tb + L - INR (i + 1) * L) by (rewrite plus_INR; cbn; ring).
      rewrite IH by lia. replace (n + (i + 1))%nat with (S n + i)%nat by lia. apply map_ext. intros j. rewrite plus_INR. cbn [INR]. ring.
Qed.
Lemma outputs_multiple (k : nat) L n t0 : 0 < L -> (1 <= k)%nat -> INR k < 1000000 -> (1 <= n)%nat ->
  outputs (INR k * L) None (episodeCalls n L t0) = map (fun j => t0 + INR (k * j) * L) (seq 0 (n / k + 1)).
Proof.
  intros HL Hk HkR Hn. destruct n as [|n]; [lia|]. cbn [episodeCalls outputs]. change (outputAt (INR k * L) None t0) with (Some t0, true). cbn iota beta.
  pose proof (outputs_equal k L HL Hk HkR (S n) 0 t0 ltac:(lia)) as H. cbn [INR] in H. rewrite Rmult_0_l, Rminus_0_r in H.
  cbn [episodeCalls] in H. change (outputs (INR k * L) (Some t0) (t0 :: ?r)) with (let '(p, w) := outputAt (INR k * L) (Some t0) t0 in if w then t0 :: outputs (INR k * L) p r else outputs (INR k * L) p r) in H.
  cbn [outputs] in H. rewrite (out_none (INR k * L) t0 t0) in H.
  2:{ assert (1 <= INR k) by (apply (le_INR 1); lia). assert (0 < INR k * L) by (apply Rmult_lt_0_compat; lra). lra. }
  cbn [outputs]. rewrite H. rewrite Nat.add_1_r. cbn [seq map]. rewrite Nat.mul_0_r. cbn [INR]. f_equal; [ring|].
  rewrite Nat.add_0_r. rewrite <- seq_shift, map_map. apply map_ext. intros j. rewrite Rminus_0_r, Nat.add_1_r. reflexivity.
Qed.
Lemma outputs_zero : forall n L t0, 0 < L -> outputs 0 None (episodeCalls n L t0) = episodeCalls n L t0.
Proof.
  assert (H : forall n L tb p, 0 < L -> p <= tb -> outputs 0 (Some p) (episodeCalls n L tb) = episodeCalls n L tb).
  { induction n as [|n IH]; intros L tb p HL Hp; [reflexivity|]. cbn [episodeCalls outputs]. rewrite out_some by lra. f_equal.
    cbn [outputs]. rewrite out_some by lra. f_equal. apply IH; lra. }
  intros [|n] L t0 HL; [reflexivity|]. cbn [episodeCalls outputs]. change (outputAt 0 None t0) with (Some t0, true). cbn iota beta. f_equal.
  cbn [outputs]. rewrite out_some by lra. f_equal. apply H; lra.
Qed.

(** ** capture radii *)
Lemma mpow_third x : 0 <= x -> cubeRootOf x (mpow x (1 / 3)).
Proof.
  intros H. unfold mpow. rewrite !Req_b_f by lra. destruct (Req_EM_T x 0) as [->|N].
  - rewrite Req_b_t by reflexivity. split; [lra|ring].
  - rewrite Req_b_f by exact N. split; [left; unfold Rpower; apply exp_pos|].
    rewrite <- Rpower_pow by (unfold Rpower; apply exp_pos). rewrite Rpower_mult. replace (1 / 3 * INR 3) with 1 by (cbn; field). apply Rpower_1. lra.
Qed.
Lemma capture_single bh c rs ms : bsma bh = 0 -> bq bh = 0 -> 0 <= bmass bh -> 0 < ms ->
  isCaptureRadius c (bmass bh) rs ms (fst (captureRadii bh c rs ms)).
Proof.
  intros Hs Hq HM Hm. unfold captureRadii. rewrite Req_b_t by exact Hs. cbn [fst]. rewrite Hq.
  replace (bmass bh / (1 + 0)) with (bmass bh) by field. exists (mpow (bmass bh / ms) (1 / 3)). split.
  - apply mpow_third. unfold Rdiv. apply Rmult_le_pos; [exact HM|]. left. apply Rinv_0_lt_compat. exact Hm.
  - unfold captureGR. destruct c as [c|]; [|reflexivity]. unfold pow_2. do 2 f_equal. ring.
Qed.
Lemma cube_inj y z : 0 <= y -> 0 <= z -> y ^ 3 = z ^ 3 -> y = z.
Proof. intros Hy Hz H. destruct (Rtotal_order y z) as [L|[E|L]]; [exfalso|exact E|exfalso]; assert (E : (z - y) * (z * z + z * y + y * y) = z ^ 3 - y ^ 3) by ring; rewrite H, Rminus_eq_0 in E; apply Rmult_integral in E; nra. Qed.
Lemma captureRadius_unique c M rs ms x y : isCaptureRadius c M rs ms x -> isCaptureRadius c M rs ms y -> x = y.
Proof. intros (a & [A1 A2] & ->) (b & [B1 B2] & ->). replace b with a; [reflexivity|]. apply cube_inj; congruence. Qed.
Lemma capture_binary bh c rs ms : 0 < bsma bh -> 0 < bq bh -> 0 < bmass bh -> 0 < ms -> 0 <= rs ->
  isCaptureRadius c (bmass bh) rs ms (fst (captureRadii bh c rs ms)) /\ snd (captureRadii bh c rs ms) = 0.
Proof.
  intros Hs Hq HM Hm Hr. unfold captureRadii. rewrite Req_b_f by lra. cbn [fst snd]. split.
  - exists (mpow (bmass bh / ms) (1 / 3)). split.
    + apply mpow_third. unfold Rdiv. apply Rmult_le_pos; [lra|]. left. apply Rinv_0_lt_compat. exact Hm.
    + unfold captureGR. destruct c as [c|]; [|reflexivity]. unfold pow_2. do 2 f_equal. ring.
  - destruct (mpow_third (0 / ms)) as [P1 P2]; [unfold Rdiv; rewrite Rmult_0_l; lra|].
    assert (E : mpow (0 / ms) (1 / 3) = 0). { apply cube_inj; [exact P1|lra|]. rewrite P2. unfold Rdiv. ring. }
    rewrite E, Rmult_0_r. unfold captureGR. destruct c as [c|]; [|apply Rmax_left; lra]. unfold Rdiv. rewrite !Rmult_0_r, Rmult_0_l. apply Rmax_left. lra.
Qed.

(** ** detection of captures *)
Lemma last_cons {A} : forall (pre : list A) te t, last (te :: pre) t = last pre te.
Proof.
  induction pre as [|x pre IH]; intros te t; [reflexivity|]. change (last (te :: x :: pre) t) with (last (x :: pre) t). rewrite (IH x t), (IH x te). reflexivity.
Qed.
Section L.
  Variable pf : nat -> R -> R.
  Variable root : nat -> R -> R -> option R.
  Variable dist : nat -> R -> R.
  Variable rad : nat -> R.
  Definition periTime b t1 t2 := match root b t1 t2 with Some t => t | None => t1 end.
  Definition captureIn b t1 t2 := passage (pf b) t1 t2 /\ dist b (periTime b t1 t2) <= rad b.
  Definition theCapture b t1 t2 := mkCapt (periTime b t1 t2) (dist b (periTime b t1 t2)) (rad b) b.
  Lemma lossLoop_spec t1 t2 : forall bs drdt, NoDup bs -> (forall b, In b bs -> t1 = 0 \/ drdt b = pf b t1) ->
    match lossLoop pf root dist rad bs t1 t2 drdt with
    | (d, None) => (forall b, In b bs -> ~ captureIn b t1 t2 /\ d b = pf b t2) /\ (forall b, ~ In b bs -> d b = drdt b)
    | (_, Some c) => exists l1 b l2, bs = l1 ++ b :: l2 /\ (forall b', In b' l1 -> ~ captureIn b' t1 t2) /\ captureIn b t1 t2 /\ c = theCapture b t1 t2
    end.
  Proof.
    induction bs as [|b bs IH]; intros drdt HN HP; cbn [lossLoop].
    - split; [intros b []|reflexivity].
    - inversion HN as [|? ? HN1 HN2]. subst.
      assert (EP : (if Req_b t1 0 then pf b t1 else drdt b) = pf b t1).
      { destruct (Req_EM_T t1 0) as [E|E]; [rewrite Req_b_t by exact E; reflexivity|]. rewrite Req_b_f by exact E. destruct (HP b (or_introl eq_refl)); [contradiction|assumption]. }
      rewrite EP. set (d' := fun i => if Nat.eqb i b then pf b t2 else drdt i).
      assert (Hd : forall b', In b' bs -> t1 = 0 \/ d' b' = pf b' t1).
      { intros b' Hb'. unfold d'. destruct (Nat.eqb_spec b' b) as [->|_]; [contradiction|]. apply HP. right. exact Hb'. }
      assert (Hcont : ~ captureIn b t1 t2 -> match lossLoop pf root dist rad bs t1 t2 d' with
        | (d, None) => (forall b0, In b0 (b :: bs) -> ~ captureIn b0 t1 t2 /\ d b0 = pf b0 t2) /\ (forall b0, ~ In b0 (b :: bs) -> d b0 = drdt b0)
        | (_, Some c) => exists l1 b1 l2, b :: bs = l1 ++ b1 :: l2 /\ (forall b', In b' l1 -> ~ captureIn b' t1 t2) /\ captureIn b1 t1 t2 /\ c = theCapture b1 t1 t2
        end).
      { intros HC. specialize (IH d' HN2 Hd). destruct (lossLoop pf root dist rad bs t1 t2 d') as [d [c|]].
        - destruct IH as (l1 & b1 & l2 & E1 & E2 & E3 & E4). exists (b :: l1), b1, l2. split; [cbn; rewrite E1; reflexivity|]. split; [|split; assumption].
          intros b' [<-|Hb']; [exact HC|apply E2; exact Hb'].
        - destruct IH as [I1 I2]. split.
          + intros b0 [<-|Hb0]; [|apply I1; exact Hb0]. split; [exact HC|]. rewrite I2 by exact HN1. unfold d'. rewrite Nat.eqb_refl. reflexivity.
          + intros b0 Hb0. rewrite I2 by (intro; apply Hb0; right; assumption). unfold d'. destruct (Nat.eqb_spec b0 b) as [->|_]; [exfalso; apply Hb0; left; reflexivity|reflexivity]. }
      destruct (Rle_dec (pf b t1) 0) as [P1|P1]; [rewrite Rle_b_t by exact P1|rewrite Rle_b_f by lra; cbn [andb negb]; apply Hcont; intros [[Q1 Q2] Q3]; lra].
      destruct (Rlt_dec 0 (pf b t2)) as [P2|P2]; [rewrite Rlt_b_t by exact P2|rewrite Rlt_b_f by lra; cbn [andb negb]; apply Hcont; intros [[Q1 Q2] Q3]; lra].
      cbn [andb negb]. fold (periTime b t1 t2). destruct (Rlt_dec (rad b) (dist b (periTime b t1 t2))) as [P3|P3].
      + rewrite Rlt_b_t by exact P3. apply Hcont. intros [_ Q]. lra.
      + rewrite Rlt_b_f by lra. exists [], b, bs. split; [reflexivity|]. split; [intros b' []|]. split; [split; [split; assumption|lra]|reflexivity].
  Qed.
  Definition holes (binary : bool) : list nat := if binary then [0; 1]%nat else [0%nat].
  Lemma holes_nodup binary : NoDup (holes binary).
  Proof. destruct binary; cbn; repeat constructor; cbn; intuition discriminate. Qed.
  (** no capture in the contiguous steps *)
  Fixpoint noCapture (binary : bool) (t : R) (ends : list R) : Prop :=
    match ends with [] => True | te :: r => (forall b, In b (holes binary) -> ~ captureIn b t te) /\ noCapture binary te r end.
  Fixpoint incr (t : R) (l : list R) : Prop := match l with [] => True | x :: r => t < x /\ incr x r end.
  Lemma lossRun_spec binary : forall ends t drdt, 0 <= t -> incr t ends -> (forall b, In b (holes binary) -> t = 0 \/ drdt b = pf b t) ->
    match lossRun pf root dist rad binary t ends drdt with
    | None => noCapture binary t ends
    | Some c => exists pre te post b, ends = pre ++ te :: post /\ noCapture binary t pre /\ In b (holes binary) /\
        captureIn b (last pre t) te /\ c = theCapture b (last pre t) te /\ (b = 1%nat -> ~ captureIn 0 (last pre t) te)
    end.
  Proof.
    induction ends as [|te r IH]; intros t drdt Ht HI HP; cbn [lossRun]; [exact Logic.I|]. destruct HI as [HI1 HI2].
    unfold lossStep. pose proof (lossLoop_spec t te (holes binary) drdt (holes_nodup binary) HP) as H. fold (holes binary).
    destruct (lossLoop pf root dist rad (holes binary) t te drdt) as [d [c|]].
    - destruct H as (l1 & b & l2 & E1 & E2 & E3 & E4). exists [], te, r, b. cbn [app last]. split; [reflexivity|]. split; [exact Logic.I|].
      split; [rewrite E1; apply in_or_app; right; left; reflexivity|]. split; [exact E3|]. split; [exact E4|]. intros ->. apply E2.
      destruct binary; cbn in E1; destruct l1 as [|x l1]; cbn in E1; try discriminate; injection E1 as F1 F2; subst; try discriminate; left; reflexivity.
    - destruct H as [H1 H2]. specialize (IH te d ltac:(lra) HI2). destruct (lossRun pf root dist rad binary te r d) as [c|].
      + destruct IH as (pre & te' & post & b & E1 & E2 & E3 & E4); [intros b Hb; right; apply H1; exact Hb|].
        exists (te :: pre), te', post, b. split; [cbn; rewrite E1; reflexivity|]. split; [split; [intros b' Hb'; apply H1; exact Hb'|exact E2]|].
        split; [exact E3|]. replace (last (te :: pre) t) with (last pre te); [exact E4|]. symmetry. apply last_cons.
      + split; [intros b Hb; apply H1; exact Hb|]. apply IH. intros b Hb. right. apply H1. exact Hb.
  Qed.
End L.
