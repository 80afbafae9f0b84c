(** Proofs for VelModel.v (C68). *)
From Verif Require Import Base RandReal RandRealProofs PolyModel PolyProofs VelModel.
From Coq Require Import Reals Lra Lia.
Local Open Scope R_scope.
(** the k-th value drawn *)
Fixpoint nthDraw {St T : Type} (draw : St -> T * St) (k : nat) (st : St) : T := match k with O => fst (draw st) | S j => nthDraw draw j (snd (draw st)) end.
(** the j-th draw is the first acceptable one, or all of the first 100 are rejected and the last one is taken *)
Definition firstGood {St T : Type} (draw : St -> T * St) (bad : T -> bool) (st : St) (j : nat) : Prop := (j < 100)%nat /\ bad (nthDraw draw j st) = false /\ forall i, (i < j)%nat -> bad (nthDraw draw i st) = true.
Definition allBad {St T : Type} (draw : St -> T * St) (bad : T -> bool) (st : St) : Prop := forall i, (i < 100)%nat -> bad (nthDraw draw i st) = true.
Lemma attempts_gen : forall {St T} (draw : St -> T * St) bad fuel num st, (0 < fuel)%nat -> (Z.of_nat fuel + num = 100)%Z -> exists j st', (j < fuel)%nat /\ (forall i, (i < j)%nat -> bad (nthDraw draw i st) = true) /\
  ((bad (nthDraw draw j st) = false /\ attempts draw bad fuel num st = (nthDraw draw j st, (num + Z.of_nat j)%Z, st')) \/
   (bad (nthDraw draw j st) = true /\ (S j = fuel) /\ attempts draw bad fuel num st = (nthDraw draw j st, 100%Z, st'))).
Proof.
  intros St T draw bad. induction fuel as [|f IH]; intros num st P E; [lia|]. cbn [attempts]. destruct (draw st) as [v st1] eqn:D.
  assert (V : nthDraw draw 0 st = v) by (simpl; rewrite D; reflexivity).
  destruct (bad v) eqn:B.
  - destruct (num + 1 <? 100)%Z eqn:C.
    + apply Z.ltb_lt in C. destruct (IH (num + 1)%Z st1 ltac:(lia) ltac:(lia)) as (j & st' & J & A & H). exists (S j), st'. split; [lia|].
      assert (N : forall i, nthDraw draw (S i) st = nthDraw draw i st1) by (intros i; simpl; rewrite D; reflexivity).
      split.
      * intros [|i] Hi; [rewrite V; exact B|]. rewrite N. apply A. lia.
      * rewrite !N. destruct H as [[H1 H2]|(H1 & H2 & H3)]; [left; split; [exact H1|]; rewrite H2; do 2 f_equal; lia|right; split; [exact H1|]; split; [lia|exact H3]].
    + apply Z.ltb_ge in C. assert (f = 0)%nat by lia. subst f. exists 0%nat, st1. split; [lia|]. split; [intros; lia|]. right. rewrite V. split; [exact B|]. split; [reflexivity|]. do 2 f_equal. lia.
  - exists 0%nat, st1. split; [lia|]. split; [intros; lia|]. left. rewrite V. split; [exact B|]. do 2 f_equal. lia.
Qed.
Lemma attempts_spec : forall {St T} (draw : St -> T * St) bad st, exists j st',
  (firstGood draw bad st j /\ attempts draw bad 100 0 st = (nthDraw draw j st, Z.of_nat j, st')) \/
  (j = 99%nat /\ allBad draw bad st /\ attempts draw bad 100 0 st = (nthDraw draw 99 st, 100%Z, st')).
Proof.
  intros St T draw bad st. destruct (attempts_gen draw bad 100 0%Z st ltac:(lia) ltac:(lia)) as (j & st' & J & A & [[H1 H2]|(H1 & H2 & H3)]); exists j, st'.
  - left. split; [repeat split; assumption|exact H2].
  - right. assert (j = 99)%nat by lia. subst j. split; [reflexivity|]. split; [|exact H3]. intros i Hi. destruct (Nat.eq_dec i 99) as [->|N]; [exact H1|apply A; lia].
Qed.
Lemma leF' x y : Rle_b x y = false -> y < x. Proof. unfold Rle_b. destruct (Rle_dec x y); [discriminate|lra]. Qed.
Lemma leT' x y : Rle_b x y = true -> x <= y. Proof. unfold Rle_b. destruct (Rle_dec x y); [tauto|discriminate]. Qed.
Lemma ltF' x y : Rlt_b x y = false -> y <= x. Proof. unfold Rlt_b. destruct (Rlt_dec x y); [discriminate|lra]. Qed.
Lemma ltT' x y : Rlt_b x y = true -> x < y. Proof. unfold Rlt_b. destruct (Rlt_dec x y); [tauto|discriminate]. Qed.
