(** Sampling times of Raga in IEEE binary64 arithmetic (round to nearest) *)
From Coq Require Import List Arith Bool Reals Lra Lia ZArith.
From Verif Require Import FloatBase.
Import ListNotations.

(** episodeLength / params.numSamplesPerEpisode, raga_potential.cpp:40, raga_relaxation.cpp:318 *)
Definition sampleInterval (len : double) (n : nat) : double := fdiv len (fofZ (Z.of_nat n)).
(** the loop in raga_potential.cpp:13-17, raga_relaxation.cpp:19-25, counting the stored samples: k of n are already stored *)
Fixpoint countLoopF (rem : nat) (dt tbegin tend : double) (k : nat) : nat :=
  match rem with
  | O => k
  | S r => let t := fmul dt (fofZ (Z.of_nat (k + 1))) in if andb (Bltb tbegin t) (Bleb t tend) then countLoopF r dt tbegin tend (S k) else k
  end.
(** contiguous timesteps: ends of the steps *)
Fixpoint countRunF (n : nat) (dt t : double) (ends : list double) (k : nat) : nat :=
  match ends with [] => k | te :: r => countRunF n dt te r (countLoopF (n - k) dt t te k) end.

Definition lastSample : double := fmul (sampleInterval (fofZ 100) 11) (fofZ 11).
Lemma lastSample_late te : is_finite te = true -> (B2R te <= 100)%R -> Bleb lastSample te = false.
Proof.
  intros F H. destruct (fofZ_correct 100) as [E FE]; [cbn; lia|].
  assert (L : Bltb (fofZ 100) lastSample = true) by (vm_compute; reflexivity).
  assert (FL : is_finite lastSample = true) by (vm_compute; reflexivity).
  rewrite Bltb_correct in L by assumption. rewrite E in L.
  rewrite Bleb_correct by assumption. apply Rle_bool_false. destruct (Rlt_bool_spec (IZR 100) (B2R lastSample)) as [Q|Q]; [|discriminate]. lra.
Qed.
Lemma countLoopF_late : forall rem t te k, (k + rem = 11)%nat -> (k < 11)%nat -> is_finite te = true -> (B2R te <= 100)%R ->
  (countLoopF rem (sampleInterval (fofZ 100) 11) t te k < 11)%nat.
Proof.
  induction rem as [|r IH]; intros t te k E K F H; cbn [countLoopF]; [exact K|]. cbv zeta.
  destruct (Nat.eq_dec k 10) as [->|N].
  - change (fmul (sampleInterval (fofZ 100) 11) (fofZ (Z.of_nat (10 + 1)))) with lastSample. rewrite lastSample_late by assumption. rewrite Bool.andb_false_r. exact K.
  - destruct (andb _ _); [|exact K]. apply IH; [lia|lia|exact F|exact H].
Qed.
Lemma countRunF_late : forall ends t k, (k < 11)%nat -> (forall te, In te ends -> is_finite te = true /\ (B2R te <= 100)%R) ->
  (countRunF 11 (sampleInterval (fofZ 100) 11) t ends k < 11)%nat.
Proof.
  induction ends as [|te r IH]; intros t k K H; cbn [countRunF]; [exact K|]. apply IH; [|intros; apply H; right; assumption].
  destruct (H te (or_introl eq_refl)) as [F L]. apply countLoopF_late; [lia|exact K|exact F|exact L].
Qed.
