From Coq Require Import List Bool Arith Lia.
From Verif Require Import Base CtrlBreakModel CtrlBreakSpec.

(** relation between the state and the observer's view *)
Definition stack_ok (o d : nat) (st : list (option nat)) : Prop :=
  match d with 0 => st = [] | S n => st = repeat None n ++ [Some o] end.
Definition top_handler (v : view) : option nat :=
  match depth v, ph v with 0, _ => Some (outer v) | 1, InDtor => Some (outer v) | _, _ => None end.
Definition matches (s : cb_state) (v : view) : Prop :=
  stack_ok (outer v) (depth v) (stack s) /\ handler s = top_handler v /\
  (0 < depth v \/ ph v = InCtor -> flag s = seen v) /\ delivered s = outside v.

Lemma step_matches s v e v' : matches s v -> allowed v e v' -> exists s', cb_step s e = Ok s' /\ matches s' v'.
Proof.
  intros (A & B & C & D) H. destruct s as [f st h dl]. cbn in *. inversion H; subst; cbn in *.
  - (* clear *) eexists. split; [reflexivity|]. unfold matches, top_handler in *. destruct d as [|d]; cbn in *; subst; cbn; [repeat split; auto|].
    destruct (repeat None d ++ [Some o]) eqn:E; [destruct d; discriminate|]. cbn. rewrite <- E. repeat split; auto. intros _. apply C. left. lia.
  - eexists. split; [reflexivity|]. unfold matches, top_handler in *. cbn in *. destruct d; cbn in *; subst; repeat split; auto. destruct d; reflexivity.
  - destruct d; cbn in A; subst; cbn; eexists; (split; [reflexivity|]); unfold matches, top_handler in *; cbn in *; repeat split; auto; intros _; apply C; left; lia.
  - destruct d; cbn in A; subst; cbn; eexists; (split; [reflexivity|]); unfold matches, top_handler in *; cbn in *; auto.
    + split; [reflexivity|]. split; [reflexivity|]. split; [|reflexivity]. intros [G|G]; [lia|discriminate].
    + split; [reflexivity|]. split; [destruct d; reflexivity|]. split; [|reflexivity]. intros _. apply C. left. lia.
  - eexists. split; [reflexivity|]. unfold matches, top_handler in *. cbn in *. repeat split; auto.
  - unfold matches, top_handler in *. cbn in *. destruct d as [|[|d]]; [|destruct p|]; cbn in *; subst; cbn; eexists; (split; [reflexivity|]); cbn; repeat split; auto.
Qed.
Lemma run_matches s v l v' : matches s v -> history v l v' -> exists s', cb_run s l = Ok s' /\ matches s' v'.
Proof.
  intros M H. revert s M. induction H as [v|v e v1 l v2 A _ IH]; intros s M; cbn [cb_run]; [eauto|].
  destruct (step_matches _ _ _ _ M A) as (s1 & E & M1). rewrite E. cbn [bind]. apply IH. exact M1.
Qed.
