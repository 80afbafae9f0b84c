From Coq Require Import Reals Lra Lia List Bool FunctionalExtensionality.
From Coquelicot Require Import Coquelicot.
From Verif Require Import RandReal PolyModel PolyProofs OdeModel OdeProofs OdeProofs3 OdeProofs5 OdeSpec.
Import ListNotations.
Local Open Scope R_scope.

Lemma hermite_given n eval accRel dt s : dt <> 0 -> exists s', hermiteStep n eval accRel (Given dt) s = Some (dt, s').
Proof.
  intros H. unfold hermiteStep. destruct (eval (h_time s) (h_newpos s) (h_newvel s)) as [acc jrk]. cbn [hermiteLoop]. rewrite (Req_b_f dt 0 H).
  destruct (t_next _); eexists; reflexivity.
Qed.
Lemma hermiteLoop_forward try : forall nl dt r t, 0 < dt -> (forall d, match t_next (try d) with Fin x => 0 <= x | _ => True end) ->
  hermiteLoop nl try dt = Some (r, t) -> 0 < r /\ (r = dt \/ r < dt / 2).
Proof.
  induction nl; intros dt r t Hd Hp; simpl; rewrite (Req_b_f dt 0) by lra.
  - destruct (t_next (try dt)); intros H; inversion H; subst; (split; [exact Hd|left; reflexivity]).
  - pose proof (Hp dt) as Hp0. destruct (t_next (try dt)) as [| |nx]; try (intros H; inversion H; subst; (split; [exact Hd|left; reflexivity]); fail).
    destruct (Rlt_b nx (dt * 0.5)) eqn:E; [|intros H; inversion H; subst; (split; [exact Hd|left; reflexivity])].
    apply Rlt_b_ti in E. intros H. destruct (Req_EM_T nx 0) as [->|Hn]. { destruct nl; simpl in H; rewrite (Req_b_t 0 0 eq_refl) in H; discriminate. }
    destruct (IHnl nx r t ltac:(lra) Hp H) as [A B]. split; [exact A|]. right. destruct B; lra.
Qed.
Lemma escale_pos c f x : 0 <= c -> (forall r, 0 <= f r) -> match escale c f x with Fin r => 0 <= r | _ => True end.
Proof. intros Hc Hf. destruct x; simpl; auto. { destruct (Req_b c 0); auto. } apply Rmult_le_pos; auto. Qed.
Lemma trial_next_pos n eval accRel time dt pos vel acc jrk : 0 <= accRel -> match t_next (hermiteTrial n eval accRel time dt pos vel acc jrk) with Fin r => 0 <= r | _ => True end.
Proof. intros H. unfold hermiteTrial. destruct (eval _ _ _) as [a j]. cbn [t_next]. apply escale_pos; [exact H|apply sqrt_pos]. Qed.
Lemma hermite_auto n eval accRel s r0 r s' : 0 <= accRel -> h_next s = Fin r0 -> 0 < r0 -> hermiteStep n eval accRel (Auto false) s = Some (r, s') -> 0 < r /\ (r = r0 \/ r < r0 / 2).
Proof.
  intros Ha Hn Hp. unfold hermiteStep. destruct (eval (h_time s) (h_newpos s) (h_newvel s)) as [acc jrk]. rewrite Hn.
  destruct (hermiteLoop 2 _ (r0 * 1)) as [[r' t]|] eqn:E; [|discriminate]. intros H. inversion H; subst r' s'; clear H.
  assert (Q1 : 0 < r0 * 1) by lra.
  destruct (hermiteLoop_forward _ 2 (r0 * 1) r t Q1 (fun d => trial_next_pos n eval accRel (h_time s) d (h_newpos s) (h_newvel s) acc jrk Ha) E) as [A B].
  split; [exact A|]. lra.
Qed.
Lemma hermite_backward n eval accRel s r0 : 0 <= accRel -> h_next s = Fin r0 -> 0 < r0 -> exists s', hermiteStep n eval accRel (Auto true) s = Some (- r0, s').
Proof.
  intros Ha Hn Hp. unfold hermiteStep. destruct (eval (h_time s) (h_newpos s) (h_newvel s)) as [acc jrk]. rewrite Hn.
  replace (r0 * -1) with (- r0) by ring. cbn [hermiteLoop]. rewrite (Req_b_f (- r0) 0) by lra.
  pose proof (trial_next_pos n eval accRel (h_time s) (- r0) (h_newpos s) (h_newvel s) acc jrk Ha) as P.
  destruct (t_next _) as [| |nx]; try (eexists; reflexivity). rewrite (Rlt_b_f nx (- r0 * 0.5)) by lra. eexists; reflexivity.
Qed.

(** uniform acceleration *)
Lemma hermite_uniform n (g : vec) accRel dt s : dt <> 0 -> exists s', hermiteStep n (fun _ _ _ => (g, zerov)) accRel (Given dt) s = Some (dt, s') /\
  h_next s' = NaN /\ (forall i, h_newvel s' i = h_newvel s i + dt * g i) /\ (forall i, h_newpos s' i = h_newpos s i + dt * h_newvel s i + dt * dt / 2 * g i) /\
  forall b, hermiteStep n (fun _ _ _ => (g, zerov)) accRel (Auto b) s' = None.
Proof.
  intros H. destruct (hermite_given n (fun _ _ _ => (g, zerov)) accRel dt s H) as [s' E]. exists s'. split; [exact E|].
  destruct (hermite_step_inv _ _ _ _ _ _ _ E) as (t & _ & Et & _ & _ & N & E3 & E4 & E5 & E6 & E7 & E8 & _ & _ & V & P). cbn [fst snd] in *.
  assert (Ht : t_acc t = g /\ t_jrk t = zerov) by (subst t; split; reflexivity). destruct Ht as [TA TJ].
  assert (HN : h_next s' = NaN).
  { rewrite N, Et. unfold hermiteTrial. cbn [t_next].
    assert (Z0 : forall f : nat -> R, (forall i, f i = 0) -> vsum n (fun i => f i * f i) = 0). { intros f Hf. rewrite (vsum_ext n _ (fun _ => 0)). { apply vsum_zero. } intros. rewrite Hf. ring. }
    rewrite (Z0 (fun i => - (4 * zerov i + 2 * zerov i) / dt + 6 * (g i - g i) / (dt * dt))) by (intros; unfold zerov; field; exact H).
    rewrite (Z0 zerov) by (intros; reflexivity).
    rewrite (Z0 (fun i => 6 * (zerov i + zerov i - 2 * (g i - g i) / dt) / (dt * dt))) by (intros; unfold zerov; field; exact H).
    rewrite !Rmult_0_r, sqrt_0, Rplus_0_r. unfold ediv. rewrite (Req_b_t 0 0 eq_refl). reflexivity. }
  split; [exact HN|].
  assert (V' : forall i, h_newvel s' i = h_newvel s i + dt * g i). { intros i. rewrite V, E7, E8, E4, E5, E6, TA, TJ, half_dec. unfold zerov. field. }
  split; [exact V'|]. split. { intros i. rewrite P, V', E7, E3, E4, E5, TA, half_dec. field. }
  intros b. unfold hermiteStep. rewrite HN. reflexivity.
Qed.

(** acceleration known as a polynomial of time *)
Lemma hermite_cubic n (A B C D : vec) accRel dt s s' (t0 := h_time s) :
  hermiteStep n (fun t _ _ => (fun i => A i + B i * (t - t0) + C i * (t - t0) ^ 2 + D i * (t - t0) ^ 3, fun i => B i + 2 * C i * (t - t0) + 3 * D i * (t - t0) ^ 2)) accRel (Given dt) s = Some (dt, s') ->
  forall i, h_newvel s' i = h_newvel s i + A i * dt + B i * dt ^ 2 / 2 + C i * dt ^ 3 / 3 + D i * dt ^ 4 / 4 /\
    h_newpos s' i = h_newpos s i + h_newvel s i * dt + A i * dt ^ 2 / 2 + B i * dt ^ 3 / 6 + C i * dt ^ 4 / 12 + D i * dt ^ 5 / 20 - D i * dt ^ 5 / 120.
Proof.
  intros E i. destruct (hermite_step_inv _ _ _ _ _ _ _ E) as (t & _ & Et & _ & _ & N & E3 & E4 & E5 & E6 & E7 & E8 & _ & _ & V & P). cbn [fst snd] in *.
  unfold hermiteTrial in Et. rewrite Et in E7, E8. cbn [t_acc t_jrk] in E7, E8.
  assert (V' : h_newvel s' i = h_newvel s i + A i * dt + B i * dt ^ 2 / 2 + C i * dt ^ 3 / 3 + D i * dt ^ 4 / 4).
  { rewrite V, E7, E8, E4, E5, E6, half_dec. fold t0. replace (t0 + dt - t0) with dt by ring. field. }
  split; [exact V'|]. rewrite P, V', E7, E3, E4, E5, half_dec. fold t0. replace (t0 + dt - t0) with dt by ring. field.
Qed.
