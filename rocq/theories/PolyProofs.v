From Coq Require Import Sorting.Sorted Permutation Nsatz.
From Verif Require Import PolyModel.
Local Open Scope R_scope.

Lemma Req_b_t x y : x = y -> Req_b x y = true. Proof. intros. unfold Req_b. destruct (Req_EM_T x y); congruence. Qed.
Lemma Req_b_f x y : x <> y -> Req_b x y = false. Proof. intros. unfold Req_b. destruct (Req_EM_T x y); congruence. Qed.
Lemma Rlt_b_t x y : x < y -> Rlt_b x y = true. Proof. intros. unfold Rlt_b. destruct (Rlt_dec x y); lra. Qed.
Lemma Rlt_b_f x y : y <= x -> Rlt_b x y = false. Proof. intros. unfold Rlt_b. destruct (Rlt_dec x y); lra. Qed.
Lemma Rle_b_t x y : x <= y -> Rle_b x y = true. Proof. intros. unfold Rle_b. destruct (Rle_dec x y); lra. Qed.
Lemma Rle_b_f x y : y < x -> Rle_b x y = false. Proof. intros. unfold Rle_b. destruct (Rle_dec x y); lra. Qed.
Lemma Rle_b_spec x y : Rle_b x y = true <-> x <= y. Proof. unfold Rle_b. destruct (Rle_dec x y); split; intros; try congruence; lra. Qed.
Lemma deps_pos : 0 < deps. Proof. unfold deps. apply Rinv_0_lt_compat. lra. Qed.

Ltac rb := repeat match goal with
  | |- context [Rlt_b ?x ?y] => unfold Rlt_b; destruct (Rlt_dec x y)
  | |- context [Rle_b ?x ?y] => unfold Rle_b; destruct (Rle_dec x y)
  | |- context [Req_b ?x ?y] => unfold Req_b; destruct (Req_EM_T x y) end.

(* -------- linear / quadratic -------- *)
Lemma solveLinear_ok a1 a0 : (a1 <> 0 \/ a0 <> 0) -> StronglySorted Rlt (solveLinear a1 a0) /\ forall x, In x (solveLinear a1 a0) <-> a1 * x + a0 = 0.
Proof.
  intros N. unfold solveLinear. unfold Req_b.
  destruct (Req_EM_T a1 0) as [E|E]; destruct (Req_EM_T a0 0) as [F|F]; cbn [andb negb].
  - exfalso. destruct N; contradiction.
  - split; [constructor|]. intros x. split; [intros []|]. rewrite E. intros. exfalso. apply F. lra.
  - split; [repeat constructor|]. intros x. cbn. split; [intros [<-|[]]; field; lra|]. intros H. left. subst a0. field_simplify_eq; [|lra].
    assert (K : a1 * x = 0) by lra. apply Rmult_integral in K. destruct K; lra.
  - split; [repeat constructor|]. intros x. cbn. split; [intros [<-|[]]; field; lra|]. intros H. left. apply Rmult_eq_reg_l with a1; [|lra]. field_simplify; lra.
Qed.

Lemma quad_factor a2 a1 a0 r1 r2 : a2 <> 0 -> a2 * (r1 + r2) = - a1 -> a2 * (r1 * r2) = a0 ->
  forall x, a2 * (x * x) + a1 * x + a0 = 0 <-> x = r1 \/ x = r2.
Proof.
  intros N S P x. split.
  - intros H. assert (K : a2 * ((x - r1) * (x - r2)) = 0) by nsatz. apply Rmult_integral in K. destruct K as [K|K]; [contradiction|].
    apply Rmult_integral in K. destruct K; [left|right]; lra.
  - intros [-> | ->]; nsatz.
Qed.

Lemma solveQuadratic_ok a2 a1 a0 : (a2 <> 0 \/ a1 <> 0 \/ a0 <> 0) ->
  StronglySorted Rlt (solveQuadratic a2 a1 a0) /\ forall x, In x (solveQuadratic a2 a1 a0) <-> a2 * (x * x) + a1 * x + a0 = 0.
Proof.
  intros N. unfold solveQuadratic. destruct (Req_EM_T a2 0) as [E|E]; [rewrite (Req_b_t a2 0 E)|rewrite (Req_b_f a2 0 E)].
  { subst a2. destruct (solveLinear_ok a1 a0) as [A B]; [destruct N as [N|N]; [contradiction|exact N]|]. split; [exact A|].
    intros x. rewrite B. split; intros; lra. }
  cbv zeta. set (d := a1 * a1 - 4 * a0 * a2). destruct (Rle_dec 0 d) as [D|D]; [rewrite (Rle_b_t 0 d D)|rewrite (Rle_b_f 0 d) by lra]; cbn [negb].
  2:{ split; [constructor|]. intros x. split; [intros []|]. intros H. exfalso. apply D.
      replace d with ((2 * a2 * x + a1) * (2 * a2 * x + a1)) by (unfold d; nsatz). apply Rle_0_sqr. }
  destruct (Req_EM_T d 0) as [D0|D0]; [rewrite (Req_b_t d 0 D0)|rewrite (Req_b_f d 0 D0)].
  { split; [repeat constructor|]. intros x.
    assert (F := quad_factor a2 a1 a0 (- (1 / 2) * a1 / a2) (- (1 / 2) * a1 / a2) E).
    assert (A0 : a0 = a1 * a1 / (4 * a2)). { unfold d in D0. field_simplify_eq; lra. }
    rewrite F; [cbn; intuition (auto; lra)|field; lra|]. rewrite A0. field; lra. }
  assert (Dp : 0 < d) by lra. pose proof (sqrt_lt_R0 d Dp) as Sp. pose proof (sqrt_sqrt d D) as Sq. set (s := sqrt d) in *.
  set (sg := if Rle_b 0 a1 then 1 else -1).
  assert (Sg : sg * sg = 1 /\ 0 <= sg * a1). { unfold sg, Rle_b. destruct (Rle_dec 0 a1); split; lra. }
  destruct Sg as [Sg1 Sg2]. clearbody sg. set (t := - (1 / 2) * (a1 + sg * s)).
  assert (T : t <> 0). { intros Z. assert (K : a1 + sg * s = 0) by (unfold t in Z; lra). assert (K2 : sg * a1 + sg * sg * s = 0) by (rewrite <- (Rmult_0_r sg), <- K; ring). rewrite Sg1 in K2. lra. }
  assert (T2 : 2 * t = - (a1 + sg * s)) by (unfold t; lra).
  assert (TT : t * t + a1 * t + a0 * a2 = 0). { clear - T2 Sq Sg1. unfold d in Sq. clearbody s t. assert (4 * (t * t + a1 * t + a0 * a2) = 0) by nsatz. lra. }
  set (r1 := t / a2). set (r2 := a0 / t).
  assert (NE : r1 <> r2). { intros Z. unfold r1, r2 in Z. assert (K : t * t = a0 * a2). { apply (f_equal (fun q => q * (a2 * t))) in Z. field_simplify in Z; lra. }
    assert (K2 : t * (2 * t + a1) = 0) by lra. apply Rmult_integral in K2. destruct K2 as [K2|K2]; [contradiction|].
    assert (K3 : sg * s = 0) by lra. assert (K4 : sg * sg * s = 0) by (rewrite Rmult_assoc, K3; ring). rewrite Sg1 in K4. lra. }
  assert (F := quad_factor a2 a1 a0 r1 r2 E). 
  assert (S1 : a2 * (r1 + r2) = - a1). { unfold r1, r2. apply Rmult_eq_reg_r with t; [|exact T]. field_simplify; lra. }
  assert (S2 : a2 * (r1 * r2) = a0). { unfold r1, r2. field. split; assumption. }
  specialize (F S1 S2). split.
  - destruct (Rlt_dec r1 r2); [rewrite Rlt_b_t by lra|rewrite Rlt_b_f by lra]; repeat constructor; lra.
  - intros x. rewrite F. cbn [In]. destruct (Rlt_dec r1 r2); [rewrite Rlt_b_t by lra|rewrite Rlt_b_f by lra]; intuition (auto; lra).
Qed.

(* -------- polishing an exact root is the identity -------- *)
Fixpoint hornerF (a : nat -> R) (x : R) (i : nat) (f : R) : R := match i with O => f | S j => hornerF a x j (x * f + a j) end.
Lemma polishHorner_f a x i : forall f df d2f e, fst (fst (fst (polishHorner a x i (f, df, d2f, e)))) = hornerF a x i f.
Proof. induction i as [|j IH]; intros; [reflexivity|]. cbn [polishHorner hornerF]. apply IH. Qed.
Lemma polishHorner_e a x i : forall f df d2f e, 0 <= e -> 0 <= snd (polishHorner a x i (f, df, d2f, e)).
Proof.
  induction i as [|j IH]; intros f df d2f e H; [exact H|]. cbn [polishHorner]. apply IH.
  apply Rplus_le_le_0_compat; [apply Rmult_le_pos; [apply Rabs_pos|exact H]|apply Rabs_pos].
Qed.
Lemma polishRoot_root n a x : hornerF a x n (a n) = 0 -> polishRoot n a x = x.
Proof.
  intros H. unfold polishRoot. cbn [polishLoop].
  destruct (polishHorner a x n (a n, a n * INR n, a n * INR n * INR (n - 1), 1 / 2 * Rabs (a n))) as [[[f df] d2f] e] eqn:E.
  pose proof (polishHorner_f a x n (a n) (a n * INR n) (a n * INR n * INR (n - 1)) (1 / 2 * Rabs (a n))) as F.
  pose proof (polishHorner_e a x n (a n) (a n * INR n) (a n * INR n * INR (n - 1)) (1 / 2 * Rabs (a n))) as G.
  rewrite E in F, G. cbn [fst snd] in F, G. assert (F0 : f = 0) by congruence. subst f. rewrite F0, Rabs_R0.
  rewrite Rle_b_t; [reflexivity|]. apply Rmult_le_pos; [|left; apply deps_pos].
  assert (0 <= e) by (apply G; pose proof (Rabs_pos (a n)); lra). lra.
Qed.
Lemma polish3_root a0 a1 a2 a3 x : a3 * pow_3 x + a2 * pow_2 x + a1 * x + a0 = 0 -> polishRoot 3 (coef [a0; a1; a2; a3]) x = x.
Proof. intros H. apply polishRoot_root. cbn [hornerF coef nth]. rewrite <- H. unfold coef, pow_3, pow_2; cbn [nth]. ring. Qed.
Lemma polish4_root a0 a1 a2 a3 a4 x : a4 * (x * x * x * x) + a3 * pow_3 x + a2 * pow_2 x + a1 * x + a0 = 0 -> polishRoot 4 (coef [a0; a1; a2; a3; a4]) x = x.
Proof. intros H. apply polishRoot_root. cbn [hornerF coef nth]. rewrite <- H. unfold coef, pow_3, pow_2; cbn [nth]. ring. Qed.

(* -------- sorting networks -------- *)
Lemma swap_perm2 (x y : R) : Permutation [y; x] [x; y]. Proof. apply perm_swap. Qed.
Ltac permR := repeat first [apply Permutation_refl | match goal with |- Permutation (?a :: ?l) ?m =>
   let rec go pre post := match post with
     | a :: ?post' => apply (Permutation_cons_app pre post' a); cbn [app]
     | ?b :: ?post' => let p := eval cbn [app] in (pre ++ [b])%list in go p post' end in go (@nil R) m end].
Ltac srt := repeat first [apply Sorted_nil | apply Sorted_cons | apply HdRel_nil | apply HdRel_cons; lra].
Lemma swap_eq i j l : swapIfNeeded i j l = 
  map (fun k => if Nat.eqb k i then Rmin (nth i l 0) (nth j l 0) else if Nat.eqb k j then Rmax (nth i l 0) (nth j l 0) else nth k l 0) (seq 0 (length l)).
Proof.
  unfold swapIfNeeded, Rlt_b. destruct (Rlt_dec (nth j l 0) (nth i l 0)) as [H|H].
  - rewrite Rmin_right, Rmax_left by lra. reflexivity.
  - rewrite Rmin_left, Rmax_right by lra. symmetry. apply nth_ext with 0 0; [now rewrite map_length, seq_length|].
    intros n Hn. rewrite map_length, seq_length in Hn. 
    match goal with |- nth n (map ?f ?q) _ = _ => set (F := f); rewrite (nth_indep (map F q) 0 (F 0%nat)) by (now rewrite map_length, seq_length); rewrite map_nth; unfold F end.
    rewrite seq_nth by exact Hn. cbn [plus]. destruct (Nat.eqb_spec n i); [subst; auto|]. destruct (Nat.eqb_spec n j); subst; auto.
Qed.
Ltac minmax := repeat match goal with |- context [Rmin ?a ?b] => first [rewrite (Rmin_left a b) by lra | rewrite (Rmin_right a b) by lra]
  | |- context [Rmax ?a ?b] => first [rewrite (Rmax_left a b) by lra | rewrite (Rmax_right a b) by lra] end.
Lemma sort3_perm l : (length l <= 3)%nat -> Permutation (sort3 l) l /\ Sorted Rle (sort3 l).
Proof.
  intros L. destruct l as [|x [|y [|z [|w l]]]]; [| | | |cbn in L; lia]; unfold sort3; cbn [length]; rewrite ?swap_eq; cbn [map seq Nat.eqb nth length].
  - split; constructor.
  - split; repeat constructor.
  - destruct (Rle_lt_dec x y); minmax; split; try permR; srt.
  - destruct (Rle_lt_dec x y); destruct (Rle_lt_dec y z); destruct (Rle_lt_dec x z); try (exfalso; lra); minmax; (split; [permR|srt]).
Qed.
Lemma sort4_perm l : (length l <= 4)%nat -> Permutation (sort4 l) l /\ Sorted Rle (sort4 l).
Proof.
  intros L. destruct l as [|x [|y [|z [|w [|v l]]]]]; [| | | | |cbn in L; lia].
  1-4: change (sort4 ?m) with (sort3 m); apply sort3_perm; cbn; lia.
  unfold sort4; cbn [length]; rewrite ?swap_eq; cbn [map seq Nat.eqb nth length].
  destruct (Rle_lt_dec x y); destruct (Rle_lt_dec z w); destruct (Rle_lt_dec x z); destruct (Rle_lt_dec y w); destruct (Rle_lt_dec x w); destruct (Rle_lt_dec y z);
   try (exfalso; lra); minmax; (split; [permR|srt]).
Qed.

Lemma Sorted_NoDup_strict l : Sorted Rle l -> NoDup l -> StronglySorted Rlt l.
Proof.
  intros S N. apply Sorted_StronglySorted in S; [|intros a b c; lra]. induction S as [|a l S IH F]; [constructor|].
  inversion N; subst. constructor; [auto|]. rewrite Forall_forall in F |- *. intros b B. specialize (F b B). destruct F as [F|F]; [exact F|subst; contradiction].
Qed.
Lemma strict_NoDup l : StronglySorted Rlt l -> NoDup l.
Proof. induction 1 as [|a l S IH F]; constructor; auto. intros I. rewrite Forall_forall in F. specialize (F a I). lra. Qed.
