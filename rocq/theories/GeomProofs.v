(** Edge sums, clipping and winding numbers. *)
From Coquelicot Require Import Coquelicot.
From Coq Require Import Psatz.
From Verif Require Import Arr PolyProofs GeomModel GeomSpec.
Require Import List. Import ListNotations.
Local Open Scope R_scope.

(** ---- sums over the edges of a path ---- *)
Fixpoint path (e : pt -> pt -> R) (q : pt) (l : list pt) : R := match l with [] => 0 | c :: t => e q c + path e c t end.
Definition esum (e : pt -> pt -> R) (P : list pt) : R := match P with [] => 0 | a :: _ => path e (last P a) P end.
Lemma last_cons {A} (a : A) t d : last (a :: t) d = last t a.
Proof. revert a d. induction t as [|b t IH]; intros a d; [reflexivity|]. transitivity (last (b :: t) d); [reflexivity|]. rewrite IH. symmetry. apply IH. Qed.
Lemma esum_cons e a t : esum e (a :: t) = e (last t a) a + path e a t.
Proof. unfold esum. rewrite last_cons. reflexivity. Qed.
Lemma path_app e q l a : path e q (l ++ [a]) = path e q l + e (last l q) a.
Proof. revert q. induction l as [|b t IH]; intros q; cbn [path app]; [cbn; ring|]. rewrite IH, last_cons. ring. Qed.
Lemma path_app2 e q l m : path e q (l ++ m) = path e q l + path e (last l q) m.
Proof. revert q. induction l as [|b t IH]; intros q; cbn [path app]; [cbn; ring|]. rewrite IH, last_cons. ring. Qed.
Lemma rsum_edges e P : rsum (fun ed : point * point => e (fst ed) (snd ed)) (edges P) = esum e P.
Proof.
  destruct P as [|a t]; [reflexivity|]. rewrite esum_cons. cbn [edges].
  assert (G : forall l q, rsum (fun ed : point * point => e (fst ed) (snd ed)) (combine (q :: l) (l ++ [a])) = path e q (l ++ [a])).
  { induction l as [|b l IH]; intros q; [cbn; ring|]. change ((b :: l) ++ [a]) with (b :: (l ++ [a])). change (combine (q :: b :: l) (b :: l ++ [a])) with ((q, b) :: combine (b :: l) (l ++ [a])).
    transitivity (e q b + rsum (fun ed : point * point => e (fst ed) (snd ed)) (combine (b :: l) (l ++ [a]))); [reflexivity|]. rewrite IH. reflexivity. }
  rewrite G, path_app. ring.
Qed.
Lemma path_lin e f c q l : path (fun v w => e v w + c * f v w) q l = path e q l + c * path f q l.
Proof. revert q. induction l as [|b t IH]; intros q; cbn [path]; [ring|]. rewrite IH. ring. Qed.
Lemma esum_lin e f c P : esum (fun v w => e v w + c * f v w) P = esum e P + c * esum f P.
Proof. destruct P; cbn [esum]; [ring|]. apply path_lin. Qed.
Lemma path_ext e f q l : (forall v w, e v w = f v w) -> path e q l = path f q l.
Proof. intros H. revert q. induction l as [|b t IH]; intros q; cbn [path]; [reflexivity|]. rewrite IH, H. reflexivity. Qed.
Lemma path_pot (g : pt -> R) q l : path (fun v w => g w - g v) q l = g (last l q) - g q.
Proof. revert q. induction l as [|b t IH]; intros q; cbn [path]; [cbn; ring|]. rewrite IH, last_cons. ring. Qed.
Lemma esum_pot g P : esum (fun v w => g w - g v) P = 0.
Proof. destruct P as [|a t]; [reflexivity|]. unfold esum. rewrite path_pot. rewrite !last_cons. ring. Qed.
Lemma path_ext_in (K : pt -> Prop) e f q l : (forall v w, K v -> K w -> e v w = f v w) -> K q -> Forall K l -> path e q l = path f q l.
Proof. intros H. revert q. induction l as [|b t IH]; intros q Hq Hl; cbn [path]; [reflexivity|]. inversion Hl; subst. rewrite IH, H by assumption. reflexivity. Qed.
Lemma last_in {A} (K : A -> Prop) l q : K q -> Forall K l -> K (last l q).
Proof. revert q. induction l as [|b t IH]; intros q Hq Hl; [exact Hq|]. rewrite last_cons. inversion Hl; subst. apply IH; assumption. Qed.
Lemma esum_ext_in (K : pt -> Prop) e f P : (forall v w, K v -> K w -> e v w = f v w) -> Forall K P -> esum e P = esum f P.
Proof. intros H HP. destruct P as [|a t]; [reflexivity|]. unfold esum. apply (path_ext_in K); auto. inversion HP; subst. apply last_in; assumption. Qed.
Lemma esum_ext e f P : (forall v w, e v w = f v w) -> esum e P = esum f P.
Proof. intros H. destruct P; [reflexivity|]. apply path_ext. exact H. Qed.
Lemma path_rev e q l : (forall v w, e w v = - e v w) -> path e (last l q) (rev (q :: l)) = e (last l q) (last l q) - path e q l.
Proof.
  intros H. revert q. induction l as [|b t IH]; intros q; [cbn; ring|]. rewrite last_cons. cbn [rev]. change (rev t ++ [b]) with (rev (b :: t)). rewrite path_app, IH. cbn [path].
  replace (last (rev (b :: t)) (last t b)) with b; [rewrite (H q b); ring|]. cbn [rev]. rewrite last_last. reflexivity.
Qed.
Lemma esum_rev e P : (forall v w, e w v = - e v w) -> esum e (rev P) = - esum e P.
Proof.
  intros H. destruct P as [|a t]; [cbn; ring|]. assert (Z0 : forall v, e v v = 0) by (intros v; pose proof (H v v); lra).
  rewrite esum_cons. pose proof (path_rev e a t H) as Q. rewrite Z0 in Q.
  destruct t as [|b u]; [cbn [rev app last esum path] in *; rewrite Z0; ring|].
  destruct (rev (a :: b :: u)) as [|c m] eqn:E. { apply (f_equal (@length pt)) in E. rewrite rev_length in E. discriminate. }
  assert (Lc : last (c :: m) c = a). { rewrite <- E. cbn [rev]. rewrite last_last. reflexivity. }
  assert (Hc : c = last (b :: u) a). { apply (f_equal (@rev pt)) in E. rewrite rev_involutive in E. cbn [rev] in E. rewrite <- (last_cons a (b :: u) a), E. rewrite last_last. reflexivity. }
  unfold esum. rewrite Lc. cbn [path] in Q |- *. rewrite <- Hc in *. rewrite Z0 in Q. rewrite (H c a). lra.
Qed.

(** ---- clipping by a half-plane ---- *)
Section Clip.
  Variable r : rect. Variable dir : Z.
  Let ins p := isInside p r dir.
  Let I v w := intersection v w r dir.
  (** sums of an edge functional which is additive under insertion of the intersection point, and is zero for edges outside of the half-plane or on its boundary *)
  Variable onl : pt -> Prop.
  Variable e : pt -> pt -> R.
  Hypothesis Hon : forall v w, xorb (ins v) (ins w) = true -> onl (I v w).
  Hypothesis Hsplit : forall v w, xorb (ins v) (ins w) = true -> e v w = e v (I v w) + e (I v w) w.
  Let off p := ins p = false \/ onl p.
  Hypothesis Hoff : forall v w, off v -> off w -> e v w = 0.
  Definition shadow (p q : pt) := if ins p then q = p else off q.
  Lemma shadow_refl p : shadow p p.
  Proof. unfold shadow, off. destruct (ins p) eqn:E; auto. Qed.
  Lemma clip_path l : forall p q, shadow p q -> path e q (clipLoop r dir p l) = path e p l /\ shadow (last l p) (last (clipLoop r dir p l) q).
  Proof.
    induction l as [|c t IH]; intros p q H; cbn [clipLoop path]; [split; [reflexivity|exact H]|].
    fold (ins p) (ins c) (I p c). rewrite last_cons. pose proof (Hon p c) as O. pose proof (Hsplit p c) as SP. unfold shadow in H. pose proof (Hoff p c) as OF.
    destruct (ins p) eqn:Ep, (ins c) eqn:Ec; cbn [xorb app path] in *; rewrite ?last_cons.
    - subst q. destruct (IH c c (shadow_refl c)) as [A B]. rewrite A. auto.
    - subst q. specialize (O eq_refl). specialize (SP eq_refl). destruct (IH c (I p c)) as [A B]; [unfold shadow; rewrite Ec; right; exact O|]. rewrite A. split; [|exact B].
      rewrite SP. rewrite (Hoff (I p c) c) by (unfold off; auto). ring.
    - specialize (O eq_refl). specialize (SP eq_refl). destruct (IH c c (shadow_refl c)) as [A B]. rewrite A. split; [|exact B].
      rewrite SP. rewrite (Hoff q (I p c)), (Hoff p (I p c)) by (unfold off; auto). ring.
    - destruct (IH c q) as [A B]; [unfold shadow; rewrite Ec; exact H|]. rewrite A. split; [|exact B]. rewrite OF by (unfold off; auto). ring.
  Qed.
  Lemma clip_esum P : esum e (clipDir r dir P) = esum e P.
  Proof.
    destruct P as [|a t]; [reflexivity|]. unfold clipDir. set (P := a :: t). set (l := last P a). unfold esum at 2. fold l.
    destruct (clip_path P l l (shadow_refl l)) as [A B]. destruct (clipLoop r dir l P) as [|b m] eqn:E; [exact A|]. unfold esum.
    replace (last P l) with l in B. 2: { unfold l, P. rewrite !last_cons. reflexivity. }
    destruct (clip_path P l (last (b :: m) b)) as [A' _]; [|rewrite E in A'; exact A']. rewrite !last_cons in *. exact B.
  Qed.
End Clip.
(** the same with a potential: the sum is the same if the functional is a difference of a potential outside of the half-plane *)
Lemma clip_esum_pot r dir (onl : pt -> Prop) e (g : pt -> R) P :
  (forall v w, xorb (isInside v r dir) (isInside w r dir) = true -> onl (intersection v w r dir)) ->
  (forall v w, xorb (isInside v r dir) (isInside w r dir) = true -> e v w = e v (intersection v w r dir) + e (intersection v w r dir) w) ->
  (forall v w, isInside v r dir = false \/ onl v -> isInside w r dir = false \/ onl w -> e v w = g w - g v) ->
  esum e (clipDir r dir P) = esum e P.
Proof.
  intros H1 H2 H3. pose proof (esum_lin e (fun v w => g w - g v) (-1)) as L. rewrite <- (Rplus_0_r (esum e (clipDir r dir P))), <- (Rplus_0_r (esum e P)).
  replace 0 with (-1 * 0) by ring. rewrite <- (esum_pot g (clipDir r dir P)) at 1. rewrite <- (esum_pot g P). rewrite <- !L.
  apply (clip_esum r dir onl); [exact H1| |].
  - intros v w H. cbv beta. rewrite (H2 v w H). ring.
  - intros v w Hv Hw. cbv beta. rewrite (H3 v w Hv Hw). ring.
Qed.
