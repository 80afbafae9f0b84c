(** Bounds-checked arrays, counted loops and finite sums: vocabulary shared by the numerical models. *)
From Verif Require Export Base.
From Coq Require Export Reals Lra.
Local Open Scope Z_scope.

(** a C++ array/std::vector of known length; the contents outside of [0,alen) are never observable *)
Record arr (A : Type) := mkArr { alen : Z; afn : Z -> A }.
Arguments mkArr {A}. Arguments alen {A}. Arguments afn {A}.
Definition inb {A} (a : arr A) (i : Z) : bool := (0 <=? i) && (i <? alen a).
(** a[i] for reading and writing: out-of-range access is undefined behaviour *)
Definition aget {A} (a : arr A) (i : Z) : res A := if inb a i then Ok (afn a i) else UB.
Definition upd {A} (f : Z -> A) (i : Z) (v : A) : Z -> A := fun k => if k =? i then v else f k.
Definition aset {A} (a : arr A) (i : Z) (v : A) : res (arr A) :=
  if inb a i then Ok (mkArr (alen a) (upd (afn a) i v)) else UB.
(** std::vector<T>(n, v) *)
Definition anew {A} (n : Z) (v : A) : arr A := mkArr n (fun _ => v).

Lemma inb_true {A} (a : arr A) i : 0 <= i < alen a -> inb a i = true.
Proof. intros. unfold inb. rewrite (proj2 (Z.leb_le _ _)) by lia. rewrite (proj2 (Z.ltb_lt _ _)) by lia. reflexivity. Qed.
Lemma inb_inv {A} (a : arr A) i : inb a i = true -> 0 <= i < alen a.
Proof. unfold inb. rewrite andb_true_iff, Z.leb_le, Z.ltb_lt. tauto. Qed.
Lemma aget_ok {A} (a : arr A) i : 0 <= i < alen a -> aget a i = Ok (afn a i).
Proof. intros. unfold aget. rewrite inb_true by assumption. reflexivity. Qed.
Lemma aset_ok {A} (a : arr A) i v : 0 <= i < alen a -> aset a i v = Ok (mkArr (alen a) (upd (afn a) i v)).
Proof. intros. unfold aset. rewrite inb_true by assumption. reflexivity. Qed.
Lemma upd_same {A} (f : Z -> A) i v : upd f i v i = v.
Proof. unfold upd. rewrite Z.eqb_refl. reflexivity. Qed.
Lemma upd_other {A} (f : Z -> A) i v k : k <> i -> upd f i v k = f k.
Proof. intros. unfold upd. rewrite (proj2 (Z.eqb_neq _ _)) by assumption. reflexivity. Qed.

(** for(i=lo; i<hi; i++) body *)
Fixpoint forn {S} (n : nat) (i : Z) (body : Z -> S -> res S) (s : S) : res S :=
  match n with O => Ok s | Datatypes.S n' => s' <- body i s ;; forn n' (i + 1) body s' end.
Definition for_ {S} (lo hi : Z) (body : Z -> S -> res S) (s : S) : res S := forn (Z.to_nat (hi - lo)) lo body s.
(** for(i=hi; i>=lo; i--) body *)
Definition fordown {S} (hi lo : Z) (body : Z -> S -> res S) (s : S) : res S :=
  for_ 0 (hi + 1 - lo) (fun k => body (hi - k)) s.

(** [safe r P]: no undefined behaviour, and P holds of the result unless an exception/non-finite number arose *)
Definition safe {A} (r : res A) (P : A -> Prop) : Prop :=
  match r with Ok a => P a | Throw => True | UB => False | Fuel => False end.
Lemma safe_bind {A B} (r : res A) (f : A -> res B) P Q : safe r P -> (forall a, P a -> safe (f a) Q) -> safe (bind r f) Q.
Proof. destruct r; cbn; auto. Qed.
Lemma safe_mono {A} (r : res A) (P Q : A -> Prop) : (forall a, P a -> Q a) -> safe r P -> safe r Q.
Proof. destruct r; cbn; auto. Qed.

Lemma for_safe {S} (I : Z -> S -> Prop) lo hi body s :
  lo <= hi -> I lo s -> (forall i s, lo <= i < hi -> I i s -> safe (body i s) (I (i + 1))) -> safe (for_ lo hi body s) (I hi).
Proof.
  intros Hle H0 Hstep. unfold for_.
  assert (G : forall n i s, lo <= i -> i + Z.of_nat n = hi -> I i s -> safe (forn n i body s) (I hi)).
  { induction n as [|n IH]; intros i s' Hi Hn HI; cbn [forn].
    - replace hi with i by lia. exact HI.
    - apply safe_bind with (P := I (i + 1)); [apply Hstep; [lia|exact HI]|]. intros a Ha. apply IH; try lia. exact Ha. }
  apply G; auto; lia.
Qed.
Lemma for_total {S} (I : Z -> S -> Prop) lo hi body s :
  lo <= hi -> I lo s -> (forall i s, lo <= i < hi -> I i s -> exists s', body i s = Ok s' /\ I (i + 1) s') ->
  exists s', for_ lo hi body s = Ok s' /\ I hi s'.
Proof.
  intros Hle H0 Hstep. unfold for_.
  assert (G : forall n i s, lo <= i -> i + Z.of_nat n = hi -> I i s -> exists s', forn n i body s = Ok s' /\ I hi s').
  { induction n as [|n IH]; intros i s' Hi Hn HI; cbn [forn].
    - replace hi with i by lia. eauto.
    - destruct (Hstep i s') as (t & -> & Ht); [lia|exact HI|]. cbn [bind]. apply IH; auto; lia. }
  apply G; auto; lia.
Qed.
Lemma fordown_total {S} (I : Z -> S -> Prop) hi lo body s :
  lo <= hi + 1 -> I hi s -> (forall i s, lo <= i <= hi -> I i s -> exists s', body i s = Ok s' /\ I (i - 1) s') ->
  exists s', fordown hi lo body s = Ok s' /\ I (lo - 1) s'.
Proof.
  intros Hle H0 Hstep. unfold fordown.
  destruct (for_total (fun k => I (hi - k)) 0 (hi + 1 - lo) (fun k => body (hi - k)) s) as (s' & E & H); try lia.
  - rewrite Z.sub_0_r. exact H0.
  - intros i t Hi Ht. destruct (Hstep (hi - i) t) as (t' & -> & H'); [lia|exact Ht|]. exists t'. split; [reflexivity|].
    replace (hi - (i + 1)) with (hi - i - 1) by lia. exact H'.
  - exists s'. split; [exact E|]. replace (lo - 1) with (hi - (hi + 1 - lo)) by lia. exact H.
Qed.
Lemma for_empty {S} lo hi (body : Z -> S -> res S) s : hi <= lo -> for_ lo hi body s = Ok s.
Proof. intros. unfold for_. replace (Z.to_nat (hi - lo)) with O by lia. reflexivity. Qed.

(** ---- sums over integer ranges ---- *)
Fixpoint zsumn (n : nat) (i : Z) (f : Z -> R) : R :=
  match n with O => 0%R | Datatypes.S n' => (f i + zsumn n' (i + 1) f)%R end.
(** sum of f(i) for lo <= i < hi *)
Definition zsum (lo hi : Z) (f : Z -> R) : R := zsumn (Z.to_nat (hi - lo)) lo f.

Lemma zsumn_ext n i f g : (forall k, i <= k < i + Z.of_nat n -> f k = g k) -> zsumn n i f = zsumn n i g.
Proof.
  revert i. induction n as [|n IH]; intros i H; cbn [zsumn]; [reflexivity|].
  rewrite (H i) by lia. f_equal. apply IH. intros k Hk. apply H. lia.
Qed.
Lemma zsum_ext lo hi f g : (forall k, lo <= k < hi -> f k = g k) -> zsum lo hi f = zsum lo hi g.
Proof. intros H. unfold zsum. apply zsumn_ext. intros k Hk. apply H. lia. Qed.
Lemma zsumn_app a b i f : zsumn (a + b) i f = (zsumn a i f + zsumn b (i + Z.of_nat a) f)%R.
Proof.
  revert i. induction a as [|a IH]; intros i; cbn [zsumn Nat.add].
  - rewrite Z.add_0_r. ring.
  - rewrite IH. replace (i + 1 + Z.of_nat a) with (i + Z.of_nat (Datatypes.S a)) by lia. ring.
Qed.
Lemma zsum_split lo m hi f : lo <= m <= hi -> zsum lo hi f = (zsum lo m f + zsum m hi f)%R.
Proof.
  intros H. unfold zsum. replace (Z.to_nat (hi - lo)) with (Z.to_nat (m - lo) + Z.to_nat (hi - m))%nat by lia.
  rewrite zsumn_app. replace (lo + Z.of_nat (Z.to_nat (m - lo))) with m by lia. reflexivity.
Qed.
Lemma zsum_nil lo hi f : hi <= lo -> zsum lo hi f = 0%R.
Proof. intros. unfold zsum. replace (Z.to_nat (hi - lo)) with O by lia. reflexivity. Qed.
Lemma zsum_one lo f : zsum lo (lo + 1) f = f lo.
Proof. unfold zsum. replace (Z.to_nat (lo + 1 - lo)) with 1%nat by lia. cbn. ring. Qed.
Lemma zsum_last lo hi f : lo <= hi -> zsum lo (hi + 1) f = (zsum lo hi f + f hi)%R.
Proof. intros. rewrite (zsum_split lo hi) by lia. rewrite zsum_one. reflexivity. Qed.
Lemma zsum_first lo hi f : lo < hi -> zsum lo hi f = (f lo + zsum (lo + 1) hi f)%R.
Proof. intros. rewrite (zsum_split lo (lo + 1)) by lia. rewrite zsum_one. reflexivity. Qed.
Lemma zsum_0 lo hi f : (forall k, lo <= k < hi -> f k = 0%R) -> zsum lo hi f = 0%R.
Proof.
  intros H. rewrite (zsum_ext _ _ f (fun _ => 0%R)) by assumption.
  unfold zsum. generalize (Z.to_nat (hi - lo)) as n. intros n. generalize lo. induction n as [|n IH]; intros l; cbn [zsumn]; [reflexivity|]. rewrite IH. ring.
Qed.
Lemma zsum_plus lo hi f g : zsum lo hi (fun k => f k + g k)%R = (zsum lo hi f + zsum lo hi g)%R.
Proof. unfold zsum. generalize (Z.to_nat (hi - lo)). intros n. generalize lo. induction n as [|n IH]; intros l; cbn [zsumn]; [ring|]. rewrite IH. ring. Qed.
Lemma zsum_scal lo hi c f : zsum lo hi (fun k => c * f k)%R = (c * zsum lo hi f)%R.
Proof. unfold zsum. generalize (Z.to_nat (hi - lo)). intros n. generalize lo. induction n as [|n IH]; intros l; cbn [zsumn]; [ring|]. rewrite IH. ring. Qed.
Lemma zsum_swap a b c d f :
  zsum a b (fun i => zsum c d (fun j => f i j)) = zsum c d (fun j => zsum a b (fun i => f i j)).
Proof.
  unfold zsum at 1 4. generalize (Z.to_nat (b - a)) as n. intros n. revert a. induction n as [|n IH]; intros a; cbn [zsumn].
  - rewrite zsum_0; auto.
  - rewrite IH. rewrite <- zsum_plus. reflexivity.
Qed.
(** enlarging the range by zero terms *)
Lemma zsum_extend lo hi lo' hi' f : lo' <= lo -> lo <= hi -> hi <= hi' ->
  (forall k, lo' <= k < lo -> f k = 0%R) -> (forall k, hi <= k < hi' -> f k = 0%R) -> zsum lo' hi' f = zsum lo hi f.
Proof.
  intros H1 H2 H3 Z1 Z2. rewrite (zsum_split lo' lo hi') by lia. rewrite (zsum_split lo hi hi') by lia.
  rewrite (zsum_0 lo' lo) by assumption. rewrite (zsum_0 hi hi') by assumption. ring.
Qed.
Lemma for_safe_max {S} (I : Z -> S -> Prop) lo hi body s :
  I lo s -> (forall i s, lo <= i < hi -> I i s -> safe (body i s) (I (i + 1))) -> safe (for_ lo hi body s) (I (Z.max lo hi)).
Proof.
  intros H0 Hstep. destruct (Z_le_gt_dec lo hi) as [H|H].
  - rewrite Z.max_r by lia. apply for_safe; auto.
  - rewrite for_empty by lia. cbn. rewrite Z.max_l by lia. exact H0.
Qed.
Lemma for_total_max {S} (I : Z -> S -> Prop) lo hi body s :
  I lo s -> (forall i s, lo <= i < hi -> I i s -> exists s', body i s = Ok s' /\ I (i + 1) s') ->
  exists s', for_ lo hi body s = Ok s' /\ I (Z.max lo hi) s'.
Proof.
  intros H0 Hstep. destruct (Z_le_gt_dec lo hi) as [H|H].
  - rewrite Z.max_r by lia. apply for_total; auto.
  - rewrite for_empty by lia. rewrite Z.max_l by lia. eauto.
Qed.
Lemma zsum_shift lo hi d f : zsum lo hi f = zsum (lo + d) (hi + d) (fun k => f (k - d)).
Proof.
  unfold zsum. replace (hi + d - (lo + d)) with (hi - lo) by lia. generalize (Z.to_nat (hi - lo)) as n. intros n. revert lo.
  induction n as [|n IH]; intros l; cbn [zsumn]; [reflexivity|]. rewrite IH. replace (l + d - d) with l by lia.
  replace (l + 1 + d) with (l + d + 1) by lia. reflexivity.
Qed.
Lemma zsum_le lo hi f g : (forall k, lo <= k < hi -> (f k <= g k)%R) -> (zsum lo hi f <= zsum lo hi g)%R.
Proof.
  intros H. unfold zsum.
  assert (G : forall n i, lo <= i -> i + Z.of_nat n <= Z.max lo hi -> (zsumn n i f <= zsumn n i g)%R).
  { induction n as [|n IH]; intros i Hi Hn; cbn [zsumn]; [lra|]. apply Rplus_le_compat; [apply H; lia|apply IH; lia]. }
  apply G; lia.
Qed.
