(** Powers of a linear map over GF(2) through polynomial arithmetic modulo an annihilating polynomial.
    Polynomials are binary numbers. *)
From Coq Require Import NArith Lia Bool.
Local Open Scope N_scope.

Section Gf2.
  Context {V : Type}.
  Variables (v0 : V) (vadd : V -> V -> V) (M : V -> V) (inV : V -> Prop).
  Hypothesis vadd_assoc : forall a b c, vadd a (vadd b c) = vadd (vadd a b) c.
  Hypothesis vadd_comm : forall a b, vadd a b = vadd b a.
  Hypothesis vadd_0 : forall a, vadd v0 a = a.
  Hypothesis vadd_self : forall a, vadd a a = v0.
  Hypothesis M_lin : forall a b, M (vadd a b) = vadd (M a) (M b).
  Hypothesis inV_M : forall a, inV a -> inV (M a).
  Hypothesis inV_add : forall a b, inV a -> inV b -> inV (vadd a b).
  Hypothesis inV_0 : inV v0.

  Fixpoint pevalp (p : positive) (v : V) : V :=
    match p with xH => v | xO q => pevalp q (M v) | xI q => vadd v (pevalp q (M v)) end.
  Definition peval (p : N) (v : V) : V := match p with 0 => v0 | Npos q => pevalp q v end.

  Lemma vadd_0_r a : vadd a v0 = a. Proof. rewrite vadd_comm. apply vadd_0. Qed.
  Lemma vadd4 a b c d : vadd (vadd a b) (vadd c d) = vadd (vadd a c) (vadd b d).
  Proof. rewrite !vadd_assoc. f_equal. rewrite <- !vadd_assoc. f_equal. apply vadd_comm. Qed.
  Lemma M_0 : M v0 = v0.
  Proof. rewrite <- (vadd_self v0) at 1. rewrite M_lin. apply vadd_self. Qed.
  Lemma pevalp_M p v : pevalp p (M v) = M (pevalp p v).
  Proof. revert v. induction p as [p IH|p IH|]; intros v; cbn [pevalp]; [rewrite M_lin|..]; rewrite ?IH; reflexivity. Qed.
  Lemma peval_M p v : peval p (M v) = M (peval p v).
  Proof. destruct p; cbn [peval]; [symmetry; apply M_0|apply pevalp_M]. Qed.
  Lemma pevalp_in p v : inV v -> inV (pevalp p v).
  Proof. revert v. induction p; intros v H; cbn [pevalp]; auto. Qed.
  Lemma peval_in p v : inV v -> inV (peval p v).
  Proof. destruct p; cbn [peval]; [auto|apply pevalp_in]. Qed.
  Lemma peval_double p v : peval (N.double p) v = peval p (M v).
  Proof. destruct p; reflexivity. Qed.
  Lemma peval_sdouble p v : peval (N.succ_double p) v = vadd v (peval p (M v)).
  Proof. destruct p; cbn; [rewrite vadd_0_r|]; reflexivity. Qed.
  Lemma pevalp_lxor p q v : peval (Pos.lxor p q) v = vadd (pevalp p v) (pevalp q v).
  Proof.
    revert q v. induction p as [p IH|p IH|]; intros [q|q|] v; cbn [Pos.lxor pevalp].
    - change (Pos.Ndouble (Pos.lxor p q)) with (N.double (Pos.lxor p q)) || idtac. rewrite peval_double, IH, vadd4, vadd_self, vadd_0. reflexivity.
    - rewrite peval_sdouble, IH, vadd_assoc. reflexivity.
    - cbn [peval pevalp]. rewrite (vadd_comm v), <- vadd_assoc, vadd_self, vadd_0_r. reflexivity.
    - rewrite peval_sdouble, IH. rewrite !vadd_assoc. f_equal. apply vadd_comm.
    - rewrite peval_double, IH. reflexivity.
    - cbn [peval pevalp]. apply vadd_comm.
    - cbn [peval pevalp]. rewrite vadd_assoc, vadd_self, vadd_0. reflexivity.
    - cbn [peval pevalp]. reflexivity.
    - cbn [peval]. symmetry. apply vadd_self.
  Qed.
  Lemma peval_lxor p q v : peval (N.lxor p q) v = vadd (peval p v) (peval q v).
  Proof.
    destruct p as [|p], q as [|q]; cbn [N.lxor peval]; rewrite ?vadd_0, ?vadd_0_r; try reflexivity. apply pevalp_lxor.
  Qed.

  (** arithmetic modulo P *)
  Variables (P : N) (deg : N).
  Hypothesis HP : forall v, inV v -> peval P v = v0.
  Definition xtime (p : N) : N := let q := N.double p in if N.testbit q deg then N.lxor q P else q.
  Fixpoint mulmodp (p : positive) (q : N) : N :=
    match p with xH => q | xO p' => mulmodp p' (xtime q) | xI p' => N.lxor q (mulmodp p' (xtime q)) end.
  Definition mulmod (p q : N) : N := match p with 0 => 0 | Npos p' => mulmodp p' q end.
  Fixpoint powxp (k : positive) : N :=
    match k with xH => 2 | xO k' => let r := powxp k' in mulmod r r | xI k' => let r := powxp k' in xtime (mulmod r r) end.

  Lemma peval_xtime p v : inV v -> peval (xtime p) v = peval p (M v).
  Proof.
    intros H. unfold xtime. destruct (N.testbit (N.double p) deg); [|apply peval_double].
    rewrite peval_lxor, peval_double, HP by exact H. apply vadd_0_r.
  Qed.
  Lemma peval_mulmod p q v : inV v -> peval (mulmod p q) v = peval p (peval q v).
  Proof.
    destruct p as [|p]; [reflexivity|]. cbn [mulmod]. change (peval (Npos p) (peval q v)) with (pevalp p (peval q v)).
    revert q v. induction p as [p IH|p IH|]; intros q v H; cbn [mulmodp pevalp].
    - rewrite peval_lxor, IH, peval_xtime by exact H. rewrite peval_M. reflexivity.
    - rewrite IH, peval_xtime by exact H. rewrite peval_M. reflexivity.
    - reflexivity.
  Qed.
  Definition iterp (k : positive) (v : V) : V := Pos.iter M v k.
  Lemma iterp_in k v : inV v -> inV (iterp k v).
  Proof. intros H. unfold iterp. apply Pos.iter_invariant; auto. Qed.
  Lemma peval_powxp k v : inV v -> peval (powxp k) v = iterp k v.
  Proof.
    revert v. induction k as [k IH|k IH|]; intros v H; cbn [powxp].
    - cbv zeta. rewrite peval_xtime, peval_mulmod by auto. rewrite !peval_M. rewrite (IH v H). rewrite IH by (apply iterp_in; exact H). reflexivity.
    - cbv zeta. rewrite peval_mulmod by exact H. rewrite (IH v H). rewrite IH by (apply iterp_in; exact H). reflexivity.
    - reflexivity.
  Qed.
End Gf2.
