(** Proofs about the sampler, part 4: the refinement loop and run(). *)
From Coq Require Import Lra Permutation FunctionalExtensionality.
From Verif Require Import Arr PolyModel PolyProofs SampleModel SampleSpec SampleProofs SampleProofs2 SampleProofs3.
From Flocq Require Import Core.Raux.
Local Open Scope Z_scope.

Definition sf {A} (r : res A) (P : A -> Prop) : Prop := match r with Ok a => P a | Throw => True | Fuel => True | UB => False end.
Lemma sf_bind {A B} (r : res A) (f : A -> res B) P Q : sf r P -> (forall a, P a -> sf (f a) Q) -> sf (bind r f) Q.
Proof. destruct r; cbn; auto. Qed.
Lemma sf_mono {A} (r : res A) (P Q : A -> Prop) : (forall a, P a -> Q a) -> sf r P -> sf r Q.
Proof. destruct r; cbn; auto. Qed.

(** ---- the queue ---- *)
Fixpoint incr (prev : Z) (q : list (Z * Z)) : Prop := match q with [] => True | (_, n) :: q' => prev <= n /\ incr n q' end.
Fixpoint qend (prev : Z) (q : list (Z * Z)) : Z := match q with [] => prev | (_, n) :: q' => qend n q' end.
Lemma last_qend q : forall x prev, snd (last q (x, prev)) = qend prev q.
Proof.
  induction q as [|(c, n) q IH]; intros x prev; [reflexivity|]. cbn [qend]. destruct q as [|y q]; [reflexivity|]. rewrite <- (IH c n).
  change (last ((c, n) :: y :: q) (x, prev)) with (last (y :: q) (x, prev)). f_equal. clear. revert y. induction q as [|z q IH]; intros y; [reflexivity|]. cbn [last] in *. apply IH.
Qed.
Lemma incr_app q c k : 0 <= k -> forall prev, incr prev q -> incr prev (q ++ [(c, k + qend prev q)]).
Proof.
  intros Hk. induction q as [|(d, n) q IH]; intros prev H; cbn [app incr qend] in *; [lia|]. destruct H as [H1 H2]. split; [exact H1|]. apply IH. exact H2.
Qed.
Lemma incr_le q : forall prev, incr prev q -> prev <= qend prev q.
Proof. induction q as [|(d, n) q IH]; intros prev H; cbn in *; [lia|]. destruct H as [H1 H2]. specialize (IH n H2). lia. Qed.
Definition apart (x y : Z * Z * Z) : Prop := let '(c, a, b) := x in let '(c', a', b') := y in c <> c' /\ forall p, ~ (a <= p < b /\ a' <= p < b').
Lemma apart_sym x y : apart x y -> apart y x.
Proof. destruct x as ((c, a), b). destruct y as ((c', a'), b'). intros (H & K). split; [congruence|]. intros p (A & B). exact (K p (conj B A)). Qed.
Lemma FOP_perm {A} (P : A -> A -> Prop) l l' : (forall x y, P x y -> P y x) -> Permutation l l' -> ForallOrdPairs P l -> ForallOrdPairs P l'.
Proof.
  intros S H. induction H as [|x l l' H IH|x y l|l l' l'' H1 IH1 H2 IH2]; intros F; auto.
  - inversion F as [|? ? F1 F2]; subst. constructor; auto. rewrite Forall_forall in *. intros z I. apply F1. apply Permutation_in with l'; [symmetry; exact H|exact I].
  - inversion F as [|? ? F1 F2]; subst. inversion F2 as [|? ? F3 F4]; subst. inversion F1 as [|? ? F5 F6]; subst. constructor; [constructor; auto|]. constructor; auto.
Qed.
Lemma calls_spec base : forall q prev, incr prev q -> NoDup (map fst q) ->
  ForallOrdPairs apart (calls base prev q) /\
  (forall c a b, In (c, a, b) (calls base prev q) -> In c (map fst q) /\ base + prev <= a <= b /\ b <= base + qend prev q) /\
  (forall p, base + prev <= p < base + qend prev q -> exists c a b, In (c, a, b) (calls base prev q) /\ a <= p < b).
Proof.
  induction q as [|(c, n) q IH]; intros prev H N; cbn [calls qend incr map fst] in *.
  - split; [constructor|]. split; [intros c a b []|intros; lia].
  - destruct H as [H1 H2]. apply NoDup_cons_iff in N. destruct N as [Nc N]. destruct (IH n H2 N) as (F & In1 & Cv). pose proof (incr_le q n H2) as LE. split; [|split].
    + constructor; [|exact F]. rewrite Forall_forall. intros ((c', a), b) I. destruct (In1 c' a b I) as (I1 & I2 & I3). split; [intros ->; contradiction|]. intros p. lia.
    + intros c' a b [E|I].
      * injection E as <- <- <-. split; [left; reflexivity|]. lia.
      * destruct (In1 c' a b I) as (I1 & I2 & I3). split; [right; exact I1|]. lia.
    + intros p Hp. destruct (Z_lt_le_dec p (base + n)) as [L|L].
      * exists c, (base + prev), (base + n). split; [left; reflexivity|lia].
      * destruct (Cv p ltac:(lia)) as (c' & a & b & I & J). exists c', a, b. split; [right; exact I|exact J].
Qed.

(** ---- the loop over cells ---- *)
Record PC (e : env) (s0 : smp) (integ : R) (hv : Prop) (i : Z) (s : smp) (q : list (Z * Z)) (own : Z -> list Z) (pth : Z -> path) : Prop := {
  pc_inv : Inv e s (full s) own pth;
  pc_co : coords s = coords s0;
  pc_fv : fvals s = fvals s0;
  pc_nd : NoDup (map fst q);
  pc_q : forall c, In c (map fst q) -> is_cell s c /\ leaf s c /\ c < i;
  pc_inc : incr 0 q;
  pc_hv : hv -> q <> [] \/ exists c p, i <= c /\ is_cell s c /\ In p (own c) /\ heavy e s integ c p }.
Lemma full_eq s s' : fvals s' = fvals s -> full s' = full s. Proof. unfold full, npoints. intros ->. reflexivity. Qed.
Lemma inv_D_ext e s D D' own pth : (forall p, D p <-> D' p) -> Inv e s D own pth -> Inv e s D' own pth.
Proof.
  intros E V. constructor; try (apply V).
  - intros c p Hc I. apply E. eapply v_rng; eauto.
  - intros p Hp. apply E in Hp. apply (v_D _ _ _ _ _ V p Hp).
  - intros p Hp. apply E in Hp. apply (v_cover _ _ _ _ _ V p Hp).
Qed.
Lemma processCells_ok e s0 integ hv : good_env e -> (0 < integ)%R -> 0 <= Nout e -> forall F i s q own pth, 0 <= i -> PC e s0 integ hv i s q own pth ->
  sf (processCells F e integ i s q) (fun r => exists own pth, PC e s0 integ hv (alen (cells (fst r))) (fst r) (snd r) own pth).
Proof.
  intros G HI HN. induction F as [|F IH]; intros i s q own pth Hi P; cbn [processCells].
  - destruct (alen (cells s) <=? i) eqn:E; [|exact Logic.I]. apply Z.leb_le in E. cbn. exists own, pth. destruct P. constructor; auto.
    + intros c I. destruct (pc_q0 c I) as (A & B & C). split; [exact A|]. split; [exact B|]. unfold is_cell in A. lia.
    + intros H. destruct (pc_hv0 H) as [A|(c & p & A & B & _)]; [left; exact A|]. unfold is_cell in B. lia.
  - destruct (alen (cells s) <=? i) eqn:E.
    + apply Z.leb_le in E. cbn. exists own, pth. destruct P. constructor; auto.
      * intros c I. destruct (pc_q0 c I) as (A & B & C). split; [exact A|]. split; [exact B|]. unfold is_cell in A. lia.
      * intros H. destruct (pc_hv0 H) as [A|(c & p & A & B & _)]; [left; exact A|]. unfold is_cell in B. lia.
    + apply Z.leb_gt in E. pose proof (pc_inv _ _ _ _ _ _ _ _ _ P) as V. assert (Hc : is_cell s i) by (unfold is_cell; lia).
      destruct (processCell_ok e s (full s) own pth integ q i G V Hc HI HN) as (s' & q' & -> & [(-> & -> & NH)|[(dim & Hd & Ho & _ & -> & ES)|(Ho & _ & -> & ->)]]); cbn [bind fst snd].
      * apply (IH (i + 1) s q own pth ltac:(lia)). destruct P. constructor; auto.
        -- intros c I. destruct (pc_q0 c I) as (A & B & C). split; [exact A|]. split; [exact B|]. lia.
        -- intros H. destruct (pc_hv0 H) as [A|(c & p & A & B & C & D)]; [left; exact A|]. right. exists c, p. destruct (Z.eq_dec c i) as [->|]; [exfalso; exact (NH p C D)|]. repeat split; auto; try lia; apply B.
      * destruct (splitCell_ok e s (full s) own pth i dim G V Hc Ho Hd) as (s1 & E1 & V1 & C1 & F1 & A1 & W1 & W2 & W3 & CH). rewrite E1 in ES. injection ES as <-.
        eapply (IH (i + 1) s1 q _ (pth_split s pth i dim) ltac:(lia)). destruct P. constructor.
        -- rewrite (full_eq s s1 F1). exact V1.
        -- rewrite C1. exact pc_co0.
        -- rewrite F1. exact pc_fv0.
        -- exact pc_nd0.
        -- intros c I. destruct (pc_q0 c I) as (A & B & C). unfold is_cell in *. split; [rewrite A1; lia|]. split; [|lia].
           unfold leaf. rewrite CH by (unfold is_cell; lia). exact B.
        -- exact pc_inc0.
        -- intros H. destruct (pc_hv0 H) as [A|(c & p & A & B & C & D)]; [left; exact A|]. right. unfold heavy in *. rewrite F1.
           destruct (Z.eq_dec c i) as [->|N].
           ++ destruct (isLow e (coords s) dim (/ 2 * (blo e (pth i) dim + bup e (pth i) dim)) p) eqn:EL.
              ** exists (alen (cells s)), p. split; [lia|]. split; [unfold is_cell; rewrite A1; lia|]. split; [|rewrite W2; exact D].
                 unfold own_split. rewrite (proj2 (Z.eqb_neq (alen (cells s)) i)) by lia. rewrite Z.eqb_refl. apply -> in_rev. apply filter_In. auto.
              ** exists (alen (cells s) + 1), p. split; [lia|]. split; [unfold is_cell; rewrite A1; lia|]. split; [|rewrite W3; exact D].
                 unfold own_split. rewrite (proj2 (Z.eqb_neq (alen (cells s) + 1) i)), (proj2 (Z.eqb_neq (alen (cells s) + 1) (alen (cells s)))) by lia. rewrite Z.eqb_refl. apply -> in_rev. apply filter_In. rewrite EL. auto.
           ++ exists c, p. split; [lia|]. split; [unfold is_cell in *; rewrite A1; lia|]. rewrite W1 by exact B. split; [|exact D].
              unfold own_split. unfold is_cell in B. rewrite (proj2 (Z.eqb_neq c i)), (proj2 (Z.eqb_neq c (alen (cells s)))), (proj2 (Z.eqb_neq c (alen (cells s) + 1))) by lia. exact C.
      * eapply (IH (i + 1) _ _ own pth ltac:(lia)). pose proof (halved_inv e s (full s) own pth i V Hc) as V'. destruct P. constructor.
        -- exact V'.
        -- exact pc_co0.
        -- exact pc_fv0.
        -- rewrite map_app. cbn. apply nodup_app; [exact pc_nd0|repeat constructor; intros []|]. intros x I [<-|[]]. destruct (pc_q0 i I) as (_ & _ & Q). lia.
        -- intros c I. rewrite map_app in I. apply in_app_or in I.
           assert (LF : leaf (halved s i) c <-> leaf s c). { unfold leaf, the_cell, halved. cbn. unfold upd. destruct (c =? i) eqn:Ec; [apply Z.eqb_eq in Ec; subst c|]; reflexivity. }
           destruct I as [I|[<-|[]]].
           ++ destruct (pc_q0 c I) as (A & B & C). split; [exact A|]. split; [apply LF; exact B|lia].
           ++ split; [exact Hc|]. split; [|cbn; lia]. apply LF. destruct (own i) as [|p l] eqn:Eo; [contradiction|]. apply (v_leaf _ _ _ _ _ V i p Hc). rewrite Eo. left; reflexivity.
        -- rewrite last_qend. apply incr_app; [|exact pc_inc0]. rewrite Ztrunc_floor.
           ++ apply Zfloor_lub. unfold expected. apply Rmult_le_pos; [unfold Rdiv; rewrite Rmult_1_l; left; apply Rinv_0_lt_compat; apply (v_w _ _ _ _ _ V i Hc)|apply pow_le; lra].
           ++ unfold expected. apply Rmult_le_pos; [unfold Rdiv; rewrite Rmult_1_l; left; apply Rinv_0_lt_compat; apply (v_w _ _ _ _ _ V i Hc)|apply pow_le; lra].
        -- intros _. left. destruct q; discriminate.
Qed.
