(** Termination without errors; linear and piecewise-constant interpolators *)
From Coquelicot Require Import Coquelicot.
From Coq Require Import Sorting.
From Verif Require Import Arr BinSearchModel SplineModel SplineGlue SplineProofs SplineProofs2 SplIntModel PolyModel PolyProofs PolyProofs2 PropsPoly RootProofs SplRootModel BsplSpec BsplProofs BsplProofs2 BsplProofs3 SplineSpec SplRootSpec SplRootProofs SplRootProofs2 SplRootProofs3.
Local Open Scope R_scope.

(** the number of roots returned by the polynomial solvers *)
Lemma swap_len i j l : length (swapIfNeeded i j l) = length l.
Proof. unfold swapIfNeeded. cbv zeta. destruct (Rlt_b _ _); [rewrite map_length, seq_length|]; reflexivity. Qed.
Lemma sort3_len l : length (sort3 l) = length l.
Proof. unfold sort3. destruct (length l) as [|[|[|[|n]]]] eqn:E; rewrite ?swap_len; auto. Qed.
Lemma sort4_len l : length (sort4 l) = length l.
Proof. unfold sort4. destruct (length l) as [|[|[|[|[|n]]]]] eqn:E; rewrite ?swap_len; auto. Qed.
Lemma solveC_len a b c d : (length (solveCubic a b c d) <= 3)%nat.
Proof.
  unfold solveCubic. destruct (Req_b a 0); [pose proof (solveQ_len b c d); lia|]. cbv zeta. destruct (_ && _); [cbn; lia|]. rewrite sort3_len, map_length. unfold cubicRoots. cbv zeta.
  destruct (Rle_b _ _); [cbn; lia|]. destruct (Rlt_b _ _); cbn; lia.
Qed.
Lemma dedup_len fuel : forall p l, (length (dedupLoop fuel p l) <= length l)%nat.
Proof.
  induction fuel as [|k IH]; intros p l; cbn [dedupLoop]; [lia|]. destruct (Nat.ltb_spec p (length l)); [|lia]. cbv zeta. destruct (Rle_b _ _); [|apply IH].
  apply Nat.le_trans with (length (firstn p l ++ skipn (S p) l)); [apply IH|]. rewrite app_length, firstn_length, skipn_length. lia.
Qed.
Lemma solve4_len a b c d e : (length (solveQuartic a b c d e) <= 4)%nat.
Proof.
  unfold solveQuartic. destruct (Req_b a 0); [pose proof (solveC_len b c d e); lia|]. cbv zeta. destruct (fst (fold_left _ _ _)) as [[[w m] z0]|]; [|cbn; lia].
  match goal with |- context [dedup (sort4 (map ?f ?l))] => set (fn := f); set (ll := l) end.
  pose proof (dedup_len (length (sort4 (map fn ll))) 1 (sort4 (map fn ll))) as D. fold (dedup (sort4 (map fn ll))) in D. rewrite sort4_len, map_length in D.
  assert (length ll <= 4)%nat; [|lia]. unfold ll. rewrite app_length. match goal with |- (length (solveQuadratic ?p ?q ?r) + length (solveQuadratic ?s ?t ?u) <= _)%nat => pose proof (solveQ_len p q r); pose proof (solveQ_len s t u) end. lia.
Qed.

(** whatever the polynomial solver returns, the list of roots or extrema is increasing and stays in the interval *)
Section Safe.
  Variable x : arr R.
  Hypothesis Hx : increasing x.
  Hypothesis Hn : (2 <= alen x)%Z.
  Variable rf : Z -> res (list R).
  Variable rs : Z -> list R.
  Hypothesis Hrf : forall i, (0 <= i <= alen x - 2)%Z -> rf i = Ok (rs i) /\ (length (rs i) <= 4)%nat.
  Definition okl (a b : R) (l : list R) : Prop := StronglySorted (fun u v => apart v u) l /\ Forall (fun r => a <= r <= b) l.
  Lemma okl_push a b l r : okl a b l -> a <= r <= b -> match l with [] => True | p :: _ => apart p r end -> okl a b (r :: l).
  Proof.
    intros (H1 & H2) Hr H3. split; [|constructor; assumption]. constructor; [exact H1|]. destruct l as [|p l]; [constructor|]. constructor; [exact H3|]. inversion H1 as [|? ? _ F]; subst.
    eapply Forall_impl; [|exact F]. cbn. intros q Hq. apply (apart_trans q p r Hq H3).
  Qed.
  Lemma admit_ok t1 t2 l r : admit_root t1 t2 l r = true -> t1 <= r <= t2 /\ match l with [] => True | p :: _ => apart p r end.
  Proof.
    unfold admit_root. intros H. apply andb_true_iff in H. destruct H as (H1 & H2). fold (inb t1 t2 r) in H1. apply inb_spec in H1. split; [exact H1|]. destruct l as [|p l]; [exact Logic.I|]. apply isLarger_spec. exact H2.
  Qed.
  Lemma roots_safe x1 x2 : let a := lower x x1 x2 in let b := upper x x1 x2 in a < b ->
    exists L, findRoots x rf x1 x2 = Ok L /\ StronglySorted apart L /\ forall r, In r L -> a <= r <= b.
  Proof.
    intros a b Hab. unfold findRoots. rewrite (proj2 (Z.eqb_neq (alen x) 0)) by lia. rewrite (interval_ok x ltac:(lia)). cbn [bind]. fold a b. rewrite (Req_b_f a b) by lra.
    destruct (bounds x x1 x2) as (B1 & B2). fold a in B1. fold b in B2. destruct (segments_ok x Hx Hn a b B1 Hab B2) as (i1 & i2 & -> & I0 & I12 & I2 & _). cbn [bind fst snd].
    match goal with |- context [for_ i1 (i2 + 1) ?f []] => destruct (for_total (fun i res => okl a b res) i1 (i2 + 1) f []) as (res & E & Er) end.
    - lia.
    - split; constructor.
    - intros i res Hi Er. rewrite !aget_ok by lia. cbn [bind]. destruct (Hrf i ltac:(lia)) as (-> & Hl). cbn [bind]. rewrite (proj2 (Nat.ltb_ge 4 _)) by assumption. eexists. split; [reflexivity|].
      assert (T : a <= Rmax a (afn x i) /\ Rmin b (afn x (i + 1)%Z) <= b) by (split; [apply Rmax_l|apply Rmin_l]). generalize dependent (map (fun r => r + afn x i) (rs i)). intros l. revert res Er.
      induction l as [|r l IH]; intros res Er; [exact Er|]. cbn [fold_left]. apply IH. unfold pushRoot. destruct (admit_root _ _ res r) eqn:EA; [|exact Er]. apply admit_ok in EA. apply okl_push; [exact Er|lra|tauto].
    - rewrite E. cbn [bind]. exists (rev res). split; [reflexivity|]. destruct Er as (E1 & E2). split; [apply rev_sorted; exact E1|]. intros r Hr. apply in_rev in Hr. rewrite Forall_forall in E2. apply E2. exact Hr.
  Qed.
  Lemma extrema_safe ev (F : R -> R) x1 x2 : let a := lower x x1 x2 in let b := upper x x1 x2 in a < b -> (forall t, within x t -> ev t = Ok (F t)) ->
    exists L, findExtrema x ev rf x1 x2 = Ok (a :: L) /\ StronglySorted apart (a :: L) /\ forall r, In r L -> a <= r <= b.
  Proof.
    intros a b Hab Hev. unfold findExtrema. rewrite (proj2 (Z.eqb_neq (alen x) 0)) by lia. rewrite (interval_ok x ltac:(lia)). cbn [bind]. fold a b.
    destruct (bounds x x1 x2) as (B1 & B2). fold a in B1. fold b in B2. rewrite (Hev a) by (unfold within; lra). cbn [bind]. rewrite (Req_b_f a b) by lra.
    destruct (segments_ok x Hx Hn a b B1 Hab B2) as (i1 & i2 & -> & I0 & I12 & I2 & _). cbn [bind fst snd].
    set (J := fun st : extState => okl a b (fst (fst st)) /\ (fst (fst st) = [a] /\ snd st = 0 \/ exists p l, fst (fst st) = p :: l ++ [a] /\ snd st <> 0)).
    match goal with |- context [for_ i1 (i2 + 1) ?f ?s] => destruct (for_total (fun i st => J st) i1 (i2 + 1) f s) as (st & E & Er) end.
    - lia.
    - unfold J. cbn [fst snd]. split; [split; repeat constructor; lra|left; auto].
    - intros i st Hi Er. rewrite !aget_ok by lia. cbn [bind]. destruct (Hrf i ltac:(lia)) as (-> & Hl). cbn [bind]. rewrite (proj2 (Nat.ltb_ge 4 _)) by assumption.
      assert (T : a <= Rmax a (afn x i) /\ Rmin b (afn x (i + 1)%Z) <= b) by (split; [apply Rmax_l|apply Rmin_l]). set (t1 := Rmax _ _) in *. set (t2 := Rmin _ _) in *.
      match goal with |- context [foldRes _ ?L st] => generalize L end. intros l. revert st Er.
      induction l as [|r l IH]; intros st Er; [exists st; split; [reflexivity|exact Er]|]. cbn [foldRes].
      assert (P : exists st', pushExt ev t1 t2 st r = Ok st' /\ J st').
      { unfold pushExt. destruct st as [[res prev] sign]. destruct (admit_root t1 t2 res r) eqn:EA; [|eexists; split; [reflexivity|exact Er]]. apply admit_ok in EA. destruct EA as (A1 & A2).
        rewrite (Hev r) by (unfold within; lra). cbn [bind]. destruct Er as (Er & El). cbn [fst snd] in Er, El. destruct ((Rlt_b 0 sign && Rlt_b prev (F r)) || (Rlt_b sign 0 && Rlt_b (F r) prev)) eqn:ET.
        - eexists. split; [reflexivity|].
          assert (N0 : sign <> 0). { intros ->. unfold Rlt_b in ET. destruct (Rlt_dec 0 0); [lra|]. cbn in ET. discriminate. }
          destruct El as [(_ & E0)|(p & l0 & -> & _)]; [contradiction|]. unfold J. cbn [fst snd tl]. split; [|right; exists r, l0; auto].
          destruct Er as (E1 & E2). inversion E1 as [|? ? E3 E4]; subst. inversion E2; subst. apply okl_push; [split; assumption|lra|]. destruct (l0 ++ [a]) as [|q l1] eqn:EQ; [exact Logic.I|].
          inversion E4; subst. apply (apart_trans q p r); assumption.
        - destruct (negb (Req_b (F r) prev)); [|eexists; split; [reflexivity|split; cbn [fst snd]; assumption]]. eexists. split; [reflexivity|]. split; cbn [fst snd]; [apply okl_push; [exact Er|lra|exact A2]|]. right.
          assert (N1 : (if Rlt_b prev (F r) then 1 else -1) <> 0) by (destruct (Rlt_b prev (F r)); lra).
          destruct El as [(-> & _)|(p & l0 & -> & _)]; [exists r, []; auto|exists r, (p :: l0); auto]. }
      destruct P as (st' & -> & Hst). cbn [bind]. apply IH. exact Hst.
    - rewrite E. cbn [bind]. destruct Er as ((E1 & E2) & El).
      assert (exists l, fst (fst st) = l ++ [a]) as (l & EL) by (destruct El as [(-> & _)|(p & l & -> & _)]; [exists []; reflexivity|exists (p :: l); reflexivity]).
      exists (rev l). rewrite EL in *. rewrite rev_app_distr. cbn [rev app]. split; [reflexivity|]. split.
      + apply rev_sorted in E1. rewrite rev_app_distr in E1. exact E1.
      + intros r Hr. apply in_rev in Hr. rewrite Forall_forall in E2. apply E2, in_app_iff. left. exact Hr.
  Qed.
End Safe.

(** ---- linear interpolators ---- *)
Section Lin.
  Variables x f : arr R.
  Hypothesis Hx : increasing x.
  Hypothesis Hn : (2 <= alen x)%Z.
  Hypothesis Hf : alen f = alen x.
  Let F := lF x f.
  Lemma lin_node i : (0 <= i < alen x)%Z -> F (afn x i) = afn f i.
  Proof.
    intros Hi. unfold F. destruct (Z.eq_dec i (alen x - 1)) as [->|N].
    - pose proof (inc_lt x Hx (alen x - 2) (alen x - 1) ltac:(lia) ltac:(lia) ltac:(lia)). rewrite (lin_value x f Hx Hn (alen x - 2)); try lia; try (right; lra); try (left; lia). replace (alen x - 2 + 1)%Z with (alen x - 1)%Z by lia. field. lra.
    - pose proof (inc_lt x Hx i (i + 1) ltac:(lia) ltac:(lia) ltac:(lia)). rewrite (lin_value x f Hx Hn i); try lia; try (right; lra). field. lra.
  Qed.
  Lemma lin_slope i u v : (0 <= i <= alen x - 2)%Z -> afn x i <= u <= afn x (i + 1)%Z -> afn x i <= v <= afn x (i + 1)%Z ->
    F v - F u = (afn f (i + 1)%Z - afn f i) * ((v - u) / (afn x (i + 1)%Z - afn x i)).
  Proof.
    intros Hi Hu Hv. pose proof (inc_lt x Hx i (i + 1) ltac:(lia) ltac:(lia) ltac:(lia)). unfold F. rewrite (lin_value x f Hx Hn i u), (lin_value x f Hx Hn i v); try lia; try (right; lra). field. lra.
  Qed.
  Lemma lin_up i : (0 <= i <= alen x - 2)%Z -> afn f i <= afn f (i + 1)%Z -> non_decreasing F (afn x i) (afn x (i + 1)%Z).
  Proof.
    intros Hi H u v H1 H2 H3. pose proof (inc_lt x Hx i (i + 1) ltac:(lia) ltac:(lia) ltac:(lia)). pose proof (lin_slope i u v Hi ltac:(lra) ltac:(lra)) as E.
    assert (0 <= (v - u) / (afn x (i + 1)%Z - afn x i)) by (apply Rdiv_le_0_compat; lra). nra.
  Qed.
  Lemma lin_down i : (0 <= i <= alen x - 2)%Z -> afn f (i + 1)%Z <= afn f i -> non_increasing F (afn x i) (afn x (i + 1)%Z).
  Proof.
    intros Hi H u v H1 H2 H3. pose proof (inc_lt x Hx i (i + 1) ltac:(lia) ltac:(lia) ltac:(lia)). pose proof (lin_slope i u v Hi ltac:(lra) ltac:(lra)) as E.
    assert (0 <= (v - u) / (afn x (i + 1)%Z - afn x i)) by (apply Rdiv_le_0_compat; lra). nra.
  Qed.
  Lemma lin_ne i u v : (0 <= i <= alen x - 2)%Z -> afn x i <= u -> u < v -> v <= afn x (i + 1)%Z -> afn f (i + 1)%Z <> afn f i -> F v <> F u.
  Proof.
    intros Hi H1 H2 H3 N E. pose proof (inc_lt x Hx i (i + 1) ltac:(lia) ltac:(lia) ltac:(lia)). pose proof (lin_slope i u v Hi ltac:(lra) ltac:(lra)) as S1. rewrite E, Rminus_eq_0 in S1.
    assert (0 < (v - u) / (afn x (i + 1)%Z - afn x i)) by (apply Rdiv_lt_0_compat; lra). symmetry in S1. apply Rmult_integral in S1. destruct S1; lra.
  Qed.
  (** a node where the slope changes sign or becomes zero *)
  Definition turn_node (i : Z) : Prop := afn f i <> afn f (i - 1)%Z /\ (afn f i - afn f (i - 1)%Z) * (afn f (i + 1)%Z - afn f i) <= 0.
  Inductive pchain (a : R) : list R -> Prop :=
  | pc_one : pchain a [a]
  | pc_more p q l : pchain a (p :: l) -> p < q -> F p <> F q -> monotone F p q -> pchain a (q :: p :: l).
  Lemma pchain_pieces a p l : pchain a (p :: l) -> forall l2, monotone_pieces F (p :: l2) -> monotone_pieces F (rev l ++ p :: l2).
  Proof.
    intros H. remember (p :: l) as L eqn:EL. revert p l EL. induction H as [|p' q l' H IH L1 L2 L3]; intros p l EL l2 M; injection EL as <- <-; [exact M|].
    cbn [rev]. rewrite <- app_assoc. cbn [app]. apply (IH p' l' eq_refl). constructor; assumption.
  Qed.
  Lemma seg_mono i u v : (0 <= i <= alen x - 2)%Z -> afn x i <= u -> v <= afn x (i + 1)%Z -> monotone F u v /\ (afn f (i + 1)%Z = afn f i -> constant F u v).
  Proof.
    intros Hi Hu Hv. split.
    - destruct (Rle_dec (afn f i) (afn f (i + 1)%Z)); [left; intros p q H1 H2 H3; apply (lin_up i Hi); lra|right; intros p q H1 H2 H3; apply (lin_down i Hi); lra].
    - intros E p Hp. pose proof (lin_slope i u p Hi ltac:(lra) ltac:(lra)) as S1. rewrite E, Rminus_eq_0, Rmult_0_l in S1. lra.
  Qed.
  Lemma mono_sub u v p q : monotone F u v -> u <= p -> q <= v -> monotone F p q.
  Proof. intros [H|H] H1 H2; [left|right]; intros r t H3 H4 H5; apply H; lra. Qed.
  Lemma const_sub u v q : constant F u v -> q <= v -> constant F u q.
  Proof. intros H H2 r Hr. apply H. lra. Qed.
  Lemma pchain_first a L : pchain a L -> exists l', rev L = a :: l'.
  Proof. induction 1; [exists []; reflexivity|]. destruct IHpchain as (l' & E). cbn [rev] in *. rewrite E. cbn. eexists. reflexivity. Qed.
  Lemma lin_extrema x1 x2 : let a := lower x x1 x2 in let b := upper x x1 x2 in a < b -> (forall i, (0 < i < alen x - 1)%Z -> b <> afn x i) ->
    exists L, findExtremaBspline 1 x f x1 x2 = Ok L /\ turns_of F a b L /\
      (forall p, In p L -> p = a \/ p = b \/ exists i, (0 < i < alen x - 1)%Z /\ p = afn x i /\ a < p < b /\ turn_node i).
  Proof.
    intros a b Hab Hb. unfold findExtremaBspline. rewrite (proj2 (Z.eqb_neq (alen x) 0)) by lia. rewrite (interval_ok x ltac:(lia)). cbn [bind]. fold a b.
    destruct (bounds x x1 x2) as (B1 & B2). fold a in B1. fold b in B2. destruct (segments_ok x Hx Hn a b B1 Hab B2) as (i1 & i2 & ES & I0 & I12 & I2 & A1 & A2 & A3).
    unfold segments in ES. destruct (binSearchR a (alist x)) as [j1| | |]; try discriminate. cbn [bind] in *. destruct (binSearchR b (alist x)) as [j2| | |]; try discriminate. cbn [bind] in *.
    destruct (_ && _) in ES; [|discriminate]. injection ES as -> ->.
    rewrite (proj2 (Z.leb_le 0 i1)), (proj2 (Z.leb_le i2 _)) by lia. cbn [andb negb].
    assert (HB : afn x i2 < b).
    { destruct (Z.eq_dec i2 0) as [->|N]; [replace i1 with 0%Z in * by lia; lra|]. specialize (Hb i2 ltac:(lia)). lra. }
    set (T := fun p => p = a \/ exists i, (0 < i < alen x - 1)%Z /\ p = afn x i /\ a < p < b /\ turn_node i).
    set (J := fun i res => exists p l, res = p :: l /\ pchain a (p :: l) /\ a <= p <= Rmax a (afn x (i - 1)%Z) /\ monotone F p (afn x i) /\ (afn f i = afn f (i - 1)%Z -> constant F p (afn x i)) /\ Forall (fun q => a <= q <= p /\ T q) (p :: l)).
    (* a point near the end of the monotone part where the function differs *)
    assert (DIFF : forall i p q, (i1 <= i <= i2)%Z -> p <= Rmax a (afn x i) -> Rmax a (afn x i) < q -> q <= afn x (i + 1)%Z -> monotone F p q -> afn f (i + 1)%Z <> afn f i -> F p <> F q).
    { intros i p q Hi H1 H2 H3 M N E. apply (lin_ne i (Rmax a (afn x i)) q); try assumption; try lia; [apply Rmax_r|].
      pose proof (mono_const F p q M (eq_sym E) (Rmax a (afn x i)) ltac:(lra)). lra. }
    assert (LT : forall i, (i1 < i <= i2 + 1)%Z -> Rmax a (afn x (i - 1)%Z) < afn x i).
    { intros i Hi. pose proof (inc_lt x Hx (i - 1) i ltac:(lia) ltac:(lia) ltac:(lia)). pose proof (inc_le x Hx (i1 + 1) i ltac:(lia) ltac:(lia) ltac:(lia)). apply Rmax_lub_lt; lra. }
    match goal with |- context [for_ (i1 + 1) (i2 + 1) ?g ?s] => destruct (for_total J (i1 + 1) (i2 + 1) g s) as (res & E & p & l & -> & Hc & Hp & Hm & Hk & HF) end.
    - lia.
    - exists a, []. split; [reflexivity|]. split; [constructor|]. replace (i1 + 1 - 1)%Z with i1 by lia. split; [split; [lra|apply Rmax_l]|]. destruct (seg_mono i1 a (afn x (i1 + 1)%Z) ltac:(lia) ltac:(lra) ltac:(lra)) as (M1 & M2).
      split; [exact M1|]. split; [exact M2|]. constructor; [split; [lra|left; reflexivity]|constructor].
    - intros i res Hi (p & l & -> & Hc & Hp & Hm & Hk & HF). rewrite !(aget_ok f) by lia. cbn [bind Nat.eqb andb]. rewrite ?(aget_ok f) by lia. cbn [bind]. rewrite (aget_ok x) by lia. cbn [bind]. eexists. split; [reflexivity|].
      pose proof (LT i ltac:(lia)) as Li. assert (Xb : afn x i < b) by (pose proof (inc_le x Hx i i2 ltac:(lia) ltac:(lia) ltac:(lia)); lra). pose proof (Rmax_l a (afn x (i - 1)%Z)) as ML. pose proof (Rmax_r a (afn x (i - 1)%Z)) as MR.
      destruct (seg_mono i (afn x i) (afn x (i + 1)%Z) ltac:(lia) ltac:(lra) ltac:(lra)) as (M1 & M2). pose proof (inc_lt x Hx i (i + 1) ltac:(lia) ltac:(lia) ltac:(lia)) as Xi.
      unfold J. replace (i + 1 - 1)%Z with i by lia. replace (i - 1 + 1)%Z with i in * by lia.
      unfold Req_b. destruct (Req_EM_T (afn f i) (afn f (i - 1)%Z)) as [Eq|Ne]; cbn [negb andb].
      + exists p, l. split; [reflexivity|]. split; [exact Hc|]. split; [split; [lra|apply Rle_trans with (afn x i); [lra|apply Rmax_r]]|]. specialize (Hk Eq).
        split; [apply (mono_extend F p (afn x i)); try assumption; lra|]. split; [|exact HF]. intros Q u Hu. destruct (Rle_dec u (afn x i)); [apply Hk; lra|]. rewrite (M2 Q u) by lra. apply Hk. lra.
      + unfold Rle_b. destruct (Rle_dec ((afn f i - afn f (i - 1)%Z) * (afn f (i + 1)%Z - afn f i)) 0) as [Le|Gt].
        * exists (afn x i), (p :: l). split; [reflexivity|]. split.
          -- constructor; try assumption; try lra. apply (DIFF (i - 1)%Z); try lia; replace (i - 1 + 1)%Z with i by lia; try assumption; lra.
          -- split; [split; [lra|apply Rmax_r]|]. split; [exact M1|]. split; [exact M2|]. constructor.
             ++ split; [lra|]. right. exists i. split; [lia|]. split; [reflexivity|]. split; [lra|]. split; assumption.
             ++ eapply Forall_impl; [|exact HF]. cbn. intros q (Hq & Tq). split; [lra|exact Tq].
        * exists p, l. split; [reflexivity|]. split; [exact Hc|]. split; [split; [lra|apply Rle_trans with (afn x i); [lra|apply Rmax_r]]|].
          set (c := Rmax a (afn x (i - 1)%Z)) in *. pose proof (lin_slope (i - 1) c (afn x i) ltac:(lia)) as S1. replace (i - 1 + 1)%Z with i in S1 by lia. specialize (S1 ltac:(lra) ltac:(lra)).
          assert (P : 0 < (afn x i - c) / (afn x i - afn x (i - 1)%Z)) by (apply Rdiv_lt_0_compat; lra). split; [|split; [|exact HF]].
          -- destruct (Rlt_dec 0 (afn f i - afn f (i - 1)%Z)) as [Pos|Neg].
             ++ left. apply (nd_trans F p (afn x i)); try lra; [|apply lin_up; [lia|nra]]. destruct Hm as [Hm|Hm]; [exact Hm|]. pose proof (Hm c (afn x i) ltac:(lra) ltac:(lra) ltac:(lra)). nra.
             ++ right. apply (ni_trans F p (afn x i)); try lra; [|apply lin_down; [lia|nra]]. destruct Hm as [Hm|Hm]; [|exact Hm]. pose proof (Hm c (afn x i) ltac:(lra) ltac:(lra) ltac:(lra)). nra.
          -- intros Q. exfalso. apply Gt. rewrite Q, Rminus_eq_0. lra.
    - rewrite E. cbn [bind Nat.eqb]. rewrite (aget_ok x) by lia. cbn [bind]. unfold Rlt_b. destruct (Rlt_dec (afn x i2) b) as [_|]; [|lra]. rewrite !(aget_ok f) by lia. cbn [bind].
      replace (i2 + 1 - 1)%Z with i2 in * by lia. assert (Lb : Rmax a (afn x i2) < b) by (apply Rmax_lub_lt; lra).
      unfold Req_b. destruct (Req_EM_T (afn f (i2 + 1)%Z) (afn f i2)) as [Eq|Ne]; cbn [negb].
      + exists (rev (p :: l)). split; [reflexivity|]. split; [split; [apply pchain_first; exact Hc|split; [cbn [rev]; apply (pchain_pieces a p l Hc), mp_one|split]]|].
        * intros q Hq. apply in_rev in Hq. rewrite Forall_forall in HF. apply HF in Hq. lra.
        * cbn [rev]. rewrite last_last. apply (const_sub p (afn x (i2 + 1)%Z)); [apply Hk; exact Eq|lra].
        * intros q Hq. apply in_rev in Hq. rewrite Forall_forall in HF. apply HF in Hq. destruct Hq as (_ & [Hq|Hq]); auto.
      + exists (rev (b :: p :: l)). split; [reflexivity|].
        assert (Hc2 : pchain a (b :: p :: l)).
        { constructor; [exact Hc|lra| |apply (mono_sub p (afn x (i2 + 1)%Z)); [exact Hm|lra|lra]]. apply (DIFF i2); try lia; try lra; try assumption. apply (mono_sub p (afn x (i2 + 1)%Z)); [exact Hm|lra|lra]. }
        split; [split; [apply pchain_first; exact Hc2|split; [change (rev (b :: p :: l)) with (rev (p :: l) ++ [b]); apply (pchain_pieces a b (p :: l) Hc2), mp_one|split]]|].
        * intros q Hq. apply in_rev in Hq. rewrite Forall_forall in HF. destruct Hq as [<-|Hq]; [lra|]. apply HF in Hq. lra.
        * change (rev (b :: p :: l)) with (rev (p :: l) ++ [b]). rewrite last_last. intros u Hu. f_equal. lra.
        * intros q Hq. apply in_rev in Hq. destruct Hq as [<-|Hq]; [auto|]. rewrite Forall_forall in HF. apply HF in Hq. destruct Hq as (_ & [Hq|Hq]); auto.
  Qed.
  (** with no plateaus, each such node is a strict local extremum *)
  Lemma turn_strict i a b : (0 < i < alen x - 1)%Z -> a < afn x i < b -> turn_node i -> afn f (i + 1)%Z <> afn f i -> strict_extremum F a b (afn x i).
  Proof.
    intros Hi Hab (N & P) N2. split; [exact Hab|]. pose proof (inc_lt x Hx (i - 1) i ltac:(lia) ltac:(lia) ltac:(lia)) as L1. pose proof (inc_lt x Hx i (i + 1) ltac:(lia) ltac:(lia) ltac:(lia)) as L2.
    exists (Rmin (afn x i - afn x (i - 1)%Z) (afn x (i + 1)%Z - afn x i)). split; [apply Rmin_pos; lra|].
    pose proof (Rmin_l (afn x i - afn x (i - 1)%Z) (afn x (i + 1)%Z - afn x i)) as R1. pose proof (Rmin_r (afn x i - afn x (i - 1)%Z) (afn x (i + 1)%Z - afn x i)) as R2. set (e := Rmin _ _) in *.
    assert (K : forall t, 0 < Rabs (t - afn x i) < e -> (exists s, 0 < s /\ F t - F (afn x i) = - (afn f i - afn f (i - 1)%Z) * s) \/ (exists s, 0 < s /\ F t - F (afn x i) = (afn f (i + 1)%Z - afn f i) * s)).
    { intros t Ht. destruct (Rlt_dec t (afn x i)) as [L|L].
      - left. rewrite Rabs_left in Ht by lra. pose proof (lin_slope (i - 1) t (afn x i) ltac:(lia)) as S1. replace (i - 1 + 1)%Z with i in S1 by lia. specialize (S1 ltac:(lra) ltac:(lra)).
        exists ((afn x i - t) / (afn x i - afn x (i - 1)%Z)). split; [apply Rdiv_lt_0_compat; lra|lra].
      - right. rewrite Rabs_right in Ht by lra. pose proof (lin_slope i (afn x i) t ltac:(lia) ltac:(lra) ltac:(lra)) as S1. exists ((t - afn x i) / (afn x (i + 1)%Z - afn x i)). split; [apply Rdiv_lt_0_compat; lra|exact S1]. }
    assert (N' : afn f i - afn f (i - 1)%Z <> 0) by lra. assert (N2' : afn f (i + 1)%Z - afn f i <> 0) by lra.
    destruct (Rlt_dec 0 (afn f i - afn f (i - 1)%Z)) as [Pos|Neg].
    - left. assert (afn f (i + 1)%Z - afn f i < 0) by nra. intros t Ht. destruct (K t Ht) as [(s & Hs & E)|(s & Hs & E)]; nra.
    - right. assert (0 < afn f (i + 1)%Z - afn f i) by nra. intros t Ht. destruct (K t Ht) as [(s & Hs & E)|(s & Hs & E)]; nra.
  Qed.
End Lin.
