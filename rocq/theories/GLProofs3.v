From Coquelicot Require Import Coquelicot.
From Verif Require Import Arr PolyModel PolyProofs RootProofs SplIntModel SplIntProofs SplIntProofs2 GLModel GLProofs GLProofs2 SplIntSpec.
Local Open Scope R_scope.
(** the rule written by prepareIntegrationTableGL *)
Definition symTab (n : nat) : gltab :=
  let e k := match glRule (Z.of_nat n) with Some l => symEntry n l (Z.to_nat k) | None => (0, 0)%Z end in
  mkGL (fun _ k => frac64 (fst (e k))) (fun _ k => frac64 (snd (e k))).
Lemma symRule_nth n l j : (j < n)%nat -> nth j (symRule n l) (0, 0)%Z = symEntry n l j.
Proof. intros H. unfold symRule. rewrite (nth_indep _ (0, 0)%Z (symEntry n l 0)) by (rewrite map_length, seq_length; exact H). rewrite (map_nth (symEntry n l)). rewrite seq_nth by exact H. reflexivity. Qed.
Lemma sym_facts n : In n orders ->
  (forall j, (0 <= j < Z.of_nat n)%Z -> 0 < glp (symTab n) (Z.of_nat n) j < 1 /\ 0 < glw (symTab n) (Z.of_nat n) j) /\
  (forall i j, (0 <= i < j)%Z -> (j < Z.of_nat n)%Z -> glp (symTab n) (Z.of_nat n) i < glp (symTab n) (Z.of_nat n) j) /\
  rule_within (symTab n) (Z.of_nat n) eps_gl.
Proof.
  intros H. destruct (order_rule n H) as (l & E & _ & C). destruct (mcheck_ok n _ C) as (L & G & I & M). unfold symTab. cbn [glp glw]. rewrite E.
  assert (A : forall j, (0 <= j < Z.of_nat n)%Z -> 0 < frac64 (fst (symEntry n l (Z.to_nat j))) < 1 /\ 0 < frac64 (snd (symEntry n l (Z.to_nat j)))) by (intros j Hj; rewrite <- symRule_nth by lia; apply G; lia).
  split; [exact A|]. split.
  - intros i j Hij Hj. rewrite <- !symRule_nth by lia. apply I. lia.
  - split; cbn [glp glw].
    + intros j Hj. pose proof (A j Hj). lra.
    + intros k Hk. specialize (M k ltac:(lia)). erewrite zsum_ext; [exact M|]. intros j Hj. cbv beta. rewrite symRule_nth by lia. reflexivity.
Qed.
(** what each element of the table holds after [i] iterations *)
Definition wr (n i j : Z) : Z := let j' := (n - 1 - j)%Z in if ((j' <? i) && ((j <=? j') || (i <=? j)))%Z then 1%Z else if (j <? i)%Z then 0%Z else 2%Z.
Lemma prepare_ok newton x1 x2 n nodes weights : In n orders -> alen nodes = Z.of_nat n -> alen weights = Z.of_nat n ->
  exists xs ws, prepareTable newton x1 x2 (Z.of_nat n) nodes weights = Ok (xs, ws) /\ alen xs = Z.of_nat n /\ alen ws = Z.of_nat n /\
    forall j, (0 <= j < Z.of_nat n)%Z -> afn xs j = x1 + glp (symTab n) (Z.of_nat n) j * (x2 - x1) /\ afn ws j = glw (symTab n) (Z.of_nat n) j * (x2 - x1).
Proof.
  intros H Ln Lw. destruct (order_rule n H) as (l & E & C & _). destruct (mcheck_ok n l C) as (Ll & _). destruct (rule_facts n H) as (G & _).
  assert (N1 : (1 <= n <= 40)%nat). { unfold orders in H. cbn in H. repeat (destruct H as [<-|H]; [lia|]). destruct H. }
  unfold prepareTable. unfold MAX_GL_ORDER. rewrite (proj2 (Z.leb_le _ 40)), (proj2 (Z.ltb_ge _ 0)) by lia. cbn [andb]. cbv zeta. rewrite E.
  set (m := Z.of_nat n) in *. rewrite Z.quot_div_nonneg by lia.
  set (p := glp glTab m) in *. set (w := glw glTab m) in *.
  destruct (for_total (fun i (st : arr R * arr R) => alen (fst st) = m /\ alen (snd st) = m /\ forall j, (0 <= j < m)%Z ->
      (wr m i j = 0%Z -> afn (fst st) j = x1 + p j * (x2 - x1) /\ afn (snd st) j = w j * (x2 - x1)) /\
      (wr m i j = 1%Z -> afn (fst st) j = x2 - p (m - 1 - j)%Z * (x2 - x1) /\ afn (snd st) j = w (m - 1 - j)%Z * (x2 - x1)))
    0%Z (m / 2 + 1)%Z (fun i (st : arr R * arr R) => let (nodes, weights) := st in pw <- glAt m i ;;
      nodes <- aset nodes i (x1 + fst pw * (x2 - x1)) ;; nodes <- aset nodes (m - 1 - i) (x2 - fst pw * (x2 - x1)) ;;
      weights <- aset weights (m - 1 - i) (snd pw * (x2 - x1)) ;; weights <- aset weights i (snd pw * (x2 - x1)) ;; Ok (nodes, weights)) (nodes, weights)) as ([xs ws] & Ef & Lx & Lv & V).
  - pose proof (Z.div_pos m 2 ltac:(lia) ltac:(lia)). lia.
  - cbn [fst snd]. split; [exact Ln|]. split; [exact Lw|]. intros j Hj. unfold wr. destruct (Z.ltb_spec (m - 1 - j) 0); [lia|]. destruct (Z.ltb_spec j 0); [lia|]. cbn [andb]. split; discriminate.
  - intros i [xs ws] Hi (A & B & V). cbn [fst snd] in *. pose proof (Z.div_lt m 2 ltac:(lia) ltac:(lia)) as D1. assert (Hi' : (0 <= i < m)%Z). { pose proof (Z.div_le_upper_bound m 2 (m - 1)%Z ltac:(lia)). destruct (Z.eq_dec m 1) as [e1|e1]; [rewrite e1 in *; change (1 / 2)%Z with 0%Z in Hi|]; lia. }
    destruct (G i Hi') as (-> & _). cbn [bind fst snd]. rewrite (aset_ok xs) by lia. cbn [bind]. rewrite aset_ok by (cbn [alen]; lia). cbn [bind alen afn]. rewrite (aset_ok ws) by lia. cbn [bind]. rewrite aset_ok by (cbn [alen]; lia). cbn [bind alen afn].
    eexists. split; [reflexivity|]. cbn [fst snd alen afn]. split; [exact A|]. split; [exact B|]. intros j Hj. specialize (V j Hj). fold p w. unfold upd. unfold wr in *.
    destruct (Z.eqb_spec j (m - 1 - i)) as [Ea|Ea].
    + replace (m - 1 - j)%Z with i by lia. rewrite (proj2 (Z.ltb_lt i (i + 1))) by lia. cbn [andb].
      assert (T : ((j <=? i) || (i + 1 <=? j))%Z = true). { destruct (Z.leb_spec j i); [reflexivity|]. cbn [orb]. apply Z.leb_le. lia. }
      rewrite T. split; [discriminate|]. intros _. split; [reflexivity|]. destruct (Z.eqb_spec j i); reflexivity.
    + destruct (Z.eqb_spec j i) as [Eb|Eb].
      * subst j. rewrite (proj2 (Z.ltb_lt i (i + 1))) by lia. destruct (Z.ltb_spec (m - 1 - i) (i + 1)); cbn [andb].
        -- destruct (Z.leb_spec i (m - 1 - i)); [lia|]. destruct (Z.leb_spec (i + 1) i); [lia|]. cbn [orb]. split; [split; reflexivity|discriminate].
        -- split; [split; reflexivity|discriminate].
      * replace (m - 1 - j <? i + 1)%Z with (m - 1 - j <? i)%Z by (destruct (Z.ltb_spec (m - 1 - j) i), (Z.ltb_spec (m - 1 - j) (i + 1)); lia).
        replace (i + 1 <=? j)%Z with (i <=? j)%Z by (destruct (Z.leb_spec i j), (Z.leb_spec (i + 1) j); lia).
        replace (j <? i + 1)%Z with (j <? i)%Z by (destruct (Z.ltb_spec j i), (Z.ltb_spec j (i + 1)); lia). exact V.
  - exists xs, ws. split; [exact Ef|]. cbn [fst snd] in *. split; [exact Lx|]. split; [exact Lv|]. intros j Hj. destruct (V j Hj) as (V0 & V1). clear V.
    unfold symTab. cbn [glp glw]. unfold m in *. rewrite E. unfold symEntry, direct.
    assert (Pj : forall j, p j = frac64 (fst (nth (Z.to_nat j) l (0, 0)%Z)) /\ w j = frac64 (snd (nth (Z.to_nat j) l (0, 0)%Z))) by (intros; unfold p, w, glTab, glEntry; cbn [glp glw]; rewrite E; split; reflexivity).
    assert (Dv : Z.of_nat (n / 2) = (Z.of_nat n / 2)%Z) by (rewrite Nat2Z.inj_div; reflexivity).
    unfold wr in *. set (h := (Z.of_nat n / 2)%Z) in *.
    assert (Db : ((Z.to_nat j <=? n / 2)%nat && ((n / 2 <? n - 1 - Z.to_nat j)%nat || (n - 1 - Z.to_nat j <? Z.to_nat j)%nat))%bool = ((j <=? h) && ((h <? Z.of_nat n - 1 - j) || (Z.of_nat n - 1 - j <? j)))%Z).
    { f_equal; [|f_equal].
      - destruct (Nat.leb_spec (Z.to_nat j) (n / 2)), (Z.leb_spec j h); lia.
      - destruct (Nat.ltb_spec (n / 2) (n - 1 - Z.to_nat j)), (Z.ltb_spec h (Z.of_nat n - 1 - j)); lia.
      - destruct (Nat.ltb_spec (n - 1 - Z.to_nat j) (Z.to_nat j)), (Z.ltb_spec (Z.of_nat n - 1 - j) j); lia. }
    rewrite Db. clear Db. pose proof (Z.div_mod (Z.of_nat n) 2 ltac:(lia)) as Dm. pose proof (Z.mod_pos_bound (Z.of_nat n) 2 ltac:(lia)) as Db. fold h in Dm.
    replace (n - 1 - Z.to_nat j)%nat with (Z.to_nat (Z.of_nat n - 1 - j)) by lia.
    destruct (Z.leb_spec j h), (Z.ltb_spec h (Z.of_nat n - 1 - j)), (Z.ltb_spec (Z.of_nat n - 1 - j) j), (Z.ltb_spec (Z.of_nat n - 1 - j) (h + 1)), (Z.leb_spec j (Z.of_nat n - 1 - j)), (Z.leb_spec (h + 1) j), (Z.ltb_spec j (h + 1)); try lia; cbn [andb orb] in *;
      (first [ destruct (V0 eq_refl) as (-> & ->); destruct (Pj j) as (-> & ->); split; reflexivity
             | destruct (V1 eq_refl) as (-> & ->); destruct (Pj (Z.of_nat n - 1 - j)%Z) as (-> & ->); destruct (nth (Z.to_nat (Z.of_nat n - 1 - j)) l (0, 0)%Z) as [a b]; cbn [fst snd]; split; [|reflexivity];
               unfold frac64; rewrite minus_IZR, <- p64; pose proof p64p; field; lra ]).
Qed.
