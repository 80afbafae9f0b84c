From Coq Require Import Sorting.Sorted Permutation Nsatz Lra Psatz.
From Verif Require Import PolyModel PolyProofs PolyProofs2.
Local Open Scope R_scope.

Definition quart (c3 c2 c1 c0 x : R) : R := x * x * x * x + c3 * (x * x * x) + c2 * (x * x) + c1 * x + c0.
Definition m2f (c3 c2 w : R) : R := 1 / 4 * c3 * c3 - c2 + w.
Definition z2f (c0 w : R) : R := 1 / 4 * pow_2 w - c0.
Definition kap (c3 c1 w : R) : R := 1 / 4 * (c3 * w - 2 * c1).
Definition resolvent (c3 c2 c1 c0 w : R) : Prop :=
  pow_3 w + (- c2) * pow_2 w + (c1 * c3 - 4 * c0) * w + ((4 * c2 - c3 * c3) * c0 - c1 * c1) = 0.

Lemma resolvent_mz c3 c2 c1 c0 w : resolvent c3 c2 c1 c0 w -> m2f c3 c2 w * z2f c0 w = kap c3 c1 w * kap c3 c1 w.
Proof.
  unfold resolvent, m2f, z2f, kap, pow_3, pow_2. intros H.
  apply Rminus_diag_uniq. rewrite <- (Rmult_0_r (1 / 4)), <- H. field.
Qed.

(** a simple real root makes every root of the resolvent usable *)
Lemma simple_root_valid c3 c2 c1 c0 w x : resolvent c3 c2 c1 c0 w -> quart c3 c2 c1 c0 x = 0 ->
  4 * (x * x * x) + 3 * c3 * (x * x) + 2 * c2 * x + c1 <> 0 -> 0 <= m2f c3 c2 w /\ 0 <= z2f c0 w.
Proof.
  intros H0 Hx Hs. pose proof (resolvent_mz _ _ _ _ _ H0) as K. clear H0.
  set (m2 := m2f c3 c2 w) in *. set (z2 := z2f c0 w) in *. set (k := kap c3 c1 w) in *.
  set (g := x * x + 1 / 2 * c3 * x + 1 / 2 * w).
  assert (E : quart c3 c2 c1 c0 x = g * g - (m2 * (x * x) + 2 * k * x + z2)).
  { unfold quart, g, m2, z2, k, m2f, z2f, kap, pow_2. field. }
  assert (E' : 4 * (x * x * x) + 3 * c3 * (x * x) + 2 * c2 * x + c1 = 2 * g * (2 * x + 1 / 2 * c3) - (2 * m2 * x + 2 * k)).
  { unfold g, m2, k, m2f, kap. field. }
  rewrite E in Hx. pose proof (Rle_0_sqr g) as G. unfold Rsqr in G. pose proof (Rle_0_sqr k) as KK. unfold Rsqr in KK.
  destruct (Rlt_le_dec m2 0) as [M|M].
  - exfalso. apply Hs. rewrite E'.
    assert (F : m2 * (m2 * (x * x) + 2 * k * x + z2) = (m2 * x + k) * (m2 * x + k)) by (transitivity (m2 * m2 * (x * x) + 2 * m2 * k * x + m2 * z2); [ring|rewrite K; ring]).
    pose proof (Rle_0_sqr (m2 * x + k)) as F2. unfold Rsqr in F2.
    assert (GG : m2 * (g * g) = (m2 * x + k) * (m2 * x + k)) by (rewrite <- F; f_equal; lra).
    assert (g * g = 0) by nra. assert (g0 : g = 0) by (apply Rmult_integral in H; destruct H; assumption).
    rewrite g0 in GG. assert (F3 : (m2 * x + k) * (m2 * x + k) = 0) by lra. apply Rmult_integral in F3. rewrite g0. destruct F3; lra.
  - split; [exact M|]. destruct (Rlt_le_dec z2 0) as [Z|Z]; [|exact Z]. exfalso.
    assert (m0 : m2 = 0) by nra. assert (k0 : k * k = 0) by (rewrite <- K, m0; ring). assert (k1 : k = 0) by (apply Rmult_integral in k0; destruct k0; assumption).
    rewrite m0, k1 in Hx. lra.
Qed.

Lemma quart_factor c3 c2 c1 c0 w m z x : m * m = m2f c3 c2 w -> z * z = z2f c0 w -> m * z = kap c3 c1 w ->
  quart c3 c2 c1 c0 x = (x * x + (1 / 2 * c3 - m) * x + (1 / 2 * w - z)) * (x * x + (1 / 2 * c3 + m) * x + (1 / 2 * w + z)).
Proof.
  intros M Z K. unfold m2f, z2f, kap, pow_2 in *.
  transitivity (x * x * x * x + c3 * (x * x * x) + (w + 1 / 4 * c3 * c3 - m * m) * (x * x) + (1 / 2 * c3 * w - 2 * (m * z)) * x + (1 / 4 * (w * w) - z * z)); [|field].
  rewrite M, Z, K. unfold quart. field.
Qed.

Definition chosen (c3 c2 c0 : R) (l : list R) (o : option (R * R * R)) : Prop :=
  match o with None => True | Some (w, m, z) => In w l /\ 0 <= m2f c3 c2 w /\ 0 <= z2f c0 w /\ m = sqrt (m2f c3 c2 w) /\ z = sqrt (z2f c0 w) end.
Lemma choice_fold c3 c2 c0 b2 b1 b0 l : forall l0 st, chosen c3 c2 c0 l0 (fst st) ->
  chosen c3 c2 c0 (l0 ++ l) (fst (fold_left (quarticChoice c3 c2 c0 b2 b1 b0) l st)).
Proof.
  induction l as [|w l IH]; intros l0 st H; [rewrite app_nil_r; exact H|]. cbn [fold_left].
  replace (l0 ++ w :: l)%list with ((l0 ++ [w]) ++ l)%list by (rewrite <- app_assoc; reflexivity). apply IH.
  assert (W : chosen c3 c2 c0 (l0 ++ [w]) (fst st)).
  { destruct (fst st) as [[[w' m] z]|]; cbn in *; [|exact H]. destruct H as [A B]. split; [apply in_or_app; left; exact A|exact B]. }
  unfold quarticChoice. destruct (errLe _ _); [|exact W]. cbn [fst]. fold (m2f c3 c2 w) (z2f c0 w).
  destruct (Rle_b 0 (m2f c3 c2 w)) eqn:E1; [|exact W]. destruct (Rle_b 0 (z2f c0 w)) eqn:E2; [|exact W]. cbn [andb chosen].
  apply Rle_b_spec in E1, E2. split; [apply in_or_app; right; left; reflexivity|]. auto.
Qed.
Lemma choice_some c3 c2 c0 b2 b1 b0 l : forall st, (forall w, In w l -> 0 <= m2f c3 c2 w /\ 0 <= z2f c0 w) ->
  (fst st <> None \/ (l <> [] /\ snd st = None)) -> fst (fold_left (quarticChoice c3 c2 c0 b2 b1 b0) l st) <> None.
Proof.
  induction l as [|w l IH]; intros st V H. { destruct H as [H|[H _]]; [exact H|congruence]. }
  cbn [fold_left]. apply IH; [intros; apply V; right; assumption|]. left.
  destruct (V w (or_introl eq_refl)) as [V1 V2]. unfold quarticChoice. fold (m2f c3 c2 w) (z2f c0 w). rewrite (Rle_b_t _ _ V1), (Rle_b_t _ _ V2). cbn [andb].
  destruct (errLe (resolventErr b2 b1 b0 w) (snd st)) eqn:E; [cbn; discriminate|].
  destruct H as [H|[_ H]]; [exact H|]. rewrite H in E. unfold errLe in E. destruct (resolventErr b2 b1 b0 w); discriminate.
Qed.
Lemma solveCubic_nonempty a2 a1 a0 : solveCubic 1 a2 a1 a0 <> [].
Proof.
  unfold solveCubic. rewrite (Req_b_f 1 0) by lra. cbv zeta. destruct (Req_b _ 0 && Req_b _ 0); [discriminate|].
  intros E. apply (f_equal (@length R)) in E. assert (L : forall s Q Rr, (1 <= length (cubicRoots s Q Rr) <= 3)%nat).
  { intros. unfold cubicRoots. cbv zeta. destruct (Rle_b _ _); [cbn; lia|]. destruct (Rlt_b _ _); cbn; lia. }
  set (l := cubicRoots _ _ _) in E. assert (Ll := L (cubicS 1 a2) (cubicQ 1 a2 a1) (cubicR 1 a2 a1 a0)). fold l in Ll.
  destruct (sort3_perm (map (polishRoot 3 (coef [a0; a1; a2; 1])) l)) as [P _]; [rewrite map_length; lia|]. apply Permutation_length in P. rewrite map_length in P. cbn [length] in E. lia.
Qed.

(** removal of duplicates *)
Definition near (r x : R) : Prop := 0 <= x - r <= 2 * deps * Rabs x.
Definition notriple (l : list R) : Prop := forall i, (i + 2 < length l)%nat -> nth i l 0 < nth (i + 2) l 0.
Lemma near_refl x : near x x. Proof. unfold near. pose proof deps_pos. pose proof (Rabs_pos x). split; [lra|]. rewrite Rminus_diag_eq by reflexivity. apply Rmult_le_pos; lra. Qed.
Lemma dedup_ok l : (length l <= 4)%nat -> Sorted Rle l -> notriple l ->
  StronglySorted Rlt (dedup l) /\ incl (dedup l) l /\ (forall x, In x l -> exists r, In r (dedup l) /\ near r x).
Proof.
  intros L S T.
  assert (TP : forall x y, x <= y -> Rle_b (y - x) (2 * deps * Rabs y) = true -> near x y) by (intros x y A B; apply Rle_b_spec in B; unfold near; lra).
  assert (TN : forall x y, Rle_b (y - x) (2 * deps * Rabs y) = false -> x < y).
  { intros x y B. unfold Rle_b in B. destruct (Rle_dec _ _) as [C|C]; [discriminate|]. pose proof deps_pos. pose proof (Rabs_pos y). assert (0 <= 2 * deps * Rabs y) by (apply Rmult_le_pos; lra). lra. }
  assert (NR := near_refl).
  destruct l as [|x [|y [|z [|w [|v l]]]]]; [| | | | |cbn in L; lia]; unfold dedup; cbn [length].
  - cbn. split; [constructor|split; [intros ? []|intros ? []]].
  - cbn. split; [repeat constructor|split; [intros ? H; exact H|intros q H; exists q; auto]].
  - inversion S as [|? ? _ HS1]; subst. inversion HS1; subst. cbn [dedupLoop length Nat.ltb Nat.leb nth Nat.sub].
    destruct (Rle_b (y - x) (2 * deps * Rabs y)) eqn:E1; cbn [firstn skipn app length Nat.ltb Nat.leb].
    + split; [repeat constructor|split; [intros q [<-|[]]; cbn; auto|]]. intros q [<-|[<-|[]]]; exists x; cbn; auto.
    + apply TN in E1. split; [repeat constructor; assumption|split; [intros q; auto|]]. intros q Hq. exists q; auto.
  - apply Sorted_StronglySorted in S; [|intros a b c; lra]. inversion S as [|? ? S1 F1]; subst. inversion S1 as [|? ? S2 F2]; subst. inversion S2; subst.
    pose proof (T 0%nat ltac:(cbn; lia)) as T0. cbn in T0. rewrite Forall_forall in F1, F2.
    pose proof (F1 y ltac:(cbn; auto)). pose proof (F2 z ltac:(cbn; auto)).
    cbn [dedupLoop length Nat.ltb Nat.leb nth Nat.sub].
    destruct (Rle_b (y - x) (2 * deps * Rabs y)) eqn:E1; cbn [firstn skipn app length Nat.ltb Nat.leb nth Nat.sub].
    + split; [repeat constructor; lra|split; [intros q [<-|[<-|[]]]; cbn; auto|]]. intros q [<-|[<-|[<-|[]]]]; [exists x|exists x|exists z]; cbn; auto.
    + apply TN in E1. destruct (Rle_b (z - y) (2 * deps * Rabs z)) eqn:E2; cbn [firstn skipn app length Nat.ltb Nat.leb nth Nat.sub].
      * split; [repeat constructor; lra|split; [intros q [<-|[<-|[]]]; cbn; auto|]]. intros q [<-|[<-|[<-|[]]]]; [exists x|exists y|exists y]; cbn; auto.
      * apply TN in E2. split; [repeat constructor; lra|split; [intros q; auto|]]. intros q Hq. exists q; auto.
  - apply Sorted_StronglySorted in S; [|intros a b c; lra]. inversion S as [|? ? S1 F1]; subst. inversion S1 as [|? ? S2 F2]; subst. inversion S2 as [|? ? S3 F3]; subst.
    pose proof (T 0%nat ltac:(cbn; lia)) as T0. pose proof (T 1%nat ltac:(cbn; lia)) as T1. cbn in T0, T1. rewrite Forall_forall in F1, F2, F3.
    pose proof (F1 y ltac:(cbn; auto)). pose proof (F2 z ltac:(cbn; auto)). pose proof (F3 w ltac:(cbn; auto)).
    cbn [dedupLoop length Nat.ltb Nat.leb nth Nat.sub].
    destruct (Rle_b (y - x) (2 * deps * Rabs y)) eqn:E1; cbn [firstn skipn app length Nat.ltb Nat.leb nth Nat.sub].
    + destruct (Rle_b (w - z) (2 * deps * Rabs w)) eqn:E2; cbn [firstn skipn app length Nat.ltb Nat.leb nth Nat.sub].
      * split; [repeat constructor; lra|split; [intros q [<-|[<-|[]]]; cbn; auto|]]. intros q [<-|[<-|[<-|[<-|[]]]]]; [exists x|exists x|exists z|exists z]; cbn; auto.
      * apply TN in E2. split; [repeat constructor; lra|split; [intros q [<-|[<-|[<-|[]]]]; cbn; auto|]]. intros q [<-|[<-|[<-|[<-|[]]]]]; [exists x|exists x|exists z|exists w]; cbn; auto.
    + apply TN in E1. destruct (Rle_b (z - y) (2 * deps * Rabs z)) eqn:E2; cbn [firstn skipn app length Nat.ltb Nat.leb nth Nat.sub].
      * split; [repeat constructor; lra|split; [intros q [<-|[<-|[<-|[]]]]; cbn; auto|]]. intros q [<-|[<-|[<-|[<-|[]]]]]; [exists x|exists y|exists y|exists w]; cbn; auto.
      * apply TN in E2. destruct (Rle_b (w - z) (2 * deps * Rabs w)) eqn:E3; cbn [firstn skipn app length Nat.ltb Nat.leb nth Nat.sub].
        -- split; [repeat constructor; lra|split; [intros q [<-|[<-|[<-|[]]]]; cbn; auto|]]. intros q [<-|[<-|[<-|[<-|[]]]]]; [exists x|exists y|exists z|exists z]; cbn; auto.
        -- apply TN in E3. split; [repeat constructor; lra|split; [intros q; auto|]]. intros q Hq. exists q; auto.
Qed.

Lemma notriple_perm l la lb : Sorted Rle l -> Permutation l (la ++ lb) -> NoDup la -> NoDup lb -> notriple l.
Proof.
  intros S P Na Nb i Hi. apply Sorted_StronglySorted in S; [|intros a b c; lra].
  assert (M : forall i j, (i <= j < length l)%nat -> nth i l 0 <= nth j l 0).
  { clear - S. induction S as [|a l S IH F]; intros i j H; [cbn in H; lia|]. destruct i, j; cbn; try lra; try lia.
    - rewrite Forall_forall in F. apply F, nth_In. cbn in H; lia.
    - apply IH. cbn in H. lia. }
  destruct (Rle_lt_or_eq_dec _ _ (M i (i + 2)%nat ltac:(lia))) as [H|H]; [exact H|]. exfalso.
  pose proof (M i (i + 1)%nat ltac:(lia)). pose proof (M (i + 1)%nat (i + 2)%nat ltac:(lia)).
  assert (E1 : nth (i + 1) l 0 = nth i l 0) by lra. assert (E2 : nth (i + 2) l 0 = nth i l 0) by lra. set (v := nth i l 0) in *.
  pose proof (proj1 (Permutation_count_occ Req_EM_T _ _) P v) as C. rewrite count_occ_app in C.
  pose proof (proj1 (NoDup_count_occ Req_EM_T la) Na v). pose proof (proj1 (NoDup_count_occ Req_EM_T lb) Nb v).
  assert (3 <= count_occ Req_EM_T l v)%nat; [|lia].
  assert (D : l = firstn i l ++ v :: v :: v :: skipn (i + 3) l).
  { clear - Hi E1 E2. unfold v in *; clear v. revert l Hi E1 E2. induction i as [|i IH]; intros l Hi E1 E2.
    - destruct l as [|a [|b [|c l]]]; cbn in *; try lia. subst; reflexivity.
    - destruct l as [|a l]; [cbn in Hi; lia|]. cbn [firstn skipn plus app nth] in *. f_equal. cbn in Hi. apply IH; [lia|exact E1|exact E2]. }
  rewrite D, count_occ_app. cbn. destruct (Req_EM_T v v); [lia|congruence].
Qed.

Lemma solveQuartic_gen a4 a3 a2 a1 a0 : a4 <> 0 ->
  let c3 := a3 / a4 in let c2 := a2 / a4 in let c1 := a1 / a4 in let c0 := a0 / a4 in
  cubicOk (cubicQ 1 (- c2) (c1 * c3 - 4 * c0)) (cubicR 1 (- c2) (c1 * c3 - 4 * c0) ((4 * c2 - c3 * c3) * c0 - c1 * c1)) ->
  StronglySorted Rlt (solveQuartic a4 a3 a2 a1 a0) /\
  (forall x, In x (solveQuartic a4 a3 a2 a1 a0) -> quart c3 c2 c1 c0 x = 0) /\
  ((exists x, quart c3 c2 c1 c0 x = 0 /\ 4 * (x * x * x) + 3 * c3 * (x * x) + 2 * c2 * x + c1 <> 0) ->
    forall x, quart c3 c2 c1 c0 x = 0 -> exists r, In r (solveQuartic a4 a3 a2 a1 a0) /\ near r x).
Proof.
  intros N c3 c2 c1 c0 K. unfold solveQuartic. rewrite (Req_b_f a4 0 N). cbv zeta.
  replace (a0 * (1 / a4)) with c0 by (unfold c0; field; exact N). replace (a1 * (1 / a4)) with c1 by (unfold c1; field; exact N).
  replace (a2 * (1 / a4)) with c2 by (unfold c2; field; exact N). replace (a3 * (1 / a4)) with c3 by (unfold c3; field; exact N).
  clearbody c3 c2 c1 c0. clear a4 a3 a2 a1 a0 N.
  set (b2 := - c2) in *. set (b1 := c1 * c3 - 4 * c0) in *. set (b0 := (4 * c2 - c3 * c3) * c0 - c1 * c1) in *.
  destruct (solveCubic_ok 1 b2 b1 b0 ltac:(lra) K) as [_ [_ RS]].
  assert (RS' : forall w, In w (solveCubic 1 b2 b1 b0) <-> resolvent c3 c2 c1 c0 w).
  { intros w. rewrite RS. unfold resolvent. fold b2 b1 b0. rewrite Rmult_1_l. reflexivity. }
  pose proof (choice_fold c3 c2 c0 b2 b1 b0 (solveCubic 1 b2 b1 b0) [] (None, None) Logic.I) as CF.
  pose proof (choice_some c3 c2 c0 b2 b1 b0 (solveCubic 1 b2 b1 b0) (None, None)) as CS.
  destruct (fst (fold_left (quarticChoice c3 c2 c0 b2 b1 b0) (solveCubic 1 b2 b1 b0) (None, None))) as [[[w m] z0]|].
  2:{ split; [constructor|]. split; [intros x []|]. intros [x [X1 X2]]. exfalso. apply CS; [|right; split; [apply solveCubic_nonempty|reflexivity]|reflexivity].
      intros w W. apply RS' in W. exact (simple_root_valid _ _ _ _ _ _ W X1 X2). }
  clear CS. cbn [chosen app] in CF. destruct CF as [W [M [Z [Em Ez]]]]. apply RS' in W. pose proof (resolvent_mz _ _ _ _ _ W) as MZ.
  assert (Mm : m * m = m2f c3 c2 w) by (rewrite Em; apply sqrt_sqrt; exact M). assert (Mp : 0 <= m) by (rewrite Em; apply sqrt_pos).
  assert (Zz : z0 * z0 = z2f c0 w) by (rewrite Ez; apply sqrt_sqrt; exact Z). assert (Zp : 0 <= z0) by (rewrite Ez; apply sqrt_pos).
  assert (Ab : m * z0 = Rabs (kap c3 c1 w)). { rewrite Em, Ez, <- sqrt_mult by assumption. rewrite MZ. apply sqrt_Rsqr_abs. }
  set (z := if Rlt_b (c3 * w) (2 * c1) then - z0 else z0).
  assert (Zs : z * z = z2f c0 w) by (unfold z; destruct (Rlt_b _ _); lra).
  assert (Mz : m * z = kap c3 c1 w). { unfold z, kap in *. destruct (Rlt_le_dec (c3 * w) (2 * c1)) as [H|H]; [rewrite Rlt_b_t by exact H; rewrite Rabs_left in Ab by lra; lra|rewrite Rlt_b_f by exact H; rewrite Rabs_right in Ab by lra; lra]. }
  assert (F := fun x => quart_factor c3 c2 c1 c0 w m z x Mm Zs Mz).
  destruct (solveQuadratic_ok 1 (1 / 2 * c3 - m) (1 / 2 * w - z) ltac:(left; lra)) as [A1 A2].
  destruct (solveQuadratic_ok 1 (1 / 2 * c3 + m) (1 / 2 * w + z) ltac:(left; lra)) as [B1 B2].
  assert (L2 : forall p q r, (length (solveQuadratic p q r) <= 2)%nat).
  { intros. unfold solveQuadratic, solveLinear. cbv zeta. repeat match goal with |- context [if ?b then _ else _] => destruct b end; cbn; lia. }
  set (la := solveQuadratic 1 (1 / 2 * c3 - m) (1 / 2 * w - z)) in *. set (lb := solveQuadratic 1 (1 / 2 * c3 + m) (1 / 2 * w + z)) in *.
  assert (R0 : forall x, In x (la ++ lb) <-> quart c3 c2 c1 c0 x = 0).
  { intros x. rewrite in_app_iff, A2, B2, F. split.
    - intros [H|H]; [replace (x * x + (1 / 2 * c3 - m) * x + (1 / 2 * w - z)) with 0 by lra|replace (x * x + (1 / 2 * c3 + m) * x + (1 / 2 * w + z)) with 0 by lra]; ring.
    - intros H. apply Rmult_integral in H. destruct H; [left|right]; lra. }
  rewrite map_id_on. 2:{ intros x Hx. apply polish4_root. apply R0 in Hx. rewrite <- Hx. unfold quart, pow_3, pow_2. ring. }
  assert (Ln : (length (la ++ lb) <= 4)%nat) by (rewrite app_length; assert (length la <= 2)%nat by apply L2; assert (length lb <= 2)%nat by apply L2; lia).
  destruct (sort4_perm _ Ln) as [P S].
  destruct (dedup_ok (sort4 (la ++ lb))) as [D1 [D2 D3]]; [rewrite (Permutation_length P); exact Ln|exact S|apply (notriple_perm _ la lb S P); apply strict_NoDup; assumption|].
  split; [exact D1|]. split.
  - intros x Hx. apply R0. apply (Permutation_in _ P), D2, Hx.
  - intros _ x Hx. apply D3. apply (Permutation_in _ (Permutation_sym P)), R0, Hx.
Qed.
