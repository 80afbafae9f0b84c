(** Proofs about the sampler, part 5: sums over points, evaluation, the parallel loop, the refinement step. *)
From Coq Require Import Lra Permutation FunctionalExtensionality.
From Verif Require Import Arr PolyModel PolyProofs SampleModel SampleSpec SampleProofs SampleProofs2 SampleProofs3 SampleProofs4.
From Flocq Require Import Core.Raux.
Local Open Scope Z_scope.

(** ---- enumeration of all points, cell by cell ---- *)
Definition enum (s : smp) (own : Z -> list Z) : list (Z * Z) := flat_map (fun c => map (fun p => (c, p)) (own c)) (zseq 0 (alen (cells s))).
Lemma in_enum s own c p : In (c, p) (enum s own) <-> is_cell s c /\ In p (own c).
Proof.
  unfold enum. rewrite in_flat_map. split.
  - intros (k & Hk & I). apply in_map_iff in I. destruct I as (q & E & I). injection E as -> ->. split; [apply in_zseq in Hk; exact Hk|exact I].
  - intros (Hc & I). exists c. split; [apply in_zseq; exact Hc|]. apply in_map_iff. exists p. auto.
Qed.
Lemma snd_flat (own : Z -> list Z) l : map snd (flat_map (fun c => map (fun p => (c, p)) (own c)) l) = flat_map own l.
Proof. induction l as [|c l IH]; cbn; [reflexivity|]. rewrite map_app, IH. f_equal. rewrite map_map. cbn. apply map_id. Qed.
Lemma enum_nodup e s D own pth : Inv e s D own pth -> NoDup (map snd (enum s own)).
Proof.
  intros V. unfold enum. rewrite snd_flat.
  assert (H : forall l, NoDup l -> (forall c, In c l -> is_cell s c) -> NoDup (flat_map own l)).
  { induction l as [|c l IH]; intros N Hl; cbn; [constructor|]. apply NoDup_cons_iff in N. destruct N as [Nc N]. apply nodup_app.
    - apply (v_nodup _ _ _ _ _ V). apply Hl. left; reflexivity.
    - apply IH; auto. intros k I. apply Hl. right; exact I.
    - intros p I I'. apply in_flat_map in I'. destruct I' as (k & Ik & I'). apply Nc.
      replace c with k; [exact Ik|]. apply (v_disj _ _ _ _ _ V k c p); auto; apply Hl; [right; exact Ik|left; reflexivity]. }
  apply H; [apply zseq_nodup|]. intros c I. apply in_zseq in I. exact I.
Qed.
Lemma enum_perm e s own pth : Inv e s (full s) own pth -> Permutation (map snd (enum s own)) (zseq 0 (npoints s)).
Proof.
  intros V. apply NoDup_Permutation; [eapply enum_nodup; eauto|apply zseq_nodup|]. intros p. rewrite in_zseq, in_map_iff. split.
  - intros ((c & q) & <- & I). apply in_enum in I. destruct I as (Hc & I). apply (v_D _ _ _ _ _ V). eapply v_rng; eauto.
  - intros Hp. destruct (v_cover _ _ _ _ _ V p Hp) as (c & Hc & I). exists (c, p). split; [reflexivity|]. apply in_enum. auto.
Qed.
Lemma nodup_of_map {A B} (f : A -> B) l : NoDup (map f l) -> NoDup l.
Proof. induction l as [|x l IH]; intros N; [constructor|]. cbn in N. apply NoDup_cons_iff in N. destruct N as [Nx N]. constructor; [|auto]. intros I. apply Nx. apply in_map. exact I. Qed.
Lemma loop_enum {A} e s D own pth (body : Z -> cell -> Z -> A -> res A) acc : Inv e s D own pth ->
  for_ 0 (alen (cells s)) (fun c acc => cc <- aget (cells s) c ;; walkp s (c_head cc) (body c cc) acc) acc =
  foldm (fun cp a => body (fst cp) (the_cell s (fst cp)) (snd cp) a) (enum s own) acc.
Proof.
  intros V. rewrite for_foldm. unfold enum. rewrite <- (foldm_nest (fun c p a => body c (the_cell s c) p a)). apply foldm_ext. intros c a I. apply in_zseq in I.
  rewrite aget_ok by exact I. cbn [bind]. fold (the_cell s c). apply (walkp_fold e s D own pth); assumption.
Qed.

Definition W (s : smp) (cp : Z * Z) : R := (afn (fvals s) (snd cp) * c_weight (the_cell s (fst cp)))%R.
Fixpoint lsum (l : list R) : R := match l with [] => 0%R | x :: l' => (x + lsum l')%R end.
Lemma lsum_app a b : lsum (a ++ b) = (lsum a + lsum b)%R.
Proof. induction a as [|x a IH]; cbn; [ring|rewrite IH; ring]. Qed.
Lemma lsum_nonneg l : (forall x, In x l -> (0 <= x)%R) -> (0 <= lsum l)%R.
Proof. induction l as [|x l IH]; intros H; cbn; [lra|]. pose proof (H x (or_introl eq_refl)). assert (0 <= lsum l)%R by (apply IH; intros y I; apply H; right; exact I). lra. Qed.
Lemma lsum_perm l l' : Permutation l l' -> lsum l = lsum l'.
Proof. intros H. induction H; cbn; try lra. Qed.
Definition stats (s : smp) (acc : Z * R * R) (cp : Z * Z) : Z * R * R :=
  let '(count, integ, mx) := acc in (count + 1, (integ + W s cp)%R, Rmax mx (W s cp)).
Lemma stats_spec s l : forall count integ mx, let '(count', integ', mx') := fold_left (stats s) l (count, integ, mx) in
  count' = count + Z.of_nat (length l) /\ integ' = (integ + lsum (map (W s) l))%R /\ (mx <= mx')%R /\ (forall x, In x l -> (W s x <= mx')%R) /\ (mx' = mx \/ exists x, In x l /\ W s x = mx').
Proof.
  induction l as [|x l IH]; intros count integ mx; cbn [fold_left].
  - cbn. split; [lia|]. split; [lra|]. split; [lra|]. split; [intros x []|left; reflexivity].
  - unfold stats at 2. specialize (IH (count + 1) (integ + W s x)%R (Rmax mx (W s x))). destruct (fold_left _ _ _) as ((n, i), m). destruct IH as (E1 & E2 & E3 & E4 & E5).
    pose proof (Rmax_l mx (W s x)). pose proof (Rmax_r mx (W s x)). repeat split.
    + cbn [length]. lia.
    + cbn. lra.
    + lra.
    + intros y [<-|I]; [lra|auto].
    + destruct E5 as [->|(y & I & <-)]; [|right; exists y; split; [right; exact I|reflexivity]]. unfold Rmax at 1. unfold Rmax in *. destruct (Rle_dec mx (W s x)); [right; exists x; split; [left; reflexivity|reflexivity]|left; reflexivity].
Qed.
Lemma computeResult_ok e s own pth : Inv e s (full s) own pth -> 0 <= npoints s -> 0 <= Nout e ->
  let T := lsum (map (W s) (enum s own)) in
  sf (computeResult e s) (fun r => fst r = T /\ (0 < T)%R /\
     ((snd r <= 1)%R -> forall x, In x (enum s own) -> (W s x * IZR (Nout e) <= T)%R) /\
     ((1 < snd r)%R -> exists c p, is_cell s c /\ In p (own c) /\ heavy e s T c p)).
Proof.
  intros V NP HN T. unfold computeResult.
  rewrite (loop_enum e s (full s) own pth (fun c cc p acc => let '(count, integ, mx) := acc in f <- aget (fvals s) p ;; let w := (f * c_weight cc)%R in Ok (count + 1, (integ + w)%R, Rmax mx w))) by exact V.
  rewrite (foldm_pure _ (stats s)).
  2:{ intros (c, p) ((count, integ), mx) I. apply in_enum in I. destruct I as (Hc & I). pose proof (v_D _ _ _ _ _ V p (v_rng _ _ _ _ _ V c p Hc I)) as Hp. cbn [fst snd]. rewrite aget_ok by exact Hp. reflexivity. }
  cbn [bind]. pose proof (stats_spec s (enum s own) 0 0%R 0%R) as ST. destruct (fold_left (stats s) (enum s own) (0, 0%R, 0%R)) as ((count, integ), mx). destruct ST as (E1 & E2 & E3 & E4 & E5).
  fold T in E2. rewrite Rplus_0_l in E2. subst integ.
  assert (C : count = alen (fvals s)).
  { rewrite E1. rewrite <- (map_length snd). rewrite (Permutation_length (enum_perm e s own pth V)). rewrite zseq_len. unfold npoints.
    unfold npoints in NP. lia. }
  rewrite C, Z.eqb_refl. cbn [negb]. destruct (Rle_b T 0) eqn:EL; [exact Logic.I|]. unfold Rle_b in EL. destruct (Rle_dec T 0) as [|NL]; [discriminate|].
  assert (HT : (0 < T)%R) by lra. cbn. split; [reflexivity|]. split; [exact HT|]. split.
  - intros HR x I. specialize (E4 x I). assert (mx * IZR (Nout e) <= T)%R.
    { apply Rmult_le_reg_r with (/ T)%R; [apply Rinv_0_lt_compat; exact HT|]. rewrite Rinv_r by lra. exact HR. }
    apply Rle_trans with (mx * IZR (Nout e))%R; [|assumption]. apply Rmult_le_compat_r; [apply IZR_le; exact HN|exact E4].
  - intros HR. destruct E5 as [->|((c, p) & I & Ex)].
    + unfold Rdiv in HR. rewrite !Rmult_0_l in HR. lra.
    + apply in_enum in I. exists c, p. split; [apply I|]. split; [apply I|]. unfold heavy. unfold W in Ex. cbn [fst snd] in Ex. rewrite Ex. exact HR.
Qed.
