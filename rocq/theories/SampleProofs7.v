(** Proofs about the sampler, part 7: drawSamples. *)
From Coq Require Import Lra Permutation FunctionalExtensionality.
From Verif Require Import Arr PolyModel PolyProofs RandModel RandProofs2 SampleModel SampleSpec SampleProofs SampleProofs2 SampleProofs3 SampleProofs4 SampleProofs5 SampleProofs6.
From Flocq Require Import Core.Raux.
Local Open Scope Z_scope.

(** ---- the choice of points ---- *)
Section Pick.
Variables (osw : R) (Wf : Z * Z -> R).
Fixpoint pick (l : list (Z * Z)) (ps : R) (oi : Z) : list (Z * Z) :=
  match l with
  | [] => []
  | x :: l' => if Rle_b ((IZR oi + / 2) * osw)%R (ps + Wf x)%R then x :: pick l' (ps + Wf x)%R (oi + 1) else pick l' (ps + Wf x)%R oi
  end.
Definition pinv (ps : R) (oi : Z) : Prop := ((IZR oi - / 2) * osw <= ps < (IZR oi + / 2) * osw)%R.
Hypothesis Hosw : (0 < osw)%R.
Lemma pick_inv l : forall ps oi, (forall x, In x l -> (0 <= Wf x <= osw)%R) -> pinv ps oi -> pinv (ps + lsum (map Wf l)) (oi + Z.of_nat (length (pick l ps oi))).
Proof using Hosw.
  induction l as [|x l IH]; intros ps oi H P; cbn [pick map lsum].
  - cbn. rewrite Rplus_0_r, Z.add_0_r. exact P.
  - pose proof (H x (or_introl eq_refl)) as Hx. rewrite <- Rplus_assoc. destruct (Rle_b ((IZR oi + / 2) * osw) (ps + Wf x)) eqn:E; unfold Rle_b in E; destruct (Rle_dec _ _) as [L|L]; try discriminate.
    + cbn [length]. replace (oi + Z.of_nat (S (length (pick l (ps + Wf x) (oi + 1))))) with (oi + 1 + Z.of_nat (length (pick l (ps + Wf x) (oi + 1)))) by lia.
      apply IH; [intros y I; apply H; right; exact I|]. unfold pinv in *. rewrite plus_IZR. split; nra.
    + apply IH; [intros y I; apply H; right; exact I|]. unfold pinv in *. split; nra.
Qed.
Lemma pick_app l1 : forall l2 ps oi, pick (l1 ++ l2) ps oi = pick l1 ps oi ++ pick l2 (ps + lsum (map Wf l1))%R (oi + Z.of_nat (length (pick l1 ps oi))).
Proof using.
  induction l1 as [|x l1 IH]; intros l2 ps oi; cbn [app pick map lsum].
  - cbn. rewrite Rplus_0_r, Z.add_0_r. reflexivity.
  - rewrite <- Rplus_assoc. destruct (Rle_b _ _).
    + cbn [app length]. f_equal. rewrite IH. do 2 f_equal. lia.
    + apply IH.
Qed.
Lemma pick_in l : forall ps oi x, In x (pick l ps oi) -> In x l.
Proof using. induction l as [|y l IH]; intros ps oi x I; cbn [pick] in I; [destruct I|]. destruct (Rle_b _ _); [destruct I as [->|I]; [left; reflexivity|]|]; right; eapply IH; eauto. Qed.
Lemma pick_pos l : forall ps oi x, (forall x, In x l -> (0 <= Wf x <= osw)%R) -> pinv ps oi -> In x (pick l ps oi) -> (0 < Wf x)%R.
Proof using Hosw.
  induction l as [|y l IH]; intros ps oi x H P I; cbn [pick] in I; [destruct I|]. pose proof (H y (or_introl eq_refl)) as Hy.
  destruct (Rle_b ((IZR oi + / 2) * osw) (ps + Wf y)) eqn:E; unfold Rle_b in E; destruct (Rle_dec _ _) as [L|L]; try discriminate.
  - destruct I as [->|I]; [unfold pinv in P; lra|]. apply (IH (ps + Wf y)%R (oi + 1) x); auto; [intros z Iz; apply H; right; exact Iz|]. unfold pinv in *. rewrite plus_IZR. split; nra.
  - apply (IH (ps + Wf y)%R oi x); auto; [intros z Iz; apply H; right; exact Iz|]. unfold pinv in *. split; nra.
Qed.
Lemma pick_nodup l : forall ps oi, NoDup (map snd l) -> NoDup (map snd (pick l ps oi)).
Proof using.
  induction l as [|y l IH]; intros ps oi N; cbn [pick]; [constructor|]. cbn in N. apply NoDup_cons_iff in N. destruct N as [Ny N]. destruct (Rle_b _ _); [|auto].
  cbn. constructor; [|auto]. intros I. apply Ny. apply in_map_iff in I. destruct I as (z & E & I). rewrite <- E. apply in_map. eapply pick_in; eauto.
Qed.
(** number of points chosen from a contiguous part of the list *)
Lemma pick_quota l1 l2 l3 : (forall x, In x (l1 ++ l2 ++ l3) -> (0 <= Wf x <= osw)%R) ->
  exists p1 p2 p3, pick (l1 ++ l2 ++ l3) 0 0 = p1 ++ p2 ++ p3 /\ (forall x, In x p1 -> In x l1) /\ (forall x, In x p2 -> In x l2) /\ (forall x, In x p3 -> In x l3) /\
  (Rabs (IZR (Z.of_nat (length p2)) - lsum (map Wf l2) / osw) < 1)%R.
Proof using Hosw.
  intros H. rewrite pick_app, pick_app. set (p1 := pick l1 0 0). set (ps1 := (0 + lsum (map Wf l1))%R). set (o1 := 0 + Z.of_nat (length p1)). set (p2 := pick l2 ps1 o1).
  exists p1, p2, (pick l3 (ps1 + lsum (map Wf l2))%R (o1 + Z.of_nat (length p2))). split; [reflexivity|]. split; [intros x; apply pick_in|]. split; [intros x; apply pick_in|]. split; [intros x; apply pick_in|].
  assert (P0 : pinv 0 0) by (unfold pinv; cbn; lra).
  assert (P1 : pinv ps1 o1) by (apply pick_inv; [intros x I; apply H; apply in_or_app; left; exact I|exact P0]).
  assert (P2 : pinv (ps1 + lsum (map Wf l2)) (o1 + Z.of_nat (length p2))) by (apply pick_inv; [intros x I; apply H; apply in_or_app; right; apply in_or_app; left; exact I|exact P1]).
  unfold pinv in *. rewrite plus_IZR in P2. set (k := IZR (Z.of_nat (length p2))) in *. set (t := lsum (map Wf l2)) in *. set (a := IZR o1) in *.
  assert (Q : (Rabs (k * osw - t) < osw)%R) by (apply Rabs_def1; lra).
  replace (k - t / osw)%R with ((k * osw - t) * / osw)%R by (field; lra). rewrite Rabs_mult, (Rabs_right (/ osw)) by (left; apply Rinv_0_lt_compat; exact Hosw).
  apply Rmult_lt_reg_r with osw; [exact Hosw|]. rewrite Rmult_assoc, Rinv_l by lra. lra.
Qed.
End Pick.

(** ---- writing the rows ---- *)
Definition dbody (e : env) (s : smp) (osw : R) (perm : list nat) (cp : Z * Z) (acc : R * Z * arr R) : res (R * Z * arr R) :=
  let '(ps, oi, out) := acc in
  f <- aget (fvals s) (snd cp) ;;
  let w := (f * c_weight (the_cell s (fst cp)))%R in
  if Rlt_b osw w then UB else
  let ps := (ps + w)%R in
  if Rle_b ((IZR oi + / 2) * osw)%R ps then
    row <- get perm oi ;;
    out <- for_ 0 (Ndim e) (fun d out => x <- aget (coords s) (snd cp * Ndim e + d) ;; aset out (Z.of_nat row * Ndim e + d) x) out ;;
    Ok (ps, oi + 1, out)
  else Ok (ps, oi, out).
Definition rows_ok (e : env) (s : smp) (perm : list nat) (out : arr R) (ch : list (Z * Z)) : Prop :=
  forall j cp row, nth_error ch j = Some cp -> nth_error perm j = Some row -> forall d, 0 <= d < Ndim e -> afn out (Z.of_nat row * Ndim e + d) = pt e s (snd cp) d.
Lemma nth_error_inj {A} (l : list A) i j x : NoDup l -> nth_error l i = Some x -> nth_error l j = Some x -> i = j.
Proof. intros N H1 H2. apply (proj1 (NoDup_nth_error l) N); [apply nth_error_Some; congruence|congruence]. Qed.
Lemma draw_fold e s osw perm : 1 <= Ndim e -> (0 < osw)%R -> alen (coords s) = npoints s * Ndim e -> length perm = Z.to_nat (Nout e) -> NoDup perm -> (forall r, In r perm -> Z.of_nat r < Nout e) ->
  forall l ps oi out ch, (forall x, In x l -> 0 <= snd x < npoints s /\ (W s x <= osw)%R) -> oi = Z.of_nat (length ch) -> oi + Z.of_nat (length (pick osw (W s) l ps oi)) <= Nout e ->
  alen out = Nout e * Ndim e -> rows_ok e s perm out ch ->
  exists out', foldm (dbody e s osw perm) l (ps, oi, out) = Ok ((ps + lsum (map (W s) l))%R, oi + Z.of_nat (length (pick osw (W s) l ps oi)), out') /\
    alen out' = Nout e * Ndim e /\ rows_ok e s perm out' (ch ++ pick osw (W s) l ps oi).
Proof.
  intros GD Ho LC LP NP RP. induction l as [|x l IH]; intros ps oi out ch Hl Ei Hn Lo RO; cbn [foldm pick map lsum].
  - exists out. cbn [length Z.of_nat]. rewrite Rplus_0_r, Z.add_0_r, app_nil_r. auto.
  - destruct (Hl x (or_introl eq_refl)) as (Hx & HW). unfold dbody at 1. rewrite aget_ok by exact Hx. cbn [bind]. cbv zeta. fold (W s x). rewrite (Rlt_b_f osw (W s x)) by exact HW.
    cbn [pick] in Hn. rewrite <- Rplus_assoc. destruct (Rle_b ((IZR oi + / 2) * osw) (ps + W s x)) eqn:E.
    + cbn [length] in Hn. destruct (get_ok perm oi) as (row & -> & Er). { unfold zlen. lia. } cbn [bind].
      assert (Hrow : Z.of_nat row < Nout e) by (apply RP; eapply nth_error_In; eauto).
      destruct (for_total (fun d o => alen o = Nout e * Ndim e /\ (forall k, Z.of_nat row * Ndim e <= k < Z.of_nat row * Ndim e + d -> afn o k = pt e s (snd x) (k - Z.of_nat row * Ndim e)) /\ (forall k, ~ (Z.of_nat row * Ndim e <= k < Z.of_nat row * Ndim e + d) -> afn o k = afn out k))
        0 (Ndim e) (fun d out => y <- aget (coords s) (snd x * Ndim e + d) ;; aset out (Z.of_nat row * Ndim e + d) y) out) as (out1 & -> & L1 & W1 & W2).
      { lia. } { split; [exact Lo|]. split; [intros; lia|reflexivity]. }
      { intros d o Hd (A & B & C). rewrite aget_ok by (rewrite LC; nia). cbn [bind]. rewrite aset_ok by (rewrite A; nia). eexists. split; [reflexivity|]. cbn [alen afn]. split; [exact A|]. split.
        - intros k Hk. destruct (Z.eq_dec k (Z.of_nat row * Ndim e + d)) as [->|NE]; [rewrite upd_same; unfold pt; f_equal; lia|]. rewrite upd_other by exact NE. apply B. lia.
        - intros k Hk. rewrite upd_other by lia. apply C. lia. }
      cbn [bind]. destruct (IH (ps + W s x)%R (oi + 1) out1 (ch ++ [x])) as (out2 & E2 & L2 & R2).
      * intros y I. apply Hl. right; exact I.
      * rewrite app_length. cbn. lia.
      * cbn [length] in Hn. lia.
      * exact L1.
      * intros j cp r Hj Hr d Hd. destruct (Nat.lt_ge_cases j (length ch)) as [Lt|Ge].
        -- rewrite nth_error_app1 in Hj by exact Lt. rewrite W2; [eapply RO; eauto|].
           assert (r <> row). { intros ->. assert (j = Z.to_nat oi) by (eapply nth_error_inj; eauto). lia. }
           intros Q. assert (Z.of_nat r = Z.of_nat row) by nia. lia.
        -- assert (j = length ch). { assert (j < length (ch ++ [x]))%nat by (apply nth_error_Some; congruence). rewrite app_length in *. cbn in *. lia. }
           subst j. rewrite nth_error_app2 in Hj by lia. rewrite Nat.sub_diag in Hj. injection Hj as <-.
           assert (Z.to_nat oi = length ch) by lia. assert (r = row) by congruence. subst r. rewrite W1 by lia. f_equal. lia.
      * exists out2. split; [rewrite E2; cbn [length]; do 3 f_equal; lia|]. split; [exact L2|]. rewrite <- app_assoc in R2. exact R2.
    + destruct (IH (ps + W s x)%R oi out ch) as (out2 & E2 & L2 & R2); auto.
      * intros y I. apply Hl. right; exact I.
      * exists out2. split; [exact E2|]. auto.
Qed.
Lemma perm_pos (perm : list nat) n r : Permutation perm (seq 0 n) -> (r < n)%nat -> exists j, nth_error perm j = Some r.
Proof. intros H Hr. apply In_nth_error. apply Permutation_in with (seq 0 n); [symmetry; exact H|]. apply in_seq. lia. Qed.

(** rows of the output: row r is the stored point (sel r) *)
Lemma choose_rows {A} (n : nat) (P : nat -> A -> Prop) : (forall r, (r < n)%nat -> exists a, P r a) -> exists l, length l = n /\ forall r a, nth_error l r = Some a -> P r a.
Proof.
  induction n as [|n IH]; intros H; [exists []; split; [reflexivity|intros r a E; destruct r; discriminate]|].
  destruct IH as (l & L & Hl); [intros r Hr; apply H; lia|]. destruct (H n ltac:(lia)) as (a & Ha). exists (l ++ [a]). split; [rewrite app_length; cbn; lia|].
  intros r b E. destruct (Nat.lt_ge_cases r (length l)) as [Lt|Ge].
  - rewrite nth_error_app1 in E by exact Lt. apply Hl. exact E.
  - assert (r = length l). { assert (r < length (l ++ [a]))%nat by (apply nth_error_Some; congruence). rewrite app_length in *. cbn in *. lia. } subst r.
    rewrite nth_error_app2 in E by lia. rewrite Nat.sub_diag in E. injection E as <-. rewrite L. exact Ha.
Qed.
Lemma draw_ok e s T own pth js : good_env e -> 1 <= Nout e -> RunInv e s T own pth -> light e s own T -> length js = Z.to_nat (Nout e) ->
  exists out sel, drawSamples e s T js = Ok out /\ alen out = Nout e * Ndim e /\
    length sel = Z.to_nat (Nout e) /\ Permutation sel (pick (T / IZR (Nout e)) (W s) (enum s own) 0 0) /\
    (forall r cp, nth_error sel r = Some cp -> forall d, 0 <= d < Ndim e -> afn out (Z.of_nat r * Ndim e + d) = pt e s (snd cp) d).
Proof.
  intros G HN RI LT LJ. pose proof (g_dim e G) as GD. destruct RI as [V FVs NPs ET HT]. unfold drawSamples. rewrite (proj2 (Z.leb_gt _ _)) by lia. rewrite (v_coord _ _ _ _ _ V). fold (npoints s). rewrite Z.eqb_refl. cbn [negb]. cbv zeta.
  destruct (shuffle_perm js (repeat O (Z.to_nat (Nout e)))) as (perm & EP & PP). { rewrite repeat_length. lia. }
  rewrite EP. cbn [bind]. set (osw := (T / IZR (Nout e))%R) in *. assert (HNr : (1 <= IZR (Nout e))%R) by (apply IZR_le; lia).
  assert (Ho : (0 < osw)%R) by (unfold osw; apply Rmult_lt_0_compat; [exact HT|apply Rinv_0_lt_compat; lra]).
  rewrite (loop_enum e s (full s) own pth (fun c cc p acc => let '(ps, oi, out) := acc in
          f <- aget (fvals s) p ;; let w := (f * c_weight cc)%R in if Rlt_b osw w then UB else let ps := (ps + w)%R in
          if Rle_b ((IZR oi + / 2) * osw)%R ps then row <- get perm oi ;;
            out <- for_ 0 (Ndim e) (fun d out => x <- aget (coords s) (p * Ndim e + d) ;; aset out (Z.of_nat row * Ndim e + d) x) out ;; Ok (ps, oi + 1, out)
          else Ok (ps, oi, out))) by exact V.
  rewrite LJ in PP.
  assert (Hw : forall x, In x (enum s own) -> (0 <= W s x <= osw)%R).
  { intros (c, p) I. pose proof (LT _ I) as L1. apply in_enum in I. destruct I as (Hc & I). pose proof (v_w _ _ _ _ _ V c Hc) as Wc. destruct (FVs p (v_D _ _ _ _ _ V p (v_rng _ _ _ _ _ V c p Hc I))) as (_ & F0).
    split; [unfold W; cbn; apply Rmult_le_pos; lra|]. unfold osw. apply Rmult_le_reg_r with (IZR (Nout e)); [lra|]. unfold Rdiv. rewrite Rmult_assoc, Rinv_l by lra. rewrite Rmult_1_r. exact L1. }
  assert (P0 : pinv osw 0 0) by (unfold pinv; cbn; lra).
  pose proof (pick_inv osw (W s) Ho (enum s own) 0 0 Hw P0) as PI. rewrite Rplus_0_l, <- ET in PI.
  set (ch := pick osw (W s) (enum s own) 0 0) in *. assert (LCh : Z.of_nat (length ch) = Nout e).
  { unfold pinv in PI. rewrite Z.add_0_l in PI. replace T with (IZR (Nout e) * osw)%R in PI by (unfold osw; field; lra).
    assert (A : (IZR (Z.of_nat (length ch)) - / 2 <= IZR (Nout e) < IZR (Z.of_nat (length ch)) + / 2)%R). { destruct PI as [PI1 PI2]. split; [apply Rmult_le_reg_r with osw; assumption|apply Rmult_lt_reg_r with osw; assumption]. }
    assert (Z.of_nat (length ch) < Nout e + 1) by (apply lt_IZR; rewrite plus_IZR; lra). assert (Nout e < Z.of_nat (length ch) + 1) by (apply lt_IZR; rewrite plus_IZR; lra). lia. }
  assert (NDp : NoDup perm) by (apply Permutation_NoDup with (seq 0 (Z.to_nat (Nout e))); [symmetry; exact PP|apply seq_NoDup]).
  assert (Lp : length perm = Z.to_nat (Nout e)) by (rewrite (Permutation_length PP); apply seq_length).
  assert (Rp : forall r, In r perm -> Z.of_nat r < Nout e). { intros r I. apply (Permutation_in _ PP) in I. apply in_seq in I. lia. }
  destruct (draw_fold e s osw perm GD Ho (v_coord _ _ _ _ _ V) Lp NDp Rp (enum s own) 0%R 0 (anew (Nout e * Ndim e) 0%R) []) as (out & EO & LO & RO).
  { intros (c, p) I. split; [|apply Hw; exact I]. apply in_enum in I. destruct I as (Hc & I). apply (v_D _ _ _ _ _ V). eapply v_rng; eauto. }
  { reflexivity. } { fold ch. lia. } { reflexivity. } { intros j cp row Hj. destruct j; discriminate. }
  fold ch in EO, RO. cbn [app] in RO. match goal with |- context [foldm ?f (enum s own) ?i] => change (foldm f (enum s own) i) with (foldm (dbody e s osw perm) (enum s own) i) end. rewrite EO. cbn [bind]. rewrite LCh, Z.add_0_l, Z.eqb_refl. cbn [negb].
  exists out.
  destruct (choose_rows (Z.to_nat (Nout e)) (fun r cp => exists j, nth_error perm j = Some r /\ nth_error ch j = Some cp)) as (sel & Ls & Hs).
  { intros r Hr. destruct (perm_pos perm _ r PP Hr) as (j & Hj). destruct (nth_error ch j) as [cp|] eqn:Ec; [eauto|]. apply nth_error_None in Ec. assert (j < length perm)%nat by (apply nth_error_Some; congruence). lia. }
  exists sel. split; [reflexivity|]. split; [exact LO|]. split; [exact Ls|]. split.
  - apply NoDup_Permutation_bis.
    + assert (NDc : NoDup ch) by (apply (nodup_of_map snd); apply pick_nodup; eapply enum_nodup; eauto).
      apply NoDup_nth_error. intros i j Hi Eij. destruct (nth_error sel i) as [a|] eqn:Ea; [|apply nth_error_None in Ea; lia]. symmetry in Eij.
      destruct (Hs i a Ea) as (k & K1 & K2). destruct (Hs j a Eij) as (k' & K1' & K2'). assert (k = k') by (eapply nth_error_inj; eauto). subst k'. congruence.
    + lia.
    + intros x I. apply In_nth_error in I. destruct I as (r & I). destruct (Hs r x I) as (k & _ & K). eapply nth_error_In; eauto.
  - intros r cp Hr d Hd. destruct (Hs r cp Hr) as (j & Hj & Hc). eapply RO; eauto.
Qed.
