From Verif Require Import BinSearchModel BinSearchSpec.
From Coq Require Import Reals Lra.
Local Open Scope Z_scope.

Section G.
  Context {T : Type}.
  Variables (geb gtb ltb : T -> T -> bool).
  Variable guess : T -> T -> T -> Z -> res Z.
  Notation BS := (binSearch geb gtb ltb guess).

  Lemma mid_bounds lo hi : 0 <= lo -> hi > lo + 1 -> lo < Z.quot (hi + lo) 2 < hi.
  Proof. intros. rewrite Z.quot_div_nonneg by lia. pose proof (Z.div_mod (hi + lo) 2 ltac:(lia)). pose proof (Z.mod_pos_bound (hi + lo) 2 ltac:(lia)). lia. Qed.

  (** memory safety and termination for arbitrary (even unsorted) arrays *)
  Lemma bs_loop_safe x arr : forall fuel lo hi, 0 <= lo -> lo <= hi -> hi <= zlen arr -> (Z.to_nat (hi - lo) <= fuel)%nat ->
    exists k, bs_loop gtb fuel x arr lo hi = Ok k /\ lo <= k /\ (k < hi \/ k = lo).
  Proof.
    induction fuel as [|fuel IH]; intros lo hi Hlo Hle Hhi Hf; cbn [bs_loop].
    - rewrite Z.gtb_ltb. rewrite (proj2 (Z.ltb_ge _ _)) by lia. exists lo. split; [reflexivity|lia].
    - rewrite Z.gtb_ltb. destruct (lo + 1 <? hi) eqn:E.
      2:{ exists lo. split; [reflexivity|lia]. }
      apply Z.ltb_lt in E. pose proof (mid_bounds lo hi Hlo ltac:(lia)) as M. cbv zeta.
      set (m := Z.quot (hi + lo) 2) in *. destruct (get_ok arr m) as (a & -> & _); [lia|]. cbn [bind].
      destruct (gtb a x).
      + destruct (IH lo m) as (k & H1 & H2 & H3); try lia. exists k. split; [exact H1|lia].
      + destruct (IH m hi) as (k & H1 & H2 & H3); try lia. exists k. split; [exact H1|lia].
  Qed.

  Lemma binSearch_safe x arr :
    (forall a0 aN, get arr 0 = Ok a0 -> get arr (zlen arr - 1) = Ok aN -> geb x a0 = true -> gtb x aN = false ->
       zlen arr >= 2 -> exists g, guess x a0 aN (zlen arr) = Ok g /\ 0 <= g <= zlen arr - 1) ->
    exists k, BS x arr = Ok k /\ -1 <= k <= zlen arr - 1.
  Proof.
    intros Hg. unfold binSearch. set (n := zlen arr) in *. assert (Hn : 0 <= n) by (unfold n, zlen; lia).
    destruct (n <? 1) eqn:E1; [apply Z.ltb_lt in E1; exists (-1); split; [reflexivity|lia]|]. apply Z.ltb_ge in E1.
    destruct (get_ok arr 0) as (a0 & G0 & _); [unfold n in *; lia|]. rewrite G0. cbn [bind].
    destruct (geb x a0) eqn:E2; cbn [negb]; [|exists (-1); split; [reflexivity|lia]].
    destruct (get_ok arr (n - 1)) as (aN & GN & _); [unfold n in *; lia|]. rewrite GN. cbn [bind].
    destruct (gtb x aN) eqn:E3; cbn [orb]; [exists (n-1); split; [reflexivity|lia]|].
    destruct (n <? 2) eqn:E4; [exists (n-1); split; [reflexivity|lia]|]. apply Z.ltb_ge in E4.
    destruct (Hg a0 aN) as (g & -> & Hgr); auto; try lia. cbn [bind].
    destruct (g =? n - 1) eqn:E5; [exists (n-2); split; [reflexivity|lia]|]. apply Z.eqb_neq in E5.
    destruct (get_ok arr g) as (ag & -> & _); [unfold n in *; lia|]. cbn [bind].
    destruct (geb x ag).
    - destruct (get_ok arr (g + 1)) as (a1 & -> & _); [unfold n in *; lia|]. cbn [bind].
      destruct (ltb x a1); [exists g; split; [reflexivity|lia]|].
      destruct (bs_loop_safe x arr (Z.to_nat (n - 1 - g)) g (n - 1)) as (k & -> & ? & ?); unfold n in *; try lia.
      exists k. split; [reflexivity|lia].
    - destruct (bs_loop_safe x arr (Z.to_nat (g - 0)) 0 g) as (k & -> & ? & ?); unfold n in *; try lia.
      exists k. split; [reflexivity|lia].
  Qed.

  (** correctness for a total preorder *)
  Variable le : T -> T -> Prop.
  Hypothesis le_trans : forall a b c, le a b -> le b c -> le a c.
  Hypothesis geb_spec : forall a b, geb a b = true <-> le b a.
  Hypothesis gtb_spec : forall a b, gtb a b = true <-> ~ le a b.
  Hypothesis ltb_spec : forall a b, ltb a b = true <-> ~ le b a.
  Hypothesis le_total : forall a b, le a b \/ le b a.

  Notation sorted := (@sorted T le).
  Notation lt := (@lt T le).
  Notation bin_spec := (@bin_spec T le).
  Hypothesis le_dec : forall a b, le a b \/ ~ le a b.

  Lemma gtb_false a b : gtb a b = false -> le a b.
  Proof.
    intros H. destruct (le_dec a b) as [L|L]; [exact L|]. apply gtb_spec in L. congruence.
  Qed.
  Lemma not_le_le a b : ~ le a b -> le b a.
  Proof. intros H. destruct (le_total a b); tauto. Qed.

  Lemma bs_loop_correct x arr : sorted arr -> forall fuel lo hi al,
    0 <= lo -> lo < hi -> hi <= zlen arr - 1 -> (Z.to_nat (hi - lo) <= fuel)%nat ->
    nth_error arr (Z.to_nat lo) = Some al -> le al x ->
    (hi = zlen arr - 1 \/ exists ah, nth_error arr (Z.to_nat hi) = Some ah /\ lt x ah) ->
    exists k ak ak1, bs_loop gtb fuel x arr lo hi = Ok k /\ lo <= k < hi /\
      nth_error arr (Z.to_nat k) = Some ak /\ nth_error arr (Z.to_nat k + 1) = Some ak1 /\ le ak x /\
      (lt x ak1 \/ k = zlen arr - 2).
  Proof.
    intros Hs. induction fuel as [|fuel IH]; intros lo hi al Hlo Hlt Hhi Hf Hal Hle Hh; [lia|].
    cbn [bs_loop]. rewrite Z.gtb_ltb. destruct (lo + 1 <? hi) eqn:E.
    2:{ apply Z.ltb_ge in E. assert (hi = lo + 1) by lia. subst hi.
        destruct (get_ok arr (lo + 1)) as (a1 & _ & N1); [lia|].
        replace (Z.to_nat (lo + 1)) with (Z.to_nat lo + 1)%nat in * by lia.
        exists lo, al, a1. repeat split; auto; try lia.
        destruct Hh as [Hh|(ah & Ha & Hx)]; [right; lia|left; congruence]. }
    apply Z.ltb_lt in E. pose proof (mid_bounds lo hi Hlo ltac:(lia)) as M. cbv zeta.
    set (m := Z.quot (hi + lo) 2) in *. destruct (get_ok arr m) as (a & -> & Na); [lia|]. cbn [bind].
    destruct (gtb a x) eqn:G.
    + destruct (IH lo m al) as (k & ak & ak1 & H); auto; try lia.
      { right. exists a. split; [exact Na|]. unfold BinSearchSpec.lt. apply gtb_spec; exact G. }
      exists k, ak, ak1. intuition lia.
    + destruct (IH m hi a) as (k & ak & ak1 & H); auto; try lia.
      { apply gtb_false; exact G. }
      exists k, ak, ak1. intuition lia.
  Qed.

  Lemma binSearch_correct x arr : sorted arr ->
    (forall a0 aN, nth_error arr 0 = Some a0 -> nth_error arr (length arr - 1) = Some aN -> le a0 x -> le x aN ->
       zlen arr >= 2 -> exists g, guess x a0 aN (zlen arr) = Ok g /\ 0 <= g <= zlen arr - 1 /\
         (g = zlen arr - 1 -> forall b, nth_error arr (length arr - 2) = Some b -> le b x)) ->
    exists k, BS x arr = Ok k /\ bin_spec x arr k.
  Proof.
    intros Hs Hg. unfold binSearch. set (n := zlen arr) in *. assert (Hn : 0 <= n) by (unfold n, zlen; lia).
    destruct (n <? 1) eqn:E1.
    { apply Z.ltb_lt in E1. exists (-1). split; [reflexivity|]. left. split; [|reflexivity].
      destruct arr; [reflexivity|unfold n, zlen in *; cbn [length] in *; lia]. }
    apply Z.ltb_ge in E1.
    destruct (get_ok arr 0) as (a0 & G0 & N0); [unfold n in *; lia|]. rewrite G0. cbn [bind].
    destruct (get_ok arr (n - 1)) as (aN & GN & NN); [unfold n in *; lia|].
    replace (Z.to_nat (n - 1)) with (length arr - 1)%nat in NN by (unfold n, zlen; lia).
    change (Z.to_nat 0) with O in N0.
    unfold BinSearchSpec.bin_spec.
    destruct (geb x a0) eqn:E2; cbn [negb].
    2:{ exists (-1). split; [reflexivity|]. right. exists a0, aN. repeat split; auto. left. split; [|reflexivity].
        unfold BinSearchSpec.lt. intros H. apply geb_spec in H. congruence. }
    apply geb_spec in E2.
    rewrite GN. cbn [bind].
    destruct (gtb x aN) eqn:E3; cbn [orb].
    { exists (n-1). split; [reflexivity|]. right. exists a0, aN. repeat split; auto. right. left.
      split; [|reflexivity]. apply gtb_spec; exact E3. }
    apply gtb_false in E3.
    destruct (n <? 2) eqn:E4.
    { apply Z.ltb_lt in E4. exists (n-1). split; [reflexivity|]. right. exists a0, aN. repeat split; auto. right. right. left.
      repeat split; auto; unfold n, zlen in *; lia. }
    apply Z.ltb_ge in E4.
    destruct (Hg a0 aN) as (g & -> & Hgr & Hgl); auto; try lia. cbn [bind].
    assert (Fin : forall k ak ak1, 0 <= k <= n - 2 -> nth_error arr (Z.to_nat k) = Some ak ->
        nth_error arr (Z.to_nat k + 1) = Some ak1 -> le ak x -> (lt x ak1 \/ k = n - 2) ->
        (arr = [] /\ k = -1) \/ exists a0 aN, nth_error arr 0 = Some a0 /\ nth_error arr (length arr - 1) = Some aN /\
        ((lt x a0 /\ k = -1) \/ (lt aN x /\ k = n - 1) \/
        (le a0 x /\ le x aN /\ length arr = 1%nat /\ k = 0) \/
        (le a0 x /\ le x aN /\ 0 <= k <= n - 2 /\
          exists ak ak1, nth_error arr (Z.to_nat k) = Some ak /\ nth_error arr (Z.to_nat k + 1) = Some ak1 /\
            le ak x /\ le x ak1 /\ (lt x ak1 \/ k = n - 2)))).
    { intros k ak ak1 Hk H1 H2 H3 H4. right. exists a0, aN. repeat split; auto. right. right. right.
      repeat split; auto; try lia. exists ak, ak1. repeat split; auto.
      destruct H4 as [H4|H4]; [apply not_le_le; exact H4|].
      replace (Z.to_nat k + 1)%nat with (length arr - 1)%nat in H2 by (unfold n, zlen in *; lia). congruence. }
    destruct (g =? n - 1) eqn:E5.
    { apply Z.eqb_eq in E5. exists (n - 2). split; [reflexivity|].
      destruct (get_ok arr (n - 2)) as (b & _ & Nb); [unfold n in *; lia|].
      apply (Fin (n-2) b aN); auto; try lia.
      - replace (Z.to_nat (n - 2) + 1)%nat with (length arr - 1)%nat by (unfold n, zlen in *; lia). exact NN.
      - apply (Hgl E5). replace (length arr - 2)%nat with (Z.to_nat (n - 2)) by (unfold n, zlen in *; lia). exact Nb. }
    apply Z.eqb_neq in E5.
    destruct (get_ok arr g) as (ag & -> & Nag); [unfold n in *; lia|]. cbn [bind].
    destruct (geb x ag) eqn:E6.
    - apply geb_spec in E6. destruct (get_ok arr (g + 1)) as (a1 & -> & Na1); [unfold n in *; lia|]. cbn [bind].
      replace (Z.to_nat (g + 1)) with (Z.to_nat g + 1)%nat in Na1 by lia.
      destruct (ltb x a1) eqn:E7.
      + apply ltb_spec in E7. exists g. split; [reflexivity|]. apply (Fin g ag a1); auto; lia.
      + destruct (bs_loop_correct x arr Hs (Z.to_nat (n - 1 - g)) g (n - 1) ag) as (k & ak & ak1 & H & Hk & H1 & H2 & H3 & H4);
          unfold n in *; auto; try lia.
        exists k. split; [exact H|]. apply (Fin k ak ak1); auto; lia.
    - assert (Hx : lt x ag) by (unfold BinSearchSpec.lt; intros H; apply geb_spec in H; congruence).
      assert (0 < g).
      { assert (g <> 0); [|lia]. intros ->. change (Z.to_nat 0) with O in Nag. rewrite N0 in Nag. injection Nag as ->. exact (Hx E2). }
      destruct (bs_loop_correct x arr Hs (Z.to_nat (g - 0)) 0 g a0) as (k & ak & ak1 & H' & Hk & H1 & H2 & H3 & H4);
        unfold n in *; auto; try lia.
      { right. exists ag. auto. }
      exists k. split; [exact H'|]. apply (Fin k ak ak1); auto; lia.
  Qed.
End G.

(** ---- integers ---- *)
Lemma guess_int_spec lo hi x a0 aN size :
  size >= 2 -> a0 <= x -> x <= aN -> a0 < aN -> lo <= 0 -> aN - a0 <= hi ->
  exists g, guess_int lo hi x a0 aN size = Ok g /\ 0 <= g <= size - 1 /\ (g = size - 1 -> x = aN).
Proof.
  intros Hs H1 H2 H3 Hlo Hhi. unfold guess_int.
  rewrite (proj2 (Z.ltb_ge (x - a0) lo)) by lia. rewrite (proj2 (Z.ltb_ge hi (x - a0))) by lia.
  rewrite (proj2 (Z.ltb_ge (aN - a0) lo)) by lia. rewrite (proj2 (Z.ltb_ge hi (aN - a0))) by lia.
  rewrite (proj2 (Z.eqb_neq (aN - a0) 0)) by lia. cbn [orb].
  eexists. split; [reflexivity|]. rewrite Z.quot_div_nonneg by lia.
  destruct (Z.eq_dec x aN) as [->|Hne].
  - rewrite Z.div_same by lia. split; [lia|reflexivity].
  - rewrite Z.div_small by lia. split; [lia|]. intros; lia.
Qed.

(** ---- reals ---- *)
Lemma Rgeb_spec a b : Rgeb a b = true <-> (b <= a)%R.
Proof. unfold Rgeb. destruct (Rle_dec b a); split; intros; (congruence || lra || auto). Qed.
Lemma Rgtb_spec a b : Rgtb a b = true <-> ~ (a <= b)%R.
Proof. unfold Rgtb. destruct (Rlt_dec b a); split; intros; (congruence || lra || auto). Qed.
Lemma Rltb_spec a b : Rltb a b = true <-> ~ (b <= a)%R.
Proof. unfold Rltb. destruct (Rlt_dec a b); split; intros; (congruence || lra || auto). Qed.

Lemma Int_part_bounds r lo hi : (IZR lo <= r)%R -> (r <= IZR hi)%R -> lo <= Int_part r <= hi.
Proof.
  intros H1 H2. destruct (base_Int_part r) as [A B].
  split.
  - assert (IZR lo - 1 < IZR (Int_part r))%R by lra. rewrite <- minus_IZR in H. apply lt_IZR in H. lia.
  - apply le_IZR. lra.
Qed.

Lemma guess_R_spec x a0 aN size : size >= 2 -> (a0 <= x)%R -> (x <= aN)%R -> (a0 < aN)%R ->
  exists g, guess_R x a0 aN size = Ok g /\ 0 <= g <= size - 1 /\ (g = size - 1 -> x = aN).
Proof.
  intros Hs H1 H2 H3. unfold guess_R. destruct (Req_EM_T (aN - a0) 0) as [E|E]; [lra|].
  set (q := ((x - a0) / (aN - a0))%R).
  assert (Hn : (0 < IZR (size - 1))%R) by (apply IZR_lt; lia).
  assert (Hq : (0 <= q <= 1)%R).
  { unfold q. split.
    - apply Rmult_le_pos; [lra|]. apply Rlt_le, Rinv_0_lt_compat; lra.
    - apply Rmult_le_reg_r with (aN - a0)%R; [lra|]. unfold Rdiv. rewrite Rmult_assoc, Rinv_l by lra. lra. }
  eexists. split; [reflexivity|]. unfold trunc_nonneg. split.
  - apply Int_part_bounds; [|].
    + apply Rmult_le_pos; lra.
    + rewrite <- (Rmult_1_l (IZR (size - 1))) at 2. apply Rmult_le_compat_r; lra.
  - intros Hg. destruct (base_Int_part (q * IZR (size - 1))) as [A B]. rewrite Hg in A.
    assert (Q : (1 <= q)%R).
    { apply Rmult_le_reg_r with (IZR (size - 1)); [exact Hn|]. lra. }
    assert (q = 1)%R by lra. unfold q in H.
    assert (x - a0 = aN - a0)%R; [|lra]. apply Rmult_eq_reg_r with (/ (aN - a0))%R.
    + rewrite Rinv_r by lra. exact H.
    + apply Rinv_neq_0_compat; lra.
Qed.
