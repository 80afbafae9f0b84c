(** Evolving potentials: interpolation in time *)
From Coq Require Import Reals Lra Psatz Lia Bool ZArith List.
From Coquelicot Require Import Coquelicot.
From Verif Require Import RandReal PolyModel PolyProofs Base BinSearchModel BinSearchSpec PropsSearch CoordModel CoordSpec CoordCalc CoordProofs CoordVel OrientModel OrientSpec PotModel PotSpec PotProofs PotProofs2 RootProofs.
Import ListNotations.
Local Open Scope R_scope.

Lemma incr_lt l : increasing l -> forall i j, (i < j < length l)%nat -> nth i l 0 < nth j l 0.
Proof.
  intros H i j. induction j as [|j IH]; [lia|]. intros Hj. destruct (Nat.eq_dec i j) as [->|Ne]; [apply H; lia|].
  apply Rlt_trans with (nth j l 0); [apply IH; lia|apply H; lia].
Qed.
Lemma incr_le l : increasing l -> forall i j, (i <= j < length l)%nat -> nth i l 0 <= nth j l 0.
Proof. intros H i j Hj. destruct (Nat.eq_dec i j) as [->|Ne]; [lra|]. apply Rlt_le, incr_lt; [exact H|lia]. Qed.
Lemma nthe_nth (l : list R) i a : nth_error l i = Some a -> nth i l 0 = a /\ (i < length l)%nat.
Proof. intros H. split; [apply nth_error_nth with (d := 0) in H; exact H|apply nth_error_Some; congruence]. Qed.
Lemma get_nth (l : list R) i : (i < length l)%nat -> get l (Z.of_nat i) = Ok (nth i l 0).
Proof.
  intros H. unfold get. replace (Z.ltb (Z.of_nat i) 0) with false by (symmetry; apply Z.ltb_ge; lia).
  rewrite Nat2Z.id. rewrite (nth_error_nth' l 0 H). reflexivity.
Qed.
Lemma get_nth' {A} (l : list A) d i : (i < length l)%nat -> get l (Z.of_nat i) = Ok (nth i l d).
Proof.
  intros H. unfold get. replace (Z.ltb (Z.of_nat i) 0) with false by (symmetry; apply Z.ltb_ge; lia).
  rewrite Nat2Z.id. rewrite (nth_error_nth' l d H). reflexivity.
Qed.

Lemma search_cases t times lin : increasing times -> times <> [] ->
  exists k w, searchInterp t times lin = Ok (Z.of_nat k, w) /\ (k < length times)%nat /\
  ((w = 1 /\ k = 0%nat /\ t <= nth 0 times 0) \/
   (w = 1 /\ k = (length times - 1)%nat /\ nth (length times - 1) times 0 <= t) \/
   (lin = true /\ (S k < length times)%nat /\ nth k times 0 <= t <= nth (S k) times 0 /\ w = (nth (S k) times 0 - t) / (nth (S k) times 0 - nth k times 0)) \/
   (lin = false /\ w = 1 /\ exists i, (S i < length times)%nat /\ nth i times 0 <= t <= nth (S i) times 0 /\
      ((k = i /\ t - nth i times 0 <= nth (S i) times 0 - t) \/ (k = S i /\ nth (S i) times 0 - t <= t - nth i times 0)))).
Proof.
  intros Hi Hn. assert (L : (0 < length times)%nat) by (destruct times; [congruence|cbn; lia]).
  assert (Hs : sorted Rle times).
  { intros i j a b Ha Hb Hij. apply nthe_nth in Ha. apply nthe_nth in Hb. destruct Ha as (<- & Ha), Hb as (<- & Hb). apply incr_le; [exact Hi|lia]. }
  destruct (C05_binSearch_real t times Hs) as (k & Ek & Sk).
  { intros a0 aN L2 H0 HN. apply nthe_nth in H0. apply nthe_nth in HN. destruct H0 as (<- & _), HN as (<- & HN). apply incr_lt; [exact Hi|lia]. }
  unfold searchInterp. rewrite Ek. cbn [bind]. unfold zlen in *.
  destruct Sk as [(E & _)|(a0 & aN & H0 & HN & C)]; [congruence|].
  apply nthe_nth in H0. apply nthe_nth in HN. destruct H0 as (H0 & _), HN as (HN & _).
  unfold BinSearchSpec.lt in C.
  destruct C as [(C & ->)|[(C & ->)|[(C1 & C2 & L1 & ->)|(C1 & C2 & Rk & ak & ak1 & Ha & Ha1 & D1 & D2 & D3)]]].
  - exists 0%nat, 1. split; [reflexivity|]. split; [exact L|]. left. split; [reflexivity|]. split; [reflexivity|]. rewrite H0. lra.
  - exists (length times - 1)%nat, 1. replace (Z.ltb (zlen times - 1) 0) with false by (symmetry; apply Z.ltb_ge; unfold zlen; lia).
    unfold zlen. rewrite Z.leb_refl. split; [f_equal; f_equal; lia|]. split; [lia|]. right. left. split; [reflexivity|]. split; [reflexivity|]. rewrite HN. lra.
  - exists 0%nat, 1. replace (Z.leb (Z.of_nat (length times) - 1) 0) with true by (symmetry; apply Z.leb_le; lia). cbn [Z.ltb Z.compare].
    split; [f_equal; f_equal; lia|]. split; [lia|]. right. left. split; [reflexivity|]. split; [lia|]. rewrite L1 in *. cbn [Nat.sub] in *. rewrite HN.
    assert (aN = a0) by (rewrite <- H0, <- HN; reflexivity). lra.
  - unfold zlen in Rk, D3. apply nthe_nth in Ha. apply nthe_nth in Ha1. destruct Ha as (Ha & La), Ha1 as (Ha1 & La1). replace (Z.to_nat k + 1)%nat with (S (Z.to_nat k)) in * by lia.
    replace (Z.ltb k 0) with false by (symmetry; apply Z.ltb_ge; lia). replace (Z.leb (Z.of_nat (length times) - 1) k) with false by (symmetry; apply Z.leb_gt; lia).
    assert (G1 : get times (k + 1) = Ok ak1). { replace (k + 1)%Z with (Z.of_nat (S (Z.to_nat k))) by lia. rewrite get_nth by exact La1. rewrite Ha1. reflexivity. }
    assert (G0 : get times k = Ok ak). { replace k with (Z.of_nat (Z.to_nat k)) by lia. rewrite get_nth by lia. rewrite Ha. reflexivity. }
    rewrite G1, G0. cbn [bind]. destruct lin.
    + exists (Z.to_nat k), ((ak1 - t) / (ak1 - ak)). split; [rewrite Z2Nat.id by lia; reflexivity|]. split; [exact La|]. right. right. left. rewrite Ha, Ha1. repeat split; auto.
    + destruct (Rlt_dec (ak1 - t) (t - ak)) as [Hc|Hc].
      * rewrite Rlt_b_t by exact Hc. exists (S (Z.to_nat k)), 1. split; [f_equal; f_equal; lia|]. split; [exact La1|]. right. right. right. split; [reflexivity|]. split; [reflexivity|].
        exists (Z.to_nat k). rewrite Ha, Ha1. split; [exact La1|]. split; [lra|]. right. split; [reflexivity|lra].
      * rewrite Rlt_b_f by lra. exists (Z.to_nat k), 1. split; [f_equal; f_equal; lia|]. split; [exact La|]. right. right. right. split; [reflexivity|]. split; [reflexivity|].
        exists (Z.to_nat k). rewrite Ha, Ha1. split; [exact La1|]. split; [lra|]. left. split; [reflexivity|lra].
Qed.

Lemma evolving_sym_none l : forall sym prev, (exists s', evolving_sym sym prev l = Some s') <-> increasing (prev :: map fst l).
Proof.
  induction l as [|[ti si] l IH]; intros sym prev; cbn [evolving_sym map fst].
  - split; [intros _ i; cbn; lia|eauto].
  - destruct (Rlt_dec prev ti) as [H|H].
    + rewrite Rlt_b_t by exact H. cbn [negb]. rewrite IH. split; intros K i Hi.
      * destruct i as [|i]; [exact H|]. apply (K i). cbn in *; lia.
      * apply (K (S i)). cbn in *; lia.
    + rewrite Rlt_b_f by lra. cbn [negb]. split; [intros (s' & E); discriminate|]. intros K. exfalso. apply H. apply (K 0%nat). cbn; lia.
Qed.
Lemma map_fst_combine {A B} (a : list A) (b : list B) : length a = length b -> map fst (combine a b) = a.
Proof. revert b. induction a as [|x a IH]; intros [|y b]; cbn; try discriminate; intros E; [reflexivity|]. f_equal. apply IH. lia. Qed.
Lemma evolving_accepts times insts lin m e :
  (exists P, Evolving times insts lin m e = Some P) <-> length times = length insts /\ times <> [] /\ increasing times.
Proof.
  unfold Evolving. destruct (Nat.eqb (length times) (length insts)) eqn:El; cbn [negb].
  - apply Nat.eqb_eq in El. destruct times as [|t0 times], insts as [|c0 insts]; try discriminate.
    + split; [intros (P & E); discriminate|tauto].
    + set (l := combine times (map (fun c => d_sym (p_dens c)) insts)).
      assert (Ef : map fst l = times) by (apply map_fst_combine; rewrite map_length; cbn in El; lia).
      pose proof (evolving_sym_none l (d_sym (p_dens c0)) t0) as K. rewrite Ef in K.
      destruct (evolving_sym (d_sym (p_dens c0)) t0 l) as [s'|].
      * split; [|eauto]. intros _. split; [exact El|]. split; [discriminate|]. apply K. eauto.
      * split; [intros (P & E); discriminate|]. intros (_ & _ & I). apply K in I. destruct I as (s' & E). discriminate.
  - apply Nat.eqb_neq in El. split; [intros (P & E); discriminate|]. intros (E & _). congruence.
Qed.

Section Ev.
  Variables (times : list R) (insts : list pot) (lin : bool) (m : R) (e : R -> R) (P : pot) (c0 : pot).
  Hypothesis HE : Evolving times insts lin m e = Some P.
  Hypothesis HP : forall c, In c insts -> proper c.
  Let inst i := nth i insts c0.
  Let tm i := nth i times 0.
  Lemma HE' : length times = length insts /\ times <> [] /\ increasing times.
  Proof. apply (evolving_accepts times insts lin m e). eauto. Qed.
  Lemma P_form : exists sym, P = basePot Car (evolving_eval times insts lin) (evolving_density times insts lin) m e sym.
  Proof.
    revert HE. unfold Evolving. destruct (negb _); [discriminate|]. destruct times as [|t0 ts], insts as [|i0 is]; try discriminate.
    destruct (evolving_sym _ _ _) as [s'|]; [|discriminate]. intros E. injection E as <-. eauto.
  Qed.
  Lemma inst_proper i : (i < length times)%nat -> proper (inst i).
  Proof. intros H. apply HP. apply nth_In. destruct HE' as (<- & _). exact H. Qed.

  (** weight w for instance k; with w=1 the second instance does not matter *)
  Lemma eval_at k w t p fl : searchInterp t times lin = Ok (Z.of_nat k, w) -> (k < length times)%nat -> (w <> 1 -> (S k < length times)%nat) ->
    evolving_eval times insts lin fl t p =
      if Req_b w 1 then p_eval (inst k) Car fl t p
      else outputs fl (w * value_of (inst k) Car t p + (1 - w) * value_of (inst (S k)) Car t p)
             (combineG w (1 - w) (grad_of (inst k) Car t p) (grad_of (inst (S k)) Car t p)) (combineH w (1 - w) (hess_of (inst k) Car t p) (hess_of (inst (S k)) Car t p)).
  Proof.
    intros E Hk Hw. destruct fl as [[wp wg] wh]. unfold evolving_eval. rewrite E. destruct HE' as (El & _).
    rewrite (get_nth' insts c0) by lia. fold (inst k). destruct (Req_dec w 1) as [->|Nw].
    - rewrite Req_b_t by reflexivity. cbn [negb]. destruct (p_eval (inst k) Car (wp, wg, wh) t p) as [[v g] h]. reflexivity.
    - rewrite Req_b_f by exact Nw. cbn [negb]. specialize (Hw Nw). replace (Z.of_nat k + 1)%Z with (Z.of_nat (S k)) by lia.
      rewrite (get_nth' insts c0) by lia. fold (inst (S k)). rewrite (proj1 (inst_proper k Hk) Car t p (wp, wg, wh)), (proj1 (inst_proper (S k) Hw) Car t p (wp, wg, wh)).
      cbn [outputs]. destruct wp, wg, wh; reflexivity.
  Qed.
  Lemma dens_at k w t p : searchInterp t times lin = Ok (Z.of_nat k, w) -> (k < length times)%nat -> (w <> 1 -> (S k < length times)%nat) ->
    evolving_density times insts lin t p =
      if Req_b w 1 then d_density (p_dens (inst k)) Car t p
      else w * d_density (p_dens (inst k)) Car t p + (1 - w) * d_density (p_dens (inst (S k))) Car t p.
  Proof.
    intros E Hk Hw. unfold evolving_density. rewrite E. destruct HE' as (El & _).
    rewrite (get_nth' insts c0) by lia. fold (inst k). destruct (Req_dec w 1) as [->|Nw].
    - rewrite Req_b_t by reflexivity. reflexivity.
    - rewrite Req_b_f by exact Nw. cbn [negb]. specialize (Hw Nw). replace (Z.of_nat k + 1)%Z with (Z.of_nat (S k)) by lia.
      rewrite (get_nth' insts c0) by lia. reflexivity.
  Qed.
  Definition mix (w : R) (i j : nat) (t : R) (p : vec3) (fl : flags) : eres :=
    outputs fl (w * value_of (inst i) Car t p + (1 - w) * value_of (inst j) Car t p)
      (vlin w (1 - w) (grad_of (inst i) Car t p) (grad_of (inst j) Car t p)) (hlin w (1 - w) (hess_of (inst i) Car t p) (hess_of (inst j) Car t p)).
  Definition mixd (w : R) (i j : nat) (t : R) (p : vec3) : R := w * d_density (p_dens (inst i)) Car t p + (1 - w) * d_density (p_dens (inst j)) Car t p.
  Lemma mix_1 i j t p fl : (i < length times)%nat -> mix 1 i j t p fl = p_eval (inst i) Car fl t p.
  Proof.
    intros H. rewrite (proj1 (inst_proper i H) Car t p fl). unfold mix. set (g := grad_of (inst i) _ _ _). set (h := hess_of (inst i) _ _ _).
    replace (vlin _ _ _ _) with g; [replace (hlin _ _ _ _) with h; [f_equal; ring|]|].
    - destruct h. apply hess6_eq; cbn; ring.
    - destruct g as [[a b] c]. unfold vlin; apply v_eq; unfold v1, v2, v3; cbn [fst snd]; ring.
  Qed.
  Lemma mix_0 i j t p fl : (j < length times)%nat -> mix 0 i j t p fl = p_eval (inst j) Car fl t p.
  Proof.
    intros H. rewrite (proj1 (inst_proper j H) Car t p fl). unfold mix. set (g := grad_of (inst j) _ _ _). set (h := hess_of (inst j) _ _ _).
    replace (vlin _ _ _ _) with g; [replace (hlin _ _ _ _) with h; [f_equal; ring|]|].
    - destruct h. apply hess6_eq; cbn; ring.
    - destruct g as [[a b] c]. unfold vlin; apply v_eq; unfold v1, v2, v3; cbn [fst snd]; ring.
  Qed.
  Lemma mixd_1 i j t p : mixd 1 i j t p = d_density (p_dens (inst i)) Car t p. Proof. unfold mixd; ring. Qed.
  Lemma mixd_0 i j t p : mixd 0 i j t p = d_density (p_dens (inst j)) Car t p. Proof. unfold mixd; ring. Qed.

  Lemma eval_mix k w t p fl : searchInterp t times lin = Ok (Z.of_nat k, w) -> (k < length times)%nat -> (w <> 1 -> (S k < length times)%nat) ->
    evolving_eval times insts lin fl t p = mix w k (S k) t p fl /\ evolving_density times insts lin t p = mixd w k (S k) t p.
  Proof.
    intros E Hk Hw. rewrite (eval_at k w t p fl E Hk Hw), (dens_at k w t p E Hk Hw). destruct (Req_dec w 1) as [->|Nw].
    - rewrite Req_b_t by reflexivity. rewrite mix_1, mixd_1 by exact Hk. split; reflexivity.
    - rewrite Req_b_f by exact Nw. split; reflexivity.
  Qed.
  (** linear interpolation between the enclosing time stamps *)
  Lemma ev_linear i t p fl : lin = true -> (S i < length times)%nat -> tm i <= t <= tm (S i) ->
    let w := (tm (S i) - t) / (tm (S i) - tm i) in
    evolving_eval times insts lin fl t p = mix w i (S i) t p fl /\ evolving_density times insts lin t p = mixd w i (S i) t p.
  Proof.
    intros Hlin Hi Ht w. destruct HE' as (El & Hn & Hinc). pose proof (incr_lt times Hinc) as LT. pose proof (incr_le times Hinc) as LE.
    assert (Hd : tm i < tm (S i)) by (apply LT; lia).
    destruct (search_cases t times lin Hinc Hn) as (k & w' & E & Hk & C).
    assert (W1 : t = tm i -> w = 1) by (intros ->; unfold w; field; lra).
    assert (W0 : t = tm (S i) -> w = 0) by (intros ->; unfold w; field; lra).
    assert (Res : (w' <> 1 -> (S k < length times)%nat) -> evolving_eval times insts lin fl t p = mix w' k (S k) t p fl /\ evolving_density times insts lin t p = mixd w' k (S k) t p)
      by (intros Hw; apply eval_mix; assumption).
    destruct C as [(-> & -> & C)|[(-> & -> & C)|[(_ & C1 & C2 & Ew)|(C & _)]]]; [| | |congruence].
    - destruct Res as (-> & ->); [congruence|]. assert (t = tm i /\ i = 0%nat) as (Et & ->).
      { destruct i as [|i']; [split; [apply Rle_antisym; [exact C|tauto]|reflexivity]|]. exfalso. assert (tm 0 < tm (S i')) by (apply LT; lia). unfold tm in *; lra. }
      rewrite (W1 Et). split; reflexivity.
    - destruct Res as (-> & ->); [congruence|]. assert (Ei : S i = (length times - 1)%nat).
      { destruct (Nat.eq_dec (S i) (length times - 1)) as [X|X]; [exact X|]. exfalso. assert (tm (S i) < tm (length times - 1)) by (apply LT; lia). unfold tm in *; lra. }
      assert (Et : t = tm (S i)) by (unfold tm in *; rewrite Ei in *; lra). rewrite (W0 Et), <- Ei. rewrite mix_1, mix_0, mixd_1, mixd_0 by lia. split; reflexivity.
    - destruct Res as (-> & ->); [intros _; exact C1|]. fold (tm k) in *. fold (tm (S k)) in *.
      destruct (Nat.lt_trichotomy k i) as [X|[->|X]].
      + assert (tm (S k) <= tm i) by (apply LE; lia). assert (Et : t = tm i) by lra. assert (Ek : S k = i).
        { destruct (Nat.eq_dec (S k) i) as [Y|Y]; [exact Y|]. exfalso. assert (tm (S k) < tm i) by (apply LT; lia). lra. }
        assert (w' = 0) as ->. { rewrite Ew, Ek, Et. unfold Rdiv. rewrite Rminus_diag_eq by reflexivity. ring. }
        rewrite (W1 Et), <- Ek. rewrite mix_1, mix_0, mixd_1, mixd_0 by lia. split; reflexivity.
      + rewrite Ew. split; reflexivity.
      + assert (tm (S i) <= tm k) by (apply LE; lia). assert (Et : t = tm (S i)) by lra. assert (Ek : k = S i).
        { destruct (Nat.eq_dec (S i) k) as [Y|Y]; [symmetry; exact Y|]. exfalso. assert (tm (S i) < tm k) by (apply LT; lia). lra. }
        subst k. assert (tm (S i) < tm (S (S i))) by (apply LT; lia). assert (w' = 1) as ->. { rewrite Ew, Et. field. lra. }
        rewrite (W0 Et). rewrite mix_1, mix_0, mixd_1, mixd_0 by lia. split; reflexivity.
  Qed.
  (** clamping before the first and after the last time stamp *)
  Lemma ev_before t p fl : t <= tm 0 -> evolving_eval times insts lin fl t p = p_eval (inst 0) Car fl t p /\ evolving_density times insts lin t p = d_density (p_dens (inst 0)) Car t p.
  Proof.
    intros Ht. destruct HE' as (El & Hn & Hinc). pose proof (incr_lt times Hinc) as LT.
    assert (L : (0 < length times)%nat) by (destruct times; [congruence|cbn; lia]).
    destruct (search_cases t times lin Hinc Hn) as (k & w & E & Hk & C).
    assert (Hw : w = 1 /\ k = 0%nat).
    { destruct C as [(-> & -> & C)|[(-> & -> & C)|[(_ & C1 & C2 & Ew)|(_ & -> & i & Hi & C1 & C2)]]].
      - tauto.
      - split; [reflexivity|]. destruct (Nat.eq_dec (length times - 1) 0) as [X|X]; [exact X|]. assert (tm 0 < tm (length times - 1)) by (apply LT; lia). unfold tm in *; lra.
      - destruct (Nat.eq_dec k 0) as [->|X]; [|assert (tm 0 < tm k) by (apply LT; lia); unfold tm in *; lra]. split; [|reflexivity].
        assert (tm 0 < tm 1) by (apply LT; lia). unfold tm in *. replace t with (nth 0 times 0) in Ew by lra. rewrite Ew. field. lra.
      - split; [reflexivity|]. destruct (Nat.eq_dec i 0) as [->|X]; [|assert (tm 0 < tm i) by (apply LT; lia); unfold tm in *; lra].
        destruct C2 as [(-> & _)|(-> & C2)]; [reflexivity|]. assert (tm 0 < tm 1) by (apply LT; lia). unfold tm in *. lra. }
    destruct Hw as (-> & ->). destruct (eval_mix 0 1 t p fl E Hk) as (-> & ->); [congruence|]. rewrite mix_1, mixd_1 by exact L. split; reflexivity.
  Qed.
  Lemma ev_after t p fl : tm (length times - 1) <= t -> evolving_eval times insts lin fl t p = p_eval (inst (length times - 1)) Car fl t p /\ evolving_density times insts lin t p = d_density (p_dens (inst (length times - 1))) Car t p.
  Proof.
    intros Ht. destruct HE' as (El & Hn & Hinc). pose proof (incr_lt times Hinc) as LT.
    assert (L : (0 < length times)%nat) by (destruct times; [congruence|cbn; lia]).
    set (n := (length times - 1)%nat) in *.
    destruct (search_cases t times lin Hinc Hn) as (k & w & E & Hk & C).
    assert (Hw : (w = 1 /\ k = n) \/ (w = 0 /\ S k = n)).
    { destruct C as [(-> & -> & C)|[(-> & -> & C)|[(_ & C1 & C2 & Ew)|(_ & -> & i & Hi & C1 & C2)]]].
      - left. split; [reflexivity|]. destruct (Nat.eq_dec n 0) as [X|X]; [symmetry; exact X|]. assert (tm 0 < tm n) by (apply LT; lia). unfold tm in *; lra.
      - left. split; reflexivity.
      - right. destruct (Nat.eq_dec (S k) n) as [Y|X]; [|assert (tm (S k) < tm n) by (apply LT; lia); unfold tm in *; lra]. split; [|exact Y].
        assert (tm k < tm (S k)) by (apply LT; lia). rewrite <- Y in Ht. unfold tm in *. replace t with (nth (S k) times 0) in Ew by lra. rewrite Ew. field. lra.
      - left. split; [reflexivity|]. destruct (Nat.eq_dec (S i) n) as [Y|X]; [|assert (tm (S i) < tm n) by (apply LT; lia); unfold tm in *; lra].
        destruct C2 as [(-> & C2)|(-> & C2)]; [|exact Y]. assert (tm i < tm (S i)) by (apply LT; lia). rewrite <- Y in Ht. unfold tm in *. lra. }
    destruct Hw as [(-> & ->)|(-> & Ek)].
    - destruct (eval_mix n 1 t p fl E Hk) as (-> & ->); [congruence|]. rewrite mix_1, mixd_1 by exact Hk. split; reflexivity.
    - destruct (eval_mix k 0 t p fl E Hk) as (-> & ->); [lia|]. rewrite Ek, mix_0, mixd_0 by lia. split; reflexivity.
  Qed.
  (** nearest time stamp *)
  Lemma ev_nearest t p : lin = false -> exists j, (j < length times)%nat /\ (forall i, (i < length times)%nat -> Rabs (t - tm j) <= Rabs (t - tm i)) /\
    (forall fl, evolving_eval times insts lin fl t p = p_eval (inst j) Car fl t p) /\ evolving_density times insts lin t p = d_density (p_dens (inst j)) Car t p.
  Proof.
    intros Hlin. destruct HE' as (El & Hn & Hinc). pose proof (incr_le times Hinc) as LE.
    destruct (search_cases t times lin Hinc Hn) as (k & w & E & Hk & C).
    assert (Hw : w = 1 /\ forall i, (i < length times)%nat -> Rabs (t - tm k) <= Rabs (t - tm i)).
    { destruct C as [(-> & -> & C)|[(-> & -> & C)|[(C & _)|(_ & -> & i & Hi & C1 & C2)]]]; [| |congruence|].
      - split; [reflexivity|]. intros i Hi. assert (tm 0 <= tm i) by (apply LE; lia). fold (tm 0) in C. rewrite !Rabs_left1 by lra. lra.
      - split; [reflexivity|]. intros i Hi. assert (tm i <= tm (length times - 1)) by (apply LE; lia). fold (tm (length times - 1)) in C. rewrite !Rabs_right by lra. lra.
      - split; [reflexivity|]. intros j Hj. fold (tm i) (tm (S i)) in *.
        assert (Dj : tm j <= tm i \/ tm (S i) <= tm j) by (destruct (Nat.le_gt_cases j i); [left; apply LE; lia|right; apply LE; lia]).
        destruct C2 as [(-> & C2)|(-> & C2)].
        + rewrite (Rabs_right (t - tm i)) by lra. destruct Dj; [rewrite Rabs_right by lra; lra|rewrite Rabs_left1 by lra; lra].
        + rewrite (Rabs_left1 (t - tm (S i))) by lra. destruct Dj; [rewrite Rabs_right by lra; lra|rewrite Rabs_left1 by lra; lra]. }
    destruct Hw as (-> & Hn'). exists k. split; [exact Hk|]. split; [exact Hn'|]. split.
    - intros fl. destruct (eval_mix k 1 t p fl E Hk) as (-> & _); [congruence|]. apply mix_1; exact Hk.
    - destruct (eval_mix k 1 t p (true, true, true) E Hk) as (_ & ->); [congruence|]. apply mixd_1.
  Qed.
  (** every request is answered, independently of the others *)
  Lemma ev_total t p : exists v g h, forall fl, evolving_eval times insts lin fl t p = outputs fl v g h.
  Proof.
    destruct HE' as (El & Hn & Hinc). destruct (search_cases t times lin Hinc Hn) as (k & w & E & Hk & C).
    eexists _, _, _. intros fl. destruct (eval_mix k w t p fl E Hk) as (-> & _); [|reflexivity].
    intros Nw. destruct C as [(-> & _)|[(-> & _)|[(_ & C1 & _)|(_ & -> & _)]]]; congruence.
  Qed.
  Lemma ev_proper : proper P.
  Proof. pose proof ev_total as T. destruct P_form as (sym & E). rewrite E. apply base_proper. exact T. Qed.
  Lemma ev_represents i Phi1 Phi2 t s p : lin = true -> (S i < length times)%nat -> tm i <= t <= tm (S i) ->
    represents (inst i) Phi1 t Car (cart s p) -> represents (inst (S i)) Phi2 t Car (cart s p) ->
    let w := (tm (S i) - t) / (tm (S i) - tm i) in
    represents P (fun t' x => w * Phi1 t' x + (1 - w) * Phi2 t' x) t s p.
  Proof.
    intros Hlin Hi Ht (g1 & h1 & R1 & X1) (g2 & h2 & R2 & X2) w. destruct P_form as (sym & EP). rewrite EP.
    apply (base_car_represents _ _ _ _ _ _ (combineG w (1 - w) g1 g2) (combineH w (1 - w) h1 h2)).
    - intros fl. destruct (ev_linear i t (cart s p) fl Hlin Hi Ht) as (-> & _). fold w. unfold mix.
      destruct (returns_of _ _ _ _ _ _ _ R1) as (-> & -> & ->). destruct (returns_of _ _ _ _ _ _ _ R2) as (-> & -> & ->). rewrite cart_Car. reflexivity.
    - apply is_hess_lin; [revert X1|revert X2]; apply is_hess_ext; intros q; rewrite cart_Car; reflexivity.
  Qed.
End Ev.
