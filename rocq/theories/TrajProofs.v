From Coq Require Import Psatz.
From Verif Require Import PolyProofs TrajModel.
Local Open Scope R_scope.

Lemma toInt_nonneg x : 0 <= x -> IZR (toInt x) <= x < IZR (toInt x) + 1 /\ (0 <= toInt x)%Z.
Proof.
  intros H. unfold toInt. rewrite Rle_b_t by exact H. destruct (base_Int_part x) as [A B]. split; [lra|]. assert (-1 < Int_part x)%Z by (apply lt_IZR; lra). lia.
Qed.
Lemma toInt_small x : -1 < x < 0 -> toInt x = 0%Z.
Proof.
  intros H. unfold toInt. rewrite Rle_b_f by lra. destruct (base_Int_part (- x)) as [A B]. assert (-1 < Int_part (- x) < 1)%Z by (split; apply lt_IZR; lra). lia.
Qed.

(** steps form an unbroken chain of intervals starting at t, going in the direction s *)
Fixpoint chain (s t : R) (steps : list (R * R)) : Prop :=
  match steps with [] => True | (tb, te) :: r => tb = t /\ s * tb < s * te /\ chain s te r end.
Definition lastTime (t : R) (steps : list (R * R)) : R := last (map snd steps) t.

Lemma dirsign_eq s tb te : s = 1 \/ s = -1 -> s * tb < s * te -> dirsign tb te = s.
Proof. intros [-> | ->] H; unfold dirsign; [rewrite Rle_b_t by lra|rewrite Rle_b_f by lra]; reflexivity. Qed.
(** the roundoff margin *)
Definition dm (t0 t : R) : R := ROUNDOFF * Rmax (Rabs t) (Rabs t0).
Lemma ROUND_pos : 0 < ROUNDOFF. Proof. unfold ROUNDOFF. apply Rdiv_lt_0_compat; [lra|apply pow_lt; lra]. Qed.
Lemma abs_mid s t0 t te : s = 1 \/ s = -1 -> s * t0 <= s * t -> s * t <= s * te -> Rabs t <= Rmax (Rabs te) (Rabs t0).
Proof.
  intros S A B. pose proof (Rmax_l (Rabs te) (Rabs t0)). pose proof (Rmax_r (Rabs te) (Rabs t0)). 
  pose proof (Rle_abs te). pose proof (Rle_abs (- te)). pose proof (Rle_abs t0). pose proof (Rle_abs (- t0)). rewrite Rabs_Ropp in *. apply Rabs_le. destruct S as [-> | ->]; lra.
Qed.
Lemma dtround_eq s t0 t te : s = 1 \/ s = -1 -> s * t0 <= s * t -> s * t <= s * te -> dtround te t t0 = dm t0 te.
Proof.
  intros S A B. unfold dtround, dm. f_equal. pose proof (abs_mid s t0 t te S A B). pose proof (Rmax_l (Rabs te) (Rabs t0)). pose proof (Rmax_r (Rabs te) (Rabs t0)).
  apply Rle_antisym; apply Rmax_lub; try assumption.
  - apply Rmax_lub; assumption.
  - apply Rle_trans with (Rmax (Rabs te) (Rabs t)); apply Rmax_l.
  - apply Rmax_r.
Qed.
Lemma dm_mono s t0 t te : s = 1 \/ s = -1 -> s * t0 <= s * t -> s * t <= s * te -> dm t0 t <= dm t0 te.
Proof. intros S A B. unfold dm. apply Rmult_le_compat_l; [pose proof ROUND_pos; lra|]. apply Rmax_lub; [apply (abs_mid s); assumption|apply Rmax_r]. Qed.
Lemma dm_nonneg t0 t : 0 <= dm t0 t.
Proof. unfold dm. apply Rmult_le_pos; [pose proof ROUND_pos; lra|]. eapply Rle_trans; [apply Rabs_pos|apply Rmax_l]. Qed.

(** writing an element *)
Lemma assign_ok i v l : (0 <= i < Z.of_nat (length l))%Z -> exists l', assign i v l = Some l' /\ length l' = length l /\
  forall j d, nth j l' d = if Nat.eqb j (Z.to_nat i) then Some v else nth j l d.
Proof.
  intros H. unfold assign. destruct (Z.ltb_spec i 0); [lia|]. destruct (Z.leb_spec (Z.of_nat (length l)) i); [lia|]. cbn [orb]. eexists. split; [reflexivity|].
  set (k := Z.to_nat i). assert (K : (k < length l)%nat) by lia. clearbody k. clear H H0 H1 i. revert l K. induction k as [|k IH]; intros [|a l] K; cbn [length] in *; try lia.
  - cbn [firstn skipn app length]. split; [lia|]. intros [|j] d; reflexivity.
  - cbn [firstn]. change (skipn (S (S k)) (a :: l)) with (skipn (S k) l). destruct (IH l ltac:(lia)) as [I1 I2]. cbn [app length]. split; [lia|]. intros [|j] d; [reflexivity|]. cbn [nth Nat.eqb]. apply I2.
Qed.
Lemma resize_nth n l i : (length l <= n)%nat -> nth i (resize n l) None = nth i l None.
Proof.
  intros H. unfold resize. rewrite firstn_all2 by exact H. destruct (Nat.lt_ge_cases i (length l)) as [L|L]; [apply app_nth1, L|].
  rewrite app_nth2 by exact L. rewrite (nth_overflow l) by exact L. destruct (Nat.lt_ge_cases (i - length l) (n - length l)); [|apply nth_overflow; rewrite repeat_length; assumption].
  generalize (i - length l)%nat (n - length l)%nat. intros a b. revert a. induction b as [|b IHb]; intros [|a]; cbn; auto.
Qed.
Lemma resize_length n l : length (resize n l) = n.
Proof. unfold resize. rewrite app_length, firstn_length, repeat_length. lia. Qed.

(** the condition for storing point number i during a timestep *)
Definition stores (s dt t0 tb te dtr : R) (i : Z) : bool :=
  Rle_b (s * tb - dtr) (s * (s * dt * IZR i + t0)) && Rle_b (s * (s * dt * IZR i + t0)) (s * te + dtr).
Lemma recordLoop_ok s dt t0 tb te dtr : forall n i traj, (0 <= i)%Z -> (i + Z.of_nat n <= Z.of_nat (length traj))%Z ->
  exists traj', recordLoop n i s dt t0 tb te dtr traj = Some traj' /\ length traj' = length traj /\
  forall j, nth j traj' None = if (Z.leb i (Z.of_nat j) && Z.ltb (Z.of_nat j) (i + Z.of_nat n) && stores s dt t0 tb te dtr (Z.of_nat j))%bool
    then Some {| ptime := s * dt * INR j + t0; pstep := (tb, te) |} else nth j traj None.
Proof.
  induction n as [|n IH]; intros i traj Hi Hn.
  - exists traj. cbn [recordLoop]. split; [reflexivity|]. split; [reflexivity|]. intros j. destruct (Z.leb_spec i (Z.of_nat j)), (Z.ltb_spec (Z.of_nat j) (i + Z.of_nat 0)); cbn [andb]; try reflexivity. lia.
  - cbn [recordLoop]. cbv zeta. fold (stores s dt t0 tb te dtr i). destruct (stores s dt t0 tb te dtr i) eqn:St.
    + destruct (assign_ok i {| ptime := s * dt * IZR i + t0; pstep := (tb, te) |} traj ltac:(lia)) as [l' [E [L N]]]. rewrite E.
      destruct (IH (i + 1)%Z l' ltac:(lia) ltac:(lia)) as [l'' [E2 [L2 N2]]]. exists l''. split; [exact E2|]. split; [congruence|]. intros j. rewrite N2, N.
      destruct (Nat.eqb_spec j (Z.to_nat i)) as [Ej|Ej].
      * subst j. rewrite Z2Nat.id by exact Hi. rewrite St. destruct (Z.leb_spec (i + 1) i); [lia|]. destruct (Z.leb_spec i i); [|lia]. destruct (Z.ltb_spec i (i + Z.of_nat (S n))); [|lia]. cbn [andb]. rewrite INR_IZR_INZ, Z2Nat.id by exact Hi. reflexivity.
      * destruct (Z.leb_spec (i + 1) (Z.of_nat j)), (Z.leb_spec i (Z.of_nat j)), (Z.ltb_spec (Z.of_nat j) (i + 1 + Z.of_nat n)), (Z.ltb_spec (Z.of_nat j) (i + Z.of_nat (S n))); cbn [andb]; try reflexivity; lia.
    + destruct (IH (i + 1)%Z traj ltac:(lia) ltac:(lia)) as [l'' [E2 [L2 N2]]]. exists l''. split; [exact E2|]. split; [exact L2|]. intros j. rewrite N2.
      destruct (Z.eq_dec (Z.of_nat j) i) as [Ej|Ej].
      * rewrite Ej, St. rewrite !Bool.andb_false_r. reflexivity.
      * destruct (Z.leb_spec (i + 1) (Z.of_nat j)), (Z.leb_spec i (Z.of_nat j)), (Z.ltb_spec (Z.of_nat j) (i + 1 + Z.of_nat n)), (Z.ltb_spec (Z.of_nat j) (i + Z.of_nat (S n))); cbn [andb]; try reflexivity; lia.
Qed.

(** a correctly recorded point *)
Definition goodPoint (s dt t0 eps : R) (steps : list (R * R)) (i : nat) (o : option point) : Prop :=
  exists tb te, In (tb, te) steps /\ o = Some {| ptime := t0 + s * (dt * INR i); pstep := (tb, te) |} /\
   s * tb - eps <= s * (t0 + s * (dt * INR i)) <= s * te + eps.
Record rec_inv (s dt t0 eps : R) (done : list (R * R)) (t : R) (traj : list (option point)) : Prop := {
  ri_good : forall i, (i < length traj)%nat -> goodPoint s dt t0 eps done i (nth i traj None);
  ri_more : forall i, (length traj <= i)%nat -> s * (t - t0) <= dt * INR i;
  ri_len : (0 < length traj)%nat -> dt * (INR (length traj) - 1) <= s * (t - t0) + dm t0 t;
  ri_len2 : done <> [] -> (0 < length traj)%nat /\ s * (t - t0) + dm t0 t < dt * INR (length traj) }.

Lemma process_step s dt t0 eps done t te traj : s = 1 \/ s = -1 -> 0 < dt -> s * t0 <= s * t -> s * t < s * te -> dm t0 te < dt -> dm t0 te <= eps ->
  rec_inv s dt t0 eps done t traj ->
  exists traj', processInterval dt t0 traj (t, te) = Some traj' /\ rec_inv s dt t0 eps (done ++ [(t, te)]) te traj'.
Proof.
  intros S Dt A B M Me [I1 I2 I3 I4]. unfold processInterval. rewrite (dirsign_eq s) by assumption. rewrite (dtround_eq s) by (try assumption; lra). cbv zeta.
  pose proof (dm_nonneg t0 te) as D0. set (dtr := dm t0 te) in *. assert (SS : s * s = 1) by (destruct S as [-> | ->]; lra).
  assert (X0 : 0 <= (s * (te - t0) + dtr) / dt) by (apply Rmult_le_pos; [lra|left; apply Rinv_0_lt_compat; lra]).
  destruct (toInt_nonneg _ X0) as [E1 E2]. set (iend := toInt ((s * (te - t0) + dtr) / dt)) in *.
  assert (E1' : IZR iend * dt <= s * (te - t0) + dtr < (IZR iend + 1) * dt).
  { assert (Q : (s * (te - t0) + dtr) / dt * dt = s * (te - t0) + dtr) by (field; lra). rewrite <- Q. split; [apply Rmult_le_compat_r; lra|apply Rmult_lt_compat_r; lra]. }
  set (ib := toInt ((s * (t - t0) - dtr) / dt)) in *.
  assert (IB : (0 <= ib)%Z /\ forall i, s * (t - t0) <= dt * INR i -> (ib <= Z.of_nat i)%Z).
  { destruct (Rle_lt_dec 0 ((s * (t - t0) - dtr) / dt)) as [P|P].
    - destruct (toInt_nonneg _ P) as [F1 F2]. fold ib in F1, F2. split; [exact F2|]. intros i Hi. apply le_IZR. rewrite <- INR_IZR_INZ. apply Rle_trans with ((s * (t - t0) - dtr) / dt); [lra|].
      apply Rmult_le_reg_r with dt; [lra|]. unfold Rdiv. rewrite Rmult_assoc, Rinv_l by lra. lra.
    - assert (Z0 : ib = 0%Z). { apply toInt_small. split; [|exact P]. apply Rmult_lt_reg_r with dt; [lra|]. unfold Rdiv. rewrite Rmult_assoc, Rinv_l by lra. lra. }
      rewrite Z0. split; [lia|intros; lia]. }
  destruct IB as [IB1 IB2].
  destruct (Z.ltb_spec (iend + 1) 0); [lia|]. set (n' := Z.to_nat (iend + 1)). assert (N' : Z.of_nat n' = (iend + 1)%Z) by (unfold n'; lia).
  assert (Rn' : INR n' = IZR iend + 1) by (rewrite INR_IZR_INZ, N', plus_IZR; reflexivity).
  assert (Le : (length traj <= n')%nat).
  { destruct (Nat.eq_dec (length traj) 0) as [E|E]; [lia|]. specialize (I3 ltac:(lia)). pose proof (dm_mono s t0 t te S A ltac:(lra)) as Mm. fold dtr in Mm.
    apply INR_le. rewrite Rn'. assert (dt * (INR (length traj) - 1) < dt * (IZR iend + 1)) by lra. apply Rmult_lt_reg_l in H0; [|lra].
    assert (K : (Z.of_nat (length traj) - 1 < iend + 1)%Z) by (apply lt_IZR; rewrite minus_IZR, plus_IZR, <- INR_IZR_INZ; lra).
    rewrite INR_IZR_INZ. rewrite <- plus_IZR. apply IZR_le. lia. }
  assert (Count : exists k, Z.to_nat (iend + 1 - ib) = k /\ ((ib <= iend + 1)%Z /\ Z.of_nat k = (iend + 1 - ib)%Z \/ (iend + 1 < ib)%Z /\ k = 0%nat)).
  { eexists. split; [reflexivity|]. destruct (Z.le_gt_cases ib (iend + 1)); [left|right]; lia. }
  destruct Count as [k [-> K]].
  assert (IBle : (ib <= iend + 1)%Z). { destruct K as [K|K]; [lia|]. 
    (* ib <= iend because s(t-t0)-dtr <= s(te-t0)+dtr *)
    destruct (Rle_lt_dec 0 ((s * (t - t0) - dtr) / dt)) as [P|P].
    - destruct (toInt_nonneg _ P) as [F1 F2]. fold ib in F1, F2. apply le_IZR. rewrite plus_IZR.
      assert ((s * (t - t0) - dtr) / dt <= (s * (te - t0) + dtr) / dt) by (apply Rmult_le_compat_r; [left; apply Rinv_0_lt_compat; lra|lra]). lra.
    - assert (Z0 : ib = 0%Z). { apply toInt_small. split; [|exact P]. apply Rmult_lt_reg_r with dt; [lra|]. unfold Rdiv. rewrite Rmult_assoc, Rinv_l by lra. lra. } lia. }
  assert (Kk : Z.of_nat k = (iend + 1 - ib)%Z) by (destruct K as [K|K]; lia).
  destruct (recordLoop_ok s dt t0 t te dtr k ib (resize n' traj) IB1) as [traj' [R1 [R2 R3]]]; [rewrite resize_length; lia|]. rewrite resize_length in R2.
  exists traj'. split; [exact R1|].
  assert (Tout : forall j, s * (s * dt * IZR (Z.of_nat j) + t0) = dt * INR j + s * t0) by (intros j; rewrite <- INR_IZR_INZ; replace (s * (s * dt * INR j + t0)) with (s * s * (dt * INR j) + s * t0) by ring; rewrite SS; ring).
  assert (Tout2 : forall j, s * (t0 + s * (dt * INR j)) = dt * INR j + s * t0) by (intros j; replace (s * (t0 + s * (dt * INR j))) with (s * s * (dt * INR j) + s * t0) by ring; rewrite SS; ring).
  constructor.
  - intros i Hi. rewrite R2 in Hi. rewrite R3, resize_nth by exact Le.
    destruct (stores s dt t0 t te dtr (Z.of_nat i)) eqn:St.
    + destruct (Z.leb_spec ib (Z.of_nat i)) as [L1|L1]; [destruct (Z.ltb_spec (Z.of_nat i) (ib + Z.of_nat k)) as [L2|L2]; [|lia]|]; cbn [andb].
      * unfold stores in St. apply Bool.andb_true_iff in St. destruct St as [St1 St2]. unfold Rle_b in St1, St2. destruct (Rle_dec _ _) as [St1'|] in St1; [|discriminate]. destruct (Rle_dec _ _) as [St2'|] in St2; [|discriminate].
        exists t, te. split; [apply in_or_app; right; left; reflexivity|]. split; [f_equal; f_equal; ring|]. rewrite Tout in *. rewrite Tout2. lra.
      * assert (Ni : (i < length traj)%nat) by (destruct (Nat.lt_ge_cases i (length traj)) as [C|C]; [exact C|pose proof (IB2 i (I2 i C)); lia]).
        destruct (I1 i Ni) as [tb' [te' [G1 [G2 G3]]]]. exists tb', te'. split; [apply in_or_app; left; exact G1|]. split; assumption.
    + rewrite !Bool.andb_false_r. assert (Ni : (i < length traj)%nat).
      { destruct (Nat.lt_ge_cases i (length traj)) as [C|C]; [exact C|exfalso]. pose proof (I2 i C) as Q. unfold stores in St. rewrite Tout in St.
        assert (INR i <= IZR iend) by (rewrite INR_IZR_INZ; apply IZR_le; lia). assert (dt * INR i <= dt * IZR iend) by (apply Rmult_le_compat_l; lra).
        rewrite !Rle_b_t in St by lra. discriminate. }
      destruct (I1 i Ni) as [tb' [te' [G1 [G2 G3]]]]. exists tb', te'. split; [apply in_or_app; left; exact G1|]. split; assumption.
  - intros i Hi. rewrite R2 in Hi. apply le_INR in Hi. rewrite Rn' in Hi. assert (dt * (IZR iend + 1) <= dt * INR i) by (apply Rmult_le_compat_l; lra). lra.
  - intros _. rewrite R2, Rn'. fold dtr. lra.
  - intros _. rewrite R2, Rn'. split; [lia|]. fold dtr. lra.
Qed.

Lemma chain_mono s t0 : forall steps t, chain s t steps -> s * t0 <= s * t -> s * t0 <= s * lastTime t steps /\ s * t <= s * lastTime t steps.
Proof.
  unfold lastTime. induction steps as [|[tb te] r IH]; intros t H A; [cbn; lra|]. destruct H as [-> [H1 H2]]. cbn [map snd last]. destruct (IH te H2 ltac:(lra)) as [B C].
  destruct (map snd r) as [|x l] eqn:E; [cbn [last]; lra|]. 
  assert (Q : last (x :: l) te = last (x :: l) t). { clear. revert x. induction l as [|y l IHl]; intros x; [reflexivity|]. change (last (y :: l) te = last (y :: l) t). apply IHl. }
  rewrite Q in *. lra.
Qed.
Lemma lastTime_cons t tb te r : lastTime t ((tb, te) :: r) = lastTime te r.
Proof.
  unfold lastTime. cbn [map snd]. destruct (map snd r) as [|x l]; [reflexivity|]. change (last (te :: x :: l) t) with (last (x :: l) t). revert x. induction l as [|y l IHl]; intros x; [reflexivity|]. change (last (y :: l) t = last (y :: l) te). apply IHl.
Qed.
Lemma processAll_ok s dt t0 eps : s = 1 \/ s = -1 -> 0 < dt -> forall steps done t traj, chain s t steps -> s * t0 <= s * t ->
  dm t0 (lastTime t steps) < dt -> dm t0 (lastTime t steps) <= eps -> rec_inv s dt t0 eps done t traj ->
  exists traj', processAll (Every dt) t0 traj steps = Some traj' /\ rec_inv s dt t0 eps (done ++ steps) (lastTime t steps) traj'.
Proof.
  intros S Dt. induction steps as [|[tb te] r IH]; intros done t traj C A M Me I.
  - exists traj. split; [reflexivity|]. rewrite app_nil_r. exact I.
  - destruct C as [-> [C1 C2]]. rewrite lastTime_cons in *. cbn [processAll processTimestep].
    destruct (chain_mono s t0 r te C2 ltac:(lra)) as [Q1 Q2]. pose proof (dm_mono s t0 te _ S ltac:(lra) Q2) as Mm.
    destruct (process_step s dt t0 eps done t te traj S Dt A C1 ltac:(lra) ltac:(lra) I) as [traj' [E I']]. rewrite E.
    destruct (IH (done ++ [(t, te)]) te traj' C2 ltac:(lra) M Me I') as [traj'' [E2 I2]]. exists traj''. split; [exact E2|]. rewrite <- app_assoc in I2. exact I2.
Qed.

(** run: contiguous timesteps *)
Lemma runLoop_chain maxN endT sign : sign = 1 \/ sign = -1 -> forall times n stime cur steps st rem,
  sign * cur < sign * endT -> cur = stime ->
  runLoop n maxN times stime sign cur endT = (steps, st, rem) ->
  chain sign cur steps /\ sign * lastTime cur steps <= sign * endT /\ (forall s', In s' steps -> sign * snd s' <= sign * endT).
Proof.
  intros Sgn. induction times as [|t rest IH]; intros n stime cur steps st rem L E H; cbn [runLoop] in H.
  - injection H as <- <- <-. cbn. repeat split; try lra; contradiction.
  - subst stime. destruct (Rlt_b 0 ((t - cur) * sign)) eqn:P.
    2:{ injection H as <- <- <-. cbn. repeat split; try lra; contradiction. }
    unfold Rlt_b in P. destruct (Rlt_dec 0 ((t - cur) * sign)) as [P'|] in P; [|discriminate]. cbv zeta in H.
    set (cur' := Rmin (t * sign) (endT * sign) * sign) in *.
    assert (SS : sign * sign = 1) by (destruct Sgn as [-> | ->]; lra).
    assert (C1 : sign * cur' = Rmin (t * sign) (endT * sign)) by (unfold cur'; replace (sign * (Rmin (t * sign) (endT * sign) * sign)) with (sign * sign * Rmin (t * sign) (endT * sign)) by ring; rewrite SS; ring).
    assert (C2 : sign * cur < sign * cur') by (rewrite C1; apply Rmin_glb_lt; lra). assert (C3 : sign * cur' <= sign * endT) by (rewrite C1; pose proof (Rmin_r (t * sign) (endT * sign)); lra).
    destruct (Rle_b (endT * sign) (cur' * sign) || Nat.leb maxN (S n))%bool eqn:Q.
    + injection H as <- <- <-. cbn [chain In lastTime]. unfold lastTime; cbn [map last snd]. repeat split; try lra. intros s' [<-|[]]. exact C3.
    + destruct (runLoop (S n) maxN rest t sign cur' endT) as [[steps' st'] rem'] eqn:Rn. injection H as <- <- <-.
      apply Bool.orb_false_iff in Q. destruct Q as [Q _]. unfold Rle_b in Q. destruct (Rle_dec _ _) as [|Q'] in Q; [discriminate|].
      (* not finished: the solver's time is the current time *)
      assert (Et : cur' = t). { assert (Rmin (t * sign) (endT * sign) = t * sign) by (unfold Rmin in *; destruct (Rle_dec (t * sign) (endT * sign)); [reflexivity|lra]). unfold cur'. rewrite H. rewrite Rmult_assoc, SS. ring. }
      destruct (IH (S n) t cur' steps' st' rem' ltac:(lra) Et Rn) as [I1 [I2 I3]]. rewrite lastTime_cons. cbn [chain]. split; [split; [reflexivity|split; assumption]|]. split; [exact I2|]. intros s' [<-|Hs]; [exact C3|apply I3, Hs].
Qed.
(** the solver never fails and there are enough steps allowed: the end time is reached exactly *)
Fixpoint advancing (sign t : R) (times : list R) : Prop := match times with [] => True | x :: r => 0 < (x - t) * sign /\ advancing sign x r end.
Lemma runLoop_reaches maxN endT sign : sign = 1 \/ sign = -1 -> forall times n cur steps st rem, sign * cur < sign * endT -> advancing sign cur times ->
  (n + length times <= maxN)%nat -> (exists x, In x times /\ sign * endT <= sign * x) ->
  runLoop n maxN times cur sign cur endT = (steps, st, rem) -> lastTime cur steps = endT /\ steps <> [] /\ sign * endT <= sign * st.
Proof.
  intros Sgn. assert (SS : sign * sign = 1) by (destruct Sgn as [-> | ->]; lra).
  induction times as [|t rest IH]; intros n cur steps st rem L Ad Nn [x [Hx Ex]] H; [contradiction|]. destruct Ad as [A1 A2]. cbn [runLoop] in H. rewrite Rlt_b_t in H by exact A1. cbv zeta in H.
  set (cur' := Rmin (t * sign) (endT * sign) * sign) in *.
  destruct (Rle_lt_dec (endT * sign) (t * sign)) as [F|F].
  - assert (Ec : cur' = endT) by (unfold cur'; rewrite Rmin_right by exact F; rewrite Rmult_assoc, SS; ring). rewrite Ec in H. rewrite (Rle_b_t (endT * sign) (endT * sign)) in H by lra. cbn [orb] in H. injection H as <- <- <-.
    unfold lastTime; cbn. split; [reflexivity|]. split; [discriminate|lra].
  - assert (Ec : cur' = t) by (unfold cur'; rewrite Rmin_left by lra; rewrite Rmult_assoc, SS; ring). rewrite Ec in H. rewrite (Rle_b_f (endT * sign) (t * sign)) in H by exact F. cbn [orb] in H.
    assert (Hr : In x rest) by (destruct Hx as [<-|Hx]; [lra|exact Hx]). assert (Lr : (1 <= length rest)%nat) by (destruct rest; [contradiction|cbn; lia]). cbn [length] in Nn.
    destruct (Nat.leb_spec maxN (S n)) as [Q|Q]; [lia|].
    destruct (runLoop (S n) maxN rest t sign t endT) as [[steps' st'] rem'] eqn:Rn. injection H as <- <- <-.
    destruct (IH (S n) t steps' st' rem' ltac:(lra) A2 ltac:(lia) ltac:(eauto) Rn) as [I1 [I2 I3]]. rewrite lastTime_cons. split; [exact I1|]. split; [discriminate|exact I3].
Qed.
