(** The linear systems built by constructCubicSpline and constructQuinticSpline and their solutions. *)
From Verif Require Import Arr BandModel BandSpec SplineModel SplineBand SplineSpec.
Local Open Scope Z_scope.

Lemma inc_monotonic a : increasing a -> checkMonotonic a = Ok tt.
Proof.
  intros H. unfold checkMonotonic. destruct (for_total_max (fun _ (_ : unit) => True) 0 (alen a)
    (fun i _ => if i >? 0 then ai <- aget a i ;; ap <- aget a (i - 1) ;; if Rle_dec ai ap then Throw else Ok tt else Ok tt) tt) as ([] & E & _); auto.
  intros i [] Hi _. exists tt. split; [|auto]. rewrite Z.gtb_ltb. destruct (Z.ltb_spec 0 i); [|reflexivity].
  rewrite !aget_ok by lia. cbn [bind]. destruct (Rle_dec _ _) as [Q|]; [|reflexivity].
  specialize (H (i - 1) i ltac:(lia) ltac:(lia)). exfalso. lra.
Qed.
Lemma monotonic_inc a : checkMonotonic a = Ok tt -> increasing a.
Proof.
  intros E.
  assert (S1 : safe (checkMonotonic a) (fun _ => forall k, 0 < k < Z.max 0 (alen a) -> (afn a (k - 1) < afn a k)%R)).
  { unfold checkMonotonic. apply (for_safe_max (fun i (_ : unit) => forall k, 0 < k < i -> (afn a (k - 1) < afn a k)%R)).
    - intros k Hk. lia.
    - intros i [] Hi IH. rewrite Z.gtb_ltb. destruct (Z.ltb_spec 0 i).
      + rewrite !aget_ok by lia. cbn [bind]. destruct (Rle_dec _ _) as [Q|Q]; cbn; auto. intros k Hk.
        destruct (Z.eq_dec k i) as [->|]; [lra|apply IH; lia].
      + cbn. intros k Hk. lia. }
  rewrite E in S1. cbn in S1.
  assert (G : forall (n : nat) i, 0 <= i -> i + 1 + Z.of_nat n < alen a -> (afn a i < afn a (i + 1 + Z.of_nat n))%R).
  { induction n as [|n IH]; intros i Hi Hl.
    - specialize (S1 (i + 1) ltac:(lia)). replace (i + 1 - 1) with i in S1 by lia. replace (i + 1 + Z.of_nat 0) with (i + 1) by lia. exact S1.
    - specialize (IH i Hi ltac:(lia)). specialize (S1 (i + 1 + Z.of_nat (S n)) ltac:(lia)).
      replace (i + 1 + Z.of_nat (S n) - 1) with (i + 1 + Z.of_nat n) in S1 by lia. lra. }
  intros i j Hij Hj. specialize (G (Z.to_nat (j - i - 1)) i ltac:(lia) ltac:(lia)).
  replace (i + 1 + Z.of_nat (Z.to_nat (j - i - 1))) with j in G by lia. exact G.
Qed.

Lemma aadd_ok a i v : 0 <= i < alen a -> aadd a i v = Ok (mkArr (alen a) (upd (afn a) i (afn a i + v)%R)).
Proof. intros H. unfold aadd. rewrite aget_ok by exact H. cbn [bind]. apply aset_ok. exact H. Qed.

Ltac bsplit := repeat match goal with
  | |- context [?a =? ?b] => destruct (Z.eqb_spec a b)
  | |- context [?a <? ?b] => destruct (Z.ltb_spec a b)
  | |- context [?a <=? ?b] => destruct (Z.leb_spec a b)
  end.

Section Cubic.
  Variables (x f : arr R).
  Let n := alen x.
  Hypothesis Hx : increasing x.
  Hypothesis Hn : 2 <= n.
  Hypothesis Hf : alen f = n.
  Let di k := (1 / (afn x (k + 1)%Z - afn x k))%R.
  Let dy k := ((afn f (k + 1)%Z - afn f k) * (di k * di k))%R.

  Lemma di_pos k : 0 <= k < n - 1 -> (0 < di k)%R.
  Proof. intros Hk. unfold di, Rdiv. rewrite Rmult_1_l. apply Rinv_0_lt_compat. specialize (Hx k (k + 1) ltac:(lia) ltac:(lia)). lra. Qed.

  Let LO i r := if r <=? i then di (r - 1) else 0%R.
  Let DI i r := ((if (0 <? r) && (r <=? i) then 2 * di (r - 1)%Z else 0) + (if r <? i then 2 * di r else 0))%R.
  Let UP i r := if r <? i then di r else 0%R.
  Let RH i r := ((if (0 <? r) && (r <=? i) then 3 * dy (r - 1)%Z else 0) + (if r <? i then 3 * dy r else 0))%R.

  Lemma cubic_loop : exists m0, bm_new n 1 0%R = Ok m0 /\ exists st, for_ 0 (n - 1) (cubic_row x f) (m0, anew n 0%R) = Ok st /\
    tri_is (fst st) n (LO (n - 1)) (DI (n - 1)) (UP (n - 1)) /\ alen (snd st) = n /\ forall r, 0 <= r < n -> afn (snd st) r = RH (n - 1) r.
  Proof.
    destruct (tri_new n Hn) as (m0 & E0 & T0). exists m0. split; [exact E0|].
    destruct (for_total (fun i st => tri_is (fst st) n (LO i) (DI i) (UP i) /\ alen (snd st) = n /\ forall r, 0 <= r < n -> afn (snd st) r = RH i r)
      0 (n - 1) (cubic_row x f) (m0, anew n 0%R)) as (st & E & H); [lia| | |exists st; auto].
    - cbn [fst snd]. split; [|split; [reflexivity|]].
      + eapply tri_ext; [exact T0| | |]; intros r Hr; unfold LO, DI, UP; bsplit; cbn [andb]; try lia; try reflexivity; ring.
      + intros r Hr. cbn. unfold RH. bsplit; cbn [andb]; try lia; ring.
    - intros i [mat rhs] Hi (T & L & V). cbn [fst snd] in T, L, V. unfold cubic_row.
      rewrite !aget_ok by lia. cbn [bind].
      destruct (tri_add _ _ _ _ _ i (2 * di i)%R T ltac:(lia)) as (m1 & E1 & T1). unfold di in E1 at 1. rewrite E1. clear E1. cbn [bind].
      destruct (tri_add _ _ _ _ _ (i + 1) (2 * di i)%R T1 ltac:(lia)) as (m2 & E2 & T2). unfold di in E2 at 1. rewrite E2. clear E2. cbn [bind].
      destruct (tri_set _ _ _ _ _ i (i + 1) (di i) T2 ltac:(lia) ltac:(lia) ltac:(lia)) as (m3 & E3 & T3). unfold di in E3 at 1. rewrite E3. clear E3. cbn [bind].
      destruct (tri_set _ _ _ _ _ (i + 1) i (di i) T3 ltac:(lia) ltac:(lia) ltac:(lia)) as (m4 & E4 & T4). unfold di in E4 at 1. rewrite E4. clear E4. cbn [bind].
      rewrite aadd_ok by lia. cbn [bind]. rewrite aadd_ok by (cbn [alen]; lia). cbn [bind alen afn].
      eexists. split; [reflexivity|]. cbn [fst snd alen afn]. split; [|split; [exact L|]].
      + rewrite (proj2 (Z.eqb_neq (i + 1) (i - 1))), (proj2 (Z.eqb_neq (i + 1) i)), Z.eqb_refl in T4 by lia.
        replace (i + 1 - 1) with i in T4 by lia. rewrite Z.eqb_refl in T4.
        rewrite (proj2 (Z.eqb_neq i (i + 1))), (proj2 (Z.eqb_neq i (i + 1 + 1))) in T4 by lia.
        eapply tri_ext; [exact T4| | |]; intros r Hr; unfold upd, LO, DI, UP; bsplit; subst; cbn [andb]; try lia; try reflexivity;
          try (replace (i + 1 - 1) with i by lia); try reflexivity; try ring.
      + intros r Hr. unfold upd. specialize (V i ltac:(lia)) as Vi. specialize (V (i + 1) ltac:(lia)) as Vj. specialize (V r Hr).
        change (1 / (afn x (i + 1) - afn x i))%R with (di i). change ((afn f (i + 1)%Z - afn f i) * (di i * di i))%R with (dy i).
        unfold RH in *. rewrite ?Vi, ?Vj, ?V. clear Vi Vj V. bsplit; subst; cbn [andb]; try lia; try (replace (i + 1 - 1) with i by lia); try reflexivity; try ring.
  Qed.

  Variables (dL dR : option R).
  Definition loF r := match dR with Some _ => if r =? n - 1 then 0%R else di (r - 1) | None => di (r - 1) end.
  Definition upF r := match dL with Some _ => if r =? 0 then 0%R else di r | None => di r end.
  Let base_di r := (2 * ((if (0 <? r)%Z then di (r - 1)%Z else 0) + (if (r <? n - 1)%Z then di r else 0)))%R.
  Let base_rh r := (3 * ((if (0 <? r)%Z then dy (r - 1)%Z else 0) + (if (r <? n - 1)%Z then dy r else 0)))%R.
  Definition diF r := if r =? 0 then match dL with Some _ => 1%R | None => base_di r end
    else if r =? n - 1 then match dR with Some _ => 1%R | None => base_di r end else base_di r.
  Definition rhF r := if r =? 0 then match dL with Some d => d | None => base_rh r end
    else if r =? n - 1 then match dR with Some d => d | None => base_rh r end else base_rh r.

  Lemma cubic_system : exists m0, bm_new n 1 0%R = Ok m0 /\ exists st, for_ 0 (n - 1) (cubic_row x f) (m0, anew n 0%R) = Ok st /\
    exists st', cubic_clamp n dL dR st = Ok st' /\
    tri_is (fst st') n loF diF upF /\ alen (snd st') = n /\ forall r, 0 <= r < n -> afn (snd st') r = rhF r.
  Proof.
    destruct cubic_loop as (m0 & E0 & [m v] & E & T & L & V). exists m0. split; [exact E0|]. exists (m, v). split; [exact E|]. cbn [fst snd] in *.
    unfold cubic_clamp.
    assert (A : exists m1 v1, (match dL with
         | Some d => mat <- bm_set m 0 0 1%R ;; mat <- bm_set mat 0 1 0%R ;; rhs <- aset v 0 d ;; Ok (mat, rhs)
         | None => Ok (m, v) end) = Ok (m1, v1) /\
         tri_is m1 n (fun r => di (r - 1)) (fun r => if r =? 0 then match dL with Some _ => 1%R | None => base_di r end else base_di r) upF /\
         alen v1 = n /\ forall r, 0 <= r < n -> afn v1 r = if r =? 0 then match dL with Some d => d | None => base_rh r end else base_rh r).
    { unfold upF. destruct dL as [d|].
      - destruct (tri_set _ _ _ _ _ 0 0 1%R T ltac:(lia) ltac:(lia) ltac:(lia)) as (m1 & -> & T1). cbn [bind].
        destruct (tri_set _ _ _ _ _ 0 1 0%R T1 ltac:(lia) ltac:(lia) ltac:(lia)) as (m2 & -> & T2). cbn [bind].
        rewrite aset_ok by lia. cbn [bind]. do 2 eexists. split; [reflexivity|]. split; [|split; [exact L|]].
        + eapply tri_ext; [exact T2| | |]; intros r Hr; unfold upd, LO, DI, UP, base_di; cbn [Z.eqb Z.sub Z.add Z.opp Pos.add Pos.eqb]; bsplit; subst; cbn [andb]; try lia; try reflexivity; try ring.
        + intros r Hr. cbn [afn]. unfold upd. rewrite V by exact Hr. unfold RH, base_rh. bsplit; subst; cbn [andb]; try lia; try reflexivity; try ring.
      - do 2 eexists. split; [reflexivity|]. split; [|split; [exact L|]].
        + eapply tri_ext; [exact T| | |]; intros r Hr; unfold LO, DI, UP, base_di; bsplit; subst; cbn [andb]; try lia; try reflexivity; try ring.
        + intros r Hr. rewrite V by exact Hr. unfold RH, base_rh. bsplit; subst; cbn [andb]; try lia; try reflexivity; try ring. }
    destruct A as (m1 & v1 & -> & T1 & L1 & V1). cbn [bind]. unfold loF, diF, rhF. destruct dR as [d|].
    - destruct (tri_set _ _ _ _ _ (n - 1) (n - 1) 1%R T1 ltac:(lia) ltac:(lia) ltac:(lia)) as (m2 & -> & T2). cbn [bind].
      destruct (tri_set _ _ _ _ _ (n - 1) (n - 2) 0%R T2 ltac:(lia) ltac:(lia) ltac:(lia)) as (m3 & -> & T3). cbn [bind].
      rewrite aset_ok by lia. cbn [bind]. eexists. split; [reflexivity|]. cbn [fst snd alen afn]. split; [|split; [exact L1|]].
      + rewrite Z.eqb_refl, (proj2 (Z.eqb_neq (n - 1) (n - 1 - 1))), (proj2 (Z.eqb_neq (n - 1) (n - 1 + 1))) in T3 by lia.
        rewrite (proj2 (Z.eqb_neq (n - 2) (n - 1))), (proj2 (Z.eqb_neq (n - 2) (n - 1 + 1))) in T3 by lia.
        rewrite (proj2 (Z.eqb_eq (n - 2) (n - 1 - 1))) in T3 by lia.
        eapply tri_ext; [exact T3| | |]; intros r Hr; unfold upd; bsplit; subst; try lia; try reflexivity.
      + intros r Hr. unfold upd. rewrite V1 by exact Hr. bsplit; subst; try lia; reflexivity.
    - eexists. split; [reflexivity|]. cbn [fst snd]. split; [|split; [exact L1|]].
      + eapply tri_ext; [exact T1| | |]; intros r Hr; bsplit; try lia; reflexivity.
      + intros r Hr. rewrite V1 by exact Hr. bsplit; try lia; reflexivity.
  Qed.

  Lemma cubic_dom : tri_dom n loF diF upF.
  Proof.
    intros r Hr. unfold loF, diF, upF, base_di.
    assert (P : forall k, 0 <= k < n - 1 -> Rabs (di k) = di k) by (intros k Hk; apply Rabs_pos_eq; left; apply di_pos; exact Hk).
    assert (A1 : Rabs 1 = 1%R) by (apply Rabs_pos_eq; lra).
    assert (P0 : forall k, 0 <= k < n - 1 -> (0 < di k)%R) by exact di_pos.
    destruct (Z.eqb_spec r 0) as [->|N0].
    - rewrite Z.ltb_irrefl, (proj2 (Z.ltb_lt 0 (n - 1))) by lia. specialize (P 0 ltac:(lia)). specialize (P0 0 ltac:(lia)).
      destruct dL; [rewrite Rabs_R0, A1; lra|]. rewrite P, (Rabs_pos_eq (2 * _)) by lra. lra.
    - rewrite (proj2 (Z.ltb_lt 0 r)) by lia. destruct (Z.eqb_spec r (n - 1)) as [->|N1].
      + rewrite Z.ltb_irrefl. specialize (P (n - 1 - 1) ltac:(lia)). specialize (P0 (n - 1 - 1) ltac:(lia)).
        destruct dR; [rewrite Rabs_R0, A1; lra|]. rewrite P, (Rabs_pos_eq (2 * _)) by lra. lra.
      + rewrite (proj2 (Z.ltb_lt r (n - 1))) by lia. pose proof (P (r - 1) ltac:(lia)) as Pa. pose proof (P0 (r - 1) ltac:(lia)) as Pb.
        specialize (P r ltac:(lia)). specialize (P0 r ltac:(lia)). destruct dR, dL; rewrite Pa, P, (Rabs_pos_eq (2 * _)) by lra; lra.
  Qed.

  (** the conditions on the derivatives at the nodes: continuity of the second derivative at the interior nodes, and the
      boundary conditions *)
  Definition rows (d : Z -> R) : Prop := forall r, 0 <= r < n -> tri_sum n loF diF upF d r = rhF r.
  Lemma rows_unique d e : rows d -> rows e -> forall r, 0 <= r < n -> d r = e r.
  Proof. intros A B. apply tri_unique with (n := n) (lo := loF) (di := diF) (up := upF); [lia|exact cubic_dom|]. intros r Hr. rewrite A, B by exact Hr. reflexivity. Qed.
  Lemma rows_interior d r : rows d -> 0 < r < n - 1 ->
    (di (r - 1) * d (r - 1)%Z + 2 * (di (r - 1) + di r) * d r + di r * d (r + 1)%Z = 3 * (dy (r - 1) + dy r))%R.
  Proof.
    intros H Hr. specialize (H r ltac:(lia)). unfold tri_sum, loF, diF, upF, rhF, base_di, base_rh in H.
    rewrite (proj2 (Z.ltb_lt 0 r)), (proj2 (Z.ltb_lt r (n - 1))), (proj2 (Z.eqb_neq r 0)), (proj2 (Z.eqb_neq r (n - 1))) in H by lia.
    rewrite <- H. destruct dR, dL; ring.
  Qed.
  Lemma rows_left d : rows d -> match dL with Some a => d 0 = a | None => (2 * di 0 * d 0%Z + di 0 * d 1%Z = 3 * dy 0)%R end.
  Proof.
    intros H. specialize (H 0 ltac:(lia)). unfold tri_sum, loF, diF, upF, rhF, base_di, base_rh in H.
    rewrite Z.ltb_irrefl, (proj2 (Z.ltb_lt 0 (n - 1))), Z.eqb_refl in H by lia. change (0 + 1) with 1 in H.
    destruct dL; lra.
  Qed.
  Lemma rows_right d : rows d -> match dR with Some a => d (n - 1) = a
    | None => (di (n - 2) * d (n - 2)%Z + 2 * di (n - 2) * d (n - 1)%Z = 3 * dy (n - 2))%R end.
  Proof.
    intros H. specialize (H (n - 1) ltac:(lia)). unfold tri_sum, loF, diF, upF, rhF, base_di, base_rh in H.
    rewrite Z.ltb_irrefl, (proj2 (Z.ltb_lt 0 (n - 1))), Z.eqb_refl, (proj2 (Z.eqb_neq (n - 1) 0)) in H by lia.
    replace (n - 1 - 1) with (n - 2) in H by lia. destruct dR; lra.
  Qed.
  Lemma rows_intro d :
    (forall r, 0 < r < n - 1 -> (di (r - 1) * d (r - 1)%Z + 2 * (di (r - 1) + di r) * d r + di r * d (r + 1)%Z = 3 * (dy (r - 1) + dy r))%R) ->
    match dL with Some a => d 0 = a | None => (2 * di 0 * d 0%Z + di 0 * d 1%Z = 3 * dy 0)%R end ->
    match dR with Some a => d (n - 1) = a | None => (di (n - 2) * d (n - 2)%Z + 2 * di (n - 2) * d (n - 1)%Z = 3 * dy (n - 2))%R end ->
    rows d.
  Proof.
    intros HI HL HR r Hr. unfold tri_sum, loF, diF, upF, rhF, base_di, base_rh.
    destruct (Z.eq_dec r 0) as [->|N0]; [|destruct (Z.eq_dec r (n - 1)) as [->|N1]].
    - rewrite Z.ltb_irrefl, (proj2 (Z.ltb_lt 0 (n - 1))), Z.eqb_refl by lia. change (0 + 1) with 1. destruct dL; lra.
    - rewrite Z.ltb_irrefl, (proj2 (Z.ltb_lt 0 (n - 1))), Z.eqb_refl, (proj2 (Z.eqb_neq (n - 1) 0)) by lia.
      replace (n - 1 - 1) with (n - 2) by lia. destruct dR; lra.
    - rewrite (proj2 (Z.ltb_lt 0 r)), (proj2 (Z.ltb_lt r (n - 1))), (proj2 (Z.eqb_neq r 0)), (proj2 (Z.eqb_neq r (n - 1))) by lia.
      specialize (HI r ltac:(lia)). destruct dR, dL; lra.
  Qed.

  (** ---- symmetric data ---- *)
  Let symmetric_data := symmetric_data x f.
  Lemma isSymmetric_ok : exists s, isSymmetric x f = Ok s /\ (s = true <-> symmetric_data).
  Proof.
    unfold isSymmetric. fold n.
    destruct (for_total (fun i (s : bool) => s = true <-> forall k, 0 <= k < i -> afn x k = (- afn x (n - 1 - k))%R /\ afn f k = afn f (n - 1 - k))
      0 ((n + 1) / 2) (fun i (s : bool) =>
    if s then xi <- aget x i ;; xj <- aget x (n - 1 - i)%Z ;; fi <- aget f i ;; fj <- aget f (n - 1 - i)%Z ;;
      Ok ((if Req_EM_T xi (- xj) then true else false) && (if Req_EM_T fi fj then true else false))%bool
    else Ok false) true) as (s & E & H).
    - apply Z.div_pos; lia.
    - split; [intros _ k Hk; lia|reflexivity].
    - intros i s Hi IH. assert (i < n). { assert ((n + 1) / 2 <= n) by (apply Z.div_le_upper_bound; lia). lia. }
      destruct s.
      + rewrite !aget_ok by lia. cbn [bind]. eexists. split; [reflexivity|]. destruct IH as [IH _]. specialize (IH eq_refl).
        destruct (Req_EM_T _ _) as [Q1|Q1]; cbn [andb].
        * destruct (Req_EM_T _ _) as [Q2|Q2]; (split; [intros Et|intros Hk]).
          -- intros k Hk. destruct (Z.eq_dec k i) as [->|]; [split; assumption|apply IH; lia].
          -- reflexivity.
          -- discriminate.
          -- exfalso. apply Q2. apply (Hk i). lia.
        * split; [discriminate|]. intros Hk. exfalso. apply Q1. apply (Hk i). lia.
      + eexists. split; [reflexivity|]. split; [discriminate|]. intros Hk. exfalso. destruct IH as [_ IH]. discriminate IH. intros k Kk. apply Hk. lia.
    - exists s. split; [exact E|]. rewrite H. unfold symmetric_data, SplineSpec.symmetric_data. fold n. split.
      + intros K i Hi. destruct (Z_lt_ge_dec i ((n + 1) / 2)) as [Q|Q]; [apply K; lia|].
        assert (n < 2 * ((n + 1) / 2) + 1). { pose proof (Z.div_mod (n + 1) 2 ltac:(lia)). pose proof (Z.mod_pos_bound (n + 1) 2 ltac:(lia)). lia. }
        destruct (K (n - 1 - i) ltac:(lia)) as [K1 K2]. replace (n - 1 - (n - 1 - i)) with i in * by lia. split; [rewrite K1; ring|symmetry; exact K2].
      + intros K k Hk. apply K. pose proof (Z.div_mod (n + 1) 2 ltac:(lia)). pose proof (Z.mod_pos_bound (n + 1) 2 ltac:(lia)). lia.
  Qed.
  Lemma antisym_ok d : alen d = n -> exists e, antisymmetrize n d = Ok e /\ alen e = n /\
    forall i, 0 <= i < n -> afn e i = if i <? n / 2 then (- afn d (n - 1 - i)%Z)%R else if i =? n - 1 - i then 0%R else afn d i.
  Proof.
    intros L. unfold antisymmetrize.
    pose proof (Z.div_mod n 2 ltac:(lia)) as DM. pose proof (Z.mod_pos_bound n 2 ltac:(lia)) as MB.
    destruct (for_total (fun i e => alen e = n /\ forall k, 0 <= k < n -> afn e k = if k <? i then (- afn d (n - 1 - k)%Z)%R else afn d k)
      0 (n / 2) (fun i fder => d <- aget fder (n - 1 - i)%Z ;; aset fder i (- d)%R) d) as (e & E & Le & H).
    - lia.
    - split; [exact L|]. intros k Hk. bsplit; [lia|reflexivity].
    - intros i e Hi (Le & IH). rewrite aget_ok by lia. cbn [bind]. rewrite aset_ok by lia. eexists. split; [reflexivity|]. cbn [alen afn].
      split; [exact Le|]. intros k Hk. unfold upd. rewrite !IH by lia. bsplit; subst; try lia; reflexivity.
    - rewrite E. cbn [bind]. destruct (Z.eqb_spec (n mod 2) 1) as [O|O].
      + rewrite aset_ok by lia. eexists. split; [reflexivity|]. cbn [alen afn]. split; [exact Le|]. intros i Hi. unfold upd. rewrite H by lia.
        bsplit; subst; try lia; reflexivity.
      + exists e. split; [reflexivity|]. split; [exact Le|]. intros i Hi. rewrite H by lia. bsplit; try lia; reflexivity.
  Qed.
  (** for symmetric data with compatible boundary conditions the solution is antisymmetric already *)
  Lemma rows_antisym d : symmetric_data -> match dL, dR with None, None => True | Some a, Some b => a = (- b)%R | _, _ => False end ->
    rows d -> forall i, 0 <= i < n -> d i = (- d (n - 1 - i)%Z)%R.
  Proof.
    intros S C H. unfold symmetric_data, SplineSpec.symmetric_data in S. fold n in S. assert (Ed : forall k, 0 <= k < n - 1 -> di k = di (n - 2 - k)).
    { intros k Hk. unfold di. rewrite (proj1 (S k ltac:(lia))), (proj1 (S (k + 1) ltac:(lia))). replace (n - 1 - k) with (n - 2 - k + 1) by lia.
      replace (n - 1 - (k + 1)) with (n - 2 - k) by lia. f_equal. ring. }
    assert (Ey : forall k, 0 <= k < n - 1 -> dy k = (- dy (n - 2 - k)%Z)%R).
    { intros k Hk. unfold dy. rewrite <- (Ed k Hk). rewrite (proj2 (S k ltac:(lia))), (proj2 (S (k + 1) ltac:(lia))). replace (n - 1 - k) with (n - 2 - k + 1) by lia.
      replace (n - 1 - (k + 1)) with (n - 2 - k) by lia. ring. }
    apply (rows_unique d (fun i => - d (n - 1 - i)%Z)%R); [exact H|]. apply rows_intro.
    - intros r Hr. pose proof (rows_interior d (n - 1 - r) H ltac:(lia)) as Q.
      rewrite (Ed (r - 1)), (Ed r), (Ey (r - 1)), (Ey r) by lia.
      replace (n - 2 - (r - 1)) with (n - 1 - r) by lia. replace (n - 1 - r - 1) with (n - 2 - r) in Q by lia.
      replace (n - 1 - (r - 1)) with (n - 1 - r + 1) by lia. replace (n - 1 - (r + 1)) with (n - 2 - r) by lia. lra.
    - pose proof (rows_right d H) as Q. destruct dL, dR; try contradiction.
      + rewrite Z.sub_0_r, Q. lra.
      + rewrite (Ed 0), (Ey 0) by lia. rewrite Z.sub_0_r, Z.sub_0_r. replace (n - 1 - 1) with (n - 2) by lia. lra.
    - pose proof (rows_left d H) as Q. destruct dL, dR; try contradiction.
      + replace (n - 1 - (n - 1)) with 0 by lia. rewrite Q. lra.
      + rewrite (Ed (n - 2)), (Ey (n - 2)) by lia. replace (n - 2 - (n - 2)) with 0 by lia. replace (n - 1 - (n - 2)) with 1 by lia. replace (n - 1 - (n - 1)) with 0 by lia. lra.
  Qed.

  (** the result of constructCubicSpline *)
  Lemma construct_cubic : exists d, alen d = n /\ rows (afn d) /\ exists e, constructCubicSpline x f dL dR = Ok e /\ alen e = n /\
    ((~ symmetric_data /\ e = d) \/
     (symmetric_data /\ forall i, 0 <= i < n -> afn e i = if i <? n / 2 then (- afn d (n - 1 - i)%Z)%R else if i =? n - 1 - i then 0%R else afn d i)).
  Proof.
    destruct cubic_system as (m0 & E0 & st & E & st' & E' & T & L & V).
    destruct (tri_solve _ _ _ _ _ (snd st') T L cubic_dom) as (d & Ed & Ld & Hd). exists d. split; [exact Ld|].
    assert (Rd : rows (afn d)) by (intros r Hr; rewrite Hd, V by exact Hr; reflexivity). split; [exact Rd|].
    unfold constructCubicSpline. fold n. rewrite Hf, Z.eqb_refl. cbn [negb]. rewrite (proj2 (Z.ltb_ge n 2)) by lia.
    rewrite E0. cbn [bind]. rewrite E. cbn [bind]. rewrite E'. cbn [bind]. rewrite Ed. cbn [bind].
    destruct isSymmetric_ok as (s & -> & Hs). cbn [bind]. destruct s.
    - destruct (antisym_ok d Ld) as (e & Ee & Le & He). exists e. split; [exact Ee|]. split; [exact Le|]. right. split; [apply Hs; reflexivity|exact He].
    - exists d. split; [reflexivity|]. split; [exact Ld|]. left. split; [|reflexivity]. intros Q. apply Hs in Q. discriminate.
  Qed.
  Definition compatible : Prop := symmetric_data -> match dL, dR with None, None => True | Some a, Some b => a = (- b)%R | _, _ => False end.
  Lemma construct_cubic_rows : compatible -> exists e, constructCubicSpline x f dL dR = Ok e /\ alen e = n /\ rows (afn e).
  Proof.
    intros C. destruct construct_cubic as (d & Ld & Rd & e & Ee & Le & [(NS & ->)|(S & He)]).
    - exists d. auto.
    - exists e. split; [exact Ee|]. split; [exact Le|]. pose proof (rows_antisym (afn d) S (C S) Rd) as A.
      intros r Hr. rewrite <- (Rd r Hr).
      assert (Q : forall i, 0 <= i < n -> afn e i = afn d i).
      { intros i Hi. rewrite He by exact Hi. destruct (Z.ltb_spec i (n / 2)); [symmetry; apply A; exact Hi|].
        destruct (Z.eqb_spec i (n - 1 - i)) as [e0|]; [|reflexivity]. specialize (A i Hi). rewrite <- e0 in A. lra. }
      unfold tri_sum. rewrite (Q r Hr). destruct (Z.ltb_spec 0 r), (Z.ltb_spec r (n - 1)); rewrite ?(Q (r - 1)), ?(Q (r + 1)) by lia; reflexivity.
  Qed.
End Cubic.
