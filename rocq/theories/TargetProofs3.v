(** Proofs for TargetModel.v: moments of the cylindrical scheme, the spherical-harmonic scheme (C67). *)
From Verif Require Import Base RandReal PolyModel PolyProofs TargetModel TargetProofs TargetProofs2.
From Coq Require Import Reals Lra Lia.
Local Open Scope Z_scope.

Lemma weighted_zero : forall f c, (forall p, In p c -> f (fst p) = 0%R) -> weighted f c = 0%R.
Proof. intros f. induction c as [|p t IH]; intros H; [reflexivity|]. change (weighted f (p :: t)) with (snd p * f (fst p) + weighted f t)%R. rewrite IH by (intros q Hq; apply H; right; exact Hq). rewrite (H p (or_introl eq_refl)). ring. Qed.
Lemma weighted_flat : forall (A : Type) (f : Z -> R) (B : A -> contrib) l m, NoDup l -> In m l -> (forall m', In m' l -> m' <> m -> forall p, In p (B m') -> f (fst p) = 0%R) ->
  weighted f (flat_map B l) = weighted f (B m).
Proof.
  intros A f B. induction l as [|x t IH]; intros m ND I H; [contradiction|]. inversion ND; subst. simpl flat_map. rewrite weighted_app. destruct I as [->|I].
  - rewrite (weighted_zero f (flat_map B t)); [ring|]. intros p Hp. apply in_flat_map in Hp. destruct Hp as (m' & Hm & Hp). refine (H m' (or_intror Hm) _ p Hp). intros ->. contradiction.
  - rewrite (weighted_zero f (B x)); [rewrite (IH m); [ring|assumption|assumption|]|].
    + intros m' Hm' Nm p Hp. exact (H m' (or_intror Hm') Nm p Hp).
    + intros p Hp. refine (H x (or_introl eq_refl) _ p Hp). intros ->. contradiction.
Qed.

Section cyl.
  Variables (mmax : Z) (gR gz : list R) (iR iz : Z) (oR oz : R) (val : Z -> R).
  Hypotheses (HR : 0 <= iR < zlen gR) (Hz : 0 <= iz < zlen gz).
  Definition cylBlock (m : Z) : contrib := let '(ll, ul, lu, uu) := cylCorner1 m iR iz (zlen gR) (zlen gz) in
         [(ul, val m * oR * (1 - oz)); (uu, val m * oR * oz)]%R ++
         (if (m =? 0) || (0 <? iR) then [(ll, val m * (1 - oR) * (1 - oz)); (lu, val m * (1 - oR) * oz)]%R else []).
  Lemma cylBlock_range : forall m, In m (evens mmax) -> forall p, In p (cylBlock m) -> 0 <= fst p < numCyl 1 mmax (zlen gR) (zlen gz) /\ fst (fst (nodeCyl1 (zlen gR) (zlen gz) (fst p))) = m.
  Proof using HR Hz.
    intros m Hm p Hp. apply evens_in in Hm. destruct Hm as [ME M0].
    destruct (cylCorner1_spec m iR iz (zlen gR) (zlen gz) ME (proj1 M0) HR Hz) as (ll & ul & lu & uu & E & D1 & D2 & D3 & RG).
    unfold cylBlock in Hp. rewrite E in Hp. apply in_app_or in Hp. destruct Hp as [Hp|Hp].
    - destruct Hp as [<-|[<-|[]]]; cbn [fst]; (split; [apply (RG mmax _ (proj2 M0)); left; simpl; auto|]); [rewrite D1|rewrite D2]; reflexivity.
    - destruct ((m =? 0) || (0 <? iR)) eqn:C; [|contradiction].
      assert (C' : m = 0 \/ 0 < iR) by (apply orb_prop in C; destruct C as [C|C]; [left; apply Z.eqb_eq; exact C|right; apply Z.ltb_lt; exact C]).
      destruct (D3 C') as [D4 D5].
      destruct Hp as [<-|[<-|[]]]; cbn [fst]; (split; [apply (RG mmax _ (proj2 M0)); right; split; [exact C'|simpl; auto]|]); [rewrite D4|rewrite D5]; reflexivity.
  Qed.
  Lemma cyl_moment : forall m a b c d Rc z, In m (evens mmax) ->
    (Rc = nodeR gR (iR - 1) + oR * (nodeR gR iR - nodeR gR (iR - 1)))%R -> (z = nodeR gz (iz - 1) + oz * (nodeR gz iz - nodeR gz (iz - 1)))%R ->
    (m = 0 \/ (a = 0%R /\ c = 0%R)) ->
    cylMoment (zlen gR) (zlen gz) m (fun i j => bilinear a b c d (nodeR gR i) (nodeR gz j)) (flat_map cylBlock (evens mmax)) = (val m * bilinear a b c d Rc z)%R.
  Proof using HR Hz.
    intros m a b c d Rc z Hm ER Ez Hac. unfold cylMoment.
    rewrite weighted_flat with (m := m); [|apply evens_nodup|exact Hm|].
    2:{ intros m' Hm' Nm p Hp. destruct (cylBlock_range m' Hm' p Hp) as [_ Q]. destruct (nodeCyl1 (zlen gR) (zlen gz) (fst p)) as [[q1 q2] q3]. cbn [fst] in Q. subst q1.
        replace (m' =? m) with false by (symmetry; apply Z.eqb_neq; exact Nm). reflexivity. }
    apply evens_in in Hm. destruct Hm as [ME M0].
    destruct (cylCorner1_spec m iR iz (zlen gR) (zlen gz) ME (proj1 M0) HR Hz) as (ll & ul & lu & uu & E & D1 & D2 & D3 & RG).
    unfold cylBlock. rewrite E. destruct ((m =? 0) || (0 <? iR)) eqn:C.
    - assert (C' : m = 0 \/ 0 < iR) by (apply orb_prop in C; destruct C as [C|C]; [left; apply Z.eqb_eq; exact C|right; apply Z.ltb_lt; exact C]).
      destruct (D3 C') as [D4 D5]. unfold weighted. cbn [app fold_right fst snd]. rewrite D1, D2, D4, D5. rewrite Z.eqb_refl. unfold bilinear. rewrite ER, Ez. ring.
    - unfold weighted. cbn [app fold_right fst snd]. rewrite D1, D2. rewrite Z.eqb_refl.
      apply orb_false_iff in C. destruct C as [C1 C2]. apply Z.eqb_neq in C1. apply Z.ltb_ge in C2. assert (Q0 : iR = 0) by lia.
      destruct Hac as [?|[-> ->]]; [contradiction|]. assert (N1 : nodeR gR (iR - 1) = 0%R) by (unfold nodeR; replace (iR - 1 <? 0) with true by (symmetry; apply Z.ltb_lt; lia); reflexivity).
      rewrite N1 in ER. unfold bilinear. rewrite ER, Ez. ring.
  Qed.
End cyl.

(** ** spherical harmonics *)
(** cnt numbers starting from l with step 2 *)
Fixpoint every2 (cnt : nat) (l : Z) : list Z := match cnt with O => [] | S c => l :: every2 c (l + 2) end.
Lemma every2_in : forall cnt l x, In x (every2 cnt l) <-> exists k, (k < cnt)%nat /\ x = l + 2 * Z.of_nat k.
Proof.
  induction cnt as [|c IH]; intros l x; cbn [every2 In]; [split; [tauto|intros (k & K & _); lia]|]. rewrite IH. split.
  - intros [<-|(k & K & ->)]; [exists 0%nat; lia|exists (S k); lia].
  - intros (k & K & ->). destruct k as [|k]; [left; lia|right; exists k; lia].
Qed.
Lemma every2_nodup : forall cnt l, NoDup (every2 cnt l).
Proof. induction cnt as [|c IH]; intros l; simpl; constructor; [|apply IH]. rewrite every2_in. intros (k & _ & E). lia. Qed.
Definition lsOf (lmax m : Z) : list Z := every2 (cntL lmax m) m.
Lemma lsOf_in : forall lmax m l, m <= lmax -> (In l (lsOf lmax m) <-> (l - m) mod 2 = 0 /\ m <= l <= lmax).
Proof.
  intros lmax m l H. unfold lsOf. rewrite every2_in. unfold cntL. split.
  - intros (k & K & ->). pose proof (Z.mul_div_le (lmax - m) 2 ltac:(lia)). split; [|lia]. replace (m + 2 * Z.of_nat k - m) with (Z.of_nat k * 2) by ring. apply Z.mod_mul. lia.
  - intros [A B]. pose proof (Z.div_mod (l - m) 2 ltac:(lia)) as D. rewrite A in D. exists (Z.to_nat ((l - m) / 2)). assert ((l - m) / 2 <= (lmax - m) / 2) by (apply Z.div_le_mono; lia). assert (0 <= (l - m) / 2) by (apply Z.div_pos; lia). lia.
Qed.
Section sph.
  Variables (lmax mmax n ir : Z) (off mult : R) (ylm : Z -> Z -> R).
  Hypotheses (Hir : 0 <= ir < n) (Hm : 0 <= mmax <= lmax).
  Definition mapFst (T U : Type) (f : T -> U) (c : list (T * R)) : list (U * R) := map (fun p => (f (fst p), snd p)) c.
  Lemma lLoop_map : forall (T : Type) (dec : Z -> T) (nd : Z -> Z -> Z -> T) cnt l m offset,
    (forall k, (k < cnt)%nat -> dec (offset + n * Z.of_nat k) = nd m (l + 2 * Z.of_nat k) ir /\ (0 < ir \/ l + 2 * Z.of_nat k = 0 -> dec (offset + n * Z.of_nat k - 1) = nd m (l + 2 * Z.of_nat k) (ir - 1))) ->
    mapFst Z T dec (lLoop cnt n m l offset ir ylm mult off) =
    flat_map (fun l => (nd m l ir, mult * ylm l m * off)%R :: (if (0 <? ir) || (l =? 0) then [(nd m l (ir - 1)%Z, mult * ylm l m * (1 - off))%R] else [])) (every2 cnt l).
  Proof using.
    intros T dec nd. induction cnt as [|c IH]; intros l m offset H; [reflexivity|].
    cbn [lLoop every2 flat_map]. cbv zeta. unfold mapFst in *. cbn [map]. rewrite map_app. cbn [fst snd].
    destruct (H 0%nat ltac:(lia)) as [H1 H2]. replace (offset + n * Z.of_nat 0) with offset in * by (simpl; lia). replace (l + 2 * Z.of_nat 0) with l in * by (simpl; lia). rewrite H1. cbn [app]. f_equal. rewrite IH.
    - f_equal. destruct ((0 <? ir) || (l =? 0)) eqn:C; [|reflexivity]. cbn [map fst snd]. rewrite H2; [reflexivity|].
      apply orb_prop in C. destruct C as [C|C]; [left; apply Z.ltb_lt; exact C|right; apply Z.eqb_eq; exact C].
    - intros k Hk. destruct (H (S k) ltac:(lia)) as [G1 G2]. replace (offset + n + n * Z.of_nat k) with (offset + n * Z.of_nat (S k)) by lia. replace (l + 2 + 2 * Z.of_nat k) with (l + 2 * Z.of_nat (S k)) by lia. split; assumption.
  Qed.
  (** number of elements with azimuthal index below 2h *)
  Fixpoint base (h : nat) : Z := match h with O => 0 | S k => base k + n * (1 + lmax / 2 - Z.of_nat k) end.
  Lemma cntL_even : forall h, Z.of_nat h <= lmax / 2 -> Z.of_nat (cntL lmax (2 * Z.of_nat h)) = 1 + lmax / 2 - Z.of_nat h.
  Proof using. intros h H. unfold cntL. replace (lmax - 2 * Z.of_nat h) with (lmax + (- Z.of_nat h) * 2) by ring. rewrite Z.div_add by lia. lia. Qed.
  Lemma base_nonneg : forall h, Z.of_nat h <= lmax / 2 + 1 -> 0 <= base h.
  Proof using Hir. induction h as [|h IH]; intros H; [simpl; lia|]. cbn [base]. assert (0 <= base h) by (apply IH; lia). assert (0 <= n * (1 + lmax / 2 - Z.of_nat h)) by (apply Z.mul_nonneg_nonneg; lia). lia. Qed.
  Lemma loop_skip : forall h fuel x, Z.of_nat h <= lmax / 2 + 1 -> 0 <= x -> nodeSphLoop (h + fuel) n lmax 0 (base h + x) = nodeSphLoop fuel n lmax (2 * Z.of_nat h) x.
  Proof using Hir.
    induction h as [|h IH]; intros fuel x H Hx; [simpl; reflexivity|].
    replace (S h + fuel)%nat with (h + S fuel)%nat by lia. cbn [base].
    assert (P : 0 <= n * (1 + lmax / 2 - Z.of_nat h)) by (apply Z.mul_nonneg_nonneg; lia).
    replace (base h + n * (1 + lmax / 2 - Z.of_nat h) + x) with (base h + (n * (1 + lmax / 2 - Z.of_nat h) + x)) by ring. rewrite IH by lia.
    cbn [nodeSphLoop]. replace (2 * Z.of_nat h / 2) with (Z.of_nat h) by (rewrite Z.mul_comm, Z.div_mul; lia).
    replace (n * (1 + lmax / 2 - Z.of_nat h) <=? n * (1 + lmax / 2 - Z.of_nat h) + x) with true by (symmetry; apply Z.leb_le; lia).
    replace (2 * Z.of_nat h + 2) with (2 * Z.of_nat (S h)) by lia. f_equal. ring.
  Qed.
  Lemma node_of : forall h k j, Z.of_nat h <= mmax / 2 -> 0 <= k -> Z.of_nat h + k <= lmax / 2 -> 0 <= j < n ->
    nodeSph lmax mmax n (base h + j + 1 + n * k) = Ok (2 * Z.of_nat h, 2 * Z.of_nat h + 2 * k, j).
  Proof using Hir Hm.
    intros h k j H1 H2 H3 H4. assert (B : 0 <= base h) by (apply base_nonneg; lia). assert (NK : 0 <= n * k) by nia.
    unfold nodeSph. replace (base h + j + 1 + n * k =? 0) with false by (symmetry; apply Z.eqb_neq; lia).
    replace (base h + j + 1 + n * k - 1) with (base h + (j + k * n)) by ring.
    replace (Z.to_nat (mmax / 2 + 1)) with (h + S (Z.to_nat (mmax / 2) - h))%nat by lia. rewrite loop_skip by lia. cbn [nodeSphLoop].
    replace (2 * Z.of_nat h / 2) with (Z.of_nat h) by (rewrite Z.mul_comm, Z.div_mul; lia).
    replace (n * (1 + lmax / 2 - Z.of_nat h) <=? j + k * n) with false by (symmetry; apply Z.leb_gt; nia).
    rewrite Z.div_add, Z.mod_add by lia. rewrite Z.div_small, Z.mod_small by lia. do 2 f_equal. f_equal. ring.
  Qed.
  Lemma mLoop_map : forall cnt h, (Z.of_nat h + Z.of_nat cnt <= mmax / 2 + 1) ->
    mapFst Z _ (nodeSph lmax mmax n) (mLoop cnt lmax n (2 * Z.of_nat h) (base h + ir + 1) ir ylm mult off) =
    flat_map (fun m => flat_map (fun l => (Ok (m, l, ir), mult * ylm l m * off)%R :: (if (0 <? ir) || (l =? 0) then [(Ok (m, l, (ir - 1)%Z), mult * ylm l m * (1 - off))%R] else [])) (lsOf lmax m)) (every2 cnt (2 * Z.of_nat h)).
  Proof using Hir Hm.
    induction cnt as [|c IH]; intros h H; [reflexivity|]. cbn [mLoop every2 flat_map].
    assert (ML : mmax / 2 <= lmax / 2) by (apply Z.div_le_mono; lia).
    unfold mapFst. rewrite map_app. f_equal.
    - apply (lLoop_map _ (nodeSph lmax mmax n) (fun m l j => Ok (m, l, j))). intros k Hk. assert (K : Z.of_nat k < 1 + lmax / 2 - Z.of_nat h) by (rewrite <- cntL_even by lia; lia). split.
      + apply node_of; lia.
      + intros [P|P].
        * rewrite <- node_of by lia. f_equal. ring.
        * destruct (Z.eq_dec ir 0) as [E|E]; [|rewrite <- node_of by lia; f_equal; ring].
          assert (h = 0%nat) by lia. assert (k = 0%nat) by lia. subst h k. rewrite E. simpl base. change (Z.of_nat 0) with 0. rewrite Z.mul_0_r. reflexivity.
    - rewrite cntL_even by lia. replace (base h + ir + 1 + n * (1 + lmax / 2 - Z.of_nat h)) with (base (S h) + ir + 1) by (cbn [base]; ring).
      replace (2 * Z.of_nat h + 2) with (2 * Z.of_nat (S h)) by lia. apply IH. lia.
  Qed.
  Lemma base_closed : forall h, 2 * base h = n * (2 * Z.of_nat h * (1 + lmax / 2) - Z.of_nat h * (Z.of_nat h - 1)).
  Proof using. induction h as [|h IH]; [simpl; lia|]. cbn [base]. rewrite Z.mul_add_distr_l, IH. rewrite Nat2Z.inj_succ. ring. Qed.
  Lemma base_total : base (Z.to_nat (mmax / 2 + 1)) = n * angularCoefs lmax mmax.
  Proof using Hm.
    assert (M : 0 <= mmax / 2) by (apply Z.div_pos; lia).
    pose proof (base_closed (Z.to_nat (mmax / 2 + 1))) as B. rewrite Z2Nat.id in B by lia. unfold angularCoefs.
    set (M2 := mmax / 2) in *. assert (EV : exists q, M2 * (M2 + 1) = q * 2).
    { destruct (Z.Even_or_Odd M2) as [[q ->]|[q ->]]; [exists (q * (2 * q + 1)); ring|exists ((2 * q + 1) * (q + 1)); ring]. }
    destruct EV as [q EQ]. rewrite EQ. rewrite Z.div_mul by lia. replace ((M2 + 1) * (M2 + 1 - 1)) with (q * 2) in B by (rewrite <- EQ; ring). nia.
  Qed.
  Lemma base_mono : forall a b, (a <= b)%nat -> Z.of_nat b <= lmax / 2 + 1 -> base a <= base b.
  Proof using Hir. intros a b H. induction H as [|b H IH]; intros L; [lia|]. cbn [base]. assert (0 <= n * (1 + lmax / 2 - Z.of_nat b)) by (apply Z.mul_nonneg_nonneg; lia). specialize (IH ltac:(lia)). lia. Qed.
  Lemma lLoop_range : forall cnt l m offset hi, 0 <= l -> (0 < offset) -> offset + n * (Z.of_nat cnt - 1) < hi -> forall p, In p (lLoop cnt n m l offset ir ylm mult off) -> 0 <= fst p < hi.
  Proof using Hir.
    induction cnt as [|c IH]; intros l m offset hi L O H p Hp; [contradiction|]. cbn [lLoop] in Hp. destruct Hp as [<-|Hp]; [cbn [fst]; nia|].
    apply in_app_or in Hp. destruct Hp as [Hp|Hp]; [destruct ((0 <? ir) || (l =? 0)); [destruct Hp as [<-|[]]; cbn [fst]; nia|contradiction]|].
    refine (IH (l + 2) m (offset + n) hi _ _ _ p Hp); nia.
  Qed.
  Lemma mLoop_range : forall cnt h, (Z.of_nat h + Z.of_nat cnt <= mmax / 2 + 1) -> forall p, In p (mLoop cnt lmax n (2 * Z.of_nat h) (base h + ir + 1) ir ylm mult off) -> 0 <= fst p < base (h + cnt) + 1.
  Proof using Hir Hm.
    induction cnt as [|c IH]; intros h H p Hp; [contradiction|]. cbn [mLoop] in Hp.
    assert (ML : mmax / 2 <= lmax / 2) by (apply Z.div_le_mono; lia).
    assert (B : 0 <= base h) by (apply base_nonneg; lia).
    apply in_app_or in Hp. destruct Hp as [Hp|Hp].
    - refine (lLoop_range _ _ _ _ _ _ _ _ p Hp); [lia|lia|]. rewrite cntL_even by lia.
      assert (base (S h) <= base (h + S c)) by (apply base_mono; lia). cbn [base] in H0. nia.
    - rewrite cntL_even in Hp by lia. replace (base h + ir + 1 + n * (1 + lmax / 2 - Z.of_nat h)) with (base (S h) + ir + 1) in Hp by (cbn [base]; ring).
      replace (2 * Z.of_nat h + 2) with (2 * Z.of_nat (S h)) in Hp by lia. replace (h + S c)%nat with (S h + c)%nat by lia. apply (IH (S h)); [lia|exact Hp].
  Qed.
End sph.
