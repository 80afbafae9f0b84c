From Coquelicot Require Import Coquelicot.
From Verif Require Import Arr BinSearchModel SplineModel SplineGlue SplIntModel PolyProofs RootProofs SplIntProofs2 BsplModel SplineSpec BsplSpec BsplProofs.
Local Open Scope R_scope.

Lemma gridAt_ok x i : (1 <= alen x)%Z -> gridAt x i = Ok (knot x i).
Proof.
  intros H. unfold gridAt, knot. destruct (Z.ltb_spec i 0); [rewrite aget_ok by lia; do 2 f_equal; lia|].
  destruct (Z.leb_spec (alen x) i); rewrite aget_ok by lia; do 2 f_equal; lia.
Qed.

Lemma lin_derive (f g : R -> R) a b c t f' g' : is_derive f t f' -> is_derive g t g' -> is_derive (fun u => c * (f u * a - g u * b)) t (c * (f' * a - g' * b)).
Proof.
  intros D1 D2. apply is_derive_Reals. apply is_derive_Reals in D1. apply is_derive_Reals in D2.
  replace (c * (f' * a - g' * b)) with (c * ((f' * a + f t * 0) - (g' * b + g t * 0))) by ring.
  exact (derivable_pt_lim_scal (fun u => f u * a - g u * b) c t _ (derivable_pt_lim_minus (fun u => f u * a) (fun u => g u * b) t _ _
    (derivable_pt_lim_mult f (fun _ => a) t _ _ D1 (derivable_pt_lim_const a t)) (derivable_pt_lim_mult g (fun _ => b) t _ _ D2 (derivable_pt_lim_const b t)))).
Qed.
(** derivatives of order o *)
Fixpoint dn (x : arr R) (m : Z) (n o : nat) (j : Z) (t : R) {struct o} : R :=
  match o with
  | O => cox x m n j t
  | S o => match n with
    | O => 0
    | S p => INR n * (dn x m p o j t / (knot x (j + Z.of_nat p + 1)%Z - knot x j) - dn x m p o (j + 1)%Z t / (knot x (j + Z.of_nat p + 2)%Z - knot x (j + 1)%Z))
    end
  end.

Section Val.
  Variable x : arr R.
  Hypothesis Hx : increasing x.
  Hypothesis Hn : (2 <= alen x)%Z.
  Variable m : Z.
  Hypothesis Hm : (0 <= m <= alen x - 2)%Z.

  Lemma dn_0 n o : forall j t, (j < m - Z.of_nat n \/ m < j)%Z -> dn x m n o j t = 0.
  Proof.
    revert n. induction o as [|o IH]; intros n j t H; [apply cox_0; assumption|]. cbn [dn]. destruct n as [|n]; [reflexivity|].
    rewrite !IH by lia. unfold Rdiv. ring.
  Qed.
  Lemma dn_derive n o : forall j t, is_derive (dn x m n o j) t (dn x m n (S o) j t).
  Proof.
    revert n. induction o as [|o IH]; intros n j t.
    - destruct n as [|n]; [apply (is_derive_const (cox x m 0 j t) t)|]. apply (cox_derive x Hx Hn m Hm).
    - destruct n as [|n]; [exact (is_derive_const 0 t)|].
      change (dn x m (S n) (S (S o)) j t) with (INR (S n) * (dn x m n (S o) j t / (knot x (j + Z.of_nat n + 1)%Z - knot x j) - dn x m n (S o) (j + 1)%Z t / (knot x (j + Z.of_nat n + 2)%Z - knot x (j + 1)%Z))).
      pose proof (IH n j t) as D1. pose proof (IH n (j + 1)%Z t) as D2. cbn [dn]. unfold Rdiv.
      generalize (/ (knot x (j + Z.of_nat n + 1)%Z - knot x j)) (/ (knot x (j + Z.of_nat n + 2)%Z - knot x (j + 1)%Z)) (INR (S n)). intros a b c.
      apply lin_derive; assumption.
  Qed.

  Lemma values_ok N t : exists B, bsplineValues (Z.of_nat N) t m x = Ok B /\ alen B = (Z.of_nat N + 1)%Z /\
    forall i, (0 <= i <= Z.of_nat N)%Z -> afn B i = cox x m N (m - Z.of_nat N + i) t.
  Proof.
    unfold bsplineValues.
    destruct (for_total (fun i (B : arr R) => alen B = (Z.of_nat N + 1)%Z /\ forall k, (0 <= k < i)%Z -> afn B k = cox x m 0 (m - Z.of_nat N + k) t)
      0 (Z.of_nat N + 1) (fun i B => aset B i (if (i =? Z.of_nat N)%Z then 1 else 0)) (anew (Z.of_nat N + 1) 0)) as (B0 & E0 & L0 & V0); [lia|split; [reflexivity|intros; lia]| |].
    { intros i B Hi (L & V). rewrite aset_ok by lia. eexists. split; [reflexivity|]. cbn [alen afn]. split; [exact L|].
      intros k Hk. destruct (Z.eq_dec k i) as [->|]; [rewrite upd_same|rewrite upd_other by assumption; apply V; lia].
      cbn [cox]. destruct (Z.eqb_spec i (Z.of_nat N)); destruct (Z.eqb_spec (m - Z.of_nat N + i) m); try reflexivity; lia. }
    rewrite E0. cbn [bind].
    match goal with |- context [for_ 1 _ ?f B0] => destruct (for_total (fun l (B : arr R) => alen B = (Z.of_nat N + 1)%Z /\ forall k, (0 <= k <= Z.of_nat N)%Z -> afn B k = cox x m (Z.to_nat (l - 1)) (m - Z.of_nat N + k) t)
      1 (Z.of_nat N + 1) f B0) as (B1 & E1 & L1 & V1); [lia|split; [exact L0|intros k Hk; apply V0; lia]| |] end.
    2:{ exists B1. split; [exact E1|]. split; [exact L1|]. intros i Hi. rewrite V1 by lia. f_equal. lia. }
    intros l B Hl (L & V). cbn beta.
    set (p := Z.to_nat (l - 1)) in *. replace (Z.to_nat (l + 1 - 1)) with (S p) by lia. assert (El : l = (Z.of_nat p + 1)%Z) by lia.
    match goal with |- context [for_ 0 (l + 1) ?f ?s] => destruct (for_total (fun k (st : arr R * R) => alen (fst st) = (Z.of_nat N + 1)%Z /\ snd st = cox x m p (m - k + 1) t /\
       forall i, (0 <= i <= Z.of_nat N)%Z -> afn (fst st) i = if (i <=? Z.of_nat N - k)%Z then cox x m p (m - Z.of_nat N + i) t else cox x m (S p) (m - Z.of_nat N + i) t)
      0 (l + 1) f s) as (st & E2 & L2 & S2 & V2) end.
    - lia.
    - split; [exact L|]. split; [cbn; rewrite cox_0 by lia; reflexivity|]. intros i Hi. cbn [fst]. rewrite (proj2 (Z.leb_le i _)) by lia. apply V. lia.
    - intros k [B' bp] Hk (Lk & Sk & Vk). cbn [fst snd] in *. cbn beta iota.
      rewrite aget_ok by lia. cbn [bind]. unfold linInt. rewrite !gridAt_ok by lia. cbn [bind].
      rewrite aset_ok by lia. cbn [bind]. eexists. split; [reflexivity|]. cbn [fst snd alen afn]. split; [exact Lk|].
      assert (Eb : afn B' (Z.of_nat N - k)%Z = cox x m p (m - k) t).
      { rewrite Vk by lia. rewrite (proj2 (Z.leb_le _ _)) by lia. f_equal. lia. }
      split; [rewrite Eb; f_equal; lia|].
      intros i Hi. destruct (Z.eq_dec i (Z.of_nat N - k)) as [->|Ni].
      + rewrite upd_same. rewrite (proj2 (Z.leb_gt _ _)) by lia. replace (m - Z.of_nat N + (Z.of_nat N - k))%Z with (m - k)%Z by lia.
        rewrite (cox_S x Hx Hn m Hm). rewrite Eb, Sk. replace (m - k + l)%Z with (m - k + Z.of_nat p + 1)%Z by lia. replace (m - k + Z.of_nat p + 1 + 1)%Z with (m - k + Z.of_nat p + 2)%Z by lia.
        set (j := (m - k)%Z) in *. f_equal.
        * rewrite Rmult_comm. destruct (Z_lt_le_dec m j); [rewrite cox_0 by lia; ring|]. destruct (Z_lt_le_dec j (m - Z.of_nat p)); [rewrite cox_0 by lia; ring|].
          pose proof (knot_lt x Hx Hn m Hm j (j + Z.of_nat p + 1) ltac:(lia)). rewrite Req_b_f by lra. reflexivity.
        * rewrite Rmult_comm. destruct (Z_lt_le_dec m (j + 1)); [rewrite cox_0 by lia; ring|]. destruct (Z_lt_le_dec (j + 1) (m - Z.of_nat p)); [rewrite cox_0 by lia; ring|].
          pose proof (knot_lt x Hx Hn m Hm (j + 1) (j + Z.of_nat p + 2) ltac:(lia)). rewrite Req_b_f by lra. field. lra.
      + rewrite upd_other by assumption. rewrite Vk by assumption. destruct (Z.leb_spec i (Z.of_nat N - k)), (Z.leb_spec i (Z.of_nat N - (k + 1))); try reflexivity; lia.
    - rewrite E2. cbn [bind]. eexists. split; [reflexivity|]. split; [exact L2|]. intros k Hk. rewrite V2 by assumption.
      destruct (Z.leb_spec k (Z.of_nat N - (l + 1))); [|reflexivity]. rewrite !cox_0 by lia. reflexivity.
  Qed.

  Lemma denom_ok i1 i2 : denom x i1 i2 = Ok (if Req_b (knot x i1) (knot x i2) then 0 else 1 / (knot x i2 - knot x i1)).
  Proof. unfold denom. rewrite !gridAt_ok by lia. reflexivity. Qed.
  Lemma derivs_ok o : forall N t, (o <= N)%nat -> exists B, bsplineDerivs N o t m x = Ok B /\ alen B = (Z.of_nat N + 1)%Z /\
    forall i, (0 <= i <= Z.of_nat N)%Z -> afn B i = dn x m N o (m - Z.of_nat N + i) t.
  Proof.
    induction o as [|o IH]; intros N t Ho; [destruct N; apply values_ok|].
    destruct N as [|n]; [lia|]. destruct (IH n t ltac:(lia)) as (B1 & E1 & L1 & V1). cbn [bsplineDerivs]. rewrite E1. cbn [bind]. cbv zeta.
    set (NN := Z.of_nat (S n)).
    set (B := mkArr (NN + 1) (fun i => if (i =? 0)%Z then 0 else afn B1 (i - 1))).
    assert (VB : forall i, (0 <= i <= NN)%Z -> afn B i = dn x m n o (m - NN + i) t).
    { intros i Hi. unfold B. cbn [afn]. destruct (Z.eqb_spec i 0) as [->|]; [rewrite dn_0 by lia; reflexivity|]. rewrite V1 by lia. f_equal. lia. }
    match goal with |- context [for_ 0 (NN + 1) ?f ?s] => destruct (for_total (fun k (A : arr R) => alen A = (NN + 1)%Z /\ forall i, (0 <= i <= NN)%Z -> afn A i = if (i <? k)%Z then dn x m (S n) (S o) (m - NN + i) t else afn B i) 0 (NN + 1) f s) as (A & EA & LA & VA) end.
    - lia.
    - split; [reflexivity|]. intros i Hi. rewrite (proj2 (Z.ltb_ge i 0)) by lia. reflexivity.
    - intros i A Hi (LA & VA). cbn beta. rewrite aget_ok by lia. cbn [bind]. rewrite denom_ok. cbn [bind].
      match goal with |- context [bind (if (i <? NN)%Z then ?a else ?b)] => assert (ET : (if (i <? NN)%Z then a else b) = Ok (- (dn x m n o (m - NN + i + 1) t / (knot x (m - NN + i + NN + 1)%Z - knot x (m - NN + i + 1)%Z)))) end.
      { destruct (Z.ltb_spec i NN).
        - rewrite aget_ok by lia. cbn [bind]. rewrite denom_ok. cbn [bind]. f_equal. rewrite VA by lia. rewrite (proj2 (Z.ltb_ge (i + 1) i)) by lia. rewrite VB by lia.
          replace (m - NN + (i + 1))%Z with (m - NN + i + 1)%Z by lia.
          set (j := (m - NN + i)%Z) in *. destruct (Z_lt_le_dec m (j + 1)); [rewrite dn_0 by lia; unfold Rdiv; ring|]. destruct (Z_lt_le_dec (j + 1) (m - Z.of_nat n)); [rewrite dn_0 by lia; unfold Rdiv; ring|].
          pose proof (knot_lt x Hx Hn m Hm (j + 1) (j + NN + 1) ltac:(lia)). rewrite Req_b_f by lra. field. lra.
        - rewrite dn_0 by lia. f_equal. unfold Rdiv. ring. }
      rewrite ET. cbn [bind]. rewrite aset_ok by lia. eexists. split; [reflexivity|]. cbn [alen afn]. split; [exact LA|].
      intros k Hk. destruct (Z.eq_dec k i) as [->|Nk].
      + rewrite upd_same. rewrite (proj2 (Z.ltb_lt i (i + 1))) by lia. rewrite VA by lia. rewrite (proj2 (Z.ltb_ge i i)) by lia. rewrite VB by lia. cbn [dn]. fold NN.
        replace (m - NN + i + Z.of_nat n + 1)%Z with (m - NN + i + NN)%Z by lia. replace (m - NN + i + Z.of_nat n + 2)%Z with (m - NN + i + NN + 1)%Z by lia.
        replace (INR (S n)) with (IZR NN) by (rewrite INR_IZR_INZ; reflexivity). f_equal. unfold Rminus. f_equal.
        set (j := (m - NN + i)%Z) in *. destruct (Z_lt_le_dec m j); [rewrite dn_0 by lia; unfold Rdiv; ring|]. destruct (Z_lt_le_dec j (m - Z.of_nat n)); [rewrite dn_0 by lia; unfold Rdiv; ring|].
        pose proof (knot_lt x Hx Hn m Hm j (j + NN) ltac:(lia)). rewrite Req_b_f by lra. field. lra.
      + rewrite upd_other by assumption. rewrite VA by lia. destruct (Z.ltb_spec k i), (Z.ltb_spec k (i + 1)); try reflexivity; lia.
    - rewrite EA. exists A. split; [reflexivity|]. split; [exact LA|]. intros i Hi. rewrite VA by lia. rewrite (proj2 (Z.ltb_lt i _)) by lia. reflexivity.
  Qed.

  Lemma bsplSum_ok N B ampl : alen B = (Z.of_nat N + 1)%Z -> alen ampl = (alen x + Z.of_nat N - 1)%Z ->
    bsplSum N B ampl m = Ok (zsum 0 (Z.of_nat N + 1) (fun i => afn B i * afn ampl (i + m)%Z)).
  Proof.
    intros L1 L2. unfold bsplSum. rewrite (for_sum 0 (Z.of_nat N + 1) _ (fun i => afn B i * afn ampl (i + m)%Z) 0); [f_equal; ring|lia|].
    intros i r Hi. rewrite !aget_ok by lia. reflexivity.
  Qed.
End Val.

(** continuity across a node *)
Section Cont.
  Variable x : arr R.
  Hypothesis Hx : increasing x.
  Hypothesis Hn : (2 <= alen x)%Z.
  Variable m : Z.
  Hypothesis Hm : (0 <= m)%Z.
  Hypothesis Hm1 : (m + 1 <= alen x - 2)%Z.
  Let q := knot x (m + 1)%Z.
  Lemma cox_cont n : forall j, cox x m (S n) j q = cox x (m + 1) (S n) j q.
  Proof.
    induction n as [|n IH]; intros j.
    - rewrite (cox_S x Hx Hn m ltac:(lia)), (cox_S x Hx Hn (m + 1) ltac:(lia)). change (Z.of_nat 0) with 0%Z. rewrite !Z.add_0_r. cbn [cox]. unfold q.
      pose proof (knot_lt x Hx Hn m ltac:(lia) m (m + 1) ltac:(lia)). pose proof (knot_lt x Hx Hn (m + 1) ltac:(lia) (m + 1) (m + 2) ltac:(lia)).
      destruct (Z.eqb_spec j m) as [Ej|Ej]; destruct (Z.eqb_spec (j + 1) m) as [E|E]; try lia; [subst j| | ].
      + rewrite (proj2 (Z.eqb_neq m (m + 1))), (proj2 (Z.eqb_eq (m + 1) (m + 1))) by lia. field. lra.
      + rewrite (proj2 (Z.eqb_neq j (m + 1))), (proj2 (Z.eqb_neq (j + 1) (m + 1))) by lia. replace (j + 2)%Z with (m + 1)%Z by lia. unfold Rdiv. ring.
      + rewrite (proj2 (Z.eqb_neq (j + 1) (m + 1))) by lia. destruct (Z.eqb_spec j (m + 1)) as [->|]; unfold Rdiv; ring.
    - rewrite (cox_S x Hx Hn m ltac:(lia) (S n)), (cox_S x Hx Hn (m + 1) ltac:(lia) (S n)). rewrite !IH. reflexivity.
  Qed.
  Lemma dn_cont o : forall n j, (o < n)%nat -> dn x m n o j q = dn x (m + 1) n o j q.
  Proof.
    induction o as [|o IH]; intros n j H; destruct n as [|n]; try lia; [apply cox_cont|]. cbn [dn]. rewrite !IH by lia. reflexivity.
  Qed.
End Cont.
