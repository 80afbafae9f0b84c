(** vandermonde<N> (math_spline.cpp:375-387) returns the coefficients of the interpolating polynomial, for any N and any distinct nodes. *)
From Coquelicot Require Import Coquelicot.
From Verif Require Import Arr SplIntModel SplIntSpec SplIntProofs SplIntProofs2.
Local Open Scope R_scope.

Lemma poly_div r n : forall a, exists b, b n = a (S n) /\ forall t, poly (S n) a t = poly (S n) a r + (t - r) * poly n b t.
Proof.
  induction n as [|n IH]; intros a.
  - exists (fun _ => a 1%nat). split; [reflexivity|]. intros t. rewrite !poly_S. unfold poly. cbn. ring.
  - destruct (IH (fun k => a (S k))) as (b & Hb & H). exists (fun k => match k with O => poly (S n) (fun k => a (S k)) r | S j => b j end). split; [exact Hb|].
    intros t. rewrite (poly_S (S n) a t), (poly_S (S n) a r), (poly_S n (fun k => match k with O => _ | S j => b j end) t), (H t). change (fun k => b k) with b.
    change (poly n (fun k : nat => b k) t) with (poly n b t). ring.
Qed.
Lemma root_count n : forall a (x : nat -> R), (forall i j, (i < j <= n)%nat -> x i <> x j) -> (forall i, (i <= n)%nat -> poly n a (x i) = 0) -> forall k, (k <= n)%nat -> a k = 0.
Proof.
  induction n as [|n IH]; intros a x D Z k Hk.
  - replace k with 0%nat by lia. specialize (Z 0%nat ltac:(lia)). unfold poly in Z. cbn in Z. lra.
  - destruct (poly_div (x (S n)) n a) as (b & Hb & H).
    assert (B : forall k, (k <= n)%nat -> b k = 0).
    { apply (IH b x); [intros; apply D; lia|]. intros i Hi. specialize (H (x i)). rewrite (Z i) in H by lia. rewrite (Z (S n)) in H by lia.
      assert (x i - x (S n) <> 0) by (specialize (D i (S n) ltac:(lia)); lra). apply Rmult_eq_reg_l with (x i - x (S n)); [lra|assumption]. }
    assert (A : a (S n) = 0) by (rewrite <- Hb; apply B; lia).
    destruct (Nat.eq_dec k (S n)) as [->|N]; [exact A|]. apply (IH a x); [intros; apply D; lia| |lia].
    intros i Hi. specialize (Z i ltac:(lia)). rewrite poly_last, A in Z. lra.
Qed.
Lemma root_count_fun n a (x : nat -> R) : (forall i j, (i < j <= n)%nat -> x i <> x j) -> (forall i, (i <= n)%nat -> poly n a (x i) = 0) -> forall t, poly n a t = 0.
Proof. intros D Z t. unfold poly. apply sum_eq_R0. intros k Hk. rewrite (root_count n a x D Z k Hk). ring. Qed.

Section V.
  Variables (x y : nat -> R).
  Variable N : nat.
  Hypothesis Dx : forall i j, (i < j <= N)%nat -> x i <> x j.
  (** divided differences *)
  Fixpoint DD (i j : nat) : R :=
    match i with
    | O => y j
    | S i' => if (j <=? i')%nat then DD i' j else (DD i' j - DD i' (j - 1)) / (x j - x (j - i' - 1)%nat)
    end.
  Lemma DD_stable i j m : (j <= i)%nat -> DD (i + m) j = DD i j.
  Proof. intros H. induction m as [|m IH]; [rewrite Nat.add_0_r; reflexivity|]. rewrite Nat.add_succ_r. cbn [DD]. rewrite (proj2 (Nat.leb_le j (i + m))) by lia. exact IH. Qed.
  (** Neville's polynomials *)
  Lemma neville i : forall j, (i <= j <= N)%nat -> exists b, b i = DD i j /\ forall k, (j - i <= k <= j)%nat -> poly i b (x k) = y k.
  Proof.
    induction i as [|i IH]; intros j Hj.
    - exists (fun _ => y j). split; [reflexivity|]. intros k Hk. replace k with j by lia. unfold poly. cbn. ring.
    - destruct (IH j ltac:(lia)) as (b & Hb & Pb). destruct (IH (j - 1)%nat ltac:(lia)) as (c & Hc & Pc).
      set (q := x j - x (j - i - 1)%nat). assert (Q : q <> 0) by (unfold q; specialize (Dx (j - i - 1) j ltac:(lia))%nat; lra).
      set (sh := fun (u : nat -> R) k => match k with O => 0 | S j => u j end). set (pd := fun (u : nat -> R) k => if (k <=? i)%nat then u k else 0).
      exists (fun k => / q * ((sh b k + (- x (j - i - 1)%nat) * pd b k) + - (1) * (sh c k + (- x j) * pd c k))). split.
      + cbn [DD]. rewrite (proj2 (Nat.leb_gt j i)) by lia. fold q. unfold sh, pd. rewrite (proj2 (Nat.leb_gt (S i) i)) by lia. rewrite Hb, Hc. field. exact Q.
      + assert (P : forall t, poly (S i) (fun k => / q * ((sh b k + (- x (j - i - 1)%nat) * pd b k) + - (1) * (sh c k + (- x j) * pd c k))) t
                    = / q * ((t - x (j - i - 1)%nat) * poly i b t - (t - x j) * poly i c t)).
        { intros t. rewrite <- poly_scal. f_equal. rewrite <- poly_add, <- poly_scal, <- !poly_add, <- !poly_scal. unfold sh, pd. rewrite <- !poly_tmul. rewrite <- !(poly_pad i (S i)) by lia. ring. }
        intros k Hk. rewrite P. destruct (Nat.eq_dec k j) as [->|N1]; [|destruct (Nat.eq_dec k (j - i - 1)) as [->|N2]].
        * rewrite (Pb j ltac:(lia)). fold q. rewrite Rminus_eq_0. field. exact Q.
        * rewrite (Pc (j - i - 1)%nat ltac:(lia)). rewrite Rminus_eq_0. unfold q. field. exact Q.
        * rewrite (Pb k ltac:(lia)), (Pc k ltac:(lia)). unfold q. field. exact Q.
  Qed.
  (** product of (t - x_l) for i <= l < i + m *)
  Fixpoint pr (m i : nat) (t : R) : R := match m with O => 1 | S m' => (t - x i) * pr m' (S i) t end.
  Lemma pr_last m : forall i t, pr (S m) i t = pr m i t * (t - x (i + m)%nat).
  Proof. induction m as [|m IH]; intros i t; cbn [pr]; [rewrite Nat.add_0_r; ring|]. change ((t - x (S i)) * pr m (S (S i)) t) with (pr (S m) (S i) t). rewrite IH. replace (S i + m)%nat with (i + S m)%nat by lia. ring. Qed.
  Lemma pr_zero m : forall i l, (i <= l < i + m)%nat -> pr m i (x l) = 0.
  Proof. induction m as [|m IH]; intros i l Hl; [lia|]. cbn [pr]. destruct (Nat.eq_dec l i) as [->|Ne]; [ring|]. rewrite IH by lia. ring. Qed.
  Lemma pr_poly m : forall i, exists b, b m = 1 /\ forall t, pr m i t = poly m b t.
  Proof.
    induction m as [|m IH]; intros i.
    - exists (fun _ => 1). split; [reflexivity|]. intros t. unfold poly. cbn. ring.
    - destruct (IH (S i)) as (b & Hb & H). exists (fun k => match k with O => 0 | S j => b j end + (- x i) * (if (k <=? m)%nat then b k else 0)). split.
      + rewrite (proj2 (Nat.leb_gt (S m) m)) by lia. rewrite Hb. ring.
      + intros t. cbn [pr]. rewrite H, <- poly_add, <- poly_scal, <- poly_tmul, <- (poly_pad m (S m)) by lia. ring.
  Qed.
  (** Newton's form *)
  Lemma newton_step j b c : (S j <= N)%nat -> b (S j) = DD (S j) (S j) -> (forall k, (k <= S j)%nat -> poly (S j) b (x k) = y k) -> (forall k, (k <= j)%nat -> poly j c (x k) = y k) ->
    forall t, poly (S j) b t = poly j c t + DD (S j) (S j) * pr (S j) 0 t.
  Proof.
    intros Hj Hb Pb Pc t. destruct (pr_poly (S j) 0) as (d & Hd & Pd).
    set (u := fun k => b k + - (1) * c k + (- DD (S j) (S j)) * d k).
    assert (U : forall s, poly j u s = poly (S j) b s - poly j c s - DD (S j) (S j) * pr (S j) 0 s).
    { intros s. unfold u. rewrite <- poly_add, <- poly_add, <- !poly_scal. rewrite Pd, (poly_last j b), (poly_last j d), Hb, Hd. ring. }
    assert (Z0 : forall s, poly j u s = 0).
    { apply (root_count_fun j u x); [intros; apply Dx; lia|]. intros i Hi. rewrite U, Pb, Pc, pr_zero by lia. ring. }
    specialize (U t). rewrite Z0 in U. lra.
  Qed.
  Lemma newton_form j : (j <= N)%nat -> exists b, b j = DD j j /\ (forall k, (k <= j)%nat -> poly j b (x k) = y k) /\ forall t, poly j b t = sum_f_R0 (fun i => DD i i * pr i 0 t) j.
  Proof.
    induction j as [|j IH]; intros Hj.
    - exists (fun _ => y 0%nat). split; [reflexivity|]. split; [intros k Hk; replace k with 0%nat by lia; unfold poly; cbn; ring|]. intros t. unfold poly. cbn. ring.
    - destruct (IH ltac:(lia)) as (c & Hc & Pc & Fc). destruct (neville (S j) (S j) ltac:(lia)) as (b & Hb & Pb). exists b. split; [exact Hb|].
      assert (Pb' : forall k, (k <= S j)%nat -> poly (S j) b (x k) = y k) by (intros k Hk; apply Pb; lia). split; [exact Pb'|].
      intros t. rewrite (newton_step j b c Hj Hb Pb' Pc t), Fc. reflexivity.
  Qed.
  (** nested form *)
  Fixpoint newt (m i : nat) (t : R) : R := match m with O => DD N i | S m' => DD N i + (t - x i) * newt m' (S i) t end.
  Lemma newt_sum m : forall i t, newt m i t = sum_f_R0 (fun k => DD N (i + k) * pr k i t) m.
  Proof.
    induction m as [|m IH]; intros i t; cbn [newt].
    - cbn. rewrite Nat.add_0_r. ring.
    - rewrite IH, (decomp_sum _ (S m)) by lia. cbn [Nat.pred]. rewrite scal_sum. f_equal; [cbn [pr]; rewrite Nat.add_0_r; ring|].
      apply sum_eq. intros k Hk. cbn [pr]. replace (S i + k)%nat with (i + S k)%nat by lia. ring.
  Qed.
  Lemma newt_interp k : (k <= N)%nat -> newt N 0 (x k) = y k.
  Proof.
    intros Hk. destruct (newton_form N ltac:(lia)) as (b & _ & Pb & Fb). rewrite newt_sum, <- (Pb k Hk), Fb. apply sum_eq. intros i Hi. cbn [Nat.add].
    replace N with (i + (N - i))%nat at 1 by lia. rewrite DD_stable by lia. reflexivity.
  Qed.
End V.

Lemma zsum_sum n f : zsum 0 (Z.of_nat n + 1) f = sum_f_R0 (fun k => f (Z.of_nat k)) n.
Proof. induction n as [|n IH]; [unfold zsum; cbn; apply Rplus_0_r|]. replace (Z.of_nat (S n) + 1)%Z with (Z.of_nat n + 1 + 1)%Z by lia. rewrite zsum_last by lia. rewrite IH. cbn [sum_f_R0]. replace (Z.of_nat n + 1)%Z with (Z.of_nat (S n)) by lia. reflexivity. Qed.

Section Alg.
  Variables (N : nat) (t v : arr R).
  Notation M := (Z.of_nat N).
  Hypothesis Lt : alen t = (M + 1)%Z.
  Hypothesis Lv : alen v = (M + 1)%Z.
  Notation x := (fun k : nat => afn t (Z.of_nat k)).
  Notation y := (fun k : nat => afn v (Z.of_nat k)).
  Hypothesis Dx : forall i j, (0 <= i < j)%Z -> (j <= M)%Z -> afn t i <> afn t j.
  Notation D i j := (DD x y (Z.to_nat i) (Z.to_nat j)).
  Lemma vander_phase1 c : alen c = (M + 1)%Z -> (forall k, (0 <= k <= M)%Z -> afn c k = afn v k) ->
    exists c', for_ 0 M (fun i c => fordown M (i + 1) (fun j c =>
         cj <- aget c j ;; ck <- aget c (j - 1)%Z ;; xj <- aget t j ;; xk <- aget t (j - i - 1)%Z ;;
         aset c j ((cj - ck) / (xj - xk))%R) c) c = Ok c' /\ alen c' = (M + 1)%Z /\ forall k, (0 <= k <= M)%Z -> afn c' k = D M k.
  Proof.
    intros Lc Hc. apply (for_total (fun i (c : arr R) => alen c = (M + 1)%Z /\ forall k, (0 <= k <= M)%Z -> afn c k = D i k)); [lia| |].
    { split; [exact Lc|]. intros k Hk. cbn [DD Z.to_nat]. rewrite Z2Nat.id by lia. apply Hc. exact Hk. }
    intros i d Hi (Ld & Hd).
    destruct (fordown_total (fun j (c : arr R) => alen c = (M + 1)%Z /\ forall k, (0 <= k <= M)%Z -> afn c k = if (k >? j)%Z then D (i + 1)%Z k else D i k) M (i + 1) (fun j c =>
         cj <- aget c j ;; ck <- aget c (j - 1)%Z ;; xj <- aget t j ;; xk <- aget t (j - i - 1)%Z ;;
         aset c j ((cj - ck) / (xj - xk))%R) d) as (d' & E & L' & H'); [lia| | |].
    { split; [exact Ld|]. intros k Hk. destruct (Z.gtb_spec k M); [lia|]. apply Hd. exact Hk. }
    { intros j e Hj (Le & He). rewrite !aget_ok by lia. cbn [bind]. rewrite aset_ok by lia. eexists. split; [reflexivity|]. split; [exact Le|].
      intros k Hk. cbn [afn alen]. unfold upd. destruct (Z.eqb_spec k j) as [->|Ne].
      - destruct (Z.gtb_spec j (j - 1)); [|lia]. rewrite (He j) by lia. rewrite (He (j - 1)%Z) by lia.
        destruct (Z.gtb_spec j j); [lia|]. destruct (Z.gtb_spec (j - 1) j); [lia|].
        replace (Z.to_nat (i + 1)) with (S (Z.to_nat i)) by lia. cbn [DD]. rewrite (proj2 (Nat.leb_gt (Z.to_nat j) (Z.to_nat i))) by lia.
        replace (Z.to_nat j - 1)%nat with (Z.to_nat (j - 1)) by lia. replace (Z.of_nat (Z.to_nat j - Z.to_nat i - 1)) with (j - i - 1)%Z by lia. rewrite (Z2Nat.id j) by lia. reflexivity.
      - rewrite He by lia. destruct (Z.gtb_spec k j), (Z.gtb_spec k (j - 1)); try lia; reflexivity. }
    exists d'. split; [exact E|]. split; [exact L'|]. intros k Hk. rewrite (H' k Hk). destruct (Z.gtb_spec k (i + 1 - 1)) as [G|G]; [reflexivity|].
    replace (Z.to_nat (i + 1)) with (S (Z.to_nat i)) by lia. cbn [DD]. rewrite (proj2 (Nat.leb_le (Z.to_nat k) (Z.to_nat i))) by lia. reflexivity.
  Qed.
  Notation nw i s := (newt x y N (N - Z.to_nat i) (Z.to_nat i) s).
  Lemma vander_phase2 c : alen c = (M + 1)%Z -> (forall k, (0 <= k <= M)%Z -> afn c k = D M k) ->
    exists c', fordown (M - 1) 0 (fun i c => for_ i M (fun j c =>
         xi <- aget t i ;; cj <- aget c j ;; ck <- aget c (j + 1)%Z ;; aset c j (cj - xi * ck)%R) c) c = Ok c' /\ alen c' = (M + 1)%Z /\
      forall s, zsum 0 (M + 1) (fun k => afn c' k * s ^ Z.to_nat k) = newt x y N N 0 s.
  Proof.
    intros Lc Hc.
    destruct (fordown_total (fun i (c : arr R) => alen c = (M + 1)%Z /\ (forall k, (0 <= k <= i)%Z -> afn c k = D M k) /\
        forall s, zsum (i + 1) (M + 1) (fun k => afn c k * s ^ Z.to_nat (k - (i + 1))) = nw (i + 1)%Z s) (M - 1) 0
        (fun i c => for_ i M (fun j c => xi <- aget t i ;; cj <- aget c j ;; ck <- aget c (j + 1)%Z ;; aset c j (cj - xi * ck)%R) c) c) as (c' & E & L' & _ & H'); [lia| | |].
    { split; [exact Lc|]. split; [intros; apply Hc; lia|]. intros s. replace (M - 1 + 1)%Z with M by lia. rewrite zsum_one, Hc by lia. rewrite Z.sub_diag. cbn [Z.to_nat pow].
      rewrite Nat2Z.id. replace (N - N)%nat with 0%nat by lia. cbn [newt]. ring. }
    { intros i d Hi (Ld & Kd & Hd).
      destruct (for_total (fun j (c : arr R) => alen c = (M + 1)%Z /\ forall k, (0 <= k <= M)%Z -> afn c k = if ((i <=? k) && (k <? j))%Z then afn d k - afn t i * afn d (k + 1)%Z else afn d k) i M
        (fun j c => xi <- aget t i ;; cj <- aget c j ;; ck <- aget c (j + 1)%Z ;; aset c j (cj - xi * ck)%R) d) as (d' & E & L' & H'); [lia| | |].
      { split; [exact Ld|]. intros k Hk. destruct (Z.leb_spec i k), (Z.ltb_spec k i); try lia; reflexivity. }
      { intros j e Hj (Le & He). rewrite !aget_ok by lia. cbn [bind]. rewrite aset_ok by lia. eexists. split; [reflexivity|]. split; [exact Le|].
        intros k Hk. cbn [afn alen]. unfold upd. destruct (Z.eqb_spec k j) as [->|Ne].
        - rewrite !He by lia. destruct (Z.leb_spec i j), (Z.ltb_spec j j), (Z.ltb_spec j (j + 1)), (Z.leb_spec i (j + 1)), (Z.ltb_spec (j + 1) j); try lia; reflexivity.
        - rewrite He by lia. destruct (Z.leb_spec i k), (Z.ltb_spec k j), (Z.ltb_spec k (j + 1)); try lia; reflexivity. }
      exists d'. split; [exact E|]. split; [exact L'|]. split.
      - intros k Hk. rewrite H' by lia. destruct (Z.leb_spec i k), (Z.ltb_spec k M); try lia; cbn [andb]; apply Kd; lia.
      - intros s. replace (i - 1 + 1)%Z with i by lia.
        assert (T1 : zsum i (M + 1) (fun k => afn d' k * s ^ Z.to_nat (k - i)) =
                 zsum i M (fun k => (afn d k - afn t i * afn d (k + 1)%Z) * s ^ Z.to_nat (k - i)) + afn d M * s ^ Z.to_nat (M - i)).
        { rewrite zsum_last by lia. f_equal.
          - apply zsum_ext. intros k Hk. rewrite H' by lia. destruct (Z.leb_spec i k), (Z.ltb_spec k M); try lia; reflexivity.
          - rewrite H' by lia. destruct (Z.ltb_spec M M); [lia|]. rewrite andb_false_r. reflexivity. }
        rewrite T1. clear T1.
        assert (T2 : zsum i M (fun k => (afn d k - afn t i * afn d (k + 1)%Z) * s ^ Z.to_nat (k - i)) =
                     zsum i M (fun k => afn d k * s ^ Z.to_nat (k - i)) - afn t i * zsum i M (fun k => afn d (k + 1)%Z * s ^ Z.to_nat (k - i))).
        { rewrite <- zsum_scal, zsum_minus. apply zsum_ext. intros. ring. }
        rewrite T2. clear T2.
        assert (T3 : zsum i M (fun k => afn d (k + 1)%Z * s ^ Z.to_nat (k - i)) = nw (i + 1)%Z s).
        { rewrite <- Hd. rewrite (zsum_shift i M 1). apply zsum_ext. intros k Hk. do 2 f_equal; [f_equal; lia|]. lia. }
        rewrite T3. clear T3.
        assert (T4 : zsum i M (fun k => afn d k * s ^ Z.to_nat (k - i)) + afn d M * s ^ Z.to_nat (M - i) = afn d i + s * nw (i + 1)%Z s).
        { rewrite <- (zsum_last i M (fun k => afn d k * s ^ Z.to_nat (k - i))) by lia. rewrite zsum_first by lia. rewrite Z.sub_diag. cbn [Z.to_nat pow]. rewrite <- Hd, <- zsum_scal. f_equal; [ring|].
          apply zsum_ext. intros k Hk. replace (Z.to_nat (k - i)) with (S (Z.to_nat (k - (i + 1)))) by lia. cbn [pow]. ring. }
        replace (N - Z.to_nat i)%nat with (S (N - Z.to_nat (i + 1))) by lia. cbn [newt]. replace (S (Z.to_nat i)) with (Z.to_nat (i + 1)) by lia.
        rewrite (Z2Nat.id i) by lia. pose proof (Kd i ltac:(lia)) as Ki. rewrite Nat2Z.id in Ki. rewrite <- Ki. lra. }
    exists c'. split; [exact E|]. split; [exact L'|]. intros s. specialize (H' s). cbn [Z.add Z.sub Z.opp Z.pos_sub Z.to_nat] in H'. change (0 - 1 + 1)%Z with 0%Z in H'.
    rewrite Nat.sub_0_r in H'. rewrite <- H'. apply zsum_ext. intros k Hk. rewrite Z.sub_0_r. reflexivity.
  Qed.
  Lemma vandermonde_ok a : (forall k, (0 <= k <= M)%Z -> afn v k = poly N a (afn t k)) ->
    exists c, vandermonde M t v = Ok c /\ alen c = (M + 1)%Z /\ forall k, (k <= N)%nat -> afn c (Z.of_nat k) = a k.
  Proof.
    intros Ha. unfold vandermonde.
    destruct (for_total (fun i (c : arr R) => alen c = (M + 1)%Z /\ forall k, (0 <= k < i)%Z -> afn c k = afn v k) 0 (M + 1) (fun i c => yi <- aget v i ;; aset c i yi) (anew (M + 1) 0)) as (c0 & E0 & L0 & H0); [lia| | |].
    { split; [reflexivity|]. intros; lia. }
    { intros i c Hi (L & H). rewrite aget_ok by lia. cbn [bind]. rewrite aset_ok by lia. eexists. split; [reflexivity|]. split; [exact L|].
      intros k Hk. cbn [afn]. unfold upd. destruct (Z.eqb_spec k i) as [->|]; [reflexivity|apply H; lia]. }
    rewrite E0. cbn [bind]. destruct (vander_phase1 c0 L0) as (c1 & E1 & L1 & H1); [intros; apply H0; lia|]. rewrite E1. cbn [bind].
    destruct (vander_phase2 c1 L1 H1) as (c2 & E2 & L2 & H2). exists c2. split; [exact E2|]. split; [exact L2|].
    assert (Dn : forall i j, (i < j <= N)%nat -> x i <> x j) by (intros i j H; apply Dx; lia).
    assert (Q : forall k, (k <= N)%nat -> afn c2 (Z.of_nat k) + - (1) * a k = 0).
    { apply (root_count N (fun k => afn c2 (Z.of_nat k) + - (1) * a k) x Dn). intros i Hi. rewrite <- poly_add, <- poly_scal.
      replace (poly N (fun k => afn c2 (Z.of_nat k)) (x i)) with (y i); [cbv beta; rewrite Ha by lia; ring|].
      rewrite <- (newt_interp x y N Dn i Hi), <- H2, zsum_sum. unfold poly. apply sum_eq. intros k Hk. rewrite Nat2Z.id. reflexivity. }
    intros k Hk. specialize (Q k Hk). lra.
  Qed.
End Alg.
