From Coquelicot Require Import Coquelicot.
From Verif Require Import Arr PolyModel PolyProofs RootProofs SplIntModel SplIntProofs SplIntProofs2 GLModel GLProofs SplIntSpec.
Local Open Scope R_scope.
Lemma order_rule n : In n orders -> exists l, glRule (Z.of_nat n) = Some l /\ mcheck Eps n l = true /\ mcheck Eps n (symRule n l) = true.
Proof.
  intros H. pose proof tables_ok as T. rewrite forallb_forall in T. specialize (T n H). destruct (glRule (Z.of_nat n)) as [l|]; [|discriminate].
  apply Bool.andb_true_iff in T. exists l. tauto.
Qed.
(** facts about a tabulated rule *)
Lemma rule_facts n : In n orders ->
  (forall j, (0 <= j < Z.of_nat n)%Z -> glAt (Z.of_nat n) j = Ok (glp glTab (Z.of_nat n) j, glw glTab (Z.of_nat n) j) /\ 0 < glp glTab (Z.of_nat n) j < 1 /\ 0 < glw glTab (Z.of_nat n) j) /\
  (forall i j, (0 <= i < j)%Z -> (j < Z.of_nat n)%Z -> glp glTab (Z.of_nat n) i < glp glTab (Z.of_nat n) j) /\
  rule_within glTab (Z.of_nat n) eps_gl.
Proof.
  intros H. destruct (order_rule n H) as (l & E & C & _). destruct (mcheck_ok n l C) as (L & G & I & M). unfold glAt, glTab, glEntry. cbn [glp glw]. rewrite E.
  assert (A : forall j, (0 <= j < Z.of_nat n)%Z -> 0 < frac64 (fst (nth (Z.to_nat j) l (0, 0)%Z)) < 1 /\ 0 < frac64 (snd (nth (Z.to_nat j) l (0, 0)%Z))) by (intros; apply G; lia).
  split; [|split].
  - intros j Hj. split; [|apply A; exact Hj]. rewrite (nth_error_nth' l (0, 0)%Z) by lia. reflexivity.
  - intros i j Hij Hj. apply I. lia.
  - split; unfold glEntry; cbn [glp glw]; rewrite E.
    + intros j Hj. pose proof (A j Hj). lra.
    + intros k Hk. apply M. lia.
Qed.
Definition order_of (N : Z) : nat := Z.to_nat (if N <=? 20 then N else if N <=? 25 then 25 else if N <=? 32 then 32 else 40)%Z.
Lemma nextRule_ok N : (1 <= N <= 40)%Z -> nextRule 41 N = Ok (Z.of_nat (order_of N)) /\ In (order_of N) orders /\ (N <= Z.of_nat (order_of N))%Z.
Proof.
  intros H. assert (C : (N=1\/N=2\/N=3\/N=4\/N=5\/N=6\/N=7\/N=8\/N=9\/N=10\/N=11\/N=12\/N=13\/N=14\/N=15\/N=16\/N=17\/N=18\/N=19\/N=20\/
    N=21\/N=22\/N=23\/N=24\/N=25\/N=26\/N=27\/N=28\/N=29\/N=30\/N=31\/N=32\/N=33\/N=34\/N=35\/N=36\/N=37\/N=38\/N=39\/N=40)%Z) by lia.
  repeat (destruct C as [->|C] || destruct C as [->|C] || subst N); (split; [lazy; reflexivity|split; [unfold orders; cbn; tauto|lazy; congruence]]).
Qed.
Lemma RI_affine' (f g : R -> R) u v q : u <> v -> (forall t, 0 <= t <= 1 -> f (u + t * (v - u)) = g t) -> is_RInt g 0 1 q -> is_RInt f u v ((v - u) * q).
Proof.
  intros Huv E H. apply (RI_ext (fun y => (v - u) * (1 / (v - u) * g (1 / (v - u) * y + - u / (v - u))))).
  - intros y Hy. rewrite <- E.
    + replace (u + (1 / (v - u) * y + - u / (v - u)) * (v - u)) with y by (field; lra). field. lra.
    + replace (1 / (v - u) * y + - u / (v - u)) with ((y - u) / (v - u)) by (field; lra). destruct (Rlt_dec u v) as [L|L].
      * rewrite Rmin_left, Rmax_right in Hy by lra. split; [apply Rdiv_le_0_compat; lra|]. apply Rmult_le_reg_r with (v - u); [lra|]. unfold Rdiv. rewrite Rmult_assoc, Rinv_l by lra. lra.
      * rewrite Rmin_right, Rmax_left in Hy by lra. replace ((y - u) / (v - u)) with ((u - y) / (u - v)) by (field; lra). split; [apply Rdiv_le_0_compat; lra|]. apply Rmult_le_reg_r with (u - v); [lra|]. unfold Rdiv. rewrite Rmult_assoc, Rinv_l by lra. lra.
  - apply RI_scal. pose proof (is_RInt_comp_lin g (1 / (v - u)) (- u / (v - u)) u v q) as C.
    replace (1 / (v - u) * u + - u / (v - u)) with 0 in C by (field; lra). replace (1 / (v - u) * v + - u / (v - u)) with 1 in C by (field; lra). exact (C H).
Qed.
Lemma between x1 x2 p : x1 <> x2 -> 0 < p < 1 -> Rmin x1 x2 < x2 * p + x1 * (1 - p) < Rmax x1 x2.
Proof. intros H P. destruct (Rlt_dec x1 x2); [rewrite Rmin_left, Rmax_right by lra|rewrite Rmin_right, Rmax_left by lra]; nra. Qed.
(** the value of the quadrature sum *)
Lemma integrateGL_sum fnc f x1 x2 N : (1 <= N <= 40)%Z -> x1 <> x2 -> (forall x, Rmin x1 x2 < x < Rmax x1 x2 -> fnc x = Ok (f x)) ->
  let n := Z.of_nat (order_of N) in
  integrateGL fnc x1 x2 N = Ok (zsum 0 n (fun j => glw glTab n j * f (x1 + glp glTab n j * (x2 - x1))) * (x2 - x1)).
Proof.
  intros HN Hx Hf n. destruct (nextRule_ok N HN) as (E & I & _). destruct (rule_facts (order_of N) I) as (G & _ & _). fold n in G, E. unfold integrateGL. unfold MAX_GL_ORDER.
  rewrite (proj2 (Z.ltb_ge N 1)), (proj2 (Z.ltb_ge 40 N)) by lia. cbn [orb]. rewrite (Req_b_f _ _ Hx). rewrite E. cbn [bind].
  rewrite (for_sum 0 n _ (fun j => glw glTab n j * f (x1 + glp glTab n j * (x2 - x1)))).
  - cbn [bind]. rewrite Rplus_0_l. reflexivity.
  - unfold n. lia.
  - intros k r Hk. destruct (G k Hk) as (-> & P & _). cbn [bind fst snd]. rewrite Hf by (apply between; assumption). cbn [bind].
    replace (x2 * glp glTab n k + x1 * (1 - glp glTab n k)) with (x1 + glp glTab n k * (x2 - x1)) by ring. reflexivity.
Qed.
Lemma eps_pos : 0 < eps_gl. Proof. unfold eps_gl. apply Rdiv_lt_0_compat; [lra|apply pow_lt; lra]. Qed.
Lemma integrateGL_poly fnc f x1 x2 N K c : (1 <= N <= 40)%Z -> (forall x, Rmin x1 x2 < x < Rmax x1 x2 -> fnc x = Ok (f x)) ->
  (Z.of_nat K <= 2 * N - 1)%Z -> (forall t, 0 <= t <= 1 -> f (x1 + t * (x2 - x1)) = poly K c t) ->
  exists r I, integrateGL fnc x1 x2 N = Ok r /\ is_RInt f x1 x2 I /\ Rabs (r - I) <= eps_gl * (Rabs (x2 - x1) * sum_f_R0 (fun k => Rabs (c k)) K).
Proof.
  intros HN Hf HK Hc. destruct (Req_EM_T x1 x2) as [<-|Hx].
  - exists 0, 0. unfold integrateGL, MAX_GL_ORDER. rewrite (proj2 (Z.ltb_ge N 1)), (proj2 (Z.ltb_ge 40 N)) by lia. cbn [orb]. rewrite (Req_b_t _ _ eq_refl). split; [reflexivity|].
    split; [apply RI_point|]. rewrite Rminus_eq_0, Rminus_eq_0, Rabs_R0. lra.
  - pose proof (integrateGL_sum fnc f x1 x2 N HN Hx Hf) as E. cbv zeta in E. set (n := Z.of_nat (order_of N)) in *. destruct (nextRule_ok N HN) as (_ & I & L). destruct (rule_facts (order_of N) I) as (G & _ & W). fold n in G, W, L.
    exists ((x2 - x1) * zsum 0 n (fun j => glw glTab n j * poly K c (glp glTab n j))), ((x2 - x1) * sum_f_R0 (fun k => c k / INR (k + 1)) K). split; [|split].
    + rewrite E. f_equal. rewrite Rmult_comm. f_equal. apply zsum_ext. intros j Hj. destruct (G j Hj) as (_ & P & _). rewrite Hc by lra. reflexivity.
    + apply (RI_affine' f (poly K c)); [exact Hx|exact Hc|apply RI_poly01].
    + rewrite <- Rmult_minus_distr_l, Rabs_mult. rewrite <- (Rmult_assoc eps_gl), (Rmult_comm eps_gl), Rmult_assoc. apply Rmult_le_compat_l; [apply Rabs_pos|]. apply gl_seg; [lia|exact W|lia].
Qed.
Lemma wt_sum n : In n orders -> Rabs (zsum 0 (Z.of_nat n) (glw glTab (Z.of_nat n)) - 1) <= eps_gl.
Proof.
  intros I. destruct (rule_facts n I) as (_ & _ & [_ W]). assert (n <> 0%nat) by (intros ->; unfold orders in I; cbn in I; intuition discriminate).
  specialize (W 0%nat ltac:(lia)). cbn [pow INR Nat.add] in W.
  replace (zsum 0 (Z.of_nat n) (glw glTab (Z.of_nat n))) with (zsum 0 (Z.of_nat n) (fun j => glw glTab (Z.of_nat n) j * 1)) by (apply zsum_ext; intros; ring). replace (1 / 1) with 1 in W by field. exact W.
Qed.
(** the order relation is preserved, and the result is bounded *)
Lemma integrateGL_mono fnc f fnc' g x1 x2 N : (1 <= N <= 40)%Z -> x1 <= x2 -> (forall x, x1 < x < x2 -> fnc x = Ok (f x) /\ fnc' x = Ok (g x) /\ f x <= g x) ->
  exists r s, integrateGL fnc x1 x2 N = Ok r /\ integrateGL fnc' x1 x2 N = Ok s /\ r <= s.
Proof.
  intros HN Hx H. destruct (Req_EM_T x1 x2) as [<-|Ne].
  - exists 0, 0. unfold integrateGL, MAX_GL_ORDER. rewrite (proj2 (Z.ltb_ge N 1)), (proj2 (Z.ltb_ge 40 N)) by lia. cbn [orb]. rewrite (Req_b_t _ _ eq_refl). repeat split; try reflexivity. lra.
  - rewrite (integrateGL_sum fnc f), (integrateGL_sum fnc' g) by (assumption || (intros x; rewrite Rmin_left, Rmax_right by lra; intros Q; destruct (H x Q) as (? & ? & ?); assumption)). cbv zeta.
    eexists. eexists. split; [reflexivity|]. split; [reflexivity|]. destruct (nextRule_ok N HN) as (_ & I & _). destruct (rule_facts _ I) as (G & _).
    apply Rmult_le_compat_r; [lra|]. apply zsum_le. intros k Hk. destruct (G k Hk) as (_ & P & W). apply Rmult_le_compat_l; [lra|]. apply H. nra.
Qed.
Lemma integrateGL_bound fnc f M x1 x2 N : (1 <= N <= 40)%Z -> (forall x, Rmin x1 x2 < x < Rmax x1 x2 -> fnc x = Ok (f x) /\ Rabs (f x) <= M) ->
  exists r, integrateGL fnc x1 x2 N = Ok r /\ Rabs r <= (1 + eps_gl) * Rabs M * Rabs (x2 - x1).
Proof.
  intros HN H. destruct (Req_EM_T x1 x2) as [<-|Ne].
  - exists 0. unfold integrateGL, MAX_GL_ORDER. rewrite (proj2 (Z.ltb_ge N 1)), (proj2 (Z.ltb_ge 40 N)) by lia. cbn [orb]. rewrite (Req_b_t _ _ eq_refl). split; [reflexivity|]. rewrite Rminus_eq_0, Rabs_R0. lra.
  - rewrite (integrateGL_sum fnc f) by (assumption || (intros; apply H; assumption)). cbv zeta. eexists. split; [reflexivity|]. destruct (nextRule_ok N HN) as (_ & I & _). destruct (rule_facts _ I) as (G & _). pose proof (wt_sum _ I) as WS.
    set (n := Z.of_nat (order_of N)) in *. rewrite Rabs_mult. apply Rmult_le_compat_r; [apply Rabs_pos|]. eapply Rle_trans; [apply zsum_abs|].
    apply Rle_trans with (zsum 0 n (fun j => Rabs M * glw glTab n j)).
    + apply zsum_le. intros k Hk. destruct (G k Hk) as (_ & P & W). rewrite Rabs_mult, (Rabs_pos_eq (glw glTab n k)), Rmult_comm by lra. apply Rmult_le_compat_r; [lra|]. eapply Rle_trans; [|apply Rle_abs].
      apply H. replace (x1 + glp glTab n k * (x2 - x1)) with (x2 * glp glTab n k + x1 * (1 - glp glTab n k)) by ring. apply between; assumption.
    + rewrite zsum_scal, Rmult_comm. apply Rmult_le_compat_r; [apply Rabs_pos|]. apply Rabs_le_between in WS. lra.
Qed.
(** several functions at once *)
Lemma integrateGLmany_ok M fnc x1 x2 N result : (1 <= N <= 40)%Z -> (forall x, alen (fnc x) = M) -> alen result = M ->
  exists r, integrateGLmany M fnc x1 x2 N result = Ok r /\ alen r = M /\
    forall k, (0 <= k < M)%Z -> integrateGL (fun x => Ok (afn (fnc x) k)) x1 x2 N = Ok (afn r k).
Proof.
  intros HN HM Hr. unfold integrateGLmany. unfold MAX_GL_ORDER. rewrite (proj2 (Z.ltb_ge N 1)), (proj2 (Z.ltb_ge 40 N)) by lia. cbn [orb].
  assert (HMp : (0 <= M)%Z \/ (M < 0)%Z) by lia.
  assert (Z0 : exists r0, for_ 0%Z M (fun k result => aset result k 0) result = Ok r0 /\ alen r0 = M /\ forall k, (0 <= k < M)%Z -> afn r0 k = 0).
  { destruct HMp as [Mp|Mp]; [|exists result; rewrite for_empty by lia; split; [reflexivity|]; split; [exact Hr|intros; lia]].
    destruct (for_total (fun i r => alen r = M /\ forall k, (0 <= k < i)%Z -> afn r k = 0) 0%Z M (fun k result => aset result k 0) result Mp) as (r0 & E & L & V).
    - split; [exact Hr|intros; lia].
    - intros i s Hi (L & V). rewrite aset_ok by lia. eexists. split; [reflexivity|]. cbn [alen afn]. split; [exact L|]. intros k Hk. unfold upd. destruct (Z.eqb_spec k i); [reflexivity|apply V; lia].
    - exists r0. auto. }
  destruct Z0 as (r0 & E0 & L0 & V0). rewrite E0. cbn [bind]. destruct (Req_EM_T x1 x2) as [<-|Ne].
  - rewrite (Req_b_t _ _ eq_refl). exists r0. split; [reflexivity|]. split; [exact L0|]. intros k Hk. unfold integrateGL, MAX_GL_ORDER. rewrite (proj2 (Z.ltb_ge N 1)), (proj2 (Z.ltb_ge 40 N)) by lia. cbn [orb]. rewrite (Req_b_t _ _ eq_refl), V0 by exact Hk. reflexivity.
  - rewrite (Req_b_f _ _ Ne). destruct (nextRule_ok N HN) as (E & I & _). rewrite E. cbn [bind]. destruct (rule_facts _ I) as (G & _). set (n := Z.of_nat (order_of N)) in *.
    set (g := fun k j => glw glTab n j * (x2 - x1) * afn (fnc (x1 + glp glTab n j * (x2 - x1))) k).
    destruct (for_total (fun i r => alen r = M /\ forall k, (0 <= k < M)%Z -> afn r k = zsum 0 i (g k)) 0%Z n (fun i result =>
      pw <- glAt n i ;; for_ 0%Z M (fun k result => v <- aget (fnc (x2 * fst pw + x1 * (1 - fst pw))) k ;; r <- aget result k ;; aset result k (r + snd pw * (x2 - x1) * v)) result) r0) as (r & Er & Lr & Vr).
    + unfold n. lia.
    + split; [exact L0|]. intros k Hk. rewrite zsum_nil by lia. apply V0. exact Hk.
    + intros i s Hi (L & V). destruct (G i Hi) as (-> & P & W). cbn [bind fst snd]. destruct HMp as [Mp|Mp]; [|exists s; rewrite for_empty by lia; split; [reflexivity|]; split; [exact L|intros; lia]].
      destruct (for_total (fun m r => alen r = M /\ forall k, (0 <= k < M)%Z -> afn r k = zsum 0 i (g k) + if (k <? m)%Z then g k i else 0) 0%Z M
        (fun k result => v <- aget (fnc (x2 * glp glTab n i + x1 * (1 - glp glTab n i))) k ;; r <- aget result k ;; aset result k (r + glw glTab n i * (x2 - x1) * v)) s Mp) as (s' & E' & L' & V').
      * split; [exact L|]. intros k Hk. rewrite V by exact Hk. rewrite (proj2 (Z.ltb_ge k 0)) by lia. ring.
      * intros m q Hm (Lq & Vq). rewrite !aget_ok by (rewrite ?HM; lia). cbn [bind]. rewrite aset_ok by lia. eexists. split; [reflexivity|]. cbn [alen afn]. split; [exact Lq|]. intros k Hk. unfold upd. destruct (Z.eqb_spec k m) as [->|Nk].
        -- rewrite (Vq m Hk). rewrite (proj2 (Z.ltb_ge m m)), (proj2 (Z.ltb_lt m (m + 1))) by lia. unfold g. replace (x2 * glp glTab n i + x1 * (1 - glp glTab n i)) with (x1 + glp glTab n i * (x2 - x1)) by ring. ring.
        -- rewrite (Vq k Hk). replace (k <? m + 1)%Z with (k <? m)%Z; [reflexivity|]. destruct (Z.ltb_spec k m), (Z.ltb_spec k (m + 1)); lia.
      * exists s'. split; [exact E'|]. split; [exact L'|]. intros k Hk. rewrite (V' k Hk), (proj2 (Z.ltb_lt k M)) by lia. rewrite zsum_last by lia. reflexivity.
    + exists r. split; [exact Er|]. split; [exact Lr|]. intros k Hk. rewrite (integrateGL_sum _ (fun x => afn (fnc x) k)) by (assumption || reflexivity). f_equal. cbv zeta. fold n. rewrite (Vr k Hk), Rmult_comm, <- zsum_scal. apply zsum_ext. intros j Hj. unfold g. ring.
Qed.
