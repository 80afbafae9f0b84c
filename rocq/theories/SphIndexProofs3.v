From Coq Require Import ZArith Reals Lra Lia Psatz Bool List FinFun.
From Verif Require Import Base Arr FloatBase PotModel SphIndexModel SphIndexSpec SphIndexProofs SphIndexProofs2.
Import ListNotations.
Local Open Scope Z_scope.

Lemma tri_index lmax mmax l m : in_triangle lmax mmax l m -> 0 <= sh_index l m < (lmax + 1) * (lmax + 1).
Proof. intros ((A & B) & _). unfold sh_index. assert ((l + 1) * (l + 1) <= (lmax + 1) * (lmax + 1)) by (apply Z.mul_le_mono_nonneg; lia). nia. Qed.
Lemma fold_set n (f : Z * Z -> Z) L : forall a, alen a = n -> (forall x, In x L -> 0 <= f x < n) -> exists a', fold_left (fun r lm => a <- r ;; aset a (f lm) true) L (Ok a) = Ok a' /\ alen a' = n /\
  forall c, afn a' c = true <-> afn a c = true \/ exists x, In x L /\ f x = c.
Proof.
  induction L as [|x L IH]; intros a La H; cbn [fold_left].
  - exists a. split; [reflexivity|]. split; [exact La|]. intros c. split; [tauto|]. intros [?|(x & [] & _)]; assumption.
  - cbn [bind]. rewrite aset_ok by (rewrite La; apply H; left; reflexivity). destruct (IH (mkArr (alen a) (upd (afn a) (f x) true))) as (a' & E & L' & P); [exact La|intros; apply H; right; assumption|]. exists a'. split; [exact E|]. split; [exact L'|].
    intros c. rewrite P. cbn [afn]. destruct (Z.eq_dec c (f x)) as [->|N].
    + rewrite upd_same. split; [intros _; right; exists x; split; [left; reflexivity|reflexivity]|auto].
    + rewrite upd_other by exact N. split; [intros [?|(y & I & E')]; [auto|right; exists y; split; [right; exact I|exact E']]|]. intros [?|(y & [->|I] & E')]; [auto|congruence|right; exists y; auto].
Qed.
Lemma nonzeroTerms_spec lmax mmax sym i : SphHarmIndices lmax mmax sym = Ok i -> exists a, nonzeroTerms i = Ok a /\ alen a = (lmax + 1) * (lmax + 1) /\ forall c, afn a c = true <-> exists l m, In (l, m) (visited i) /\ sh_index l m = c.
Proof.
  intros E. unfold nonzeroTerms. assert (SZ : shi_size i = (lmax + 1) * (lmax + 1)). { destruct (ctor lmax mmax sym) as [(_ & T)|(_ & i' & E' & L & _)]; [congruence|]. rewrite E in E'. injection E' as <-. unfold shi_size. rewrite L. reflexivity. }
  destruct (fold_set (shi_size i) (fun lm => sh_index (fst lm) (snd lm)) (visited i) (anew (shi_size i) false)) as (a & F & L & P).
  - reflexivity.
  - intros [l m] I. cbn [fst snd]. rewrite SZ. apply (tri_index lmax mmax). apply (visited4 lmax mmax sym i E) in I. tauto.
  - exists a. split; [exact F|]. split; [rewrite <- SZ; exact L|]. intros c. rewrite P. cbn [afn anew]. split; [intros [?|([l m] & I & Q)]; [discriminate|exists l, m; auto]|]. intros (l & m & I & Q). right. exists (l, m). auto.
Qed.

(** term c of the input is kept / a term is entirely zero *)
Definition kept (i : shi) (c : Z) : Prop := In (index_l c, index_m c) (visited i).
Lemma kept_dec i c : {kept i c} + {~ kept i c}.
Proof. apply in_dec. decide equality; apply Z.eq_dec. Qed.
Lemma visited_triangle lmax mmax sym i l m : SphHarmIndices lmax mmax sym = Ok i -> In (l, m) (visited i) -> in_triangle lmax mmax l m.
Proof. intros E I. apply (visited4 lmax mmax sym i E) in I. tauto. Qed.
Lemma get_app {A} (u : list A) x : get (u ++ [x]) (zlen u) = Ok x.
Proof. unfold get, zlen. rewrite (proj2 (Z.ltb_ge _ _)) by lia. rewrite Nat2Z.id, nth_error_app2, Nat.sub_diag by lia. reflexivity. Qed.
Lemma get_app1 {A} (u : list A) x k : k < zlen u -> get (u ++ [x]) k = get u k.
Proof. unfold get, zlen. intros H. destruct (Z.ltb_spec k 0); [reflexivity|]. rewrite nth_error_app1 by lia. reflexivity. Qed.
Lemma get_firstn {A} (u : list A) n k : k < Z.of_nat n -> get (firstn n u) k = get u k.
Proof. unfold get. intros H. destruct (Z.ltb_spec k 0); [reflexivity|]. replace (nth_error (firstn n u) (Z.to_nat k)) with (nth_error u (Z.to_nat k)); [reflexivity|]. assert (Z.to_nat k < n)%nat as L by lia. revert L. generalize (Z.to_nat k). clear. revert n. induction u as [|a u IH]; intros [|n] [|j] L; cbn; try reflexivity; try lia. apply IH. lia. Qed.
Lemma zlen_app {A} (u v : list A) : zlen (u ++ v) = zlen u + zlen v.
Proof. unfold zlen. rewrite app_length. lia. Qed.
Lemma restrict_ok lmax mmax sym i coefs ls : SphHarmIndices lmax mmax sym = Ok i -> (lmax + 1) * (lmax + 1) <= 2 ^ 32 -> 0 <= ls -> zlen coefs = (ls + 1) * (ls + 1) -> (ls + 1) * (ls + 1) <= 2 ^ 32 ->
  exists out lact, restrictSphHarmCoefs lmax mmax sym coefs = Ok out /\ 0 <= lact <= Z.min ls lmax /\ zlen out = (lact + 1) * (lact + 1) /\
  (forall c t, get coefs c = Ok t -> c < zlen out -> get out c = Ok (if kept_dec i c then t else zero_out t)) /\
  (forall c t, get coefs c = Ok t -> kept i c -> term_zero t = false -> index_l c <= lact) /\
  (lact = 0 \/ exists c t, get coefs c = Ok t /\ kept i c /\ term_zero t = false /\ index_l c = lact).
Proof.
  intros E HB Hls HZ HS. unfold restrictSphHarmCoefs. rewrite E. cbn [bind]. destruct (nonzeroTerms_spec lmax mmax sym i E) as (nz & EN & LN & PN). rewrite EN. cbn [bind].
  assert (GC : forall c, 0 <= c < zlen coefs -> Z.abs (index_m c) <= index_l c <= ls /\ sh_index (index_l c) (index_m c) = c).
  { intros c R. destruct (encode c) as (P & Q & S); [lia|]. split; [|exact S]. split; [exact Q|]. unfold sh_index in S. destruct (Z_le_gt_dec (index_l c) ls); [assumption|]. exfalso. assert ((ls + 1) * (ls + 2) <= index_l c * (index_l c + 1)) by (apply Z.mul_le_mono_nonneg; lia). nia. }
  match goal with |- context [for_ 0 (zlen coefs) ?b ?s] => destruct (for_total (fun k (st : list term * Z) => let '(out, lact) := st in zlen out = k /\ 0 <= lact /\
    (forall c t, c < k -> get coefs c = Ok t -> get out c = Ok (if kept_dec i c then t else zero_out t)) /\
    (forall c t, c < k -> get coefs c = Ok t -> kept i c -> term_zero t = false -> index_l c <= lact) /\
    (lact = 0 \/ exists c t, get coefs c = Ok t /\ kept i c /\ term_zero t = false /\ index_l c = lact)) 0 (zlen coefs) b s) as ((out & lact) & EF & LO & L0 & GO & MX & WT) end.
  - unfold zlen; lia.
  - split; [reflexivity|]. split; [lia|]. split; [|split; [|auto]]; intros c t R G; apply get_Ok_inv in G; lia.
  - intros c [out lact] Hc (LO & L0 & GO & MX & WT). destruct (get_ok coefs c Hc) as (t & G & _). rewrite G. cbn [bind]. destruct (GC c Hc) as (GL & GI).
    set (drop := negb (if kept_dec i c then true else false)).
    assert (ED : (if (lmax <? index_l c) || (mmax <? Z.abs (index_m c)) then Ok true else b <- aget nz c ;; Ok (negb b)) = Ok drop).
    { unfold drop. destruct (kept_dec i c) as [K|K]; cbn [negb].
      - pose proof (visited_triangle lmax mmax sym i _ _ E K) as ((T1 & T2) & T3). rewrite (proj2 (Z.ltb_ge _ _)), (proj2 (Z.ltb_ge _ _)) by lia. cbn [orb]. rewrite aget_ok by (rewrite LN; rewrite <- GI; apply (tri_index lmax mmax); split; [lia|exact T3]). cbn [bind].
        assert (V : afn nz c = true) by (apply PN; exists (index_l c), (index_m c); split; [exact K|exact GI]). rewrite V. reflexivity.
      - destruct ((lmax <? index_l c) || (mmax <? Z.abs (index_m c))) eqn:Q; [reflexivity|]. apply orb_false_iff in Q. destruct Q as (Q1 & Q2). apply Z.ltb_ge in Q1, Q2. rewrite aget_ok by (rewrite LN; rewrite <- GI; apply (tri_index lmax mmax); split; lia). cbn [bind].
        destruct (afn nz c) eqn:V; [|reflexivity]. exfalso. apply K. apply PN in V. destruct V as (l & m & I & X). pose proof (visited_triangle lmax mmax sym i _ _ E I) as ((T1 & T2) & T3). destruct (decode l m) as (D1 & D2); [lia| |unfold kept; rewrite <- X, D1, D2; exact I]. assert ((l + 1) * (l + 1) <= (lmax + 1) * (lmax + 1)) by (apply Z.mul_le_mono_nonneg; lia). lia. }
    eexists. split; [rewrite ED; cbn [bind]; reflexivity|]. cbv beta iota zeta. split; [rewrite zlen_app, LO; reflexivity|]. split; [destruct (if drop then true else term_zero t); lia|]. split; [|split].
    + intros c' t' R G'. destruct (Z.eq_dec c' c) as [->|N].
      * rewrite <- LO at 1. rewrite get_app. assert (t' = t) by congruence. subst t'. unfold drop. destruct (kept_dec i c); reflexivity.
      * rewrite get_app1 by lia. apply GO; [lia|exact G'].
    + intros c' t' R G' K' Z'. destruct (Z.eq_dec c' c) as [->|N].
      * assert (t' = t) by congruence. subst t'. unfold drop. destruct (kept_dec i c); [|contradiction]. cbn [negb]. rewrite Z'. lia.
      * pose proof (MX c' t' ltac:(lia) G' K' Z'). destruct (if drop then true else term_zero t); lia.
    + unfold drop. destruct (kept_dec i c) as [K|K]; cbn [negb]; [|exact WT]. destruct (term_zero t) eqn:TZ; [exact WT|]. destruct (Z_le_gt_dec (index_l c) lact); [rewrite Z.max_l by lia; exact WT|]. rewrite Z.max_r by lia. right. exists c, t. auto.
  - rewrite EF. cbn [bind]. assert (HL : lact <= Z.min ls lmax).
    { destruct (ctor lmax mmax sym) as [(_ & T)|(NR & _)]; [congruence|]. unfold refused in NR. destruct WT as [->|(c & t & G & K & _ & <-)]; [lia|]. apply get_Ok_inv in G. destruct (GC c ltac:(tauto)) as (A & _). pose proof (visited_triangle lmax mmax sym i _ _ E K) as ((T1 & T2) & T3). lia. }
    assert (SQ : (lact + 1) * (lact + 1) <= (ls + 1) * (ls + 1)) by (apply Z.mul_le_mono_nonneg; lia).
    eexists. exists lact. split; [reflexivity|]. split; [lia|].
    assert (LEN : zlen (if (lact + 1) * (lact + 1) <? zlen out then firstn (Z.to_nat ((lact + 1) * (lact + 1))) out else out) = (lact + 1) * (lact + 1)).
    { destruct (Z.ltb_spec ((lact + 1) * (lact + 1)) (zlen out)) as [Q|Q]; [|lia]. unfold zlen in *. rewrite firstn_length. lia. }
    split; [exact LEN|]. rewrite LEN. split; [|split; [|exact WT]].
    + intros c t G R. assert (c < zlen coefs) by lia. destruct (Z.ltb_spec ((lact + 1) * (lact + 1)) (zlen out)) as [Q|Q]; [rewrite get_firstn by lia|]; apply GO; assumption.
    + intros c t G K T. apply (MX c t); auto. apply get_Ok_inv in G. lia.
Qed.
