(** The slope limiter: monotone data produce a monotone interpolant (C49). *)
From Coquelicot Require Import Coquelicot.
From Verif Require Import Arr BinSearchModel SplineModel SplineSpec SplineBand SplineCons SplineGlue SplineProofs.
Local Open Scope R_scope.

Definition nondecreasing (a : arr R) : Prop := forall i, (0 <= i < alen a - 1)%Z -> afn a i <= afn a (i + 1)%Z.
Definition nonincreasing (a : arr R) : Prop := forall i, (0 <= i < alen a - 1)%Z -> afn a (i + 1)%Z <= afn a i.

Lemma mono_of_derive F F1 : (forall t, is_derive F t (F1 t)) -> (forall t, 0 <= F1 t) -> forall a b, a <= b -> F a <= F b.
Proof.
  intros D P a b L. destruct (MVT_gen F a b F1) as (c & _ & E).
  - intros u _. apply D.
  - intros u _. apply derivable_continuous_pt. apply ex_derive_Reals_0. exists (F1 u). apply D.
  - specialize (P c). assert (0 <= F1 c * (b - a)) by (apply Rmult_le_pos; lra). lra.
Qed.

(** slope of a Hermite segment with end slopes not exceeding three times the secant *)
Lemma hermite_slope t xl xh fl fh dl dh : xl < xh -> xl <= t <= xh -> let sec := (fh - fl) / (xh - xl) in
  0 <= dl <= 3 * sec -> 0 <= dh <= 3 * sec -> 0 <= v_d (evalCubic t xl xh fl fh dl dh).
Proof.
  intros L Ht sec Hl Hh. unfold evalCubic. cbn [v_d]. set (u := (t - xl) / (xh - xl)).
  assert (U : 0 <= u <= 1). { unfold u. split; [apply Rdiv_le_0_compat; lra|]. apply (Rdiv_le_1 (t - xl) (xh - xl)); lra. }
  replace (6 * (1 / (xh - xl)) * (fh - fl)) with (6 * sec) by (unfold sec; field; lra).
  assert (S : 0 <= sec) by lra. destruct (Req_dec sec 0) as [Z|Z].
  { assert (dl = 0) by lra. assert (dh = 0) by lra. subst. rewrite Z. nra. }
  set (a := dl / (3 * sec)). set (b := dh / (3 * sec)).
  assert (Ea : dl = 3 * sec * a) by (unfold a; field; lra). assert (Eb : dh = 3 * sec * b) by (unfold b; field; lra).
  assert (Ha : 0 <= a <= 1) by (unfold a; split; [apply Rdiv_le_0_compat; lra|apply (Rdiv_le_1 dl (3 * sec)); lra]).
  assert (Hb : 0 <= b <= 1) by (unfold b; split; [apply Rdiv_le_0_compat; lra|apply (Rdiv_le_1 dh (3 * sec)); lra]).
  rewrite Ea, Eb.
  replace (3 * sec * a * (1 - u) + 3 * sec * b * u - (3 * (3 * sec * a + 3 * sec * b) - 6 * sec) * (u * (1 - u)))
    with (sec * ((1 - a) * (1 - b) * (6 * (u * (1 - u))) + a * (1 - b) * (3 * (1 - u) ^ 2) + (1 - a) * b * (3 * u ^ 2) + a * b * (3 * (1 - 2 * u) ^ 2))) by ring.
  pose proof (pow2_ge_0 (1 - u)). pose proof (pow2_ge_0 u). pose proof (pow2_ge_0 (1 - 2 * u)).
  set (p1 := (1 - u) ^ 2) in *. set (p2 := u ^ 2) in *. set (p3 := (1 - 2 * u) ^ 2) in *. clearbody p1 p2 p3 a b u.
  apply Rmult_le_pos; [exact S|]. repeat apply Rplus_le_le_0_compat; repeat apply Rmult_le_pos; try lra.
Qed.
Lemma hermite_slope_strict t xl xh fl fh dl dh : xl < xh -> xl < t < xh -> let sec := (fh - fl) / (xh - xl) in
  0 <= dl < 3 * sec -> 0 <= dh < 3 * sec -> 0 < v_d (evalCubic t xl xh fl fh dl dh).
Proof.
  intros L Ht sec Hl Hh. unfold evalCubic. cbn [v_d]. set (u := (t - xl) / (xh - xl)).
  assert (U : 0 < u < 1). { unfold u. split; [apply Rdiv_lt_0_compat; lra|]. apply (Rdiv_lt_1 (t - xl) (xh - xl)); lra. }
  replace (6 * (1 / (xh - xl)) * (fh - fl)) with (6 * sec) by (unfold sec; field; lra).
  set (a := dl / (3 * sec)). set (b := dh / (3 * sec)).
  assert (Ea : dl = 3 * sec * a) by (unfold a; field; lra). assert (Eb : dh = 3 * sec * b) by (unfold b; field; lra).
  assert (Ha : 0 <= a < 1) by (unfold a; split; [apply Rdiv_le_0_compat; lra|apply (Rdiv_lt_1 dl (3 * sec)); lra]).
  assert (Hb : 0 <= b < 1) by (unfold b; split; [apply Rdiv_le_0_compat; lra|apply (Rdiv_lt_1 dh (3 * sec)); lra]).
  rewrite Ea, Eb.
  replace (3 * sec * a * (1 - u) + 3 * sec * b * u - (3 * (3 * sec * a + 3 * sec * b) - 6 * sec) * (u * (1 - u)))
    with (sec * ((1 - a) * (1 - b) * (6 * (u * (1 - u))) + a * (1 - b) * (3 * (1 - u) ^ 2) + (1 - a) * b * (3 * u ^ 2) + a * b * (3 * (1 - 2 * u) ^ 2))) by ring.
  pose proof (pow2_ge_0 (1 - u)). pose proof (pow2_ge_0 u). pose proof (pow2_ge_0 (1 - 2 * u)).
  set (p1 := (1 - u) ^ 2) in *. set (p2 := u ^ 2) in *. set (p3 := (1 - 2 * u) ^ 2) in *. clearbody p1 p2 p3 a b u.
  apply Rmult_lt_0_compat; [lra|]. repeat apply Rplus_lt_le_0_compat; repeat apply Rmult_le_pos; try lra.
  repeat apply Rmult_lt_0_compat; lra.
Qed.

  Lemma THREE_bounds : 0 < THREE < 3.
  Proof. unfold THREE. assert (P : 0 < 10 ^ 15) by (apply pow_lt; lra). assert (Q : 0 < 3 / 10 ^ 15) by (apply Rdiv_lt_0_compat; lra).
    assert (3 / 10 ^ 15 <= 1). { apply (Rdiv_le_1 3 (10 ^ 15)); [exact P|]. apply Rle_trans with (10 ^ 1); [lra|]. apply Rle_pow; [lra|lia]. } lra. Qed.
Section Reg.
  Variables x f : arr R.
  Let n := alen x.
  Hypothesis Hx : increasing x.
  Hypothesis Hn : (2 <= n)%Z.
  Hypothesis Hf : alen f = n.
  Definition sec k := (afn f (k + 1)%Z - afn f k) / (afn x (k + 1)%Z - afn x k).
  Definition regval (i : Z) (d : R) : R :=
    if ((i =? 0) || (i =? alen x - 1))%Z then
      let s := sec (if (i =? 0)%Z then 0%Z else (alen x - 2)%Z) in
      if Rle_dec 0 s then clip d 0 (THREE * s) else clip d (THREE * s) 0
    else Rmin (Rabs d) (THREE * Rmin (Rabs (sec (i - 1))) (Rabs (sec i))) * (if Rle_dec 0 (sec (i - 1) * sec i) then sgn (sec (i - 1)) else sgn d).
  Lemma regularize_ok d : alen d = n -> exists e, regularizeSpline x f d = Ok e /\ alen e = n /\ forall i, (0 <= i < n)%Z -> afn e i = regval i (afn d i).
  Proof.
    intros Hd. unfold regularizeSpline. fold n. rewrite (proj2 (Z.ltb_ge n 2)) by lia.
    destruct (for_total (fun i e => alen e = n /\ forall k, (0 <= k < n)%Z -> afn e k = if (k <? i)%Z then regval k (afn d k) else afn d k)
      0%Z n (regular_row x f) d) as (e & E & L & V); [lia| | |exists e; split; [exact E|]; split; [exact L|]; intros i Hi; rewrite V by exact Hi; rewrite (proj2 (Z.ltb_lt i n)) by lia; reflexivity].
    - split; [exact Hd|]. intros k Hk. rewrite (proj2 (Z.ltb_ge k 0)) by lia. reflexivity.
    - intros i e Hi (L & V). unfold regular_row. fold n.
      assert (K : forall v, v = regval i (afn d i) -> alen (mkArr (alen e) (upd (afn e) i v)) = n /\ forall k, (0 <= k < n)%Z -> afn (mkArr (alen e) (upd (afn e) i v)) k = if (k <? i + 1)%Z then regval k (afn d k) else afn d k).
      { intros v ->. split; [exact L|]. intros k Hk. cbn [afn]. unfold upd. rewrite V by exact Hk. bsplit; subst; try lia; reflexivity. }
      assert (Vi : afn e i = afn d i) by (rewrite V by exact Hi; rewrite Z.ltb_irrefl; reflexivity).
      unfold regval in K. fold n in K. destruct ((i =? 0) || (i =? n - 1))%Z eqn:B.
      + cbv zeta. assert (Kk : (0 <= (if (i =? 0)%Z then i else n - 2) < n - 1)%Z) by (bsplit; lia). rewrite !aget_ok by (fold n; lia). cbn [bind].
        rewrite aset_ok by lia. eexists. split; [reflexivity|]. apply K. cbv zeta. rewrite Vi. unfold sec. destruct (Z.eqb_spec i 0) as [->|]; reflexivity.
      + apply orb_false_iff in B. destruct B as [B1 B2]. apply Z.eqb_neq in B1, B2. rewrite !aget_ok by (fold n; lia). cbn [bind]. rewrite aset_ok by lia. eexists. split; [reflexivity|].
        apply K. rewrite Vi. unfold sec. replace (i - 1 + 1)%Z with i by lia. reflexivity.
  Qed.
  Lemma sec_nonneg k : nondecreasing f -> (0 <= k < n - 1)%Z -> 0 <= sec k.
  Proof. intros M Hk. unfold sec. specialize (M k ltac:(lia)). specialize (Hx k (k + 1)%Z ltac:(lia) ltac:(fold n; lia)). apply Rdiv_le_0_compat; lra. Qed.
  Lemma clip_range d s : 0 <= s -> 0 <= clip d 0 s <= s.
  Proof. intros H. unfold clip. destruct (Rlt_dec s d); [lra|]. destruct (Rlt_dec 0 d); lra. Qed.
  (** slopes after limiting, for nondecreasing values *)
  Lemma reg_up i d : nondecreasing f -> (0 <= i < n)%Z -> 0 <= regval i d /\ ((0 < i)%Z -> regval i d <= THREE * sec (i - 1)) /\ ((i < n - 1)%Z -> regval i d <= THREE * sec i).
  Proof.
    intros M Hi. pose proof THREE_bounds as T3. unfold regval. fold n. destruct ((i =? 0) || (i =? n - 1))%Z eqn:B.
    - cbv zeta. assert (Kk : (0 <= (if (i =? 0)%Z then 0%Z else n - 2) < n - 1)%Z) by (bsplit; lia).
      pose proof (sec_nonneg _ M Kk) as P. destruct (Rle_dec 0 (sec (if (i =? 0)%Z then 0%Z else (n - 2)%Z))); [|lra].
      pose proof (clip_range d (THREE * sec (if (i =? 0)%Z then 0%Z else (n - 2)%Z)) ltac:(nra)) as C. destruct (Z.eqb_spec i 0) as [->|].
      + split; [apply C|]. split; [lia|]. intros _. apply C.
      + cbn [orb] in B. apply Z.eqb_eq in B. subst i. split; [apply C|]. split; [|lia]. intros _. replace (n - 1 - 1)%Z with (n - 2)%Z by lia. apply C.
    - apply orb_false_iff in B. destruct B as [B1 B2]. apply Z.eqb_neq in B1, B2.
      pose proof (sec_nonneg (i - 1) M ltac:(lia)) as P1. pose proof (sec_nonneg i M ltac:(lia)) as P2.
      rewrite (Rabs_pos_eq (sec (i - 1))), (Rabs_pos_eq (sec i)) by assumption.
      destruct (Rle_dec 0 (sec (i - 1) * sec i)) as [_|N]; [|exfalso; apply N; apply Rmult_le_pos; assumption].
      set (m := Rmin (Rabs d) (THREE * Rmin (sec (i - 1)) (sec i))).
      assert (M1 : Rmin (sec (i - 1)) (sec i) <= sec (i - 1)) by apply Rmin_l. assert (M2 : Rmin (sec (i - 1)) (sec i) <= sec i) by apply Rmin_r.
      assert (M0 : 0 <= Rmin (sec (i - 1)) (sec i)) by (apply Rmin_glb; assumption).
      assert (m <= THREE * Rmin (sec (i - 1)) (sec i)) by apply Rmin_r.
      assert (0 <= m) by (apply Rmin_glb; [apply Rabs_pos|nra]).
      unfold sgn. destruct (Rlt_dec 0 (sec (i - 1))); [|destruct (Rlt_dec (sec (i - 1)) 0); [lra|]]; rewrite ?Rmult_1_r, ?Rmult_0_r; repeat split; intros; nra.
  Qed.
End Reg.

Lemma three_sec e s : 0 <= e -> e <= THREE * s -> 0 <= s /\ e <= 3 * s /\ (0 < s -> e < 3 * s).
Proof.
  intros A B. pose proof THREE_bounds as T3. assert (P : 0 <= s).
  { destruct (Rle_lt_dec 0 s) as [|N]; [assumption|]. assert (THREE * s < THREE * 0) by (apply Rmult_lt_compat_l; [exact (proj1 T3)|exact N]). rewrite Rmult_0_r in H. lra. }
  split; [exact P|]. assert (A1 : THREE * s <= 3 * s) by (apply Rmult_le_compat_r; lra). split; [lra|]. intros Q. assert (A2 : THREE * s < 3 * s) by (apply Rmult_lt_compat_r; lra). lra.
Qed.
Section Mono.
  Variables x f e : arr R.
  Let n := alen x.
  Hypothesis Hx : increasing x.
  Hypothesis Hn : (2 <= n)%Z.
  Hypothesis Hf : alen f = n.
  Hypothesis He : alen e = n.
  Hypothesis Hs : forall i, (0 <= i < n)%Z -> 0 <= afn e i /\ ((0 < i)%Z -> afn e i <= THREE * sec x f (i - 1)) /\ ((i < n - 1)%Z -> afn e i <= THREE * sec x f i).
  Lemma slope_nonneg t : 0 <= cF1 x f e t.
  Proof.
    pose proof THREE_bounds as T3. unfold cF1, Fp. destruct (segof_ok x Hx ltac:(fold n; lia) t) as (_ & (A & B & C) & _). set (k := segof x t) in *.
    unfold cpiece. fold n. destruct (Z.ltb_spec k 0); [rewrite extrap_eq; apply (Hs 0%Z); lia|]. rewrite Z.geb_leb. destruct (Z.leb_spec (n - 1) k); [rewrite extrap_eq; apply (Hs (n - 1)%Z); lia|].
    specialize (B ltac:(lia)). specialize (C ltac:(fold n; lia)). pose proof (Hx k (k + 1)%Z ltac:(lia) ltac:(fold n; lia)) as L.
    destruct (Hs k ltac:(lia)) as (P1 & _ & Q1). destruct (Hs (k + 1)%Z ltac:(lia)) as (P2 & Q2 & _). specialize (Q1 ltac:(lia)). specialize (Q2 ltac:(lia)).
    replace (k + 1 - 1)%Z with k in Q2 by lia. destruct (three_sec _ _ P1 Q1) as (A1 & A2 & _). destruct (three_sec _ _ P2 Q2) as (_ & A3 & _). apply hermite_slope; [exact L|lra| |]; fold (sec x f k); lra.
  Qed.
  Lemma slope_pos t k : (forall i, (0 <= i < n - 1)%Z -> 0 < sec x f i) -> (0 <= k < n - 1)%Z -> afn x k < t < afn x (k + 1)%Z -> 0 < cF1 x f e t.
  Proof.
    intros HS Hk Ht. pose proof THREE_bounds as T3. unfold cF1, Fp.
    assert (E : segof x t = k). { apply (sinseg_unique x Hx k (segof x t) t); [|apply (segof_ok x Hx ltac:(fold n; lia) t)]. repeat split; fold n; intros; lia || lra. }
    rewrite E. unfold cpiece. fold n. rewrite Z.geb_leb, (proj2 (Z.ltb_ge k 0)), (proj2 (Z.leb_gt (n - 1) k)) by lia.
    destruct (Hs k ltac:(lia)) as (P1 & _ & Q1). destruct (Hs (k + 1)%Z ltac:(lia)) as (P2 & Q2 & _). specialize (Q1 ltac:(lia)). specialize (Q2 ltac:(lia)).
    replace (k + 1 - 1)%Z with k in Q2 by lia. specialize (HS k Hk). destruct (three_sec _ _ P1 Q1) as (_ & _ & A2). destruct (three_sec _ _ P2 Q2) as (_ & _ & A3). specialize (A2 HS). specialize (A3 HS). apply hermite_slope_strict; [lra|exact Ht| |]; fold (sec x f k); lra.
  Qed.
  Lemma mono_up a b : a <= b -> cF x f e a <= cF x f e b.
  Proof. apply (mono_of_derive (cF x f e) (cF1 x f e)); [intros t; apply cub_deriv; auto; fold n; lia|apply slope_nonneg]. Qed.
  Lemma mono_up_strict a b : (forall i, (0 <= i < n - 1)%Z -> 0 < sec x f i) -> x_first x <= a -> a < b -> b <= x_last x -> cF x f e a < cF x f e b.
  Proof.
    intros HS Ha L Hb. unfold x_first, x_last in *. fold n in Hb.
    destruct (segof_ok x Hx ltac:(fold n; lia) a) as (_ & I & _). destruct (right_seg x Hx _ a I) as (k & d & Pd & (K1 & K2 & K3) & S). fold n in K1, K3.
    pose proof (Rmin_l d (b - a)) as M1. pose proof (Rmin_r d (b - a)) as M2. assert (M0 : 0 < Rmin d (b - a)) by (apply Rmin_pos; lra). set (m := Rmin d (b - a)) in *.
    (* the segment which contains the points immediately to the right of a *)
    assert (Kr : (0 <= k < n - 1)%Z).
    { destruct (S (a + m / 2) ltac:(lra)) as (_ & S2 & S3). fold n in S3. split.
      - destruct (Z_lt_ge_dec k 0) as [Q|]; [|lia]. specialize (S3 ltac:(lia)). replace k with (-1)%Z in S3 by lia. change (-1 + 1)%Z with 0%Z in S3. lra.
      - destruct (Z_lt_ge_dec k (n - 1)) as [|Q]; [assumption|]. specialize (S2 ltac:(lia)). replace k with (n - 1)%Z in S2 by lia. lra. }
    assert (D : forall u, a < u < a + m -> 0 < cF1 x f e u).
    { intros u Hu. destruct (S u ltac:(lra)) as (_ & S2 & S3). fold n in S3. apply (slope_pos u k HS Kr). split; [apply S2; lia|apply S3; lia]. }
    assert (Q : cF x f e a < cF x f e (a + m)).
    { destruct (MVT_gen (cF x f e) a (a + m) (cF1 x f e)) as (c & Hc & E).
      - intros u _. apply cub_deriv; auto; fold n; lia.
      - intros u _. apply derivable_continuous_pt. apply ex_derive_Reals_0. eexists. apply cub_deriv; auto; fold n; lia.
      - rewrite Rmin_left, Rmax_right in Hc by lra.
        assert (0 <= cF1 x f e c * m) by (apply Rmult_le_pos; [apply slope_nonneg|lra]).
        replace (a + m - a) with m in E by ring. destruct (Req_dec (cF x f e (a + m)) (cF x f e a)) as [Eq|Ne]; [|lra]. exfalso.
        (* a constant function has zero derivative in the middle *)
        assert (Cst : forall u, a < u < a + m -> cF x f e u = cF x f e a).
        { intros u Hu. pose proof (mono_up a u ltac:(lra)). pose proof (mono_up u (a + m) ltac:(lra)). lra. }
        assert (Z0 : is_derive (cF x f e) (a + m / 2) 0).
        { apply (is_derive_ext_loc (fun _ => cF x f e a)); [|apply (is_derive_const (cF x f e a))]. exists (mkposreal (m / 2) ltac:(lra)). intros u Hu.
          unfold ball in Hu. cbn in Hu. unfold AbsRing_ball, abs, minus, plus, opp in Hu. cbn in Hu. apply Rabs_def2 in Hu. symmetry. apply Cst. lra. }
        assert (D1 : is_derive (cF x f e) (a + m / 2) (cF1 x f e (a + m / 2))) by (apply cub_deriv; auto; fold n; lia).
        apply is_derive_unique in Z0. apply is_derive_unique in D1. specialize (D (a + m / 2) ltac:(lra)). lra. }
    pose proof (mono_up (a + m) b ltac:(lra)). lra.
  Qed.
End Mono.

(** ---- reflection of the values ---- *)
Definition aneg (a : arr R) : arr R := mkArr (alen a) (fun i => - afn a i).
Lemma sgn_neg t : sgn (- t) = - sgn t.
Proof. unfold sgn. destruct (Rlt_dec 0 (- t)), (Rlt_dec 0 t), (Rlt_dec (- t) 0), (Rlt_dec t 0); lra. Qed.
Lemma sec_neg x f k : sec x (aneg f) k = - sec x f k.
Proof. unfold sec, aneg. cbn [afn]. unfold Rdiv. ring. Qed.
Lemma regval_neg x f i d : regval x (aneg f) i (- d) = - regval x f i d.
Proof.
  pose proof THREE_bounds as T3. unfold regval. rewrite !sec_neg, !Rabs_Ropp, !sgn_neg. destruct ((i =? 0) || (i =? alen x - 1))%Z.
  - cbv zeta. set (s := sec x f _). unfold clip. assert (E : THREE * - s = - (THREE * s)) by ring. rewrite E.
    assert (Q : 0 < s -> 0 < THREE * s) by (intros; apply Rmult_lt_0_compat; lra). assert (Q' : s < 0 -> THREE * s < 0) by (intros; assert (0 < THREE * - s) by (apply Rmult_lt_0_compat; lra); lra).
    assert (Q0 : s = 0 -> THREE * s = 0) by (intros ->; ring).
    destruct (Rle_dec 0 (- s)), (Rle_dec 0 s).
    + assert (s = 0) by lra. specialize (Q0 H). rewrite Q0. repeat destruct (Rlt_dec _ _); lra.
    + assert (N : s < 0) by lra. specialize (Q' N). repeat destruct (Rlt_dec _ _); lra.
    + assert (N : 0 < s) by lra. specialize (Q N). repeat destruct (Rlt_dec _ _); lra.
    + lra.
  - replace (- sec x f (i - 1) * - sec x f i) with (sec x f (i - 1) * sec x f i) by ring. destruct (Rle_dec 0 (sec x f (i - 1) * sec x f i)); ring.
Qed.
Lemma cF_neg x f d t : cF x (aneg f) (aneg d) t = - cF x f d t.
Proof.
  unfold cF, Fp, cpiece. destruct (segof x t <? 0)%Z; [|destruct (segof x t >=? alen x - 1)%Z]; rewrite ?extrap_eq; unfold evalCubic, aneg; cbn [v_f afn]; ring.
Qed.
