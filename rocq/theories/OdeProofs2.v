(** Order conditions of DOP853, for linear systems and for quadratures *)
From Coq Require Import Reals Lra Lia ZArith QArith Qreals List Bool FunctionalExtensionality.
From Coquelicot Require Import Coquelicot.
From Verif Require Import RandReal PolyModel PolyProofs OdeModel OdeProofs OdeSpec.
Import ListNotations.
Local Open Scope R_scope.

Definition SC : Z := (10 ^ 23)%Z.
Definition SR : R := IZR SC.
Lemma SR_pos : 0 < SR. Proof. apply IZR_lt. reflexivity. Qed.
Lemma SR_nz : SR <> 0. Proof. pose proof SR_pos. lra. Qed.

(** the integer q * 10^23 *)
Definition zs (q : Q) : Z := (Qnum q * (SC / QDen q))%Z.
Definition zok (q : Q) : bool := (Qnum q * SC =? zs q * QDen q)%Z.
Lemma zs_ok q : zok q = true -> Q2R q = IZR (zs q) / SR.
Proof.
  intros H. apply Z.eqb_eq in H. unfold Q2R. apply (f_equal IZR) in H. rewrite !mult_IZR in H. fold SR in H.
  assert (0 < IZR (QDen q)) by (apply IZR_lt; reflexivity). pose proof SR_pos. apply Rmult_eq_reg_r with (IZR (QDen q) * SR); [|nra].
  replace (IZR (Qnum q) * / IZR (QDen q) * (IZR (QDen q) * SR)) with (IZR (Qnum q) * SR) by (field; lra). rewrite H. field. lra.
Qed.

(** sums of integer multiples of h^m e_m *)
Fixpoint rep (l : list Z) (e : nat -> vec) (h : R) : vec :=
  match l with [] => fun _ => 0 | n :: l => fun i => IZR n * e O i + h * rep l (fun m => e (S m)) h i end.
Fixpoint zadd (a b : list Z) : list Z := match a, b with [], _ => b | _, [] => a | x :: a, y :: b => (x + y)%Z :: zadd a b end.
Definition zscal (c : Z) (a : list Z) : list Z := map (Z.mul c) a.
Definition zlc (l : list (Z * list Z)) : list Z := fold_right (fun p s => zadd (zscal (fst p) (snd p)) s) [] l.
Lemma rep_add a : forall b e h i, rep (zadd a b) e h i = rep a e h i + rep b e h i.
Proof. induction a as [|x a IH]; intros [|y b] e h i; cbn [zadd rep]; try lra. rewrite IH, plus_IZR. ring. Qed.
Lemma rep_scal c a : forall e h i, rep (zscal c a) e h i = IZR c * rep a e h i.
Proof. induction a as [|x a IH]; intros e h i; cbn [zscal map rep]; [ring|]. fold (zscal c a). rewrite IH, mult_IZR. ring. Qed.

Lemma lc_rep (ks : list (Q * vec)) (zl : list (list Z)) e h i : length ks = length zl -> forallb (fun p => zok (fst p)) ks = true ->
  (forall n, (n < length ks)%nat -> snd (nth n ks (0%Q, zerov)) = rep (nth n zl []) e h) ->
  SR * lc ks i = rep (zlc (combine (map (fun p => zs (fst p)) ks) zl)) e h i.
Proof.
  revert zl. induction ks as [|[q k] ks IH]; intros [|l zl] Hl Hz Hk; try discriminate.
  - unfold lc. simpl. ring.
  - cbn [forallb fst] in Hz. apply andb_prop in Hz. destruct Hz as [Hq Hz]. simpl in Hl.
    assert (K0 := Hk O ltac:(simpl; lia)). cbn [nth snd] in K0.
    assert (IH' := IH zl ltac:(lia) Hz ltac:(intros n Hn; apply (Hk (S n)); simpl; lia)).
    unfold lc in *. cbn [fold_right fst snd map combine zlc] in *. rewrite rep_add, rep_scal.
    change (fold_right (fun p s => zadd (zscal (fst p) (snd p)) s) [] (combine (map (fun p => zs (fst p)) ks) zl)) with (zlc (combine (map (fun p => zs (fst p)) ks) zl)).
    rewrite <- IH', (zs_ok q Hq), K0. field. apply SR_nz.
Qed.

(** one stage: k = rhs(t + c h, x + h * (linear combination)) *)
Section Linear.
Variables (L : vec -> vec) (x : vec) (h : R).
Hypothesis HL : linear_map L.
Let e (m : nat) : vec := power L (S m) x.
Let h' := h / SR.
Lemma L_zero i : L (fun _ => 0) i = 0.
Proof. destruct HL as [_ H]. replace (fun _ : nat => 0) with (fun j : nat => 0 * (fun _ : nat => 0) j) by (apply functional_extensionality; intros; ring). rewrite H. ring. Qed.
Lemma L_rep l : forall f i, L (rep l f h') i = rep l (fun m => L (f m)) h' i.
Proof.
  destruct HL as [H1 H2]. induction l as [|n l IH]; intros f i; cbn [rep]. { apply L_zero. }
  rewrite (H1 (fun i => IZR n * f O i) (fun i => h' * rep l (fun m => f (S m)) h' i)), H2, (H2 h'), IH. reflexivity.
Qed.
Lemma L_stage l k : (forall i, SR * lc l i = rep k e h' i) -> L (fun i => x i + h * lc l i) = rep (1%Z :: k) e h'.
Proof.
  intros H. apply functional_extensionality. intros i. destruct HL as [H1 H2].
  replace (fun i => x i + h * lc l i) with (fun i => x i + (fun j => h' * rep k e h' j) i).
  2:{ apply functional_extensionality. intros j. rewrite <- H. unfold h'. field. apply SR_nz. }
  rewrite H1, H2, L_rep. cbn [rep]. unfold e. simpl. ring.
Qed.
End Linear.

(** the tableau in units of 10^-23 *)
Section Tab.
(* lists of the stages from the previous ones *)
Variable stage : Z -> list (Z * list Z) -> list Z.
Variable l1 : list Z.
Record ztab := mkZtab { z6 : list Z; z7 : list Z; z8 : list Z; z9 : list Z; z10 : list Z; z11 : list Z; z12 : list Z; zb : list Z }.
Definition zcomb (qs : list Q) (ls : list (list Z)) := combine (map zs qs) ls.
Definition ztable : ztab :=
  let l2 := stage (zs c2) (zcomb [a21] [l1]) in
  let l3 := stage (zs c3) (zcomb [a31; a32] [l1; l2]) in
  let l4 := stage (zs c4) (zcomb [a41; a43] [l1; l3]) in
  let l5 := stage (zs c5) (zcomb [a51; a53; a54] [l1; l3; l4]) in
  let l6 := stage (zs c6) (zcomb [a61; a64; a65] [l1; l4; l5]) in
  let l7 := stage (zs c7) (zcomb [a71; a74; a75; a76] [l1; l4; l5; l6]) in
  let l8 := stage (zs c8) (zcomb [a81; a84; a85; a86; a87] [l1; l4; l5; l6; l7]) in
  let l9 := stage (zs c9) (zcomb [a91; a94; a95; a96; a97; a98] [l1; l4; l5; l6; l7; l8]) in
  let l10 := stage (zs c10) (zcomb [a101; a104; a105; a106; a107; a108; a109] [l1; l4; l5; l6; l7; l8; l9]) in
  let l11 := stage (zs c11) (zcomb [a111; a114; a115; a116; a117; a118; a119; a1110] [l1; l4; l5; l6; l7; l8; l9; l10]) in
  let l12 := stage (zs c12) (zcomb [a121; a124; a125; a126; a127; a128; a129; a1210; a1211] [l1; l4; l5; l6; l7; l8; l9; l10; l11]) in
  mkZtab l6 l7 l8 l9 l10 l11 l12 (zlc (zcomb [b1; b6; b7; b8; b9; b10; b11; b12] [l1; l6; l7; l8; l9; l10; l11; l12])).
End Tab.

(** a right-hand side for which each stage is a known sum of h^m e_m *)
Section Stages.
Variables (rhs : R -> vec -> vec) (t0 h : R) (x : vec) (e : nat -> vec) (zstage : Z -> list (Z * list Z) -> list Z) (l1 : list Z).
Let h' := h / SR.
Hypothesis Hstage : forall c l k, zok c = true -> (forall i, SR * lc l i = rep (zlc k) e h' i) ->
  rhs (t0 + Q2R c * h) (fun i => x i + h * lc l i) = rep (zstage (zs c) k) e h'.

Lemma stages_rep : let st := rkStages rhs t0 x (rep l1 e h') h in let tb := ztable zstage l1 in
  s_k1 st = rep l1 e h' /\ s_k6 st = rep (z6 tb) e h' /\ s_k7 st = rep (z7 tb) e h' /\ s_k8 st = rep (z8 tb) e h' /\ s_k9 st = rep (z9 tb) e h' /\
  s_k10 st = rep (z10 tb) e h' /\ s_k11 st = rep (z11 tb) e h' /\ s_k12 st = rep (z12 tb) e h' /\ (forall i, SR * s_b st i = rep (zb tb) e h' i).
Proof.
  cbv zeta. unfold rkStages, ztable.
  Ltac lcr := intros ?i; apply lc_rep; [reflexivity|vm_compute; reflexivity|];
    intros ?n ?Hn; do 9 (try destruct n as [|n]); cbn [nth snd length] in *; try reflexivity; try assumption; exfalso; lia.
  Ltac onestage k H := match goal with |- context [let k := rhs ?t ?y in _] => 
    set (k := rhs t y) end.
  set (k1 := rep l1 e h').
  set (k2 := rhs (t0 + Q2R c2 * h) _). set (l2 := zstage (zs c2) _).
  assert (E2 : k2 = rep l2 e h') by (apply Hstage; [vm_compute; reflexivity|lcr]).
  set (k3 := rhs (t0 + Q2R c3 * h) _). set (l3 := zstage (zs c3) _).
  assert (E3 : k3 = rep l3 e h') by (apply Hstage; [vm_compute; reflexivity|lcr]).
  set (k4 := rhs (t0 + Q2R c4 * h) _). set (l4 := zstage (zs c4) _).
  assert (E4 : k4 = rep l4 e h') by (apply Hstage; [vm_compute; reflexivity|lcr]).
  set (k5 := rhs (t0 + Q2R c5 * h) _). set (l5 := zstage (zs c5) _).
  assert (E5 : k5 = rep l5 e h') by (apply Hstage; [vm_compute; reflexivity|lcr]).
  set (k6 := rhs (t0 + Q2R c6 * h) _). set (l6 := zstage (zs c6) _).
  assert (E6 : k6 = rep l6 e h') by (apply Hstage; [vm_compute; reflexivity|lcr]).
  set (k7 := rhs (t0 + Q2R c7 * h) _). set (l7 := zstage (zs c7) _).
  assert (E7 : k7 = rep l7 e h') by (apply Hstage; [vm_compute; reflexivity|lcr]).
  set (k8 := rhs (t0 + Q2R c8 * h) _). set (l8 := zstage (zs c8) _).
  assert (E8 : k8 = rep l8 e h') by (apply Hstage; [vm_compute; reflexivity|lcr]).
  set (k9 := rhs (t0 + Q2R c9 * h) _). set (l9 := zstage (zs c9) _).
  assert (E9 : k9 = rep l9 e h') by (apply Hstage; [vm_compute; reflexivity|lcr]).
  set (k10 := rhs (t0 + Q2R c10 * h) _). set (l10 := zstage (zs c10) _).
  assert (E10 : k10 = rep l10 e h') by (apply Hstage; [vm_compute; reflexivity|lcr]).
  set (k11 := rhs (t0 + Q2R c11 * h) _). set (l11 := zstage (zs c11) _).
  assert (E11 : k11 = rep l11 e h') by (apply Hstage; [vm_compute; reflexivity|lcr]).
  set (k12 := rhs (t0 + Q2R c12 * h) _). set (l12 := zstage (zs c12) _).
  assert (E12 : k12 = rep l12 e h') by (apply Hstage; [vm_compute; reflexivity|lcr]).
  cbn [s_k1 s_k6 s_k7 s_k8 s_k9 s_k10 s_k11 s_k12 s_b z6 z7 z8 z9 z10 z11 z12 zb].
  repeat (split; [assumption || reflexivity|]). lcr.
Qed.

(** the solution after the step, and the error vectors *)
Lemma step_rep i : let st := rkStages rhs t0 x (rep l1 e h') h in s_xt st i = x i + h' * rep (zb (ztable zstage l1)) e h' i.
Proof.
  cbv zeta. destruct stages_rep as (_ & _ & _ & _ & _ & _ & _ & _ & H). rewrite <- H.
  change (s_xt (rkStages rhs t0 x (rep l1 e h') h) i) with (x i + h * s_b (rkStages rhs t0 x (rep l1 e h') h) i). unfold h'. field. apply SR_nz.
Qed.
Definition zerr5 : list Z := let tb := ztable zstage l1 in
  zlc (zcomb [er1; er6; er7; er8; er9; er10; er11; er12] [l1; z6 tb; z7 tb; z8 tb; z9 tb; z10 tb; z11 tb; z12 tb]).
Definition zerr3 : list Z := let tb := ztable zstage l1 in
  zadd (zb tb) (zscal (-1) (zlc (zcomb [bhh1; bhh2; bhh3] [l1; z9 tb; z12 tb]))).
Lemma err_rep i : let st := rkStages rhs t0 x (rep l1 e h') h in SR * errVec5 st i = rep zerr5 e h' i /\ SR * errVec3 st i = rep zerr3 e h' i.
Proof.
  cbv zeta. destruct stages_rep as (E1 & E6 & E7 & E8 & E9 & E10 & E11 & E12 & H). revert E1 E6 E7 E8 E9 E10 E11 E12 H.
  set (st := rkStages rhs t0 x (rep l1 e h') h). set (tb := ztable zstage l1). intros. split.
  - unfold errVec5, zerr5. fold tb. revert i. lcr.
  - unfold errVec3, zerr3. fold tb. rewrite rep_add, rep_scal, <- H.
    rewrite Rmult_minus_distr_l. replace (SR * lc [(bhh1, s_k1 st); (bhh2, s_k9 st); (bhh3, s_k12 st)] i) with (rep (zlc (zcomb [bhh1; bhh2; bhh3] [l1; z9 tb; z12 tb])) e h' i).
    2:{ symmetry. revert i. lcr. } lra.
Qed.

(** the interpolation coefficients *)
Variable l13 : list Z.
Hypothesis H13 : forall y, (forall i, y i = x i + h' * rep (zb (ztable zstage l1)) e h' i) -> rhs (t0 + h) y = rep l13 e h'.
Definition zd (ds : list Q) : list Z := let tb := ztable zstage l1 in zlc (zcomb ds [l1; z6 tb; z7 tb; z8 tb; z9 tb; z10 tb; z11 tb; z12 tb; l13]).
Definition zr2 := zb (ztable zstage l1).
Definition zr3 := zadd (zscal SC l1) (zscal (-1) zr2).
Definition zr4 := zadd (zadd zr2 (zscal (- SC) l13)) (zscal (-1) zr3).
Definition zr5 := zd [d41; d46; d47; d48; d49; d410; d411; d412; d413].
Definition zr6 := zd [d51; d56; d57; d58; d59; d510; d511; d512; d513].
Definition zr7 := zd [d61; d66; d67; d68; d69; d610; d611; d612; d613].
Definition zr8 := zd [d71; d76; d77; d78; d79; d710; d711; d712; d713].
Lemma dense_rep s next i : d_time s = t0 -> d_x s = x -> d_k1 s = rep l1 e h' -> let s' := dopFinish rhs s h next in
  d_rc2 s' i = h' * rep zr2 e h' i /\ d_rc3 s' i = h' * rep zr3 e h' i /\ d_rc4 s' i = h' * rep zr4 e h' i /\
  d_rc5 s' i = h' * rep zr5 e h' i /\ d_rc6 s' i = h' * rep zr6 e h' i /\ d_rc7 s' i = h' * rep zr7 e h' i /\ d_rc8 s' i = h' * rep zr8 e h' i.
Proof.
  intros Ht Hx Hk. unfold dopFinish. cbv zeta. cbn [d_rc2 d_rc3 d_rc4 d_rc5 d_rc6 d_rc7 d_rc8]. rewrite Ht, Hx, Hk.
  destruct stages_rep as (E1 & E6 & E7 & E8 & E9 & E10 & E11 & E12 & H). pose proof step_rep as X. cbv zeta in X.
  revert E1 E6 E7 E8 E9 E10 E11 E12 H X.
  set (st := rkStages rhs t0 x (rep l1 e h') h). intros.
  assert (K13 : rhs (t0 + h) (s_xt st) = rep l13 e h') by (apply H13; exact X). rewrite K13.
  assert (HS : forall a, h * a = h' * (SR * a)) by (intros; unfold h'; field; apply SR_nz).
  assert (R2 : s_xt st i - x i = h' * rep zr2 e h' i) by (rewrite X; unfold zr2; ring).
  assert (R3 : h * rep l1 e h' i - (s_xt st i - x i) = h' * rep zr3 e h' i).
  { rewrite R2, HS. unfold zr3. rewrite rep_add, !rep_scal. unfold SR. ring. }
  split; [exact R2|]. split; [exact R3|]. split.
  { rewrite R3, R2, (HS (rep l13 e h' i)). unfold zr4. rewrite !rep_add, !rep_scal, opp_IZR. unfold SR. ring. }
  rewrite !HS. repeat split; f_equal; unfold zr5, zr6, zr7, zr8, zd; clear R2 R3; revert i; lcr.
Qed.
End Stages.
