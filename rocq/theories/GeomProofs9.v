(** Integrals over polygons: the main results. *)
From Coquelicot Require Import Coquelicot.
From Coq Require Import Psatz.
From Verif Require SplIntProofs3.
From Verif Require Import Arr PolyProofs BinSearchModel SplineModel SplineGlue BsplModel GeomModel GeomProofs GeomProofs2 GeomProofs3 GeomProofs4 GeomProofs5 GeomProofs6 GeomProofs7 GeomProofs8 SplineSpec SplIntSpec BsplSpec BsplProofs BsplProofs2 BsplProofs3 BsplProofs4 BsplProofs5 GeomSpec.
Require Import List. Import ListNotations.
Local Open Scope R_scope.

(** ---- B-splines of degree up to 2 in a cell ---- *)
Definition interp2 (p : R -> R) : R * R * R := (p 0, (p 1 - p (-1)) / 2, (p 1 + p (-1)) / 2 - p 0).
Definition bcoef (N : nat) (g : arr R) (k i : Z) : R * R * R := interp2 (cox g i N (k - Z.of_nat N)%Z).
Lemma interp2_ok N p c : (N <= 2)%nat -> (forall t, p t = poly N c t) -> degree_ok N (interp2 p) /\ forall t, p t = quad (interp2 p) t.
Proof.
  intros HN H. unfold interp2, quad. cbn [fst snd]. destruct N as [|[|[|N]]]; [| | |lia]; unfold poly in H; cbn [sum_f_R0] in H; cbn [degree_ok fst snd]; split; intros; rewrite ?H; try split; try field; auto.
Qed.
Lemma basis_quad N g k i : (N <= 2)%nat -> grid_ok g -> (0 <= i <= alen g - 2)%Z -> degree_ok N (bcoef N g k i) /\ forall t, afn g i < t < afn g (i + 1)%Z -> basis N g k t = quad (bcoef N g k i) t.
Proof.
  intros HN [Ig Lg] Hi. destruct (cox_poly g i N Ig Lg Hi (k - Z.of_nat N)%Z) as (c & Hc). destruct (interp2_ok N _ c HN Hc) as [A B]. split; [exact A|].
  intros t Ht. unfold basis. rewrite (bspline_cox g Ig i Hi); [apply B| |]; rewrite !(knot_in g) by lia; [lra|left; lra].
Qed.

Lemma is_integral2_unique f x1 x2 y1 y2 u v : is_integral2 f x1 x2 y1 y2 u -> is_integral2 f x1 x2 y1 y2 v -> u = v.
Proof. intros [_ A] [_ B]. rewrite <- (SplIntProofs3.RI_unique _ _ _ _ A), <- (SplIntProofs3.RI_unique _ _ _ _ B). reflexivity. Qed.
Lemma is_integral2_ext f g x1 x2 y1 y2 v : (forall x y, f x y = g x y) -> is_integral2 f x1 x2 y1 y2 v -> is_integral2 g x1 x2 y1 y2 v.
Proof.
  intros H [A B]. split.
  - intros y Hy. apply (ex_RInt_ext (fun x => f x y)); [intros; apply H|apply A; exact Hy].
  - apply (is_RInt_ext (fun y => RInt (fun x => f x y) x1 x2)); [|exact B]. intros y _. apply RInt_ext. intros. apply H.
Qed.

Section Main.
  Variable T : georule. Variable N : nat. Hypothesis HT : rules_ok T N.
  Variables gx gy : arr R.
  Hypothesis Hgx : grid_ok gx. Hypothesis Hgy : grid_ok gy.
  Let gbox := in_box (x_first gx) (x_last gx) (x_first gy) (x_last gy).
  Let bf (I J : Z) (x y : R) := basis N gx I x * basis N gy J y.
  Let nx := nbasis N gx. Let ny := nbasis N gy.
  Definition oriented (P : list pt) : list pt := if Rle_b 0 (polygonArea P) then P else rev P.
  Lemma oriented_winding P x y : IZR (winding (oriented P) x y) = orient P * IZR (winding P x y).
  Proof.
    unfold oriented, orient, Rle_b. rewrite area_shoelace. destruct (Rle_dec 0 (signed_area P)); [ring|]. rewrite winding_rev, opp_IZR. ring.
  Qed.
  Lemma oriented_area P : polygonArea (oriented P) = Rabs (signed_area P).
  Proof.
    unfold oriented, Rle_b. rewrite (area_shoelace P). destruct (Rle_dec 0 (signed_area P)); [rewrite area_shoelace, Rabs_right by lra; reflexivity|].
    rewrite area_esum. rewrite esum_rev by (intros; ring). pose proof (area_esum P) as A. rewrite area_shoelace in A. rewrite Rabs_left by lra. lra.
  Qed.
  Lemma oriented_in (K : pt -> Prop) P : Forall K P -> Forall K (oriented P).
  Proof. intros H. unfold oriented. destruct Rle_b; [exact H|]. apply Forall_rev. exact H. Qed.
  (** binSearch at the two ends of the bounding box *)
  Lemma range_ok g lo hi : grid_ok g -> lo <= hi -> exists b1 b2, binSearchR lo (alist g) = Ok b1 /\ binSearchR hi (alist g) = Ok b2 /\
    let i1 := (if b1 <? 0 then 0 else b1)%Z in let i2 := (if alen g - 1 <? b2 + 1 then alen g - 1 else b2 + 1)%Z in
    (0 <= i1)%Z /\ (i2 <= alen g - 1)%Z /\
    ((b1 <? 0)%Z = true <-> lo < x_first g) /\ ((alen g - 1 <? b2 + 1)%Z = true <-> x_last g < hi) /\
    (forall i, (0 <= i <= alen g - 2)%Z -> (i < i1 \/ i2 <= i)%Z -> afn g (i + 1)%Z <= lo \/ hi <= afn g i).
  Proof.
    intros [Ig Lg] Hlh. destruct (bin_inseg g Ig ltac:(lia) lo) as (b1 & E1 & (A1 & B1 & C1) & D1 & F1 & G1). destruct (bin_inseg g Ig ltac:(lia) hi) as (b2 & E2 & (A2 & B2 & C2) & D2 & F2 & G2).
    exists b1, b2. split; [exact E1|]. split; [exact E2|]. cbv zeta. unfold x_first, x_last.
    split; [destruct (Z.ltb_spec b1 0); lia|]. split; [destruct (Z.ltb_spec (alen g - 1) (b2 + 1)); lia|]. split; [|split].
    - destruct (Z.ltb_spec b1 0) as [L|L]; split; intros H; try discriminate; try reflexivity; [apply G1; lia|]. specialize (B1 L). pose proof (inc_le g Ig 0 b1 ltac:(lia) ltac:(lia) ltac:(lia)). lra.
    - destruct (Z.ltb_spec (alen g - 1) (b2 + 1)) as [L|L]; split; intros H; try discriminate; try reflexivity; [destruct F2; [lia|lia|assumption]|]. specialize (C2 ltac:(lia)). pose proof (inc_le g Ig (b2 + 1) (alen g - 1) ltac:(lia) ltac:(lia) ltac:(lia)). lra.
    - intros i Hi [H|H].
      + left. destruct (Z.ltb_spec b1 0); [lia|]. specialize (B1 ltac:(lia)). pose proof (inc_le g Ig (i + 1) b1 ltac:(lia) ltac:(lia) ltac:(lia)). lra.
      + right. destruct (Z.ltb_spec (alen g - 1) (b2 + 1)); [lia|]. specialize (C2 ltac:(lia)). pose proof (inc_le g Ig (b2 + 1) i ltac:(lia) ltac:(lia) ltac:(lia)). lra.
  Qed.
  Lemma zsum_max lo hi f : zsum lo (Z.max lo hi) f = zsum lo hi f.
  Proof. destruct (Z_le_gt_dec lo hi); [rewrite Z.max_r by lia; reflexivity|]. rewrite Z.max_l by lia. rewrite !zsum_nil by lia. reflexivity. Qed.
  Lemma cells_ok Q x1 x2 y1 y2 o : (0 <= x1)%Z -> (x2 <= alen gx - 1)%Z -> (0 <= y1)%Z -> (y2 <= alen gy - 1)%Z -> room N gx gy o ->
    exists o', for_ y1 y2 (fun iy output => for_ x1 x2 (fun ix output =>
        xa <- aget gx ix ;; ya <- aget gy iy ;; xb <- aget gx (ix + 1) ;; yb <- aget gy (iy + 1) ;;
        integrateOverPolygon T N gx gy (clipPolygonByRectangle Q (mkRect (xa, ya) (xb, yb))) output) output) o = Ok o' /\
      adds N gx gy o o' (fun I J => zsum y1 y2 (fun j => zsum x1 x2 (fun i => qpoly T N (clipPolygonByRectangle Q (cell gx gy i j)) (bf I J)))).
  Proof.
    intros Hx1 Hx2 Hy1 Hy2 Ho.
    destruct (for_total_max (fun j o' => (y1 <= j)%Z /\ adds N gx gy o o' (fun I J => zsum y1 j (fun j => zsum x1 x2 (fun i => qpoly T N (clipPolygonByRectangle Q (cell gx gy i j)) (bf I J)))))
      y1 y2 (fun iy output => for_ x1 x2 (fun ix output =>
        xa <- aget gx ix ;; ya <- aget gy iy ;; xb <- aget gx (ix + 1) ;; yb <- aget gy (iy + 1) ;;
        integrateOverPolygon T N gx gy (clipPolygonByRectangle Q (mkRect (xa, ya) (xb, yb))) output) output) o) as (o' & E & _ & A).
    - split; [lia|]. apply adds_refl. intros. apply zsum_nil. lia.
    - intros j o1 Hj (Hyj & A1).
      destruct (for_total_max (fun i o' => (x1 <= i)%Z /\ adds N gx gy o1 o' (fun I J => zsum x1 i (fun i => qpoly T N (clipPolygonByRectangle Q (cell gx gy i j)) (bf I J))))
        x1 x2 (fun ix output => xa <- aget gx ix ;; ya <- aget gy j ;; xb <- aget gx (ix + 1) ;; yb <- aget gy (j + 1) ;;
          integrateOverPolygon T N gx gy (clipPolygonByRectangle Q (mkRect (xa, ya) (xb, yb))) output) o1) as (o2 & E2 & _ & A2).
      + split; [lia|]. apply adds_refl. intros. apply zsum_nil. lia.
      + intros i o2 Hi (Hxi & A2). rewrite !aget_ok by lia. cbn [bind].
        assert (R2 : room N gx gy o2) by (eapply room_adds; [eapply room_adds; [exact Ho|exact A1]|exact A2]).
        destruct (ipoly_ok T N HT gx gy Hgx Hgy i j ltac:(lia) ltac:(lia) (clipPolygonByRectangle Q (cell gx gy i j)) o2 (cell_box gx gy Q i j) R2) as (o3 & E3 & A3).
        exists o3. split; [exact E3|]. split; [lia|]. refine (adds_trans _ _ _ _ _ _ _ _ _ A2 A3 _). intros I J _ _. cbv beta. rewrite zsum_last by lia. reflexivity.
      + exists o2. split; [exact E2|]. split; [lia|]. refine (adds_trans _ _ _ _ _ _ _ _ _ A1 A2 _). intros I J _ _. cbv beta. rewrite zsum_last by lia. rewrite zsum_max. reflexivity.
    - exists o'. split; [exact E|]. refine (adds_ext _ _ _ _ _ _ _ _ A). intros I J _ _. apply zsum_max.
  Qed.
  Lemma compute_ok P o : (3 <= length P)%nat -> room N gx gy o -> exists b o' x1 x2 y1 y2 X1 X2 Y1 Y2,
    computeBsplineIntegralsOverPolygon T N gx gy P o = Ok (b, o') /\ (b = true <-> exists p, In p P /\ ~ gbox p) /\
    (0 <= x1)%Z /\ (x2 <= alen gx - 1)%Z /\ (0 <= y1)%Z /\ (y2 <= alen gy - 1)%Z /\
    Forall (in_box X1 X2 Y1 Y2) P /\
    (forall i, (0 <= i <= alen gx - 2)%Z -> (i < x1 \/ x2 <= i)%Z -> afn gx (i + 1)%Z <= X1 \/ X2 <= afn gx i) /\
    (forall i, (0 <= i <= alen gy - 2)%Z -> (i < y1 \/ y2 <= i)%Z -> afn gy (i + 1)%Z <= Y1 \/ Y2 <= afn gy i) /\
    adds N gx gy o o' (fun I J => zsum y1 y2 (fun j => zsum x1 x2 (fun i => qpoly T N (clipPolygonByRectangle (oriented P) (cell gx gy i j)) (bf I J)))).
  Proof.
    intros HL Ho. destruct P as [|v0 [|v1 [|v2 t]]]; cbn in HL; try lia. set (P := v0 :: v1 :: v2 :: t). unfold computeBsplineIntegralsOverPolygon. fold P.
    unfold P at 1.
    destruct (bbox_ok v0 P 0 (fst v0) (fst v0) (snd v0) (snd v0)) as (A & X1 & X2 & Y1 & Y2 & EB & H1 & H2 & H3 & H4 & HF & G1 & G2 & G3 & G4 & HA).
    rewrite EB. unfold P in HA. rewrite area_path in HA. fold P in HA. rewrite Rplus_0_l in HA. subst A.
    destruct (range_ok gx X1 X2 Hgx ltac:(lra)) as (bx1 & bx2 & -> & -> & KX). destruct (range_ok gy Y1 Y2 Hgy ltac:(lra)) as (by1 & by2 & -> & -> & KY). cbn [bind]. cbv zeta in *.
    destruct KX as (KX1 & KX2 & KX3 & KX4 & KX5). destruct KY as (KY1 & KY2 & KY3 & KY4 & KY5). fold (oriented P).
    edestruct (cells_ok (oriented P) (if (bx1 <? 0)%Z then 0%Z else bx1) (if (alen gx - 1 <? bx2 + 1)%Z then (alen gx - 1)%Z else (bx2 + 1)%Z) (if (by1 <? 0)%Z then 0%Z else by1) (if (alen gy - 1 <? by2 + 1)%Z then (alen gy - 1)%Z else (by2 + 1)%Z) o) as (o' & E & AD); auto.
    rewrite E. cbn [bind]. do 2 eexists. exists (if (bx1 <? 0)%Z then 0%Z else bx1), (if (alen gx - 1 <? bx2 + 1)%Z then (alen gx - 1)%Z else (bx2 + 1)%Z), (if (by1 <? 0)%Z then 0%Z else by1), (if (alen gy - 1 <? by2 + 1)%Z then (alen gy - 1)%Z else (by2 + 1)%Z), X1, X2, Y1, Y2.
    split; [reflexivity|]. split; [|auto 10].
    rewrite !orb_true_iff, KX3, KX4, KY3, KY4. rewrite Forall_forall in HF. split.
    - intros [[[H|H]|H]|H].
      + destruct G1 as [G|(p & Ip & Ep)]; [exists v0; split; [left; reflexivity|]|exists p; split; [exact Ip|]]; unfold gbox, in_box; lra.
      + destruct G3 as [G|(p & Ip & Ep)]; [exists v0; split; [left; reflexivity|]|exists p; split; [exact Ip|]]; unfold gbox, in_box; lra.
      + destruct G2 as [G|(p & Ip & Ep)]; [exists v0; split; [left; reflexivity|]|exists p; split; [exact Ip|]]; unfold gbox, in_box; lra.
      + destruct G4 as [G|(p & Ip & Ep)]; [exists v0; split; [left; reflexivity|]|exists p; split; [exact Ip|]]; unfold gbox, in_box; lra.
    - intros (p & Ip & Np). destruct (HF p Ip) as [A B]. unfold gbox, in_box in Np.
      destruct (Rlt_le_dec X1 (x_first gx)); [auto|]. destruct (Rlt_le_dec Y1 (x_first gy)); [auto|]. destruct (Rlt_le_dec (x_last gx) X2); [auto|]. destruct (Rlt_le_dec (x_last gy) Y2); [auto|]. exfalso. apply Np. lra.
  Qed.
  (** sums over the range of cells, for any pair of functions that are quadratic inside each cell *)
  Lemma sum_all bx by_ cx cy Q x1 x2 y1 y2 X1 X2 Y1 Y2 :
    (forall i x, (0 <= i <= alen gx - 2)%Z -> afn gx i < x < afn gx (i + 1)%Z -> bx x = quad (cx i) x) ->
    (forall i x, (0 <= i <= alen gy - 2)%Z -> afn gy i < x < afn gy (i + 1)%Z -> by_ x = quad (cy i) x) ->
    (0 <= x1)%Z -> (x2 <= alen gx - 1)%Z -> (0 <= y1)%Z -> (y2 <= alen gy - 1)%Z -> Forall (in_box X1 X2 Y1 Y2) Q ->
    (forall i, (0 <= i <= alen gx - 2)%Z -> (i < x1 \/ x2 <= i)%Z -> afn gx (i + 1)%Z <= X1 \/ X2 <= afn gx i) ->
    (forall i, (0 <= i <= alen gy - 2)%Z -> (i < y1 \/ y2 <= i)%Z -> afn gy (i + 1)%Z <= Y1 \/ Y2 <= afn gy i) ->
    is_integral2 (fun x y => IZR (winding Q x y) * (bx x * by_ y)) (x_first gx) (x_last gx) (x_first gy) (x_last gy) (zsum y1 y2 (fun j => zsum x1 x2 (fun i => V gx gy cx cy Q i j))).
  Proof.
    intros Hbx Hby Hx1 Hx2 Hy1 Hy2 HF HX HY.
    pose proof (grid_integral gx gy Hgx Hgy bx by_ cx cy Hbx Hby Q) as G. destruct Hgx as [Ix Lx], Hgy as [Iy Ly].
    assert (VZ : forall i j, (0 <= i < alen gx - 1)%Z -> (0 <= j < alen gy - 1)%Z -> (i < x1 \/ x2 <= i \/ j < y1 \/ y2 <= j)%Z -> V gx gy cx cy Q i j = 0).
    { intros i j Hi Hj Ho. apply (V_zero gx gy (conj Ix Lx) (conj Iy Ly) bx by_ cx cy Hbx Hby Q i j X1 X2 Y1 Y2); auto; try lia.
      assert (C : (i < x1 \/ x2 <= i)%Z \/ (j < y1 \/ y2 <= j)%Z) by lia. destruct C as [C|C]; [destruct (HX i ltac:(lia) C); auto|destruct (HY j ltac:(lia) C); auto]. }
    assert (RE : forall lo hi n (f : Z -> R), (0 <= lo)%Z -> (hi <= n)%Z -> (0 <= n)%Z -> (forall k, (0 <= k < n)%Z -> (k < lo \/ hi <= k)%Z -> f k = 0) -> zsum lo hi f = zsum 0 n f).
    { intros lo hi n f H0 H1 H2 Hf. destruct (Z_le_gt_dec lo hi) as [L|L].
      - symmetry. apply zsum_extend; try lia; intros k Hk; apply Hf; lia.
      - rewrite zsum_nil by lia. symmetry. apply zsum_0. intros k Hk. apply Hf; lia. }
    match goal with |- is_integral2 _ _ _ _ _ ?v => replace v with (zsum 0 (alen gy - 1) (fun j => zsum 0 (alen gx - 1) (fun i => V gx gy cx cy Q i j))); [exact G|] end.
    rewrite (RE y1 y2 (alen gy - 1)%Z); try lia.
    - apply zsum_ext. intros j Hj. symmetry. apply RE; try lia. intros i Hi Ho. apply VZ; lia.
    - intros j Hj Ho. apply zsum_0. intros i Hi. destruct (Z_lt_le_dec i (alen gx - 1)); [|lia]. apply VZ; lia.
  Qed.
  (** exact integrals *)
  Lemma compute_exact P o : (3 <= length P)%nat -> room N gx gy o -> (N <= 2)%nat -> (N = 2%nat -> rule_exact 4 (g_rule6 T) /\ 6 * g_X1 T ^ 2 - 6 * g_X1 T + 1 = 0) ->
    exists b o', computeBsplineIntegralsOverPolygon T N gx gy P o = Ok (b, o') /\
      forall I J, (0 <= I < nx)%Z -> (0 <= J < ny)%Z ->
        is_integral2 (fun x y => orient P * IZR (winding P x y) * (basis N gx I x * basis N gy J y)) (x_first gx) (x_last gx) (x_first gy) (x_last gy) (afn o' (J * nx + I)%Z - afn o (J * nx + I)%Z).
  Proof.
    intros HL Ho HN HE. destruct (compute_ok P o HL Ho) as (b & o' & x1 & x2 & y1 & y2 & X1 & X2 & Y1 & Y2 & E & _ & Hx1 & Hx2 & Hy1 & Hy2 & HF & HX & HY & (_ & AD & _)).
    exists b, o'. split; [exact E|]. intros I J HI HJ. fold nx ny in AD. specialize (AD I J HI HJ).
    set (cx := bcoef N gx I). set (cy := bcoef N gy J).
    assert (Hcx : forall i x, (0 <= i <= alen gx - 2)%Z -> afn gx i < x < afn gx (i + 1)%Z -> basis N gx I x = quad (cx i) x) by (intros i x Hi; apply basis_quad; auto).
    assert (Hcy : forall i x, (0 <= i <= alen gy - 2)%Z -> afn gy i < x < afn gy (i + 1)%Z -> basis N gy J x = quad (cy i) x) by (intros i x Hi; apply basis_quad; auto).
    pose proof (sum_all (basis N gx I) (basis N gy J) cx cy (oriented P) x1 x2 y1 y2 X1 X2 Y1 Y2 Hcx Hcy Hx1 Hx2 Hy1 Hy2 (oriented_in _ P HF) HX HY) as S.
    replace (afn o' (J * nx + I)%Z - afn o (J * nx + I)%Z) with (zsum y1 y2 (fun j => zsum x1 x2 (fun i => V gx gy cx cy (oriented P) i j))).
    - refine (is_integral2_ext _ _ _ _ _ _ _ _ S). intros x y. rewrite oriented_winding. reflexivity.
    - rewrite AD. match goal with |- ?a = _ + ?b - _ => replace (a = _ + b - _) with (a = b); [|f_equal; ring] end.
      apply zsum_ext. intros j Hj. apply zsum_ext. intros i Hi. unfold V.
      rewrite (qpoly_ext T N HT (afn gx i) (afn gx (i + 1)%Z) (afn gy j) (afn gy (j + 1)%Z) (bf I J) (fun x y => quad (cx i) x * quad (cy j) y)).
      + symmetry. destruct (Nat.eq_dec N 2) as [E2|N2].
        * destruct (HE E2). apply qpoly_N2; auto. lia.
        * apply qpoly_N01; [lia| |]; apply basis_quad; auto; lia.
      + intros x y Hx Hy. unfold bf. rewrite (Hcx i x), (Hcy j y) by (auto; lia). reflexivity.
      + apply cell_box.
  Qed.
  (** the sum of all integrals *)
  Lemma compute_total P o : (3 <= length P)%nat -> room N gx gy o -> Forall gbox P -> rule_exact 0 (ruleN T N) ->
    exists o', computeBsplineIntegralsOverPolygon T N gx gy P o = Ok (false, o') /\
      zsum 0 ny (fun J => zsum 0 nx (fun I => afn o' (J * nx + I)%Z - afn o (J * nx + I)%Z)) = Rabs (signed_area P).
  Proof.
    intros HL Ho HG HM. destruct (compute_ok P o HL Ho) as (b & o' & x1 & x2 & y1 & y2 & X1 & X2 & Y1 & Y2 & E & OB & Hx1 & Hx2 & Hy1 & Hy2 & HF & HX & HY & (_ & AD & _)).
    assert (b = false). { destruct b; [|reflexivity]. exfalso. destruct (proj1 OB eq_refl) as (p & Ip & Np). apply Np. rewrite Forall_forall in HG. apply HG. exact Ip. } subst b.
    exists o'. split; [exact E|]. fold nx ny in AD.
    set (c1 := fun _ : Z => (1, 0, 0)).
    assert (H1 : forall g i x, (0 <= i <= alen g - 2)%Z -> afn g i < x < afn g (i + 1)%Z -> (fun _ : R => 1) x = quad (c1 i) x) by (intros; unfold c1, quad; cbn [fst snd]; ring).
    pose proof (sum_all (fun _ => 1) (fun _ => 1) c1 c1 (oriented P) x1 x2 y1 y2 X1 X2 Y1 Y2 (H1 gx) (H1 gy) Hx1 Hx2 Hy1 Hy2 (oriented_in _ P HF) HX HY) as S.
    assert (Q : is_integral2 (fun x y => IZR (winding (oriented P) x y) * (1 * 1)) (x_first gx) (x_last gx) (x_first gy) (x_last gy) (polygonArea (oriented P))).
    { rewrite <- (ee_area_sum (x_first gx)). destruct Hgx as [Ix Lx], Hgy as [Iy Ly].
      refine (is_integral2_ext _ _ _ _ _ _ _ _ (poly_integral (1, 0, 0) (1, 0, 0) (x_first gx) (x_last gx) (x_first gy) (x_last gy) _ _ (oriented P) (oriented_in _ P HG))).
      - intros x y. unfold quad. cbn [fst snd]. ring.
      - unfold x_first, x_last. apply (inc_le gx Ix); lia.
      - unfold x_first, x_last. apply (inc_le gy Iy); lia. }
    rewrite <- oriented_area. rewrite (is_integral2_unique _ _ _ _ _ _ _ Q S).
    transitivity (zsum 0 ny (fun J => zsum 0 nx (fun I => zsum y1 y2 (fun j => zsum x1 x2 (fun i => qpoly T N (clipPolygonByRectangle (oriented P) (cell gx gy i j)) (bf I J)))))).
    { apply zsum_ext. intros J HJ. apply zsum_ext. intros I HI. rewrite (AD I J HI HJ). ring. }
    transitivity (zsum y1 y2 (fun j => zsum x1 x2 (fun i => zsum 0 ny (fun J => zsum 0 nx (fun I => qpoly T N (clipPolygonByRectangle (oriented P) (cell gx gy i j)) (bf I J)))))).
    { transitivity (zsum 0 ny (fun J => zsum y1 y2 (fun j => zsum x1 x2 (fun i => zsum 0 nx (fun I => qpoly T N (clipPolygonByRectangle (oriented P) (cell gx gy i j)) (bf I J)))))).
      - apply zsum_ext. intros J _. rewrite zsum_swap. apply zsum_ext. intros j _. rewrite zsum_swap. reflexivity.
      - rewrite zsum_swap. apply zsum_ext. intros j _. rewrite zsum_swap. reflexivity. }
    apply zsum_ext. intros j Hj. apply zsum_ext. intros i Hi. unfold V, c1. rewrite ee_area_sum. rewrite <- (qpoly_one T N _ HM).
    set (C := clipPolygonByRectangle (oriented P) (cell gx gy i j)).
    transitivity (qpoly T N C (fun x y => zsum 0 ny (fun J => zsum 0 nx (fun I => bf I J x y)))).
    { rewrite (qpoly_lin T N 0 ny (fun J x y => zsum 0 nx (fun I => bf I J x y))). apply zsum_ext. intros J _. rewrite (qpoly_lin T N 0 nx (fun I x y => bf I J x y)). reflexivity. }
    apply (qpoly_ext T N HT (afn gx i) (afn gx (i + 1)%Z) (afn gy j) (afn gy (j + 1)%Z)); [|apply cell_box].
    intros x y Hx Hy. unfold bf. destruct Hgx as [Ix Lx], Hgy as [Iy Ly].
    assert (Wx : within gx x). { pose proof (inc_le gx Ix 0 i ltac:(lia) ltac:(lia) ltac:(lia)). pose proof (inc_le gx Ix (i + 1) (alen gx - 1) ltac:(lia) ltac:(lia) ltac:(lia)). unfold within, x_first, x_last. lra. }
    assert (Wy : within gy y). { pose proof (inc_le gy Iy 0 j ltac:(lia) ltac:(lia) ltac:(lia)). pose proof (inc_le gy Iy (j + 1) (alen gy - 1) ltac:(lia) ltac:(lia) ltac:(lia)). unfold within, x_first, x_last. lra. }
    transitivity (zsum 0 ny (fun J => basis N gy J y * 1)); [|transitivity (zsum 0 ny (fun J => basis N gy J y)); [apply zsum_ext; intros; ring|exact (basis_sum gy N Iy Ly y Wy)]].
    apply zsum_ext. intros J _. rewrite <- (basis_sum gx N Ix Lx x Wx). rewrite <- zsum_scal. apply zsum_ext. intros. ring.
  Qed.
End Main.
