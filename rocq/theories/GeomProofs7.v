(** The model adds the quadrature sums to the output array. *)
From Coquelicot Require Import Coquelicot.
From Coq Require Import Psatz.
From Verif Require Import Arr PolyProofs BinSearchModel SplineModel SplineGlue BsplModel GeomModel GeomProofs GeomProofs2 GeomProofs3 GeomProofs4 GeomProofs6 SplineSpec BsplSpec BsplProofs BsplProofs2 BsplProofs3 BsplProofs4 BsplProofs5 GeomSpec.
Require Import List. Import ListNotations.
Local Open Scope R_scope.

(** ---- quadrature sums depend only on values inside the box ---- *)
Definition rules_ok (T : georule) (N : nat) : Prop := (2 <= N)%nat -> 0 < g_X1 T < 1 /\ rule_inside (g_rule6 T).
Lemma ruleN_inside T N : rules_ok T N -> rule_inside (ruleN T N).
Proof.
  intros H. destruct N as [|[|N]]; [| |apply H; lia].
  - repeat constructor; cbn [fst snd]; lra.
  - repeat constructor; cbn [fst snd]; lra.
Qed.
Lemma bary_open lo hi a b p q r : lo <= p <= hi -> lo <= q <= hi -> lo <= r <= hi -> 0 < a -> 0 < b -> a + b < 1 -> ~ (p = q /\ q = r) -> lo < p * a + q * b + r * (1 - a - b) < hi.
Proof.
  intros Hp Hq Hr Ha Hb Hab H.
  assert (E1 : p * a + q * b + r * (1 - a - b) - lo = (p - lo) * a + (q - lo) * b + (r - lo) * (1 - a - b)) by ring.
  assert (E2 : hi - (p * a + q * b + r * (1 - a - b)) = (hi - p) * a + (hi - q) * b + (hi - r) * (1 - a - b)) by ring.
  assert (A1 : 0 <= (p - lo) * a) by (apply Rmult_le_pos; lra). assert (A2 : 0 <= (q - lo) * b) by (apply Rmult_le_pos; lra). assert (A3 : 0 <= (r - lo) * (1 - a - b)) by (apply Rmult_le_pos; lra).
  assert (B1 : 0 <= (hi - p) * a) by (apply Rmult_le_pos; lra). assert (B2 : 0 <= (hi - q) * b) by (apply Rmult_le_pos; lra). assert (B3 : 0 <= (hi - r) * (1 - a - b)) by (apply Rmult_le_pos; lra).
  split; apply Rnot_le_lt; intros L; apply H.
  - assert (p - lo = 0) by (apply (Rmult_eq_reg_r a); lra). assert (q - lo = 0) by (apply (Rmult_eq_reg_r b); lra). assert (r - lo = 0) by (apply (Rmult_eq_reg_r (1 - a - b)); lra). lra.
  - assert (hi - p = 0) by (apply (Rmult_eq_reg_r a); lra). assert (hi - q = 0) by (apply (Rmult_eq_reg_r b); lra). assert (hi - r = 0) by (apply (Rmult_eq_reg_r (1 - a - b)); lra). lra.
Qed.
Lemma tarea_nz_x p1 p2 p3 : tarea p1 p2 p3 <> 0 -> ~ (fst p1 = fst p2 /\ fst p2 = fst p3).
Proof. intros H [E1 E2]. apply H. unfold tarea. rewrite E1, E2. ring. Qed.
Lemma tarea_nz_y p1 p2 p3 : tarea p1 p2 p3 <> 0 -> ~ (snd p1 = snd p2 /\ snd p2 = snd p3).
Proof. intros H [E1 E2]. apply H. unfold tarea. rewrite E1, E2. ring. Qed.
Section Ext.
  Variable T : georule. Variable N : nat. Hypothesis HT : rules_ok T N.
  Variables xl xu yl yu : R.
  Let box := in_box xl xu yl yu.
  Variables f g : R -> R -> R.
  Hypothesis Hfg : forall x y, xl < x < xu -> yl < y < yu -> f x y = g x y.
  Lemma qtri_ext p1 p2 p3 : box p1 -> box p2 -> box p3 -> qtri T N p1 p2 p3 f = qtri T N p1 p2 p3 g.
  Proof.
    intros [X1 Y1] [X2 Y2] [X3 Y3]. unfold qtri. destruct (Req_EM_T (tarea p1 p2 p3) 0) as [|Z0]; [reflexivity|].
    unfold qrule. apply rsum_ext_in. intros q Hq. pose proof (ruleN_inside T N HT) as RI. unfold rule_inside in RI. rewrite Forall_forall in RI. destruct (RI q Hq) as (Q1 & Q2 & Q3). f_equal.
    apply Hfg; apply bary_open; auto; [apply tarea_nz_x|apply tarea_nz_y]; assumption.
  Qed.
  Lemma qfan_ext p0 l : forall prev, box p0 -> box prev -> Forall box l -> qfan T N p0 prev l f = qfan T N p0 prev l g.
  Proof. induction l as [|v l IH]; intros prev H0 Hp Hl; cbn [qfan]; [reflexivity|]. inversion Hl; subst. rewrite qtri_ext, IH by assumption. reflexivity. Qed.
  Lemma qfanAll_ext P : Forall box P -> qfanAll T N P f = qfanAll T N P g.
  Proof. intros H. destruct P as [|p0 [|p1 t]]; try reflexivity. inversion H as [|? ? A B]; subst. inversion B as [|? ? C D]; subst. apply qfan_ext; assumption. Qed.
  Lemma mid_open lo hi p q X : lo <= p <= hi -> lo <= q <= hi -> p <> q -> 0 < X < 1 -> lo < X * p + (1 - X) * q < hi.
  Proof. intros. nra. Qed.
  Lemma qrect_ext p q : box p -> box q -> qrect T N (mkRect p q) f = qrect T N (mkRect p q) g.
  Proof.
    intros [X1 Y1] [X2 Y2]. unfold qrect. cbn [r_lower r_upper]. cbv zeta.
    destruct (Req_EM_T (fst p) (fst q)) as [E|E]; [rewrite E; unfold Rminus; rewrite Rplus_opp_r; destruct (N <=? 1)%nat; ring|].
    destruct (Req_EM_T (snd p) (snd q)) as [F|F]; [rewrite F; unfold Rminus at 2 5; destruct (N <=? 1)%nat; ring|].
    assert (M1 : forall X, 0 < X < 1 -> xl < X * fst p + (1 - X) * fst q < xu) by (intros; apply mid_open; auto).
    assert (M2 : forall X, 0 < X < 1 -> yl < X * snd p + (1 - X) * snd q < yu) by (intros; apply mid_open; auto).
    assert (M3 : forall X, 0 < X < 1 -> xl < X * fst q + (1 - X) * fst p < xu) by (intros; apply mid_open; auto).
    assert (M4 : forall X, 0 < X < 1 -> yl < X * snd q + (1 - X) * snd p < yu) by (intros; apply mid_open; auto).
    destruct (Nat.leb_spec N 1) as [L|L].
    - f_equal. apply Hfg; [pose proof (M1 (1/2) ltac:(lra)); lra|pose proof (M2 (1/2) ltac:(lra)); lra].
    - destruct (HT ltac:(lia)) as [HX _]. f_equal. f_equal; [f_equal; [f_equal|]|]; apply Hfg; auto.
  Qed.
  Lemma qpoly_ext P : Forall box P -> qpoly T N P f = qpoly T N P g.
  Proof.
    intros H. unfold qpoly. destruct P as [|p0 [|p1 [|p2 [|p3 [|p4 t]]]]]; try (apply qfanAll_ext; assumption).
    destruct (_ && _ && _ && _); [|destruct (_ && _ && _ && _); [|apply qfanAll_ext; assumption]]; rewrite Forall_forall in H; apply qrect_ext; apply H; cbn; auto.
  Qed.
End Ext.
(** linearity *)
Lemma rsum_zsum {A} lo hi (h : Z -> A -> R) l : rsum (fun a => zsum lo hi (fun k => h k a)) l = zsum lo hi (fun k => rsum (h k) l).
Proof.
  induction l as [|a l IH]; [cbn [rsum fold_right]; symmetry; apply zsum_0; reflexivity|]. rewrite rsum_cons, IH. rewrite <- zsum_plus. apply zsum_ext. intros k _. rewrite rsum_cons. reflexivity.
Qed.
Section Lin.
  Variable T : georule. Variable N : nat. Variables lo hi : Z. Variable f : Z -> R -> R -> R.
  Let F x y := zsum lo hi (fun k => f k x y).
  Lemma qtri_lin p1 p2 p3 : qtri T N p1 p2 p3 F = zsum lo hi (fun k => qtri T N p1 p2 p3 (f k)).
  Proof.
    unfold qtri. destruct (Req_EM_T (tarea p1 p2 p3) 0); [symmetry; apply zsum_0; reflexivity|]. unfold qrule. rewrite <- rsum_zsum. apply rsum_ext. intros q. unfold F. rewrite <- zsum_scal. reflexivity.
  Qed.
  Lemma qfan_lin p0 l : forall prev, qfan T N p0 prev l F = zsum lo hi (fun k => qfan T N p0 prev l (f k)).
  Proof. induction l as [|v l IH]; intros prev; cbn [qfan]; [symmetry; apply zsum_0; reflexivity|]. rewrite qtri_lin, IH, <- zsum_plus. reflexivity. Qed.
  Lemma qfanAll_lin P : qfanAll T N P F = zsum lo hi (fun k => qfanAll T N P (f k)).
  Proof. destruct P as [|p0 [|p1 t]]; cbn [qfanAll]; try (symmetry; apply zsum_0; reflexivity). apply qfan_lin. Qed.
  Lemma qrect_lin r : qrect T N r F = zsum lo hi (fun k => qrect T N r (f k)).
  Proof. unfold qrect. cbv zeta. unfold F. destruct (N <=? 1)%nat; [rewrite <- zsum_scal; reflexivity|]. rewrite <- !zsum_plus, <- zsum_scal. reflexivity. Qed.
  Lemma qpoly_lin P : qpoly T N P F = zsum lo hi (fun k => qpoly T N P (f k)).
  Proof.
    unfold qpoly. destruct P as [|p0 [|p1 [|p2 [|p3 [|p4 t]]]]]; try apply qfanAll_lin.
    destruct (_ && _ && _ && _); [apply qrect_lin|]. destruct (_ && _ && _ && _); [apply qrect_lin|apply qfanAll_lin].
  Qed.
End Lin.

(** ---- the output array ---- *)
Lemma idx_inj n a b c d : (0 <= b < n)%Z -> (0 <= d < n)%Z -> (a * n + b = c * n + d)%Z -> a = c /\ b = d.
Proof. intros Hb Hd H. assert (a = c) by nia. subst. split; [reflexivity|lia]. Qed.
Section Out.
  Variable N : nat. Variables gx gy : arr R.
  Hypothesis Hgx : grid_ok gx. Hypothesis Hgy : grid_ok gy.
  Let nx := nbasis N gx. Let ny := nbasis N gy.
  Definition adds (o o' : arr R) (q : Z -> Z -> R) : Prop :=
    alen o' = alen o /\ (forall I J, (0 <= I < nx)%Z -> (0 <= J < ny)%Z -> afn o' (J * nx + I)%Z = afn o (J * nx + I)%Z + q I J) /\ (forall k, (nx * ny <= k)%Z -> afn o' k = afn o k).
  Lemma adds_trans o1 o2 o3 q1 q2 q : adds o1 o2 q1 -> adds o2 o3 q2 -> (forall I J, (0 <= I < nx)%Z -> (0 <= J < ny)%Z -> q I J = q1 I J + q2 I J) -> adds o1 o3 q.
  Proof.
    intros (L1 & V1 & K1) (L2 & V2 & K2) H. split; [lia|]. split; [|intros k Hk; rewrite K2, K1 by assumption; reflexivity]. intros I J HI HJ. rewrite V2, V1, H by assumption. ring.
  Qed.
  Lemma adds_refl o q : (forall I J, (0 <= I < nx)%Z -> (0 <= J < ny)%Z -> q I J = 0) -> adds o o q.
  Proof. intros H. split; [reflexivity|]. split; [|reflexivity]. intros I J HI HJ. rewrite H by assumption. ring. Qed.
  Lemma adds_ext o o' q q' : (forall I J, (0 <= I < nx)%Z -> (0 <= J < ny)%Z -> q I J = q' I J) -> adds o o' q -> adds o o' q'.
  Proof. intros H (L & V & K). split; [exact L|]. split; [|exact K]. intros I J HI HJ. rewrite V, H by assumption. reflexivity. Qed.
  Definition room (o : arr R) : Prop := (nx * ny <= alen o)%Z.
  Lemma nx_pos : (Z.of_nat N + 1 <= nx)%Z. Proof. destruct Hgx. unfold nx, nbasis. lia. Qed.
  Lemma ny_pos : (Z.of_nat N + 1 <= ny)%Z. Proof. destruct Hgy. unfold ny, nbasis. lia. Qed.
  (** local values: index m, array B *)
  Definition comps (g : arr R) (t : R) (m : Z) (B : arr R) : Prop :=
    alen B = (Z.of_nat N + 1)%Z /\ (0 <= m)%Z /\ (m + Z.of_nat N < nbasis N g)%Z /\
    (forall k, (0 <= k < nbasis N g)%Z -> basis N g k t = if (m <=? k)%Z && (k <=? m + Z.of_nat N)%Z then afn B (k - m)%Z else 0).
  Lemma accumulate_ok mult x y mx my wx wy o : comps gx x mx wx -> comps gy y my wy -> room o ->
    exists o', accumulate N gx mult mx my wx wy o = Ok o' /\ adds o o' (fun I J => mult * basis N gx I x * basis N gy J y).
  Proof.
    intros (Lx & Mx & Kx & Bx) (Ly & My & Ky & By) HR. unfold accumulate. change (numComp N gx) with nx. unfold room in HR. fold nx in Kx, Bx. fold ny in Ky, By.
    assert (Knx := nx_pos). assert (Kny := ny_pos).
    destruct (for_total (fun i o' => alen o' = alen o /\ (forall I J, (0 <= I < nx)%Z -> (0 <= J < ny)%Z -> afn o' (J * nx + I)%Z = afn o (J * nx + I)%Z + (if (I <? mx + i)%Z then mult * basis N gx I x * basis N gy J y else 0)) /\ (forall k, (nx * ny <= k)%Z -> afn o' k = afn o k))
      0 (Z.of_nat N + 1) (fun i output => for_ 0 (Z.of_nat N + 1) (fun j output => a <- aget wx i ;; b <- aget wy j ;; (let k := ((j + my) * nx + i + mx)%Z in o <- aget output k ;; aset output k (o + mult * a * b))) output) o) as (o' & E & L & VV & K); [lia| | |].
    - split; [reflexivity|]. split; [|reflexivity]. intros I J HI HJ. destruct (Z.ltb_spec I (mx + 0)); [|ring].
      rewrite Bx by lia. rewrite (proj2 (Z.leb_gt mx I)) by lia. cbn [andb]. ring.
    - intros i o1 Hi (L1 & V1 & K1).
      destruct (for_total (fun j o' => alen o' = alen o /\ (forall I J, (0 <= I < nx)%Z -> (0 <= J < ny)%Z -> afn o' (J * nx + I)%Z = afn o1 (J * nx + I)%Z + (if (I =? mx + i)%Z && (J <? my + j)%Z then mult * basis N gx I x * basis N gy J y else 0)) /\ (forall k, (nx * ny <= k)%Z -> afn o' k = afn o k))
        0 (Z.of_nat N + 1) (fun j output => a <- aget wx i ;; b <- aget wy j ;; (let k := ((j + my) * nx + i + mx)%Z in o <- aget output k ;; aset output k (o + mult * a * b))) o1) as (o2 & E2 & L2 & V2 & K2); [lia| | |].
      + split; [exact L1|]. split; [|exact K1]. intros I J HI HJ. destruct (Z.eqb_spec I (mx + i)); cbn [andb]; [|ring]. destruct (Z.ltb_spec J (my + 0)); [|ring]. rewrite (By J) by lia. rewrite (proj2 (Z.leb_gt my J)) by lia. cbn [andb]. ring.
      + intros j o2 Hj (L2 & V2 & K2). rewrite aget_ok by lia. cbn [bind]. rewrite aget_ok by lia. cbn [bind]. cbv zeta.
        replace ((j + my) * nx + i + mx)%Z with ((j + my) * nx + (mx + i))%Z by lia.
        assert (IB : (0 <= (j + my) * nx + (mx + i) < nx * ny)%Z) by nia.
        rewrite aget_ok by lia. cbn [bind]. rewrite aset_ok by lia. eexists. split; [reflexivity|]. cbn [alen afn]. split; [exact L2|]. split.
        * intros I J HI HJ. destruct (Z.eq_dec (J * nx + I) ((j + my) * nx + (mx + i))) as [EQ|NE].
          -- rewrite EQ, upd_same. apply (idx_inj nx) in EQ; [|lia|lia]. destruct EQ as [-> ->]. rewrite V2 by lia.
             rewrite Z.eqb_refl. rewrite (proj2 (Z.ltb_ge (j + my) (my + j))), (proj2 (Z.ltb_lt (j + my) (my + (j + 1)))) by lia. cbn [andb].
             rewrite (Bx (mx + i)%Z), (By (j + my)%Z) by lia. rewrite (proj2 (Z.leb_le mx (mx + i))), (proj2 (Z.leb_le (mx + i) (mx + Z.of_nat N))), (proj2 (Z.leb_le my (j + my))), (proj2 (Z.leb_le (j + my) (my + Z.of_nat N))) by lia. cbn [andb].
             replace (mx + i - mx)%Z with i by lia. replace (j + my - my)%Z with j by lia. ring.
          -- rewrite upd_other by exact NE. rewrite V2 by lia. f_equal. destruct (Z.eqb_spec I (mx + i)) as [-> | NI]; cbn [andb]; [|reflexivity].
             destruct (Z.ltb_spec J (my + j)), (Z.ltb_spec J (my + (j + 1))); try reflexivity; try lia. exfalso. apply NE. replace J with (j + my)%Z by lia. reflexivity.
        * intros k Hk. rewrite upd_other by lia. apply K2. exact Hk.
      + exists o2. split; [exact E2|]. split; [exact L2|]. split; [|exact K2]. intros I J HI HJ. rewrite V2, V1 by lia. rewrite Rplus_assoc. f_equal.
        destruct (Z.ltb_spec I (mx + i)), (Z.ltb_spec I (mx + (i + 1))), (Z.eqb_spec I (mx + i)); cbn [andb]; try lia; try ring.
        destruct (Z.ltb_spec J (my + (Z.of_nat N + 1))); [ring|]. rewrite (By J) by lia. rewrite (proj2 (Z.leb_gt J (my + Z.of_nat N))) by lia. rewrite andb_false_r. ring.
    - exists o'. split; [exact E|]. split; [exact L|]. split; [|exact K]. intros I J HI HJ. rewrite VV by lia. f_equal. destruct (Z.ltb_spec I (mx + (Z.of_nat N + 1))); [reflexivity|]. rewrite (Bx I) by lia. rewrite (proj2 (Z.leb_gt I (mx + Z.of_nat N))) by lia. rewrite andb_false_r. ring.
  Qed.
End Out.
