(** The model routines compute the quadrature sums; the loop over cells. *)
From Coquelicot Require Import Coquelicot.
From Coq Require Import Psatz.
From Verif Require Import Arr PolyProofs BinSearchModel SplineModel SplineGlue BsplModel GeomModel GeomProofs GeomProofs2 GeomProofs3 GeomProofs4 GeomProofs5 GeomProofs6 GeomProofs7 SplineSpec BsplSpec BsplProofs BsplProofs2 BsplProofs3 BsplProofs4 BsplProofs5 GeomSpec.
Require Import List. Import ListNotations.
Local Open Scope R_scope.

Lemma comp_in N g t : grid_ok g -> within g t -> exists m B, nonzeroComponents N g t 0 = Ok (m, B) /\ comps N g t m B /\
  (forall i, (0 <= i <= alen g - 2)%Z -> afn g i < t < afn g (i + 1)%Z -> m = i).
Proof.
  intros (Hx & Hn) Ht. destruct (nonzero_in g Hx Hn N t 0 Ht ltac:(lia) ltac:(lia)) as (m & B & E & EB & LB & Hm & T1 & T2 & VB). exists m, B.
  pose proof (nonzero_basis g Hx N t m B E Ht EB Hm T1 T2 VB) as NB. split; [exact EB|]. split; [unfold comps, nbasis in *; repeat split; try lia; exact NB|].
  intros i Hi Hti. rewrite (knot_in g) in T1 by lia. rewrite !(knot_in g) in T2 by lia.
  assert (A : afn g (m + 1)%Z >= t) by lra.
  destruct (Z_lt_le_dec m i) as [L|L]; [pose proof (inc_le g Hx (m + 1) i ltac:(lia) ltac:(lia) ltac:(lia)); lra|].
  destruct (Z_lt_le_dec i m) as [L'|L']; [pose proof (inc_le g Hx (i + 1) m ltac:(lia) ltac:(lia) ltac:(lia)); lra|]. lia.
Qed.
Lemma half05 : 0.5 = 1 / 2. Proof. lra. Qed.
Lemma quarter025 : 0.25 = 1 / 4. Proof. lra. Qed.

Section M.
  Variable T : georule. Variable N : nat. Hypothesis HT : rules_ok T N.
  Variables gx gy : arr R.
  Hypothesis Hgx : grid_ok gx. Hypothesis Hgy : grid_ok gy.
  Let gbox := in_box (x_first gx) (x_last gx) (x_first gy) (x_last gy).
  Let bf (I J : Z) (x y : R) := basis N gx I x * basis N gy J y.
  Let Adds := adds N gx gy.
  Let Room := room N gx gy.
  Lemma room_adds o o' q : Room o -> Adds o o' q -> Room o'.
  Proof. intros H (L & _). unfold Room, room in *. rewrite L. exact H. Qed.
  Lemma bary_closed lo hi a b p q r : lo <= p <= hi -> lo <= q <= hi -> lo <= r <= hi -> 0 < a -> 0 < b -> a + b < 1 -> lo <= p * a + q * b + r * (1 - a - b) <= hi.
  Proof.
    intros Hp Hq Hr Ha Hb Hab.
    assert (0 <= (p - lo) * a) by (apply Rmult_le_pos; lra). assert (0 <= (q - lo) * b) by (apply Rmult_le_pos; lra). assert (0 <= (r - lo) * (1 - a - b)) by (apply Rmult_le_pos; lra).
    assert (0 <= (hi - p) * a) by (apply Rmult_le_pos; lra). assert (0 <= (hi - q) * b) by (apply Rmult_le_pos; lra). assert (0 <= (hi - r) * (1 - a - b)) by (apply Rmult_le_pos; lra). lra.
  Qed.
  Lemma rulePoints_ok p1 p2 p3 A rule : gbox p1 -> gbox p2 -> gbox p3 -> rule_inside rule -> forall o, Room o ->
    exists o', rulePoints N gx gy p1 p2 p3 A rule o = Ok o' /\ Adds o o' (fun I J => qrule p1 p2 p3 A rule (bf I J)).
  Proof.
    intros [X1 Y1] [X2 Y2] [X3 Y3]. induction rule as [|[[a b] w] l IH]; intros HR o Ho; cbn [rulePoints].
    - exists o. split; [reflexivity|]. apply adds_refl. reflexivity.
    - inversion HR as [|? ? (Q1 & Q2 & Q3) HR']; subst. cbn [fst snd] in *.
      set (x := fst p1 * a + fst p2 * b + fst p3 * (1 - a - b)). set (y := snd p1 * a + snd p2 * b + snd p3 * (1 - a - b)).
      destruct (comp_in N gx x Hgx) as (mx & wx & -> & Cx & _); [apply bary_closed; assumption|]. cbn [bind].
      destruct (comp_in N gy y Hgy) as (my & wy & -> & Cy & _); [apply bary_closed; assumption|]. cbn [bind].
      destruct (accumulate_ok N gx gy Hgx Hgy (A * w) x y mx my wx wy o Cx Cy Ho) as (o1 & -> & A1). cbn [bind].
      destruct (IH HR' o1 (room_adds _ _ _ Ho A1)) as (o2 & E2 & A2). exists o2. split; [exact E2|]. refine (adds_trans _ _ _ _ _ _ _ _ _ A1 A2 _). intros I J _ _.
      unfold qrule. rewrite rsum_cons. cbn [fst snd]. unfold bf. fold x y. ring.
  Qed.
  Lemma tarea_model p1 p2 p3 : 0.5 * (fst p1 * (snd p2 - snd p3) + fst p2 * (snd p3 - snd p1) + fst p3 * (snd p1 - snd p2)) = tarea p1 p2 p3.
  Proof. unfold tarea. rewrite half05. reflexivity. Qed.
  Lemma triangle_ok p1 p2 p3 o : gbox p1 -> gbox p2 -> gbox p3 -> Room o -> exists o', integrateOverTriangle T N gx gy p1 p2 p3 o = Ok o' /\ Adds o o' (fun I J => qtri T N p1 p2 p3 (bf I J)).
  Proof.
    intros H1 H2 H3 Ho. unfold integrateOverTriangle. rewrite tarea_model. unfold qtri, Req_b. destruct (Req_EM_T (tarea p1 p2 p3) 0).
    - exists o. split; [reflexivity|]. apply adds_refl. reflexivity.
    - apply rulePoints_ok; auto. apply ruleN_inside. exact HT.
  Qed.
  Lemma fan_ok p0 l : gbox p0 -> forall prev o, gbox prev -> Forall gbox l -> Room o -> exists o', fan T N gx gy p0 prev l o = Ok o' /\ Adds o o' (fun I J => qfan T N p0 prev l (bf I J)).
  Proof.
    intros H0. induction l as [|v l IH]; intros prev o Hp Hl Ho; cbn [fan qfan].
    - exists o. split; [reflexivity|]. apply adds_refl. reflexivity.
    - inversion Hl as [|? ? Hv Hl']; subst. destruct (triangle_ok p0 prev v o H0 Hp Hv Ho) as (o1 & -> & A1). cbn [bind].
      destruct (IH v o1 Hv Hl' (room_adds _ _ _ Ho A1)) as (o2 & E2 & A2). exists o2. split; [exact E2|]. refine (adds_trans _ _ _ _ _ _ _ _ _ A1 A2 _). reflexivity.
  Qed.
  Lemma fanAll_ok P o : Forall gbox P -> Room o -> exists o', fanAll T N gx gy P o = Ok o' /\ Adds o o' (fun I J => qfanAll T N P (bf I J)).
  Proof.
    intros HP Ho. destruct P as [|p0 [|p1 t]]; cbn [fanAll qfanAll]; try (exists o; split; [reflexivity|apply adds_refl; reflexivity]).
    inversion HP as [|? ? A B]; subst. inversion B as [|? ? C D]; subst. apply fan_ok; assumption.
  Qed.
  Variables i j : Z.
  Hypothesis Hi : (0 <= i <= alen gx - 2)%Z. Hypothesis Hj : (0 <= j <= alen gy - 2)%Z.
  Let cbox := in_box (afn gx i) (afn gx (i + 1)%Z) (afn gy j) (afn gy (j + 1)%Z).
  Lemma cbox_gbox p : cbox p -> gbox p.
  Proof.
    intros [A B]. destruct Hgx as [Ix Lx], Hgy as [Iy Ly]. unfold gbox, in_box, x_first, x_last.
    pose proof (inc_le gx Ix 0 i ltac:(lia) ltac:(lia) ltac:(lia)). pose proof (inc_le gx Ix (i + 1) (alen gx - 1) ltac:(lia) ltac:(lia) ltac:(lia)).
    pose proof (inc_le gy Iy 0 j ltac:(lia) ltac:(lia) ltac:(lia)). pose proof (inc_le gy Iy (j + 1) (alen gy - 1) ltac:(lia) ltac:(lia) ltac:(lia)). lra.
  Qed.
  Lemma mid_closed lo hi p q X : lo <= p <= hi -> lo <= q <= hi -> 0 < X < 1 -> lo <= X * p + (1 - X) * q <= hi.
  Proof. intros. nra. Qed.
  (** both Gauss points of a side belong to the same segment *)
  Lemma pair_in g k p q X : grid_ok g -> (0 <= k <= alen g - 2)%Z -> afn g k <= p <= afn g (k + 1)%Z -> afn g k <= q <= afn g (k + 1)%Z -> 0 < X < 1 ->
    exists m Ba Bb, nonzeroComponents N g (X * p + (1 - X) * q) 0 = Ok (m, Ba) /\ nonzeroComponents N g (X * q + (1 - X) * p) 0 = Ok (m, Bb) /\
      comps N g (X * p + (1 - X) * q) m Ba /\ comps N g (X * q + (1 - X) * p) m Bb.
  Proof.
    intros Hg Hk Hp Hq HX. pose proof Hg as [Ig Lg].
    pose proof (inc_le g Ig 0 k ltac:(lia) ltac:(lia) ltac:(lia)). pose proof (inc_le g Ig (k + 1) (alen g - 1) ltac:(lia) ltac:(lia) ltac:(lia)).
    destruct (Req_EM_T p q) as [<-|Npq].
    - destruct (comp_in N g (X * p + (1 - X) * p) Hg) as (m & B & E & C & _); [pose proof (mid_closed _ _ p p X Hp Hp HX); unfold within, x_first, x_last; lra|]. exists m, B, B. auto.
    - destruct (comp_in N g (X * p + (1 - X) * q) Hg) as (m & B & E & C & U); [pose proof (mid_closed _ _ p q X Hp Hq HX); unfold within, x_first, x_last; lra|].
      destruct (comp_in N g (X * q + (1 - X) * p) Hg) as (m' & B' & E' & C' & U'); [pose proof (mid_closed _ _ q p X Hq Hp HX); unfold within, x_first, x_last; lra|].
      rewrite (U k Hk) in E, C by (apply mid_open; auto). rewrite (U' k Hk) in E', C' by (apply mid_open; auto). exists k, B, B'. auto.
  Qed.
  Lemma rect_ok p q o : cbox p -> cbox q -> Room o -> exists o', integrateOverRectangle T N gx gy (mkRect p q) o = Ok o' /\ Adds o o' (fun I J => qrect T N (mkRect p q) (bf I J)).
  Proof.
    intros Hp Hq Ho. unfold integrateOverRectangle, qrect. cbn [r_lower r_upper]. cbv zeta. destruct (Nat.leb_spec N 1) as [L|L].
    - pose proof (cbox_gbox p Hp) as [A1 A2]. pose proof (cbox_gbox q Hq) as [B1 B2].
      rewrite !half05. replace (1 / 2 * (fst p + fst q)) with ((fst p + fst q) / 2) by field. replace (1 / 2 * (snd p + snd q)) with ((snd p + snd q) / 2) by field.
      destruct (comp_in N gx ((fst p + fst q) / 2) Hgx) as (mx & wx & -> & Cx & _); [unfold within; lra|]. cbn [bind].
      destruct (comp_in N gy ((snd p + snd q) / 2) Hgy) as (my & wy & -> & Cy & _); [unfold within; lra|]. cbn [bind].
      destruct (accumulate_ok N gx gy Hgx Hgy ((fst q - fst p) * (snd q - snd p) * 1) _ _ mx my wx wy o Cx Cy Ho) as (o1 & -> & A). exists o1. split; [reflexivity|].
      refine (adds_ext _ _ _ _ _ _ _ _ A). intros I J _ _. unfold bf. ring.
    - destruct (HT ltac:(lia)) as [HX _]. rewrite quarter025. destruct Hp as [P1 P2], Hq as [Q1 Q2].
      destruct (pair_in gx i (fst p) (fst q) (g_X1 T) Hgx Hi P1 Q1 HX) as (mx & wxa & wxb & -> & -> & Cxa & Cxb). cbn [bind].
      destruct (pair_in gy j (snd p) (snd q) (g_X1 T) Hgy Hj P2 Q2 HX) as (my & wya & wyb & -> & -> & Cya & Cyb). cbn [bind].
      set (A := (fst q - fst p) * (snd q - snd p) * (1 / 4)).
      destruct (accumulate_ok N gx gy Hgx Hgy A _ _ mx my wxa wya o Cxa Cya Ho) as (o1 & -> & A1). cbn [bind]. pose proof (room_adds _ _ _ Ho A1) as R1.
      destruct (accumulate_ok N gx gy Hgx Hgy A _ _ mx my wxb wya o1 Cxb Cya R1) as (o2 & -> & A2). cbn [bind]. pose proof (room_adds _ _ _ R1 A2) as R2.
      destruct (accumulate_ok N gx gy Hgx Hgy A _ _ mx my wxa wyb o2 Cxa Cyb R2) as (o3 & -> & A3). cbn [bind]. pose proof (room_adds _ _ _ R2 A3) as R3.
      destruct (accumulate_ok N gx gy Hgx Hgy A _ _ mx my wxb wyb o3 Cxb Cyb R3) as (o4 & -> & A4). exists o4. split; [reflexivity|].
      assert (B2 := adds_trans _ _ _ _ _ _ _ _ _ A1 A2 (fun I J _ _ => eq_refl)). assert (B3 := adds_trans _ _ _ _ _ _ _ _ _ B2 A3 (fun I J _ _ => eq_refl)). refine (adds_trans _ _ _ _ _ _ _ _ _ B3 A4 _).
      intros I J _ _. cbv beta. unfold bf. ring.
  Qed.
  Lemma ipoly_ok P o : Forall cbox P -> Room o -> exists o', integrateOverPolygon T N gx gy P o = Ok o' /\ Adds o o' (fun I J => qpoly T N P (bf I J)).
  Proof.
    intros HP Ho. assert (HG : Forall gbox P) by (eapply Forall_impl; [|exact HP]; apply cbox_gbox). unfold integrateOverPolygon, qpoly.
    destruct P as [|p0 [|p1 [|p2 [|p3 [|p4 t]]]]]; try (apply fanAll_ok; assumption).
    rewrite Forall_forall in HP. destruct (_ && _ && _ && _); [apply rect_ok; auto; apply HP; cbn; auto|]. destruct (_ && _ && _ && _); [apply rect_ok; auto; apply HP; cbn; auto|]. apply fanAll_ok; assumption.
  Qed.
End M.

(** ---- the bounding box ---- *)
Lemma bbox_ok first l : forall a x1 x2 y1 y2, exists a' x1' x2' y1' y2', bbox first l (a, x1, x2, y1, y2) = (a', x1', x2', y1', y2') /\
  x1' <= x1 /\ x2 <= x2' /\ y1' <= y1 /\ y2 <= y2' /\ Forall (in_box x1' x2' y1' y2') l /\
  (x1' = x1 \/ exists p, In p l /\ fst p = x1') /\ (x2' = x2 \/ exists p, In p l /\ fst p = x2') /\ (y1' = y1 \/ exists p, In p l /\ snd p = y1') /\ (y2' = y2 \/ exists p, In p l /\ snd p = y2') /\
  a' = a + match l with [] => 0 | v :: t => path (fun v w => 1 / 2 * ((fst v + fst w) * (snd w - snd v))) v (t ++ [first]) end.
Proof.
  induction l as [|v t IH]; intros a x1 x2 y1 y2; cbn [bbox].
  - exists a, x1, x2, y1, y2. repeat split; auto; try lra. 
  - edestruct IH as (a' & x1' & x2' & y1' & y2' & -> & H1 & H2 & H3 & H4 & HF & G1 & G2 & G3 & G4 & HA). exists a', x1', x2', y1', y2'. split; [reflexivity|].
    pose proof (Rmin_l x1 (fst v)). pose proof (Rmin_r x1 (fst v)). pose proof (Rmax_l x2 (fst v)). pose proof (Rmax_r x2 (fst v)).
    pose proof (Rmin_l y1 (snd v)). pose proof (Rmin_r y1 (snd v)). pose proof (Rmax_l y2 (snd v)). pose proof (Rmax_r y2 (snd v)).
    do 4 (split; [lra|]). split; [constructor; [unfold in_box; lra|exact HF]|].
    split. { destruct G1 as [G|(p & Ip & Ep)]; [|right; exists p; cbn; auto]. revert G. unfold Rmin. destruct (Rle_dec x1 (fst v)); intros G; [left; exact G|right; exists v; cbn; auto]. }
    split. { destruct G2 as [G|(p & Ip & Ep)]; [|right; exists p; cbn; auto]. revert G. unfold Rmax. destruct (Rle_dec x2 (fst v)); intros G; [right; exists v; cbn; auto|left; exact G]. }
    split. { destruct G3 as [G|(p & Ip & Ep)]; [|right; exists p; cbn; auto]. revert G. unfold Rmin. destruct (Rle_dec y1 (snd v)); intros G; [left; exact G|right; exists v; cbn; auto]. }
    split. { destruct G4 as [G|(p & Ip & Ep)]; [|right; exists p; cbn; auto]. revert G. unfold Rmax. destruct (Rle_dec y2 (snd v)); intros G; [right; exists v; cbn; auto|left; exact G]. }
    rewrite HA. rewrite half05. destruct t as [|w t']; cbn [app path]; ring.
Qed.
Lemma area_path v t : path (fun v w => 1 / 2 * ((fst v + fst w) * (snd w - snd v))) v (t ++ [v]) = polygonArea (v :: t).
Proof.
  rewrite area_esum, esum_cons, path_app. rewrite (path_ext _ (fun v w => 0 + 1 / 2 * ((fst w + fst v) * (snd w - snd v))) v t) by (intros; ring).
  rewrite (path_lin (fun _ _ => 0) (fun v w => (fst w + fst v) * (snd w - snd v)) (1 / 2)). assert (Z0 : path (fun _ _ => 0) v t = 0). { generalize v. induction t as [|c l IH]; intros q; [reflexivity|]. cbn [path]. rewrite IH. ring. }
  rewrite Z0. field.
Qed.
