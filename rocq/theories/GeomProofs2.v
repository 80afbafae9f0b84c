(** Winding numbers and clipping. *)
From Coquelicot Require Import Coquelicot.
From Coq Require Import Psatz.
From Verif Require Import Arr PolyProofs GeomModel GeomSpec GeomProofs.
Require Import List. Import ListNotations.
Local Open Scope R_scope.

Definition seg (v w p : pt) : Prop := exists t, 0 <= t <= 1 /\ fst p = fst v + t * (fst w - fst v) /\ snd p = snd v + t * (snd w - snd v).
Lemma lin_t x x1 x2 y1 y2 : x2 <> x1 -> linearInterp x x1 x2 y1 y2 = y1 + (x - x1) / (x2 - x1) * (y2 - y1).
Proof. intros. unfold linearInterp. field. lra. Qed.
Lemma frac01 a b : b <> 0 -> (0 < b /\ 0 <= a <= b \/ b < 0 /\ b <= a <= 0) -> 0 <= a / b <= 1.
Proof.
  intros Hb [[H1 H2]|[H1 H2]].
  - split; [apply Rmult_le_pos; [lra|left; apply Rinv_0_lt_compat; lra]|]. apply (Rmult_le_reg_r b); [lra|]. unfold Rdiv. rewrite Rmult_assoc, Rinv_l by lra. lra.
  - replace (a / b) with ((- a) / (- b)) by (field; lra). split; [apply Rmult_le_pos; [lra|left; apply Rinv_0_lt_compat; lra]|].
    apply (Rmult_le_reg_r (- b)); [lra|]. unfold Rdiv. rewrite Rmult_assoc, Rinv_l by lra. lra.
Qed.
Definition dirline (r : rect) (dir : Z) (p : pt) : Prop :=
  if (dir =? 0)%Z then snd p = snd (r_lower r) else if (dir =? 1)%Z then fst p = fst (r_upper r) else if (dir =? 2)%Z then snd p = snd (r_upper r) else fst p = fst (r_lower r).
Lemma Rle_b_inv a b : if Rle_b a b then a <= b else b < a.
Proof. unfold Rle_b. destruct (Rle_dec a b); lra. Qed.
Lemma inter_seg r dir v w : xorb (isInside v r dir) (isInside w r dir) = true -> seg v w (intersection v w r dir) /\ dirline r dir (intersection v w r dir).
Proof.
  unfold isInside, intersection, dirline, seg.
  destruct (dir =? 0)%Z; [|destruct (dir =? 1)%Z; [|destruct (dir =? 2)%Z]]; cbn [fst snd]; intros H; (split; [|reflexivity]).
  - pose proof (Rle_b_inv (snd (r_lower r)) (snd v)) as A. pose proof (Rle_b_inv (snd (r_lower r)) (snd w)) as B.
    assert (C : (snd w - snd v <> 0) /\ (0 < snd w - snd v /\ 0 <= snd (r_lower r) - snd v <= snd w - snd v \/ snd w - snd v < 0 /\ snd w - snd v <= snd (r_lower r) - snd v <= 0)) by (destruct Rle_b, Rle_b; try discriminate; lra).
    destruct C as [C1 C2]. exists ((snd (r_lower r) - snd v) / (snd w - snd v)). split; [apply frac01; assumption|]. rewrite lin_t by lra. split; [reflexivity|field; lra].
  - pose proof (Rle_b_inv (fst v) (fst (r_upper r))) as A. pose proof (Rle_b_inv (fst w) (fst (r_upper r))) as B.
    assert (C : (fst w - fst v <> 0) /\ (0 < fst w - fst v /\ 0 <= fst (r_upper r) - fst v <= fst w - fst v \/ fst w - fst v < 0 /\ fst w - fst v <= fst (r_upper r) - fst v <= 0)) by (destruct Rle_b, Rle_b; try discriminate; lra).
    destruct C as [C1 C2]. exists ((fst (r_upper r) - fst v) / (fst w - fst v)). split; [apply frac01; assumption|]. rewrite lin_t by lra. split; [field; lra|reflexivity].
  - pose proof (Rle_b_inv (snd v) (snd (r_upper r))) as A. pose proof (Rle_b_inv (snd w) (snd (r_upper r))) as B.
    assert (C : (snd w - snd v <> 0) /\ (0 < snd w - snd v /\ 0 <= snd (r_upper r) - snd v <= snd w - snd v \/ snd w - snd v < 0 /\ snd w - snd v <= snd (r_upper r) - snd v <= 0)) by (destruct Rle_b, Rle_b; try discriminate; lra).
    destruct C as [C1 C2]. exists ((snd (r_upper r) - snd v) / (snd w - snd v)). split; [apply frac01; assumption|]. rewrite lin_t by lra. split; [reflexivity|field; lra].
  - pose proof (Rle_b_inv (fst (r_lower r)) (fst v)) as A. pose proof (Rle_b_inv (fst (r_lower r)) (fst w)) as B.
    assert (C : (fst w - fst v <> 0) /\ (0 < fst w - fst v /\ 0 <= fst (r_lower r) - fst v <= fst w - fst v \/ fst w - fst v < 0 /\ fst w - fst v <= fst (r_lower r) - fst v <= 0)) by (destruct Rle_b, Rle_b; try discriminate; lra).
    destruct C as [C1 C2]. exists ((fst (r_lower r) - fst v) / (fst w - fst v)). split; [apply frac01; assumption|]. rewrite lin_t by lra. split; [field; lra|reflexivity].
Qed.
(** convex sets are preserved *)
Definition convex (K : pt -> Prop) : Prop := forall v w p, K v -> K w -> seg v w p -> K p.
Lemma clip_convex K r dir P : convex K -> Forall K P -> Forall K (clipDir r dir P).
Proof.
  intros HK HP. destruct P as [|a t]; [constructor|]. unfold clipDir.
  assert (G : forall l p, K p -> Forall K l -> Forall K (clipLoop r dir p l)).
  { induction l as [|c l IH]; intros p Hp Hl; cbn [clipLoop]; [constructor|]. inversion Hl; subst. apply Forall_app. split; [|apply Forall_app; split; [|apply IH; assumption]].
    - destruct (xorb _ _) eqn:E; [|constructor]. constructor; [|constructor]. apply (HK p c); auto. apply inter_seg. exact E.
    - destruct isInside; [|constructor]. constructor; auto. }
  apply G; [|exact HP]. inversion HP; subst. rewrite last_cons. apply last_in; auto.
Qed.
Lemma dirline_inside r dir p : dirline r dir p -> isInside p r dir = true.
Proof.
  unfold dirline, isInside. destruct (dir =? 0)%Z; [|destruct (dir =? 1)%Z; [|destruct (dir =? 2)%Z]]; intros ->; apply Rle_b_t; lra.
Qed.
Lemma clip_inside r dir P : Forall (fun p => isInside p r dir = true) (clipDir r dir P).
Proof.
  destruct P as [|a t]; [constructor|]. unfold clipDir. generalize (last (a :: t) a) as p. generalize (a :: t) as l.
  induction l as [|c l IH]; intros p; cbn [clipLoop]; [constructor|]. apply Forall_app. split; [|apply Forall_app; split; [|apply IH]].
  - destruct (xorb _ _) eqn:E; [|constructor]. constructor; [|constructor]. apply dirline_inside. apply inter_seg. exact E.
  - destruct (isInside c r dir) eqn:E; [|constructor]. constructor; auto.
Qed.
Lemma clip_same r dir P : Forall (fun p => isInside p r dir = true) P -> clipDir r dir P = P.
Proof.
  intros HP. destruct P as [|a t]; [reflexivity|]. unfold clipDir.
  assert (G : forall l p, isInside p r dir = true -> Forall (fun p => isInside p r dir = true) l -> clipLoop r dir p l = l).
  { induction l as [|c l IH]; intros p Hp Hl; cbn [clipLoop]; [reflexivity|]. inversion Hl; subst. rewrite Hp, H1. cbn [xorb app]. f_equal. apply IH; assumption. }
  apply G; [|exact HP]. inversion HP; subst. rewrite last_cons. apply (last_in (fun p => isInside p r dir = true)); auto.
Qed.
Lemma clip_none r dir P : Forall (fun p => isInside p r dir = false) P -> clipDir r dir P = [].
Proof.
  intros HP. destruct P as [|a t]; [reflexivity|]. unfold clipDir.
  assert (G : forall l p, isInside p r dir = false -> Forall (fun p => isInside p r dir = false) l -> clipLoop r dir p l = []).
  { induction l as [|c l IH]; intros p Hp Hl; cbn [clipLoop]; [reflexivity|]. inversion Hl; subst. rewrite Hp, H1. cbn [xorb app]. apply IH; assumption. }
  apply G; [|exact HP]. inversion HP; subst. rewrite last_cons. apply (last_in (fun p => isInside p r dir = false)); auto.
Qed.
Lemma half_convex (a b c : R) : convex (fun p => a * fst p + b * snd p <= c).
Proof. intros v w p Hv Hw (t & Ht & -> & ->). nra. Qed.
Lemma half_convex_strict (a b c : R) : convex (fun p => a * fst p + b * snd p < c).
Proof.
  intros v w p Hv Hw (t & Ht & -> & ->). set (A := a * fst v + b * snd v) in *. set (B := a * fst w + b * snd w) in *.
  replace (a * (fst v + t * (fst w - fst v)) + b * (snd v + t * (snd w - snd v))) with (A + t * (B - A)) by (unfold A, B; ring).
  destruct (Rle_or_lt B A); nra.
Qed.
Lemma convex_iff (K L : pt -> Prop) : (forall p, K p <-> L p) -> convex K -> convex L.
Proof. intros H C v w p Hv Hw S. apply H. apply (C v w p); auto; apply H; assumption. Qed.
Lemma inside_convex r dir : convex (fun p => isInside p r dir = true).
Proof.
  unfold isInside. destruct (dir =? 0)%Z; [|destruct (dir =? 1)%Z; [|destruct (dir =? 2)%Z]].
  - apply (convex_iff (fun p => 0 * fst p + -1 * snd p <= - snd (r_lower r))); [|apply half_convex]. intros p. rewrite Rle_b_spec. lra.
  - apply (convex_iff (fun p => 1 * fst p + 0 * snd p <= fst (r_upper r))); [|apply half_convex]. intros p. rewrite Rle_b_spec. lra.
  - apply (convex_iff (fun p => 0 * fst p + 1 * snd p <= snd (r_upper r))); [|apply half_convex]. intros p. rewrite Rle_b_spec. lra.
  - apply (convex_iff (fun p => -1 * fst p + 0 * snd p <= - fst (r_lower r))); [|apply half_convex]. intros p. rewrite Rle_b_spec. lra.
Qed.
Lemma outside_convex r dir : convex (fun p => isInside p r dir = false).
Proof.
  unfold isInside. destruct (dir =? 0)%Z; [|destruct (dir =? 1)%Z; [|destruct (dir =? 2)%Z]].
  - apply (convex_iff (fun p => 0 * fst p + 1 * snd p < snd (r_lower r))); [|apply half_convex_strict]. intros p. pose proof (Rle_b_inv (snd (r_lower r)) (snd p)). destruct Rle_b; split; intros; try discriminate; try lra; reflexivity.
  - apply (convex_iff (fun p => -1 * fst p + 0 * snd p < - fst (r_upper r))); [|apply half_convex_strict]. intros p. pose proof (Rle_b_inv (fst p) (fst (r_upper r))). destruct Rle_b; split; intros; try discriminate; try lra; reflexivity.
  - apply (convex_iff (fun p => 0 * fst p + -1 * snd p < - snd (r_upper r))); [|apply half_convex_strict]. intros p. pose proof (Rle_b_inv (snd p) (snd (r_upper r))). destruct Rle_b; split; intros; try discriminate; try lra; reflexivity.
  - apply (convex_iff (fun p => 1 * fst p + 0 * snd p < fst (r_lower r))); [|apply half_convex_strict]. intros p. pose proof (Rle_b_inv (fst (r_lower r)) (fst p)). destruct Rle_b; split; intros; try discriminate; try lra; reflexivity.
Qed.
Definition boxr (r : rect) : pt -> Prop := in_box (fst (r_lower r)) (fst (r_upper r)) (snd (r_lower r)) (snd (r_upper r)).
Lemma boxr_inside r p : boxr r p <-> isInside p r 0 = true /\ isInside p r 1 = true /\ isInside p r 2 = true /\ isInside p r 3 = true.
Proof. unfold boxr, in_box, isInside. cbn [Z.eqb Pos.eqb]. rewrite !Rle_b_spec. tauto. Qed.
Lemma clipped_in_box P r : Forall (boxr r) (clipPolygonByRectangle P r).
Proof.
  unfold clipPolygonByRectangle.
  assert (A0 : Forall (fun p => isInside p r 0 = true) (clipDir r 3 (clipDir r 2 (clipDir r 1 (clipDir r 0 P))))) by (do 3 (apply clip_convex; [apply inside_convex|]); apply clip_inside).
  assert (A1 : Forall (fun p => isInside p r 1 = true) (clipDir r 3 (clipDir r 2 (clipDir r 1 (clipDir r 0 P))))) by (do 2 (apply clip_convex; [apply inside_convex|]); apply clip_inside).
  assert (A2 : Forall (fun p => isInside p r 2 = true) (clipDir r 3 (clipDir r 2 (clipDir r 1 (clipDir r 0 P))))) by (apply clip_convex; [apply inside_convex|]; apply clip_inside).
  pose proof (clip_inside r 3 (clipDir r 2 (clipDir r 1 (clipDir r 0 P)))) as A3.
  rewrite Forall_forall in *. intros p Hp. apply boxr_inside. auto.
Qed.
Lemma clip_identity P r : Forall (boxr r) P -> clipPolygonByRectangle P r = P.
Proof.
  intros H. unfold clipPolygonByRectangle. rewrite Forall_forall in H.
  rewrite (clip_same r 0 P), (clip_same r 1 P), (clip_same r 2 P), (clip_same r 3 P); [reflexivity|..]; apply Forall_forall; intros p Hp; specialize (H p Hp); apply boxr_inside in H; tauto.
Qed.
Lemma clip_empty P r dir : (0 <= dir <= 3)%Z -> Forall (fun p => isInside p r dir = false) P -> clipPolygonByRectangle P r = [].
Proof.
  intros Hd H. unfold clipPolygonByRectangle.
  assert (C : dir = 0%Z \/ dir = 1%Z \/ dir = 2%Z \/ dir = 3%Z) by lia. destruct C as [-> |[-> |[-> | ->]]].
  - rewrite (clip_none r 0 P H). reflexivity.
  - rewrite (clip_none r 1 (clipDir r 0 P)); [reflexivity|]. apply clip_convex; [apply outside_convex|exact H].
  - rewrite (clip_none r 2 (clipDir r 1 (clipDir r 0 P))); [reflexivity|]. do 2 (apply clip_convex; [apply outside_convex|]). exact H.
  - apply clip_none. do 3 (apply clip_convex; [apply outside_convex|]). exact H.
Qed.

(** ---- the winding number ---- *)
Section Cr.
  Variables x y : R.
  Definition cr (v w : pt) : R := IZR (crossing x y (v, w)).
  Definition DD (v w : pt) : R := (fst w - fst v) * (y - snd v) - (snd w - snd v) * (x - fst v).
  Lemma DD_edge v w : snd w <> snd v -> edge_x v w y - x = DD v w / (snd w - snd v).
  Proof. intros. unfold edge_x, DD. field. lra. Qed.
  Lemma div_sign a b : b <> 0 -> (0 < a / b <-> (0 < b /\ 0 < a) \/ (b < 0 /\ a < 0)).
  Proof.
    intros Hb. split; intros H.
    - assert (a = a / b * b) by (field; assumption). set (q := a / b) in *. destruct (Rle_or_lt b 0); [right|left]; nra.
    - destruct H as [[H1 H2]|[H1 H2]]; [apply Rdiv_lt_0_compat; assumption|]. replace (a / b) with ((- a) / (- b)) by (field; assumption). apply Rdiv_lt_0_compat; lra.
  Qed.
  Lemma cr_cases v w : (snd v <= y < snd w /\ 0 < DD v w /\ cr v w = 1) \/ (snd v <= y < snd w /\ DD v w <= 0 /\ cr v w = 0) \/
    (snd w <= y < snd v /\ DD v w < 0 /\ cr v w = -1) \/ (snd w <= y < snd v /\ 0 <= DD v w /\ cr v w = 0) \/ (snd v <= y /\ snd w <= y /\ cr v w = 0) \/ (y < snd v /\ y < snd w /\ cr v w = 0).
  Proof.
    unfold cr, crossing. destruct (Rle_dec (snd v) y).
    - destruct (Rlt_dec y (snd w)); [|right; right; right; right; left; repeat split; lra].
      pose proof (DD_edge v w ltac:(lra)) as E. pose proof (div_sign (DD v w) (snd w - snd v) ltac:(lra)) as S. rewrite <- E in S.
      destruct (Rlt_dec x (edge_x v w y)) as [L|L].
      + left. split; [lra|]. split; [|reflexivity]. destruct (proj1 S ltac:(lra)); lra.
      + right; left. split; [lra|]. split; [|reflexivity]. apply Rnot_lt_le. intros C. apply L. assert (0 < edge_x v w y - x) by (apply S; lra). lra.
    - destruct (Rle_dec (snd w) y); [|right; right; right; right; right; repeat split; lra].
      pose proof (DD_edge v w ltac:(lra)) as E. pose proof (div_sign (DD v w) (snd w - snd v) ltac:(lra)) as S. rewrite <- E in S.
      destruct (Rlt_dec x (edge_x v w y)) as [L|L].
      + right; right; left. split; [lra|]. split; [|reflexivity]. destruct (proj1 S ltac:(lra)); lra.
      + right; right; right; left. split; [lra|]. split; [|reflexivity]. apply Rnot_lt_le. intros C. apply L. assert (0 < edge_x v w y - x) by (apply S; lra). lra.
  Qed.
  Lemma cr_antisym v w : cr w v = - cr v w.
  Proof.
    assert (A : DD w v = - DD v w) by (unfold DD; ring).
    destruct (cr_cases v w) as [H|[H|[H|[H|[H|H]]]]]; destruct (cr_cases w v) as [G|[G|[G|[G|[G|G]]]]]; destruct H as (H1 & H2 & H3); destruct G as (G1 & G2 & G3); lra.
  Qed.
  Lemma cr_split v w p : seg v w p -> cr v w = cr v p + cr p w.
  Proof.
    intros (t & Ht & E1 & E2).
    assert (A : DD v p = t * DD v w) by (unfold DD; rewrite E1, E2; ring). assert (B : DD p w = (1 - t) * DD v w) by (unfold DD; rewrite E1, E2; ring).
    set (d := DD v w) in *.
    assert (T0 : snd p - snd v = t * (snd w - snd v)) by lra. assert (T1 : snd w - snd p = (1 - t) * (snd w - snd v)) by lra.
    destruct (cr_cases v w) as [H|[H|[H|[H|[H|H]]]]]; destruct H as (H1 & H2 & H3); fold d in H2; rewrite H3;
    destruct (cr_cases v p) as [G|[G|[G|[G|[G|G]]]]]; destruct G as (G1 & G2 & G3); rewrite G3;
    destruct (cr_cases p w) as [F|[F|[F|[F|[F|F]]]]]; destruct F as (F1 & F2 & F3); rewrite F3; try lra; exfalso; rewrite ?A in G2; rewrite ?B in F2; nra.
  Qed.
  (** all vertices to the right, to the left, above or below *)
  Definition above (p : pt) : R := if Rlt_dec y (snd p) then 1 else 0.
  Lemma DD_alt v w : DD v w = (fst w - x) * (y - snd v) + (fst v - x) * (snd w - y).
  Proof. unfold DD. ring. Qed.
  Lemma cr_right v w : x < fst v -> x < fst w -> cr v w = above w - above v.
  Proof.
    intros Hv Hw. pose proof (DD_alt v w) as A. unfold above.
    destruct (cr_cases v w) as [H|[H|[H|[H|[H|H]]]]]; destruct H as (H1 & H2 & H3); rewrite H3; destruct (Rlt_dec y (snd w)), (Rlt_dec y (snd v)); try lra; exfalso; nra.
  Qed.
  Lemma cr_left v w : fst v <= x -> fst w <= x -> cr v w = 0.
  Proof.
    intros Hv Hw. pose proof (DD_alt v w) as A.
    destruct (cr_cases v w) as [H|[H|[H|[H|[H|H]]]]]; destruct H as (H1 & H2 & H3); rewrite H3; try lra; exfalso; nra.
  Qed.
  Lemma cr_below v w : snd v <= y -> snd w <= y -> cr v w = 0.
  Proof. intros Hv Hw. destruct (cr_cases v w) as [H|[H|[H|[H|[H|H]]]]]; destruct H as (H1 & H2 & H3); lra. Qed.
  Lemma cr_above v w : y < snd v -> y < snd w -> cr v w = 0.
  Proof. intros Hv Hw. destruct (cr_cases v w) as [H|[H|[H|[H|[H|H]]]]]; destruct H as (H1 & H2 & H3); lra. Qed.
  Lemma winding_esum P : IZR (winding P x y) = esum cr P.
  Proof.
    rewrite <- rsum_edges. unfold winding. induction (edges P) as [|[v w] l IH]; [reflexivity|]. cbn [isum rsum fold_right fst snd]. rewrite plus_IZR. f_equal. exact IH.
  Qed.
  Lemma clip_cr P r : fst (r_lower r) < x < fst (r_upper r) -> snd (r_lower r) < y < snd (r_upper r) -> esum cr (clipPolygonByRectangle P r) = esum cr P.
  Proof.
    intros Hx Hy. unfold clipPolygonByRectangle.
    rewrite (clip_esum_pot r 3 (dirline r 3) cr (fun _ => 0)), (clip_esum_pot r 2 (dirline r 2) cr (fun _ => 0)), (clip_esum_pot r 1 (dirline r 1) cr above), (clip_esum_pot r 0 (dirline r 0) cr (fun _ => 0)); [reflexivity|..];
      try (intros v w H; apply inter_seg; exact H); try (intros v w H; apply cr_split; apply inter_seg; exact H); unfold isInside, dirline; cbn [Z.eqb Pos.eqb]; intros v w Hv Hw.
    - rewrite cr_below; [ring|..].
      + pose proof (Rle_b_inv (snd (r_lower r)) (snd v)). destruct Hv as [E|E]; [rewrite E in *; lra|lra].
      + pose proof (Rle_b_inv (snd (r_lower r)) (snd w)). destruct Hw as [E|E]; [rewrite E in *; lra|lra].
    - apply cr_right.
      + pose proof (Rle_b_inv (fst v) (fst (r_upper r))). destruct Hv as [E|E]; [rewrite E in *; lra|lra].
      + pose proof (Rle_b_inv (fst w) (fst (r_upper r))). destruct Hw as [E|E]; [rewrite E in *; lra|lra].
    - rewrite cr_above; [ring|..].
      + pose proof (Rle_b_inv (snd v) (snd (r_upper r))). destruct Hv as [E|E]; [rewrite E in *; lra|lra].
      + pose proof (Rle_b_inv (snd w) (snd (r_upper r))). destruct Hw as [E|E]; [rewrite E in *; lra|lra].
    - rewrite cr_left; [ring|..].
      + pose proof (Rle_b_inv (fst (r_lower r)) (fst v)). destruct Hv as [E|E]; [rewrite E in *; lra|lra].
      + pose proof (Rle_b_inv (fst (r_lower r)) (fst w)). destruct Hw as [E|E]; [rewrite E in *; lra|lra].
  Qed.
  (** zero outside of a box *)
  Lemma cr_outside P x1 x2 y1 y2 : Forall (in_box x1 x2 y1 y2) P -> (x < x1 \/ x2 <= x \/ y < y1 \/ y2 <= y) -> esum cr P = 0.
  Proof.
    intros HP [H|[H|[H|H]]].
    - rewrite <- (esum_pot above P). apply (esum_ext_in (in_box x1 x2 y1 y2)); [|exact HP]. intros v w [Hv _] [Hw _]. apply cr_right; lra.
    - rewrite <- (esum_pot (fun _ => 0) P). apply (esum_ext_in (in_box x1 x2 y1 y2)); [|exact HP]. intros v w [Hv _] [Hw _]. rewrite cr_left; lra.
    - rewrite <- (esum_pot (fun _ => 0) P). apply (esum_ext_in (in_box x1 x2 y1 y2)); [|exact HP]. intros v w [_ Hv] [_ Hw]. rewrite cr_above; lra.
    - rewrite <- (esum_pot (fun _ => 0) P). apply (esum_ext_in (in_box x1 x2 y1 y2)); [|exact HP]. intros v w [_ Hv] [_ Hw]. rewrite cr_below; lra.
  Qed.
  (** the model counts the same crossings *)
  Lemma windStep_ok v w k : IZR (windStep x y v w k) = IZR k + cr v w.
  Proof.
    unfold windStep. fold (DD v w). pose proof (Rle_b_inv (snd v) y) as A. pose proof (Rle_b_inv (snd w) y) as B. unfold Rlt_b.
    destruct (cr_cases v w) as [H|[H|[H|[H|[H|H]]]]]; destruct H as (H1 & H2 & H3); rewrite H3;
      destruct (Rle_b (snd v) y); try lra; destruct (Rle_b (snd w) y); try lra; destruct (Rlt_dec y (snd w)); try lra; destruct (Rlt_dec 0 (DD v w)); try lra; destruct (Rlt_dec (DD v w) 0); try lra; cbn [andb]; rewrite ?plus_IZR, ?minus_IZR; try lra.
  Qed.
  Lemma windLoop_ok a l v k : IZR (windLoop x y a (v :: l) k) = IZR k + path cr v (l ++ [a]).
  Proof.
    revert v k. induction l as [|b l IH]; intros v k.
    - cbn [windLoop app path]. rewrite windStep_ok. ring.
    - change (windLoop x y a (v :: b :: l) k) with (windLoop x y a (b :: l) (windStep x y v b k)). rewrite IH, windStep_ok. cbn [app path]. ring.
  Qed.
  Lemma inside_ok P : isPointInsidePolygon x y P = negb (winding P x y =? 0)%Z.
  Proof.
    destruct P as [|a t]; [reflexivity|]. unfold isPointInsidePolygon. f_equal. f_equal. apply eq_IZR. rewrite windLoop_ok, winding_esum, esum_cons, path_app. ring.
  Qed.
End Cr.
Lemma winding_rev P x y : winding (rev P) x y = (- winding P x y)%Z.
Proof. apply eq_IZR. rewrite opp_IZR, !winding_esum. apply esum_rev. intros. apply cr_antisym. Qed.
Lemma winding_clip P r x y : fst (r_lower r) < x < fst (r_upper r) -> snd (r_lower r) < y < snd (r_upper r) -> winding (clipPolygonByRectangle P r) x y = winding P x y.
Proof. intros. apply eq_IZR. rewrite !winding_esum. apply clip_cr; assumption. Qed.
Lemma winding_outside P x1 x2 y1 y2 x y : Forall (in_box x1 x2 y1 y2) P -> (x < x1 \/ x2 <= x \/ y < y1 \/ y2 <= y) -> winding P x y = 0%Z.
Proof. intros H1 H2. apply eq_IZR. rewrite winding_esum. apply (cr_outside x y P x1 x2 y1 y2); assumption. Qed.
