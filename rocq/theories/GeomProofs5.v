(** The integral over the whole grid is the sum over cells. *)
From Coquelicot Require Import Coquelicot.
From Coq Require Import Psatz.
From Verif Require SplIntProofs3 BsplProofs4.
From Verif Require Import Arr PolyProofs SplIntProofs GeomModel GeomProofs GeomProofs2 GeomProofs3 GeomProofs4 SplineSpec BsplSpec GeomSpec.
Require Import List. Import ListNotations.
Local Open Scope R_scope.

Lemma RI_zsum lo hi (f : Z -> R -> R) (v : Z -> R) a b : (forall i, (lo <= i < hi)%Z -> is_RInt (f i) a b (v i)) -> is_RInt (fun y => zsum lo hi (fun i => f i y)) a b (zsum lo hi v).
Proof.
  unfold zsum. assert (K : (hi - lo <= Z.of_nat (Z.to_nat (hi - lo)))%Z) by lia. intros H.
  assert (G : forall n l, (forall i, (l <= i < l + Z.of_nat n)%Z -> is_RInt (f i) a b (v i)) -> is_RInt (fun y => zsumn n l (fun i => f i y)) a b (zsumn n l v)).
  { induction n as [|n IH]; intros l Hl; cbn [zsumn]; [apply RI_zero|]. apply RI_plus; [apply Hl; lia|]. apply IH. intros i Hi. apply Hl. lia. }
  apply G. intros i Hi. apply H. lia.
Qed.
Lemma quad_scal c K x : quad c x * K = quad (fst (fst c) * K, snd (fst c) * K, snd c * K) x.
Proof. unfold quad. cbn [fst snd]. ring. Qed.
Lemma step_ex c ex a b : a <= b -> ex_RInt (fun x => (if Rlt_dec x ex then 1 else 0) * quad c x) a b.
Proof.
  intros Hab. destruct (Rle_or_lt ex a) as [L|L].
  - exists 0. apply RI_zero_on; [lra|]. intros x Hx. destruct (Rlt_dec x ex); [lra|ring].
  - destruct (Rle_or_lt b ex) as [M|M].
    + eexists. apply (RI_on _ (quad c)); [lra| |apply quad_RInt]. intros x Hx. destruct (Rlt_dec x ex); [ring|lra].
    + eexists. apply (RI_chasles _ a ex b).
      * apply (RI_on _ (quad c)); [lra| |apply quad_RInt]. intros x Hx. destruct (Rlt_dec x ex); [ring|lra].
      * apply RI_zero_on; [lra|]. intros x Hx. destruct (Rlt_dec x ex); [lra|ring].
Qed.
Lemma ex_on (f g : R -> R) a b : a <= b -> (forall x, a < x < b -> f x = g x) -> ex_RInt g a b -> ex_RInt f a b.
Proof. intros Hab H [v Hv]. exists v. apply (RI_on f g a b v Hab H Hv). Qed.
Lemma cr_ex c v w y a b : a <= b -> ex_RInt (fun x => cr x y v w * quad c x) a b.
Proof.
  intros Hab. unfold cr, crossing.
  assert (Z0 : ex_RInt (fun x => 0 * quad c x) a b) by (exists 0; apply RI_zero_on; [lra|]; intros; ring).
  destruct (Rle_dec (snd v) y).
  - destruct (Rlt_dec y (snd w)); [|exact Z0]. apply (ex_on _ (fun x => (if Rlt_dec x (edge_x v w y) then 1 else 0) * quad c x)); [lra| |apply step_ex; lra]. intros x _. destruct (Rlt_dec x (edge_x v w y)); reflexivity.
  - destruct (Rle_dec (snd w) y); [|exact Z0]. destruct (step_ex c (edge_x v w y) a b Hab) as [u Hu]. exists (-1 * u). apply (RI_on _ (fun x => -1 * ((if Rlt_dec x (edge_x v w y) then 1 else 0) * quad c x))); [lra| |apply RI_scal; exact Hu].
    intros x _. destruct (Rlt_dec x (edge_x v w y)); ring.
Qed.
Lemma path_ex c y a b : a <= b -> forall l q, ex_RInt (fun x => path (cr x y) q l * quad c x) a b.
Proof.
  intros Hab. induction l as [|e l IH]; intros q; cbn [path]; [exists 0; apply RI_zero_on; [lra|]; intros; ring|].
  destruct (cr_ex c q e y a b Hab) as [u Hu]. destruct (IH e) as [t Ht]. exists (u + t). apply (RI_on _ (fun x => cr x y q e * quad c x + path (cr x y) e l * quad c x)); [lra|intros; ring|]. apply RI_plus; assumption.
Qed.
Lemma winding_ex c P y a b : a <= b -> ex_RInt (fun x => IZR (winding P x y) * quad c x) a b.
Proof.
  intros Hab. apply (ex_on _ (fun x => esum (cr x y) P * quad c x)); [lra|intros x _; rewrite winding_esum; reflexivity|].
  destruct P as [|e t]; [exists 0; apply RI_zero_on; [lra|]; intros; cbn [esum]; ring|]. apply path_ex. exact Hab.
Qed.
Lemma chain_ex (f : R -> R) (u : Z -> R) i1 i2 : (i1 <= i2)%Z -> (forall i, (i1 <= i < i2)%Z -> ex_RInt f (u i) (u (i + 1)%Z)) -> ex_RInt f (u i1) (u i2).
Proof.
  intros H Hf. exists (zsum i1 i2 (fun i => RInt f (u i) (u (i + 1)%Z))). apply BsplProofs4.chain; [exact H|]. intros i Hi. destruct (Hf i Hi) as [v Hv]. rewrite (SplIntProofs3.RI_unique _ _ _ _ Hv). exact Hv.
Qed.

Section Grid.
  Variables gx gy : arr R.
  Hypothesis Hgx : grid_ok gx. Hypothesis Hgy : grid_ok gy.
  Variables bx by_ : R -> R.
  Variables cx cy : Z -> R * R * R.
  Hypothesis Hbx : forall i x, (0 <= i <= alen gx - 2)%Z -> afn gx i < x < afn gx (i + 1)%Z -> bx x = quad (cx i) x.
  Hypothesis Hby : forall i x, (0 <= i <= alen gy - 2)%Z -> afn gy i < x < afn gy (i + 1)%Z -> by_ x = quad (cy i) x.
  Variable P : list pt.
  Definition cell (i j : Z) : rect := mkRect (afn gx i, afn gy j) (afn gx (i + 1)%Z, afn gy (j + 1)%Z).
  Definition V (i j : Z) : R := esum (ee (cx i) (cy j) (afn gx i)) (clipPolygonByRectangle P (cell i j)).
  Lemma gstep g i : grid_ok g -> (0 <= i <= alen g - 2)%Z -> afn g i < afn g (i + 1)%Z.
  Proof. intros [H _] Hi. apply H; lia. Qed.
  Lemma cell_box i j : Forall (in_box (afn gx i) (afn gx (i + 1)%Z) (afn gy j) (afn gy (j + 1)%Z)) (clipPolygonByRectangle P (cell i j)).
  Proof. exact (clipped_in_box P (cell i j)). Qed.
  Lemma cell_inner i j y : (0 <= i <= alen gx - 2)%Z -> (0 <= j <= alen gy - 2)%Z -> afn gy j < y < afn gy (j + 1)%Z ->
    is_RInt (fun x => IZR (winding P x y) * (bx x * by_ y)) (afn gx i) (afn gx (i + 1)%Z) (hsum (cx i) (cy j) (afn gx i) (clipPolygonByRectangle P (cell i j)) y).
  Proof.
    intros Hi Hj Hy. pose proof (gstep gx i Hgx Hi). pose proof (gstep gy j Hgy Hj).
    apply (RI_on _ (fun x => IZR (winding (clipPolygonByRectangle P (cell i j)) x y) * (quad (cx i) x * quad (cy j) y))); [lra| |].
    - intros x Hx. rewrite (winding_clip P (cell i j)) by (unfold cell; cbn [r_lower r_upper fst snd]; assumption). rewrite (Hbx i x Hi Hx), (Hby j y Hj Hy). reflexivity.
    - apply (poly_inner (cx i) (cy j) _ (afn gx (i + 1)%Z) (afn gy j) (afn gy (j + 1)%Z)); [lra|]. apply cell_box.
  Qed.
  Lemma row_inner j y : (0 <= j <= alen gy - 2)%Z -> afn gy j < y < afn gy (j + 1)%Z ->
    is_RInt (fun x => IZR (winding P x y) * (bx x * by_ y)) (x_first gx) (x_last gx) (zsum 0 (alen gx - 1) (fun i => hsum (cx i) (cy j) (afn gx i) (clipPolygonByRectangle P (cell i j)) y)).
  Proof.
    intros Hj Hy. destruct Hgx as [_ Hn]. apply (BsplProofs4.chain (fun x => IZR (winding P x y) * (bx x * by_ y)) (afn gx)); [lia|]. intros i Hi. apply cell_inner; auto; lia.
  Qed.
  Lemma inner_ex y : ex_RInt (fun x => IZR (winding P x y) * (bx x * by_ y)) (x_first gx) (x_last gx).
  Proof.
    destruct Hgx as [_ Hn]. apply (chain_ex _ (afn gx) 0 (alen gx - 1)); [lia|]. intros i Hi. pose proof (gstep gx i Hgx ltac:(lia)).
    apply (ex_on _ (fun x => IZR (winding P x y) * quad (fst (fst (cx i)) * by_ y, snd (fst (cx i)) * by_ y, snd (cx i) * by_ y) x)); [lra| |apply winding_ex; lra].
    intros x Hx. rewrite <- quad_scal. rewrite (Hbx i x ltac:(lia) Hx). reflexivity.
  Qed.
  Lemma grid_integral : is_integral2 (fun x y => IZR (winding P x y) * (bx x * by_ y)) (x_first gx) (x_last gx) (x_first gy) (x_last gy)
    (zsum 0 (alen gy - 1) (fun j => zsum 0 (alen gx - 1) (fun i => V i j))).
  Proof.
    split; [intros; apply inner_ex|]. destruct Hgy as [_ Hn].
    apply (BsplProofs4.chain _ (afn gy) (fun j => zsum 0 (alen gx - 1) (fun i => V i j))); [lia|]. intros j Hj. pose proof (gstep gy j Hgy ltac:(lia)).
    apply (RI_on _ (fun y => zsum 0 (alen gx - 1) (fun i => hsum (cx i) (cy j) (afn gx i) (clipPolygonByRectangle P (cell i j)) y))); [lra| |].
    - intros y Hy. apply SplIntProofs3.RI_unique. apply row_inner; auto; lia.
    - apply RI_zsum. intros i Hi. pose proof (gstep gx i Hgx ltac:(lia)). apply (poly_outer (cx i) (cy j) _ (afn gx (i + 1)%Z)); [lra|]. apply cell_box.
  Qed.
  (** cells outside of a bounding box do not contribute *)
  Lemma V_zero i j X1 X2 Y1 Y2 : (0 <= i <= alen gx - 2)%Z -> (0 <= j <= alen gy - 2)%Z -> Forall (in_box X1 X2 Y1 Y2) P ->
    (afn gx (i + 1)%Z <= X1 \/ X2 <= afn gx i \/ afn gy (j + 1)%Z <= Y1 \/ Y2 <= afn gy j) -> V i j = 0.
  Proof.
    intros Hi Hj HP Hout. pose proof (gstep gx i Hgx Hi). pose proof (gstep gy j Hgy Hj).
    pose proof (poly_outer (cx i) (cy j) (afn gx i) (afn gx (i + 1)%Z) (afn gy j) (afn gy (j + 1)%Z) ltac:(lra) _ (cell_box i j)) as A. fold (V i j) in A.
    rewrite <- (SplIntProofs3.RI_unique _ _ _ _ A). apply SplIntProofs3.RI_unique. apply RI_zero_on; [lra|]. intros y Hy.
    rewrite <- (SplIntProofs3.RI_unique _ _ _ _ (cell_inner i j y Hi Hj Hy)). apply SplIntProofs3.RI_unique. apply RI_zero_on; [lra|]. intros x Hx.
    rewrite (winding_outside P X1 X2 Y1 Y2 x y HP); [ring|]. destruct Hout as [L|[L|[L|L]]]; lra.
  Qed.
End Grid.
