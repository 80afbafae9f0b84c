(** Two-dimensional cubic splines: construction (C61). *)
From Coquelicot Require Import Coquelicot.
From Verif Require Import Arr BinSearchModel SplineModel Interp2Model SplineSpec SplineBand SplineCons SplineQui SplineGlue SplineProofs SplineProofs2 SplineReg Interp2Spec Interp2Proofs.
Local Open Scope Z_scope.

(** the derivatives at the nodes of a 1d spline *)
Definition slp (reg : bool) (x f : arr R) (dL dR : option R) : arr R := match slopes reg x f dL dR with Ok d => d | _ => anew 0 0%R end.
Lemma slopes_ok reg x f dL dR : grid x -> alen f = alen x -> slopes reg x f dL dR = Ok (slp reg x f dL dR) /\ alen (slp reg x f dL dR) = alen x.
Proof.
  intros [Hx Hn] Hf. unfold slp. destruct (construct_cubic x f Hx Hn Hf dL dR) as (_ & _ & _ & e & Ee & Le & _).
  unfold slopes. rewrite Ee. cbn [bind]. destruct reg; [|split; [reflexivity|exact Le]].
  destruct (regularize_ok x f Hn Hf e Le) as (e' & -> & L' & _). split; [reflexivity|exact L'].
Qed.
Lemma cubicNew_slp reg x f dL dR : grid x -> alen f = alen x -> cubicNew x f reg dL dR = Ok (mkCub x f (slp reg x f dL dR)).
Proof.
  intros G Hf. destruct (slopes_ok reg x f dL dR G Hf) as [E _]. unfold cubicNew. rewrite (inc_monotonic x (proj1 G)). cbn [bind]. rewrite Hf.
  rewrite (proj2 (Z.eqb_neq (alen x) (alen x + 1))), (proj2 (Z.eqb_neq (alen x) (alen x + 2))) by lia. cbn [orb]. unfold slopes in E.
  destruct (constructCubicSpline x f dL dR) as [d| | |]; try discriminate. cbn [bind] in *. rewrite E. reflexivity.
Qed.
Lemma slp_rows x f dL dR : grid x -> alen f = alen x -> compatible x f dL dR -> rows x f dL dR (afn (slp false x f dL dR)).
Proof.
  intros [Hx Hn] Hf C. destruct (construct_cubic_rows x f Hx Hn Hf dL dR C) as (e & Ee & Le & Re). unfold slp, slopes. rewrite Ee. exact Re.
Qed.

Section Cons.
  Variables (xs ys : arr R) (fm : mat) (reg : bool) (dx0 dx1 dy0 dy1 : option R).
  Hypothesis Gx : grid xs.
  Hypothesis Gy : grid ys.
  Hypothesis Tf : table xs ys fm.
  Let nx := alen xs.
  Let ny := alen ys.
  Let f := m_data fm.
  Let Nx : 2 <= nx. Proof. apply Gx. Qed.
  Let Ny : 2 <= ny. Proof. apply Gy. Qed.
  Let Lf : alen f = nx * ny. Proof. destruct Tf as ((_ & _ & L) & E1 & E2). unfold f, nx, ny. rewrite <- E1, <- E2. exact L. Qed.
  Definition flatedge (j : Z) : bool := ((j =? 0) && finite dy0) || ((j =? ny - 1) && finite dy1).
  Definition premix (fy : arr R) (i j : Z) : R := if flatedge j then 0%R else afn (slp reg xs (colof fy nx ny j) (zero_if dx0) (zero_if dx1)) i.

  Lemma cubic2d_ok : exists fx fy fxy, cubic2dNew xs ys fm reg dx0 dx1 dy0 dy1 = Ok (mkCub2 xs ys f fx fy fxy) /\
    alen fx = nx * ny /\ alen fy = nx * ny /\ alen fxy = nx * ny /\
    (forall i j, 0 <= i < nx -> 0 <= j < ny -> afn fy (i * ny + j) = afn (slp reg ys (rowof f ny i) dy0 dy1) j) /\
    (forall i j, 0 <= i < nx -> 0 <= j < ny -> afn fx (i * ny + j) = afn (slp reg xs (colof f nx ny j) dx0 dx1) i) /\
    (forall i j, 0 <= i < nx -> 0 <= j < ny -> afn fxy (i * ny + j) = if reg then regval ys (rowof fx ny i) j (premix fy i j) else premix fy i j).
  Proof.
    unfold cubic2dNew. rewrite (check2d_ok xs ys fm Gx Gy Tf). cbn [bind]. fold nx ny f.
    destruct (for_total (fun k fy => alen fy = nx * ny /\ forall i j, 0 <= i < k -> 0 <= j < ny -> afn fy (i * ny + j) = afn (slp reg ys (rowof f ny i) dy0 dy1) j)
      0 nx (fun i fy => d <- slopes reg ys (rowof f ny i) dy0 dy1 ;; Ok (setrow fy ny i d)) (anew (alen f) 0%R)) as (fy & -> & Lfy & Vfy); [lia|split; [exact Lf|intros; lia]| |].
    { intros k a Hk [La Va]. destruct (slopes_ok reg ys (rowof f ny k) dy0 dy1 Gy eq_refl) as [-> Ld]. cbn [bind]. eexists. split; [reflexivity|]. split; [exact La|].
      intros i j Hi Hj. rewrite setrow_at by exact Hj. destruct (Z.eqb_spec i k) as [->|]; [reflexivity|]. apply Va; lia. }
    cbn [bind].
    match goal with |- context [for_ 0 ny ?b ?s] => destruct (for_total (fun k (st : arr R * arr R) => alen (fst st) = nx * ny /\ alen (snd st) = nx * ny /\
      forall i j, 0 <= i < nx -> 0 <= j < ny -> j < k -> afn (fst st) (i * ny + j) = afn (slp reg xs (colof f nx ny j) dx0 dx1) i /\ afn (snd st) (i * ny + j) = premix fy i j) 0 ny b s) as ([fx p] & -> & Lfx & Lp & V) end;
      [lia|split; [exact Lf|split; [exact Lf|intros; lia]]| |].
    { intros k [a b] Hk (La & Lb & Va). cbn [fst snd] in *. destruct (slopes_ok reg xs (colof f nx ny k) dx0 dx1 Gx eq_refl) as [-> Ld]. cbn [bind].
      assert (Pm : forall i, premix fy i k = if ((k =? 0) && finite dy0 || (k =? ny - 1) && finite dy1)%bool then 0%R else afn (slp reg xs (colof fy nx ny k) (zero_if dx0) (zero_if dx1)) i) by reflexivity.
      destruct ((k =? 0) && finite dy0 || (k =? ny - 1) && finite dy1)%bool.
      - eexists. split; [reflexivity|]. cbn [fst snd]. split; [exact La|]. split; [exact Lb|]. intros i j Hi Hj Hjk. rewrite !setcol_at by exact Hj.
        destruct (Z.eqb_spec j k) as [->|]; [rewrite Pm; split; reflexivity|]. apply Va; lia.
      - destruct (slopes_ok reg xs (colof fy nx ny k) (zero_if dx0) (zero_if dx1) Gx eq_refl) as [-> Ld']. cbn [bind].
        eexists. split; [reflexivity|]. cbn [fst snd]. split; [exact La|]. split; [exact Lb|]. intros i j Hi Hj Hjk. rewrite !setcol_at by exact Hj.
        destruct (Z.eqb_spec j k) as [->|]; [rewrite Pm; split; reflexivity|]. apply Va; lia. }
    cbn [bind fst snd] in *.
    assert (Vx : forall i j, 0 <= i < nx -> 0 <= j < ny -> afn fx (i * ny + j) = afn (slp reg xs (colof f nx ny j) dx0 dx1) i) by (intros; apply V; lia).
    assert (Vp : forall i j, 0 <= i < nx -> 0 <= j < ny -> afn p (i * ny + j) = premix fy i j) by (intros; apply V; lia).
    destruct reg.
    - match goal with |- context [for_ 0 nx ?b p] => destruct (for_total (fun k q => alen q = nx * ny /\ forall i j, 0 <= i < nx -> 0 <= j < ny ->
        afn q (i * ny + j) = if i <? k then regval ys (rowof fx ny i) j (premix fy i j) else premix fy i j) 0 nx b p) as (q & -> & Lq & Vq) end.
      + lia.
      + split; [exact Lp|]. intros i j Hi Hj. rewrite (proj2 (Z.ltb_ge i 0)) by lia. apply Vp; assumption.
      + intros k q Hk [Lq Vq]. destruct (regularize_ok ys (rowof fx ny k) (proj2 Gy) eq_refl (rowof q ny k) eq_refl) as (e & -> & Le & Ve). cbn [bind].
        eexists. split; [reflexivity|]. split; [exact Lq|]. intros i j Hi Hj. rewrite setrow_at by exact Hj. destruct (Z.eqb_spec i k) as [->|].
        * rewrite Ve by exact Hj. rewrite (proj2 (Z.ltb_lt k (k + 1))) by lia. cbn [rowof afn]. rewrite Vq by assumption. rewrite Z.ltb_irrefl. reflexivity.
        * rewrite Vq by assumption. destruct (Z.ltb_spec i k), (Z.ltb_spec i (k + 1)); try lia; reflexivity.
      + cbn [bind]. exists fx, fy, q. split; [reflexivity|]. repeat split; try assumption. intros i j Hi Hj. rewrite Vq by assumption. rewrite (proj2 (Z.ltb_lt i nx)) by lia. reflexivity.
    - cbn [bind]. exists fx, fy, p. split; [reflexivity|]. repeat split; assumption.
  Qed.
End Cons.

Local Open Scope R_scope.
(** ---- linear combinations of data ---- *)
Definition ocomb (a : R) (o : option R) (b : R) (o' : option R) : option R := match o, o' with Some u, Some v => Some (a * u + b * v) | _, _ => None end.
Definition same (o o' : option R) : Prop := match o, o' with Some _, Some _ => True | None, None => True | _, _ => False end.
Definition acomb (a : R) (f : arr R) (b : R) (g : arr R) : arr R := mkArr (alen f) (fun i => a * afn f i + b * afn g i).
Lemma rows_comb x f g dL dR eL eR d e a b : (2 <= alen x)%Z -> same dL eL -> same dR eR -> rows x f dL dR d -> rows x g eL eR e ->
  rows x (acomb a f b g) (ocomb a dL b eL) (ocomb a dR b eR) (fun i => a * d i + b * e i).
Proof.
  intros Hn SL SR A B. apply rows_intro; cbv zeta; cbn [afn acomb].
  - exact Hn.
  - intros r Hr. pose proof (rows_interior x f dL dR d r A Hr) as P. pose proof (rows_interior x g eL eR e r B Hr) as Q. cbv zeta beta in *.
    transitivity (a * (3 * ((afn f (r - 1 + 1)%Z - afn f (r - 1)%Z) * (1 / (afn x (r - 1 + 1)%Z - afn x (r - 1)%Z) * (1 / (afn x (r - 1 + 1)%Z - afn x (r - 1)%Z))) + (afn f (r + 1)%Z - afn f r) * (1 / (afn x (r + 1)%Z - afn x r) * (1 / (afn x (r + 1)%Z - afn x r)))))
       + b * (3 * ((afn g (r - 1 + 1)%Z - afn g (r - 1)%Z) * (1 / (afn x (r - 1 + 1)%Z - afn x (r - 1)%Z) * (1 / (afn x (r - 1 + 1)%Z - afn x (r - 1)%Z))) + (afn g (r + 1)%Z - afn g r) * (1 / (afn x (r + 1)%Z - afn x r) * (1 / (afn x (r + 1)%Z - afn x r)))))); [|ring].
    rewrite <- P, <- Q. ring.
  - pose proof (rows_left x f Hn dL dR d A) as P. pose proof (rows_left x g Hn eL eR e B) as Q. cbv zeta beta in *.
    destruct dL, eL; try contradiction; cbn [ocomb]; [rewrite P, Q; reflexivity|].
    match type of P with _ = ?p => match type of Q with _ = ?q => transitivity (a * p + b * q); [rewrite <- P, <- Q; ring|ring] end end.
  - pose proof (rows_right x f Hn dL dR d A) as P. pose proof (rows_right x g Hn eL eR e B) as Q. cbv zeta beta in *.
    destruct dR, eR; try contradiction; cbn [ocomb]; [rewrite P, Q; reflexivity|].
    match type of P with _ = ?p => match type of Q with _ = ?q => transitivity (a * p + b * q); [rewrite <- P, <- Q; ring|ring] end end.
Qed.
Lemma rows_ext x f g dL dR d e : (2 <= alen x)%Z -> (forall i, (0 <= i < alen x)%Z -> afn f i = afn g i) -> (forall i, (0 <= i < alen x)%Z -> d i = e i) -> rows x f dL dR d -> rows x g dL dR e.
Proof.
  intros Hn F D A. apply rows_intro; cbv zeta; [exact Hn| | |].
  - intros r Hr. pose proof (rows_interior x f dL dR d r A Hr) as P. cbv zeta beta in P. rewrite <- !F, <- !D by lia. exact P.
  - pose proof (rows_left x f Hn dL dR d A) as P. cbv zeta beta in P. change (0 + 1)%Z with 1%Z in *. rewrite <- !F, <- !D by lia. exact P.
  - pose proof (rows_right x f Hn dL dR d A) as P. cbv zeta beta in P. replace (alen x - 2 + 1)%Z with (alen x - 1)%Z in * by lia. rewrite <- !F, <- !D by lia. exact P.
Qed.
Lemma rows_const x c dL dR d : (2 <= alen x)%Z -> (match dL with Some a => a = 0 | None => True end) -> (match dR with Some a => a = 0 | None => True end) ->
  (forall i, (0 <= i < alen x)%Z -> d i = 0) -> forall f, (forall i, (0 <= i < alen x)%Z -> afn f i = c) -> rows x f dL dR d.
Proof.
  intros Hn HL HR D f F. apply rows_intro; cbv zeta; [exact Hn| | |].
  - intros r Hr. rewrite !F, !D by lia. ring.
  - change (0 + 1)%Z with 1%Z. destruct dL; rewrite ?F, ?D by lia; [symmetry; exact HL|ring].
  - replace (alen x - 2 + 1)%Z with (alen x - 1)%Z by lia. destruct dR; rewrite ?F, ?D by lia; [symmetry; exact HR|ring].
Qed.
