(** Two-dimensional quintic splines: construction (C61). *)
From Coquelicot Require Import Coquelicot.
From Verif Require Import Arr BinSearchModel SplineModel Interp2Model SplineSpec SplineBand SplineCons SplineQui SplineGlue SplineProofs SplineProofs2 SplineReg Interp2Spec Interp2Proofs Interp2Cons Interp2Nat Interp2Nat2 Interp2Quin.
Local Open Scope Z_scope.

(** the second derivatives at the nodes of a 1d quintic spline *)
Definition qsl (x f g : arr R) : arr R := match constructQuinticSpline x f g with Ok d => d | _ => anew 0 0%R end.
Lemma qsl_ok x f g : grid x -> alen f = alen x -> alen g = alen x -> constructQuinticSpline x f g = Ok (qsl x f g) /\ alen (qsl x f g) = alen x /\ qrows x f g (afn (qsl x f g)).
Proof. intros [Hx Hn] Hf Hg. unfold qsl. destruct (construct_quintic x f g Hx Hn Hf Hg) as (s & -> & L & Rr). auto. Qed.
Lemma quinticNew_qsl x f g : grid x -> alen f = alen x -> alen g = alen x -> quinticNew x f g = Ok (mkQui x f g (qsl x f g)).
Proof.
  intros G Hf Hg. unfold quinticNew. rewrite (inc_monotonic x (proj1 G)). cbn [bind]. rewrite Hf, Hg, Z.eqb_refl. cbn [andb negb]. rewrite (proj1 (qsl_ok x f g G Hf Hg)). reflexivity.
Qed.
Definition nslp (x f : arr R) : arr R := slp false x f None None.
Lemma nslp_ok x f : grid x -> alen f = alen x -> constructCubicSpline x f None None = Ok (nslp x f) /\ alen (nslp x f) = alen x.
Proof.
  intros G Hf. destruct (slopes_ok false x f None None G Hf) as [E L]. unfold slopes in E. split; [|exact L]. unfold nslp. destruct (constructCubicSpline x f None None) as [d| | |]; try discriminate. exact E.
Qed.
Lemma nslp_rows x f : grid x -> alen f = alen x -> rows x f None None (afn (nslp x f)).
Proof. intros G Hf. apply slp_rows; [exact G|exact Hf|]. apply plain_compat. left. split; reflexivity. Qed.

Section Mixed.
  Variables (xs ys f fx fy fxy : arr R).
  Hypothesis Gx : grid xs.
  Hypothesis Gy : grid ys.
  Let nx := alen xs.
  Let ny := alen ys.
  Hypothesis Lfx : alen fx = nx * ny.
  Let Nx : 2 <= nx. Proof. apply Gx. Qed.
  Let Ny : 2 <= ny. Proof. apply Gy. Qed.
  Lemma mixed_ok : exists fxx fyy fxxy fxyy fxxyy, quintic2dMixed xs ys f fx fy fxy = Ok (mkQui2 xs ys f fx fy fxx fxy fyy fxxy fxyy fxxyy) /\
    alen fxx = nx * ny /\ alen fyy = nx * ny /\ alen fxxy = nx * ny /\ alen fxyy = nx * ny /\ alen fxxyy = nx * ny /\
    forall i j, 0 <= i < nx -> 0 <= j < ny ->
      afn fxx (i * ny + j) = afn (qsl xs (colof f nx ny j) (colof fx nx ny j)) i /\ afn fxxy (i * ny + j) = afn (qsl xs (colof fy nx ny j) (colof fxy nx ny j)) i /\
      afn fyy (i * ny + j) = afn (qsl ys (rowof f ny i) (rowof fy ny i)) j /\ afn fxyy (i * ny + j) = afn (qsl ys (rowof fx ny i) (rowof fxy ny i)) j /\
      afn fxxyy (i * ny + j) = afn (qsl ys (rowof fxx ny i) (rowof fxxy ny i)) j.
  Proof.
    unfold quintic2dMixed. fold nx ny.
    match goal with |- context [for_ 0 ny ?b ?s] => destruct (for_total (fun k (st : arr R * arr R) => alen (fst st) = nx * ny /\ alen (snd st) = nx * ny /\
      forall i j, 0 <= i < nx -> 0 <= j < ny -> j < k -> afn (fst st) (i * ny + j) = afn (qsl xs (colof f nx ny j) (colof fx nx ny j)) i /\ afn (snd st) (i * ny + j) = afn (qsl xs (colof fy nx ny j) (colof fxy nx ny j)) i) 0 ny b s) as ([fxx fxxy] & -> & L1 & L2 & V1) end.
    { lia. } { cbn [fst snd anew alen]. repeat split; try assumption; intros; lia. }
    { intros k [a b] Hk (La & Lb & V). cbn [fst snd] in *. rewrite (proj1 (qsl_ok xs (colof f nx ny k) (colof fx nx ny k) Gx eq_refl eq_refl)). cbn [bind].
      rewrite (proj1 (qsl_ok xs (colof fy nx ny k) (colof fxy nx ny k) Gx eq_refl eq_refl)). cbn [bind]. eexists. split; [reflexivity|]. cbn [fst snd]. split; [exact La|]. split; [exact Lb|].
      intros i j Hi Hj Hjk. rewrite !setcol_at by exact Hj. destruct (Z.eqb_spec j k) as [->|]; [split; reflexivity|]. apply V; lia. }
    cbn [bind fst snd] in *.
    match goal with |- context [for_ 0 nx ?b ?s] => destruct (for_total (fun k (st : arr R * arr R * arr R) => alen (fst (fst st)) = nx * ny /\ alen (snd (fst st)) = nx * ny /\ alen (snd st) = nx * ny /\
      forall i j, 0 <= i < nx -> 0 <= j < ny -> i < k -> afn (fst (fst st)) (i * ny + j) = afn (qsl ys (rowof f ny i) (rowof fy ny i)) j /\
        afn (snd (fst st)) (i * ny + j) = afn (qsl ys (rowof fx ny i) (rowof fxy ny i)) j /\ afn (snd st) (i * ny + j) = afn (qsl ys (rowof fxx ny i) (rowof fxxy ny i)) j) 0 nx b s) as ([[fyy fxyy] fxxyy] & -> & L3 & L4 & L5 & V2) end.
    { lia. } { cbn [fst snd anew alen]. repeat split; try assumption; intros; lia. }
    { intros k [[a b] c] Hk (La & Lb & Lc & V). cbn [fst snd] in *. rewrite (proj1 (qsl_ok ys (rowof f ny k) (rowof fy ny k) Gy eq_refl eq_refl)). cbn [bind].
      rewrite (proj1 (qsl_ok ys (rowof fx ny k) (rowof fxy ny k) Gy eq_refl eq_refl)). cbn [bind]. rewrite (proj1 (qsl_ok ys (rowof fxx ny k) (rowof fxxy ny k) Gy eq_refl eq_refl)). cbn [bind].
      eexists. split; [reflexivity|]. cbn [fst snd]. split; [exact La|]. split; [exact Lb|]. split; [exact Lc|].
      intros i j Hi Hj Hik. rewrite !setrow_at by exact Hj. destruct (Z.eqb_spec i k) as [->|]; [repeat split; reflexivity|]. apply V; lia. }
    cbn [bind fst snd] in *. exists fxx, fyy, fxxy, fxyy, fxxyy. split; [reflexivity|]. do 5 (split; [assumption|]).
    intros i j Hi Hj. destruct (V1 i j Hi Hj ltac:(lia)). destruct (V2 i j Hi Hj ltac:(lia)) as (? & ? & ?). auto.
  Qed.
End Mixed.

Section Wout.
  Variables (xs ys f fx fy : arr R).
  Hypothesis Gx : grid xs.
  Hypothesis Gy : grid ys.
  Let nx := alen xs.
  Let ny := alen ys.
  Hypothesis Lfx : alen fx = nx * ny.
  Let Nx : 2 <= nx. Proof. apply Gx. Qed.
  Let Ny : 2 <= ny. Proof. apply Gy. Qed.
  Local Open Scope R_scope.
  (** the quantities computed for each column and row *)
  Definition ty (j : Z) := colof fy nx ny j.
  Definition tx (i : Z) := rowof fx ny i.
  Definition fyz (j : Z) := allzero (ty j).
  Definition fxz (i : Z) := allzero (tx i).
  Definition wxx (i j : Z) : R := afn (qsl xs (colof f nx ny j) (colof fx nx ny j)) i.
  Definition wyy (i j : Z) : R := afn (qsl ys (rowof f ny i) (rowof fy ny i)) j.
  Definition txx (i : Z) := mkArr ny (fun j => wxx i j).
  Definition tyy (j : Z) := mkArr nx (fun i => wyy i j).
  Definition f1 (i j : Z) : R := afn (nslp xs (ty j)) i.
  Definition f2 (i j : Z) : R := v_d (atnode ys (tx i) (nslp ys (tx i)) j).
  Definition f3 (i j : Z) : R := v_d2 (atnode ys (tx i) (nslp ys (tx i)) j).
  Definition wxy (i j : Z) : R :=
    let g := if (edge nx i && negb (edge ny j))%bool then f2 i j else f1 i j in
    if (negb (edge ny j) || (edge nx i && edge ny j))%bool then (if (fxz i || fyz j)%bool then 0 else (g + f2 i j) * 0.5) else g.
  Definition wxxy (i j : Z) : R := if edge ny j then v_d2 (atnode xs (ty j) (nslp xs (ty j)) i) else if fyz j then 0 else v_d (atnode ys (txx i) (nslp ys (txx i)) j).
  Definition wxyy (i j : Z) : R := if edge nx i then (if negb (edge ny j) then f3 i j else 0) else if fxz i then 0 else v_d (atnode xs (tyy j) (nslp xs (tyy j)) i).
  Definition g5 (i j : Z) : R := if edge ny j then 0 else v_d2 (atnode ys (txx i) (nslp ys (txx i)) j).
  Definition wxxyy (i j : Z) : R := if edge nx i then g5 i j else let f4 := v_d2 (atnode xs (tyy j) (nslp xs (tyy j)) i) in if edge ny j then f4 else (g5 i j + f4) * 0.5.
  Lemma nslp_ext x a b : grid x -> alen a = alen x -> alen b = alen x -> (forall i, (0 <= i < alen x)%Z -> afn a i = afn b i) -> forall i, (0 <= i < alen x)%Z -> afn (nslp x a) i = afn (nslp x b) i.
  Proof.
    intros G La Lb E i Hi. destruct G as [Hx Hn]. refine (rows_unique x b Hx Hn None None _ _ _ (nslp_rows x b (conj Hx Hn) Lb) i Hi).
    refine (rows_ext x _ _ _ _ _ _ Hn E (fun _ _ => eq_refl) (nslp_rows x a (conj Hx Hn) La)).
  Qed.
  Lemma atnode_ext x a b d e i : grid x -> (0 <= i < alen x)%Z -> (forall k, (0 <= k < alen x)%Z -> afn a k = afn b k) -> (forall k, (0 <= k < alen x)%Z -> afn d k = afn e k) -> atnode x a d i = atnode x b e i.
  Proof. intros [_ Hn] Hi A B. unfold atnode. cbv zeta. rewrite !A, !B by lia. reflexivity. Qed.
  Lemma wout_ok : exists fxx fxy fyy fxxy fxyy fxxyy, quintic2dWout xs ys f fx fy = Ok (mkQui2 xs ys f fx fy fxx fxy fyy fxxy fxyy fxxyy) /\
    alen fxx = (nx * ny)%Z /\ alen fxy = (nx * ny)%Z /\ alen fyy = (nx * ny)%Z /\ alen fxxy = (nx * ny)%Z /\ alen fxyy = (nx * ny)%Z /\ alen fxxyy = (nx * ny)%Z /\
    forall i j, (0 <= i < nx)%Z -> (0 <= j < ny)%Z ->
      afn fxx (i * ny + j)%Z = wxx i j /\ afn fxy (i * ny + j)%Z = wxy i j /\ afn fyy (i * ny + j)%Z = wyy i j /\ afn fxxy (i * ny + j)%Z = wxxy i j /\ afn fxyy (i * ny + j)%Z = wxyy i j /\ afn fxxyy (i * ny + j)%Z = wxxyy i j.
  Proof.
    unfold quintic2dWout. fold nx ny.
    match goal with |- context [for_ 0%Z ny ?b (?s, ?s', ?s'')] => destruct (for_total (fun k (st : arr R * arr R * arr R) => alen (fst (fst st)) = (nx * ny)%Z /\ alen (snd (fst st)) = (nx * ny)%Z /\ alen (snd st) = (nx * ny)%Z /\
      forall i j, (0 <= i < nx)%Z -> (0 <= j < ny)%Z -> (j < k)%Z -> afn (fst (fst st)) (i * ny + j)%Z = wxx i j /\ afn (snd (fst st)) (i * ny + j)%Z = f1 i j /\
        (edge ny j = true -> afn (snd st) (i * ny + j)%Z = v_d2 (atnode xs (ty j) (nslp xs (ty j)) i))) 0%Z ny b (s, s', s'')) as ([[fxx pxy] pxxy] & -> & L1 & L2 & L3 & V1) end.
    { lia. } { cbn [fst snd anew alen]. repeat split; try assumption; intros; lia. }
    { intros k [[a b] c] Hk (La & Lb & Lc & V). cbn [fst snd] in *. rewrite (proj1 (qsl_ok xs (colof f nx ny k) (colof fx nx ny k) Gx eq_refl eq_refl)). cbn [bind].
      rewrite (proj1 (nslp_ok xs (colof fy nx ny k) Gx eq_refl)). cbn [bind]. eexists. split; [reflexivity|]. cbn [fst snd]. split; [exact La|]. split; [exact Lb|].
      split; [destruct (edge ny k); exact Lc|]. intros i j Hi Hj Hjk. rewrite !setcol_at by exact Hj. destruct (Z.eqb_spec j k) as [->|N].
      - split; [reflexivity|]. split; [reflexivity|]. intros ->. rewrite setcol_at, Z.eqb_refl by exact Hj. reflexivity.
      - destruct (V i j Hi Hj ltac:(lia)) as (? & ? & V3). split; [assumption|]. split; [assumption|]. intros Ej. destruct (edge ny k); [rewrite setcol_at by exact Hj; rewrite (proj2 (Z.eqb_neq j k) N)|]; apply V3; exact Ej. }
    cbn [bind fst snd] in *.
    assert (V1a : forall i j, (0 <= i < nx)%Z -> (0 <= j < ny)%Z -> afn fxx (i * ny + j)%Z = wxx i j) by (intros; apply V1; lia).
    assert (V1b : forall i j, (0 <= i < nx)%Z -> (0 <= j < ny)%Z -> afn pxy (i * ny + j)%Z = f1 i j) by (intros; apply V1; lia).
    assert (V1c : forall i j, (0 <= i < nx)%Z -> (0 <= j < ny)%Z -> edge ny j = true -> afn pxxy (i * ny + j)%Z = v_d2 (atnode xs (ty j) (nslp xs (ty j)) i)) by (intros; apply V1; auto; lia).
    clear V1.
    set (zero := anew (alen fx) 0). assert (Zz : forall k, afn zero k = 0) by reflexivity. assert (Lz : alen zero = (nx * ny)%Z) by exact Lfx. clearbody zero.
    match goal with |- context [for_ 0%Z nx ?b (?s1, ?s2, ?s3, ?s4, ?s5)] => destruct (for_total (fun k (st : arr R * arr R * arr R * arr R * arr R) => let '(fyy, fxy, fxyy, fxxy, fxxyy) := st in
      alen fyy = (nx * ny)%Z /\ alen fxy = (nx * ny)%Z /\ alen fxyy = (nx * ny)%Z /\ alen fxxy = (nx * ny)%Z /\ alen fxxyy = (nx * ny)%Z /\
      forall i j, (0 <= i < nx)%Z -> (0 <= j < ny)%Z -> 
        ((i < k)%Z -> afn fyy (i * ny + j)%Z = wyy i j /\ afn fxy (i * ny + j)%Z = wxy i j /\ afn fxyy (i * ny + j)%Z = (if (edge nx i && negb (edge ny j))%bool then f3 i j else 0) /\
           afn fxxy (i * ny + j)%Z = wxxy i j /\ afn fxxyy (i * ny + j)%Z = g5 i j) /\
        ((k <= i)%Z -> afn fxy (i * ny + j)%Z = f1 i j /\ afn fxyy (i * ny + j)%Z = 0 /\ afn fxxy (i * ny + j)%Z = afn pxxy (i * ny + j)%Z /\ afn fxxyy (i * ny + j)%Z = 0)) 0%Z nx b (s1, s2, s3, s4, s5))
       as (st & -> & Q) end.
    { lia. } { do 5 (split; [assumption|]). intros i j Hi Hj. split; [intros; lia|]. intros _. rewrite !Zz. auto. }
    { intros k [[[[a b] c] d] e] Hk (La & Lb & Lc & Ld & Le & V). rewrite (proj1 (qsl_ok ys (rowof f ny k) (rowof fy ny k) Gy eq_refl eq_refl)). cbn [bind].
      rewrite (proj1 (nslp_ok ys (rowof fx ny k) Gy eq_refl)). cbn [bind]. rewrite (proj1 (nslp_ok ys (rowof fxx ny k) Gy eq_refl)). cbn [bind]. eexists. split; [reflexivity|]. cbv beta iota.
      do 5 (split; [assumption|]). intros i j Hi Hj. rewrite !setrow_at by exact Hj. destruct (V i j Hi Hj) as [V2 V3]. destruct (Z.eqb_spec i k) as [->|N]; [|split; intros; [apply V2|apply V3]; lia].
      split; [|intros; lia]. intros _. destruct (V3 ltac:(lia)) as (P1 & P2 & P3 & P4). cbn [afn].
      assert (EX : forall m, (0 <= m < ny)%Z -> afn (rowof fxx ny k) m = afn (txx k) m) by (intros m Hm; cbn [rowof txx afn]; apply V1a; assumption).
      assert (ES : forall m, (0 <= m < ny)%Z -> afn (nslp ys (rowof fxx ny k)) m = afn (nslp ys (txx k)) m) by (intros m Hm; apply (nslp_ext ys); auto).
      pose proof (atnode_ext ys _ _ _ _ j Gy Hj EX ES) as EA. rewrite EA.
      split; [reflexivity|]. split; [unfold wxy; rewrite P1; reflexivity|]. split; [rewrite P2; destruct (edge nx k && negb (edge ny j))%bool; reflexivity|]. split.
      - unfold wxxy. destruct (edge ny j) eqn:Ej; [rewrite P3; apply V1c; assumption|]. reflexivity.
      - unfold g5. destruct (edge ny j); [exact P4|reflexivity]. }
    destruct st as [[[[fyy fxy] qxyy] fxxy] qxxyy]. destruct Q as (L4 & L5 & L6 & L7 & L8 & V2). cbn [bind].
    match goal with |- context [for_ 0%Z ny ?b (?s1, ?s2)] => destruct (for_total (fun k (st : arr R * arr R) => alen (fst st) = (nx * ny)%Z /\ alen (snd st) = (nx * ny)%Z /\
      forall i j, (0 <= i < nx)%Z -> (0 <= j < ny)%Z -> 
        ((j < k)%Z -> afn (fst st) (i * ny + j)%Z = wxyy i j /\ afn (snd st) (i * ny + j)%Z = wxxyy i j) /\
        ((k <= j)%Z -> afn (fst st) (i * ny + j)%Z = (if (edge nx i && negb (edge ny j))%bool then f3 i j else 0) /\ afn (snd st) (i * ny + j)%Z = g5 i j)) 0%Z ny b (s1, s2)) as ([fxyy fxxyy] & -> & L9 & L10 & V3) end.
    { lia. } { cbn [fst snd]. do 2 (split; [assumption|]). intros i j Hi Hj. split; [intros; lia|]. intros _. destruct (proj1 (V2 i j Hi Hj) ltac:(lia)) as (_ & _ & ? & _ & ?). auto. }
    { intros k [a b] Hk (La & Lb & V). cbn [fst snd] in *. rewrite (proj1 (nslp_ok xs (colof fyy nx ny k) Gx eq_refl)). cbn [bind]. eexists. split; [reflexivity|]. cbn [fst snd].
      do 2 (split; [assumption|]). intros i j Hi Hj. rewrite !setcol_at by exact Hj. destruct (V i j Hi Hj) as [W2 W3]. destruct (Z.eqb_spec j k) as [->|N]; [|split; intros; [apply W2|apply W3]; lia].
      split; [|intros; lia]. intros _. destruct (W3 ltac:(lia)) as [P1 P2]. cbn [afn].
      assert (EX : forall m, (0 <= m < nx)%Z -> afn (colof fyy nx ny k) m = afn (tyy k) m) by (intros m Hm; cbn [colof tyy afn]; apply (V2 m k Hm Hj); lia).
      assert (ES : forall m, (0 <= m < nx)%Z -> afn (nslp xs (colof fyy nx ny k)) m = afn (nslp xs (tyy k)) m) by (intros m Hm; apply (nslp_ext xs); auto).
      pose proof (atnode_ext xs _ _ _ _ i Gx Hi EX ES) as EA. rewrite EA. split.
      - unfold wxyy. rewrite P1. destruct (edge nx i); [reflexivity|]. reflexivity.
      - unfold wxxyy. rewrite P2. reflexivity. }
    cbn [bind fst snd] in *. exists fxx, fxy, fyy, fxxy, fxyy, fxxyy. split; [reflexivity|]. do 6 (split; [assumption|]).
    intros i j Hi Hj. destruct (proj1 (V2 i j Hi Hj) ltac:(lia)) as (? & ? & _ & ? & _). destruct (proj1 (V3 i j Hi Hj) ltac:(lia)) as (? & ?). pose proof (V1a i j Hi Hj). auto 10.
  Qed.
End Wout.
