(** Symmetries, batch evaluation, Poisson equation *)
From Coq Require Import Reals Lra Psatz Lia Bool ZArith List.
From Coquelicot Require Import Coquelicot.
From Verif Require Import RandReal RandRealProofs PolyModel PolyProofs Base BinSearchModel CoordModel CoordSpec CoordCalc CoordMaps2 CoordProofs CoordVel OrientModel OrientSpec OrientProofs PotModel PotSpec PotProofs PotProofs2 EvolProofs RootProofs.
Import ListNotations.
Local Open Scope R_scope.

Definition known (s : Z) : Prop := (0 <= s <= 63)%Z.
Lemma isUnknown_f s : isUnknown s = false <-> known s.
Proof. unfold isUnknown, known. change ST_SPHERICAL with 63%Z. rewrite orb_false_iff, !Z.ltb_ge. lia. Qed.
Lemma isUnknown_t s : isUnknown s = true <-> ~ known s.
Proof. rewrite <- isUnknown_f. destruct (isUnknown s); split; congruence. Qed.
Lemma unknown_sym s f : ~ known s -> has_sym s f.
Proof. intros N K. exfalso. exact (N K). Qed.
Definition subbits (r s : Z) : Prop := forall b, Z.testbit r b = true -> Z.testbit s b = true.
Lemma has_sym_weaken r s f : known s -> subbits r s -> has_sym s f -> has_sym r f.
Proof. intros Ks Hb Hf _. destruct (Hf Ks) as (A & B & C & D & E & F). split; [|split; [|split; [|split; [|split]]]]; intros T; auto. Qed.
Lemma has_sym_ext s f f' : (forall x, f x = f' x) -> has_sym s f -> has_sym s f'.
Proof.
  intros E H K. destruct (H K) as (A1 & A2 & A3 & A4 & A5 & A6). split; [intros T p|split; [intros T p|split; [intros T p|split; [intros T p|split; [intros T a p|intros T a Hr p]]]]]; rewrite <- !E; [apply A1|apply A2|apply A3|apply A4|apply A5|apply A6]; auto.
Qed.
Lemma has_sym_lin s a b f f' : has_sym s f -> has_sym s f' -> has_sym s (fun x => a * f x + b * f' x).
Proof.
  intros H H' K. destruct (H K) as (A1 & A2 & A3 & A4 & A5 & A6). destruct (H' K) as (B1 & B2 & B3 & B4 & B5 & B6).
  split; [intros T p|split; [intros T p|split; [intros T p|split; [intros T p|split; [intros T c p|intros T c Hr p]]]]]; cbv beta; [rewrite A1, B1|rewrite A2, B2|rewrite A3, B3|rewrite A4, B4|rewrite A5, B5|rewrite A6, B6]; auto.
Qed.
Lemma has_sym_sum {A} s (l : list A) (f : A -> vec3 -> R) : (forall c, In c l -> has_sym s (f c)) -> has_sym s (fun x => Rsum (map (fun c => f c x) l)).
Proof.
  induction l as [|c l IH]; intros H.
  - intros _. split; [|split; [|split; [|split; [|split]]]]; intros; intros p; reflexivity.
  - apply (has_sym_ext s (fun x => 1 * f c x + 1 * Rsum (map (fun c => f c x) l))).
    + intros x. unfold Rsum; cbn [map fold_right]. ring.
    + apply has_sym_lin; [apply H; left; reflexivity|apply IH; intros c' I; apply H; right; exact I].
Qed.
Lemma known_land a b : known a -> known b -> known (Z.land a b).
Proof.
  unfold known. intros (A1 & A2) (B1 & B2). split; [apply Z.land_nonneg; lia|].
  assert (H : Z.land a b = Z.land (Z.land a b) (Z.ones 6)) by (rewrite <- Z.land_assoc, (Z.land_ones b 6) by lia; rewrite (Z.mod_small b) by (change (2 ^ 6)%Z with 64%Z; lia); reflexivity).
  rewrite H, Z.land_ones by lia. pose proof (Z.mod_pos_bound (Z.land a b) (2 ^ 6)) as M. change (2 ^ 6)%Z with 64%Z in *. lia.
Qed.
Lemma subbits_land a b : subbits (Z.land a b) a /\ subbits (Z.land a b) b.
Proof. split; intros i; rewrite Z.land_spec, andb_true_iff; tauto. Qed.
Lemma subbits_refl a : subbits a a. Proof. intros i H; exact H. Qed.
Lemma subbits_trans a b c : subbits a b -> subbits b c -> subbits a c. Proof. intros H K i X; auto. Qed.

Lemma composite_sym_spec l : forall s0, known s0 -> let r := composite_sym_loop s0 l in known r -> subbits r s0 /\ forall si, In si l -> known si /\ subbits r si.
Proof.
  induction l as [|c l IH]; intros s0 K0 r Kr; subst r; cbn [composite_sym_loop] in *.
  - split; [apply subbits_refl|]. intros si [].
  - destruct (isUnknown c) eqn:U; [apply isUnknown_t in U; contradiction|]. apply isUnknown_f in U.
    destruct (IH _ (known_land _ _ K0 U) Kr) as (A & B). destruct (subbits_land s0 c) as (X & Y).
    split; [exact (subbits_trans _ _ _ A X)|]. intros si [<-|I]; [split; [exact U|exact (subbits_trans _ _ _ A Y)]|auto].
Qed.
Lemma composite_sym_ok {A} (l : list A) (sy : A -> Z) (f : A -> vec3 -> R) : (forall c, In c l -> has_sym (sy c) (f c)) ->
  has_sym (composite_sym_loop ST_SPHERICAL (map sy l)) (fun x => Rsum (map (fun c => f c x) l)).
Proof.
  intros H K. assert (K63 : known ST_SPHERICAL) by (unfold known; vm_compute; split; discriminate). destruct (composite_sym_spec (map sy l) _ K63 K) as (_ & B). revert K. apply has_sym_sum. intros c I.
  destruct (B (sy c) (in_map sy l c I)) as (K & Sb). exact (has_sym_weaken _ _ _ K Sb (H c I)).
Qed.
Lemma evolving_sym_spec l : forall s0 prev r, evolving_sym s0 prev l = Some r -> known r -> known s0 /\ subbits r s0 /\ forall x, In x l -> known (snd x) /\ subbits r (snd x).
Proof.
  induction l as [|[ti si] l IH]; intros s0 prev r E Kr; cbn [evolving_sym] in E.
  - injection E as <-. split; [exact Kr|]. split; [apply subbits_refl|]. intros x [].
  - destruct (negb (Rlt_b prev ti)); [discriminate|]. destruct (IH _ _ _ E Kr) as (K & Sb & B).
    destruct (isUnknown si || isUnknown s0) eqn:U; [exfalso; revert K; change ST_UNKNOWN with 64%Z; unfold known; lia|]. apply orb_false_iff in U. destruct U as (U1 & U2).
    apply isUnknown_f in U1. apply isUnknown_f in U2. destruct (subbits_land s0 si) as (X & Y).
    split; [exact U2|]. split; [exact (subbits_trans _ _ _ Sb X)|]. intros x [<-|I]; [split; [exact U1|exact (subbits_trans _ _ _ Sb Y)]|auto].
Qed.
Lemma in_combine_ex {A B} (a : list A) (b : list B) y : length a = length b -> In y b -> exists x, In (x, y) (combine a b).
Proof. revert b. induction a as [|x a IH]; intros [|z b] L I; try discriminate; [destruct I|]. cbn in *. destruct I as [->|I]; [exists x; left; reflexivity|]. destruct (IH b) as (x' & I'); [lia|exact I|]. exists x'. right; exact I'. Qed.
(** symmetry of an Evolving potential is shared by all instances *)
Lemma evolving_sym_all times insts lin m e P c : Evolving times insts lin m e = Some P -> In c insts -> known (d_sym (p_dens P)) ->
  known (d_sym (p_dens c)) /\ subbits (d_sym (p_dens P)) (d_sym (p_dens c)).
Proof.
  unfold Evolving. destruct (Nat.eqb (length times) (length insts)) eqn:El; [|discriminate]. apply Nat.eqb_eq in El. cbn [negb].
  destruct times as [|t0 ts], insts as [|c0 is]; try discriminate. cbn in El.
  destruct (evolving_sym _ _ _) as [r|] eqn:E; [|discriminate]. intros X. injection X as <-. cbn [basePot p_dens d_sym]. intros I K.
  destruct (evolving_sym_spec _ _ _ _ E K) as (A & B & C). destruct I as [<-|I]; [tauto|].
  destruct (in_combine_ex ts (map (fun c => d_sym (p_dens c)) is) (d_sym (p_dens c))) as (x & J); [rewrite map_length; lia|apply (in_map (fun c => d_sym (p_dens c)) _ _ I)|].
  apply (C (x, d_sym (p_dens c)) J).
Qed.

(** ---- rotations ---- *)
Lemma rotM_rotation a : is_rotation (rotM a).
Proof.
  pose proof (sin2_cos2 a) as Hs. unfold Rsqr in Hs. unfold is_rotation, rotM, orthonormal_rows, transp, det3, dot. cbn [fst snd].
  unfold v1, v2, v3; cbn [fst snd]. repeat split; lra.
Qed.
Lemma tilted_sym_ok sym f a b gm : has_sym sym f -> has_sym (tilted_sym sym) (fun x => f (toRotated (Orientation a b gm) x)).
Proof.
  intros H. unfold tilted_sym. destruct (isUnknown sym) eqn:U; [apply isUnknown_t in U; apply unknown_sym; exact U|]. apply isUnknown_f in U. cbn [orb].
  destruct (isSpherical sym) eqn:Sp.
  - apply (has_sym_ext _ f); [|exact H]. intros x. symmetry. destruct (H U) as (_ & _ & _ & _ & _ & F). apply F; [|apply Orientation_rotation].
    unfold isSpherical in Sp. apply Z.eqb_eq in Sp. assert (T : Z.testbit (Z.land sym ST_SPHERICAL) 5 = true) by (rewrite Sp; reflexivity). rewrite Z.land_spec, andb_true_iff in T. tauto.
  - intros K. destruct (H U) as (_ & _ & _ & D & _). 
    split; [|split; [|split; [|split; [|split]]]]; rewrite Z.land_spec, andb_true_iff; intros (T & T'); try discriminate T'.
    intros p. replace (toRotated (Orientation a b gm) (- v1 p, - v2 p, - v3 p)) with (let q := toRotated (Orientation a b gm) p in (- v1 q, - v2 q, - v3 q)); [apply (D T)|].
    cbv zeta. unfold toRotated, Orientation. unfold v1, v2, v3; cbn [fst snd]. apply v_eq; ring.
Qed.
Lemma rotating_sym_ok sym f a : has_sym sym f -> has_sym (rotating_sym sym) (fun x => f (rotZ a x)).
Proof.
  intros H. unfold rotating_sym. destruct (isUnknown sym) eqn:U; [apply isUnknown_t in U; apply unknown_sym; exact U|]. apply isUnknown_f in U. cbn [orb].
  destruct (isZRotSymmetric sym) eqn:Sp.
  - apply (has_sym_ext _ f); [|exact H]. intros x. symmetry. destruct (H U) as (_ & _ & _ & _ & F & _). apply F.
    unfold isZRotSymmetric in Sp. apply Z.eqb_eq in Sp. assert (T : Z.testbit (Z.land sym ST_ZROTATION) 4 = true) by (rewrite Sp; reflexivity). rewrite Z.land_spec, andb_true_iff in T. tauto.
  - intros K. destruct (H U) as (_ & _ & C & D & _).
    split; [|split; [|split; [|split; [|split]]]]; rewrite Z.land_spec, andb_true_iff; intros (T & T'); try discriminate T'; intros p.
    + rewrite <- (C T (rotZ a p)). f_equal.
    + rewrite <- (D T (rotZ a p)). f_equal. unfold rotZ, v1, v2, v3; cbn [fst snd]. apply v_eq; ring.
Qed.
Lemma scaled_sym_ok sym f (A k : R) : has_sym sym f -> has_sym sym (fun x => A * f (v1 x * k, v2 x * k, v3 x * k)).
Proof.
  intros H K. destruct (H K) as (A1 & A2 & A3 & A4 & A5 & A6). split; [intros T p|split; [intros T p|split; [intros T p|split; [intros T p|split; [intros T a p|intros T a Hr p]]]]]; cbv beta; f_equal.
  - rewrite <- (A1 T). f_equal. unfold v1, v2, v3; cbn [fst snd]; apply v_eq; ring.
  - rewrite <- (A2 T). f_equal. unfold v1, v2, v3; cbn [fst snd]; apply v_eq; ring.
  - rewrite <- (A3 T). f_equal. unfold v1, v2, v3; cbn [fst snd]; apply v_eq; ring.
  - rewrite <- (A4 T). f_equal. unfold v1, v2, v3; cbn [fst snd]; apply v_eq; ring.
  - rewrite <- (A5 T a (v1 p * k, v2 p * k, v3 p * k)). f_equal. unfold rotZ, v1, v2, v3; cbn [fst snd]; apply v_eq; ring.
  - rewrite <- (A6 T a Hr (v1 p * k, v2 p * k, v3 p * k)). f_equal. destruct a as [[[[m0 m1] m2] [[m3 m4] m5]] [[m6 m7] m8]]. unfold toRotated, v1, v2, v3; cbn [fst snd]; apply v_eq; ring.
Qed.

(** ---- sums and batch evaluation ---- *)
Lemma sumloop_eq {A} (f : A -> R) l : sumloop f l = Rsum (map f l).
Proof.
  unfold sumloop. enough (H : forall l a, fold_left (fun s c => s + f c) l a = a + Rsum (map f l)) by (rewrite H; ring).
  intros l0. induction l0 as [|c l0 IH]; intros a; cbn [fold_left map]; [unfold Rsum; cbn; ring|]. rewrite IH. unfold Rsum; cbn [fold_right]. ring.
Qed.
Lemma addlists_map {A} (f g : A -> R) l : addlists (map f l) (map g l) = map (fun x => f x + g x) l.
Proof. induction l as [|x l IH]; cbn; [reflexivity|]. f_equal. exact IH. Qed.
Lemma composite_many_eq {A B} (l : list A) (f : A -> B -> R) (ps : list B) (F : A -> list R) : l <> [] -> (forall c, In c l -> F c = map (f c) ps) ->
  composite_many F l = map (fun p => Rsum (map (fun c => f c p) l)) ps.
Proof.
  intros Hn HF. destruct l as [|c0 l]; [congruence|]. unfold composite_many. rewrite (HF c0) by (left; reflexivity).
  enough (H : forall l (g : B -> R), (forall c, In c l -> F c = map (f c) ps) -> fold_left (fun v c => addlists v (F c)) l (map g ps) = map (fun p => g p + Rsum (map (fun c => f c p) l)) ps).
  { rewrite H by (intros c I; apply HF; right; exact I). apply map_ext. intros p. unfold Rsum; cbn [map fold_right]. reflexivity. }
  clear Hn HF l. intros l. induction l as [|c l IH]; intros g Hl; cbn [fold_left].
  - apply map_ext. intros p. unfold Rsum; cbn. ring.
  - rewrite (Hl c) by (left; reflexivity). rewrite addlists_map, IH by (intros c' I; apply Hl; right; exact I). apply map_ext. intros p. unfold Rsum; cbn [map fold_right]. ring.
Qed.

(** ---- Poisson ---- *)
Lemma trace_fromRotated m h : orthonormal_rows m -> trace (fromRotatedH m h) = trace h.
Proof.
  destruct m as [[[[m0 m1] m2] [[m3 m4] m5]] [[m6 m7] m8]]. unfold orthonormal_rows, dot, trace, fromRotatedH. cbn [fst snd].
  unfold v1, v2, v3; cbn [fst snd h11 h22 h33]. intros (A & B & C & D & E & F).
  unfold fromRotated. unfold v1, v2, v3; cbn [fst snd].
  replace (_ + _ + _) with (h11 h * (m0 * m0 + m1 * m1 + m2 * m2) + h22 h * (m3 * m3 + m4 * m4 + m5 * m5) + h33 h * (m6 * m6 + m7 * m7 + m8 * m8)
    + 2 * h12 h * (m0 * m3 + m1 * m4 + m2 * m5) + 2 * h13 h * (m0 * m6 + m1 * m7 + m2 * m8) + 2 * h23 h * (m3 * m6 + m4 * m7 + m5 * m8)) by ring.
  rewrite A, B, C, D, E, F. ring.
Qed.
Lemma poisson_rot m Phi rho x : orthonormal_rows m -> poisson Phi rho (toRotated m x) -> poisson (fun y => Phi (toRotated m y)) (fun y => rho (toRotated m y)) x.
Proof. intros O (g & h & H & E). exists (fromRotated m g), (fromRotatedH m h). split; [apply hess_toRotated; exact H|]. rewrite trace_fromRotated by exact O. exact E. Qed.
Lemma poisson_scale A k Phi rho x : poisson Phi rho (v1 x * k, v2 x * k, v3 x * k) ->
  poisson (fun y => A * k * Phi (v1 y * k, v2 y * k, v3 y * k)) (fun y => k * k * k * A * rho (v1 y * k, v2 y * k, v3 y * k)) x.
Proof.
  intros (g & h & H & E).
  assert (H' : is_hess Phi (k * v1 x + 0, k * v2 x + 0, k * v3 x + 0) g h) by (eapply is_hess_pt; [exact H|apply v_eq; ring]).
  apply hess_affine in H'. apply (is_hess_scal (A * k)) in H'. eexists _, _. split.
  - eapply is_hess_ext; [|exact H']. intros y. cbv beta. f_equal. f_equal. apply v_eq; ring.
  - rewrite E. unfold trace. cbn [h11 h22 h33]. field. apply PI_neq0.
Qed.
Lemma poisson_shift a b c Phi rho x : poisson Phi rho (v1 x - a, v2 x - b, v3 x - c) ->
  poisson (fun y => Phi (v1 y - a, v2 y - b, v3 y - c)) (fun y => rho (v1 y - a, v2 y - b, v3 y - c)) x.
Proof.
  intros (g & h & H & E).
  assert (H' : is_hess Phi (1 * v1 x + - a, 1 * v2 x + - b, 1 * v3 x + - c) g h) by (eapply is_hess_pt; [exact H|apply v_eq; ring]).
  apply hess_affine in H'. eexists _, _. split.
  - eapply is_hess_ext; [|exact H']. intros y. cbv beta. f_equal. apply v_eq; ring.
  - rewrite E. unfold trace. cbn [h11 h22 h33]. field. apply PI_neq0.
Qed.
Lemma poisson_lin a b Phi1 rho1 Phi2 rho2 x : poisson Phi1 rho1 x -> poisson Phi2 rho2 x -> poisson (fun y => a * Phi1 y + b * Phi2 y) (fun y => a * rho1 y + b * rho2 y) x.
Proof.
  intros (g & h & H & E) (g' & h' & H' & E'). exists (combineG a b g g'), (combineH a b h h'). split; [apply is_hess_lin; assumption|].
  rewrite E, E'. unfold trace; cbn [combineH h11 h22 h33]. field. apply PI_neq0.
Qed.
Lemma poisson_sum {A} (l : list A) (Phi rho : A -> vec3 -> R) x : (forall c, In c l -> poisson (Phi c) (rho c) x) ->
  poisson (fun y => Rsum (map (fun c => Phi c y) l)) (fun y => Rsum (map (fun c => rho c y) l)) x.
Proof.
  induction l as [|c l IH]; intros H.
  - exists zero3, zeroH. split; [apply (is_hess_const 0)|]. unfold trace; cbn. unfold Rdiv. ring.
  - destruct (poisson_lin 1 1 _ _ _ _ _ (H c (or_introl eq_refl)) (IH (fun c' I => H c' (or_intror I)))) as (g & h & X & E).
    exists g, h. split.
    + revert X. apply is_hess_ext. intros y. unfold Rsum; cbn [map fold_right]. ring.
    + rewrite <- E. unfold Rsum; cbn [map fold_right]. ring.
Qed.
