(** Composite potentials and modifiers: proofs *)
From Coq Require Import Reals Lra Psatz Lia Bool ZArith List.
From Coquelicot Require Import Coquelicot.
From Verif Require Import RandReal RandRealProofs PolyModel PolyProofs Base BinSearchModel CoordModel CoordSpec CoordCalc CoordAtan CoordMaps CoordMaps2 CoordProofs CoordVel CoordSph OrientModel OrientSpec OrientProofs PotModel PotSpec RootProofs.
Import ListNotations.
Local Open Scope R_scope.

Lemma cart_toPosCar s p : toPosCar s p = cart s p.
Proof. destruct p as [[a b] c]. destruct s; cbn; rewrite ?mul_fun; reflexivity. Qed.
Lemma cart_toPosG s k p : (s = k \/ k = Car) -> cart k (toPosG s k p) = cart s p.
Proof.
  intros [<-| ->].
  - destruct s; reflexivity.
  - rewrite <- (cart_toPosCar s p). unfold toPosCar. destruct (toPosG s Car p) as [[a b] c]. reflexivity.
Qed.
Lemma posDG_eq s k p : posDG s k p = toPosG s k p.
Proof. destruct s, k; try reflexivity; cbn; auto using posD_CY_eq, posD_CS_eq, posD_YC_eq, posD_YS_eq, posD_SY_eq, posD_SC_eq. Qed.
Lemma convert_pos s k F fl p : convert s k F fl p =
  let '(wp, wg, wh) := fl in let '(v, g, h) := F (wp, wg || wh, wh)%bool (toPosG s k p) in
  (if wp then v else None, if wg then omap (gradG s k p) g else None, if wh then omap2 (hessG s k p) g h else None).
Proof. destruct fl as [[wp wg] wh]. unfold convert. rewrite posDG_eq. destruct (wg || wh)%bool; reflexivity. Qed.

(** ---- linearity of the conversions ---- *)
Lemma vadd_eq a b c a' b' c' : a = a' -> b = b' -> c = c' -> (a, b, c) = (a', b', c') :> vec3.
Proof. intros -> -> ->. reflexivity. Qed.
Lemma gradG_0 s k p : gradG s k p zero3 = zero3.
Proof. destruct s, k; cbn; try reflexivity; unfold zero3; apply v_eq; unfold v1, v2, v3; cbn [fst snd]; ring. Qed.
Lemma gradG_add s k p g g' : gradG s k p (combineG 1 1 g g') = combineG 1 1 (gradG s k p g) (gradG s k p g').
Proof. destruct s, k; cbn; try reflexivity; unfold combineG; apply v_eq; unfold toGrad_CY, toGrad_CS, toGrad_YC, toGrad_YS, toGrad_SC, toGrad_SY, v1, v2, v3; cbn [fst snd]; ring. Qed.
Lemma hessG_0 s k p : hessG s k p zero3 zeroH = zeroH.
Proof. destruct s, k; try reflexivity; apply hess6_eq; cbn; unfold v1, v2, v3; cbn [fst snd]; ring. Qed.
Ltac bigring := cbn [h11 h22 h33 h12 h23 h13]; unfold v1, v2, v3; cbn [fst snd]; ring.
Lemma hessG_add s k p g h g' h' : hessG s k p (combineG 1 1 g g') (combineH 1 1 h h') = combineH 1 1 (hessG s k p g h) (hessG s k p g' h').
Proof.
  destruct s, k; try reflexivity; unfold hessG; set (d := _ p) in |- *; set (d2 := _ p) in |- *;
  unfold toHess_CY, toHess_CS, toHess_YC, toHess_YS, toHess_SC, toHess_SY, combineG, combineH; apply hess6_eq; bigring.
Qed.

(** ---- Composite::eval is the sum of the components ---- *)
Notation vadd := (combineG 1 1).
Notation hadd := (combineH 1 1).
Lemma vadd_0r g : vadd g zero3 = g.
Proof. destruct g as [[a b] c]. unfold combineG, zero3; apply v_eq; unfold v1, v2, v3; cbn [fst snd]; ring. Qed.
Lemma hadd_0r h : hadd h zeroH = h.
Proof. destruct h. apply hess6_eq; cbn; ring. Qed.
Lemma vadd_0l g : vadd zero3 g = g.
Proof. destruct g as [[a b] c]. unfold combineG, zero3; apply v_eq; unfold v1, v2, v3; cbn [fst snd]; ring. Qed.
Lemma hadd_0l h : hadd zeroH h = h.
Proof. destruct h. apply hess6_eq; cbn; ring. Qed.
Lemma vadd_assoc a b c : vadd (vadd a b) c = vadd a (vadd b c).
Proof. unfold combineG; apply v_eq; unfold v1, v2, v3; cbn [fst snd]; ring. Qed.
Lemma vadd_comm a b : vadd a b = vadd b a.
Proof. unfold combineG; apply v_eq; ring. Qed.
Lemma hadd_assoc a b c : hadd (hadd a b) c = hadd a (hadd b c).
Proof. apply hess6_eq; cbn; ring. Qed.
Lemma hadd_comm a b : hadd a b = hadd b a.
Proof. apply hess6_eq; cbn; ring. Qed.

Ltac vac := unfold combineG; apply v_eq; unfold v1, v2, v3; cbn [fst snd]; ring.
Ltac hac := apply hess6_eq; cbn; ring.
Lemma Vsum_cons g l : Vsum (g :: l) = vadd g (Vsum l).
Proof. unfold Vsum, combineG; apply v_eq; unfold Rsum; cbn [map fold_right]; change v1 with (fun v : vec3 => v1 v); change v2 with (fun v : vec3 => v2 v); change v3 with (fun v : vec3 => v3 v); unfold v1, v2, v3; cbn [fst snd]; ring. Qed.
Lemma Hsum_cons g l : Hsum (g :: l) = hadd g (Hsum l).
Proof. apply hess6_eq; unfold Hsum, combineH, Rsum; cbn [map fold_right h11 h22 h33 h12 h23 h13]; ring. Qed.

Section Comp.
  Variables (int1 int2 out : cs) (wp wg wh : bool) (t : R) (pos : vec3).
  Let fl := (wp, wg, wh).
  Definition irep (k : cs) (i : internal) (G : vec3) (H : hess6) : Prop :=
    match i with
    | None => G = zero3 /\ H = zeroH
    | Some (ip, ig, ih) => ip = toPosG out k pos /\ ((wg || wh)%bool = true -> ig = Some G) /\ (wh = true -> ih = Some H)
    end.
  Lemma oif (b : bool) {A} (x : A) : b = true -> (if b then Some x else None) = Some x.
  Proof. intros ->. reflexivity. Qed.
  Lemma evalInternal_ok k c (a : acc) i G H V : proper c -> p_kind c = Some k -> k <> out -> irep k i G H ->
    let v := value_of c out t pos in let g := grad_of c k t (toPosG out k pos) in let h := hess_of c k t (toPosG out k pos) in
    exists i', evalInternal out k fl t pos c (if wp then Some V else None) i = (if wp then Some (V + v) else None, i') /\
      irep k i' (vadd G g) (hadd H h) /\ i' <> None /\ gradG out k pos g = grad_of c out t pos /\ hessG out k pos g h = hess_of c out t pos.
  Proof.
    intros (Pr & Pn) Kc Nk IR v g h. subst v g h.
    pose proof (Pn k Kc out (not_eq_sym Nk) (true, true, true) t pos) as E. rewrite convert_pos in E. cbn [orb] in E.
    rewrite (Pr k t (toPosG out k pos) (true, true, true)) in E. cbn [outputs omap omap2] in E.
    assert (Ev : value_of c out t pos = value_of c k t (toPosG out k pos)) by (unfold value_of at 1; rewrite E; reflexivity).
    assert (Eg : grad_of c out t pos = gradG out k pos (grad_of c k t (toPosG out k pos))) by (unfold grad_of at 1; rewrite E; reflexivity).
    assert (Eh : hess_of c out t pos = hessG out k pos (grad_of c k t (toPosG out k pos)) (hess_of c k t (toPosG out k pos))) by (unfold hess_of at 1; rewrite E; reflexivity).
    rewrite Ev. unfold evalInternal, fl.
    set (ini := match i with Some x => x | None => (if (wg || wh)%bool then posDG out k pos else toPosG out k pos, Some zero3, Some zeroH) end).
    assert (EI : exists ig ih, ini = (toPosG out k pos, ig, ih) /\ ((wg || wh)%bool = true -> ig = Some G) /\ (wh = true -> ih = Some H)).
    { unfold ini. destruct i as [[[ip ig] ih]|].
      - destruct IR as (-> & A & B). exists ig, ih. tauto.
      - destruct IR as (-> & ->). exists (Some zero3), (Some zeroH). rewrite posDG_eq. destruct (wg || wh)%bool; tauto. }
    destruct EI as (ig & ih & -> & A & B).
    rewrite (Pr k t (toPosG out k pos) (wp, (wg || wh)%bool, wh)). cbn [outputs].
    eexists. split; [apply f_equal2; [|reflexivity]; destruct wp; reflexivity|]. split; [|split; [discriminate|split; congruence]].
    - cbn [irep]. split; [reflexivity|]. split; intros Eb.
      + rewrite Eb, A by exact Eb. reflexivity.
      + rewrite Eb, B by exact Eb. reflexivity.
  Qed.
  Definition arep (a : acc) V G H G1 H1 G2 H2 : Prop :=
    a_pot a = (if wp then Some V else None) /\ a_der a = (if wg then Some G else None) /\ a_der2 a = (if wh then Some H else None) /\
    irep int1 (a_i1 a) G1 H1 /\ irep int2 (a_i2 a) G2 H2.
  Definition totG (G G1 G2 : vec3) := vadd (vadd G (gradG out int1 pos G1)) (gradG out int2 pos G2).
  Definition totH (H : hess6) G1 H1 G2 H2 := hadd (hadd H (hessG out int1 pos G1 H1)) (hessG out int2 pos G2 H2).
  Hypothesis Nint : int1 <> int2 /\ int1 <> out /\ int2 <> out.

  Lemma evalStep_ok c a V G H G1 H1 G2 H2 : proper c -> arep a V G H G1 H1 G2 H2 ->
    exists V' G' H' G1' H1' G2' H2', arep (evalStep int1 int2 out fl t pos a c) V' G' H' G1' H1' G2' H2' /\
      V' = V + value_of c out t pos /\ totG G' G1' G2' = vadd (totG G G1 G2) (grad_of c out t pos) /\
      totH H' G1' H1' G2' H2' = hadd (totH H G1 H1 G2 H2) (hess_of c out t pos).
  Proof.
    intros Pc (A0 & A1 & A2 & A3 & A4). unfold evalStep, fl.
    assert (Ty : forall k, Z.eqb (componentType c) (CoordT_id k) = true <-> p_kind c = Some k).
    { intros k. unfold componentType. destruct (p_kind c) as [[| |]|], k; cbn; split; congruence. }
    destruct (Z.eqb (componentType c) (CoordT_id int1)) eqn:T1.
    { apply Ty in T1. rewrite A0. destruct (evalInternal_ok int1 c a (a_i1 a) G1 H1 V Pc T1 (proj1 (proj2 Nint)) A3) as (i' & E & IR & _ & Eg & Eh).
      unfold fl in E. rewrite E. eexists _, G, H, _, _, G2, H2. split; [repeat split; cbn; try eassumption; reflexivity|]. split; [reflexivity|]. split.
      - unfold totG. rewrite gradG_add, Eg, <- !vadd_assoc. rewrite !(vadd_assoc (vadd G _)). f_equal. apply vadd_comm.
      - unfold totH. rewrite hessG_add, Eh, <- !hadd_assoc. rewrite !(hadd_assoc (hadd H _)). f_equal. apply hadd_comm. }
    destruct (Z.eqb (componentType c) (CoordT_id int2)) eqn:T2.
    { apply Ty in T2. rewrite A0. destruct (evalInternal_ok int2 c a (a_i2 a) G2 H2 V Pc T2 (proj2 (proj2 Nint)) A4) as (i' & E & IR & _ & Eg & Eh).
      unfold fl in E. rewrite E. eexists _, G, H, G1, H1, _, _. split; [repeat split; cbn; try eassumption; reflexivity|]. split; [reflexivity|]. split.
      - unfold totG. rewrite gradG_add, Eg, <- !vadd_assoc. reflexivity.
      - unfold totH. rewrite hessG_add, Eh, <- !hadd_assoc. reflexivity. }
    destruct Pc as (Pr & _). rewrite (Pr out t pos (wp, wg, wh)). cbn [outputs].
    eexists (V + value_of c out t pos), (vadd G (grad_of c out t pos)), (hadd H (hess_of c out t pos)), G1, H1, G2, H2.
    split; [|split; [reflexivity|split]].
    - split; [|split; [|split; [|split; cbn; assumption]]]; cbn [a_pot a_der a_der2].
      + rewrite A0. destruct wp; reflexivity.
      + rewrite A1. destruct wg; reflexivity.
      + rewrite A2. destruct wh; reflexivity.
    - unfold totG. set (x := gradG _ _ _ _). set (y := gradG _ _ _ _). set (z := grad_of _ _ _ _). clearbody x y z. vac.
    - unfold totH. set (x := hessG _ _ _ _ _). set (y := hessG _ _ _ _ _). set (z := hess_of _ _ _ _). clearbody x y z. hac.
  Qed.
  Lemma loop_ok l a V G H G1 H1 G2 H2 : (forall c, In c l -> proper c) -> arep a V G H G1 H1 G2 H2 ->
    exists V' G' H' G1' H1' G2' H2', arep (fold_left (evalStep int1 int2 out fl t pos) l a) V' G' H' G1' H1' G2' H2' /\
      V' = V + Rsum (map (fun c => value_of c out t pos) l) /\
      totG G' G1' G2' = vadd (totG G G1 G2) (Vsum (map (fun c => grad_of c out t pos) l)) /\
      totH H' G1' H1' G2' H2' = hadd (totH H G1 H1 G2 H2) (Hsum (map (fun c => hess_of c out t pos) l)).
  Proof.
    revert a V G H G1 H1 G2 H2. induction l as [|c l IH]; intros a V G H G1 H1 G2 H2 Pl A.
    - exists V, G, H, G1, H1, G2, H2. cbn [fold_left map]. split; [exact A|]. split; [unfold Rsum; cbn [map fold_right]; ring|]. split.
      + change (Vsum []) with zero3. rewrite vadd_0r. reflexivity.
      + change (Hsum []) with zeroH. rewrite hadd_0r. reflexivity.
    - destruct (evalStep_ok c a V G H G1 H1 G2 H2 (Pl c (or_introl eq_refl)) A) as (V1 & G' & H' & G1' & H1' & G2' & H2' & A' & Ev & Eg & Eh).
      destruct (IH _ _ _ _ _ _ _ _ (fun c' I => Pl c' (or_intror I)) A') as (V'' & G'' & H'' & G1'' & H1'' & G2'' & H2'' & A'' & Ev' & Eg' & Eh').
      exists V'', G'', H'', G1'', H1'', G2'', H2''. cbn [fold_left map]. split; [exact A''|]. split; [rewrite Ev', Ev; unfold Rsum; cbn [map fold_right]; ring|]. split.
      + rewrite Eg', Eg, Vsum_cons, vadd_assoc. reflexivity.
      + rewrite Eh', Eh, Hsum_cons, hadd_assoc. reflexivity.
  Qed.
  Lemma addInternal_ok k i Gi Hi G H : irep k i Gi Hi ->
    addInternal out k fl pos i (if wg then Some G else None) (if wh then Some H else None) =
      (if wg then Some (vadd G (gradG out k pos Gi)) else None, if wh then Some (hadd H (hessG out k pos Gi Hi)) else None).
  Proof.
    unfold irep, addInternal, fl. destruct i as [[[ip ig] ih]|].
    - intros (_ & A & B). destruct wg, wh; cbn [orb] in *; rewrite ?A, ?B by reflexivity; reflexivity.
    - intros (-> & ->). rewrite gradG_0, hessG_0, vadd_0r, hadd_0r. reflexivity.
  Qed.
  Lemma evalComponents_ok l : (forall c, In c l -> proper c) ->
    evalComponents int1 int2 out l fl t pos = outputs fl (Rsum (map (fun c => value_of c out t pos) l))
      (Vsum (map (fun c => grad_of c out t pos) l)) (Hsum (map (fun c => hess_of c out t pos) l)).
  Proof.
    intros Pl. unfold evalComponents, fl. set (a0 := mkAcc _ _ _ _ _).
    assert (A0 : arep a0 0 zero3 zeroH zero3 zeroH zero3 zeroH) by (repeat split; reflexivity).
    destruct (loop_ok l a0 _ _ _ _ _ _ _ Pl A0) as (V' & G' & H' & G1' & H1' & G2' & H2' & (B0 & B1 & B2 & B3 & B4) & Ev & Eg & Eh).
    unfold fl in *. rewrite B1, B2. pose proof (addInternal_ok int1 _ _ _ G' H' B3) as E1. unfold fl in E1. rewrite E1.
    pose proof (addInternal_ok int2 _ _ _ (vadd G' (gradG out int1 pos G1')) (hadd H' (hessG out int1 pos G1' H1')) B4) as E2. unfold fl in E2. rewrite E2.
    rewrite B0. unfold totG, totH in Eg, Eh. rewrite Eg, Eh, Ev, !gradG_0, !hessG_0, !vadd_0r, !hadd_0r, vadd_0l, hadd_0l, Rplus_0_l. reflexivity.
  Qed.
End Comp.

Lemma composite_eval l encl P : Composite l encl = Some P -> (forall c, In c l -> proper c) -> forall s t p,
  returns P s t p (Rsum (map (fun c => value_of c s t p) l)) (Vsum (map (fun c => grad_of c s t p) l)) (Hsum (map (fun c => hess_of c s t p) l)).
Proof.
  intros E Pl s t p [[wp wg] wh]. unfold Composite in E. destruct l as [|c0 l0]; [discriminate|]. injection E as <-. cbn [p_eval].
  destruct s; apply evalComponents_ok; auto; split; [discriminate|split; discriminate|discriminate|split; discriminate|discriminate|split; discriminate].
Qed.
Lemma returns_of c s t p v g h : returns c s t p v g h -> value_of c s t p = v /\ grad_of c s t p = g /\ hess_of c s t p = h.
Proof. intros H. unfold value_of, grad_of, hess_of. rewrite (H (true, true, true)). cbn. auto. Qed.
Lemma returns_of' c s t p : (exists v g h, returns c s t p v g h) -> returns c s t p (value_of c s t p) (grad_of c s t p) (hess_of c s t p).
Proof. intros (v & g & h & H). destruct (returns_of _ _ _ _ _ _ _ H) as (-> & -> & ->). exact H. Qed.
Lemma composite_proper l encl P : Composite l encl = Some P -> (forall c, In c l -> proper c) -> proper P.
Proof.
  intros E Pl. split.
  - intros s t p. apply returns_of'. eexists _, _, _. exact (composite_eval l encl P E Pl s t p).
  - unfold Composite in E. destruct l; [discriminate|]. injection E as <-. discriminate.
Qed.
