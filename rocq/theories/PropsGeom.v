(** Property C57: polygons, and the integrals of B-splines over them. *)
From Coquelicot Require Import Coquelicot.
From Coq Require Import Psatz.
From Verif Require Import Arr PolyProofs BsplModel GeomModel GeomProofs GeomProofs2 GeomProofs3 GeomProofs4 GeomProofs6 GeomProofs7 GeomProofs9 SplineSpec SplIntSpec BsplSpec GeomSpec.
Require Import List. Import ListNotations.
Local Open Scope R_scope.

(** ---- the area ---- *)
(** The returned value is given by the shoelace formula, and is the integral of the winding number over any rectangle that contains the polygon. *)
Theorem C57_area : forall P x1 x2 y1 y2, x1 <= x2 -> y1 <= y2 -> Forall (in_box x1 x2 y1 y2) P ->
  polygonArea P = signed_area P /\ is_integral2 (fun x y => IZR (winding P x y)) x1 x2 y1 y2 (polygonArea P) /\ polygonArea (rev P) = - polygonArea P.
Proof.
  intros P x1 x2 y1 y2 Hx Hy HP. split; [apply area_shoelace|]. split.
  - rewrite <- (ee_area_sum x1 P). refine (is_integral2_ext _ _ _ _ _ _ _ _ (poly_integral (1, 0, 0) (1, 0, 0) x1 x2 y1 y2 Hx Hy P HP)). intros x y. unfold quad. cbn [fst snd]. ring.
  - rewrite !area_esum, esum_rev by (intros; ring). field.
Qed.

(** ---- the test for a point inside the polygon ---- *)
Theorem C57_inside : forall P x y,
  (isPointInsidePolygon x y P = true <-> winding P x y <> 0%Z) /\
  (* a point that sees all edges from the left: in particular, any point inside a convex polygon oriented counterclockwise *)
  (P <> [] -> (forall v w, In (v, w) (edges P) -> left_of v w (x, y)) -> isPointInsidePolygon x y P = true) /\
  (* a point separated from the polygon by a straight line *)
  (forall a b, (forall q, In q P -> 0 < a * (fst q - x) + b * (snd q - y)) -> isPointInsidePolygon x y P = false).
Proof.
  intros P x y. assert (E : isPointInsidePolygon x y P = true <-> winding P x y <> 0%Z). { rewrite inside_ok. destruct (Z.eqb_spec (winding P x y) 0); cbn; split; intros H; auto; try discriminate. }
  split; [exact E|]. split.
  - intros HP HL. apply E. pose proof (star_inside P x y HP HL). lia.
  - intros a b H. rewrite inside_ok, (separated P x y a b H). reflexivity.
Qed.
(** The documentation says that for a clockwise polygon the result is to be negated; in fact it does not depend on the orientation. *)
Theorem C57_inside_orientation_refuted : forall P x y, isPointInsidePolygon x y (rev P) = isPointInsidePolygon x y P.
Proof. intros P x y. rewrite !inside_ok, winding_rev. destruct (Z.eqb_spec (winding P x y) 0) as [->|H]; [reflexivity|]. destruct (Z.eqb_spec (- winding P x y) 0); [lia|reflexivity]. Qed.

(** ---- clipping ---- *)
Theorem C57_clip : forall P a b c d, let C := clipPolygonByRectangle P (mkRect (a, c) (b, d)) in
  Forall (in_box a b c d) C /\
  (Forall (in_box a b c d) P -> C = P) /\
  (Forall (fun p => fst p < a) P \/ Forall (fun p => b < fst p) P \/ Forall (fun p => snd p < c) P \/ Forall (fun p => d < snd p) P -> C = []) /\
  (forall x y, a < x < b -> c < y < d -> winding C x y = winding P x y /\ isPointInsidePolygon x y C = isPointInsidePolygon x y P) /\
  (forall x y, ~ in_box a b c d (x, y) -> isPointInsidePolygon x y C = false) /\
  (a <= b -> c <= d -> is_integral2 (fun x y => IZR (winding P x y)) a b c d (polygonArea C)).
Proof.
  intros P a b c d C.
  assert (B : Forall (in_box a b c d) C) by (exact (clipped_in_box P (mkRect (a, c) (b, d)))).
  assert (W : forall x y, a < x < b -> c < y < d -> winding C x y = winding P x y) by (intros; apply winding_clip; assumption).
  split; [exact B|]. split; [exact (clip_identity P (mkRect (a, c) (b, d)))|]. split.
  { intros [H|[H|[H|H]]].
    - apply (clip_empty P _ 3); [lia|]. refine (Forall_impl _ _ H). intros p Hp. apply Rle_b_f. exact Hp.
    - apply (clip_empty P _ 1); [lia|]. refine (Forall_impl _ _ H). intros p Hp. apply Rle_b_f. exact Hp.
    - apply (clip_empty P _ 0); [lia|]. refine (Forall_impl _ _ H). intros p Hp. apply Rle_b_f. exact Hp.
    - apply (clip_empty P _ 2); [lia|]. refine (Forall_impl _ _ H). intros p Hp. apply Rle_b_f. exact Hp. }
  split; [intros x y Hx Hy; split; [apply W; assumption|rewrite !inside_ok, (W x y Hx Hy); reflexivity]|]. split.
  { intros x y H. rewrite inside_ok, (winding_outside C a b c d x y B); [reflexivity|]. unfold in_box in H. cbn [fst snd] in H.
    destruct (Rlt_le_dec x a); [auto|]. destruct (Rlt_le_dec b x) as [?|?]; [right; left; lra|]. destruct (Rlt_le_dec y c); [auto|]. destruct (Rlt_le_dec d y); [right; right; right; lra|]. exfalso. apply H. lra. }
  intros Hab Hcd. destruct (C57_area C a b c d Hab Hcd B) as (_ & I & _).
  destruct I as [I1 I2].
  assert (X : forall y, c < y < d -> forall x, a < x < b -> IZR (winding C x y) = IZR (winding P x y)) by (intros; rewrite W by assumption; reflexivity).
  (* on the horizontal sides the winding number of P is still integrable *)
  assert (EX : forall y, ex_RInt (fun x => IZR (winding P x y)) a b).
  { intros y. set (x1 := fold_right (fun p m => Rmin (fst p) m) a P). set (x2 := fold_right (fun p m => Rmax (fst p) m) b P).
    set (y1 := fold_right (fun p m => Rmin (snd p) m) y P). set (y2 := fold_right (fun p m => Rmax (snd p) m) y P).
    assert (M : Forall (in_box x1 x2 y1 y2) P /\ x1 <= a /\ b <= x2 /\ y1 <= y <= y2).
    { unfold x1, x2, y1, y2. clear. induction P as [|p l [IH IH']]; [split; [constructor|cbn; lra]|]. cbn [fold_right].
      set (u1 := fold_right (fun p m => Rmin (fst p) m) a l) in *. set (u2 := fold_right (fun p m => Rmax (fst p) m) b l) in *. set (u3 := fold_right (fun p m => Rmin (snd p) m) y l) in *. set (u4 := fold_right (fun p m => Rmax (snd p) m) y l) in *.
      pose proof (Rmin_l (fst p) u1). pose proof (Rmin_r (fst p) u1). pose proof (Rmax_l (fst p) u2). pose proof (Rmax_r (fst p) u2). pose proof (Rmin_l (snd p) u3). pose proof (Rmin_r (snd p) u3). pose proof (Rmax_l (snd p) u4). pose proof (Rmax_r (snd p) u4).
      split; [|lra]. constructor; [unfold in_box; lra|]. refine (Forall_impl _ _ IH). intros q. unfold in_box. lra. }
    destruct M as (M & M1 & M2 & M3). destruct (C57_area P x1 x2 y1 y2 ltac:(lra) ltac:(lra) M) as (_ & (J & _) & _). specialize (J y M3).
    apply (@ex_RInt_Chasles_1 R_CompleteNormedModule _ a b x2); [lra|]. apply (@ex_RInt_Chasles_2 R_CompleteNormedModule _ x1 a x2); [lra|exact J]. }
  split; [intros y _; apply EX|]. refine (is_RInt_ext _ _ _ _ _ _ I2). rewrite Rmin_left, Rmax_right by lra. intros y Hy. apply RInt_ext. rewrite Rmin_left, Rmax_right by lra. intros x Hx. apply X; assumption.
Qed.

(** ---- integrals of B-splines over the polygon ---- *)
(** the constants of the code place all points of the 6-point rule strictly inside the triangle, and the weights sum up to one within rounding of the last decimal digit *)
Lemma codeRule_ok N : rules_ok codeRule N.
Proof. intros _. cbn [codeRule g_X1 g_rule6]. split; [lra|]. unfold rule_inside. repeat constructor; cbn [fst snd]; lra. Qed.
(** the code adds the integrals to the values already stored in the output array; it never fails, never writes beyond the stated number of elements,
    and reports whether the polygon extends beyond the grid (a polygon with less than three vertices is ignored) *)
Theorem C57_safe : forall N gx gy P o, grid_ok gx -> grid_ok gy -> (nbasis N gx * nbasis N gy <= alen o)%Z ->
  exists b o', computeBsplineIntegralsOverPolygon codeRule N gx gy P o = Ok (b, o') /\ alen o' = alen o /\
    (forall k, (nbasis N gx * nbasis N gy <= k)%Z -> afn o' k = afn o k) /\
    (b = true <-> (3 <= length P)%nat /\ exists p, In p P /\ ~ in_box (x_first gx) (x_last gx) (x_first gy) (x_last gy) p) /\
    ((length P < 3)%nat -> o' = o).
Proof.
  intros N gx gy P o Hx Hy Ho. destruct (le_lt_dec 3 (length P)) as [L|L].
  - destruct (compute_ok codeRule N (codeRule_ok N) gx gy Hx Hy P o L Ho) as (b & o' & x1 & x2 & y1 & y2 & X1 & X2 & Y1 & Y2 & E & OB & _ & _ & _ & _ & _ & _ & _ & (A1 & A2 & A3)).
    exists b, o'. split; [exact E|]. split; [exact A1|]. split; [exact A3|]. split; [|lia]. rewrite OB. intuition.
  - exists false, o. split; [destruct P as [|? [|? [|? ?]]]; cbn in L; try lia; reflexivity|]. split; [reflexivity|]. split; [reflexivity|]. split; [split; [discriminate|intros [? _]; lia]|reflexivity].
Qed.
(** For splines of degree 0 and 1 the integrals are exact: the increments are the integrals of the products of basis functions times the winding number
    (which is 1 inside a simple polygon oriented counterclockwise and -1 for the opposite orientation) over the entire grid. *)
Theorem C57_integrals : forall N gx gy P o, (N <= 1)%nat -> grid_ok gx -> grid_ok gy -> (nbasis N gx * nbasis N gy <= alen o)%Z -> (3 <= length P)%nat ->
  exists b o', computeBsplineIntegralsOverPolygon codeRule N gx gy P o = Ok (b, o') /\
    forall I J, (0 <= I < nbasis N gx)%Z -> (0 <= J < nbasis N gy)%Z ->
      is_integral2 (fun x y => orient P * IZR (winding P x y) * (basis N gx I x * basis N gy J y)) (x_first gx) (x_last gx) (x_first gy) (x_last gy)
        (afn o' (J * nbasis N gx + I)%Z - afn o (J * nbasis N gx + I)%Z).
Proof. intros N gx gy P o HN Hx Hy Ho L. apply (compute_exact codeRule N (codeRule_ok N) gx gy Hx Hy P o L Ho); lia. Qed.
(** For quadratic splines the result is exact with any constants for which the quadrature rules are exact (there are such constants, and the
    ones in the code agree with them to all given digits, see the next theorem). *)
Theorem C57_quadratic_partial : forall T gx gy P o, rule_inside (g_rule6 T) -> rule_exact 4 (g_rule6 T) -> 0 < g_X1 T < 1 -> 6 * g_X1 T ^ 2 - 6 * g_X1 T + 1 = 0 ->
  grid_ok gx -> grid_ok gy -> (nbasis 2 gx * nbasis 2 gy <= alen o)%Z -> (3 <= length P)%nat ->
  exists b o', computeBsplineIntegralsOverPolygon T 2 gx gy P o = Ok (b, o') /\
    forall I J, (0 <= I < nbasis 2 gx)%Z -> (0 <= J < nbasis 2 gy)%Z ->
      is_integral2 (fun x y => orient P * IZR (winding P x y) * (basis 2 gx I x * basis 2 gy J y)) (x_first gx) (x_last gx) (x_first gy) (x_last gy)
        (afn o' (J * nbasis 2 gx + I)%Z - afn o (J * nbasis 2 gx + I)%Z).
Proof. intros T gx gy P o HI HE HX HX1 Hx Hy Ho L. apply (compute_exact T 2 (fun _ => conj HX HI) gx gy Hx Hy P o L Ho); [lia|auto]. Qed.

Definition q10 : R := sqrt 10.
Definition r10 : R := sqrt (38 - 44 / 5 * q10).
Definition exactRule : georule :=
  let a1 := (8 - q10 - r10) / 18 in let a2 := (8 - q10 + r10) / 18 in
  let w1 := (620 - (45 / 2 * q10 - 5) * r10) / 3720 in let w2 := (620 + (45 / 2 * q10 - 5) * r10) / 3720 in
  mkRule ((3 - sqrt 3) / 6)
    [ (a1, a1, w1); (a1, 1 - 2 * a1, w1); (1 - 2 * a1, a1, w1); (a2, a2, w2); (1 - 2 * a2, a2, w2); (a2, 1 - 2 * a2, w2) ].
Lemma q10_sq : q10 * q10 = 10. Proof. apply sqrt_def. lra. Qed.
Lemma sqrt_bounds lo hi c : 0 <= lo -> 0 <= hi -> lo * lo <= c <= hi * hi -> lo <= sqrt c <= hi.
Proof. intros Hl Hh [A B]. split; [rewrite <- (sqrt_square lo Hl); apply sqrt_le_1_alt; exact A|rewrite <- (sqrt_square hi Hh); apply sqrt_le_1_alt; exact B]. Qed.
Lemma q10_bounds : 3.162277660168379331 <= q10 <= 3.162277660168379332. Proof. apply sqrt_bounds; lra. Qed.
Lemma r10_sq : r10 * r10 = 38 - 44 / 5 * q10. Proof. apply sqrt_def. pose proof q10_bounds. lra. Qed.
Lemma r10_bounds : 3.18935049665574728 <= r10 <= 3.18935049665574729.
Proof. pose proof q10_bounds. apply sqrt_bounds; lra. Qed.
Lemma qr10_bounds : 10.085611826021395 <= q10 * r10 <= 10.085611826021396.
Proof.
  pose proof q10_bounds as Q. pose proof r10_bounds as R1. split.
  - apply Rle_trans with (3.162277660168379331 * 3.18935049665574728); [lra|]. apply Rmult_le_compat; lra.
  - apply Rle_trans with (3.162277660168379332 * 3.18935049665574729); [|lra]. apply Rmult_le_compat; lra.
Qed.
(** The constants for which the rules are exact, and the constants of the code: the difference is less than 1e-15 in each of them. *)
Theorem C57_constants :
  (0 < g_X1 exactRule < 1 /\ 6 * g_X1 exactRule ^ 2 - 6 * g_X1 exactRule + 1 = 0 /\ rule_inside (g_rule6 exactRule) /\ rule_exact 4 (g_rule6 exactRule)) /\
  Rabs (g_X1 codeRule - g_X1 exactRule) <= 1 / 10 ^ 15 /\
  Forall2 (fun p q => Rabs (fst (fst p) - fst (fst q)) <= 1 / 10 ^ 15 /\ Rabs (snd (fst p) - snd (fst q)) <= 1 / 10 ^ 15 /\ Rabs (snd p - snd q) <= 1 / 10 ^ 15) (g_rule6 codeRule) (g_rule6 exactRule).
Proof.
  pose proof q10_bounds as Q. pose proof r10_bounds as R1. pose proof qr10_bounds as QR. pose proof q10_sq as Q2. pose proof r10_sq as R2.
  pose proof (sqrt_bounds 1.7320508075688772 1.7320508075688773 3 ltac:(lra) ltac:(lra) ltac:(lra)) as T. pose proof (sqrt_def 3 ltac:(lra)) as T2.
  split; [|split].
  - unfold exactRule. cbn [g_X1 g_rule6]. split; [lra|]. split.
    + replace (6 * ((3 - sqrt 3) / 6) ^ 2 - 6 * ((3 - sqrt 3) / 6) + 1) with ((sqrt 3 * sqrt 3 - 3) / 6) by field. rewrite T2. field.
    + split; [unfold rule_inside; repeat constructor; cbn [fst snd]; lra|].
      intros i j Hij. unfold rsum. cbn [fold_right fst snd].
      assert (C : (i = 0 /\ (j = 0 \/ j = 1 \/ j = 2 \/ j = 3 \/ j = 4) \/ i = 1 /\ (j = 0 \/ j = 1 \/ j = 2 \/ j = 3) \/ i = 2 /\ (j = 0 \/ j = 1 \/ j = 2) \/ i = 3 /\ (j = 0 \/ j = 1) \/ i = 4 /\ j = 0)%nat) by lia.
      clear Q R1 QR T T2. set (a1 := (8 - q10 - r10) / 18). set (a2 := (8 - q10 + r10) / 18). set (w1 := (620 - (45 / 2 * q10 - 5) * r10) / 3720). set (w2 := (620 + (45 / 2 * q10 - 5) * r10) / 3720).
      assert (Ea : a1 + a2 = (8 - q10) / 9) by (unfold a1, a2; field).
      assert (Em : a1 * a2 = (36 - 36 / 5 * q10) / 324). { replace (a1 * a2) with ((64 - 16 * q10 + q10 * q10 - r10 * r10) / 324) by (unfold a1, a2; field). rewrite Q2, R2. field. }
      assert (S0 : w1 + w2 = 1 / 3) by (unfold w1, w2; field).
      assert (S1 : w1 * a1 + w2 * a2 = (10 + q10) / 120).
      { replace (w1 * a1 + w2 * a2) with ((620 * (8 - q10) + (45 / 2 * q10 - 5) * (r10 * r10)) / 33480) by (unfold w1, w2, a1, a2; field). rewrite R2.
        replace (620 * (8 - q10) + (45 / 2 * q10 - 5) * (38 - 44 / 5 * q10)) with (620 * (8 - q10) + 899 * q10 - 190 - 198 * (q10 * q10)) by field. rewrite Q2. field. }
      clearbody a1 a2 w1 w2.
      assert (ST : forall k u v, w1 * a1 ^ k + w2 * a2 ^ k = u -> w1 * a1 ^ Datatypes.S k + w2 * a2 ^ Datatypes.S k = v -> w1 * a1 ^ Datatypes.S (Datatypes.S k) + w2 * a2 ^ Datatypes.S (Datatypes.S k) = (8 - q10) / 9 * v - (36 - 36 / 5 * q10) / 324 * u).
      { intros k u v <- <-. rewrite <- Ea, <- Em. cbn [pow]. ring. }
      assert (S2 : w1 * a1 ^ 2 + w2 * a2 ^ 2 = (5 + q10) / 180).
      { rewrite (ST 0%nat (1 / 3) ((10 + q10) / 120)) by (cbn [pow]; lra). replace ((8 - q10) / 9 * ((10 + q10) / 120) - (36 - 36 / 5 * q10) / 324 * (1 / 3)) with ((80 - 2 * q10 - q10 * q10) / 1080 - (36 - 36 / 5 * q10) / 972) by field. rewrite Q2. field. }
      assert (S3 : w1 * a1 ^ 3 + w2 * a2 ^ 3 = (4 + q10) / 360).
      { rewrite (ST 1%nat ((10 + q10) / 120) ((5 + q10) / 180)) by (cbn [pow] in *; lra). replace ((8 - q10) / 9 * ((5 + q10) / 180) - (36 - 36 / 5 * q10) / 324 * ((10 + q10) / 120)) with ((40 + 3 * q10 - q10 * q10) / 1620 - (360 - 36 * q10 - 36 / 5 * (q10 * q10)) / 38880) by field. rewrite Q2. field. }
      assert (S4 : w1 * a1 ^ 4 + w2 * a2 ^ 4 = (4 + q10) / 810).
      { rewrite (ST 2%nat ((5 + q10) / 180) ((4 + q10) / 360)) by assumption. replace ((8 - q10) / 9 * ((4 + q10) / 360) - (36 - 36 / 5 * q10) / 324 * ((5 + q10) / 180)) with ((32 + 4 * q10 - q10 * q10) / 3240 - (180 - 36 / 5 * (q10 * q10)) / 58320) by field. rewrite Q2. field. }
      clear ST Ea Em Hij Q2 R2.
      assert (F0 : INR (fact 0) = 1) by reflexivity. assert (F1 : INR (fact 1) = 1) by reflexivity.
      assert (F2 : INR (fact 2) = 2) by (rewrite INR_IZR_INZ; reflexivity). assert (F3 : INR (fact 3) = 6) by (rewrite INR_IZR_INZ; reflexivity). assert (F4 : INR (fact 4) = 24) by (rewrite INR_IZR_INZ; reflexivity).
      assert (F5 : INR (fact 5) = 120) by (rewrite INR_IZR_INZ; reflexivity). assert (F6 : INR (fact 6) = 720) by (rewrite INR_IZR_INZ; reflexivity).
      repeat match goal with H : _ \/ _ |- _ => destruct H | H : _ /\ _ |- _ => destruct H end; subst; cbn [Nat.add pow] in *; rewrite ?F0, ?F1, ?F2, ?F3, ?F4, ?F5, ?F6; lra.
  - unfold exactRule, codeRule. cbn [g_X1]. apply Rabs_le. lra.
  - unfold exactRule, codeRule. cbn [g_rule6]. assert (P15 : 10 ^ 15 = 1000000000000000) by ring. rewrite P15. repeat apply Forall2_cons; try apply Forall2_nil; cbn [fst snd]; repeat split; apply Rabs_le; split; lra.
Qed.
(** The basis functions sum up to one, hence for a polygon inside the grid the sum of all integrals is its area.  This holds for a spline of any degree with any rule whose
    weights sum up to one: always for N=0 and 1, and for the exact constants for N=2 and 3 (the decimal constants in the code sum up to 1+2e-16). *)
Theorem C57_total : forall T N gx gy P o, rules_ok T N -> ((2 <= N)%nat -> rule_exact 0 (g_rule6 T)) -> grid_ok gx -> grid_ok gy -> (nbasis N gx * nbasis N gy <= alen o)%Z -> (3 <= length P)%nat ->
  Forall (in_box (x_first gx) (x_last gx) (x_first gy) (x_last gy)) P ->
  exists o', computeBsplineIntegralsOverPolygon T N gx gy P o = Ok (false, o') /\
    zsum 0 (nbasis N gy) (fun J => zsum 0 (nbasis N gx) (fun I => afn o' (J * nbasis N gx + I)%Z - afn o (J * nbasis N gx + I)%Z)) = Rabs (signed_area P).
Proof. intros T N gx gy P o HT HM Hx Hy Ho L HP. apply (compute_total T N HT gx gy Hx Hy P o L Ho HP). apply rules_mass; [auto|exact HM]. Qed.

(** ---- concrete cases ---- *)
Definition tri : list pt := [(0, 0); (4, 0); (0, 4)].
Ltac crunch := repeat match goal with |- context [Rle_dec ?a ?b] => destruct (Rle_dec a b); try (exfalso; lra) | |- context [Rlt_dec ?a ?b] => destruct (Rlt_dec a b); try (exfalso; lra) end.
Example tri_area : polygonArea tri = 8. Proof. unfold tri, polygonArea. cbn. lra. Qed.
Example tri_inside : isPointInsidePolygon 1 1 tri = true /\ isPointInsidePolygon 3 3 tri = false.
Proof.
  split.
  - apply (proj1 (proj2 (C57_inside tri 1 1))); [discriminate|]. intros v w H. cbn in H. unfold left_of.
    destruct H as [H|[H|[H|[]]]]; injection H as <- <-; cbn [fst snd]; lra.
  - apply (proj2 (proj2 (C57_inside tri 3 3)) (-1) (-1)). intros q H. cbn in H. destruct H as [<-|[<-|[<-|[]]]]; cbn [fst snd]; lra.
Qed.
(** a non-convex polygon: the point (3,3) is in the cut-out part of the letter L *)
Definition ell : list pt := [(0, 0); (4, 0); (4, 2); (2, 2); (2, 4); (0, 4)].
Example ell_inside : isPointInsidePolygon 3 1 ell = true /\ isPointInsidePolygon 1 3 ell = true /\ isPointInsidePolygon 3 3 ell = false.
Proof. rewrite !inside_ok. unfold winding, ell, crossing, edge_x. cbn. crunch; cbn; auto. Qed.
Ltac clip1 := unfold clipDir; cbn; unfold isInside, intersection, linearInterp, Rle_b; cbn; crunch; cbn; repeat f_equal; field.
Example tri_clip : clipPolygonByRectangle tri (mkRect (1, 1) (3, 2)) = [(1, 2); (1, 1); (3, 1); (2, 2)].
Proof.
  unfold clipPolygonByRectangle, tri. set (r := mkRect _ _).
  assert (E0 : clipDir r 0 [(0, 0); (4, 0); (0, 4)] = [(0, 1); (3, 1); (0, 4)]) by clip1. rewrite E0.
  assert (E1 : clipDir r 1 [(0, 1); (3, 1); (0, 4)] = [(0, 1); (3, 1); (0, 4)]) by clip1. rewrite E1.
  assert (E2 : clipDir r 2 [(0, 1); (3, 1); (0, 4)] = [(0, 2); (0, 1); (3, 1); (2, 2)]) by clip1. rewrite E2. clip1.
Qed.
Definition gg : arr R := mkArr 3 (fun i => 2 * IZR i).
Example gg_ok : grid_ok gg.
Proof. split; [|cbn; lia]. intros i j Hi Hj. cbn [alen gg afn]. apply Rmult_lt_compat_l; [lra|]. apply IZR_lt. lia. Qed.
Example gg_hyp : (nbasis 1 gg * nbasis 1 gg <= alen (anew 9 0))%Z /\ (3 <= length tri)%nat /\ Forall (in_box (x_first gg) (x_last gg) (x_first gg) (x_last gg)) tri /\ Rabs (signed_area tri) = 8.
Proof.
  split; [unfold nbasis; cbn; lia|]. split; [cbn; lia|]. split; [unfold tri, in_box, x_first, x_last; cbn; repeat constructor; cbn; lra|]. rewrite <- area_shoelace, tri_area. apply Rabs_right. lra.
Qed.
Example gg_total : exists o', computeBsplineIntegralsOverPolygon codeRule 1 gg gg tri (anew 9 0) = Ok (false, o') /\
  zsum 0 3 (fun J => zsum 0 3 (fun I => afn o' (J * 3 + I)%Z)) = 8.
Proof.
  destruct gg_hyp as (H1 & H2 & H3 & H4). destruct (C57_total codeRule 1 gg gg tri (anew 9 0) (codeRule_ok 1) ltac:(lia) gg_ok gg_ok H1 H2 H3) as (o' & E & T). exists o'. split; [exact E|].
  rewrite H4 in T. rewrite <- T. apply zsum_ext. intros J _. apply zsum_ext. intros I _. cbn [afn anew]. change (nbasis 1 gg) with 3%Z. ring.
Qed.

Print Assumptions C57_area.
Print Assumptions C57_inside.
Print Assumptions C57_inside_orientation_refuted.
Print Assumptions C57_clip.
Print Assumptions C57_safe.
Print Assumptions C57_integrals.
Print Assumptions C57_quadratic_partial.
Print Assumptions C57_constants.
Print Assumptions C57_total.
