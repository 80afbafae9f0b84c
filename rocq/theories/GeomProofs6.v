(** Quadrature rules. *)
From Coquelicot Require Import Coquelicot.
From Coq Require Import Psatz.
From Verif Require Import Arr PolyProofs GeomModel GeomProofs GeomProofs2 GeomProofs3 GeomProofs4 SplineSpec BsplSpec GeomSpec.
Require Import List. Import ListNotations.
Local Open Scope R_scope.

Definition tarea (p1 p2 p3 : pt) : R := 1 / 2 * (fst p1 * (snd p2 - snd p3) + fst p2 * (snd p3 - snd p1) + fst p3 * (snd p1 - snd p2)).
(** what the routines add for a function f *)
Definition qrule (p1 p2 p3 : pt) (area : R) (rule : list (R * R * R)) (f : R -> R -> R) : R :=
  rsum (fun q => area * snd q * f (fst p1 * fst (fst q) + fst p2 * snd (fst q) + fst p3 * (1 - fst (fst q) - snd (fst q))) (snd p1 * fst (fst q) + snd p2 * snd (fst q) + snd p3 * (1 - fst (fst q) - snd (fst q)))) rule.
Section Q.
  Variable T : georule. Variable N : nat.
  Definition qtri (p1 p2 p3 : pt) (f : R -> R -> R) : R := if Req_EM_T (tarea p1 p2 p3) 0 then 0 else qrule p1 p2 p3 (tarea p1 p2 p3) (ruleN T N) f.
  Fixpoint qfan (p0 prev : pt) (l : list pt) (f : R -> R -> R) : R := match l with [] => 0 | v :: t => qtri p0 prev v f + qfan p0 v t f end.
  Definition qfanAll (P : list pt) (f : R -> R -> R) : R := match P with p0 :: p1 :: t => qfan p0 p1 t f | _ => 0 end.
  Definition qrect (r : rect) (f : R -> R -> R) : R :=
    let x1 := fst (r_lower r) in let x2 := fst (r_upper r) in let y1 := snd (r_lower r) in let y2 := snd (r_upper r) in
    let X1 := g_X1 T in let X2 := 1 - X1 in
    if (N <=? 1)%nat then (x2 - x1) * (y2 - y1) * f ((x1 + x2) / 2) ((y1 + y2) / 2)
    else (x2 - x1) * (y2 - y1) * (1 / 4) * (f (X1 * x1 + X2 * x2) (X1 * y1 + X2 * y2) + f (X1 * x2 + X2 * x1) (X1 * y1 + X2 * y2) + f (X1 * x1 + X2 * x2) (X1 * y2 + X2 * y1) + f (X1 * x2 + X2 * x1) (X1 * y2 + X2 * y1)).
  Definition qpoly (P : list pt) (f : R -> R -> R) : R :=
    match P with
    | [p0; p1; p2; p3] =>
      if Req_b (fst p0) (fst p3) && Req_b (snd p0) (snd p1) && Req_b (fst p1) (fst p2) && Req_b (snd p2) (snd p3) then qrect (mkRect p0 p2) f
      else if Req_b (fst p1) (fst p0) && Req_b (snd p1) (snd p2) && Req_b (fst p2) (fst p3) && Req_b (snd p3) (snd p0) then qrect (mkRect p1 p3) f
      else qfanAll P f
    | _ => qfanAll P f
    end.
End Q.

(** moments of a rule *)
Definition mom (i j : nat) (rule : list (R * R * R)) : R := rsum (fun p => snd p * fst (fst p) ^ i * snd (fst p) ^ j) rule.
Lemma moments2 a0 a1 a2 a3 a4 a5 b0 b1 b2 b3 b4 b5 rule :
  rsum (fun q : R * R * R => let a := fst (fst q) in let b := snd (fst q) in snd q * ((a0 + a1 * a + a2 * b + a3 * a ^ 2 + a4 * a * b + a5 * b ^ 2) * (b0 + b1 * a + b2 * b + b3 * a ^ 2 + b4 * a * b + b5 * b ^ 2))) rule =
  a0 * b0 * mom 0 0 rule + (a0 * b1 + a1 * b0) * mom 1 0 rule + (a0 * b2 + a2 * b0) * mom 0 1 rule
  + (a0 * b3 + a1 * b1 + a3 * b0) * mom 2 0 rule + (a0 * b4 + a1 * b2 + a2 * b1 + a4 * b0) * mom 1 1 rule + (a0 * b5 + a2 * b2 + a5 * b0) * mom 0 2 rule
  + (a1 * b3 + a3 * b1) * mom 3 0 rule + (a1 * b4 + a2 * b3 + a3 * b2 + a4 * b1) * mom 2 1 rule + (a1 * b5 + a2 * b4 + a4 * b2 + a5 * b1) * mom 1 2 rule + (a2 * b5 + a5 * b2) * mom 0 3 rule
  + a3 * b3 * mom 4 0 rule + (a3 * b4 + a4 * b3) * mom 3 1 rule + (a3 * b5 + a4 * b4 + a5 * b3) * mom 2 2 rule + (a4 * b5 + a5 * b4) * mom 1 3 rule + a5 * b5 * mom 0 4 rule.
Proof.
  induction rule as [|[[a b] w] l IH]; [unfold mom; cbn [rsum fold_right]; ring|].
  unfold mom in *. rewrite !rsum_cons. rewrite IH. cbn [fst snd]. ring.
Qed.
Lemma mom_val d rule i j : rule_exact d rule -> (i + j <= d)%nat -> mom i j rule = 2 * INR (fact i) * INR (fact j) / INR (fact (i + j + 2)).
Proof. intros H. apply H. Qed.
(** the sum over the edges of a triangle *)
Definition ee3 c d xl (p1 p2 p3 : pt) : R := ee c d xl p1 p2 + ee c d xl p2 p3 + ee c d xl p3 p1.
Lemma ee3_0 c0 d0 xl p1 p2 p3 : ee3 (c0, 0, 0) (d0, 0, 0) xl p1 p2 p3 = tarea p1 p2 p3 * (c0 * d0).
Proof. destruct p1, p2, p3. unfold ee3, ee, gpt, GG, aquad, quad, tarea. cbn [fst snd]. field. Qed.
Lemma tri_rule3 c0 c1 d0 d1 xl p1 p2 p3 : qrule p1 p2 p3 (tarea p1 p2 p3) rule3 (fun x y => quad (c0, c1, 0) x * quad (d0, d1, 0) y) = ee3 (c0, c1, 0) (d0, d1, 0) xl p1 p2 p3.
Proof. destruct p1 as [x1 y1], p2 as [x2 y2], p3 as [x3 y3]. unfold qrule, rule3, ee3, ee, gpt, GG, aquad, quad, tarea. cbn [rsum fold_right fst snd]. field. Qed.
Lemma tri_rule6 c d xl p1 p2 p3 rule : rule_exact 4 rule -> qrule p1 p2 p3 (tarea p1 p2 p3) rule (fun x y => quad c x * quad d y) = ee3 c d xl p1 p2 p3.
Proof.
  intros H. destruct c as [[c0 c1] c2], d as [[d0 d1] d2], p1 as [x1 y1], p2 as [x2 y2], p3 as [x3 y3]. unfold qrule. cbn [fst snd].
  set (A := tarea (x1, y1) (x2, y2) (x3, y3)).
  assert (E : rsum (fun q : R * R * R => A * snd q * (quad (c0, c1, c2) (x1 * fst (fst q) + x2 * snd (fst q) + x3 * (1 - fst (fst q) - snd (fst q))) * quad (d0, d1, d2) (y1 * fst (fst q) + y2 * snd (fst q) + y3 * (1 - fst (fst q) - snd (fst q))))) rule =
    A * rsum (fun q : R * R * R => let a := fst (fst q) in let b := snd (fst q) in snd q * (((c0 + c1 * x3 + c2 * x3 ^ 2) + (c1 + 2 * c2 * x3) * (x1 - x3) * a + (c1 + 2 * c2 * x3) * (x2 - x3) * b + c2 * (x1 - x3) ^ 2 * a ^ 2 + 2 * c2 * (x1 - x3) * (x2 - x3) * a * b + c2 * (x2 - x3) ^ 2 * b ^ 2)
      * ((d0 + d1 * y3 + d2 * y3 ^ 2) + (d1 + 2 * d2 * y3) * (y1 - y3) * a + (d1 + 2 * d2 * y3) * (y2 - y3) * b + d2 * (y1 - y3) ^ 2 * a ^ 2 + 2 * d2 * (y1 - y3) * (y2 - y3) * a * b + d2 * (y2 - y3) ^ 2 * b ^ 2))) rule).
  { clear H. clearbody A. induction rule as [|[[a b] w] l IH]; [cbn; ring|]. rewrite !rsum_cons, IH. cbn [fst snd]. unfold quad. cbn [fst snd]. ring. }
  rewrite E, moments2. rewrite !(mom_val 4 rule) by (try exact H; lia). cbn [fact Nat.add Nat.mul]. rewrite !INR_IZR_INZ. cbn [Z.of_nat Pos.of_succ_nat Pos.succ].
  unfold A, ee3, ee, gpt, GG, aquad, quad, tarea. cbn [fst snd]. field.
Qed.
(** rectangles *)
Lemma gauss2 c X x1 x2 : 6 * X ^ 2 - 6 * X + 1 = 0 -> (x2 - x1) / 2 * (quad c (X * x1 + (1 - X) * x2) + quad c (X * x2 + (1 - X) * x1)) = aquad c x2 - aquad c x1.
Proof.
  intros H. destruct c as [[c0 c1] c2]. unfold quad, aquad. cbn [fst snd].
  replace ((x2 - x1) / 2 * (c0 + c1 * (X * x1 + (1 - X) * x2) + c2 * (X * x1 + (1 - X) * x2) ^ 2 + (c0 + c1 * (X * x2 + (1 - X) * x1) + c2 * (X * x2 + (1 - X) * x1) ^ 2)))
    with (c0 * (x2 - x1) + c1 * (x2 ^ 2 - x1 ^ 2) / 2 + c2 * (x2 ^ 3 - x1 ^ 3) / 3 + c2 * (x2 - x1) ^ 3 / 6 * (6 * X ^ 2 - 6 * X + 1)) by field.
  rewrite H. field.
Qed.
Lemma vert_ee c d xl x y1 y2 : ee c d xl (x, y1) (x, y2) = (aquad c x - aquad c xl) * (aquad d y2 - aquad d y1).
Proof. destruct d as [[d0 d1] d2]. unfold ee, gpt, GG. cbn [fst snd]. replace (x + 0 * (x - x)) with x by ring. replace (x + 1/4 * (x - x)) with x by ring. replace (x + 1/2 * (x - x)) with x by ring. replace (x + 3/4 * (x - x)) with x by ring. replace (x + 1 * (x - x)) with x by ring. unfold quad, aquad. cbn [fst snd]. field. Qed.
Lemma hor_ee c d xl x1 x2 y : ee c d xl (x1, y) (x2, y) = 0.
Proof. unfold ee. cbn [fst snd]. field. Qed.

Section Exact.
  Variable T : georule. Variable N : nat.
  Variables c d : R * R * R. Variable xl : R.
  Let f0 x y := quad c x * quad d y.
  Hypothesis Htri : forall p1 p2 p3, qrule p1 p2 p3 (tarea p1 p2 p3) (ruleN T N) f0 = ee3 c d xl p1 p2 p3.
  Hypothesis Hrect : forall r, qrect T N r f0 = (aquad c (fst (r_upper r)) - aquad c (fst (r_lower r))) * (aquad d (snd (r_upper r)) - aquad d (snd (r_lower r))).
  Lemma qtri0 p1 p2 p3 : qtri T N p1 p2 p3 f0 = ee3 c d xl p1 p2 p3.
  Proof.
    unfold qtri. destruct (Req_EM_T (tarea p1 p2 p3) 0) as [E|E]; [|apply Htri]. rewrite <- (Htri p1 p2 p3), E. unfold qrule. generalize (ruleN T N) as l. symmetry. induction l as [|q l IH]; [reflexivity|]. rewrite rsum_cons, IH. ring.
  Qed.
  Lemma qfan0 p0 l : forall prev, qfan T N p0 prev l f0 = ee c d xl p0 prev + path (ee c d xl) prev l + ee c d xl (last l prev) p0.
  Proof.
    induction l as [|v l IH]; intros prev; cbn [qfan path]; [cbn [last]; rewrite (ee_antisym c d xl p0 prev); ring|]. rewrite IH, qtri0, last_cons. unfold ee3. rewrite (ee_antisym c d xl p0 v). ring.
  Qed.
  Lemma qfanAll0 P : qfanAll T N P f0 = esum (ee c d xl) P.
  Proof.
    assert (Z0 : forall p, ee c d xl p p = 0) by (intros p; pose proof (ee_antisym c d xl p p); lra).
    destruct P as [|p0 [|p1 t]]; cbn [qfanAll]; [reflexivity|cbn [esum last path]; rewrite Z0; ring|]. rewrite esum_cons, last_cons. cbn [path]. rewrite qfan0. ring.
  Qed.
  Lemma qpoly0 P : qpoly T N P f0 = esum (ee c d xl) P.
  Proof.
    unfold qpoly. destruct P as [|p0 [|p1 [|p2 [|p3 [|p4 t]]]]]; try apply qfanAll0.
    destruct (Req_b (fst p0) (fst p3) && Req_b (snd p0) (snd p1) && Req_b (fst p1) (fst p2) && Req_b (snd p2) (snd p3)) eqn:E1; [|destruct (Req_b (fst p1) (fst p0) && Req_b (snd p1) (snd p2) && Req_b (fst p2) (fst p3) && Req_b (snd p3) (snd p0)) eqn:E2; [|apply qfanAll0]].
    - unfold Req_b in E1. destruct p0 as [x0 y0], p1 as [x1 y1], p2 as [x2 y2], p3 as [x3 y3]. cbn [fst snd] in E1.
      destruct (Req_EM_T x0 x3) as [<-|]; [|discriminate]. destruct (Req_EM_T y0 y1) as [<-|]; [|discriminate]. destruct (Req_EM_T x1 x2) as [<-|]; [|discriminate]. destruct (Req_EM_T y2 y3) as [<-|]; [|discriminate].
      rewrite Hrect. cbn [r_lower r_upper fst snd]. unfold esum. cbn [last path]. rewrite !hor_ee, !vert_ee. ring.
    - unfold Req_b in E2. destruct p0 as [x0 y0], p1 as [x1 y1], p2 as [x2 y2], p3 as [x3 y3]. cbn [fst snd] in E2.
      destruct (Req_EM_T x1 x0) as [<-|]; [|discriminate]. destruct (Req_EM_T y1 y2) as [<-|]; [|discriminate]. destruct (Req_EM_T x2 x3) as [<-|]; [|discriminate]. destruct (Req_EM_T y3 y0) as [<-|]; [|discriminate].
      rewrite Hrect. cbn [r_lower r_upper fst snd]. unfold esum. cbn [last path]. rewrite !hor_ee, !vert_ee. ring.
  Qed.
End Exact.
(** instances: constant, linear and quadratic functions *)
Definition degree_ok (N : nat) (c : R * R * R) : Prop := match N with O => snd (fst c) = 0 /\ snd c = 0 | S O => snd c = 0 | _ => True end.
Lemma qpoly_N01 T N c d xl P : (N <= 1)%nat -> degree_ok N c -> degree_ok N d -> qpoly T N P (fun x y => quad c x * quad d y) = esum (ee c d xl) P.
Proof.
  intros HN Hc Hd. destruct c as [[c0 c1] c2], d as [[d0 d1] d2]. destruct N as [|[|N]]; [| |lia]; cbn [degree_ok fst snd] in *.
  - destruct Hc as [-> ->], Hd as [-> ->]. apply qpoly0.
    + intros. rewrite ee3_0. unfold qrule, ruleN, rule1, quad. cbn [rsum fold_right fst snd]. ring.
    + intros r. unfold qrect. cbn [Nat.leb]. cbv zeta. unfold quad, aquad. cbn [fst snd]. field.
  - subst c2 d2. apply qpoly0.
    + intros. apply tri_rule3.
    + intros r. unfold qrect. cbn [Nat.leb]. cbv zeta. unfold quad, aquad. cbn [fst snd]. field.
Qed.
Lemma qpoly_N2 T N c d xl P : (2 <= N)%nat -> rule_exact 4 (g_rule6 T) -> 6 * g_X1 T ^ 2 - 6 * g_X1 T + 1 = 0 -> qpoly T N P (fun x y => quad c x * quad d y) = esum (ee c d xl) P.
Proof.
  intros HN H6 HX. apply qpoly0.
  - intros. replace (ruleN T N) with (g_rule6 T) by (destruct N as [|[|N]]; [lia|lia|reflexivity]). apply tri_rule6. exact H6.
  - intros r. unfold qrect. replace (N <=? 1)%nat with false by (symmetry; apply Nat.leb_gt; lia). cbv zeta.
    rewrite <- !(gauss2 _ (g_X1 T)) by exact HX. field.
Qed.
Lemma rule_mass p1 p2 p3 A rule : rule_exact 0 rule -> qrule p1 p2 p3 A rule (fun _ _ => 1) = A.
Proof.
  intros H. specialize (H 0%nat 0%nat ltac:(lia)). cbn [Nat.add fact Nat.mul INR pow] in H. unfold qrule.
  transitivity (A * rsum (fun p : R * R * R => snd p * 1 * 1) rule); [|rewrite H; field]. clear H. induction rule as [|q l IH]; [cbn; ring|]. rewrite !rsum_cons, IH. ring.
Qed.
Lemma rsum_ext {A} (f g : A -> R) l : (forall a, f a = g a) -> rsum f l = rsum g l.
Proof. intros H. apply rsum_ext_in. auto. Qed.
Lemma rules_mass T N : (2 <= N)%nat \/ True -> ((2 <= N)%nat -> rule_exact 0 (g_rule6 T)) -> rule_exact 0 (ruleN T N).
Proof.
  intros _ H. destruct N as [|[|N]]; [| |apply H; lia]; intros i j Hij; assert (i = 0%nat) by lia; assert (j = 0%nat) by lia; subst; cbn; lra.
Qed.
Lemma qpoly_one T N P : rule_exact 0 (ruleN T N) -> qpoly T N P (fun _ _ => 1) = polygonArea P.
Proof.
  intros H. rewrite <- (ee_area_sum 0 P). rewrite <- (qpoly0 T N (1, 0, 0) (1, 0, 0) 0).
  - assert (E : (fun _ _ : R => 1) = (fun x y : R => quad (1, 0, 0) x * quad (1, 0, 0) y)) by (apply FunctionalExtensionality.functional_extensionality; intros x; apply FunctionalExtensionality.functional_extensionality; intros y; unfold quad; cbn [fst snd]; ring). rewrite E. reflexivity.
  - intros p1 p2 p3. rewrite ee3_0. rewrite <- (rule_mass p1 p2 p3 (tarea p1 p2 p3) (ruleN T N) H) at 2. rewrite Rmult_1_r. rewrite Rmult_1_r. unfold qrule. apply rsum_ext. intros q. unfold quad. cbn [fst snd]. ring.
  - intros r. unfold qrect. cbv zeta. destruct (N <=? 1)%nat; unfold quad, aquad; cbn [fst snd]; field.
Qed.
