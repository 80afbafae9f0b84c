(** Integrals of the winding number times a biquadratic polynomial. *)
From Coquelicot Require Import Coquelicot.
From Coq Require Import Psatz.
From Verif Require SplIntProofs3.
From Verif Require Import Arr PolyProofs SplIntProofs GeomModel GeomSpec GeomProofs GeomProofs2 GeomProofs3.
Require Import List. Import ListNotations.
Local Open Scope R_scope.

Definition quad (c : R * R * R) (t : R) : R := fst (fst c) + snd (fst c) * t + snd c * t ^ 2.
Definition aquad (c : R * R * R) (t : R) : R := fst (fst c) * t + snd (fst c) * t ^ 2 / 2 + snd c * t ^ 3 / 3.
Lemma RInt_antider (F f : R -> R) a b : (forall t, is_derive F t (f t)) -> (forall t, continuous f t) -> is_RInt f a b (F b - F a).
Proof. intros H C. exact (is_RInt_derive F f a b (fun t _ => H t) (fun t _ => C t)). Qed.
Lemma quad_RInt c a b : is_RInt (quad c) a b (aquad c b - aquad c a).
Proof.
  apply RInt_antider; intros t.
  - unfold aquad, quad. auto_derive; [trivial|]. field.
  - apply (ex_derive_continuous (V := R_NormedModule)). unfold quad. auto_derive. trivial.
Qed.
(** the integral of the product of a cubic and a quadratic function along a segment *)
Lemma cubquad_RInt q0 q1 q2 q3 r0 r1 r2 a b : a <> b ->
  is_RInt (fun y => let s := (y - a) / (b - a) in (q0 + q1 * s + q2 * s ^ 2 + q3 * s ^ 3) * (r0 + r1 * s + r2 * s ^ 2)) a b
    ((b - a) * (q0 * r0 + (q0 * r1 + q1 * r0) / 2 + (q0 * r2 + q1 * r1 + q2 * r0) / 3 + (q1 * r2 + q2 * r1 + q3 * r0) / 4 + (q2 * r2 + q3 * r1) / 5 + q3 * r2 / 6)).
Proof.
  intros H. cbv zeta.
  set (F := fun y => let s := (y - a) / (b - a) in (b - a) * (q0 * r0 * s + (q0 * r1 + q1 * r0) * s ^ 2 / 2 + (q0 * r2 + q1 * r1 + q2 * r0) * s ^ 3 / 3 + (q1 * r2 + q2 * r1 + q3 * r0) * s ^ 4 / 4 + (q2 * r2 + q3 * r1) * s ^ 5 / 5 + q3 * r2 * s ^ 6 / 6)).
  replace ((b - a) * _) with (F b - F a). 2: { unfold F. cbv zeta. field. lra. }
  apply RInt_antider; intros t.
  - unfold F. cbv zeta. auto_derive; [trivial|]. field. lra.
  - apply (ex_derive_continuous (V := R_NormedModule)). auto_derive. trivial.
Qed.
Lemma RI_zero_on (f : R -> R) a b : a <= b -> (forall x, a < x < b -> f x = 0) -> is_RInt f a b 0.
Proof.
  intros Hab H. apply (is_RInt_ext (fun _ => 0)).
  - rewrite Rmin_left, Rmax_right by lra. intros x Hx. symmetry. apply H. exact Hx.
  - exact (RI_zero a b).
Qed.
Lemma RI_on (f g : R -> R) a b v : a <= b -> (forall x, a < x < b -> f x = g x) -> is_RInt g a b v -> is_RInt f a b v.
Proof. intros Hab H. apply is_RInt_ext. rewrite Rmin_left, Rmax_right by lra. intros x Hx. symmetry. apply H. exact Hx. Qed.

Section Edge.
  Variables c d : R * R * R.
  Variables xl xu yl yu : R.
  Hypothesis Hx : xl <= xu. Hypothesis Hy : yl <= yu.
  Definition GG (x y : R) : R := (aquad c x - aquad c xl) * quad d y.
  Definition gpt (v w : pt) (s : R) : R := GG (fst v + s * (fst w - fst v)) (snd v + s * (snd w - snd v)).
  (** the contribution of an edge to the integral: Boole's rule, exact for polynomials of degree 5 *)
  Definition ee (v w : pt) : R := (snd w - snd v) * (7 * gpt v w 0 + 32 * gpt v w (1/4) + 12 * gpt v w (1/2) + 32 * gpt v w (3/4) + 7 * gpt v w 1) / 90.
  Lemma gpt_sym v w s : gpt w v s = gpt v w (1 - s).
  Proof. unfold gpt. f_equal; ring. Qed.
  Lemma ee_antisym v w : ee w v = - ee v w.
  Proof. unfold ee. rewrite !(gpt_sym v w). replace (1 - 0) with 1 by ring. replace (1 - 1/4) with (3/4) by field. replace (1 - 1/2) with (1/2) by field. replace (1 - 3/4) with (1/4) by field. replace (1 - 1) with 0 by ring. field. Qed.
  Definition hh (v w : pt) (y : R) : R :=
    if Rle_dec (snd v) y then if Rlt_dec y (snd w) then GG (edge_x v w y) y else 0
    else if Rle_dec (snd w) y then -1 * GG (edge_x v w y) y else 0.
  Let box := in_box xl xu yl yu.
  Lemma edge_x_in v w y : box v -> box w -> snd v <= y < snd w \/ snd w <= y < snd v -> xl <= edge_x v w y <= xu.
  Proof.
    intros [Hv _] [Hw _] Hyy. unfold edge_x. replace (fst v + (y - snd v) * (fst w - fst v) / (snd w - snd v)) with (fst v + (y - snd v) / (snd w - snd v) * (fst w - fst v)) by (field; lra).
    assert (T : 0 <= (y - snd v) / (snd w - snd v) <= 1) by (apply frac01; lra). set (t := (y - snd v) / (snd w - snd v)) in *. nra.
  Qed.
  Lemma step_RInt ex y : xl <= ex <= xu -> is_RInt (fun x => (if Rlt_dec x ex then 1 else 0) * (quad c x * quad d y)) xl xu (GG ex y).
  Proof.
    intros He. replace (GG ex y) with (GG ex y + 0) by ring.
    apply (RI_chasles _ xl ex xu).
    - apply (RI_on _ (fun x => quad d y * quad c x)); [lra| |].
      + intros x Hxx. destruct (Rlt_dec x ex); [|lra]. ring.
      + unfold GG. replace ((aquad c ex - aquad c xl) * quad d y) with (quad d y * (aquad c ex - aquad c xl)) by ring.
        apply RI_scal. apply quad_RInt.
    - apply RI_zero_on; [lra|]. intros x Hxx. destruct (Rlt_dec x ex); [lra|]. ring.
  Qed.
  Lemma inner v w y : box v -> box w -> is_RInt (fun x => cr x y v w * (quad c x * quad d y)) xl xu (hh v w y).
  Proof.
    intros Hv Hw. unfold cr, crossing, hh. destruct (Rle_dec (snd v) y).
    - destruct (Rlt_dec y (snd w)).
      + apply (RI_on _ (fun x => (if Rlt_dec x (edge_x v w y) then 1 else 0) * (quad c x * quad d y))); [lra| |].
        * intros x _. destruct (Rlt_dec x (edge_x v w y)); reflexivity.
        * apply step_RInt. apply edge_x_in; auto.
      + apply RI_zero_on; [lra|]. intros. ring.
    - destruct (Rle_dec (snd w) y).
      + apply (RI_on _ (fun x => -1 * ((if Rlt_dec x (edge_x v w y) then 1 else 0) * (quad c x * quad d y)))); [lra| |].
        * intros x _. destruct (Rlt_dec x (edge_x v w y)); ring.
        * apply RI_scal. apply step_RInt. apply edge_x_in; auto. lra.
      + apply RI_zero_on; [lra|]. intros. ring.
  Qed.
  Lemma line_RInt v w : snd v <> snd w -> is_RInt (fun y => GG (edge_x v w y) y) (snd v) (snd w) (ee v w).
  Proof.
    intros H. destruct v as [vx vy], w as [wx wy]. cbn [fst snd] in *.
    set (dx := wx - vx). set (dy := wy - vy).
    set (q0 := aquad c vx - aquad c xl). set (q1 := quad c vx * dx). set (q2 := (snd (fst c) + 2 * snd c * vx) * dx ^ 2 / 2). set (q3 := snd c * dx ^ 3 / 3).
    set (r0 := quad d vy). set (r1 := (snd (fst d) + 2 * snd d * vy) * dy). set (r2 := snd d * dy ^ 2).
    pose proof (cubquad_RInt q0 q1 q2 q3 r0 r1 r2 vy wy H) as K. cbv zeta in K.
    apply (RI_ext _ (fun y => GG (edge_x (vx, vy) (wx, wy) y) y)) in K.
    - eapply RI_val; [exact K|]. unfold ee, gpt, GG, q0, q1, q2, q3, r0, r1, r2, dx, dy, aquad, quad. cbn [fst snd]. field.
    - intros y _. unfold GG, edge_x, q0, q1, q2, q3, r0, r1, r2, dx, dy, aquad, quad. cbn [fst snd]. field. lra.
  Qed.
  Lemma outer v w : box v -> box w -> is_RInt (hh v w) yl yu (ee v w).
  Proof.
    intros [_ Hv] [_ Hw]. destruct (Rtotal_order (snd v) (snd w)) as [L|[E|L]].
    - replace (ee v w) with (0 + ee v w + 0) by ring.
      apply (RI_chasles _ yl (snd w) yu); [apply (RI_chasles _ yl (snd v) (snd w))|].
      + apply RI_zero_on; [lra|]. intros y H. unfold hh. destruct (Rle_dec (snd v) y); [lra|]. destruct (Rle_dec (snd w) y); [lra|]. reflexivity.
      + apply (RI_on _ (fun y => GG (edge_x v w y) y)); [lra| |apply line_RInt; lra]. intros y H. unfold hh. destruct (Rle_dec (snd v) y); [|lra]. destruct (Rlt_dec y (snd w)); [|lra]. reflexivity.
      + apply RI_zero_on; [lra|]. intros y H. unfold hh. destruct (Rle_dec (snd v) y); [|lra]. destruct (Rlt_dec y (snd w)); [lra|]. reflexivity.
    - assert (E0 : ee v w = 0) by (unfold ee; rewrite E; field). rewrite E0. apply RI_zero_on; [lra|]. intros y H. unfold hh. rewrite E. destruct (Rle_dec (snd w) y); [|reflexivity]. destruct (Rlt_dec y (snd w)); [lra|reflexivity].
    - replace (ee v w) with (0 + -1 * ee w v + 0) by (rewrite (ee_antisym v w); ring).
      apply (RI_chasles _ yl (snd v) yu); [apply (RI_chasles _ yl (snd w) (snd v))|].
      + apply RI_zero_on; [lra|]. intros y H. unfold hh. destruct (Rle_dec (snd v) y); [lra|]. destruct (Rle_dec (snd w) y); [lra|]. reflexivity.
      + apply (RI_on _ (fun y => -1 * GG (edge_x w v y) y)); [lra| |apply RI_scal; apply line_RInt; lra]. intros y H. unfold hh. destruct (Rle_dec (snd v) y); [lra|]. destruct (Rle_dec (snd w) y); [|lra]. f_equal. f_equal. unfold edge_x. field. lra.
      + apply RI_zero_on; [lra|]. intros y H. unfold hh. destruct (Rle_dec (snd v) y); [|lra]. destruct (Rlt_dec y (snd w)); [lra|]. reflexivity.
  Qed.
  Lemma path_inner l : forall q y, box q -> Forall box l -> is_RInt (fun x => path (cr x y) q l * (quad c x * quad d y)) xl xu (path (fun v w => hh v w y) q l).
  Proof.
    induction l as [|a l IH]; intros q y Hq Hl; cbn [path]; [apply RI_zero_on; [lra|]; intros; ring|]. inversion Hl; subst.
    apply (RI_on _ (fun x => cr x y q a * (quad c x * quad d y) + path (cr x y) a l * (quad c x * quad d y))); [lra|intros x _; ring|].
    apply RI_plus; [apply inner; assumption|apply IH; assumption].
  Qed.
  Lemma path_outer l : forall q, box q -> Forall box l -> is_RInt (fun y => path (fun v w => hh v w y) q l) yl yu (path ee q l).
  Proof.
    induction l as [|a l IH]; intros q Hq Hl; cbn [path]; [apply RI_zero_on; [lra|]; intros; ring|]. inversion Hl; subst.
    apply RI_plus; [apply outer; assumption|apply IH; assumption].
  Qed.
  Definition hsum (P : list pt) (y : R) : R := esum (fun v w => hh v w y) P.
  Lemma poly_inner P y : Forall box P -> is_RInt (fun x => IZR (winding P x y) * (quad c x * quad d y)) xl xu (hsum P y).
  Proof.
    intros HP. apply (RI_on _ (fun x => esum (cr x y) P * (quad c x * quad d y))); [lra|intros x _; rewrite winding_esum; reflexivity|].
    unfold hsum. destruct P as [|a t]; [apply RI_zero_on; [lra|]; intros; cbn [esum]; ring|]. unfold esum. apply path_inner; [|exact HP]. inversion HP; subst. rewrite last_cons. apply last_in; assumption.
  Qed.
  Lemma poly_outer P : Forall box P -> is_RInt (hsum P) yl yu (esum ee P).
  Proof.
    intros HP. unfold hsum. destruct P as [|a t]; [apply RI_zero_on; [lra|]; intros; reflexivity|]. unfold esum. apply path_outer; [|exact HP]. inversion HP; subst. rewrite last_cons. apply last_in; assumption.
  Qed.
  Lemma poly_integral P : Forall box P -> is_integral2 (fun x y => IZR (winding P x y) * (quad c x * quad d y)) xl xu yl yu (esum ee P).
  Proof.
    intros HP. split; [intros y _; eexists; apply poly_inner; exact HP|].
    apply (RI_on _ (hsum P)); [lra| |apply poly_outer; exact HP]. intros y _. apply SplIntProofs3.RI_unique. apply poly_inner. exact HP.
  Qed.
End Edge.
(** the area *)
Lemma ee_area xl v w : ee (1, 0, 0) (1, 0, 0) xl v w = (fst w + fst v) * (snd w - snd v) / 2 - xl * (snd w - snd v).
Proof. unfold ee, gpt, GG, aquad, quad. cbn [fst snd]. field. Qed.
Lemma ee_area_sum xl P : esum (ee (1, 0, 0) (1, 0, 0) xl) P = polygonArea P.
Proof.
  rewrite area_esum. rewrite (esum_ext _ (fun v w => (fun v w => - xl * snd w - - xl * snd v) v w + / 2 * (fun v w => (fst w + fst v) * (snd w - snd v)) v w)) by (intros; cbv beta; rewrite ee_area; field).
  rewrite (esum_lin (fun v w => - xl * snd w - - xl * snd v) (fun v w => (fst w + fst v) * (snd w - snd v)) (/ 2) P). pose proof (esum_pot (fun p => - xl * snd p) P) as Q. cbv beta in Q. rewrite Q. field.
Qed.
