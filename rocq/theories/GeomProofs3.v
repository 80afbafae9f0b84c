(** Points inside and outside; the area. *)
From Coquelicot Require Import Coquelicot.
From Coq Require Import Psatz Permutation.
From Verif Require Import Arr PolyProofs GeomModel GeomSpec GeomProofs GeomProofs2.
Require Import List. Import ListNotations.
Local Open Scope R_scope.

Lemma edges_fst P : map fst (edges P) = P.
Proof.
  destruct P as [|a t]; [reflexivity|]. cbn [edges]. assert (L : length (a :: t) = length (t ++ [a])) by (rewrite app_length; cbn; lia).
  revert L. generalize (t ++ [a]) as m. generalize (a :: t) as l. clear. induction l as [|b l IH]; intros [|c m] L; cbn in *; try lia; [reflexivity|]. f_equal. apply IH. lia.
Qed.
Lemma edges_snd P : Permutation (map snd (edges P)) P.
Proof.
  destruct P as [|a t]; [constructor|]. cbn [edges]. assert (L : length (a :: t) = length (t ++ [a])) by (rewrite app_length; cbn; lia).
  assert (E : map snd (combine (a :: t) (t ++ [a])) = t ++ [a]).
  { revert L. generalize (t ++ [a]) as m. generalize (a :: t) as l. clear. induction l as [|b l IH]; intros [|c m] L; cbn in *; try lia; [reflexivity|]. f_equal. apply IH. lia. }
  rewrite E. symmetry. apply Permutation_cons_append.
Qed.
Lemma edge_prev P v w : In (v, w) (edges P) -> exists u, In (u, v) (edges P).
Proof.
  intros H. assert (A : In v P) by (rewrite <- edges_fst; apply in_map_iff; exists (v, w); auto).
  apply (Permutation_in _ (Permutation_sym (edges_snd P))) in A. apply in_map_iff in A. destruct A as ([u z] & E & A). cbn in E. subst z. eauto.
Qed.
Lemma edge_next P v w : In (v, w) (edges P) -> exists z, In (w, z) (edges P).
Proof.
  intros H. assert (A : In w (map snd (edges P))) by (apply in_map_iff; exists (v, w); auto).
  apply (Permutation_in _ (edges_snd P)) in A. rewrite <- edges_fst in A. apply in_map_iff in A. destruct A as ([u z] & E & A). cbn in E. subst u. eauto.
Qed.
Lemma rsum_cons {A} (f : A -> R) a l : rsum f (a :: l) = f a + rsum f l. Proof. reflexivity. Qed.
Lemma rsum_nonneg {A} (f : A -> R) l : (forall a, In a l -> 0 <= f a) -> 0 <= rsum f l.
Proof. induction l as [|a l IH]; intros H; [cbn; lra|]. rewrite rsum_cons. assert (0 <= f a) by (apply H; left; reflexivity). assert (0 <= rsum f l) by (apply IH; intros; apply H; right; assumption). lra. Qed.
Lemma rsum_zero {A} (f : A -> R) l : (forall a, In a l -> 0 <= f a) -> rsum f l = 0 -> forall a, In a l -> f a = 0.
Proof.
  induction l as [|b l IH]; intros H E a Ha; [destruct Ha|]. rewrite rsum_cons in E. assert (0 <= f b) by (apply H; left; reflexivity). assert (0 <= rsum f l) by (apply rsum_nonneg; intros; apply H; right; assumption).
  destruct Ha as [-> | Ha]; [lra|]. apply IH; auto; [intros; apply H; right; assumption|lra].
Qed.
Lemma rsum_ext_in {A} (f g : A -> R) l : (forall a, In a l -> f a = g a) -> rsum f l = rsum g l.
Proof. induction l as [|a l IH]; intros H; [reflexivity|]. rewrite !rsum_cons. rewrite (H a), IH; auto; [intros; apply H; right; assumption|left; reflexivity]. Qed.
Lemma rsum_opp {A} (f : A -> R) l : rsum (fun a => - f a) l = - rsum f l.
Proof. induction l as [|a l IH]; [cbn; ring|]. rewrite !rsum_cons, IH. ring. Qed.

(** a point that has every edge on the same side *)
Lemma left_DD x y v w : left_of v w (x, y) <-> 0 < DD x y v w.
Proof. unfold left_of, DD. cbn [fst snd]. tauto. Qed.
Lemma star_inside P x y : P <> [] -> (forall v w, In (v, w) (edges P) -> left_of v w (x, y)) -> (1 <= winding P x y)%Z.
Proof.
  intros HP H.
  assert (C0 : forall e, In e (edges P) -> 0 <= cr x y (fst e) (snd e)).
  { intros [v w] He. cbn [fst snd]. pose proof (proj1 (left_DD x y v w) (H v w He)). destruct (cr_cases x y v w) as [G|[G|[G|[G|[G|G]]]]]; lra. }
  pose proof (rsum_nonneg _ _ C0) as W. pose proof (rsum_edges (cr x y) P) as E. rewrite <- winding_esum in E. rewrite E in W.
  apply le_IZR in W. destruct (Z.eq_dec (winding P x y) 0) as [W0|]; [exfalso|lia]. rewrite W0 in E.
  pose proof (rsum_zero _ _ C0 E) as Z0.
  (* no edge crosses the horizontal line upwards, hence none crosses it at all *)
  assert (C1 : forall e, In e (edges P) -> 0 <= - (above y (snd e) - above y (fst e))).
  { intros [v w] He. specialize (Z0 _ He). cbn [fst snd] in *. pose proof (proj1 (left_DD x y v w) (H v w He)). unfold above. destruct (cr_cases x y v w) as [G|[G|[G|[G|[G|G]]]]]; destruct (Rlt_dec y (snd w)), (Rlt_dec y (snd v)); lra. }
  assert (C2 : rsum (fun e => - (above y (snd e) - above y (fst e))) (edges P) = 0).
  { rewrite (rsum_opp (fun e => above y (snd e) - above y (fst e))). pose proof (rsum_edges (fun v w => above y w - above y v) P) as Q. rewrite esum_pot in Q. cbv beta in Q. match type of Q with ?a = _ => match goal with |- - ?b = _ => change b with a end end. rewrite Q. ring. }
  pose proof (rsum_zero _ _ C1 C2) as S0.
  (* the slope increases along each edge *)
  set (g := fun p : pt => if Rlt_dec y (snd p) then - ((fst p - x) / (snd p - y)) else (fst p - x) / (y - snd p)).
  assert (C3 : forall e, In e (edges P) -> 0 < g (snd e) - g (fst e)).
  { intros [v w] He. pose proof (S0 _ He) as S1. cbn [fst snd] in *. pose proof (proj1 (left_DD x y v w) (H v w He)) as D. rewrite DD_alt in D. unfold above in S1. unfold g.
    destruct (Rlt_dec y (snd w)), (Rlt_dec y (snd v)); try lra.
    - assert (K : 0 < ((fst w - x) * (y - snd v) + (fst v - x) * (snd w - y)) / ((snd v - y) * (snd w - y))) by (apply Rdiv_lt_0_compat; [exact D|apply Rmult_lt_0_compat; lra]).
      replace (- ((fst w - x) / (snd w - y)) - - ((fst v - x) / (snd v - y))) with (((fst w - x) * (y - snd v) + (fst v - x) * (snd w - y)) / ((snd v - y) * (snd w - y))) by (field; lra). exact K.
    - assert (Nv : snd v < y).
      { apply Rnot_le_lt. intros L. assert (Ev : snd v = y) by lra. destruct (edge_prev P v w He) as (u & Hu). pose proof (proj1 (left_DD x y u v) (H u v Hu)) as Du. rewrite DD_alt in Du. pose proof (S0 _ Hu) as S2. cbn [fst snd] in S2. unfold above in S2. destruct (Rlt_dec y (snd v)), (Rlt_dec y (snd u)); try lra. rewrite Ev in D, Du. destruct (Rle_or_lt (fst v) x); nra. }
      assert (Nw : snd w < y).
      { apply Rnot_le_lt. intros L. assert (Ew : snd w = y) by lra. destruct (edge_next P v w He) as (u & Hu). pose proof (proj1 (left_DD x y w u) (H w u Hu)) as Du. rewrite DD_alt in Du. pose proof (S0 _ Hu) as S2. cbn [fst snd] in S2. unfold above in S2. destruct (Rlt_dec y (snd w)), (Rlt_dec y (snd u)); try lra. rewrite Ew in D, Du. destruct (Rle_or_lt (fst w) x); nra. }
      assert (K : 0 < ((fst w - x) * (y - snd v) + (fst v - x) * (snd w - y)) / ((y - snd v) * (y - snd w))) by (apply Rdiv_lt_0_compat; [exact D|apply Rmult_lt_0_compat; lra]).
      replace ((fst w - x) / (y - snd w) - (fst v - x) / (y - snd v)) with (((fst w - x) * (y - snd v) + (fst v - x) * (snd w - y)) / ((y - snd v) * (y - snd w))) by (field; lra). exact K. }
  assert (C4 : rsum (fun e => g (snd e) - g (fst e)) (edges P) = 0) by (pose proof (rsum_edges (fun v w => g w - g v) P) as Q; rewrite esum_pot in Q; exact Q).
  destruct P as [|a t]; [congruence|]. destruct (edges (a :: t)) as [|e l] eqn:EE; [destruct t; discriminate|].
  assert (A1 : 0 < g (snd e) - g (fst e)) by (apply C3; left; reflexivity). rewrite rsum_cons in C4. assert (0 <= rsum (fun e => g (snd e) - g (fst e)) l) by (apply rsum_nonneg; intros; left; apply C3; right; assumption). apply (Rlt_irrefl 0). rewrite <- C4 at 2. apply Rplus_lt_le_0_compat; assumption.
Qed.
(** a line through the point has all vertices strictly on one side *)
Lemma separated P x y a b : (forall q, In q P -> 0 < a * (fst q - x) + b * (snd q - y)) -> winding P x y = 0%Z.
Proof.
  intros H. apply eq_IZR. rewrite winding_esum.
  set (K := fun q : pt => 0 < a * (fst q - x) + b * (snd q - y)). assert (HP : Forall K P) by (apply Forall_forall; exact H).
  assert (I : forall v w, (snd w - y) * (a * (fst v - x) + b * (snd v - y)) + (y - snd v) * (a * (fst w - x) + b * (snd w - y)) = a * DD x y v w) by (intros; unfold DD; ring).
  destruct (Rle_or_lt a 0) as [Ha|Ha].
  - rewrite <- (esum_pot (fun _ => 0) P). apply (esum_ext_in K); [|exact HP]. intros v w Hv Hw. unfold K in *. specialize (I v w). set (A := a * (fst v - x) + b * (snd v - y)) in *. set (B := a * (fst w - x) + b * (snd w - y)) in *.
    destruct (cr_cases x y v w) as [G|[G|[G|[G|[G|G]]]]]; destruct G as (G1 & G2 & ->); try ring; exfalso; nra.
  - rewrite <- (esum_pot (above y) P). apply (esum_ext_in K); [|exact HP]. intros v w Hv Hw. unfold K in *. specialize (I v w). set (A := a * (fst v - x) + b * (snd v - y)) in *. set (B := a * (fst w - x) + b * (snd w - y)) in *. unfold above.
    destruct (cr_cases x y v w) as [G|[G|[G|[G|[G|G]]]]]; destruct G as (G1 & G2 & ->); destruct (Rlt_dec y (snd w)), (Rlt_dec y (snd v)); try lra; exfalso; nra.
Qed.
Lemma areaLoop_ok l : forall p r, areaLoop p l r = r + path (fun v w => (fst w + fst v) * (snd w - snd v)) p l.
Proof. induction l as [|c l IH]; intros p r; cbn [areaLoop path]; [ring|]. rewrite IH. ring. Qed.
Lemma area_esum P : polygonArea P = esum (fun v w => (fst w + fst v) * (snd w - snd v)) P / 2.
Proof. destruct P as [|a t]; cbn [polygonArea esum]; [lra|]. rewrite areaLoop_ok. lra. Qed.
Lemma area_shoelace P : polygonArea P = signed_area P.
Proof.
  rewrite area_esum. unfold signed_area. pose proof (rsum_edges (fun v w => fst v * snd w - fst w * snd v) P) as Q. cbv beta in Q. match type of Q with ?q = _ => match goal with |- _ = / 2 * ?b => change b with q end end. rewrite Q.
  rewrite (esum_ext (fun v w => (fst w + fst v) * (snd w - snd v)) (fun v w => (fst v * snd w - fst w * snd v) + 1 * (fst w * snd w - fst v * snd v)) P) by (intros; ring).
  rewrite esum_lin. pose proof (esum_pot (fun p => fst p * snd p) P) as R0. cbv beta in R0. rewrite R0. set (q := esum _ P). clearbody q. lra.
Qed.
