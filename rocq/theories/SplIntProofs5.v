(** Interpolators are piecewise polynomials. *)
From Coquelicot Require Import Coquelicot.
From Verif Require Import Arr BandModel BinSearchModel SplineModel SplineCons SplineQui SplineReg SplineGlue SplineProofs SplineProofs2 PolyModel SplIntModel SplIntProofs SplineSpec SplIntSpec.
Local Open Scope R_scope.
Lemma mono_inv a u : checkMonotonic a = Ok u -> increasing a.
Proof. intros H. destruct (Classical_Prop.classic (increasing a)) as [I|I]; [exact I|]. rewrite (not_inc_throw a I) in H. discriminate. Qed.

Lemma seg_poly N x F (G : Z -> R -> R) : pieced x F G -> (forall t, match_at x G t) -> increasing x ->
  (forall i, (0 <= i < alen x - 1)%Z -> exists a, forall t, G i t = poly N a t) -> piecewise_poly N x F.
Proof.
  intros HP HM Hx H i Hi. destruct (H i Hi) as (a & Ha). exists a. intros t Ht. rewrite <- Ha. apply (pieced_at x Hx); [assumption|apply HM|].
  split; [lia|]. split; intros; lra.
Qed.
Definition seqc (l : list R) (k : nat) : R := nth k l 0.
Lemma lin_poly x f : increasing x -> (2 <= alen x)%Z -> alen f = alen x -> computes (linI (mkLin x f)) (lF x f) /\ piecewise_poly 1 x (lF x f).
Proof.
  intros Hx Hn Hf. split.
  - intros t _. cbn [i_ev linI]. rewrite (lin_evaluates x f) by (assumption || lia). reflexivity.
  - intros i Hi. pose proof (inc_lt x Hx i (i + 1) ltac:(lia) ltac:(lia) ltac:(lia)).
    exists (seqc [(- afn x i * afn f (i + 1)%Z + afn x (i + 1)%Z * afn f i) / (afn x (i + 1)%Z - afn x i); (afn f (i + 1)%Z - afn f i) / (afn x (i + 1)%Z - afn x i)]).
    intros t Ht. rewrite (lin_value x f Hx Hn i) by (lia || (right; lra)). unfold poly, seqc. cbn. try unfold linearInterp. field. lra.
Qed.
Lemma cub_poly x f d : increasing x -> (2 <= alen x)%Z -> alen f = alen x -> alen d = alen x -> computes (cubI (mkCub x f d)) (cF x f d) /\ piecewise_poly 3 x (cF x f d).
Proof.
  intros Hx Hn Hf Hd. split.
  - intros t _. cbn [i_ev cubI]. rewrite (cub_evaluates x f d) by (assumption || lia). reflexivity.
  - apply (seg_poly 3 x _ (fun k t => v_f (cpiece x f d k t))); [apply pieced_Fp; (assumption || lia)| |exact Hx|].
    + intros t. apply cm_f; (assumption || lia).
    + intros i Hi. pose proof (inc_lt x Hx i (i + 1) ltac:(lia) ltac:(lia) ltac:(lia)).
      set (xl := afn x i) in *. set (xh := afn x (i + 1)%Z) in *. set (fl := afn f i). set (fh := afn f (i + 1)%Z). set (dl := afn d i). set (dh := afn d (i + 1)%Z).
      destruct (poly_affine 3 (seqc [fl; dl * (xh - xl); 3 * (fh - fl) - (2 * dl + dh) * (xh - xl); -2 * (fh - fl) + (dl + dh) * (xh - xl)]) (- xl / (xh - xl)) (/ (xh - xl))) as (b & Hb).
      exists b. intros t. rewrite <- Hb. unfold cpiece. destruct (Z.ltb_spec i 0); [lia|]. destruct (Z.geb_spec i (alen x - 1)); [lia|].
      fold xl xh fl fh dl dh. unfold poly, seqc, evalCubic. cbn. field. lra.
Qed.
Lemma qui_poly x f d s : increasing x -> (2 <= alen x)%Z -> alen f = alen x -> alen d = alen x -> alen s = alen x ->
  computes (quiI (mkQui x f d s)) (qF x f d s) /\ piecewise_poly 5 x (qF x f d s).
Proof.
  intros Hx Hn Hf Hd Hs. split.
  - intros t _. cbn [i_ev quiI]. rewrite (qui_evaluates x f d s) by (assumption || lia). reflexivity.
  - apply (seg_poly 5 x _ (fun k t => v_f (qpiece x f d s k t))); [apply pieced_Fp; (assumption || lia)| |exact Hx|].
    + intros t. apply qm_f; (assumption || lia).
    + intros i Hi. pose proof (inc_lt x Hx i (i + 1) ltac:(lia) ltac:(lia) ltac:(lia)).
      set (xl := afn x i) in *. set (xh := afn x (i + 1)%Z) in *. set (fl := afn f i). set (fh := afn f (i + 1)%Z). set (dl := afn d i). set (dh := afn d (i + 1)%Z).
      set (sl := afn s i). set (sh := afn s (i + 1)%Z). set (h := xh - xl).
      set (fd := fh - fl - 5 / 10 * h * (dh + dl)). set (f1d := dh - dl - 5 / 10 * h * (sh + sl)). set (f2d := sh - sl).
      destruct (poly_affine 5 (seqc [fl; dl * h; sl * h * h / 2; 10 * fd + h * f1d + h * h * f2d; -15 * fd - h * f1d / 2 - 5 / 4 * h * h * f2d; 6 * fd + h * h * f2d / 2]) (- xl / (xh - xl)) (/ (xh - xl))) as (b & Hb).
      exists b. intros t. rewrite <- Hb. rewrite qpiece_poly by (assumption || lia).
      fold xl xh fl fh dl dh sl sh. unfold poly, seqc, polyQ. cbn. unfold fd, f1d, f2d, h. field. lra.
Qed.
Lemma spline_poly N S : spline N S -> (2 <= alen (i_x S))%Z -> increasing (i_x S) /\ exists F, computes S F /\ piecewise_poly N (i_x S) F.
Proof.
  intros H Hn. destruct H as [x f s E|x f reg dL dR s E|x f d s E|x f d s E|x f d d2 s E].
  - unfold linearNew in E. destruct (checkMonotonic x) eqn:EM; try discriminate. apply mono_inv in EM. cbn [bind] in E. destruct (Z.eqb_spec (alen f) (alen x)); [|discriminate]. cbn [negb] in E. injection E as <-. cbn [i_x linI l_x] in *.
    split; [exact EM|]. eexists. apply lin_poly; assumption.
  - unfold cubicNew in E. destruct (checkMonotonic x) eqn:EM; try discriminate. apply mono_inv in EM. cbn [bind] in E. destruct (_ || _)%bool; [discriminate|].
    destruct (constructCubicSpline x f dL dR) as [d0| | |] eqn:EC; try discriminate. cbn [bind] in E.
    assert (X : c_x s = x). { destruct reg; [destruct (regularizeSpline x f d0)|]; try discriminate; cbn [bind] in E; injection E as <-; reflexivity. }
    cbn [i_x cubI] in *. rewrite X in *.
    assert (Hf : alen f = alen x). { unfold constructCubicSpline in EC. destruct (Z.eqb_spec (alen f) (alen x)); [assumption|discriminate]. }
    destruct (construct_cubic x f EM Hn Hf dL dR) as (d1 & _ & _ & e & Ee & Le & _). rewrite EC in Ee. injection Ee as <-.
    split; [exact EM|]. destruct reg.
    + destruct (regularize_ok x f Hn Hf d0 Le) as (e1 & E1 & L1 & _). rewrite E1 in E. cbn [bind] in E. injection E as <-. eexists. apply cub_poly; assumption.
    + cbn [bind] in E. injection E as <-. eexists. apply cub_poly; assumption.
  - unfold cubicHermite in E. destruct (checkMonotonic x) eqn:EM; try discriminate. apply mono_inv in EM. cbn [bind] in E. destruct (Z.eqb_spec (alen f) (alen x)), (Z.eqb_spec (alen d) (alen x)); try discriminate. cbn [negb andb] in E. injection E as <-. cbn [i_x cubI c_x] in *.
    split; [exact EM|]. eexists. apply cub_poly; assumption.
  - unfold quinticNew in E. destruct (checkMonotonic x) eqn:EM; try discriminate. apply mono_inv in EM. cbn [bind] in E. destruct (Z.eqb_spec (alen f) (alen x)), (Z.eqb_spec (alen d) (alen x)); try discriminate. cbn [negb andb] in E.
    assert (X : q_x s = x). { destruct (constructQuinticSpline x f d); try discriminate. injection E as <-. reflexivity. }
    cbn [i_x quiI] in *. rewrite X in *. destruct (construct_quintic x f d EM Hn) as (dd2 & Ee & Le & _); try assumption. rewrite Ee in E. cbn [bind] in E. injection E as <-.
    split; [exact EM|]. eexists. apply qui_poly; assumption.
  - unfold quinticHermite in E. destruct (checkMonotonic x) eqn:EM; try discriminate. apply mono_inv in EM. cbn [bind] in E. destruct (Z.eqb_spec (alen f) (alen x)), (Z.eqb_spec (alen d) (alen x)), (Z.eqb_spec (alen d2) (alen x)); try discriminate. cbn [negb andb] in E. injection E as <-. cbn [i_x quiI q_x] in *.
    split; [exact EM|]. eexists. apply qui_poly; assumption.
Qed.
