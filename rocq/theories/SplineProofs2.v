(** Quintic splines and the linear interpolator (C39). *)
From Coquelicot Require Import Coquelicot.
From Verif Require Import Arr BinSearchModel SplineModel SplineSpec SplineBand SplineCons SplineQui SplineGlue SplineProofs.
Local Open Scope R_scope.

Lemma right_of_derive (F P : R -> R) t l d : 0 < d -> (forall u, t <= u < t + d -> F u = P u) -> is_derive P t l -> right_derive F t l.
Proof.
  intros Hd E D eps He. apply is_derive_Reals in D. destruct (D eps He) as (d1 & H1). exists (Rmin d d1).
  split; [apply Rmin_pos; [assumption|apply (cond_pos d1)]|]. intros h Hh. pose proof (Rmin_l d d1). pose proof (Rmin_r d d1).
  rewrite !E by lra. apply H1; [lra|]. rewrite Rabs_pos_eq by lra. lra.
Qed.
Lemma left_of_derive (F P : R -> R) t l d : 0 < d -> (forall u, t - d < u <= t -> F u = P u) -> is_derive P t l -> left_derive F t l.
Proof.
  intros Hd E D eps He. apply is_derive_Reals in D. destruct (D eps He) as (d1 & H1). exists (Rmin d d1).
  split; [apply Rmin_pos; [assumption|apply (cond_pos d1)]|]. intros h Hh. pose proof (Rmin_l d d1). pose proof (Rmin_r d d1).
  rewrite !E by lra. unfold Rminus at 3. apply H1; [lra|]. rewrite Rabs_left by lra. lra.
Qed.

Section Qui.
  Variables x f d s : arr R.
  Let n := alen x.
  Hypothesis Hx : increasing x.
  Hypothesis Hn : (1 <= n)%Z.
  Hypothesis Hf : alen f = n.
  Hypothesis Hd : alen d = n.
  Hypothesis Hs : alen s = n.
  Definition qpiece (k : Z) (t : R) : vals :=
    if (k <? 0)%Z then extrap t (afn x 0%Z) (afn f 0%Z) (afn d 0%Z)
    else if (k >=? alen x - 1)%Z then extrap t (afn x (alen x - 1)%Z) (afn f (alen x - 1)%Z) (afn d (alen x - 1)%Z)
    else evalQuintic t (afn x k) (afn x (k + 1)%Z) (afn f k) (afn f (k + 1)%Z) (afn d k) (afn d (k + 1)%Z) (afn s k) (afn s (k + 1)%Z).
  Definition qF := Fp x qpiece v_f.
  Definition qF1 := Fp x qpiece v_d.
  Definition qF2 := Fp x qpiece v_d2.
  Definition qF3 := Fp x qpiece v_d3.
  Lemma vals_eta (v : vals) : v = (v_f v, v_d v, v_d2 v, v_d3 v).
  Proof. destruct v as [[[? ?] ?] ?]. reflexivity. Qed.
  Lemma qui_evaluates : evaluates (quinticEval (mkQui x f d s)) qF qF1 qF2 qF3.
  Proof.
    intros t. unfold quinticEval. cbn [q_x q_f q_d q_d2]. rewrite (proj2 (Z.eqb_neq (alen x) 0)) by (fold n; lia).
    destruct (segof_ok x Hx Hn t) as (E & _ & B). fold n in B. rewrite E. cbn [bind]. unfold qF, qF1, qF2, qF3, Fp. rewrite <- vals_eta. unfold qpiece. fold n.
    destruct (Z.ltb_spec (segof x t) 0); [rewrite !aget_ok by (fold n; lia); reflexivity|].
    rewrite Z.geb_leb. destruct (Z.leb_spec (n - 1) (segof x t)); rewrite !aget_ok by (fold n; lia); reflexivity.
  Qed.
  Let xne k := x_ne x Hx k.
  Lemma qpiece_poly k t : (0 <= k < n - 1)%Z -> qpiece k t = polyQ (afn x k) (afn x (k + 1)%Z) (afn f k) (afn f (k + 1)%Z) (afn d k) (afn d (k + 1)%Z) (afn s k) (afn s (k + 1)%Z) t.
  Proof.
    intros Hk. unfold qpiece. fold n. rewrite Z.geb_leb, (proj2 (Z.ltb_ge k 0)), (proj2 (Z.leb_gt (n - 1) k)) by lia. apply evalQ_poly. apply xne. exact Hk.
  Qed.
  Lemma qpiece_ext k (t : R) : (k < 0 \/ n - 1 <= k)%Z -> exists x0 f0 d0, forall t, qpiece k t = extrap t x0 f0 d0.
  Proof.
    intros [Hk|Hk]; do 3 eexists; intros u; unfold qpiece; fold n; rewrite Z.geb_leb.
    - rewrite (proj2 (Z.ltb_lt k 0)) by lia. reflexivity.
    - rewrite (proj2 (Z.leb_le (n - 1) k)) by lia. rewrite (proj2 (Z.ltb_ge k 0)) by lia. reflexivity.
  Qed.
  Lemma qp_f k t : (-1 <= k <= n - 1)%Z -> is_derive (fun t => v_f (qpiece k t)) t (v_d (qpiece k t)).
  Proof.
    intros Hk. destruct (Z_lt_ge_dec k 0) as [L|L]; [|destruct (Z_lt_ge_dec k (n - 1)) as [G|G]].
    - destruct (qpiece_ext k t (or_introl L)) as (x0 & f0 & d0 & E). rewrite E. apply (is_derive_ext (fun t => v_f (extrap t x0 f0 d0))); [intros u; rewrite E; reflexivity|apply ext_f].
    - rewrite qpiece_poly by lia. eapply is_derive_ext; [intros u; rewrite qpiece_poly by lia; reflexivity|]. apply polyQ_f. apply xne; fold n; lia.
    - destruct (qpiece_ext k t (or_intror (Z.ge_le _ _ G))) as (x0 & f0 & d0 & E). rewrite E. apply (is_derive_ext (fun t => v_f (extrap t x0 f0 d0))); [intros u; rewrite E; reflexivity|apply ext_f].
  Qed.
  Lemma qp_d k t : (-1 <= k <= n - 1)%Z -> is_derive (fun t => v_d (qpiece k t)) t (v_d2 (qpiece k t)).
  Proof.
    intros Hk. destruct (Z_lt_ge_dec k 0) as [L|L]; [|destruct (Z_lt_ge_dec k (n - 1)) as [G|G]].
    - destruct (qpiece_ext k t (or_introl L)) as (x0 & f0 & d0 & E). rewrite E. apply (is_derive_ext (fun t => v_d (extrap t x0 f0 d0))); [intros u; rewrite E; reflexivity|apply ext_d].
    - rewrite qpiece_poly by lia. eapply is_derive_ext; [intros u; rewrite qpiece_poly by lia; reflexivity|]. apply polyQ_d. apply xne; fold n; lia.
    - destruct (qpiece_ext k t (or_intror (Z.ge_le _ _ G))) as (x0 & f0 & d0 & E). rewrite E. apply (is_derive_ext (fun t => v_d (extrap t x0 f0 d0))); [intros u; rewrite E; reflexivity|apply ext_d].
  Qed.
  Lemma qp_d2 k t : (-1 <= k <= n - 1)%Z -> is_derive (fun t => v_d2 (qpiece k t)) t (v_d3 (qpiece k t)).
  Proof.
    intros Hk. destruct (Z_lt_ge_dec k 0) as [L|L]; [|destruct (Z_lt_ge_dec k (n - 1)) as [G|G]].
    - destruct (qpiece_ext k t (or_introl L)) as (x0 & f0 & d0 & E). rewrite E. apply (is_derive_ext (fun t => v_d2 (extrap t x0 f0 d0))); [intros u; rewrite E; reflexivity|apply ext_d2].
    - rewrite qpiece_poly by lia. eapply is_derive_ext; [intros u; rewrite qpiece_poly by lia; reflexivity|]. apply polyQ_d2. apply xne; fold n; lia.
    - destruct (qpiece_ext k t (or_intror (Z.ge_le _ _ G))) as (x0 & f0 & d0 & E). rewrite E. apply (is_derive_ext (fun t => v_d2 (extrap t x0 f0 d0))); [intros u; rewrite E; reflexivity|apply ext_d2].
  Qed.
  Lemma qp_at i : (0 <= i < n)%Z -> v_f (qpiece i (afn x i)) = afn f i /\ v_d (qpiece i (afn x i)) = afn d i.
  Proof.
    intros Hi. destruct (Z_lt_ge_dec i (n - 1)) as [G|G].
    - rewrite qpiece_poly by lia. rewrite polyQ_left by (apply xne; fold n; lia). split; reflexivity.
    - unfold qpiece. fold n. rewrite Z.geb_leb, (proj2 (Z.ltb_ge i 0)), (proj2 (Z.leb_le (n - 1) i)) by lia. replace i with (n - 1)%Z by lia. rewrite extrap_eq. cbn [v_f v_d]. split; [ring|reflexivity].
  Qed.
  Lemma qp_at' i : (0 <= i < n)%Z -> v_f (qpiece (i - 1) (afn x i)) = afn f i /\ v_d (qpiece (i - 1) (afn x i)) = afn d i.
  Proof.
    intros Hi. destruct (Z_lt_ge_dec (i - 1) 0) as [G|G].
    - unfold qpiece. rewrite (proj2 (Z.ltb_lt (i - 1) 0)) by lia. replace i with 0%Z by lia. rewrite extrap_eq. cbn [v_f v_d]. split; [ring|reflexivity].
    - rewrite qpiece_poly by lia. pose proof (xne (i - 1) ltac:(fold n; lia)) as N. replace (i - 1 + 1)%Z with i in * by lia. rewrite polyQ_right by exact N. split; reflexivity.
  Qed.
  Lemma qm_f t : match_at x (fun k t => v_f (qpiece k t)) t.
  Proof. intros i Hi ->. rewrite (proj1 (qp_at i Hi)), (proj1 (qp_at' i Hi)). reflexivity. Qed.
  Lemma qm_d t : match_at x (fun k t => v_d (qpiece k t)) t.
  Proof. intros i Hi ->. rewrite (proj2 (qp_at i Hi)), (proj2 (qp_at' i Hi)). reflexivity. Qed.
  Lemma interior_node i t : t <> x_first x -> t <> x_last x -> (0 <= i < n)%Z -> t = afn x i -> (0 < i < n - 1)%Z.
  Proof.
    intros A B Hi E. unfold x_first, x_last in *. fold n in B. destruct (Z.eq_dec i 0) as [->|]; [contradiction|]. destruct (Z.eq_dec i (n - 1)) as [->|]; [contradiction|]. lia.
  Qed.
  Lemma qm_d2 t : t <> x_first x -> t <> x_last x -> match_at x (fun k t => v_d2 (qpiece k t)) t.
  Proof.
    intros A B i Hi E. pose proof (interior_node i t A B Hi E) as I. subst t. rewrite !qpiece_poly by lia.
    pose proof (xne (i - 1) ltac:(fold n; lia)) as N. replace (i - 1 + 1)%Z with i in * by lia. rewrite polyQ_right by exact N. rewrite polyQ_left by (apply xne; fold n; lia). reflexivity.
  Qed.
  Lemma qui_node i : (0 <= i < n)%Z -> qF (afn x i) = afn f i /\ qF1 (afn x i) = afn d i.
  Proof.
    intros Hi. unfold qF, qF1. destruct (node_seg x Hx i Hi) as [I _].
    rewrite (pieced_at x Hx _ _ i _ (pieced_Fp x Hx Hn qpiece v_f) (qm_f _) I). rewrite (pieced_at x Hx _ _ i _ (pieced_Fp x Hx Hn qpiece v_d) (qm_d _) I).
    apply qp_at. exact Hi.
  Qed.
  Lemma qui_node2 i : (2 <= n)%Z -> (0 <= i < n)%Z -> qF2 (afn x i) = afn s i.
  Proof.
    intros H2 Hi. unfold qF2, Fp. destruct (bin_inseg x Hx Hn (afn x i)) as (k & E & I & _ & K & K'). unfold segof. rewrite E. clear E. fold n in K.
    destruct (Z.eq_dec i (n - 1)) as [->|Ni].
    - assert (k = n - 2)%Z.
      { destruct I as (I1 & I2 & I3). destruct (Z.eq_dec k (n - 1)) as [->|]; [destruct (K eq_refl) as [|]; [lia|lra]|]. destruct (Z_lt_ge_dec k (n - 2)) as [Q|Q]; [|fold n in I1; lia].
        specialize (I3 ltac:(fold n; lia)). pose proof (inc_lt x Hx (k + 1) (n - 1) ltac:(lia) ltac:(lia) ltac:(fold n; lia)). lra. }
      subst k. rewrite qpiece_poly by lia. pose proof (xne (n - 2) ltac:(fold n; lia)) as N. replace (n - 2 + 1)%Z with (n - 1)%Z in * by lia. rewrite polyQ_right by exact N. reflexivity.
    - destruct (node_seg x Hx i Hi) as [J J']. 
      assert (Kk : (k = i \/ k = i - 1)%Z).
      { destruct I as (I1 & I2 & I3). destruct (Z_lt_ge_dec i k) as [Q|Q].
        - specialize (I2 ltac:(lia)). pose proof (inc_lt x Hx i k ltac:(lia) ltac:(lia) ltac:(lia)). lra.
        - destruct (Z_lt_ge_dec k (i - 1)) as [Q'|Q']; [|lia]. specialize (I3 ltac:(fold n; lia)). pose proof (inc_lt x Hx (k + 1) i ltac:(lia) ltac:(lia) ltac:(fold n; lia)). lra. }
      destruct Kk as [->| ->].
      + rewrite qpiece_poly by lia. rewrite polyQ_left by (apply xne; fold n; lia). reflexivity.
      + destruct (Z.eq_dec i 0) as [->|]; [specialize (K' eq_refl); lra|].
        rewrite qpiece_poly by lia. pose proof (xne (i - 1) ltac:(fold n; lia)) as N. replace (i - 1 + 1)%Z with i in * by lia. rewrite polyQ_right by exact N. reflexivity.
  Qed.
  Lemma qui_deriv t : is_derive qF t (qF1 t).
  Proof. apply (glue_at x Hx qF qF1 (fun k t => v_f (qpiece k t)) (fun k t => v_d (qpiece k t))); try apply pieced_Fp; auto using qm_f, qm_d. intros k Hk. apply qp_f. exact Hk. Qed.
  Lemma qui_deriv2 t : t <> x_first x -> t <> x_last x -> is_derive qF1 t (qF2 t).
  Proof. intros A B. apply (glue_at x Hx qF1 qF2 (fun k t => v_d (qpiece k t)) (fun k t => v_d2 (qpiece k t))); try apply pieced_Fp; auto using qm_d, qm_d2. intros k Hk. apply qp_d. exact Hk. Qed.
  Lemma qui_deriv3 t : match_at x (fun k t => v_d3 (qpiece k t)) t -> t <> x_first x -> t <> x_last x -> is_derive qF2 t (qF3 t).
  Proof. intros M A B. apply (glue_at x Hx qF2 qF3 (fun k t => v_d2 (qpiece k t)) (fun k t => v_d3 (qpiece k t))); try apply pieced_Fp; auto using qm_d2. intros k Hk. apply qp_d2. exact Hk. Qed.
End Qui.

(** continuity of the third derivative, vanishing fourth derivative at the ends *)
Section Qui3.
  Variables x f d s : arr R.
  Let n := alen x.
  Hypothesis Hx : increasing x.
  Hypothesis Hn : (2 <= n)%Z.
  Hypothesis Hf : alen f = n.
  Hypothesis Hd : alen d = n.
  Hypothesis Hs : alen s = n.
  Hypothesis Hrows : qrows x f d (afn s).
  Let xne k := x_ne x Hx k.
  Lemma qm_d3 t : t <> x_first x -> t <> x_last x -> match_at x (fun k t => v_d3 (qpiece x f d s k t)) t.
  Proof.
    intros A B i Hi E. pose proof (interior_node x i t A B Hi E) as I. subst t. rewrite !qpiece_poly by (auto; lia).
    pose proof (xne (i - 1) ltac:(lia)) as N. pose proof (xne i ltac:(lia)) as N2.
    pose proof (qrows_interior x f d (afn s) i Hrows I) as Q. cbv zeta beta in Q.
    replace (i - 1 + 1)%Z with i in * by lia. rewrite polyQ_right by exact N. rewrite polyQ_left by exact N2. cbn [v_d3].
    set (a := afn x (i - 1)%Z) in *. set (b := afn x i) in *. set (c := afn x (i + 1)%Z) in *.
    apply Rminus_diag_uniq. apply (Rmult_eq_compat_l 3) in Q. apply Rminus_diag_eq in Q. rewrite <- Q. field. lra.
  Qed.
  Lemma qF_in k t pr : (0 <= k < n - 1)%Z -> afn x k < t < afn x (k + 1)%Z -> Fp x (qpiece x f d s) pr t = pr (qpiece x f d s k t).
  Proof.
    intros Hk Ht. unfold Fp. f_equal. f_equal. apply (sinseg_unique x Hx k (segof x t) t); [|apply (segof_ok x Hx ltac:(fold n; lia) t)].
    repeat split; fold n; intros; lia || lra.
  Qed.
  Lemma qF_left pr : Fp x (qpiece x f d s) pr (afn x 0%Z) = pr (qpiece x f d s 0 (afn x 0%Z)).
  Proof.
    unfold Fp. f_equal. f_equal. destruct (bin_inseg x Hx ltac:(fold n; lia) (afn x 0%Z)) as (k & E & (I1 & I2 & I3) & _ & K & K'). unfold segof. rewrite E.
    destruct (Z.eq_dec k (-1)) as [->|]; [specialize (K' eq_refl); lra|]. destruct (Z.eq_dec k 0) as [|N0]; [assumption|].
    specialize (I2 ltac:(lia)). pose proof (inc_lt x Hx 0 k ltac:(lia) ltac:(lia) ltac:(lia)). lra.
  Qed.
  Lemma qF_right pr : Fp x (qpiece x f d s) pr (afn x (n - 1)%Z) = pr (qpiece x f d s (n - 2) (afn x (n - 1)%Z)).
  Proof.
    unfold Fp. f_equal. f_equal. destruct (bin_inseg x Hx ltac:(fold n; lia) (afn x (n - 1)%Z)) as (k & E & (I1 & I2 & I3) & _ & K & K'). unfold segof. rewrite E. fold n in I1, I3, K |- *.
    destruct (Z.eq_dec k (n - 1)) as [->|]; [destruct (K eq_refl) as [|]; [lia|lra]|]. destruct (Z_lt_ge_dec k (n - 2)) as [Q|Q]; [|lia].
    specialize (I3 ltac:(lia)). pose proof (inc_lt x Hx (k + 1) (n - 1) ltac:(lia) ltac:(lia) ltac:(fold n; lia)). lra.
  Qed.
  Lemma q4_left : right_derive (qF3 x f d s) (x_first x) 0.
  Proof.
    pose proof (xne 0%Z ltac:(fold n; lia)) as N. change (0 + 1)%Z with 1%Z in N. pose proof (Hx 0%Z 1%Z ltac:(lia) ltac:(fold n; lia)) as L.
    pose proof (qrows_left x f d Hn (afn s) Hrows) as Q. cbv zeta beta in Q. change (0 + 1)%Z with 1%Z in Q.
    apply (right_of_derive _ (fun t => v_d3 (qpiece x f d s 0 t)) _ _ (afn x 1%Z - afn x 0%Z)); [lra| |].
    - intros u Hu. unfold x_first in Hu. unfold qF3. destruct (Req_dec u (afn x 0%Z)) as [->|Nu]; [apply qF_left|]. apply qF_in; [lia|]. change (0 + 1)%Z with 1%Z. lra.
    - eapply is_derive_ext; [intros u; rewrite qpiece_poly by (auto; fold n; lia); reflexivity|]. change (0 + 1)%Z with 1%Z.
      replace 0 with (polyQ_4 (afn x 0%Z) (afn x 1%Z) (afn f 0%Z) (afn f 1%Z) (afn d 0%Z) (afn d 1%Z) (afn s 0%Z) (afn s 1%Z) (x_first x)); [apply polyQ_d3; exact N|].
      unfold polyQ_4, x_first. apply (Rmult_eq_compat_l (12 * (1 / (afn x 1%Z - afn x 0%Z)))) in Q. apply Rminus_diag_eq in Q. rewrite <- Q. field. lra.
  Qed.
  Lemma q4_right : left_derive (qF3 x f d s) (x_last x) 0.
  Proof.
    pose proof (xne (n - 2)%Z ltac:(fold n; lia)) as N. replace (n - 2 + 1)%Z with (n - 1)%Z in N by lia. pose proof (Hx (n - 2)%Z (n - 1)%Z ltac:(lia) ltac:(fold n; lia)) as L.
    pose proof (qrows_right x f d Hn (afn s) Hrows) as Q. cbv zeta beta in Q. fold n in Q. replace (n - 2 + 1)%Z with (n - 1)%Z in Q by lia.
    apply (left_of_derive _ (fun t => v_d3 (qpiece x f d s (n - 2) t)) _ _ (afn x (n - 1)%Z - afn x (n - 2)%Z)); [lra| |].
    - intros u Hu. unfold x_last in Hu. fold n in Hu. unfold qF3. destruct (Req_dec u (afn x (n - 1)%Z)) as [->|Nu]; [apply qF_right|]. apply qF_in; [lia|]. replace (n - 2 + 1)%Z with (n - 1)%Z by lia. lra.
    - eapply is_derive_ext; [intros u; rewrite qpiece_poly by (auto; fold n; lia); reflexivity|]. replace (n - 2 + 1)%Z with (n - 1)%Z by lia.
      match goal with |- is_derive (fun t => v_d3 (polyQ ?a ?b ?c ?dd ?e ?g ?h ?i t)) _ _ => replace 0 with (polyQ_4 a b c dd e g h i (x_last x)) end; [apply polyQ_d3; exact N|].
      unfold polyQ_4, x_last. fold n. apply (Rmult_eq_compat_l (12 * (1 / (afn x (n - 1)%Z - afn x (n - 2)%Z)))) in Q. apply Rminus_diag_eq in Q. rewrite <- Q. field. lra.
  Qed.
End Qui3.

(** ---- linear interpolation ---- *)
Section Lin.
  Variables x f : arr R.
  Let n := alen x.
  Hypothesis Hx : increasing x.
  Hypothesis Hn : (2 <= n)%Z.
  Hypothesis Hf : alen f = n.
  Definition lseg (k : Z) : Z := Z.max 0 (Z.min (alen x - 2) k).
  Definition lpiece (k : Z) (t : R) : vals :=
    let i := lseg k in (linearInterp t (afn x i) (afn x (i + 1)%Z) (afn f i) (afn f (i + 1)%Z), (afn f (i + 1)%Z - afn f i) / (afn x (i + 1)%Z - afn x i), 0, 0).
  Definition lF := Fp x lpiece v_f.
  Definition lF1 := Fp x lpiece v_d.
  Lemma lin_evaluates : evaluates (linearEval (mkLin x f)) lF lF1 (fun _ => 0) (fun _ => 0).
  Proof.
    intros t. unfold linearEval. cbn [l_x l_f]. rewrite (proj2 (Z.eqb_neq (alen x) 0)) by (fold n; lia).
    destruct (segof_ok x Hx ltac:(fold n; lia) t) as (E & _ & B). rewrite E. cbn [bind]. fold n. rewrite Z.gtb_ltb, (proj2 (Z.ltb_lt 1 n)) by lia.
    unfold lF, lF1, Fp, lpiece, lseg. fold n. cbn [v_f v_d]. rewrite !aget_ok by (fold n; lia). reflexivity.
  Qed.
  Lemma lin_match t : match_at x (fun k t => v_f (lpiece k t)) t.
  Proof.
    intros i Hi ->. fold n in Hi. unfold lpiece, lseg. fold n. cbn [v_f].
    destruct (Z.eq_dec i 0) as [->|]; [replace (Z.max 0 (Z.min (n - 2) (0 - 1))) with (Z.max 0 (Z.min (n - 2) 0)) by lia; reflexivity|].
    destruct (Z.eq_dec i (n - 1)) as [->|]; [replace (Z.max 0 (Z.min (n - 2) (n - 1))) with (Z.max 0 (Z.min (n - 2) (n - 1 - 1))) by lia; reflexivity|].
    replace (Z.max 0 (Z.min (n - 2) (i - 1))) with (i - 1)%Z by lia. replace (Z.max 0 (Z.min (n - 2) i)) with i by lia. replace (i - 1 + 1)%Z with i by lia.
    pose proof (Hx (i - 1)%Z i ltac:(lia) ltac:(fold n; lia)). pose proof (Hx i (i + 1)%Z ltac:(lia) ltac:(fold n; lia)). unfold linearInterp. field. lra.
  Qed.
  (** straight line between adjacent nodes, continued beyond the ends of the grid *)
  Lemma lin_value i t : (0 <= i < n - 1)%Z -> (i = 0%Z \/ afn x i <= t) -> ((i = n - 2)%Z \/ t <= afn x (i + 1)%Z) ->
    lF t = afn f i + (afn f (i + 1)%Z - afn f i) * ((t - afn x i) / (afn x (i + 1)%Z - afn x i)).
  Proof.
    intros Hi HL HR. pose proof (Hx i (i + 1)%Z ltac:(lia) ltac:(fold n; lia)) as L.
    assert (G : lF t = v_f (lpiece i t)).
    { assert (C : (exists k, inseg x k t /\ lseg k = i)).
      { destruct (Rlt_dec t (afn x i)) as [Q|Q]; [|destruct (Rlt_dec (afn x (i + 1)%Z) t) as [Q'|Q']].
        - destruct HL as [->|HL]; [|lra]. exists (-1)%Z. split; [repeat split; fold n; intros; try lia; change (-1 + 1)%Z with 0%Z; lra|]. unfold lseg. fold n. lia.
        - destruct HR as [->|HR]; [|lra]. replace (n - 2 + 1)%Z with (n - 1)%Z in Q' by lia. exists (n - 1)%Z. split; [repeat split; fold n; intros; try lia; lra|]. unfold lseg. fold n. lia.
        - exists i. split; [repeat split; fold n; intros; try lia; lra|]. unfold lseg. fold n. lia. }
      destruct C as (k & I & S). unfold lF. rewrite (pieced_at x Hx _ _ k t (pieced_Fp x Hx ltac:(fold n; lia) lpiece v_f) (lin_match t) I).
      unfold lpiece. cbn [v_f]. rewrite S. unfold lseg. fold n. replace (Z.max 0 (Z.min (n - 2) i)) with i by lia. reflexivity. }
    rewrite G. unfold lpiece, lseg. fold n. replace (Z.max 0 (Z.min (n - 2) i)) with i by lia. cbn [v_f]. unfold linearInterp. field. lra.
  Qed.
  Lemma lin_deriv t : ~ is_node x t -> is_derive lF t (lF1 t).
  Proof.
    intros N. apply (glue_at x Hx lF lF1 (fun k t => v_f (lpiece k t)) (fun k t => v_d (lpiece k t))); try apply pieced_Fp; auto using lin_match, not_node_match; try (fold n; lia).
    intros k Hk. unfold lpiece. cbn [v_f v_d]. assert (B : (0 <= lseg k < n - 1)%Z) by (unfold lseg; fold n; lia). pose proof (Hx (lseg k) (lseg k + 1)%Z ltac:(lia) ltac:(fold n; lia)).
    unfold linearInterp. auto_derive; [lra|]. field. lra.
  Qed.
End Lin.
Lemma right_derive_unique F t a b : right_derive F t a -> right_derive F t b -> a = b.
Proof.
  intros A B. destruct (Req_dec a b) as [|N]; [assumption|exfalso]. assert (P : 0 < Rabs (a - b) / 2) by (pose proof (Rabs_pos_lt (a - b)); lra).
  destruct (A _ P) as (d1 & P1 & H1). destruct (B _ P) as (d2 & P2 & H2). pose proof (Rmin_l d1 d2). pose proof (Rmin_r d1 d2). assert (0 < Rmin d1 d2) by (apply Rmin_pos; assumption).
  specialize (H1 (Rmin d1 d2 / 2) ltac:(lra)). specialize (H2 (Rmin d1 d2 / 2) ltac:(lra)). set (q := (F _ - F t) / _) in *.
  pose proof (Rabs_triang (q - b) (- (q - a))) as T. rewrite Rabs_Ropp in T. replace (q - b + - (q - a)) with (a - b) in T by ring. lra.
Qed.
Lemma left_derive_unique F t a b : left_derive F t a -> left_derive F t b -> a = b.
Proof.
  intros A B. destruct (Req_dec a b) as [|N]; [assumption|exfalso]. assert (P : 0 < Rabs (a - b) / 2) by (pose proof (Rabs_pos_lt (a - b)); lra).
  destruct (A _ P) as (d1 & P1 & H1). destruct (B _ P) as (d2 & P2 & H2). pose proof (Rmin_l d1 d2). pose proof (Rmin_r d1 d2). assert (0 < Rmin d1 d2) by (apply Rmin_pos; assumption).
  specialize (H1 (Rmin d1 d2 / 2) ltac:(lra)). specialize (H2 (Rmin d1 d2 / 2) ltac:(lra)). set (q := (F _ - F t) / _) in *.
  pose proof (Rabs_triang (q - b) (- (q - a))) as T. rewrite Rabs_Ropp in T. replace (q - b + - (q - a)) with (a - b) in T by ring. lra.
Qed.
