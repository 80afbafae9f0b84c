(** Symmetries of a function represented by a symmetric set of harmonics *)
From Coq Require Import Reals Lra Lia Psatz ZArith List Bool Arith.
From Coquelicot Require Import Coquelicot.
From Verif Require Import RandReal RootModel Base Arr PotModel SphModel SphSpec SphLegendre SphArray SphFourier SphFourier2 SphOrtho SphIndexModel SphIndexSpec SphIndexProofs SphTransModel SphTransform.
Local Open Scope R_scope.

Lemma mPI n : cos (INR n * PI) = (-1) ^ n /\ sin (INR n * PI) = 0.
Proof.
  induction n as [|n (C & D)]; [cbn; rewrite Rmult_0_l, cos_0, sin_0; auto|]. rewrite S_INR. replace ((INR n + 1) * PI) with (INR n * PI + PI) by ring. rewrite neg_cos, neg_sin, C, D. cbn [pow]. split; ring.
Qed.
Lemma sgn_odd m : (-1) ^ Z.abs_nat m = if Z.odd m then -1 else 1.
Proof.
  assert (H : (Z.abs m <= Z.abs m)%Z) by lia. pose proof (par_Z (Z.abs m) 0) as P. replace (Z.abs m + 0)%Z with (Z.abs m) in P by lia. replace (Z.to_nat (Z.abs m) + Z.abs_nat 0)%nat with (Z.abs_nat m) in P by lia. rewrite P by lia.
  replace (Z.odd (Z.abs m)) with (Z.odd m); [reflexivity|]. destruct (Z.abs_spec m) as [(_ & ->)|(_ & ->)]; [reflexivity|]. rewrite Z.odd_opp. reflexivity.
Qed.
Lemma Trig_shift m x : Trig m (x + PI) = (if Z.odd m then -1 else 1) * Trig m x.
Proof.
  rewrite <- sgn_odd. unfold Trig. destruct (mPI (Z.abs_nat m)) as (C & D). replace (INR (Z.abs_nat m) * (x + PI)) with (INR (Z.abs_nat m) * x + INR (Z.abs_nat m) * PI) by ring. rewrite sin_plus, cos_plus, C, D. destruct (Z.ltb m 0); ring.
Qed.
Lemma Trig_neg m x : Trig m (- x) = (if Z.ltb m 0 then -1 else 1) * Trig m x.
Proof.
  unfold Trig. replace (INR (Z.abs_nat m) * - x) with (- (INR (Z.abs_nat m) * x)) by ring. rewrite sin_neg, cos_neg. destruct (Z.ltb m 0); ring.
Qed.
Lemma Trig_x m x : Trig m (PI - x) = (if xorb (Z.ltb m 0) (Z.odd m) then -1 else 1) * Trig m x.
Proof. replace (PI - x) with (- x + PI) by ring. rewrite Trig_shift, Trig_neg. destruct (Z.ltb m 0), (Z.odd m); cbn [xorb]; ring. Qed.
Section S.
Variables (lmax mmax sym : Z) (i : shi).
Hypothesis HI : SphHarmIndices lmax mmax sym = Ok i.
Lemma bits l m : In (l, m) (visited i) -> (Z.abs m <= l)%Z /\ allowed4b sym l m.
Proof. intros I. apply (visited4 _ _ _ _ HI) in I. destruct I as ((T & _) & A). split; [lia|]. apply allowed4_b, A. Qed.
Lemma inverse_sym C t phi : 0 <= t <= PI -> let f a b := inverse i C (tau_of a) b in
  (Z.testbit sym 0 = true -> f t (PI - phi) = f t phi) /\ (Z.testbit sym 1 = true -> f t (- phi) = f t phi) /\
  (Z.testbit sym 2 = true -> f (PI - t) phi = f t phi) /\ (Z.testbit sym 3 = true -> f (PI - t) (phi + PI) = f t phi) /\
  (mmax = 0%Z -> forall phi', f t phi' = f t phi) /\ (lmax = 0%Z -> forall t' phi', 0 <= t' <= PI -> f t' phi' = f t phi).
Proof.
  intros Ht f. unfold f. clear f.
  assert (E : forall a b, 0 <= a <= PI -> inverse i C (tau_of a) b = lsum (visited i) (term_of C a b)) by (intros; apply (inverse_eq lmax mmax sym i HI); assumption).
  assert (Ht' : 0 <= PI - t <= PI) by lra. repeat split; intros; rewrite !E by assumption; apply lsum_ext; intros [l m] I; unfold term_of; cbn [fst snd]; destruct (bits l m I) as (T & A0 & A1 & A2 & A3).
  - rewrite Trig_x, A0 by assumption. ring.
  - rewrite Trig_neg, A1 by assumption. ring.
  - rewrite Ylm_refl, par_Z by assumption. rewrite Z.odd_add, A2 by assumption. ring.
  - rewrite Ylm_refl, par_Z, Trig_shift by assumption. rewrite Z.odd_add. rewrite A3 by assumption. destruct (Z.odd m); cbn [xorb]; ring.
  - destruct (vis_tri lmax mmax sym i HI l m I) as ((_ & T2) & _). assert (m = 0%Z) by lia. subst m. unfold Trig. cbn. rewrite !Rmult_0_l. reflexivity.
  - destruct (vis_tri lmax mmax sym i HI l m I) as ((T1 & T2) & _). assert (m = 0 /\ l = 0)%Z as (-> & ->) by lia. unfold Trig, Ylm. rewrite !AssocP_Q. cbn [Z.to_nat Z.abs_nat pow]. rewrite !Q_00. cbn [Z.ltb Z.compare INR]. rewrite !Rmult_0_l. reflexivity.
Qed.
End S.
