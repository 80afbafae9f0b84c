(** The forward transform inverts the inverse transform; symmetries of the inverse transform *)
From Coq Require Import Reals Lra Lia Psatz ZArith List Bool Arith.
From Coquelicot Require Import Coquelicot.
From Verif Require Import RandReal RootModel Base Arr PotModel SphModel SphSpec SphLegendre SphArray SphFourier SphFourier2 SphOrtho SphIndexModel SphIndexSpec SphIndexProofs SphTransModel.
Import ListNotations.
Local Open Scope R_scope.

(* ---------- sums over lists ---------- *)
Fixpoint lsum {A} (L : list A) (f : A -> R) : R := match L with [] => 0 | a :: L' => f a + lsum L' f end.
Lemma fold_lsum {A} (L : list A) (f : A -> R) : forall r, fold_left (fun r a => r + f a) L r = r + lsum L f.
Proof. induction L as [|a L IH]; intros r; cbn; [ring|]. rewrite IH. ring. Qed.
Lemma fold_left_ext {A B} (f g : B -> A -> B) (L : list A) : (forall b a, f b a = g b a) -> forall r, fold_left f L r = fold_left g L r.
Proof. intros H. induction L as [|a L IH]; intros r; cbn; [reflexivity|]. rewrite H. apply IH. Qed.
Lemma lsum_ext {A} (L : list A) f g : (forall a, In a L -> f a = g a) -> lsum L f = lsum L g.
Proof. induction L as [|a L IH]; intros H; cbn; [reflexivity|]. rewrite H by (left; reflexivity). f_equal. apply IH. intros; apply H; right; assumption. Qed.
Lemma lsum_scal {A} (L : list A) c f : lsum L (fun a => c * f a) = c * lsum L f.
Proof. induction L as [|a L IH]; cbn; [ring|]. rewrite IH. ring. Qed.
Lemma lsum_one {A} (L : list A) f a : NoDup L -> In a L -> (forall b, In b L -> b <> a -> f b = 0) -> lsum L f = f a.
Proof.
  intros N H Z. induction N as [|x L NI N IH]; [destruct H|]. cbn. destruct H as [->|H].
  - replace (lsum L f) with 0; [ring|]. clear IH. assert (K : forall b, In b L -> f b = 0). { intros b B. apply Z; [right; exact B|]. intros ->. contradiction. } clear -K. induction L as [|y L IH]; cbn; [reflexivity|]. rewrite K by (left; reflexivity). rewrite <- IH; [ring|]. intros; apply K; right; assumption.
  - rewrite (Z x), IH; [ring|exact H|intros; apply Z; [right|]; assumption|left; reflexivity|]. intros ->. contradiction.
Qed.
Lemma lsum_bsum {A} (L : list A) n (f : A -> nat -> R) : bsum n (fun j => lsum L (fun a => f a j)) = lsum L (fun a => bsum n (f a)).
Proof. induction L as [|a L IH]; cbn; [apply bsum_zero; reflexivity|]. rewrite bsum_plus, IH. reflexivity. Qed.
Lemma quad_lsum {A} (L : list A) N (f : A -> R -> R) : quad N (fun x => lsum L (fun a => f a x)) = lsum L (fun a => quad N (f a)).
Proof. unfold quad. rewrite lsum_bsum, lsum_scal. reflexivity. Qed.

(* ---------- specification-level functions ---------- *)
(** azimuthal function: cos(m phi) for m >= 0, sin(|m| phi) for m < 0 *)
Definition Trig (m : Z) (phi : R) : R := if Z.ltb m 0 then sin (INR (Z.abs_nat m) * phi) else cos (INR (Z.abs_nat m) * phi).
Definition kap (m : Z) : R := 2 * sqrt PI * (if Z.eqb m 0 then 1 else sqrt 2).
Lemma legval_ok lmax l m t : (m <= l <= lmax)%nat -> 0 <= t <= PI -> legval lmax l m (tau_of t) = Ylm l m t.
Proof.
  intros H Ht. destruct (sphHarmArray_ok lmax m t ltac:(lia) Ht) as (a & E & _ & V). unfold legval. rewrite E. destruct (V l H) as (v & d & d2 & N & -> & _). rewrite N. reflexivity.
Qed.
Lemma mmin_cases i : mmin i = 0%Z \/ mmin i = (- i_mmax i)%Z. Proof. unfold mmin. destruct (isYReflSymmetric (i_sym i)); auto. Qed.
Lemma useSine_false i : (0 <= i_mmax i)%Z -> useSine i = false -> mmin i = 0%Z.
Proof. unfold useSine. intros P H. apply Z.ltb_ge in H. destruct (mmin_cases i); lia. Qed.
Lemma useSine_true i : useSine i = true -> mmin i = (- i_mmax i)%Z.
Proof. unfold useSine. intros H. apply Z.ltb_lt in H. destruct (mmin_cases i); lia. Qed.
Lemma trigOf_ok i phi m : (mmin i <= m <= i_mmax i)%Z -> trigOf i phi m = Trig m phi * kap m.
Proof.
  intros H. unfold trigOf, Trig, kap. destruct (Z.eqb_spec m 0) as [->|N].
  - cbn. rewrite Rmult_0_l, cos_0. ring.
  - destruct (Z.ltb_spec 0 m) as [G|G].
    + rewrite (proj2 (Z.ltb_ge m 0)) by lia. replace (Z.to_nat (m - 1)) with (Z.abs_nat m - 1)%nat by lia. rewrite trig_cos by lia. ring.
    + rewrite (proj2 (Z.ltb_lt m 0)) by lia. assert (U : useSine i = true) by (unfold useSine; apply Z.ltb_lt; lia). pose proof (useSine_true i U). rewrite U.
      replace (Z.to_nat (i_mmax i - m - 1)) with (Z.to_nat (i_mmax i) + (Z.abs_nat m - 1))%nat by lia. rewrite trig_sin by lia. ring.
Qed.
(** the expansion *)
Definition term_of (C : Z -> R) (t phi : R) (lm : Z * Z) : R := C (sh_index (fst lm) (snd lm)) * Ylm (Z.to_nat (fst lm)) (Z.abs_nat (snd lm)) t * (Trig (snd lm) phi * kap (snd lm)).
Section Ind.
Variables (lmax mmax sym : Z) (i : shi).
Hypothesis HI : SphHarmIndices lmax mmax sym = Ok i.
Lemma ind_facts : i_lmax i = lmax /\ i_mmax i = mmax /\ (0 <= mmax <= lmax)%Z /\ i_sym i = sym_of lmax mmax sym /\ (0 < i_step i)%Z.
Proof.
  destruct (ctor lmax mmax sym) as [(_ & T)|(NR & i' & E & Lm & Mm & Sy & St & _)]; [congruence|]. rewrite HI in E. injection E as <-. unfold refused in NR. repeat split; try assumption; try lia. rewrite St. destruct (_ || _); lia.
Qed.
Lemma vis_tri l m : In (l, m) (visited i) -> in_triangle lmax mmax l m /\ (mmin i <= m <= mmax)%Z.
Proof.
  intros H. destruct ind_facts as (_ & Mm & _ & _ & St). split; [exact (proj1 (proj1 (visited4 _ _ _ _ HI l m) H))|]. apply in_visited in H; [|exact St]. lia.
Qed.
Lemma inverse_eq C t phi : 0 <= t <= PI -> inverse i C (tau_of t) phi = lsum (visited i) (term_of C t phi).
Proof.
  intros Ht. unfold inverse. destruct ind_facts as (Lm & Mm & B & _). rewrite Lm.
  rewrite (fold_left_ext _ (fun r a => r + (fun lm => C (sh_index (fst lm) (snd lm)) * legval (Z.to_nat lmax) (Z.to_nat (fst lm)) (Z.abs_nat (snd lm)) (tau_of t) * trigOf i phi (snd lm)) a)) by (intros ? [? ?]; reflexivity).
  rewrite (fold_lsum (visited i) (fun lm => C (sh_index (fst lm) (snd lm)) * legval (Z.to_nat lmax) (Z.to_nat (fst lm)) (Z.abs_nat (snd lm)) (tau_of t) * trigOf i phi (snd lm)) 0).
  rewrite Rplus_0_l. apply lsum_ext. intros [l m] H. destruct (vis_tri l m H) as (T & R). unfold in_triangle in T. unfold term_of. cbn [fst snd]. rewrite trigOf_ok by lia. rewrite legval_ok by (lia || assumption). reflexivity.
Qed.

(* ---------- azimuthal part ---------- *)
Lemma Trig_orth M m m' : (Z.abs_nat m <= M)%nat -> (Z.abs_nat m' <= M)%nat -> quad (2 * M + 1) (fun x => Trig m' x * Trig m x) = if Z.eqb m' m then (if Z.eqb m 0 then 2 * PI else PI) else 0.
Proof.
  intros H H'. unfold Trig. destruct (Z.ltb_spec m' 0), (Z.ltb_spec m 0).
  - rewrite quad_ss by lia. destruct (Nat.eqb_spec (Z.abs_nat m') (Z.abs_nat m)), (Z.eqb_spec m' m), (Nat.eqb_spec (Z.abs_nat m) 0), (Z.eqb_spec m 0); try lia; reflexivity.
  - rewrite quad_sc by lia. destruct (Z.eqb_spec m' m); [lia|reflexivity].
  - rewrite quad_cs by lia. destruct (Z.eqb_spec m' m); [lia|reflexivity].
  - rewrite quad_cc by lia. destruct (Nat.eqb_spec (Z.abs_nat m') (Z.abs_nat m)), (Z.eqb_spec m' m), (Nat.eqb_spec (Z.abs_nat m) 0), (Z.eqb_spec m 0); try lia; reflexivity.
Qed.
Lemma fourier_ext M us v v' mm : (forall k, (k < fsize M us)%nat -> v k = v' k) -> fourier M us v mm = fourier M us v' mm.
Proof. intros H. unfold fourier. apply bsum_ext. intros k Hk. rewrite H by exact Hk. reflexivity. Qed.
(** the Fourier transform computes the inner product with Trig m *)
Lemma fourier_Trig f m : (0 <= i_mmax i)%Z -> (mmin i <= m <= i_mmax i)%Z -> (forall x, f (x + 2 * PI) = f x) -> (useSine i = false -> forall x, f (- x) = f x) ->
  fourier (Z.to_nat (i_mmax i)) (useSine i) (fun k => f (fphi (Z.to_nat (i_mmax i)) k)) (Z.to_nat (m - mmin i)) = quad (2 * Z.to_nat (i_mmax i) + 1) (fun x => f x * Trig m x).
Proof.
  intros P H Per Ev. unfold Trig. destruct (useSine i) eqn:U.
  - pose proof (useSine_true i U). destruct (Z.ltb_spec m 0).
    + replace (Z.to_nat (m - mmin i)) with (Z.to_nat (i_mmax i) - Z.abs_nat m)%nat by lia. apply fourier_sin. lia.
    + replace (Z.to_nat (m - mmin i)) with (Z.to_nat (i_mmax i) + Z.abs_nat m)%nat by lia. apply fourier_cos. lia.
  - pose proof (useSine_false i P U). rewrite (proj2 (Z.ltb_ge m 0)) by lia. replace (Z.to_nat (m - mmin i)) with (Z.abs_nat m) by lia. apply fourier_even; [lia|auto|exact Per].
Qed.
Lemma Trig_per m x : Trig m (x + 2 * PI) = Trig m x.
Proof.
  unfold Trig. destruct (full_turn (Z.abs_nat m)) as (C & D). replace (INR (Z.abs_nat m) * (x + 2 * PI)) with (INR (Z.abs_nat m) * x + INR (Z.abs_nat m) * (2 * PI)) by ring. rewrite sin_plus, cos_plus, C, D. destruct (Z.ltb m 0); ring.
Qed.
Lemma Trig_even m x : (0 <= m)%Z -> Trig m (- x) = Trig m x.
Proof. intros H. unfold Trig. rewrite (proj2 (Z.ltb_ge m 0)) by exact H. rewrite <- (cos_neg (INR (Z.abs_nat m) * x)). f_equal. ring. Qed.
(** m-th azimuthal harmonic of the expansion at a given polar angle *)
Definition Vm (C : Z -> R) (t : R) (m : Z) : R := lsum (visited i) (fun lm => if Z.eqb (snd lm) m then C (sh_index (fst lm) (snd lm)) * Ylm (Z.to_nat (fst lm)) (Z.abs_nat (snd lm)) t * (kap m * (if Z.eqb m 0 then 2 * PI else PI)) else 0).
Lemma fourier_expansion C t m : 0 <= t <= PI -> (mmin i <= m <= mmax)%Z ->
  fourier (Z.to_nat mmax) (useSine i) (fun k => inverse i C (tau_of t) (fphi (Z.to_nat mmax) k)) (Z.to_nat (m - mmin i)) = Vm C t m.
Proof.
  intros Ht H. destruct ind_facts as (Lm & Mm & B & _). replace (Z.to_nat mmax) with (Z.to_nat (i_mmax i)) by (rewrite Mm; reflexivity).
  rewrite (fourier_ext _ _ _ (fun k => lsum (visited i) (term_of C t (fphi (Z.to_nat (i_mmax i)) k)))) by (intros k _; apply inverse_eq, Ht).
  rewrite (fourier_Trig (fun x => lsum (visited i) (term_of C t x))); try lia.
  - rewrite Mm. rewrite (quad_ext _ _ (fun x => lsum (visited i) (fun lm => (C (sh_index (fst lm) (snd lm)) * Ylm (Z.to_nat (fst lm)) (Z.abs_nat (snd lm)) t * kap (snd lm)) * (Trig (snd lm) x * Trig m x)))).
    2: { intros x. rewrite Rmult_comm, <- lsum_scal. apply lsum_ext. intros [l' m'] _. unfold term_of. cbn [fst snd]. ring. }
    rewrite quad_lsum. apply lsum_ext. intros [l' m'] I. cbn [fst snd]. destruct (vis_tri l' m' I) as ((T1 & T2) & T3). pose proof (mmin_cases i). rewrite quad_scal, Trig_orth by lia. destruct (Z.eqb_spec m' m) as [->|N]; ring.
  - intros x. apply lsum_ext. intros lm _. unfold term_of. rewrite Trig_per. reflexivity.
  - intros U x. apply lsum_ext. intros [l' m'] I. unfold term_of. cbn [fst snd]. destruct (vis_tri l' m' I) as (_ & T3). pose proof (useSine_false i ltac:(lia) U). rewrite Trig_even by lia. reflexivity.
Qed.
(* ---------- polar part ---------- *)
Lemma Ylm_refl l m t : Ylm l m (PI - t) = (-1) ^ (l + m) * Ylm l m t.
Proof. unfold Ylm. rewrite !AssocP_Q. rewrite sin_PI_x. replace (cos (PI - t)) with (- cos t) by (rewrite <- Rtrigo_facts.cos_pi_minus; reflexivity). rewrite Q_parity. ring. Qed.
Lemma par_Z l m : (Z.abs m <= l)%Z -> (-1) ^ (Z.to_nat l + Z.abs_nat m) = if Z.odd (l + m) then -1 else 1.
Proof.
  intros H. rewrite m1_even. replace (Z.odd (l + m)) with (negb (Nat.even (Z.to_nat l + Z.abs_nat m))); [destruct (Nat.even _); reflexivity|].
  rewrite <- Z.negb_even. f_equal. destruct (Nat.even (Z.to_nat l + Z.abs_nat m)) eqn:E; symmetry.
  - apply Nat.even_spec in E. destruct E as (k & E). apply Z.even_spec. destruct (Z.le_ge_cases 0 m); [exists (Z.of_nat k); lia|exists (Z.of_nat k + m)%Z; lia].
  - apply not_true_iff_false in E. apply not_true_iff_false. intros G. apply E. apply Z.even_spec in G. destruct G as (k & G). apply Nat.even_spec. destruct (Z.le_ge_cases 0 m); [exists (Z.to_nat k); lia|exists (Z.to_nat (k - m)); lia].
Qed.
Lemma Vm_refl C t m : isZReflSymmetric (i_sym i) = true -> Vm C (PI - t) m = Vm C t m.
Proof.
  intros Z2. destruct ind_facts as (Lm & Mm & B & Sy & _). apply lsum_ext. intros [l' m'] I. cbn [fst snd]. destruct (Z.eqb_spec m' m) as [->|N]; [|reflexivity]. rewrite Ylm_refl. destruct (vis_tri l' m I) as ((T1 & T2) & _). rewrite par_Z by lia.
  assert (E : Z.odd (l' + m) = false); [|rewrite E; ring]. 
  rewrite Sy, bZ in Z2. destruct (sym_bits lmax mmax sym) as (_ & _ & S2 & _). rewrite S2 in Z2. apply orb_true_iff in Z2. destruct Z2 as [Z2|Z2].
  - apply (visited4 _ _ _ _ HI) in I. destruct I as (_ & _ & _ & A & _). specialize (A Z2). rewrite <- Z.negb_even. apply negb_false_iff, Z.even_spec, A.
  - apply Z.eqb_eq in Z2. assert (l' = 0 /\ m = 0)%Z as (-> & ->) by lia. reflexivity.
Qed.
Section GL.
Variables (nodes weights : nat -> R).
Let L := Z.to_nat lmax.
Hypothesis GL : GLrule (L + 1) nodes weights.
Definition thj (j : nat) : R := acos (costhnodes L nodes j).
Lemma node_in j : (j <= L)%nat -> -1 < costhnodes L nodes j < 1 /\ costhnodes L nodes (L - j) = - costhnodes L nodes j /\ weights (L - j)%nat = weights j.
Proof.
  intros H. destruct GL as (_ & S). unfold costhnodes. destruct (S (L + 1 - 1 - j)%nat) as (A & B & _); [lia|]. destruct (S j) as (_ & _ & W); [lia|]. replace (L + 1 - 1 - (L + 1 - 1 - j))%nat with j in B by lia. replace (L + 1 - 1 - (L - j))%nat with j by lia. replace (L + 1 - 1 - j)%nat with (L - j)%nat in W by lia. split; [exact A|]. split; [exact B|exact W].
Qed.
Lemma thj_range j : 0 <= thj j <= PI. Proof. apply acos_bound. Qed.
Lemma thj_refl j : (j <= L)%nat -> thj (L - j) = PI - thj j.
Proof. intros H. unfold thj. destruct (node_in j H) as (A & -> & _). apply acos_opp. Qed.
Lemma tau_thj j : (j <= L)%nat -> costhnodes L nodes j / (sqrt (1 - costhnodes L nodes j * costhnodes L nodes j) + 1) = tau_of (thj j).
Proof. intros H. destruct (node_in j H) as (A & _). unfold tau_of, thj. rewrite cos_acos, sin_acos by lra. unfold Rsqr. f_equal. ring. Qed.
Definition sfac (m : Z) : R := / 2 / sqrt PI * (if Z.eqb m 0 then 1 else sqrt 2).
Lemma legFnc_ok j l m : (j <= L)%nat -> (Z.abs m <= l <= lmax)%Z -> legFnc L nodes weights j (Z.to_nat l) (Z.abs_nat m) = Ylm (Z.to_nat l) (Z.abs_nat m) (thj j) * weights j * sfac m.
Proof.
  intros H B. unfold legFnc. rewrite tau_thj by exact H. rewrite legval_ok; [|unfold L; lia|apply thj_range]. unfold sfac. destruct (Nat.ltb_spec 0 (Z.abs_nat m)), (Z.eqb_spec m 0); try lia; ring.
Qed.
Lemma rem_odd n : (0 <= n)%Z -> Z.eqb (Z.rem n 2) 1 = Z.odd n. Proof. apply rem2_1. Qed.
Lemma half_lt (j : nat) : (L / 2 + 1 <= j)%nat <-> (L / 2 < j)%nat. Proof. lia. Qed.
Lemma signed_P j l m : (j <= L)%nat -> (Z.abs m <= l <= lmax)%Z ->
  (if andb (Z.eqb (Z.rem (l + m) 2) 1) (Nat.ltb (L / 2) j) then legFnc L nodes weights (if Nat.ltb j (L / 2 + 1) then j else L - j) (Z.to_nat l) (Z.abs_nat m) * -1 else legFnc L nodes weights (if Nat.ltb j (L / 2 + 1) then j else L - j) (Z.to_nat l) (Z.abs_nat m))
  = Ylm (Z.to_nat l) (Z.abs_nat m) (thj j) * weights j * sfac m.
Proof.
  intros H B. rewrite rem_odd by lia. destruct (Nat.ltb_spec j (L / 2 + 1)) as [G|G].
  - rewrite (proj2 (Nat.ltb_ge (L / 2) j)) by lia. rewrite andb_false_r. apply legFnc_ok; assumption.
  - rewrite (proj2 (Nat.ltb_lt (L / 2) j)) by lia. rewrite andb_true_r. rewrite legFnc_ok by (lia || assumption). rewrite thj_refl by exact H. destruct (node_in j H) as (_ & _ & ->). rewrite Ylm_refl, par_Z by lia. destruct (Z.odd (l + m)); ring.
Qed.
(** values of the expansion on the grid expected by the forward transform *)
Definition grid_values (C : Z -> R) (v : nat -> R) : Prop := forall n, (n < fwd_size i)%nat -> v n = inverse i C (tau_of (acos (fwd_costheta i nodes n))) (fwd_phi i n).
Lemma fsize_pos M us : (0 < fsize M us)%nat. Proof. unfold fsize. destruct us; lia. Qed.
Lemma fwd_term_ok C v l m : grid_values C v -> In (l, m) (visited i) -> fwd_term i nodes weights v l m = C (sh_index l m).
Proof.
  intros G I. destruct ind_facts as (Lm & Mm & B & Sy & St). destruct (vis_tri l m I) as ((T1 & T2) & T3). unfold fwd_term. rewrite Lm, Mm. fold L.
  assert (NS : thetasize i = if isZReflSymmetric (i_sym i) then (L / 2 + 1)%nat else (L + 1)%nat) by (unfold thetasize; rewrite Lm; reflexivity).
  assert (H2 : (L / 2 <= L)%nat) by (apply Nat.div_le_upper_bound; lia). pose proof (Nat.div_mod L 2 ltac:(lia)) as DM. pose proof (Nat.mod_upper_bound L 2 ltac:(lia)).
  rewrite (bsum_ext _ _ (fun j => sfac m * (weights j * (Ylm (Z.to_nat l) (Z.abs_nat m) (thj j) * Vm C (thj j) m)))).
  2: { intros j Hj. rewrite signed_P by lia. set (js := if Nat.ltb j (thetasize i) then j else _).
    assert (EV : fourier (Z.to_nat mmax) (useSine i) (fun k => v (js * fsize (Z.to_nat mmax) (useSine i) + k)%nat) (Z.to_nat (m - mmin i)) = Vm C (thj j) m); [|rewrite EV; ring].
    assert (JS : (js < thetasize i)%nat /\ Vm C (thj js) m = Vm C (thj j) m).
    { unfold js. destruct (Nat.ltb_spec j (thetasize i)) as [G1|G1]; [split; [exact G1|reflexivity]|]. rewrite NS in G1 |- *. destruct (isZReflSymmetric (i_sym i)) eqn:ZR; [|lia].
      split; [lia|]. replace (L + 1 - 1 - j)%nat with (L - j)%nat by lia. rewrite thj_refl by lia. apply Vm_refl, ZR. }
    destruct JS as (J1 & <-). rewrite <- fourier_expansion by (apply thj_range || lia). apply fourier_ext. intros k Hk.
    pose proof (fsize_pos (Z.to_nat mmax) (useSine i)) as FP. rewrite G.
    - unfold fwd_costheta, fwd_phi. rewrite Lm, Mm. fold L. rewrite Nat.div_add_l, Nat.div_small, Nat.add_0_r by lia. rewrite Nat.add_comm, Nat.mod_add, Nat.mod_small by lia. reflexivity.
    - unfold fwd_size. rewrite Mm. clear - J1 Hk. revert J1 Hk. generalize (thetasize i) (fsize (Z.to_nat mmax) (useSine i)). intros a b ? ?. nia. }
  rewrite bsum_scal.
  (* reverse the order of nodes: a Gauss-Legendre sum *)
  set (g := fun k => weights k * (Ylm (Z.to_nat l) (Z.abs_nat m) (acos (nodes k)) * Vm C (acos (nodes k)) m)).
  rewrite (bsum_ext _ _ (fun j => g (L + 1 - 1 - j)%nat)).
  2: { intros j Hj. destruct (node_in j ltac:(lia)) as (_ & _ & W). unfold g, thj, costhnodes. replace (L + 1 - 1 - j)%nat with (L - j)%nat by lia. rewrite W. reflexivity. }
  rewrite bsum_rev. unfold g; clear g.
  set (c0 := kap m * (if Z.eqb m 0 then 2 * PI else PI)).
  rewrite (bsum_ext _ _ (fun k => lsum (visited i) (fun lm => if Z.eqb (snd lm) m then C (sh_index (fst lm) (snd lm)) * c0 * (weights k * (Ylm (Z.to_nat l) (Z.abs_nat m) (acos (nodes k)) * Ylm (Z.to_nat (fst lm)) (Z.abs_nat m) (acos (nodes k)))) else 0))).
  2: { intros k Hk. unfold Vm. rewrite <- !lsum_scal. apply lsum_ext. intros [l' m'] _. cbn [fst snd]. fold c0. destruct (Z.eqb_spec m' m) as [->|N]; ring. }
  rewrite lsum_bsum. rewrite (lsum_one _ _ (l, m)).
  - cbn [fst snd]. rewrite Z.eqb_refl, bsum_scal. pose proof (quad_YY (L + 1) nodes weights (Z.abs_nat m) (Z.to_nat l) (Z.to_nat l) GL ltac:(lia) ltac:(lia) ltac:(unfold L; lia)) as O. unfold QS in O. rewrite O, Nat.eqb_refl.
    unfold sfac, c0, kap. pose proof PI_RGT_0. assert (0 < sqrt PI) by (apply sqrt_lt_R0; lra). assert (S2 : sqrt 2 * sqrt 2 = 2) by (apply sqrt_sqrt; lra). destruct (Z.eqb_spec m 0); [field; lra|].
    transitivity (sqrt 2 * sqrt 2 * / 2 * C (sh_index l m)); [field; lra|]. rewrite S2. field.
  - apply visited_nodup, St.
  - exact I.
  - intros [l' m'] I' N. cbn [fst snd]. destruct (Z.eqb_spec m' m) as [->|Nm]; [|apply bsum_zero; reflexivity]. destruct (vis_tri l' m I') as ((T1' & T2') & _).
    rewrite bsum_scal. pose proof (quad_YY (L + 1) nodes weights (Z.abs_nat m) (Z.to_nat l) (Z.to_nat l') GL ltac:(lia) ltac:(lia) ltac:(unfold L; lia)) as O. unfold QS in O. rewrite O. rewrite (proj2 (Nat.eqb_neq _ _)); [ring|]. intros E. apply N. f_equal. lia.
Qed.
Lemma index_inj l m l' m' : (Z.abs m <= l)%Z -> (Z.abs m' <= l')%Z -> sh_index l m = sh_index l' m' -> l = l' /\ m = m'.
Proof. unfold sh_index. intros. assert (l = l') by nia. subst. lia. Qed.
Lemma fold_coefs (T : Z -> Z -> R) L0 : NoDup L0 -> (forall l m, In (l, m) L0 -> (Z.abs m <= l)%Z) -> forall C0 c,
  fold_left (fun C '(l, m) => fun c => if Z.eqb c (sh_index l m) then C c + T l m else C c) L0 C0 c = C0 c + lsum L0 (fun lm => if Z.eqb c (sh_index (fst lm) (snd lm)) then T (fst lm) (snd lm) else 0).
Proof.
  intros N B. induction L0 as [|[l m] L0 IH]; intros C0 c; cbn [fold_left lsum]; [ring|]. inversion N; subst. rewrite IH; [|assumption|intros; apply B; right; assumption]. cbn [fst snd]. destruct (Z.eqb c (sh_index l m)); ring.
Qed.
Lemma roundtrip C v : grid_values C v -> forall c, (forall l m, In (l, m) (visited i) -> sh_index l m = c -> forward i nodes weights v c = C c) /\ ((forall l m, In (l, m) (visited i) -> sh_index l m <> c) -> forward i nodes weights v c = 0).
Proof.
  intros G c. destruct ind_facts as (Lm & Mm & B & Sy & St). unfold forward. destruct (Z.eqb_spec (shi_size i) 1) as [S1|S1].
  - assert (L0 : lmax = 0%Z) by (unfold shi_size in S1; rewrite Lm in S1; nia). assert (M0 : mmax = 0%Z) by lia.
    assert (V0 : In (0, 0)%Z (visited i)). { apply (visited4 _ _ _ _ HI). split; [unfold in_triangle; lia|]. unfold allowed4. cbn. repeat split; intros _; try lia; exists 0%Z; reflexivity. }
    split.
    + intros l m I <-. destruct (vis_tri l m I) as ((T1 & T2) & _). assert (l = 0 /\ m = 0)%Z as (-> & ->) by lia. change (sh_index 0 0) with 0%Z. rewrite Z.eqb_refl. rewrite G.
      * rewrite inverse_eq by apply acos_bound. rewrite (lsum_one _ _ (0, 0)%Z); [|apply visited_nodup, St|exact V0|]. 2: { intros [l m] I' N. exfalso. apply N. destruct (vis_tri l m I') as ((T3 & T4) & _). f_equal; lia. }
        unfold term_of. cbn [fst snd]. change (sh_index 0 0) with 0%Z. unfold Ylm. rewrite AssocP_Q. change (Z.to_nat 0) with 0%nat. change (Z.abs_nat 0) with 0%nat. rewrite Q_00. unfold Trig, kap. cbn [Z.ltb Z.eqb Z.abs_nat INR pow Z.compare]. rewrite Rmult_0_l, cos_0.
        rewrite <- Norm_mm. unfold pmm_prefact. cbn [Nat.mul Nat.add fact INR]. replace ((2 * 0 + 1) / 1) with 1 by field. rewrite sqrt_1. pose proof PI_RGT_0. assert (0 < sqrt PI) by (apply sqrt_lt_R0; lra). field. lra.
      * unfold fwd_size, thetasize. pose proof (fsize_pos (Z.to_nat (i_mmax i)) (useSine i)). destruct (isZReflSymmetric (i_sym i)); nia.
    + intros N. rewrite (proj2 (Z.eqb_neq c 0)); [reflexivity|]. intros ->. apply (N 0%Z 0%Z V0). reflexivity.
  - assert (TR : forall l m, In (l, m) (visited i) -> (Z.abs m <= l)%Z) by (intros l m I; destruct (vis_tri l m I) as ((T1 & T2) & _); lia).
    rewrite (fold_coefs (fun l m => fwd_term i nodes weights v l m)); [|apply visited_nodup, St|exact TR]. rewrite Rplus_0_l. split.
    + intros l m I <-. rewrite (lsum_one _ _ (l, m)); [|apply visited_nodup, St|exact I|].
      * cbn [fst snd]. rewrite Z.eqb_refl. apply fwd_term_ok; assumption.
      * intros [l' m'] I' N. cbn [fst snd]. rewrite (proj2 (Z.eqb_neq _ _)); [reflexivity|]. intros E. apply N. destruct (index_inj l m l' m' (TR _ _ I) (TR _ _ I') E) as (-> & ->). reflexivity.
    + intros N. rewrite (lsum_ext _ _ (fun _ => 0 * 0)); [rewrite lsum_scal; ring|]. intros [l m] I. cbn [fst snd]. rewrite (proj2 (Z.eqb_neq _ _)); [ring|]. intros E. apply (N l m I). auto.
Qed.
End GL.
End Ind.
