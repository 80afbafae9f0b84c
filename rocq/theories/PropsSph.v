(** C30, C31, C45, C46, C47: spherical harmonics and Fourier transforms *)
From Coq Require Import Reals Lra Lia Psatz ZArith List Bool Arith.
From Coquelicot Require Import Coquelicot.
From Verif Require Import RandReal RootModel Base Arr PotModel SphModel SphSpec SphLegendre SphArray SphTable SphFourier SphFourier2 SphOrtho SphIndexModel SphIndexSpec SphIndexProofs SphIndexProofs2 SphIndexProofs3 SphTransModel SphTransform SphSym.
Import ListNotations.

(* ================= C30: index bookkeeping ================= *)
Local Open Scope Z_scope.
(** (l,m) <-> flat index is a bijection; the double-precision square root never gives a wrong l *)
Theorem C30_index_roundtrip : (forall l m, Z.abs m <= l -> (l + 1) * (l + 1) <= 2 ^ 32 -> index_l (sh_index l m) = l /\ index_m (sh_index l m) = m) /\
  (forall c, 0 <= c < 2 ^ 32 -> 0 <= index_l c /\ Z.abs (index_m c) <= index_l c /\ sh_index (index_l c) (index_m c) = c).
Proof. split; [exact decode|exact encode]. Qed.
(** the constructor accepts exactly the consistent arguments *)
Theorem C30_constructor lmax mmax sym :
  (exists i, SphHarmIndices lmax mmax sym = Ok i /\ i_lmax i = lmax /\ i_mmax i = mmax) <->
  0 <= mmax <= lmax /\ valid_sym sym /\ ~ (Z.testbit sym 0 = true /\ Z.testbit sym 1 = true /\ Z.testbit sym 2 = true /\ Z.testbit sym 3 = false).
Proof.
  destruct (ctor lmax mmax sym) as [(R & T)|(NR & i & E & L & M & _)].
  - split; [intros (i & E & _); congruence|]. intros (A & B & C). exfalso. unfold refused in R. destruct R as [R|[R|[R|[R|R]]]]; try lia; contradiction.
  - split; [|intros _; exists i; auto]. intros _. unfold refused in NR. split; [lia|]. split; [|tauto]. unfold valid_sym in *. lia.
Qed.
(** the documented loop visits, once each, exactly the harmonics that have the declared symmetry,
    provided that a rotational symmetry is declared together with mmax=0 (about z) or lmax=0 (spherical) *)
Theorem C30_selection lmax mmax sym i : SphHarmIndices lmax mmax sym = Ok i -> (Z.testbit sym 4 = true -> mmax = 0) -> (Z.testbit sym 5 = true -> lmax = 0) ->
  NoDup (visited i) /\ forall l m, In (l, m) (visited i) <-> in_triangle lmax mmax l m /\ allowed sym l m.
Proof.
  intros E H4 H5. split; [apply visited_nodup; apply (ind_facts lmax mmax sym i E)|]. intros l m. rewrite (visited4 _ _ _ _ E). split; intros (T & A); (split; [exact T|]).
  - destruct A as (A0 & A1 & A2 & A3). apply allowed_iff. unfold in_triangle in T. repeat (split; [assumption|]). split; [intros B; specialize (H4 B); lia|intros B; specialize (H5 B); lia].
  - apply allowed_iff in A. unfold allowed4. tauto.
Qed.
(** in any case nothing allowed is skipped, and nothing is visited that violates a declared reflection symmetry *)
Theorem C30_no_coefficient_lost lmax mmax sym i : SphHarmIndices lmax mmax sym = Ok i -> NoDup (visited i) /\
  (forall l m, in_triangle lmax mmax l m -> allowed sym l m -> In (l, m) (visited i)) /\
  (forall l m, In (l, m) (visited i) -> in_triangle lmax mmax l m /\ forall bit, 0 <= bit < 4 -> Z.testbit sym bit = true -> invariant bit l m).
Proof.
  intros E. split; [apply visited_nodup; apply (ind_facts lmax mmax sym i E)|]. split.
  - intros l m T A. apply (visited4 _ _ _ _ E). split; [exact T|]. apply allowed_iff in A. unfold allowed4. tauto.
  - intros l m V. apply (visited4 _ _ _ _ E) in V. destruct V as (T & A0 & A1 & A2 & A3). split; [exact T|]. intros b Hb. assert (b = 0 \/ b = 1 \/ b = 2 \/ b = 3) as [->|[->|[->| ->]]] by lia; assumption.
Qed.
(** without that proviso the selection is larger: an axisymmetric set of indices created with mmax=2 contains (2,2) *)
Theorem C30_rotation_refuted : ~ (forall lmax mmax sym i, SphHarmIndices lmax mmax sym = Ok i -> forall l m, In (l, m) (visited i) -> allowed sym l m).
Proof.
  intros H. destruct (SphHarmIndices 2 2 ST_AXISYMMETRIC) as [i| | |] eqn:E; [|vm_compute in E; discriminate..].
  assert (V : In (2, 2) (visited i)). { apply (visited4 _ _ _ _ E). split; [unfold in_triangle; lia|]. unfold allowed4. repeat split; intros _; try (exists 1; reflexivity); try (exists 2; reflexivity); lia. }
  specialize (H _ _ _ _ E 2 2 V 4 ltac:(lia) eq_refl). cbn in H. discriminate.
Qed.
(** re-using the symmetry() reported by a valid object may be refused by the constructor: axisymmetric expansion with z-reflection *)
Theorem C30_reported_symmetry_refuted : ~ (forall lmax mmax sym i, SphHarmIndices lmax mmax sym = Ok i -> exists i', SphHarmIndices lmax mmax (i_sym i) = Ok i').
Proof.
  intros H. destruct (SphHarmIndices 2 0 ST_ZREFLECTION) as [i| | |] eqn:E; [|vm_compute in E; discriminate..]. destruct (H _ _ _ _ E) as (i' & E').
  vm_compute in E. injection E as <-. vm_compute in E'. discriminate.
Qed.
(** indices inferred from an array of coefficients: lmax from the length, the smallest sufficient mmax, exactly the symmetries that all nonzero
    coefficients possess; every nonzero coefficient is visited.  NaN/infinity is refused *)
Theorem C30_inferred C l : 0 <= l -> zlen C = (l + 1) * (l + 1) -> (l + 2) * (l + 2) <= 2 ^ 32 -> (forall c, get C c <> Ok CNotFinite) ->
  exists i, getIndicesFromCoefs C = Ok i /\ i_lmax i = l /\
  (forall c, get C c = Ok CNonzero -> Z.abs (index_m c) <= i_mmax i) /\ (i_mmax i = 0 \/ exists c, get C c = Ok CNonzero /\ Z.abs (index_m c) = i_mmax i) /\
  (forall b, 0 <= b < 6 -> Z.testbit (i_sym i) b = true <-> (forall c, get C c = Ok CNonzero -> invariant b (index_l c) (index_m c))) /\
  (forall c, get C c = Ok CNonzero -> In (index_l c, index_m c) (visited i)).
Proof. exact (infer_ok C l). Qed.
(** azimuthal indices: m is included iff some harmonic (l,m) has the declared symmetry *)
Theorem C30_azimuthal mmax sym : valid_sym sym -> 0 <= mmax -> Z.testbit sym 5 = false -> exists r, getIndicesAzimuthal mmax sym = Ok r /\ NoDup r /\
  forall m, In m r <-> (Z.abs m <= mmax /\ exists l, Z.abs m <= l /\ allowed sym l m).
Proof.
  intros V H R5. unfold getIndicesAzimuthal. replace (isUnknown sym) with false. 2: { symmetry. unfold valid_sym in V. destruct (isUnknown sym) eqn:U; [|reflexivity]. exfalso. destruct (ctor 0 0 sym) as [(R & _)|(_ & i & E & _)]; [|unfold SphHarmIndices in E; rewrite U in E; cbn in E; discriminate].
    unfold refused, valid_sym in R. assert (SphHarmIndices 0 0 0 = Throw \/ True) by auto. unfold isUnknown in U. revert U. clear -V. intros U. assert (K : forallb (fun s => negb (isUnknown s)) (map Z.of_nat (seq 0 64)) = true) by (vm_compute; reflexivity). rewrite forallb_forall in K. specialize (K sym). unfold isUnknown in K. rewrite U in K. assert (false = true); [|discriminate]. apply K. apply in_map_iff. exists (Z.to_nat sym). split; [lia|]. apply in_seq. lia. }
  rewrite (proj2 (Z.ltb_ge mmax 0)) by lia. change ST_ZROTATION with (2 ^ 4). rewrite (flag_bit sym 4) by lia. destruct (Z.testbit sym 4) eqn:B4.
  - exists [0]. split; [reflexivity|]. split; [repeat constructor; intros []|]. intros m. split.
    + intros [<-|[]]. split; [lia|]. exists 0. split; [lia|]. apply allowed_iff. cbn. repeat split; try lia; intros; exists 0; reflexivity.
    + intros (_ & l & _ & A). left. apply allowed_iff in A. destruct A as (_ & _ & _ & _ & A & _). symmetry. apply A, B4.
  - destruct (azim_loop sym mmax H) as (r & E & N & I). exists r. split; [exact E|]. split; [exact N|]. intros m. rewrite I. split.
    + intros [->|(K & Az)]; [split; [lia|]; exists 0; split; [lia|]; apply allowed_iff; cbn; repeat split; try lia; intros; exists 0; reflexivity|].
      split; [lia|]. destruct Az as (A23 & A1 & A0). exists (if Z.testbit sym 3 then (if Z.odd m then Z.abs m + 1 else Z.abs m) else Z.abs m). split; [destruct (Z.testbit sym 3), (Z.odd m); lia|]. apply allowed_iff. rewrite B4, R5.
      split; [exact A0|]. split; [exact A1|].
      assert (EM : forall x, Z.Even x <-> Z.odd x = false) by (intros; apply even_odd).
      assert (OA : Z.odd (Z.abs m) = Z.odd m) by (destruct (Z.abs_spec m) as [(_ & ->)|(_ & ->)]; [reflexivity|apply Z.odd_opp]).
      split; [|split; [|split; discriminate]]; rewrite EM.
      * intros B2. destruct (Z.testbit sym 3) eqn:B3.
        -- assert (O : Z.odd m = false) by (apply EM, A23; auto). rewrite O, Z.odd_add, OA, O. reflexivity.
        -- rewrite Z.odd_add, OA. destruct (Z.odd m); reflexivity.
      * intros B3. rewrite B3. destruct (Z.odd m) eqn:O; [rewrite Z.odd_add, OA; reflexivity|rewrite OA; reflexivity].
    + intros (K & l & Hl & A). apply allowed_iff in A. destruct A as (A0 & A1 & A2 & A3 & _). destruct (Z.eq_dec m 0); [left; assumption|]. right. split; [lia|]. split; [|split; assumption].
      intros (B2 & B3). specialize (A2 B2). specialize (A3 B3). destruct A2 as (p & A2), A3 as (q & A3). exists (p - q). lia.
Qed.
(** restricting an array of coefficients to given indices: the kept coefficients are unchanged, the others become zero, and the result is truncated
    after the last nonzero order *)
Theorem C30_restrict lmax mmax sym i coefs ls : SphHarmIndices lmax mmax sym = Ok i -> (lmax + 1) * (lmax + 1) <= 2 ^ 32 -> 0 <= ls -> zlen coefs = (ls + 1) * (ls + 1) -> (ls + 1) * (ls + 1) <= 2 ^ 32 ->
  exists out lact, restrictSphHarmCoefs lmax mmax sym coefs = Ok out /\ 0 <= lact <= Z.min ls lmax /\ zlen out = (lact + 1) * (lact + 1) /\
  (forall c t, get coefs c = Ok t -> c < zlen out -> (In (index_l c, index_m c) (visited i) -> get out c = Ok t) /\ (~ In (index_l c, index_m c) (visited i) -> get out c = Ok (zero_out t))) /\
  (forall c t, get coefs c = Ok t -> In (index_l c, index_m c) (visited i) -> term_zero t = false -> index_l c <= lact) /\
  (lact = 0 \/ exists c t, get coefs c = Ok t /\ In (index_l c, index_m c) (visited i) /\ term_zero t = false /\ index_l c = lact).
Proof.
  intros E A B Cc D. destruct (restrict_ok lmax mmax sym i coefs ls E A B Cc D) as (out & lact & R & L & Z0 & V & K & M). exists out, lact. repeat (split; [assumption|]). split; [|split; assumption].
  intros c t G Lt. specialize (V c t G Lt). destruct (kept_dec i c) as [Y|N]; split; intros; (contradiction || exact V).
Qed.
Example C30_ex : exists i, SphHarmIndices 4 2 ST_TRIAXIAL = Ok i /\ visited i = [(0, 0); (2, 0); (4, 0); (2, 2); (4, 2)].
Proof. eexists. split; [vm_compute; reflexivity|]. vm_compute. reflexivity. Qed.
Example C30_ex_infer : exists i, getIndicesFromCoefs [CNonzero; CZero; CNonzero; CZero] = Ok i /\ i_mmax i = 0 /\ Z.testbit (i_sym i) 2 = false /\ Z.testbit (i_sym i) 1 = true.
Proof. eexists. split; [vm_compute; reflexivity|]. vm_compute. auto. Qed.

(* ================= C31 ================= *)
Local Open Scope R_scope.
Theorem C31_trig_multiples phi m needSine : length (trigMultiAngle phi m needSine) = (if needSine then 2 * m else m)%nat /\
  forall k, (1 <= k <= m)%nat -> nth_error (trigMultiAngle phi m needSine) (k - 1) = Some (cos (INR k * phi)) /\
    (needSine = true -> nth_error (trigMultiAngle phi m needSine) (m + (k - 1)) = Some (sin (INR k * phi))).
Proof.
  split; [apply trig_len|]. intros k H. pose proof (trig_len phi m needSine) as L. split.
  - rewrite (nth_error_nth' _ 0) by (rewrite L; destruct needSine; lia). rewrite trig_cos by exact H. reflexivity.
  - intros ->. rewrite (nth_error_nth' _ 0) by (rewrite L; lia). rewrite trig_sin by exact H. reflexivity.
Qed.

(* ================= C45: spherical-harmonic functions ================= *)
(** for every l, m and angle: the value is the normalised associated Legendre function defined by the formula of Rodrigues; the derivatives are its
    derivatives, away from the strips 0 < sin(theta) < 1e-8 (for m <= 2), and exactly at the poles *)
Theorem C45_harmonics lmax m t : (m <= lmax)%nat -> 0 <= t <= PI -> exists a, sphHarmArray lmax m (tau_of t) = Ok a /\ length a = S (lmax - m) /\
  forall l, (m <= l <= lmax)%nat -> exists v d d2, nth_error a (l - m) = Some (v, d, d2) /\ v = Ylm l m t /\
    (sin t >= / 10 ^ 8 \/ (m > 2)%nat \/ sin t = 0 -> is_derive_n (Ylm l m) 1 t d /\ is_derive_n (Ylm l m) 2 t d2).
Proof.
  intros H Ht. destruct (sphHarmArray_ok lmax m t H Ht) as (a & E & L & V). exists a. split; [exact E|]. split; [exact L|]. intros l Hl. destruct (V l Hl) as (v & d & d2 & N & Ev & D). exists v, d, d2. split; [exact N|]. split; [exact Ev|].
  intros R. apply D. unfold regular, SEPS. pose proof (sin_ge_0 t ltac:(lra) ltac:(lra)). destruct R as [R|[R|R]]; [left; lra| |right; right; exact R]. destruct (Req_dec (sin t) 0); [right; right; assumption|right; left; split; [lia|lra]].
Qed.
Theorem C45_refused lmax m tau : (lmax < m)%nat -> sphHarmArray lmax m tau = Throw.
Proof. intros H. unfold sphHarmArray. rewrite (proj2 (Nat.ltb_lt _ _) H). reflexivity. Qed.
(** orthonormality: the integral of Ylm Ykm over cos(theta), times 2 pi, is 1 or 0 *)
Theorem C45_orthonormal l k m : (m <= l)%nat -> (m <= k)%nat -> is_RInt (fun x => 2 * PI * (Ylm l m (acos x) * Ylm k m (acos x))) (-1) 1 (if Nat.eqb l k then 1 else 0).
Proof.
  intros Hl Hk. apply (is_RInt_ext (fun x => (2 * PI * (Norm l m * Norm k m)) * LL m l k x)).
  - intros x Hx. rewrite Rmin_left, Rmax_right in Hx by lra. rewrite <- AA_LL by lra. unfold Ylm. match goal with |- @eq _ ?a ?b => change (@eq R a b) end. ring.
  - apply (I_val _ ((2 * PI * (Norm l m * Norm k m)) * (if Nat.eqb l k then Nlm l m else 0))); [apply I_scal, ortho; assumption|].
    destruct (Nat.eqb_spec l k) as [<-|N]; [|ring]. pose proof (Norm_N l m Hl) as E. pose proof PI_RGT_0. replace (2 * PI * (Norm l m * Norm l m) * Nlm l m) with (2 * PI * (Norm l m * Norm l m * Nlm l m)) by ring. rewrite E. field. lra.
Qed.
(** the tables of constants in the source agree with the formulas to 15 digits *)
Theorem C45_table m : (m <= 16)%nat -> Rabs (nth m PREFACT 0 - pmm_prefact m) <= 1e-15 * pmm_prefact m /\ Rabs (nth m COEF 0 - pmm_coef m) <= 2e-15 * Rabs (pmm_coef m).
Proof. intros H. split; [apply table_prefact, H|apply table_coef, H]. Qed.
(** a value: Y_10 at the north pole is sqrt(3/(4 pi)) *)
Example C45_ex : Ylm 1 0 0 = sqrt (3 / (4 * PI)).
Proof. unfold Ylm. rewrite AssocP_Q, cos_0, sin_0, Q_1. cbn [pow]. unfold Norm. cbn [Nat.sub Nat.add fact INR]. rewrite !Rmult_1_l. rewrite Nat.mul_1_r. cbn [INR]. unfold Rdiv at 2. rewrite Rinv_1, !Rmult_1_r. reflexivity || (f_equal; f_equal; field; pose proof PI_RGT_0; lra). Qed.

(* ================= C46: Fourier transform ================= *)
(** of any band-limited function sampled at phi(k): exactly the coefficients, which are the integrals over the full circle *)
Theorem C46_coefficients M a b : let f := trigpoly a b M in let F := fourier M true (fun k => f (fphi M k)) in
  forall m, (m <= M)%nat -> F (M + m)%nat = (if Nat.eqb m 0 then 2 * PI else PI) * a m /\ is_RInt (fun x => f x * cos (INR m * x)) 0 (2 * PI) (F (M + m)%nat) /\
  ((1 <= m)%nat -> F (M - m)%nat = PI * b m /\ is_RInt (fun x => f x * sin (INR m * x)) 0 (2 * PI) (F (M - m)%nat)).
Proof.
  cbv zeta. intros m H. rewrite fourier_cos by exact H. split; [apply quad_tp_cos; lia|]. split; [apply ex_tp_cos; lia|]. intros H1. rewrite fourier_sin by lia. split; [apply quad_tp_sin; lia|apply ex_tp_sin; lia].
Qed.
(** cosine-only transform: for even functions, from the nodes in [0,pi) only *)
Theorem C46_even M a : let f := trigpoly a (fun _ => 0) M in let F := fourier M false (fun k => f (fphi M k)) in
  forall m, (m <= M)%nat -> F m = (if Nat.eqb m 0 then 2 * PI else PI) * a m /\ is_RInt (fun x => f x * cos (INR m * x)) 0 (2 * PI) (F m).
Proof.
  cbv zeta. intros m H. rewrite fourier_even; [split; [apply quad_tp_cos; lia|apply ex_tp_cos; lia]|exact H| |].
  - intros x. unfold trigpoly. apply bsum_ext. intros j _. rewrite Rmult_0_l, Rmult_0_l. f_equal. f_equal. rewrite <- (cos_neg (INR j * x)). f_equal. ring.
  - intros x. unfold trigpoly. apply bsum_ext. intros j _. rewrite !Rmult_0_l. destruct (full_turn j) as (C & D). rewrite Rmult_plus_distr_l, cos_plus, C, D. ring.
Qed.
(** the samples of the cosine-only transform lie in [0,pi) and those of the full transform in [0,2pi) *)
Theorem C46_samples M us k : (k < fsize M us)%nat -> 0 <= fphi M k < (if us then 2 * PI else PI).
Proof.
  intros H. unfold fphi. pose proof PI_RGT_0. pose proof (pos_INR k). pose proof (pos_INR M). assert (D : 0 < INR M + / 2) by lra.
  split; [apply Rmult_le_pos; [apply Rmult_le_pos; lra|apply Rlt_le, Rinv_0_lt_compat, D]|].
  apply (Rmult_lt_reg_r (INR M + / 2)); [exact D|]. unfold Rdiv. rewrite Rmult_assoc, Rinv_l, Rmult_1_r by lra. unfold fsize in H. destruct us.
  - assert (INR k <= 2 * INR M) by (rewrite <- (mult_INR 2); apply le_INR; lia). nra.
  - assert (INR k <= INR M) by (apply le_INR; lia). nra.
Qed.
Example C46_ex : fourier 1 true (fun k => trigpoly (fun j => INR j) (fun _ => 3) 1 (fphi 1 k)) 0 = PI * 3.
Proof. exact (proj1 (proj2 (proj2 (C46_coefficients 1 (fun j => INR j) (fun _ => 3) 1 ltac:(lia))) ltac:(lia))). Qed.

(* ================= C47: spherical-harmonic transform ================= *)
(** inverse transform = the sum over the selected harmonics of C_lm * Ylm(theta) * {cos,sin}(m phi) * 2 sqrt(pi) [* sqrt 2 if m <> 0] *)
Theorem C47_inverse lmax mmax sym i C t phi : SphHarmIndices lmax mmax sym = Ok i -> 0 <= t <= PI ->
  inverse i C (tau_of t) phi = fold_right Rplus 0 (map (fun lm : Z * Z => let (l, m) := lm in C (sh_index l m) * Ylm (Z.to_nat l) (Z.abs_nat m) t *
    ((if Z.ltb m 0 then sin (IZR (- m) * phi) else cos (IZR m * phi)) * (2 * sqrt PI * (if Z.eqb m 0 then 1 else sqrt 2)))) (visited i)).
Proof.
  intros E Ht. rewrite (inverse_eq lmax mmax sym i E C t phi Ht). induction (visited i) as [|[l m] L IH]; cbn [lsum map fold_right]; [reflexivity|]. rewrite IH. f_equal. unfold term_of, Trig, kap. cbn [fst snd].
  destruct (Z.ltb_spec m 0); rewrite INR_IZR_INZ; do 5 f_equal; lia.
Qed.
(** a function composed of the selected harmonics is recovered exactly from its values on the grid of the forward transform;
    all other coefficients are zero.  The nodes and weights of the quadrature are those of a Gauss-Legendre rule of order lmax+1 *)
Theorem C47_roundtrip lmax mmax sym i nodes weights C v : SphHarmIndices lmax mmax sym = Ok i -> GLrule (Z.to_nat lmax + 1) nodes weights ->
  (forall n, (n < fwd_size i)%nat -> v n = inverse i C (tau_of (acos (fwd_costheta i nodes n))) (fwd_phi i n)) ->
  (forall l m, In (l, m) (visited i) -> forward i nodes weights v (sh_index l m) = C (sh_index l m)) /\
  (forall c, (forall l m, In (l, m) (visited i) -> sh_index l m <> c) -> forward i nodes weights v c = 0).
Proof.
  intros E G V. split.
  - intros l m I. exact (proj1 (roundtrip lmax mmax sym i E nodes weights G C v V (sh_index l m)) l m I eq_refl).
  - intros c N. exact (proj2 (roundtrip lmax mmax sym i E nodes weights G C v V c) N).
Qed.
(** the represented function has the symmetries declared at construction *)
Theorem C47_symmetry lmax mmax sym i C t phi : SphHarmIndices lmax mmax sym = Ok i -> 0 <= t <= PI -> let f a b := inverse i C (tau_of a) b in
  (Z.testbit sym 0 = true -> f t (PI - phi) = f t phi) /\ (Z.testbit sym 1 = true -> f t (- phi) = f t phi) /\
  (Z.testbit sym 2 = true -> f (PI - t) phi = f t phi) /\ (Z.testbit sym 3 = true -> f (PI - t) (phi + PI) = f t phi) /\
  (mmax = 0%Z -> forall phi', f t phi' = f t phi) /\ (lmax = 0%Z -> forall t' phi', 0 <= t' <= PI -> f t' phi' = f t phi).
Proof. intros E. apply (inverse_sym lmax mmax sym i E). Qed.
(** the table of Legendre functions: entries do not overlap and fit into the allocated array *)
Theorem C47_table lmax mmax : (forall j l m, (j < lmax / 2 + 1)%nat -> (l <= lmax)%nat -> (m <= mmax)%nat -> (indLeg lmax mmax j l m < (lmax / 2 + 1) * ((lmax + 1) * (mmax + 1)))%nat) /\
  (forall j l m j' l' m', (l <= lmax)%nat -> (m <= mmax)%nat -> (l' <= lmax)%nat -> (m' <= mmax)%nat -> indLeg lmax mmax j l m = indLeg lmax mmax j' l' m' -> j = j' /\ l = l' /\ m = m').
Proof.
  unfold indLeg. split.
  - intros j l m Hj Hl Hm. set (n := (lmax / 2 + 1)%nat) in *. clearbody n. assert (m * (lmax + 1) + l < (lmax + 1) * (mmax + 1))%nat by nia. nia.
  - intros j l m j' l' m' Hl Hm Hl' Hm' E. assert (m * (lmax + 1) + l < (lmax + 1) * (mmax + 1))%nat by nia. assert (m' * (lmax + 1) + l' < (lmax + 1) * (mmax + 1))%nat by nia.
    assert (j = j') by nia. subst j'. assert (m = m') by nia. subst m'. repeat split. lia.
Qed.
(** Gauss-Legendre rule with three nodes *)
Definition gl3x (j : nat) : R := match j with 0%nat => - sqrt (3 / 5) | 1%nat => 0 | _ => sqrt (3 / 5) end.
Definition gl3w (j : nat) : R := match j with 1%nat => 8 / 9 | _ => 5 / 9 end.
Example C47_ex_rule : GLrule 3 gl3x gl3w.
Proof.
  assert (S2 : sqrt (3 / 5) * sqrt (3 / 5) = 3 / 5) by (apply sqrt_sqrt; lra). assert (S0 : 0 < sqrt (3 / 5)) by (apply sqrt_lt_R0; lra). assert (S1 : sqrt (3 / 5) < 1) by nra.
  split.
  - intros k Hk. unfold QS, moment. cbn [bsum gl3x gl3w]. set (q := sqrt (3 / 5)) in *. clearbody q. assert (S4 : q * (q * (q * q)) = 9 / 25) by (replace (q * (q * (q * q))) with ((q * q) * (q * q)) by ring; rewrite S2; field).
    do 6 (destruct k as [|k]; [cbn [pow INR]; field_simplify; try lra; nra|]). lia.
  - intros j Hj. destruct j as [|[|[|j]]]; [..|lia]; cbn [gl3x gl3w Nat.sub]; repeat split; try lra; ring.
Qed.
Example C47_ex : exists i, SphHarmIndices 2 2 ST_NONE = Ok i /\ In (2, -1)%Z (visited i) /\ forall C, let v n := inverse i C (tau_of (acos (fwd_costheta i gl3x n))) (fwd_phi i n) in forward i gl3x gl3w v 5 = C 5%Z.
Proof.
  destruct (SphHarmIndices 2 2 ST_NONE) as [i| | |] eqn:E; [|vm_compute in E; discriminate..]. exists i. split; [reflexivity|].
  assert (V : In (2, -1)%Z (visited i)). { apply (visited4 _ _ _ _ E). split; [unfold in_triangle; lia|]. unfold allowed4. repeat split; intros W; vm_compute in W; discriminate. }
  split; [exact V|]. intros C v. change 5%Z with (sh_index 2 (-1)). apply (proj1 (C47_roundtrip 2 2 ST_NONE i gl3x gl3w C v E C47_ex_rule (fun n _ => eq_refl)) 2%Z (-1)%Z V).
Qed.
Print Assumptions C30_index_roundtrip.
Print Assumptions C30_constructor.
Print Assumptions C30_selection.
Print Assumptions C30_no_coefficient_lost.
Print Assumptions C30_rotation_refuted.
Print Assumptions C30_reported_symmetry_refuted.
Print Assumptions C30_inferred.
Print Assumptions C30_azimuthal.
Print Assumptions C30_restrict.
Print Assumptions C31_trig_multiples.
Print Assumptions C45_harmonics.
Print Assumptions C45_orthonormal.
Print Assumptions C45_table.
Print Assumptions C46_coefficients.
Print Assumptions C46_even.
Print Assumptions C46_samples.
Print Assumptions C47_inverse.
Print Assumptions C47_roundtrip.
Print Assumptions C47_symmetry.
Print Assumptions C47_table.
