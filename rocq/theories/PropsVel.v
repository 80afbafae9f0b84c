(** C68: assignment of velocities to particles, moments of the axisymmetric Jeans model. *)
From Verif Require Import Base RandReal RandRealProofs PropsRandom PolyModel PolyProofs VelModel VelProofs.
From Coq Require Import Reals Lra Lia.
Local Open Scope R_scope.
Definition speed2 (v : vec3) : R := dot v v.

(** the array has the same coordinates and masses; particle i depends only on its own position and index (not on the order of processing, or on other particles) *)
Theorem C68_particles : forall (St P : Type) (seed : P -> nat -> St) (vel : P -> St -> vec3) points,
  length (assign seed vel points) = length points /\
  forall i p m, nth_error points i = Some (p, m) -> nth_error (assign seed vel points) i = Some (p, vel p (seed p i), m).
Proof.
  intros St P seed vel points. unfold assign. split.
  - rewrite map_length, combine_length, seq_length. apply Nat.min_id.
  - assert (G : forall l k i p m, nth_error l i = Some (p, m) -> nth_error (map (fun e : nat * (P * R) => let '(i, (p, m)) := e in (p, vel p (seed p i), m)) (combine (seq k (length l)) l)) i = Some (p, vel p (seed p (k + i)%nat), m)).
    { induction l as [|[q mq] t IH]; intros k i p m H; [destruct i; discriminate|]. destruct i as [|i]; simpl in H |- *.
      - injection H as <- <-. rewrite Nat.add_0_r. reflexivity.
      - replace (k + S i)%nat with (S k + i)%nat by lia. exact (IH (S k) i p m H). }
    intros i p m H. rewrite (G points 0%nat i p m H). reflexivity.
Qed.
Section s.
  Context {St : Type} (rnd : St -> R * St).
  Hypothesis Hrnd : forall st, 0 <= fst (rnd st) <= 1.
  (** Eddington: every particle is bound or at rest: the velocity has the magnitude of the first of at most 100 draws which is below the escape velocity, or is zero if there is no such *)
  Theorem C68_eddington : forall sample Phi st, let w := eddVelocity rnd sample Phi st in
    (exists j, firstGood (sample Phi) (fun v => Rle_b 0 (Phi + 1 / 2 * v * v)) st j /\ speed2 w = Rsqr (nthDraw (sample Phi) j st) /\ Phi + 1 / 2 * speed2 w < 0) \/
    (allBad (sample Phi) (fun v => Rle_b 0 (Phi + 1 / 2 * v * v)) st /\ w = (0, 0, 0)).
  Proof using Hrnd.
    intros sample Phi st. unfold eddVelocity. cbv zeta.
    destruct (attempts_spec (sample Phi) (fun v => Rle_b 0 (Phi + 1 / 2 * v * v)) st) as (j & st1 & [[G E]|(_ & G & E)]); rewrite E.
    - left. exists j. split; [exact G|]. destruct G as (J & B & _). replace (100 <=? Z.of_nat j)%Z with false by (symmetry; apply Z.leb_gt; lia).
      destruct (rnd st1) as [p1 st2] eqn:E1. destruct (rnd st2) as [p2 st3]. pose proof (Hrnd st1) as H1. rewrite E1 in H1. cbn [fst] in H1.
      pose proof (C17_unit_vector p1 p2 H1) as U. destruct (getRandomUnitVector p1 p2) as [[a b] c]. apply leF' in B. set (v := nthDraw (sample Phi) j st) in *.
      assert (SP : speed2 (v * a, v * b, v * c) = Rsqr v) by (unfold speed2, dot, Rsqr in *; transitivity (v * v * (a * a + b * b + c * c)); [ring|]; rewrite U; ring).
      split; [exact SP|]. rewrite SP. unfold Rsqr. lra.
    - right. split; [exact G|]. change (100 <=? 100)%Z with true. destruct (rnd st1) as [p1 st2]. destruct (rnd st2) as [p2 st3]. destruct (getRandomUnitVector p1 p2) as [[a b] c]. cbv iota. f_equal; [f_equal|]; ring.
  Qed.
  (** spherical Jeans: the radial component and the speed of a particle away from the origin are those of a draw of two Gaussian numbers scaled with sigma_r and sigma_t;
      the particle is bound unless 100 draws in succession exceed the escape velocity, and then the last of them is used *)
  Theorem C68_jeans_sph : forall sigma beta Phi Rc z phi st, 0 < Rc * Rc + z * z -> let w := sphVelocity rnd sigma beta Phi Rc z phi st in
    exists j, (firstGood (sphDraw rnd sigma beta) (sphBad Phi) st j \/ (j = 99%nat /\ allBad (sphDraw rnd sigma beta) (sphBad Phi) st)) /\
      let '(vr, vt) := nthDraw (sphDraw rnd sigma beta) j st in
      dot w (posCar Rc z phi) = vr * sqrt (Rc * Rc + z * z) /\ speed2 w = Rsqr vr + Rsqr vt /\ (Phi + 1 / 2 * speed2 w <= 0 <-> firstGood (sphDraw rnd sigma beta) (sphBad Phi) st j).
  Proof using Hrnd.
    intros sigma beta Phi Rc z phi st Hr. unfold sphVelocity. cbv zeta.
    destruct (attempts_spec (sphDraw rnd sigma beta) (sphBad Phi) st) as (j & st1 & H).
    assert (E : exists num, attempts (sphDraw rnd sigma beta) (sphBad Phi) 100 0 st = (nthDraw (sphDraw rnd sigma beta) j st, num, st1)) by (destruct H as [[_ E]|(-> & _ & E)]; eexists; exact E).
    destruct E as [num E]. rewrite E. exists j. split; [destruct H as [[G _]|(J & G & _)]; [left; exact G|right; split; assumption]|].
    assert (GB : (firstGood (sphDraw rnd sigma beta) (sphBad Phi) st j) <-> sphBad Phi (nthDraw (sphDraw rnd sigma beta) j st) = false).
    { destruct H as [[G _]|(-> & G & _)]; [split; [intros _; apply G|intros _; exact G]|]. split; [intros F; apply F|]. intros F. rewrite (G 99%nat ltac:(lia)) in F. discriminate. }
    clear H E. revert GB. destruct (nthDraw (sphDraw rnd sigma beta) j st) as [vr vt]. intros GB. cbv iota. rewrite GB. clear GB.
    unfold posCar. destruct (rnd st1) as [p1 st2]. destruct (rnd st2) as [p2 st3] eqn:E2. pose proof (Hrnd st2) as H2. rewrite E2 in H2. cbn [fst] in H2.
    pose proof (C17_perpendicular_vector (Rc * cos phi, Rc * sin phi, z) p1 p2 H2) as PV. destruct (getRandomPerpendicularVector (Rc * cos phi, Rc * sin phi, z) p1 p2) as [[[a b] c] m]. cbn [fst].
    destruct PV as (D0 & D1 & _). set (q := Rc * Rc + z * z) in *. set (r := sqrt q). assert (RP : 0 < r) by (apply sqrt_lt_R0; exact Hr). assert (RR : r * r = q) by (apply sqrt_sqrt; lra).
    rewrite (Req_b_f r 0) by lra. pose proof (sin2_cos2 phi) as SC. unfold Rsqr in SC.
    set (x := Rc * cos phi) in *. set (y := Rc * sin phi) in *. assert (XY : x * x + y * y + z * z = r * r) by (rewrite RR; unfold x, y, q; replace (Rc * cos phi * (Rc * cos phi) + Rc * sin phi * (Rc * sin phi)) with (Rc * Rc * (sin phi * sin phi + cos phi * cos phi)) by ring; rewrite SC; ring).
    unfold dot in D0, D1.
    assert (SP : speed2 (vr * x / r + vt * a, vr * y / r + vt * b, vr * z / r + vt * c) = Rsqr vr + Rsqr vt).
    { unfold speed2, dot, Rsqr. transitivity (vr * vr * ((x * x + y * y + z * z) / (r * r)) + 2 * vr * vt * ((x * a + y * b + z * c) / r) + vt * vt * (a * a + b * b + c * c)); [field; lra|]. rewrite XY, D0, D1. field. lra. }
    split; [|split; [exact SP|]].
    - unfold dot. transitivity (vr * ((x * x + y * y + z * z) / r) + vt * (x * a + y * b + z * c)); [field; lra|]. rewrite XY, D0. field. lra.
    - rewrite SP. unfold sphBad, Rsqr. cbn [fst snd]. split; intros B; [apply Rlt_b_f; lra|apply ltF' in B; lra].
  Qed.
  (** axisymmetric Jeans: the same for the three components in cylindrical coordinates *)
  Theorem C68_jeans_axi : forall vphi0 vR2 vz2 vphi2 Phi phi st, let w := axiVelocity rnd vphi0 vR2 vz2 vphi2 Phi phi st in
    exists j, (firstGood (axiDraw rnd vphi0 vR2 vz2 vphi2) (axiBad Phi) st j \/ (j = 99%nat /\ allBad (axiDraw rnd vphi0 vR2 vz2 vphi2) (axiBad Phi) st)) /\
      let '(vR, vz, vphi) := nthDraw (axiDraw rnd vphi0 vR2 vz2 vphi2) j st in
      dot w (cos phi, sin phi, 0) = vR /\ dot w (- sin phi, cos phi, 0) = vphi /\ dot w (0, 0, 1) = vz /\ speed2 w = Rsqr vR + Rsqr vz + Rsqr vphi /\
      (Phi + 1 / 2 * speed2 w <= 0 <-> firstGood (axiDraw rnd vphi0 vR2 vz2 vphi2) (axiBad Phi) st j).
  Proof using.
    intros vphi0 vR2 vz2 vphi2 Phi phi st. unfold axiVelocity. cbv zeta. set (dr := axiDraw rnd vphi0 vR2 vz2 vphi2).
    destruct (attempts_spec dr (axiBad Phi) st) as (j & st1 & H).
    assert (E : exists num, attempts dr (axiBad Phi) 100 0 st = (nthDraw dr j st, num, st1)) by (destruct H as [[_ E]|(-> & _ & E)]; eexists; exact E).
    destruct E as [num E]. rewrite E. exists j. split; [destruct H as [[G _]|(J & G & _)]; [left; exact G|right; split; assumption]|].
    assert (GB : (firstGood dr (axiBad Phi) st j) <-> axiBad Phi (nthDraw dr j st) = false).
    { destruct H as [[G _]|(-> & G & _)]; [split; [intros _; apply G|intros _; exact G]|]. split; [intros F; apply F|]. intros F. rewrite (G 99%nat ltac:(lia)) in F. discriminate. }
    clear H E. revert GB. destruct (nthDraw dr j st) as [[vR vz] vphi]. intros GB. cbv iota. rewrite GB. clear GB. pose proof (sin2_cos2 phi) as SC. unfold Rsqr in SC.
    assert (SP : speed2 (vR * cos phi - vphi * sin phi, vR * sin phi + vphi * cos phi, vz) = Rsqr vR + Rsqr vz + Rsqr vphi).
    { unfold speed2, dot, Rsqr. transitivity ((vR * vR + vphi * vphi) * (sin phi * sin phi + cos phi * cos phi) + vz * vz); [ring|]. rewrite SC. ring. }
    unfold dot at 1 2 3. split; [transitivity (vR * (sin phi * sin phi + cos phi * cos phi)); [ring|rewrite SC; ring]|].
    split; [transitivity (vphi * (sin phi * sin phi + cos phi * cos phi)); [ring|rewrite SC; ring]|]. split; [ring|]. split; [exact SP|].
    rewrite SP. unfold axiBad, Rsqr. split; intros B; [apply Rlt_b_f; lra|apply ltF' in B; lra].
  Qed.
End s.
(** ** moments of the axisymmetric Jeans model *)
Section m.
  Variables (fphi2 fz2 : R -> R -> R) (xmax ymax : R) (epi : R -> R) (b kappa : R).
  Hypotheses (Hx : 0 < xmax) (Hy : 0 < ymax).
  Let mom := moments fphi2 fz2 xmax ymax epi b kappa.
  (** symmetric about the equatorial plane *)
  Theorem C68_moments_symmetric : forall Rc z, mom Rc (- z) = mom Rc z.
  Proof using. intros. unfold mom, moments. rewrite Rabs_Ropp. reflexivity. Qed.
  (** inside the grid: interpolated values, constant meridional anisotropy; second moment = mean^2 + dispersion^2 for |kappa|<=1; kappa=0: no rotation;
      |kappa|=1: sigma_phi^2 = epi * sigma_R^2 unless the second moment is smaller than that *)
  Theorem C68_moments_inside : forall Rc z, Rc <= xmax -> Rabs z <= ymax -> let '(vphi, vR2, vz2, vphi2) := mom Rc z in
    vz2 = fz2 Rc (Rabs z) /\ vphi2 = fphi2 Rc (Rabs z) /\ vR2 = vz2 * b.
  Proof using.
    intros Rc z H1 H2. unfold mom, moments. cbv zeta. rewrite !Rlt_b_f by assumption. cbn [orb]. cbv iota. rewrite !Rmult_1_r. repeat split.
  Qed.
  Theorem C68_moments_rotation : forall Rc z, let '(vphi, vR2, vz2, vphi2) := mom Rc z in exists e, (Rc <= xmax -> Rabs z <= ymax -> e = epi Rc) /\
    (Rsqr vphi = Rsqr kappa * Rmax 0 (vphi2 - vR2 * e)) /\
    (kappa = 0 -> vphi = 0) /\ (0 <= kappa -> 0 <= vphi) /\
    (Rabs kappa <= 1 -> 0 <= vphi2 -> 0 <= vR2 * e -> Rsqr vphi + Rsqr (sigmaPhi vphi vphi2) = vphi2) /\
    (Rabs kappa = 1 -> 0 <= vR2 * e -> 0 <= vphi2 -> Rsqr (sigmaPhi vphi vphi2) = Rmin (vR2 * e) vphi2).
  Proof using.
    intros Rc z. unfold mom, moments. cbv zeta. set (out := Rlt_b xmax Rc || Rlt_b ymax (Rabs z)).
    set (mult := if out then _ else 1). set (Rr := if out then Rmin xmax (Rc * mult) else Rc). set (zz := if out then Rmin ymax (Rabs z * mult) else Rabs z).
    set (vphi2 := fphi2 Rr zz * mult). set (vR2 := fz2 Rr zz * mult * b). exists (epi Rr). set (d := vphi2 - vR2 * epi Rr).
    split; [intros A B; unfold Rr, out; rewrite !Rlt_b_f by assumption; reflexivity|].
    assert (SQ : Rsqr (kappa * sqrt (Rmax 0 d)) = Rsqr kappa * Rmax 0 d) by (rewrite Rsqr_mult, Rsqr_sqrt; [reflexivity|apply Rmax_l]).
    split; [exact SQ|]. split; [intros ->; ring|]. split; [intros K; apply Rmult_le_pos; [exact K|apply sqrt_pos]|].
    assert (SG : forall u, Rsqr u <= vphi2 -> Rsqr (sigmaPhi u vphi2) = vphi2 - Rsqr u).
    { intros u Hu. unfold sigmaPhi. rewrite Rsqr_sqrt by apply Rmax_l. unfold pow_2, Rsqr in *. rewrite Rmax_right by lra. reflexivity. }
    assert (LE : Rabs kappa <= 1 -> 0 <= vphi2 -> 0 <= vR2 * epi Rr -> Rsqr (kappa * sqrt (Rmax 0 d)) <= vphi2).
    { intros K P E. rewrite SQ. assert (K2 : 0 <= Rsqr kappa <= 1). { split; [apply Rle_0_sqr|]. replace 1 with (Rsqr 1) by (unfold Rsqr; ring). apply Rsqr_le_abs_1. rewrite (Rabs_right 1) by lra. exact K. }
      assert (D : 0 <= Rmax 0 d <= vphi2). { split; [apply Rmax_l|]. apply Rmax_lub; [exact P|unfold d; lra]. } nra. }
    split.
    - intros K P E. rewrite SG by (apply LE; assumption). ring.
    - intros K E P. rewrite SG by (apply LE; [lra|exact P|exact E]). rewrite SQ. assert (K2 : Rsqr kappa = 1) by (rewrite Rsqr_abs, K; unfold Rsqr; ring). rewrite K2.
      unfold d. destruct (Rle_dec (vR2 * epi Rr) vphi2) as [L|L]; [rewrite Rmax_right, Rmin_left by lra; ring|rewrite Rmax_left, Rmin_right by lra; ring].
  Qed.
  (** outside the grid: the second moments are those at the point where the ray towards the centre crosses the boundary of the grid, reduced in proportion to the distance
      (the dispersions fall as r^-1/2); hence they are continuous at the boundary *)
  Theorem C68_moments_outside : forall Rc z, 0 <= Rc -> (xmax < Rc \/ ymax < Rabs z) -> exists k, 0 < k < 1 /\ k * Rc <= xmax /\ k * Rabs z <= ymax /\ (k * Rc = xmax \/ k * Rabs z = ymax) /\
    let '(vphi, vR2, vz2, vphi2) := mom Rc z in let '(uphi, uR2, uz2, uphi2) := mom (k * Rc) (k * z) in
    vR2 = k * uR2 /\ vz2 = k * uz2 /\ vphi2 = k * uphi2 /\ vphi = sqrt k * uphi.
  Proof using Hx Hy.
    intros Rc z HR HO. set (za := Rabs z). assert (Z0 : 0 <= za) by apply Rabs_pos.
    set (k := if Req_b za 0 then xmax / Rc else if Req_b Rc 0 then ymax / za else Rmin (xmax / Rc) (ymax / za)).
    assert (DV : forall u v, 0 < u -> 0 < v -> 0 < u / v /\ u / v * v = u /\ (u < v -> u / v < 1)).
    { intros u v A B. split; [apply Rdiv_lt_0_compat; assumption|]. split; [field; lra|]. intros C. apply Rmult_lt_reg_r with v; [exact B|]. replace (u / v * v) with u by (field; lra). lra. }
    assert (K : 0 < k < 1 /\ k * Rc <= xmax /\ k * za <= ymax /\ (k * Rc = xmax \/ k * za = ymax)).
    { unfold k, za in *. destruct (Req_EM_T (Rabs z) 0) as [E|E].
      - rewrite (Req_b_t _ _ E). assert (xmax < Rc) by (destruct HO; lra). destruct (DV xmax Rc Hx ltac:(lra)) as (A & B & C). rewrite E. split; [split; [exact A|apply C; assumption]|]. split; [lra|]. split; [lra|]. left. exact B.
      - rewrite (Req_b_f _ _ E). destruct (Req_EM_T Rc 0) as [E'|E'].
        + rewrite (Req_b_t _ _ E'). assert (ymax < Rabs z) by (destruct HO; lra). destruct (DV ymax (Rabs z) Hy ltac:(lra)) as (A & B & C). split; [split; [exact A|apply C; assumption]|]. rewrite E'. split; [lra|]. split; [lra|]. right. exact B.
        + rewrite (Req_b_f _ _ E'). destruct (DV xmax Rc Hx ltac:(lra)) as (A & B & C). destruct (DV ymax (Rabs z) Hy ltac:(lra)) as (A' & B' & C').
          destruct (Rle_dec (xmax / Rc) (ymax / Rabs z)) as [L|L].
          * rewrite Rmin_left by exact L. split; [split; [exact A|destruct HO as [HO|HO]; [apply C; exact HO|specialize (C' HO); lra]]|]. split; [lra|]. split; [|left; exact B]. apply Rle_trans with (ymax / Rabs z * Rabs z); [apply Rmult_le_compat_r; lra|lra].
          * apply Rnot_le_lt in L. rewrite Rmin_right by lra. split; [split; [exact A'|destruct HO as [HO|HO]; [specialize (C HO); lra|apply C'; exact HO]]|]. split; [|split; [lra|right; exact B']]. apply Rle_trans with (xmax / Rc * Rc); [apply Rmult_le_compat_r; lra|lra]. }
    exists k. destruct K as (K1 & K2 & K3 & K4). repeat (split; [assumption|]).
    unfold mom, moments. fold za. cbv zeta.
    assert (OUT : Rlt_b xmax Rc || Rlt_b ymax za = true) by (destruct HO as [HO|HO]; [rewrite (Rlt_b_t _ _ HO); reflexivity|fold za in HO; rewrite (Rlt_b_t _ _ HO); apply orb_true_r]).
    rewrite OUT. cbv iota. fold k. assert (AZ : Rabs (k * z) = k * za) by (rewrite Rabs_mult, (Rabs_right k) by lra; reflexivity). rewrite AZ.
    rewrite (Rlt_b_f xmax (k * Rc)) by lra. rewrite (Rlt_b_f ymax (k * za)) by lra. cbn [orb]. cbv iota.
    rewrite (Rmult_comm Rc k), (Rmult_comm za k). rewrite !Rmin_right by lra.
    split; [ring|]. split; [ring|]. split; [ring|].
    set (p := fphi2 (k * Rc) (k * za)). set (q := fz2 (k * Rc) (k * za)). set (e := epi (k * Rc)).
    replace (Rmax 0 (p * k - q * k * b * e)) with (k * Rmax 0 (p * 1 - q * 1 * b * e)).
    - rewrite sqrt_mult; [ring|lra|apply Rmax_l].
    - rewrite <- RmaxRmult by lra. f_equal; ring.
  Qed.
End m.
(** the ratio used for sigma_phi of maximally rotating models is (kappa_epi/(2 Omega))^2, where kappa_epi^2 = Phi'' + 3 Phi'/R, Omega^2 = Phi'/R *)
Theorem C68_epicycle_ratio : forall Rc dR dR2, 0 < Rc -> dR <> 0 -> epicycleRatio Rc dR dR2 = (dR2 + 3 * dR / Rc) / (4 * (dR / Rc)).
Proof. intros. unfold epicycleRatio. field. lra. Qed.

(** ** concrete cases *)
(** a particle whose first draw is unbound and the second one is accepted *)
Example C68_ex_eddington : let sample := fun (_ : R) (st : nat) => (match st with O => 10 | _ => 1 end, S st) in
  let w := eddVelocity (fun st : nat => (1 / 2, S st)) sample (-1) 0%nat in speed2 w = 1 /\ firstGood (sample (-1)) (fun v => Rle_b 0 (-1 + 1 / 2 * v * v)) 0%nat 1.
Proof.
  intros sample. cbv zeta.
  assert (F : firstGood (sample (-1)) (fun v => Rle_b 0 (-1 + 1 / 2 * v * v)) 0%nat 1).
  { split; [lia|]. split; [simpl; apply Rle_b_f; lra|]. intros [|i] Hi; [|lia]. simpl. apply Rle_b_t. lra. }
  split; [|exact F].
  destruct (C68_eddington (fun st : nat => (1 / 2, S st)) ltac:(intros; simpl; lra) sample (-1) 0%nat) as [(j & (J1 & J2 & J3) & SP & _)|[A _]].
  - rewrite SP. destruct j as [|j]; [exfalso; simpl in J2; rewrite Rle_b_t in J2 by lra; discriminate|]. destruct j as [|j]; [simpl; unfold Rsqr; ring|]. destruct F as (_ & F & _). rewrite (J3 1%nat ltac:(lia)) in F. discriminate.
  - exfalso. destruct F as (_ & F & _). rewrite (A 1%nat ltac:(lia)) in F. discriminate.
Qed.
(** the Jeans samplers may return an unbound particle: a dispersion (10) much above the escape velocity with the potential -1 *)
Example C68_ex_unbound : let rnd := fun st : bool => (if st then exp (- (1 / 2)) else 1 / 4, negb st) in
  allBad (sphDraw rnd 10 0) (sphBad (-1)) true /\ 0 < -1 + 1 / 2 * speed2 (sphVelocity rnd 10 0 (-1) 1 0 0 true).
Proof.
  intros rnd.
  assert (D : sphDraw rnd 10 0 true = ((10, 0), true)).
  { unfold sphDraw, normals, rnd. cbn [negb]. unfold getNormalRandomNumbers. cbv zeta. destruct (Rlt_dec 0 (exp (- (1 / 2)))) as [_|N]; [|exfalso; apply N, exp_pos].
    rewrite ln_exp. replace (-2 * - (1 / 2)) with 1 by lra. rewrite sqrt_1. replace (2 * PI * (1 / 4)) with (PI / 2) by field. rewrite sin_PI2, cos_PI2. do 2 f_equal; ring. }
  assert (N : forall k, nthDraw (sphDraw rnd 10 0) k true = (10, 0)) by (induction k as [|k IH]; cbn [nthDraw]; rewrite D; [reflexivity|exact IH]).
  assert (A : allBad (sphDraw rnd 10 0) (sphBad (-1)) true) by (intros i _; rewrite N; unfold sphBad; cbn [fst snd]; apply Rlt_b_t; lra).
  split; [exact A|].
  assert (HR : forall st, 0 <= fst (rnd st) <= 1).
  { intros [|]; simpl; [|lra]. split; [left; apply exp_pos|]. pose proof (exp_increasing (- (1 / 2)) 0 ltac:(lra)) as Q. rewrite exp_0 in Q. lra. }
  destruct (C68_jeans_sph rnd HR 10 0 (-1) 1 0 0 true ltac:(lra)) as (j & _ & H). rewrite N in H. destruct H as (_ & SP & _). rewrite SP. unfold Rsqr. lra.
Qed.
Example C68_ex_moments : let m := moments (fun _ _ => 9) (fun _ _ => 4) 10 5 (fun _ => 1 / 2) 1 1 in m 1 1 = (sqrt 7, 4, 4, 9) /\ (let '(_, vR2, _, _) := m 20 0 in vR2 = 2).
Proof.
  cbv zeta. unfold moments. cbv zeta. split.
  - rewrite Rabs_R1, !Rlt_b_f by lra. cbn [orb]. cbv iota. rewrite Rmax_right by lra. repeat f_equal; try lra. rewrite Rmult_1_l. f_equal. lra.
  - rewrite Rabs_R0, (Rlt_b_t 10 20) by lra. cbn [orb]. cbv iota. rewrite (Req_b_t 0 0 eq_refl). cbv iota. lra.
Qed.
Print Assumptions C68_jeans_sph.
Print Assumptions C68_moments_outside.
