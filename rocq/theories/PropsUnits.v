(** C22: unit systems *)
From Coq Require Import Reals Lra Lia ZArith Psatz.
From Verif Require Import UnitsModel UnitsSpec SphTable.
Local Open Scope R_scope.

Lemma zps x : zpow x 0 = 1 /\ zpow x 1 = x /\ zpow x 2 = x * x /\ zpow x 3 = x * x * x /\ zpow x (-1) = / x /\ zpow x (-2) = / (x * x) /\ zpow x (-3) = / (x * x * x).
Proof. unfold zpow; simpl. repeat split; try ring; f_equal; ring. Qed.
Ltac unz := unfold unit_size; cbn [dL dM dT LENGTH MASS TIME VELOCITY ANGVEL ANGMOM SURFDENS DENSITY GRAVCONST POTENTIAL dim_of];
  repeat match goal with |- context [zpow ?x ?k] => let H := fresh in destruct (zps x) as (H0 & H1 & H2 & H3 & H4 & H5 & H6); first [rewrite H0|rewrite H1|rewrite H2|rewrite H3|rewrite H4|rewrite H5|rewrite H6]; clear H0 H1 H2 H3 H4 H5 H6 end.
(** for any choice of the two scales, the mass unit is such that the gravitational constant is one *)
Theorem C22_gravitational_constant L T : 0 < L -> 0 < T -> internal (makeInternal L T) GRAVCONST Grav = 1.
Proof.
  intros HL HT. unfold internal, in_system. unz. cbn [makeInternal length_unit mass_unit time_unit]. unfold Grav. field. split; [|lra]. apply Rgt_not_eq. lra.
Qed.
Lemma consts : 0 < pc /\ 0 < Msun /\ 0 < yr /\ 0 < kms /\ 0 < c_light /\ 0 < Grav /\ 0 < arcsec /\ 0 < Gev_per_cm3.
Proof. unfold pc, Msun, yr, kms, c_light, Grav, arcsec, Gev_per_cm3. repeat split; lra. Qed.
Definition cgs_named (n : uname) : R := match n with
  | uMsun => Msun | upc => pc | uKpc => Kpc | uMpc => Mpc | uly => ly | uyr => yr | uMyr => Myr | uGyr => Gyr | umas_per_yr => mas_per_yr | ukms => kms | uKpc_kms => Kpc_kms
  | uMsun_per_pc2 => Msun_per_pc2 | uMsun_per_pc3 => Msun_per_pc3 | uMsun_per_Kpc2 => Msun_per_Kpc2 | uMsun_per_Kpc3 => Msun_per_Kpc3 | uGev_per_cm3 => Gev_per_cm3 end.
Lemma cgs_same n : cgs_of n = cgs_named n.
Proof.
  assert (K : 3.0856775815e21 = Kpc) by (unfold Kpc, pc; lra).
  destruct n; cbn [cgs_of cgs_named]; rewrite ?K; unfold Msun_per_Kpc2, Msun_per_Kpc3, Msun_per_pc2, Msun_per_pc3, Kpc_kms.
  all: try (unfold pc, Mpc, ly, c_light, Myr, Gyr, yr, mas_per_yr, arcsec, kms, pc; lra).
  - reflexivity.
  - assert (Y : yr = 31557600) by (unfold yr; lra). unfold mas_per_yr, arcsec. rewrite Y. lra.
  - fold pc. fold Msun. unfold Rdiv. do 2 f_equal. ring.
  - fold pc. fold Msun. unfold Rdiv. do 2 f_equal. ring.
  - fold Msun. unfold Rdiv. do 2 f_equal. ring.
  - fold Msun. unfold Rdiv. do 2 f_equal. ring.
  - reflexivity.
Qed.
(** multiplying by from_X converts a value expressed in the unit X to internal units; by to_X - the reverse; for every unit X provided *)
Theorem C22_conversion L T n x : 0 < L -> 0 < T -> let u := makeInternal L T in
  x * from_ u n = internal u (dim_of n) (x * cgs_of n) /\ x * from_ u n * to_ u n = x /\ x * to_ u n * from_ u n = x.
Proof.
  intros HL HT u. destruct consts as (P1 & P2 & P3 & P4 & P5 & P6 & P7 & P8).
  assert (M0 : 0 < mass_unit u) by (unfold u; cbn [makeInternal mass_unit]; apply Rdiv_lt_0_compat; [apply Rdiv_lt_0_compat; [apply Rdiv_lt_0_compat; [|exact HT]|exact HT]|exact P6]; apply Rmult_lt_0_compat; [apply Rmult_lt_0_compat|]; exact HL).
  assert (F : from_ u n = internal u (dim_of n) (cgs_of n)).
  { unfold internal, in_system. unfold u in *. set (M := mass_unit (makeInternal L T)) in *. destruct n; unz; cbn [makeInternal length_unit time_unit from_ from_Msun from_pc from_Kpc from_Mpc from_ly from_yr from_Myr from_Gyr from_mas_per_yr from_kms from_Kpc_kms from_Msun_per_pc2 from_Msun_per_pc3 from_Msun_per_Kpc2 from_Msun_per_Kpc3 from_Gev_per_cm3];
    change (L * L * L / T / T / Grav) with M; clearbody M; rewrite cgs_same; cbn [cgs_named]; field; lra. }
  assert (NZ : from_ u n <> 0).
  { rewrite F. apply Rgt_not_eq. unfold internal, in_system. apply Rdiv_lt_0_compat.
    - clear. destruct n; cbn [cgs_of pow]; try lra; repeat (apply Rdiv_lt_0_compat || apply Rmult_lt_0_compat); lra.
    - assert (ZP : forall y k, 0 < y -> 0 < zpow y k) by (intros y k Hy; unfold zpow; destruct (Z.ltb k 0); [apply Rinv_0_lt_compat|]; apply pow_lt, Hy).
      unfold unit_size. apply Rmult_lt_0_compat; [apply Rmult_lt_0_compat|]; apply ZP; [exact HL|exact M0|exact HT]. }
  assert (R : to_ u n = 1 / from_ u n) by (destruct n; reflexivity).
  split; [rewrite F; unfold internal, in_system, Rdiv; ring|]. rewrite R. split; field; exact NZ.
Qed.
Lemma zpow_scale x y k : 0 < x -> 0 < y -> zpow (x * y) k = zpow x k * zpow y k.
Proof. intros. unfold zpow. destruct (Z.ltb k 0); rewrite Rpow_mult_distr; [|reflexivity]. rewrite Rinv_mult. reflexivity. Qed.
(** the result expressed in physical units does not depend on the internal system: a quantity entered in CGS-based units through one system and
    read back is the same for any two systems *)
Theorem C22_invariance L T L' T' n n' x : 0 < L -> 0 < T -> 0 < L' -> 0 < T' -> dim_of n = dim_of n' ->
  x * from_ (makeInternal L T) n * to_ (makeInternal L T) n' = x * from_ (makeInternal L' T') n * to_ (makeInternal L' T') n' /\ x * from_ (makeInternal L T) n * to_ (makeInternal L T) n' = x * cgs_of n / cgs_of n'.
Proof.
  intros HL HT HL' HT' D.
  assert (K : forall L T, 0 < L -> 0 < T -> x * from_ (makeInternal L T) n * to_ (makeInternal L T) n' = x * cgs_of n / cgs_of n').
  { clear - D. intros L T HL HT. destruct (C22_conversion L T n 1 HL HT) as (A & _). destruct (C22_conversion L T n' 1 HL HT) as (B & C & _). rewrite !Rmult_1_l in *.
    assert (U0 : unit_size (length_unit (makeInternal L T)) (mass_unit (makeInternal L T)) (time_unit (makeInternal L T)) (dim_of n') <> 0).
    { intros E. unfold internal, in_system in B. rewrite E in B. unfold Rdiv in B. assert (from_ (makeInternal L T) n' = 0) by (rewrite B; rewrite Rinv_0; ring). rewrite H in C. lra. }
    assert (F0 : from_ (makeInternal L T) n' <> 0) by (intros E; rewrite E in C; lra).
    assert (G0 : cgs_of n' <> 0). { intros E. apply F0. rewrite B, E. unfold internal, in_system, Rdiv. ring. }
    replace (to_ (makeInternal L T) n') with (/ from_ (makeInternal L T) n') by (apply (Rmult_eq_reg_l (from_ (makeInternal L T) n')); [rewrite Rinv_r by exact F0; lra|exact F0]).
    rewrite A, B. unfold internal, in_system. rewrite D. field. split; assumption. }
  split; [rewrite !K by assumption; reflexivity|apply K; assumption].
Qed.
(** compound units: products and quotients of conversion factors are the conversion factors of the products and quotients *)
Theorem C22_compound L T : 0 < L -> 0 < T -> let u := makeInternal L T in
  from_Kpc_kms u = from_Kpc u * from_kms u /\ from_Msun_per_pc2 u = from_Msun u / (from_pc u) ^ 2 /\ from_Msun_per_pc3 u = from_Msun u / (from_pc u) ^ 3 /\
  from_Msun_per_Kpc2 u = from_Msun u / (from_Kpc u) ^ 2 /\ from_Msun_per_Kpc3 u = from_Msun u / (from_Kpc u) ^ 3 /\
  from_Kpc u = 1000 * from_pc u /\ from_Mpc u = 1000 * from_Kpc u /\ from_Myr u = 1000000 * from_yr u /\ from_Gyr u = 1000 * from_Myr u /\
  length_unit u = L /\ time_unit u = T /\
  (* G M = v^2 r in internal units, for any v [km/s], r [kpc] *)
  forall v r, (v * from_kms u) ^ 2 * (r * from_Kpc u) = internal u MASS ((v * 1e5) ^ 2 * (r * 3.0856775815e21) / Grav).
Proof.
  intros HL HT u. destruct consts as (P1 & P2 & P3 & P4 & P5 & P6 & P7 & P8). unfold internal, in_system. unz. unfold u.
  cbn [makeInternal length_unit mass_unit time_unit from_Msun from_pc from_Kpc from_Mpc from_yr from_Myr from_Gyr from_kms from_Kpc_kms from_Msun_per_pc2 from_Msun_per_pc3 from_Msun_per_Kpc2 from_Msun_per_Kpc3].
  unfold Msun_per_pc2, Msun_per_pc3, Msun_per_Kpc2, Msun_per_Kpc3, Kpc_kms, Mpc, Kpc, Gyr, Myr. repeat split; try (field; lra).
  intros v r. unfold kms, pc. field. lra.
Qed.
(** external units: multiplying by lengthUnit, etc., converts a value in the external units to internal units *)
Theorem C22_external L T l v m x : 0 < L -> 0 < T -> 0 < l -> 0 < v -> 0 < m -> let u := makeInternal L T in let e := makeExternal u l v m in
  x * lengthUnit e = internal u LENGTH (x * l) /\ x * velocityUnit e = internal u VELOCITY (x * v) /\ x * massUnit e = internal u MASS (x * m) /\ x * timeUnit e = internal u TIME (x * (l / v)).
Proof.
  intros HL HT Hl Hv Hm u e. destruct consts as (P1 & P2 & P3 & P4 & P5 & P6 & P7 & P8). unfold internal, in_system. unz. unfold e, u, makeExternal.
  cbn [makeInternal length_unit mass_unit time_unit from_Msun from_pc from_kms lengthUnit velocityUnit massUnit timeUnit].
  repeat split; field; repeat split; try lra.
Qed.
(** the arcsecond constant has 7 digits of pi: its relative error is about 1.1e-7 (proper motions are affected at this level) *)
Theorem C22_arcsec_refuted : arcsec <> PI / 648000 /\ 1e-7 * (PI / 648000) < arcsec - PI / 648000 < 1.2e-7 * (PI / 648000).
Proof. pose proof pi_bounds. unfold arcsec. split; [intros E|split]; lra. Qed.
(** named systems *)
Example C22_ex : 1 * from_ galactic_kms ukms = 1 /\ 1 * from_ galactic_kms uKpc = 1 /\ from_Myr galactic_Myr = 1.
Proof. unfold galactic_kms, galactic_Myr. destruct consts as (P1 & P2 & P3 & P4 & _). cbn [makeInternal from_ from_kms from_Kpc from_Myr]. unfold Kpc, Myr. repeat split; field; lra. Qed.
Print Assumptions C22_gravitational_constant.
Print Assumptions C22_conversion.
Print Assumptions C22_invariance.
Print Assumptions C22_compound.
Print Assumptions C22_external.
Print Assumptions C22_arcsec_refuted.
