(** Property C58: actions, angles and frequencies in the isochrone potential are what they are said to be, and the conversions in the two directions are inverse to each other. *)
From Coq Require Import Reals Lra Psatz Bool ZArith.
From Coquelicot Require Import Coquelicot.
From Verif Require Import RandReal PolyModel PolyProofs CoordModel CoordAtan MathModel MathProofs KeplerSpec KeplerProofs KeplerProofs2 IsoModel IsoProofs IsoProofs2 IsoProofs3 IsoProofs4 IsoProofs5 IsoProofs6 IsoProofs7 IsoProofs8 CoordSpec IsoSpec.
Local Open Scope R_scope.

(** the actions of any bound point: Jphi is the z-component of the angular momentum, Jz+|Jphi| is its magnitude, and Jr is such that the Hamiltonian H(Jr,Jz,Jphi)
    is equal to the energy of the particle; the frequencies are those of these actions *)
Theorem C58_point_actions M b Rc z phi vR vz vphi : 0 < M -> 0 <= b -> 0 < Rc * Rc + z * z ->
  let pt : posvel := ((Rc, z, phi), (vR, vz, vphi)) in let X := toPosVel_YC pt in let res := evalIsochrone M b pt in
  iso_energy M b (fst X) (snd X) < 0 ->
  exists Jr Jz Jphi, e_Jr res = Some Jr /\ e_Jz res = Jz /\ e_Jphi res = Jphi /\ 0 <= Jr /\ 0 <= Jz /\
    Jphi = v1 (fst X) * v2 (snd X) - v2 (fst X) * v1 (snd X) /\
    (Jz + Rabs Jphi) * (Jz + Rabs Jphi) = (let '((x, y, z), (vx, vy, vz)) := X in (y * vz - z * vy) * (y * vz - z * vy) + (z * vx - x * vz) * (z * vx - x * vz) + (x * vy - y * vx) * (x * vy - y * vx)) /\
    iso_H M b Jr Jz Jphi = iso_energy M b (fst X) (snd X) /\
    (0 < Jz + Rabs Jphi -> e_freq res = mapFreq M b Jr Jz Jphi).
Proof. intros HM Hb HP pt X res HE. exact (point_actions M b Rc z phi vR vz vphi HM Hb HP HE). Qed.

(** the value of Jr is determined by the other two actions and the energy: H is a strictly increasing function of Jr *)
Theorem C58_hamiltonian_increasing M b J J' Jz Jphi : 0 < M -> 0 <= b -> 0 <= J -> J < J' -> 0 <= Jz -> 0 < Jz + Rabs Jphi -> iso_H M b J Jz Jphi < iso_H M b J' Jz Jphi.
Proof.
  intros HM Hb HJ HJJ HJz HL. unfold iso_H. cbv zeta. set (L := Jz + Rabs Jphi) in *. pose proof (J0_pos M b J L HM Hb HJ HL) as P. unfold cJ0, cL1 in P. rewrite half5 in P. set (a := J + / 2 * (L + sqrt (L * L + 4 * M * b))) in *. replace (J' + / 2 * (L + sqrt (L * L + 4 * M * b))) with (a + (J' - J)) by (unfold a; ring). set (d := J' - J). assert (Hd : 0 < d) by (unfold d; lra).
  apply Rminus_gt_0_lt. replace (- (M * M) / (2 * (a + d) ^ 2) - - (M * M) / (2 * a ^ 2)) with (M * M * (d * (2 * a + d)) / (2 * (a * a) * ((a + d) * (a + d)))) by (field; lra). apply Rdiv_lt_0_compat; repeat apply Rmult_lt_0_compat; lra.
Qed.

(** an unbound point has neither Jr nor angles *)
Theorem C58_unbound M b Rc z phi vR vz vphi : 0 < M -> 0 <= b -> 0 < Rc * Rc + z * z ->
  let pt : posvel := ((Rc, z, phi), (vR, vz, vphi)) in let X := toPosVel_YC pt in let res := evalIsochrone M b pt in
  0 <= iso_energy M b (fst X) (snd X) -> e_Jr res = None /\ e_angles res = (None, None, None) /\ (0 < iso_energy M b (fst X) (snd X) -> e_freq res = None).
Proof.
  intros HM Hb HP pt X res HE. pose proof (p_E M b Rc z phi vR vz vphi HP) as PE. cbv zeta in PE. fold pt in PE. fold X in PE. pose proof (p_r Rc z HP) as RP. cbv zeta in RP.
  set (r := sqrt (pow_2 Rc + pow_2 z)) in *. 
  assert (SP : toPosVel_YS pt = ((r, atan2 Rc z, phi), (vR * (Rc * (1 / r)) + vz * (z * (1 / r)), vR * (z * (1 / r)) - vz * (Rc * (1 / r)), vphi))) by (unfold pt, toPosVel_YS; fold r; rewrite (Req_b_f r 0) by lra; reflexivity).
  unfold res, evalIsochrone. rewrite SP. unfold pt at 1. cbv iota beta zeta. rewrite PE. cbn [e_Jr e_angles e_freq]. rewrite (Rle_b_t 0 _ HE). split; [reflexivity|]. split.
  - unfold evalAngles. rewrite SP. unfold pt. cbv iota beta zeta. rewrite (Rle_b_t 0 _ HE). reflexivity.
  - intros H. rewrite (Rlt_b_t 0 _ H). reflexivity.
Qed.

(** the mapped point has the given actions, whatever the angles and the accuracy of the solution of Kepler's equation; it always exists if Jphi<>0 *)
Theorem C58_map_actions kep M b Jr Jz Jphi tr tz tp : 0 < M -> 0 <= b -> 0 <= Jr -> 0 <= Jz -> 0 < Jz + Rabs Jphi ->
  (Jphi <> 0 -> mapIsochrone kep M b Jr Jz Jphi tr tz tp <> None) /\
  forall p, mapIsochrone kep M b Jr Jz Jphi tr tz tp = Some p ->
    e_Jr (evalIsochrone M b p) = Some Jr /\ e_Jz (evalIsochrone M b p) = Jz /\ e_Jphi (evalIsochrone M b p) = Jphi /\ e_freq (evalIsochrone M b p) = mapFreq M b Jr Jz Jphi /\
    iso_energy M b (fst (toPosVel_YC p)) (snd (toPosVel_YC p)) = iso_H M b Jr Jz Jphi.
Proof.
  intros HM Hb HJr HJz HL. split; [|intros p; apply (map_actions M b Jr Jz Jphi HM Hb HJr HJz HL)].
  intros N. rewrite (map_form M b Jr Jz Jphi HM Hb HJr HJz HL). rewrite Req_b_f by (apply Rgt_not_eq, (st_pos Jz Jphi HJz HL _ N)). discriminate.
Qed.
(** negative actions give no point *)
Theorem C58_map_negative kep M b Jr Jz Jphi tr tz tp : Jr < 0 \/ Jz < 0 -> mapIsochrone kep M b Jr Jz Jphi tr tz tp = None /\ mapFreq M b Jr Jz Jphi = None.
Proof. intros H. unfold mapIsochrone, mapFreq. replace (Rlt_b Jr 0 || Rlt_b Jz 0) with true; [auto|]. symmetry. apply orb_true_iff. destruct H as [H|H]; [left|right]; apply Rlt_b_t; exact H. Qed.

(** the frequencies are the derivatives of the Hamiltonian by the actions *)
Theorem C58_frequencies M b Jr Jz Jphi : 0 < M -> 0 <= b -> 0 <= Jr -> 0 <= Jz -> Jphi <> 0 ->
  exists Or Oz Op, mapFreq M b Jr Jz Jphi = Some (Or, Oz, Op) /\
    is_derive (fun J => iso_H M b J Jz Jphi) Jr Or /\ is_derive (fun J => iso_H M b Jr J Jphi) Jz Oz /\ is_derive (fun J => iso_H M b Jr Jz J) Jphi Op.
Proof.
  intros HM Hb HJr HJz N. pose proof (Lp Jz Jphi HJz N) as HL. do 3 eexists. split; [apply (freq_val M b Jr Jz Jphi HJr HJz)|].
  split; [exact (freq_r M b Jr Jz Jphi HM Hb HJr HL)|]. split; [exact (freq_z M b Jr Jz Jphi HM Hb HJr HL)|exact (freq_phi M b Jr Jz Jphi HM Hb HJr HL N)].
Qed.

(** angles growing linearly with time at these frequencies (and reduced to a single turn) trace the motion of a particle in this potential *)
Theorem C58_orbit kep M b Jr Jz Jphi Or Oz Op tr0 tz0 tp0 (tr tz tp : R -> R) : 0 < M -> 0 <= b -> 0 <= Jr -> 0 <= Jz -> Jphi <> 0 -> kepler_solver kep ->
  mapFreq M b Jr Jz Jphi = Some (Or, Oz, Op) ->
  (forall t, 0 <= tr t < 2 * PI) -> (forall t, same_angle (tr t) (tr0 + Or * t)) -> (forall t, same_angle (tz t) (tz0 + Oz * t)) -> (forall t, same_angle (tp t) (tp0 + Op * t)) ->
  exists pv : R -> posvel, (forall t, mapIsochrone kep M b Jr Jz Jphi (tr t) (tz t) (tp t) = Some (pv t)) /\
    newton (iso_Phi M b) (fun t => fst (toPosVel_YC (pv t))) (fun t => snd (toPosVel_YC (pv t))).
Proof.
  intros HM Hb HJr HJz N K F. rewrite (freq_val M b Jr Jz Jphi HJr HJz) in F. injection F as <- <- <-. intros A B C D.
  apply (orbit_newton M b Jr Jz Jphi HM Hb HJr HJz N kep tr0 tz0 tp0 tr tz tp K A B C D).
Qed.

(** evaluation of the mapped point returns the angles *)
Theorem C58_angles_partial kep M b Jr Jz Jphi tr tz tp p : 0 < M -> 0 <= b -> 0 < Jr -> 0 <= Jz -> Jphi <> 0 -> kepler_solver kep ->
  0 <= tr < 2 * PI -> 0 <= tz < 2 * PI -> 0 <= tp < 2 * PI -> (Jz = 0 -> tz = 0) ->
  mapIsochrone kep M b Jr Jz Jphi tr tz tp = Some p -> e_angles (evalIsochrone M b p) = (Some tr, Some tz, Some tp).
Proof.
  intros HM Hb HJr HJz N K A B C D E. pose proof (Lp Jz Jphi HJz N) as HL. exact (map_angles M b Jr Jz Jphi HM Hb (Rlt_le _ _ HJr) HJz HL HJr kep tr tz tp p N K A B C D E).
Qed.
(** mapping of the evaluated actions and angles returns the point; angles are reduced to a single turn *)
Theorem C58_inverse_partial kep M b Rc z phi vR vz vphi : 0 < M -> 0 <= b -> 0 < Rc -> vphi <> 0 -> kepler_solver kep ->
  let pt : posvel := ((Rc, z, phi), (vR, vz, vphi)) in let X := toPosVel_YC pt in let res := evalIsochrone M b pt in
  iso_energy M b (fst X) (snd X) < 0 -> fst (fst (e_angles res)) <> None ->
  exists Jr tr tz tp phi', e_Jr res = Some Jr /\ e_angles res = (Some tr, Some tz, Some tp) /\ 0 <= tr < 2 * PI /\ 0 <= tz < 2 * PI /\ 0 <= tp < 2 * PI /\
    mapIsochrone kep M b Jr (e_Jz res) (e_Jphi res) tr tz tp = Some ((Rc, z, phi'), (vR, vz, vphi)) /\ same_angle phi' phi.
Proof.
  intros HM Hb HR HV K pt X res HE NN. assert (HP : 0 < Rc * Rc + z * z) by nra. unfold res. apply (point_back M b Rc z phi vR vz vphi HM Hb HP HE HR HV kep K).
  fold pt res. destruct (e_angles res) as [[a1 a2] a3]. exact NN.
Qed.
(** the angles are missing only for circular orbits: vr=0 and the energy is that of Jr=0 *)
Theorem C58_angles_defined M b Rc z phi vR vz vphi : 0 < M -> 0 <= b -> 0 < Rc -> vphi <> 0 ->
  let pt : posvel := ((Rc, z, phi), (vR, vz, vphi)) in let X := toPosVel_YC pt in let res := evalIsochrone M b pt in
  iso_energy M b (fst X) (snd X) < 0 -> e_Jr res <> Some 0 -> fst (fst (e_angles res)) <> None.
Proof.
  intros HM Hb HR HV pt X res HE NJ. assert (HP : 0 < Rc * Rc + z * z) by nra. pose proof (p_r Rc z HP) as RP. cbv zeta in RP.
  pose proof (p_E M b Rc z phi vR vz vphi HP) as PE. cbv zeta in PE. fold pt in PE. fold X in PE. rewrite <- PE in HE.
  set (r := sqrt (pow_2 Rc + pow_2 z)) in *. set (vr := vR * (Rc * (1 / r)) + vz * (z * (1 / r))) in *. set (vth := vR * (z * (1 / r)) - vz * (Rc * (1 / r))) in *.
  pose proof (s_eval M b HM Hb Rc z phi vR vz vphi r vr vth RP eq_refl eq_refl eq_refl HE) as EV. pose proof (s_angles M b HM Hb Rc z phi vR vz vphi r vr vth RP eq_refl eq_refl eq_refl HE) as AV. pose proof (s_ek M b HM Hb Rc z vR vz vphi r vr vth RP eq_refl eq_refl eq_refl HE) as EK.
  pose proof (s_Lz Rc z vR vz vphi r vth RP eq_refl eq_refl) as LZL. pose proof (s_Jr M b HM Hb Rc z vR vz vphi r vr vth RP eq_refl eq_refl eq_refl HE) as JN. pose proof (s_J0 M b HM vphi r vr vth HE) as PJ. cbv zeta in EV. fold pt in EV, AV. fold res in EV. rewrite EV in NJ |- *. cbn [e_Jr e_angles] in NJ |- *.
  set (L := sqrt (pow_2 vth + pow_2 vphi) * r) in *. set (EE := - M / (b + sqrt (b * b + pow_2 r)) + 0.5 * (pow_2 vr + pow_2 vth + pow_2 vphi)) in *. set (J0 := M / sqrt (-2 * EE)) in *. set (L1 := sqrt (L * L + 4 * M * b)) in *. set (Jr := J0 - 0.5 * (L + L1)) in *.
  assert (NZ : Rc * vphi <> 0) by (apply Rmult_integral_contrapositive_currified; lra). assert (HLp : 0 < L) by (pose proof (Rabs_pos_lt _ NZ); lra). 
  assert (JP : 0 < Jr) by (destruct JN as [JN|JN]; [exact JN|exfalso; apply NJ; rewrite <- JN; reflexivity]).
  pose proof (e_pos M b Jr L HM Hb (Rlt_le _ _ JP) HLp JP) as EP. specialize (EK HLp). 
  assert (HK : r * vr * (r * vr) + (J0 - M * sqrt (b * b + pow_2 r) / J0) * (J0 - M * sqrt (b * b + pow_2 r) / J0) <> 0). { rewrite <- EK. assert (0 < ce M b Jr L * J0) by (apply Rmult_lt_0_compat; assumption). nra. }
  destruct (AV HLp HK) as (eta & tz & _ & _ & _ & _ & _ & AE). fold J0 in AE. rewrite AE. discriminate.
Qed.

(** adding whole turns to thetaz and thetaphi does not change the position and the velocity *)
Theorem C58_periodic_partial kep M b Jr Jz Jphi tr tz tp tz' tp' : 0 < M -> 0 <= b -> 0 <= Jr -> 0 <= Jz -> Jphi <> 0 -> kepler_solver kep -> 0 <= tr < 2 * PI ->
  same_angle tz' tz -> same_angle tp' tp ->
  exists p p', mapIsochrone kep M b Jr Jz Jphi tr tz tp = Some p /\ mapIsochrone kep M b Jr Jz Jphi tr tz' tp' = Some p' /\ toPosVel_YC p' = toPosVel_YC p.
Proof.
  intros HM Hb HJr HJz N K TR SZ SP. destruct (map_cart M b Jr Jz Jphi HM Hb HJr HJz N kep tr tz tp K TR) as (p & Hp & A). destruct (map_cart M b Jr Jz Jphi HM Hb HJr HJz N kep tr tz' tp' K TR) as (p' & Hp' & A').
  exists p, p'. split; [exact Hp|]. split; [exact Hp'|]. set (eta := kep (ce M b Jr (Jz + Rabs Jphi)) tr) in *. rewrite (A eta (tp - sign Jphi * tz) (tz + phase M b Jr Jz Jphi eta) eq_refl eq_refl (same_refl _) (same_refl _)). apply A'; try reflexivity.
  - apply same_sym. unfold Rminus. apply same_plus; [exact SP|]. apply same_opp, same_sign; [apply sgn2; exact N|exact SZ].
  - apply same_sym. apply same_plus; [exact SZ|apply same_refl].
Qed.
(** but adding a turn to thetar does: the code uses thetar itself in the orbital phase although the solution of Kepler's equation is reduced to a single turn *)
Theorem C58_periodic_thetar_refuted : exists M b Jr Jz Jphi, 0 < M /\ 0 < b /\ 0 < Jr /\ 0 < Jz /\ 0 < Jphi /\ forall kep, kepler_solver kep ->
  exists R1 z1 phi1 v1 R2 z2 phi2 v2, mapIsochrone kep M b Jr Jz Jphi 0 0 0 = Some ((R1, z1, phi1), v1) /\ mapIsochrone kep M b Jr Jz Jphi (2 * PI) 0 0 = Some ((R2, z2, phi2), v2) /\ z1 <> z2.
Proof.
  exists 1, (3 / 4), 1, (1 / 2), (1 / 2). repeat split; try lra. intros kep K. pose proof PI_RGT_0 as PP.
  assert (HA : Rabs (1 / 2) = 1 / 2) by (apply Rabs_right; lra).
  assert (HL : 0 < 1 / 2 + Rabs (1 / 2)) by (rewrite HA; lra). assert (EL : 1 / 2 + Rabs (1 / 2) = 1) by (rewrite HA; lra).
  assert (HM : 0 < 1) by lra. assert (Hb : 0 <= 3 / 4) by lra. assert (HJ : 0 <= 1) by lra. assert (HJz : 0 <= 1 / 2) by lra. assert (N : 1 / 2 <> 0) by lra.
  pose proof (He 1 (3 / 4) 1 (1 / 2) (1 / 2) HM Hb HJ HL) as EB.
  pose proof (map_form 1 (3 / 4) 1 (1 / 2) (1 / 2) HM Hb HJ HJz HL kep 0 0 0) as A. pose proof (map_form 1 (3 / 4) 1 (1 / 2) (1 / 2) HM Hb HJ HJz HL kep (2 * PI) 0 0) as B. cbv zeta in A, B. pose proof HL as HL'. rewrite EL in A, B, EB.
  set (e := ce 1 (3 / 4) 1 1) in *.
  assert (K0 : kep e 0 = 0). { destruct (kep_main kep e 0 K EB ltac:(lra)) as (_ & E). apply (kF_inj e EB). rewrite E, sin_0. ring. }
  assert (K1 : kep e (2 * PI) = 0). { destruct (K e (2 * PI) EB) as (R & k & E). pose proof (kep_range e _ EB R) as KR. rewrite E in KR. replace (2 * PI - 2 * PI * IZR k) with (0 - 2 * PI * IZR (k - 1)) in KR, E by (rewrite minus_IZR; ring). rewrite (turn_int 0 (k - 1) ltac:(lra) KR) in E. apply (kF_inj e EB). rewrite E, sin_0. ring. }
  rewrite K0 in A. rewrite K1 in B.
  assert (PSI : forall tr, o_psi 1 (3 / 4) 1 (1 / 2) (1 / 2) 0 0 tr = - (3 / 4) * tr).
  { intros tr. unfold o_psi. rewrite EL. assert (L1 : cL1 1 (3 / 4) 1 = 2) by (unfold cL1; apply sqrt_eq; lra). rewrite L1. unfold tanhalf. rewrite cos_0, sin_0. rewrite Req_b_f by lra. cbn [atanMul]. replace (0 / (1 + 1)) with 0 by field. rewrite !Rmult_0_r, atan_0. rewrite Rlt_b_f by lra. rewrite half5. field. }
  rewrite PSI in A, B. assert (S1 : sin (- (3 / 4) * 0) = 0) by (rewrite Rmult_0_r; apply sin_0). assert (S2 : sin (- (3 / 4) * (2 * PI)) = 1). { replace (- (3 / 4) * (2 * PI)) with (- (3 * (PI / 2))) by field. rewrite sin_neg, sin_3PI2. ring. }
  rewrite Req_b_f in A by (apply Rgt_not_eq, (st_pos (1 / 2) (1 / 2) HJz HL _ N)). rewrite Req_b_f in B by (apply Rgt_not_eq, (st_pos (1 / 2) (1 / 2) HJz HL _ N)). rewrite S1 in A. rewrite S2 in B.
  do 8 eexists. split; [exact A|]. split; [exact B|]. pose proof (r_pos 1 (3 / 4) 1 (1 / 2) (1 / 2) HM Hb HJ HL 0) as RP. assert (0 < sqrt (1 - 1 / 2 / 1 * (1 / 2 / 1))) by (apply sqrt_lt_R0; lra). nra.
Qed.
(** an orbit with Jphi=0 passes through the poles, but the azimuth of the mapped point remains equal to thetaphi on the other side: the evaluation returns an angle which differs by half a turn *)
Theorem C58_polar_refuted M b Jr Jz tp kep : 0 < M -> 0 <= b -> 0 < Jr -> 0 < Jz -> 0 <= tp < 2 * PI -> kepler_solver kep ->
  exists p, mapIsochrone kep M b Jr Jz 0 0 PI tp = Some p /\ snd (e_angles (evalIsochrone M b p)) = Some (wrapAngle (2 * PI) (tp - PI)) /\ wrapAngle (2 * PI) (tp - PI) <> tp.
Proof.
  intros HM Hb HJr HJz TP K. pose proof PI_RGT_0 as PP. assert (HL : 0 < Jz + Rabs 0) by (rewrite Rabs_R0; lra). pose proof (He M b Jr Jz 0 HM Hb (Rlt_le _ _ HJr) HL) as EB.
  pose proof (map_form M b Jr Jz 0 HM Hb (Rlt_le _ _ HJr) (Rlt_le _ _ HJz) HL kep 0 PI tp) as A. cbv zeta in A. set (e := ce M b Jr (Jz + Rabs 0)) in *.
  assert (K0 : kep e 0 = 0). { destruct (kep_main kep e 0 K EB ltac:(lra)) as (_ & E). apply (kF_inj e EB). rewrite E, sin_0. ring. }
  rewrite K0 in A. set (psi := o_psi M b Jr Jz 0 PI 0 0) in *. assert (PE : psi = PI). { unfold psi, o_psi, tanhalf. rewrite cos_0, sin_0. rewrite Req_b_f by lra. cbn [atanMul]. replace (0 / (1 + 1)) with 0 by field. rewrite !Rmult_0_r, atan_0. rewrite Rlt_b_f by lra. unfold Rdiv. ring. }
  assert (S : st Jz 0 psi <> 0). { rewrite PE. unfold st. rewrite sin_PI. replace (1 - sqrt (1 - 0 / (Jz + Rabs 0) * (0 / (Jz + Rabs 0))) * 0 * (sqrt (1 - 0 / (Jz + Rabs 0) * (0 / (Jz + Rabs 0))) * 0)) with 1 by ring. rewrite sqrt_1. lra. }
  rewrite (Req_b_f _ 0 S) in A. assert (SG : sign 0 = 0) by (unfold sign; rewrite !Rlt_b_f by lra; reflexivity). assert (W : wrapAngle (2 * PI) (tp + (o_chi Jz 0 psi - PI) * sign 0) = tp). { rewrite SG. apply wrap_of; [exact TP|]. exists 0%Z. ring. }
  rewrite W in A. eexists. split; [exact A|]. split.
  - apply (polar_angles M b Jr Jz 0 HM Hb (Rlt_le _ _ HJr) (Rlt_le _ _ HJz) HL HJr tp 0 psi eq_refl HJz); [rewrite PE, cos_PI; lra|exact TP|exact S].
  - intros E. destruct (wrap_same (tp - PI)) as (k & WE). rewrite E in WE. assert (X : PI * (1 + 2 * IZR k) = 0) by lra. apply Rmult_integral in X. destruct X as [X|X]; [lra|]. assert (X' : IZR (1 + 2 * k) = IZR 0) by (rewrite plus_IZR, mult_IZR; exact X). apply eq_IZR in X'. lia.
Qed.
(** the angles of a point on an exactly circular orbit are not defined (0/0), although it is bound *)
Theorem C58_circular_refuted kep M b Jz Jphi tr tz tp : 0 < M -> 0 <= b -> 0 <= Jz -> Jphi <> 0 ->
  exists p, mapIsochrone kep M b 0 Jz Jphi tr tz tp = Some p /\ exists tz', e_angles (evalIsochrone M b p) = (None, tz', None).
Proof.
  intros HM Hb HJz N. destruct (C58_map_actions kep M b 0 Jz Jphi tr tz tp HM Hb (Rle_refl 0) HJz (Lp Jz Jphi HJz N)) as (A & _). specialize (A N). destruct (mapIsochrone kep M b 0 Jz Jphi tr tz tp) as [p|] eqn:E; [|contradiction]. exists p. split; [reflexivity|]. exact (circ_angles M b Jz Jphi HM Hb HJz N kep tr tz tp p E).
Qed.
(** the frequencies of a particle with zero energy are zeros, not NaN *)
Theorem C58_zero_energy_refuted : exists pt : posvel, iso_energy 1 0 (fst (toPosVel_YC pt)) (snd (toPosVel_YC pt)) = 0 /\ exists Op, e_freq (evalIsochrone 1 0 pt) = Some (0, 0, Op).
Proof.
  assert (S2 : sqrt 2 * sqrt 2 = 2) by (apply sqrt_sqrt; lra).
  assert (HP : 0 < 1 * 1 + 0 * 0) by lra. pose proof (p_E 1 0 1 0 0 (sqrt 2) 0 0 HP) as PE. cbv zeta in PE.
  exists ((1, 0, 0), (sqrt 2, 0, 0)). destruct (pt_cart 1 0 1 0 0 (sqrt 2) 0 0) as (E & _). assert (E0 : iso_energy 1 0 (fst (toPosVel_YC ((1, 0, 0), (sqrt 2, 0, 0)))) (snd (toPosVel_YC ((1, 0, 0), (sqrt 2, 0, 0)))) = 0).
  { rewrite E. replace (0 * 0 + (1 * 1 + 0 * 0)) with 1 by ring. rewrite sqrt_1, S2. field. }
  split; [exact E0|]. rewrite E0 in PE. set (r := sqrt (pow_2 1 + pow_2 0)) in *. assert (R1 : r = 1) by (apply sqrt_eq; [lra|unfold pow_2; ring]).
  unfold evalIsochrone. assert (SP : toPosVel_YS (1, 0, 0, (sqrt 2, 0, 0)) = ((r, atan2 1 0, 0), (sqrt 2 * (1 * (1 / r)) + 0 * (0 * (1 / r)), sqrt 2 * (0 * (1 / r)) - 0 * (1 * (1 / r)), 0))) by (unfold toPosVel_YS; fold r; rewrite (Req_b_f r 0) by lra; reflexivity).
  rewrite SP. cbv iota beta zeta. rewrite PE. cbn [e_freq]. rewrite Rlt_b_f by lra. rewrite Req_b_t by reflexivity. eexists. f_equal. f_equal. f_equal. ring.
Qed.

(** the hypotheses are met *)
Example C58_solver : exists kep, kepler_solver kep. Proof. exact solver_exists. Qed.
Example C58_case_freq : mapFreq 1 (3 / 4) 1 (1 / 2) (- (1 / 2)) = Some (8 / 125, 6 / 125, - (6 / 125)).
Proof.
  unfold mapFreq. rewrite !Rlt_b_f by lra. cbn [orb]. cbv zeta. rewrite sign_abs. rewrite Rabs_left by lra. replace (1 / 2 + - - (1 / 2)) with 1 by field. assert (L1 : sqrt (1 * 1 + 4 * 1 * (3 / 4)) = 2) by (apply sqrt_eq; lra). rewrite L1. unfold sign. rewrite Rlt_b_f, Rlt_b_t by lra. unfold pow_2, pow_3. rewrite half5. f_equal. f_equal; [f_equal|]; field.
Qed.
Example C58_case_point : let X := toPosVel_YC ((1, 1, 0), (0, 0, 1)) in iso_energy 1 0 (fst X) (snd X) < 0.
Proof.
  destruct (pt_cart 1 0 1 1 0 0 0 1) as (E & _). cbv zeta. rewrite E. replace (0 * 0 + (1 * 1 + 1 * 1)) with 2 by ring. assert (S2 : sqrt 2 * sqrt 2 = 2) by (apply sqrt_sqrt; lra). assert (P : 0 < sqrt 2) by (apply sqrt_lt_R0; lra). assert (U : sqrt 2 < 2) by nra.
  assert (/ 2 < / sqrt 2) by (apply Rinv_lt_contravar; [nra|exact U]). replace (-(1) / (0 + sqrt 2)) with (- / sqrt 2) by (field; lra). lra.
Qed.
(** ... and the orbit theorem has instances: wrapped angles *)
Example C58_case_orbit : exists kep (tr tz tp : R -> R), kepler_solver kep /\ (forall t, 0 <= tr t < 2 * PI) /\ (forall t, same_angle (tr t) (1 + 8 / 125 * t)) /\ (forall t, same_angle (tz t) (2 + 6 / 125 * t)) /\ (forall t, same_angle (tp t) (3 + - (6 / 125) * t)).
Proof.
  destruct solver_exists as (kep & K). exists kep, (fun t => wrapAngle (2 * PI) (1 + 8 / 125 * t)), (fun t => wrapAngle (2 * PI) (2 + 6 / 125 * t)), (fun t => wrapAngle (2 * PI) (3 + - (6 / 125) * t)). split; [exact K|]. split; [intros t; apply wrap_range|]. repeat split; intros t; apply wrap_same.
Qed.
Print Assumptions C58_orbit.
Print Assumptions C58_inverse_partial.
Print Assumptions C58_angles_partial.
