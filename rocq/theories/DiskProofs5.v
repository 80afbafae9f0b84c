(** Disk models: the combined model and the total mass *)
From Coq Require Import Reals Lra Psatz Lia Bool ZArith List.
From Coquelicot Require Import Coquelicot.
From Verif Require Import RandReal RandRealProofs PolyModel PolyProofs CoordModel CoordSpec OrientModel OrientSpec PotModel PotSpec RootProofs AnalyticSpec DiskModel DiskSpec DiskProofs DiskProofs2 DiskProofs3 DiskProofs4.
Import ListNotations.
Local Open Scope R_scope.

Lemma zterm z a b f1 d : (if negb (Req_b z 0) then (Fin 2 * Fin f1 * (Fin a + Fin z * Fin b) * Fin (1 / d))%num else Fin 0) = Fin (if Req_EM_T z 0 then 0 else 2 * f1 * (a + z * b) * (1 / d)).
Proof. destruct (Req_EM_T z 0) as [E|E]; [rewrite (Req_b_t _ _ E)|rewrite (Req_b_f _ _ E)]; reflexivity. Qed.
Section Cmp.
Variables (rad vert : fnc) (r z phi a a' b c f f1 f2 tol : R).
Let d := sqrt (r * r + z * z).
Hypothesis D0 : 0 < r * r + z * z.
Hypothesis Erad : rad d = (Fin f, Fin f1, Fin f2).
Hypothesis Evert : vert z = (Fin a, Fin b, Fin c).
Hypothesis Tol : Rabs (a - a') <= tol.
Let vert' : fnc := fun z => (Fin a', Fin b, Fin c).
Lemma cmp_d : 0 < d. Proof. apply sqrt_lt_R0, D0. Qed.
Lemma cmp_tol : 0 <= tol. Proof. pose proof (Rabs_pos (a - a')). lra. Qed.
Lemma cmp_R : Rabs (r / d) <= 1 /\ Rabs (z / d) <= 1.
Proof.
  pose proof cmp_d as K. assert (E : d * d = r * r + z * z) by (apply sqrt_sqrt; lra).
  assert (G : forall x y, x * x + y * y = d * d -> Rabs (x / d) <= 1).
  { intros x y Q. unfold Rdiv. rewrite Rabs_mult, (Rabs_right (/ d)) by (left; apply Rinv_0_lt_compat, K). apply (Rmult_le_reg_r d); [exact K|]. rewrite Rmult_assoc, Rinv_l, Rmult_1_r, Rmult_1_l by lra.
    unfold Rabs; destruct (Rcase_abs x); nra. }
  split; [apply (G r z)|apply (G z r)]; lra.
Qed.
Lemma bnd x y w : x = (a - a') * y -> Rabs y <= w -> Rabs x <= w * tol.
Proof. intros -> B. rewrite Rabs_mult, Rmult_comm. apply Rmult_le_compat; [apply Rabs_pos..|exact B|exact Tol]. Qed.
Lemma prod_le (x y k : R) : Rabs x <= 1 -> Rabs y <= 1 -> Rabs (k * (x * y)) <= Rabs k.
Proof. intros A B. rewrite Rabs_mult, <- (Rmult_1_r (Rabs k)) at 1. rewrite Rabs_mult. pose proof (Rabs_pos k). pose proof (Rabs_pos x). pose proof (Rabs_pos y). assert (Rabs x * Rabs y <= 1) by nra. nra. Qed.
Lemma cmp_eval : exists A B1 B2 C1 C2 C3 A' B1' B2' C1' C2' C3',
  ansatzEval rad vert (r, z, phi) = (Fin A, (Fin B1, Fin B2), (Fin C1, Fin C2, Fin C3)) /\ ansatzEval rad vert' (r, z, phi) = (Fin A', (Fin B1', Fin B2'), (Fin C1', Fin C2', Fin C3')) /\
  Rabs (A - A') <= 4 * PI * Rabs f * tol /\ Rabs (B1 - B1') <= 4 * PI * Rabs f1 * tol /\ Rabs (B2 - B2') <= 4 * PI * Rabs f1 * tol /\
  Rabs (C1 - C1') <= 4 * PI * (Rabs f2 + Rabs f1 / d) * tol /\ Rabs (C2 - C2') <= 4 * PI * (Rabs f2 + Rabs f1 / d) * tol /\ Rabs (C3 - C3') <= 4 * PI * (Rabs f2 + Rabs f1 / d) * tol.
Proof.
  pose proof cmp_d as K. pose proof PI_RGT_0 as HP. destruct cmp_R as (R1 & R2).
  unfold ansatzEval, pow_2. fold d. rewrite Erad, Evert. unfold vert'. rewrite (Rlt_b_t _ _ K).
  assert (EZ : forall q, (if is_zero (nmul (Fin f) (Fin (4 * PI))) then Fin 0 else nmul (nmul (Fin f) (Fin (4 * PI))) (Fin q)) = Fin (4 * PI * f * q)).
  { intros q. cbn [nmul is_zero]. destruct (Req_EM_T (f * (4 * PI)) 0) as [E|E]; [rewrite (Req_b_t _ _ E)|rewrite (Req_b_f _ _ E)]; f_equal; [|ring]. replace (4 * PI * f * q) with (f * (4 * PI) * q) by ring. rewrite E. ring. }
  cbv zeta. rewrite !EZ. cbn [nmul nadd nsub nopp].
  do 12 eexists. split; [reflexivity|]. split; [reflexivity|].
  assert (ABS : forall x, Rabs (4 * PI * x) = 4 * PI * Rabs x) by (intros x; rewrite Rabs_mult, (Rabs_right (4 * PI)) by lra; reflexivity).
  assert (ID : Rabs (f1 / d) = Rabs f1 / d) by (apply abs_div, K).
  assert (ONE : Rabs 1 <= 1) by (rewrite Rabs_R1; lra).
  assert (SUM : forall x y u v, Rabs x <= 1 -> Rabs y <= 1 -> Rabs u <= 1 -> Rabs v <= 1 -> Rabs (4 * PI * (f2 * (x * y) + f1 / d * (u * v))) <= 4 * PI * (Rabs f2 + Rabs f1 / d)).
  { intros. rewrite ABS. apply Rmult_le_compat_l; [lra|]. eapply Rle_trans; [apply Rabs_triang|]. rewrite <- ID. apply Rplus_le_compat; apply prod_le; assumption. }
  assert (SUBM : forall x y u v, Rabs x <= 1 -> Rabs y <= 1 -> Rabs u <= 1 -> Rabs v <= 1 -> Rabs (4 * PI * (f2 * (x * y) - f1 / d * (u * v))) <= 4 * PI * (Rabs f2 + Rabs f1 / d)).
  { intros. rewrite ABS. apply Rmult_le_compat_l; [lra|]. unfold Rminus. eapply Rle_trans; [apply Rabs_triang|]. rewrite Rabs_Ropp, <- ID. apply Rplus_le_compat; apply prod_le; assumption. }
  repeat split.
  - apply (bnd _ (4 * PI * f)); [ring|]. rewrite ABS. lra.
  - apply (bnd _ (4 * PI * (f1 * (r / d * 1)))); [unfold Rdiv; ring|]. rewrite ABS. apply Rmult_le_compat_l; [lra|]. apply prod_le; assumption.
  - apply (bnd _ (4 * PI * (f1 * (z / d * 1)))); [unfold Rdiv; ring|]. rewrite ABS. apply Rmult_le_compat_l; [lra|]. apply prod_le; assumption.
  - apply (bnd _ (4 * PI * (f2 * (r / d * (r / d)) + f1 / d * (z / d * (z / d))))); [unfold Rdiv; ring|]. apply SUM; assumption.
  - apply (bnd _ (4 * PI * (f2 * (z / d * (z / d)) + f1 / d * (r / d * (r / d))))); [unfold Rdiv; ring|]. apply SUM; assumption.
  - apply (bnd _ (4 * PI * (f2 * (r / d * (z / d)) - f1 / d * (r / d * (z / d))))); [unfold Rdiv; ring|]. apply SUBM; assumption.
Qed.
Lemma cmp_dens : exists A A', ansatzDensity rad vert (r, z, phi) = Fin A /\ ansatzDensity rad vert' (r, z, phi) = Fin A' /\ Rabs (A - A') <= (Rabs f2 + 2 * Rabs f1 / d) * tol.
Proof.
  pose proof cmp_d as K. unfold ansatzDensity, pow_2. fold d. rewrite Erad, Evert. unfold vert', ninv. rewrite (Req_b_f d 0) by lra. rewrite !zterm. cbn [nmul nadd].
  do 2 eexists. split; [reflexivity|]. split; [reflexivity|].
  assert (ID : Rabs (f1 / d) = Rabs f1 / d) by (apply abs_div, K). assert (0 <= Rabs f1 / d) by (rewrite <- ID; apply Rabs_pos).
  destruct (Req_EM_T z 0) as [E|E].
  - apply (bnd _ f2); [ring|]. replace (2 * Rabs f1 / d) with (2 * (Rabs f1 / d)) by (unfold Rdiv; ring). lra.
  - apply (bnd _ (f2 + 2 * (f1 / d))); [unfold Rdiv; ring|]. eapply Rle_trans; [apply Rabs_triang|]. apply Rplus_le_compat_l. rewrite Rabs_mult, ID, (Rabs_right 2) by lra. right. unfold Rdiv; ring.
Qed.
End Cmp.

Definition allR : R -> Prop := fun _ => True.
Lemma loc_all z : allR z -> locally z allR. Proof. intros _. apply filter_forall. intros; exact Logic.I. Qed.
Section Disk.
Variables (P : diskParam) (g : fnc).
Let h := scaleHeight P.
Hypothesis E : createRadial P = Some g.
Hypothesis N : h <> 0.
Let V : valid P. Proof. apply createRadial_valid. exists g. exact E. Qed.
Let vex : fnc := fun z => (Fin (Hs h z), Fin (Hp h z), Fin (vprofile h z)).
Let DR : forall r, 0 < r -> is_derive (Sigma P) r (Sig1 P r) /\ is_derive (Sig1 P) r (Sig2 P r).
Proof. intros r K. split; [apply sigma_derive; [exact V|exact K]|apply sig1_derive; [exact V|exact K]]. Qed.
Let DV : forall z, allR z -> is_derive (Hs h) z (Hp h z) /\ is_derive (Hp h) z (vprofile h z).
Proof. intros z _. split; [apply Hs_d, N|apply Hp_d, N]. Qed.
Lemma disk_eval r z phi : 0 < r * r + z * z -> let d := sqrt (r * r + z * z) in
  exists A B1 B2 C1 C2 C3 gR gz hRR hzz hRz,
    ansatzEval g (createVertical P) (r, z, phi) = (Fin A, (Fin B1, Fin B2), (Fin C1, Fin C2, Fin C3)) /\
    is_hess (fun q => Ansatz (Sigma P) (Hs h) (cart Cyl q)) (r, z, phi) (gR, gz, 0) (mkH hRR hzz 0 hRz 0 0) /\
    Rabs (A - Ansatz (Sigma P) (Hs h) (cart Cyl (r, z, phi))) <= 4 * PI * Rabs (Sigma P d) * vtol h z /\
    Rabs (B1 - gR) <= 4 * PI * Rabs (Sig1 P d) * vtol h z /\ Rabs (B2 - gz) <= 4 * PI * Rabs (Sig1 P d) * vtol h z /\
    Rabs (C1 - hRR) <= 4 * PI * (Rabs (Sig2 P d) + Rabs (Sig1 P d) / d) * vtol h z /\ Rabs (C2 - hzz) <= 4 * PI * (Rabs (Sig2 P d) + Rabs (Sig1 P d) / d) * vtol h z /\
    Rabs (C3 - hRz) <= 4 * PI * (Rabs (Sig2 P d) + Rabs (Sig1 P d) / d) * vtol h z.
Proof.
  intros K d. assert (D0 : 0 < d) by (apply sqrt_lt_R0, K). destruct (vert_eval P z N) as (Hc & EV & TOL). fold h in EV, TOL.
  destruct (an_eval (Sigma P) (Sig1 P) (Sig2 P) (Hs h) (Hp h) (vprofile h) allR loc_all DR DV g vex (createRadial_eval P g E) (fun z _ => eq_refl) r z phi K Logic.I) as (gR & gz & hRR & hzz & hRz & Q1 & Q2).
  destruct (cmp_eval g (createVertical P) r z phi Hc (Hs h z) (Hp h z) (vprofile h z) (Sigma P d) (Sig1 P d) (Sig2 P d) (vtol h z) K (createRadial_eval P g E d D0) EV TOL) as (A & B1 & B2 & C1 & C2 & C3 & A' & B1' & B2' & C1' & C2' & C3' & X1 & X2 & X3).
  exists A, B1, B2, C1, C2, C3, gR, gz, hRR, hzz, hRz. split; [exact X1|]. split; [exact Q2|].
  assert (X4 : ansatzEval g (fun _ : R => (Fin (Hs h z), Fin (Hp h z), Fin (vprofile h z))) (r, z, phi) = ansatzEval g vex (r, z, phi)) by reflexivity. rewrite X4, Q1 in X2. injection X2 as <- <- <- <- <- <-. exact X3.
Qed.
Lemma disk_dens r z phi : 0 < r * r + z * z -> let d := sqrt (r * r + z * z) in
  exists A (rho : vec3 -> R), ansatzDensity g (createVertical P) (r, z, phi) = Fin A /\ poisson (Ansatz (Sigma P) (Hs h)) rho (cart Cyl (r, z, phi)) /\
    Rabs (A - rho (cart Cyl (r, z, phi))) <= (Rabs (Sig2 P d) + 2 * Rabs (Sig1 P d) / d) * vtol h z.
Proof.
  intros K d. assert (D0 : 0 < d) by (apply sqrt_lt_R0, K). destruct (vert_eval P z N) as (Hc & EV & TOL). fold h in EV, TOL.
  assert (Z0 : z = 0 -> Hs h z = 0) by (intros ->; apply Hs_0, N).
  destruct (an_poisson (Sigma P) (Sig1 P) (Sig2 P) (Hs h) (Hp h) (vprofile h) allR loc_all DR DV g vex (createRadial_eval P g E) (fun z _ => eq_refl) r z phi K Logic.I Z0) as (rho & Q1 & Q2).
  destruct (cmp_dens g (createVertical P) r z phi Hc (Hs h z) (Hp h z) (vprofile h z) (Sigma P d) (Sig1 P d) (Sig2 P d) (vtol h z) K (createRadial_eval P g E d D0) EV TOL) as (A & A' & X1 & X2 & X3).
  exists A, rho. split; [exact X1|]. split; [exact Q1|].
  assert (X4 : ansatzDensity g (fun _ : R => (Fin (Hs h z), Fin (Hp h z), Fin (vprofile h z))) (r, z, phi) = ansatzDensity g vex (r, z, phi)) by reflexivity. rewrite X4, Q2 in X2. injection X2 as <-. exact X3.
Qed.
Lemma disk_density r z phi : 0 < r -> diskDensity g (createVertical P) (r, z, phi) = Fin (Sigma P r * vprofile h z).
Proof. intros K. destruct (vert_eval P z N) as (Hc & EV & _). fold h in EV. unfold diskDensity. rewrite EV, (createRadial_eval P g E r K). reflexivity. Qed.
End Disk.
