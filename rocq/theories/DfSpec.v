(** What the distribution functions are documented to compute (df_disk.h:44-90, 117-140, df_halo.h:37-60). *)
From Coq Require Import Reals Lra Bool.
From Coquelicot Require Import Coquelicot.
From Verif Require Import CoordModel CoordSpec DiskModel DfModel.
Local Open Scope R_scope.

(** q-exponential  exp_q(-a,-q) = (1 + q a)^(-1/q),  the ordinary exponential for q=0 *)
Definition qE (q a : R) : R := if Req_EM_T q 0 then exp (- a) else Rpower (1 + q * a) (- (1 / q)).
(** values of q outside the interval (0,1e-7], where the code switches to a truncated series *)
Definition qok (q : R) : Prop := q = 0 \/ 0.0000001 < q < 1.

(** physical values of actions *)
Definition physical (J : actions) : Prop := let '(Jr, Jz, Jphi) := J in 0 <= Jr /\ 0 <= Jz.

(** ** Exponential *)
Definition expValid (P : expPar) : Prop :=
  0 < eNorm P /\ 0 < eJr0 P /\ 0 < eJz0 P /\ 0 < eJphi0 P /\ 0 <= eAddJden P /\ 0 <= eAddJvel P /\ 0 <= eCoefJr P /\ 0 <= eCoefJz P /\
  0 <= eQJr P < 1 /\ 0 <= eQJz P < 1 /\ 0 <= eQJphi P < 1.
(** F(Jsum) f_r f_z f_phi; in f_r the counterrotating part of Jphi is added to Jr (for an ordinary exponential this is the
    separate factor f_phi of the documentation with the coefficient 1 in place of 2/k_r) *)
Definition expDF (P : expPar) (J : actions) : R :=
  let '(Jr, Jz, Jphi) := J in
  let Jsum := Rabs Jphi + eCoefJr P * Jr + eCoefJz P * Jz in
  let Jden := sqrt (Jsum ^ 2 + eAddJden P ^ 2) in
  let Jvel := sqrt (Jsum ^ 2 + eAddJvel P ^ 2) in
  (eNorm P / (2 * PI) ^ 3 * Jden / eJphi0 P ^ 2 * qE (eQJphi P) (Jden / eJphi0 P)) *
  (Jvel / eJr0 P ^ 2 * qE (eQJr P) ((Jr + Rmax 0 (- Jphi)) * Jvel / eJr0 P ^ 2)) *
  (Jvel / eJz0 P ^ 2 * qE (eQJz P) (Jz * Jvel / eJz0 P ^ 2)).

(** ** QuasiIsothermal *)
Definition qiValid (P : qiPar) : Prop :=
  0 < qSigma0 P /\ 0 < qRdisk P /\ 0 < qSigmar0 P /\ 0 < qRsigmar P /\
  ((0 < qHdisk P /\ 0 <= qSigmaz0 P /\ 0 <= qRsigmaz P /\ (qSigmaz0 P = 0 \/ qRsigmaz P = 0)) \/ (qHdisk P = 0 /\ 0 < qSigmaz0 P /\ 0 < qRsigmaz P)) /\
  0 <= qCoefJr P /\ 0 <= qCoefJz P /\ 0 <= qQJr P < 1 /\ 0 <= qQJz P < 1 /\ 0 <= qQJphi P < 1.
(** the interpolator: positive frequencies, and derivatives that are true derivatives *)
Definition freqsOk (fr : freqs) : Prop :=
  (forall L, 0 < L -> 0 < fst (Rcirc fr L) /\ is_derive (fun x => fst (Rcirc fr x)) L (snd (Rcirc fr L))) /\
  (forall r, 0 < r -> 0 < fst (fKappa fr r) /\ 0 < fst (fNu fr r) /\ 0 < fst (fOmega fr r) /\
     is_derive (fun x => fst (fKappa fr x)) r (snd (fKappa fr r)) /\ is_derive (fun x => fst (fNu fr x)) r (snd (fNu fr r)) /\ is_derive (fun x => fst (fOmega fr x)) r (snd (fOmega fr r))).
(** f = Sigma nu Omega / (2 pi^2 kappa sigma_r^2 sigma_z^2) exp_q(-R/Rdisk) exp_q(-(kappa Jr + 2 Omega max(0,-Jphi))/sigma_r^2) exp_q(-nu Jz/sigma_z^2) *)
Definition qiDF (P : qiPar) (fr : freqs) (J : actions) : R :=
  let '(Jr, Jz, Jphi) := J in
  let Jsum := Rabs Jphi + qCoefJr P * Jr + qCoefJz P * Jz in
  let Rc := fst (Rcirc fr (sqrt (Jsum ^ 2 + qJmin P ^ 2))) in
  let kappa := fst (fKappa fr Rc) in let nu := fst (fNu fr Rc) in let Omega := fst (fOmega fr Rc) in
  let sr2 := qSigmar0 P ^ 2 * exp (- 2 * Rc / qRsigmar P) + qSigmamin P ^ 2 in
  let sz2 := (if Rlt_dec 0 (qHdisk P) then 2 * qHdisk P ^ 2 * nu ^ 2 else qSigmaz0 P ^ 2 * exp (- 2 * Rc / qRsigmaz P)) + qSigmamin P ^ 2 in
  qSigma0 P * nu * Omega / (2 * PI ^ 2 * kappa * sr2 * sz2) *
  ((1 - qQJphi P) * qE (qQJphi P) (Rc / qRdisk P)) *
  ((1 - qQJr P) * qE (qQJr P) ((kappa * Jr + 2 * Omega * Rmax 0 (- Jphi)) / sr2)) *
  ((1 - qQJz P) * qE (qQJz P) (nu * Jz / sz2)).

(** ** DoublePowerLaw *)
Definition dplValid (P : dplPar) : Prop :=
  0 < dNorm P /\ 0 < dJ0 P /\ 0 <= dJcore P /\ 0 <= dJcutoff P /\ (3 < dSlopeOut P \/ 0 < dJcutoff P) /\ dSlopeIn P < 3 /\ 0 < dSteep P /\ 0 < dCutStr P /\
  0 < dCoefJrIn P /\ 0 < dCoefJzIn P /\ dCoefJrIn P + dCoefJzIn P < 3 /\ 0 < dCoefJrOut P /\ 0 < dCoefJzOut P /\ dCoefJrOut P + dCoefJzOut P < 3 /\
  Rabs (dRotFrac P) <= 1.
Definition hOf (P : dplPar) (J : actions) : R := let '(Jr, Jz, Jphi) := J in dCoefJrIn P * Jr + dCoefJzIn P * Jz + (3 - dCoefJrIn P - dCoefJzIn P) * Rabs Jphi.
Definition gOf (P : dplPar) (J : actions) : R := let '(Jr, Jz, Jphi) := J in dCoefJrOut P * Jr + dCoefJzOut P * Jz + (3 - dCoefJrOut P - dCoefJzOut P) * Rabs Jphi.
(** the part of the distribution function that is even in Jphi *)
Definition dplEven (P : dplPar) (beta : R) (J : actions) : R :=
  let h := hOf P J in let g := gOf P J in
  dNorm P / (2 * PI * dJ0 P) ^ 3 * Rpower (1 + Rpower (dJ0 P / h) (dSteep P)) (dSlopeIn P / dSteep P) * Rpower (1 + Rpower (g / dJ0 P) (dSteep P)) (- dSlopeOut P / dSteep P) *
  (if Rlt_dec 0 (dJcutoff P) then exp (- Rpower (g / dJcutoff P) (dCutStr P)) else 1) *
  (if Rlt_dec 0 (dJcore P) then Rpower ((dJcore P / h) ^ 2 - beta * (dJcore P / h) + 1) (- dSlopeIn P / 2) else 1).
(** tanh(Jphi/Jphi0): the sign of Jphi for Jphi0=0, zero for an infinite Jphi0 *)
Definition rotS (Jphi0 : num) (Jphi : R) : R :=
  match Jphi0 with Fin a => if Req_EM_T a 0 then sign Jphi else tanh (Jphi / a) | _ => 0 end.
Definition dplDF (P : dplPar) (beta : R) (J : actions) : R := dplEven P beta J * (1 + dRotFrac P * rotS (dJphi0 P) (v3 J)).
(** rotation is well defined: not(Jphi=0 and Jphi0=0) unless the rotating fraction is zero, Jphi0 is not NaN or minus infinity *)
Definition rotOk (P : dplPar) (Jphi : R) : Prop :=
  match dJphi0 P with Fin a => a <> 0 \/ Jphi <> 0 \/ dRotFrac P = 0 | Inf s => s = true | NaN => False end.
Definition nval (x : num) : R := match x with Fin a => a | _ => 0 end.
