(** Model of src/df_disk.cpp, src/df_halo.cpp (action-based distribution functions) and math::qexp. Exact real arithmetic;
    infinity and NaN (type num of DiskModel) where zero actions produce them in DoublePowerLaw. *)
From Coq Require Import Reals Lra Bool ZArith.
From Verif Require Import RandReal PolyModel CoordModel DiskModel.
Local Open Scope R_scope.

(** actions::Actions: (Jr, Jz, Jphi) *)
Definition actions := vec3.

(** math::qexp, math_specfunc.cpp:341-346 *)
Definition qexp (x q : R) : R :=
  if Rlt_b 0.0000001 (Rabs q) then mpow (1 + q * x) (1 / q)
  else exp x * (if negb (Req_b q 0) then 1 + q * x * x * (-0.5 + q * x * (1 / 3 + 1 / 8 * x)) else 1).

(** ExponentialParam, df_disk.h:98-115 *)
Record expPar := mkExp { eNorm : R; eJr0 : R; eJz0 : R; eJphi0 : R; eAddJden : R; eAddJvel : R; eCoefJr : R; eCoefJz : R; eQJr : R; eQJz : R; eQJphi : R }.
(** Exponential::Exponential, df_disk.cpp:90-103; false: std::invalid_argument *)
Definition expConstruct (P : expPar) : bool :=
  Rlt_b 0 (eNorm P) && (Rlt_b 0 (eJr0 P) && Rlt_b 0 (eJz0 P) && Rlt_b 0 (eJphi0 P)) && (Rle_b 0 (eAddJden P) && Rle_b 0 (eAddJvel P)) &&
  (Rle_b 0 (eCoefJr P) && Rle_b 0 (eCoefJz P)) &&
  (Rle_b 0 (eQJr P) && Rlt_b (eQJr P) 1 && Rle_b 0 (eQJz P) && Rlt_b (eQJz P) 1 && Rle_b 0 (eQJphi P) && Rlt_b (eQJphi P) 1).
(** Exponential::evalDeriv, df_disk.cpp:105-135: (value, (dbyJr, dbyJz, dbyJphi)); divisions by Jden=0 or Jvel=0 (NaN in C++) are not modelled *)
Definition expEval (P : expPar) (J : actions) : R * vec3 :=
  let '(Jr, Jz, Jphi) := J in
  let coefJphi := if Rle_b 0 Jphi then 1 else -1 in
  let Jsum := coefJphi * Jphi + eCoefJr P * Jr + eCoefJz P * Jz in
  let Jden := sqrt (pow_2 Jsum + pow_2 (eAddJden P)) in
  let Jvel := sqrt (pow_2 Jsum + pow_2 (eAddJvel P)) in
  let negJphi := if Rle_b 0 Jphi then 0 else Jphi in
  let argJphi := Jden / eJphi0 P in
  let argJr := Jvel * (Jr - negJphi) / pow_2 (eJr0 P) in
  let argJz := Jvel * Jz / pow_2 (eJz0 P) in
  let value := 1 / (8 * PI * PI * PI) * eNorm P / pow_2 (eJr0 P * eJz0 P * eJphi0 P) * Jvel * Jvel * Jden *
    qexp (- argJphi) (- eQJphi P) * qexp (- argJr) (- eQJr P) * qexp (- argJz) (- eQJz P) in
  let common := Jsum * ((1 - argJphi / (1 + eQJphi P * argJphi)) / pow_2 Jden +
    (1 - argJr / (1 + eQJr P * argJr) + 1 - argJz / (1 + eQJz P * argJz)) / pow_2 Jvel) in
  (value,
   (value * (common * eCoefJr P - Jvel / pow_2 (eJr0 P) / (1 + eQJr P * argJr)),
    value * (common * eCoefJz P - Jvel / pow_2 (eJz0 P) / (1 + eQJz P * argJz)),
    value * (common * coefJphi) + (if negb (Req_b negJphi 0) then value * Jvel / pow_2 (eJr0 P) / (1 + eQJr P * argJr) else 0))).

(** potential::Interpolator, as used by QuasiIsothermal: radius of a circular orbit as a function of angular momentum, and epicyclic
    frequencies as functions of radius, each with its derivative *)
Record freqs := mkFreq { Rcirc : R -> R * R; fKappa : R -> R * R; fNu : R -> R * R; fOmega : R -> R * R }.
(** QuasiIsothermalParam, df_disk.h:16-40 *)
Record qiPar := mkQI { qSigma0 : R; qRdisk : R; qHdisk : R; qSigmar0 : R; qSigmaz0 : R; qSigmamin : R; qRsigmar : R; qRsigmaz : R; qCoefJr : R; qCoefJz : R; qQJr : R; qQJz : R; qQJphi : R; qJmin : R }.
(** QuasiIsothermal::QuasiIsothermal, df_disk.cpp:8-31 *)
Definition qiConstruct (P : qiPar) : bool :=
  Rlt_b 0 (qSigma0 P) && Rlt_b 0 (qRdisk P) && Rlt_b 0 (qSigmar0 P) && Rlt_b 0 (qRsigmar P) &&
  xorb (Rlt_b 0 (qHdisk P)) (Rlt_b 0 (qSigmaz0 P) && Rlt_b 0 (qRsigmaz P)) &&
  negb (Rlt_b (qHdisk P) 0 || Rlt_b (qSigmaz0 P) 0 || Rlt_b (qRsigmaz P) 0) &&
  (Rle_b 0 (qCoefJr P) && Rle_b 0 (qCoefJz P)) &&
  (Rle_b 0 (qQJr P) && Rlt_b (qQJr P) 1 && Rle_b 0 (qQJz P) && Rlt_b (qQJz P) 1 && Rle_b 0 (qQJphi P) && Rlt_b (qQJphi P) 1).
(** QuasiIsothermal::evalDeriv, df_disk.cpp:33-87 *)
Definition qiEval (P : qiPar) (fr : freqs) (J : actions) : R * vec3 :=
  let '(Jr, Jz, Jphi) := J in
  let coefJphi := if Rle_b 0 Jphi then 1 else -1 in
  let Jsum := coefJphi * Jphi + qCoefJr P * Jr + qCoefJz P * Jz in
  let Jhat := sqrt (pow_2 Jsum + pow_2 (qJmin P)) in
  let '(Rc, dRc) := Rcirc fr Jhat in
  let '(kappa, dkappa) := fKappa fr Rc in
  let '(nu, dnu) := fNu fr Rc in
  let '(Omega, dOmega) := fOmega fr Rc in
  let invsr := 1 / (pow_2 (qSigmar0 P * exp (- Rc / qRsigmar P)) + pow_2 (qSigmamin P)) in
  let invsz := 1 / (pow_2 (qSigmamin P) + (if Rlt_b 0 (qHdisk P) then 2 * pow_2 (nu * qHdisk P) else pow_2 (qSigmaz0 P * exp (- Rc / qRsigmaz P)))) in
  let negJphi := if Rlt_b 0 Jphi then 0 else 2 * Omega * Jphi in
  let argJr := (kappa * Jr - negJphi) * invsr in
  let argJz := nu * Jz * invsz in
  let argRc := Rc / qRdisk P in
  let value := 1 / (2 * PI * PI) * qSigma0 P * (1 - qQJphi P) * (1 - qQJr P) * (1 - qQJz P) * nu * Omega / kappa * invsr * invsz *
    qexp (- argRc) (- qQJphi P) * qexp (- argJr) (- qQJr P) * qexp (- argJz) (- qQJz P) in
  let dlnkappa := dkappa / kappa in
  let dlnnu := dnu / nu in
  let dlnOmega := dOmega / Omega in
  let dRcdJ := dRc * Jsum / Jhat in
  let dlnsr := -2 / qRsigmar P * (1 - pow_2 (qSigmamin P) * invsr) in
  let dlnsz := - (if Rlt_b 0 (qHdisk P) then - pow_2 (2 * nu * qHdisk P) * invsz * dlnnu else 2 / qRsigmaz P * (1 - pow_2 (qSigmamin P) * invsz)) in
  let common := dRcdJ * (dlnnu + dlnOmega - dlnkappa - dlnsr - dlnsz - 1 / (qRdisk P + qQJphi P * Rc) -
    kappa * invsr * (dlnkappa - dlnsr) * Jr / (1 + qQJr P * argJr) - nu * invsz * (dlnnu - dlnsz) * Jz / (1 + qQJz P * argJz)) in
  let neg := negb (Req_b negJphi 0) in
  let common := if neg then common + dRcdJ * 2 * Omega * invsr * (dlnOmega - dlnsr) * Jphi / (1 + qQJr P * argJr) else common in
  (value,
   (value * (common * qCoefJr P - kappa * invsr / (1 + qQJr P * argJr)),
    value * (common * qCoefJz P - nu * invsz / (1 + qQJz P * argJz)),
    value * (common * coefJphi) + (if neg then value * 2 * Omega * invsr / (1 + qQJr P * argJr) else 0))).

(** ** DoublePowerLaw *)
(** division and powers of possibly infinite numbers *)
Definition ninvn (x : num) : num := match x with Fin a => ninv a | Inf _ => Fin 0 | NaN => NaN end.
Definition ndiv (x y : num) : num := nmul x (ninvn y).
(** math::pow for nonnegative arguments, math_core.cpp:131-143 *)
Definition npow (x : num) (n : R) : num :=
  if Req_b n 0 then Fin 1 else
  match x with
  | Fin a => if Req_b a 0 then (if Rlt_b 0 n then Fin 0 else Inf true) else Fin (mpow a n)
  | Inf _ => if Rlt_b 0 n then Inf true else Fin 0
  | NaN => NaN
  end.
Definition ntanh (x : num) : num := match x with Fin a => Fin ((exp a - exp (- a)) / (exp a + exp (- a))) | Inf s => Fin (if s then 1 else -1) | NaN => NaN end.
Definition nfin (x : num) : bool := match x with Inf _ => false | _ => true end.
(** DoublePowerLawParam, df_halo.h:15-34; Jphi0 may be infinite *)
Record dplPar := mkDPL { dNorm : R; dJ0 : R; dJcutoff : R; dSlopeIn : R; dSlopeOut : R; dSteep : R; dCutStr : R; dCoefJrIn : R; dCoefJzIn : R; dCoefJrOut : R; dCoefJzOut : R;
  dRotFrac : R; dJphi0 : num; dJcore : R }.
(** DoublePowerLaw::DoublePowerLaw, df_halo.cpp:54-83; beta is the result of the root-finder (computeBeta, 45-50): zero for Jcore<=0,
    otherwise a number between 0 and 2 or NaN (None) *)
Definition dplConstruct (P : dplPar) (beta : option R) : bool :=
  Rlt_b 0 (dNorm P) && Rlt_b 0 (dJ0 P) && (Rle_b 0 (dJcore P) && match beta with Some b => Rle_b 0 b | None => false end) && Rle_b 0 (dJcutoff P) &&
  negb (negb (Rlt_b 3 (dSlopeOut P)) && Req_b (dJcutoff P) 0) && Rlt_b (dSlopeIn P) 3 && Rlt_b 0 (dSteep P) && Rlt_b 0 (dCutStr P) &&
  (Rlt_b 0 (dCoefJrIn P) && Rlt_b 0 (dCoefJzIn P) && Rlt_b (dCoefJrIn P + dCoefJzIn P) 3 && Rlt_b 0 (dCoefJrOut P) && Rlt_b 0 (dCoefJzOut P) && Rlt_b (dCoefJrOut P + dCoefJzOut P) 3) &&
  Rle_b (Rabs (dRotFrac P)) 1.
(** DoublePowerLaw::evalDeriv, df_halo.cpp:85-126 *)
Definition dplEval (P : dplPar) (beta : R) (J : actions) : num * (num * num * num) :=
  let '(Jr, Jz, Jphi) := J in
  let sgn := if Rle_b 0 Jphi then 1 else -1 in
  let cIn := (3 - dCoefJrIn P - dCoefJzIn P) * sgn in
  let cOut := (3 - dCoefJrOut P - dCoefJzOut P) * sgn in
  let h := dCoefJrIn P * Jr + dCoefJzIn P * Jz + cIn * Jphi in
  let g := dCoefJrOut P * Jr + dCoefJzOut P * Jz + cOut * Jphi in
  let Jch := ndiv (Fin (dJcore P)) (Fin h) in
  let J0he := npow (ndiv (Fin (dJ0 P)) (Fin h)) (dSteep P) in
  let gJ0e := npow (ndiv (Fin g) (Fin (dJ0 P))) (dSteep P) in
  let cut := Rlt_b 0 (dJcutoff P) in
  let gJcz := if cut then npow (ndiv (Fin g) (Fin (dJcutoff P))) (dCutStr P) else Fin 0 in
  let norm := Fin (dNorm P / (2 * PI * dJ0 P * (2 * PI * dJ0 P) * (2 * PI * dJ0 P))) in
  let core := (Fin 1 + Jch * (Jch - Fin beta))%num in
  let v := (norm * npow (Fin 1 + J0he) (dSlopeIn P / dSteep P) * npow (Fin 1 + gJ0e) (- dSlopeOut P / dSteep P))%num in
  let v := if cut then nmul v (nexp (nopp gJcz)) else v in
  let v := if Rlt_b 0 (dJcore P) then nmul (if Req_b h 0 then norm else v) (npow core (-0.5 * dSlopeIn P)) else v in
  let rot := if negb (Req_b (dRotFrac P) 0) && nfin (dJphi0 P) then nmul (Fin (dRotFrac P)) (ntanh (ndiv (Fin Jphi) (dJphi0 P))) else Fin 0 in
  let v := nmul v (nadd (Fin 1) rot) in
  let dlogH := ndiv (Fin (- dSlopeIn P) * (J0he + Jch * (Fin 0.5 * Fin beta * (Fin 1 - J0he) - Jch)))%num (Fin h * (Fin 1 + J0he) * core)%num in
  let dlogG := ndiv (- (Fin (dSlopeOut P) * gJ0e + (if cut then Fin (dCutStr P) * gJcz * (Fin 1 + gJ0e) else Fin 0)))%num (Fin g * (Fin 1 + gJ0e))%num in
  let zero0 := match dJphi0 P with Fin a => Req_b a 0 | _ => false end in
  let dphi := (v * (Fin cIn * dlogH + Fin cOut * dlogG))%num in
  (v,
   (v * (Fin (dCoefJrIn P) * dlogH + Fin (dCoefJrOut P) * dlogG),
    v * (Fin (dCoefJzIn P) * dlogH + Fin (dCoefJzOut P) * dlogG),
    if negb zero0 && negb (Req_b (dRotFrac P) 0) then
      nadd dphi (ndiv (ndiv (v * Fin (dRotFrac P) * (Fin 1 - (ndiv rot (Fin (dRotFrac P))) * (ndiv rot (Fin (dRotFrac P)))))%num (nadd (Fin 1) rot)) (dJphi0 P))
    else dphi))%num.
