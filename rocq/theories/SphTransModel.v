(** Forward and inverse spherical-harmonic transforms: src/math_sphharm.cpp:307-415, math_sphharm.h:245-296.  Exact real arithmetic;
    C arrays are functions of the index; a call with stride s and array `values` is represented by v i = values[i*s]. *)
From Coq Require Import Reals ZArith List Bool Arith.
From Verif Require Import RandReal RootModel Base Arr PotModel SphModel SphIndexModel.
Import ListNotations.
Local Open Scope R_scope.

(** element l-m of the array of values filled by sphHarmArray(lmax, m, tau, result) *)
Definition legval (lmax l m : nat) (tau : R) : R :=
  match sphHarmArray lmax m tau with Ok a => match nth_error a (l - m) with Some (v, _, _) => v | None => 0 end | _ => 0 end.
(** mmin()<0 *)
Definition useSine (ind : shi) : bool := Z.ltb (mmin ind) 0.
(** math_sphharm.cpp:396-408: variable trig; the array tmptrig is filled only if mmax>0 *)
Definition trigOf (ind : shi) (phi : R) (m : Z) : R :=
  let mmax := Z.to_nat (i_mmax ind) in
  let t := trigMultiAngle phi mmax (useSine ind) in
  if Z.eqb m 0 then 2 * sqrt PI
  else if Z.ltb 0 m then nth (Z.to_nat (m - 1)) t 0 * (2 * sqrt PI * sqrt 2)
  else nth (Z.to_nat (i_mmax ind - m - 1)) t 0 * (2 * sqrt PI * sqrt 2).
(** math_sphharm.cpp:386-415 sphHarmTransformInverse: the double loop over m and l (empty m-harmonics contribute nothing) *)
Definition inverse (ind : shi) (C : Z -> R) (tau phi : R) : R :=
  fold_left (fun r '(l, m) => r + C (sh_index l m) * legval (Z.to_nat (i_lmax ind)) (Z.to_nat l) (Z.abs_nat m) tau * trigOf ind phi m) (visited ind) 0.

(** math_sphharm.cpp:307-314 indLeg, the index in the array legFnc *)
Definition indLeg (lmax mmax : nat) (absj l absm : nat) : nat := absj * ((lmax + 1) * (mmax + 1)) + absm * (lmax + 1) + l.
(** math_sphharm.cpp:328-330: nodes and weights are the output of prepareIntegrationTableGL(-1, 1, ngrid, ...), with ngrid = lmax+1 *)
Definition costhnodes (lmax : nat) (nodes : nat -> R) (j : nat) : R := nodes (lmax + 1 - 1 - j)%nat.
(** math_sphharm.cpp:331-342: legFnc[indLeg(ind, j, l, m)], 0 <= j < lmax/2+1, 0 <= m <= l <= lmax.  The flat array is represented by its
    elements; that the elements do not overlap and fit into the array is C47_table *)
Definition legFnc (lmax : nat) (nodes weights : nat -> R) (j l m : nat) : R :=
  let c := costhnodes lmax nodes j in
  let tau := c / (sqrt (1 - c * c) + 1) in
  legval lmax l m tau * (weights j * (/ 2 / sqrt PI) * (if Nat.ltb 0 m then sqrt 2 else 1)).
(** math_sphharm.h:283 thetasize *)
Definition thetasize (ind : shi) : nat := let lmax := Z.to_nat (i_lmax ind) in if isZReflSymmetric (i_sym ind) then (lmax / 2 + 1)%nat else (lmax + 1)%nat.
(** math_sphharm.h:251 size(), 254 costheta(i), 257 phi(i) *)
Definition fwd_size (ind : shi) : nat := (thetasize ind * fsize (Z.to_nat (i_mmax ind)) (useSine ind))%nat.
Definition fwd_costheta (ind : shi) (nodes : nat -> R) (i : nat) : R := costhnodes (Z.to_nat (i_lmax ind)) nodes (i / fsize (Z.to_nat (i_mmax ind)) (useSine ind)).
Definition fwd_phi (ind : shi) (i : nat) : R := fphi (Z.to_nat (i_mmax ind)) (i mod fsize (Z.to_nat (i_mmax ind)) (useSine ind)).
(** math_sphharm.cpp:374-381: the sum over j added to coefs[index(l,m)]; val_m = output of the Fourier transform *)
Definition fwd_term (ind : shi) (nodes weights : nat -> R) (v : nat -> R) (l m : Z) : R :=
  let lmax := Z.to_nat (i_lmax ind) in let mmax := Z.to_nat (i_mmax ind) in
  let ngrid := (lmax + 1)%nat in
  let nsamp := thetasize ind in
  let ntheta := (lmax / 2 + 1)%nat in
  bsum ngrid (fun j =>
    let jsamp := if Nat.ltb j nsamp then j else (ngrid - 1 - j)%nat in
    let absj := if Nat.ltb j ntheta then j else (lmax - j)%nat in
    let Plm := legFnc lmax nodes weights absj (Z.to_nat l) (Z.abs_nat m) in
    let Plm := if andb (Z.eqb (Z.rem (l + m) 2) 1) (Nat.ltb (lmax / 2) j) then Plm * -1 else Plm in
    Plm * fourier mmax (useSine ind) (fun k => v (jsamp * fsize mmax (useSine ind) + k)%nat) (Z.to_nat (m - mmin ind))).
(** math_sphharm.cpp:346-384 transform: the array coefs after the call *)
Definition forward (ind : shi) (nodes weights : nat -> R) (v : nat -> R) : Z -> R :=
  if Z.eqb (shi_size ind) 1 then fun c => if Z.eqb c 0 then v 0%nat else 0
  else fold_left (fun C '(l, m) => fun c => if Z.eqb c (sh_index l m) then C c + fwd_term ind nodes weights v l m else C c) (visited ind) (fun _ => 0).
