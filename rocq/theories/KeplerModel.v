(** Kepler's equation (src/math_specfunc.cpp) and the potential of a binary black hole (src/potential_analytic.h, .cpp).  Exact reals. *)
From Coq Require Import Reals Lra Bool ZArith List.
From Flocq Require Import Core.Raux.
From Verif Require Import RandReal PolyModel Base CoordModel OrientModel PotModel.
Import ListNotations.
Local Open Scope R_scope.

(** the cube root of the C library, for both signs *)
Definition cbrt (x : R) : R := if Rlt_b 0 x then Rpower x (1 / 3) else if Rlt_b x 0 then - Rpower (- x) (1 / 3) else 0.
(** math_specfunc.cpp:350 *)
Definition keplerPhase (phase : R) : R := phase - 2 * PI * IZR (Zfloor (1 / (2 * PI) * phase)).
(** math_specfunc.cpp:354-361: initial approximation *)
Definition keplerInit (ecc phase : R) : R :=
  if Rlt_b (95 / 100) ecc && (Rlt_b phase (3 / 10) || Rlt_b 6 phase) then
    let phase1 := if Rle_b phase PI then phase else phase - 2 * PI in
    phase + pow_2 ecc * (cbrt (6 * phase1) - phase1)
  else
    phase + ecc * sin phase / sqrt (1 - ecc * (2 * cos phase - ecc)).
(** math_specfunc.cpp:362-369: Halley's method; a zero denominator (the result would be infinite or NaN) is the outcome Throw;
    the do-while loop has the number of iterations as fuel *)
Fixpoint keplerLoop (fuel : nat) (ecc phase eta : R) : res R :=
  match fuel with
  | O => Fuel
  | S k =>
    let sineta := sin eta in let coseta := cos eta in
    let f := eta - ecc * sineta - phase in
    let df := 1 - ecc * coseta in
    let d2f := ecc * sineta in
    let den := df * df - 1 / 2 * f * d2f in
    if Req_b den 0 then Throw else
    let deltaeta := - f * df / den in
    let eta := eta + deltaeta in
    if Rlt_b (1 / 100000) (Rabs deltaeta) then keplerLoop k ecc phase eta else Ok eta
  end.
(** math_specfunc.cpp:348-373 solveKepler *)
Definition solveKepler (fuel : nat) (ecc phase : R) : res R :=
  let phase := keplerPhase phase in
  if Req_b phase 0 || Req_b phase PI then Ok phase
  else keplerLoop fuel ecc phase (keplerInit ecc phase).

(** potential_analytic.h:159-167 KeplerBinaryParams *)
Record binary := mkBinary { b_mass : R; b_q : R; b_sma : R; b_ecc : R; b_phase : R }.
(** potential_analytic.cpp:150-174 keplerOrbit; positions and velocities (x, y) of the components 0 and 1.
    kep = math::solveKepler as a function of ecc and phase *)
Definition keplerOrbit (kep : R -> R -> R) (b : binary) (t : R) : (R * R) * (R * R) * ((R * R) * (R * R)) :=
  if negb (Req_b (b_sma b) 0) then
    let omegabh := sqrt (b_mass b / pow_3 (b_sma b)) in
    let eta := kep (b_ecc b) (omegabh * t + b_phase b) in
    let sineta := sin eta in let coseta := cos eta in
    let ell := sqrt (1 - b_ecc b * b_ecc b) in
    let a := - b_sma b / (1 + b_q b) in
    let doteta := omegabh / (1 - b_ecc b * coseta) in
    let x1 := (coseta - b_ecc b) * a in
    let y1 := sineta * a * ell in
    let vx1 := - doteta * a * sineta in
    let vy1 := doteta * a * coseta * ell in
    ((- b_q b * x1, - b_q b * y1), (- b_q b * vx1, - b_q b * vy1), ((x1, y1), (vx1, vy1)))
  else ((0, 0), (0, 0), ((0, 0), (0, 0))).
Definition bhPos (kep : R -> R -> R) (b : binary) (i : nat) (t : R) : R * R :=
  match i with O => fst (fst (keplerOrbit kep b t)) | _ => fst (snd (keplerOrbit kep b t)) end.
Definition bhVel (kep : R -> R -> R) (b : binary) (i : nat) (t : R) : R * R :=
  match i with O => snd (fst (keplerOrbit kep b t)) | _ => snd (snd (keplerOrbit kep b t)) end.
(** potential_analytic.cpp:180-183, 199-204 *)
Definition numbh (b : binary) : nat := if negb (Req_b (b_sma b) 0) && negb (Req_b (b_q b) 0) then 2 else 1.
Definition Mbh (b : binary) (i : nat) : R :=
  match i with O => if Nat.eqb (numbh b) 1 then b_mass b else b_mass b / (1 + b_q b) | _ => b_mass b * b_q b / (1 + b_q b) end.
(** potential_analytic.cpp:176-190 KeplerBinaryParams::potential *)
Definition binary_potential (kep : R -> R -> R) (b : binary) (pos : vec3) (t : R) : R :=
  fold_left (fun result i =>
    let '(bx, by_) := bhPos kep b i t in
    let x := v1 pos - bx in let y := v2 pos - by_ in let z := v3 pos in
    let invr2 := 1 / (pow_2 x + pow_2 y + pow_2 z) in
    result - Mbh b i * sqrt invr2) (seq 0 (numbh b)) 0.
(** potential_analytic.cpp:205-225: the body of the loop over black holes *)
Definition addBH (pos : vec3) (m bx by_ : R) (acc : R * vec3 * hess6) : R * vec3 * hess6 :=
  let '(v, g, h) := acc in
  let x := v1 pos - bx in let y := v2 pos - by_ in let z := v3 pos in
  let invr2 := 1 / (pow_2 x + pow_2 y + pow_2 z) in
  let minvr := m * sqrt invr2 in
  (v - minvr,
   (v1 g + x * minvr * invr2, v2 g + y * minvr * invr2, v3 g + z * minvr * invr2),
   {| h11 := h11 h + minvr * invr2 * (3 * pow_2 x * invr2 - 1);
      h22 := h22 h + minvr * invr2 * (3 * pow_2 y * invr2 - 1);
      h33 := h33 h + minvr * invr2 * (3 * pow_2 z * invr2 - 1);
      h12 := h12 h + minvr * pow_2 invr2 * 3 * x * y;
      h23 := h23 h + minvr * pow_2 invr2 * 3 * y * z;
      h13 := h13 h + minvr * pow_2 invr2 * 3 * x * z |}).
(** potential_analytic.cpp:192-227 KeplerBinary::evalCar *)
Definition binary_evalCar (kep : R -> R -> R) (b : binary) (t : R) (pos : vec3) : R * vec3 * hess6 :=
  fold_left (fun acc i => let '(bx, by_) := bhPos kep b i t in addBH pos (Mbh b i) bx by_ acc)
    (seq 0 (numbh b)) (0, (0, 0, 0), {| h11 := 0; h22 := 0; h33 := 0; h12 := 0; h23 := 0; h13 := 0 |}).
(** potential_analytic.h:186-187 symmetry() *)
Definition binary_sym (b : binary) : Z := if Req_b (b_sma b) 0 || Req_b (b_q b) 0 then ST_SPHERICAL else ST_NONE.
(** potential_analytic.h:189-190 enclosedMass() *)
Definition binary_encl (b : binary) (radius : R) : R := if Rle_b (b_sma b) radius then b_mass b else 0.
(** potential_analytic.h:180-197 class KeplerBinary; densityCar returns 0 *)
Definition KeplerBinary (kep : R -> R -> R) (b : binary) : pot :=
  basePot Car (fun fl t pos => maskres fl (binary_evalCar kep b t pos)) (fun _ _ => 0) (b_mass b) (binary_encl b) (binary_sym b).
