(** Model over exact real numbers (no rounding: the simplification) of the geometric and quasi-random functions of math_random.cpp.
    The arguments p1,p2,... are the values returned by the successive calls to random(). *)
From Coq Require Export Reals Lra Lia NArith ZArith List.
From Verif Require Export Base.
Export ListNotations.
Local Open Scope R_scope.

Definition pow_2 (x : R) : R := x * x.
Definition vec3 := (R * R * R)%type.

(** math_random.cpp:136-144 getNormalRandomNumbers *)
Definition getNormalRandomNumbers (p1 p2 : R) : R * R :=
  let r := if Rlt_dec 0 p1 then sqrt (-2 * ln p1) else p1 in
  let u := sin (2 * PI * p2) in let v := cos (2 * PI * p2) in
  (r * u, r * v).

(** math_random.cpp:146-154 getRandomUnitVector *)
Definition getRandomUnitVector (p1 p2 : R) : vec3 :=
  let costh := p1 * 2 - 1 in
  let sinth := sqrt (1 - pow_2 costh) in
  let sinphi := sin (2 * PI * p2) in let cosphi := cos (2 * PI * p2) in
  (sinth * cosphi, sinth * sinphi, costh).

(** math_random.cpp:156-187 getRandomPerpendicularVector: (vper, returned magnitude); p2 is only drawn in the last branch *)
Definition getRandomPerpendicularVector (v : vec3) (p1 p2 : R) : vec3 * R :=
  let '(x, y, z) := v in
  let sinphi := sin (2 * PI * p1) in let cosphi := cos (2 * PI * p1) in
  if (if Req_EM_T y 0 then (if Req_EM_T z 0 then false else true) else true) then
    let vmag := sqrt (pow_2 x + pow_2 y + pow_2 z) in
    let norm := 1 / sqrt (pow_2 y + pow_2 z) / vmag in
    ((norm * (sinphi * (pow_2 x - pow_2 vmag)),
      norm * (sinphi * x * y - cosphi * vmag * z),
      norm * (sinphi * x * z + cosphi * vmag * y)), vmag)
  else if Req_EM_T x 0 then
    let costh := p2 * 2 - 1 in
    let sinth := sqrt (1 - pow_2 costh) in
    ((sinth * cosphi, sinth * sinphi, costh), 0)
  else ((0, cosphi, sinphi), Rabs x).

(** math_random.cpp:189-216 getRandomRotationMatrix, row by row *)
Definition getRandomRotationMatrix (p1 p2 p3 : R) : vec3 * vec3 * vec3 :=
  let sinth := sin (2 * PI * p1) in let costh := cos (2 * PI * p1) in
  let sinphi := sin (2 * PI * p2) in let cosphi := cos (2 * PI * p2) in
  let mu := p3 * 2 in let nu := sqrt mu in
  let vx := sinphi * nu in let vy := cosphi * nu in let vz := sqrt (2 - mu) in
  let st := sinth in let ct := costh in
  let sx := vx * ct - vy * st in let sy := vx * st + vy * ct in
  ((vx * sx - ct, vx * sy - st, vx * vz),
   (vy * sx + st, vy * sy - ct, vy * vz),
   (vz * sx, vz * sy, 1 - mu)).

(** math_random.cpp:219-228 quasiRandomHalton; ind: size_t, base: unsigned int; the division by a zero base is undefined behaviour *)
Fixpoint halton_loop (fuel : nat) (ind base : N) (fac invbase val : R) : res R :=
  if N.eqb ind 0 then Ok val else
  match fuel with
  | O => Fuel
  | S f => if N.eqb base 0 then UB else
      let fac := fac * invbase in
      let val := val + fac * IZR (Z.of_N (N.modulo ind base)) in
      halton_loop f (N.div ind base) base fac invbase val
  end.
Definition quasiRandomHalton (fuel : nat) (ind base : N) : res R :=
  halton_loop fuel ind base 1 (1 / IZR (Z.of_N base)) 0.
