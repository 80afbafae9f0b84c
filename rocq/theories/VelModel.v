(** Model of the assignment of velocities to particles (galaxymodel_velocitysampler.cpp) and of JeansAxi::moments (galaxymodel_jeans.cpp).
    Exact real arithmetic. The generator of random numbers is an arbitrary function of its state. *)
From Verif Require Import Base RandReal PolyModel.
From Coq Require Import Reals.
Local Open Scope R_scope.

Section sampler.
  Context {St : Type} (rnd : St -> R * St).
  (** the loop do{...} while(bad && ++numAttempts<100), velocitysampler.cpp:30-33, 68-72, 106-112: returns the last value drawn, numAttempts and the state.
      [fuel] bounds the number of iterations; 100 is always enough since numAttempts grows (attempts_spec) *)
  Fixpoint attempts {T : Type} (draw : St -> T * St) (bad : T -> bool) (fuel : nat) (num : Z) (st : St) : T * Z * St :=
    let '(v, st1) := draw st in
    if bad v then
      match fuel with
      | O => (v, (num + 1)%Z, st1)
      | S f => if (num + 1 <? 100)%Z then attempts draw bad f (num + 1)%Z st1 else (v, (num + 1)%Z, st1)
      end
    else (v, num, st1).
  (** toPosCar of a point in cylindrical coordinates, velocitysampler.cpp:37-41, 74-75 *)
  Definition posCar (Rc z phi : R) : vec3 := (Rc * cos phi, Rc * sin phi, z).
  (** assignVelocityEdd, velocitysampler.cpp:25-42: one particle; [sample Phi]: sphModel.sampleVelocity(Phi), [Phi]: the potential at the point; result: position and velocity *)
  Definition eddVelocity (sample : R -> St -> R * St) (Phi : R) (st : St) : vec3 :=
    let '(v, num, st1) := attempts (sample Phi) (fun v => Rle_b 0 (Phi + 1 / 2 * v * v)) 100 0 st in
    let v := if (100 <=? num)%Z then 0 else v in
    let '(p1, st2) := rnd st1 in let '(p2, _) := rnd st2 in
    let '(a, b, c) := getRandomUnitVector p1 p2 in (v * a, v * b, v * c).
  (** two Gaussian random numbers, math_random.cpp:136-144 *)
  Definition normals (st : St) : (R * R) * St := let '(p1, st1) := rnd st in let '(p2, st2) := rnd st1 in (getNormalRandomNumbers p1 p2, st2).
  (** assignVelocityJeansSph, velocitysampler.cpp:60-86: velocity of one particle; [sigma]: the value of the Jeans model at its radius *)
  Definition sphDraw (sigma beta : R) (st : St) : (R * R) * St := let '((a, b), st1) := normals st in ((a * sigma, b * (sigma * sqrt (2 - 2 * beta))), st1).
  Definition sphBad (Phi : R) (v : R * R) : bool := Rlt_b 0 (Phi + 1 / 2 * (fst v * fst v + snd v * snd v)).
  Definition sphVelocity (sigma beta Phi Rc z phi : R) (st : St) : vec3 :=
    let '(v, num, st1) := attempts (sphDraw sigma beta) (sphBad Phi) 100 0 st in
    let '(vr, vt) := v in
    let '(x, y, z') := posCar Rc z phi in
    let '(p1, st2) := rnd st1 in let '(p2, _) := rnd st2 in
    let '(a, b, c) := fst (getRandomPerpendicularVector (x, y, z') p1 p2) in
    let r := sqrt (Rc * Rc + z * z) in let r := if Req_b r 0 then 1 else r in
    (vr * x / r + vt * a, vr * y / r + vt * b, vr * z' / r + vt * c).
  (** assignVelocityJeansAxi, velocitysampler.cpp:98-116: velocity (vR, vz, vphi) and its conversion; [vphi0]: mean, [vR2], [vz2], [vphi2]: moments from the Jeans model *)
  Definition sigmaPhi (vphi0 vphi2 : R) : R := sqrt (Rmax 0 (vphi2 - pow_2 vphi0)).
  Definition axiDraw (vphi0 vR2 vz2 vphi2 : R) (st : St) : vec3 * St :=
    let '((sphi, _), st1) := normals st in let '((a, b), st2) := normals st1 in
    ((a * sqrt vR2, b * sqrt vz2, vphi0 + sphi * sigmaPhi vphi0 vphi2), st2).
  Definition axiBad (Phi : R) (v : vec3) : bool := let '(a, b, c) := v in Rlt_b 0 (Phi + 1 / 2 * (a * a + b * b + c * c)).
  Definition axiVelocity (vphi0 vR2 vz2 vphi2 Phi phi : R) (st : St) : vec3 :=
    let '(v, num, _) := attempts (axiDraw vphi0 vR2 vz2 vphi2) (axiBad Phi) 100 0 st in
    let '(vR, vz, vphi) := v in (vR * cos phi - vphi * sin phi, vR * sin phi + vphi * cos phi, vz).
  (** the whole array, velocitysampler.cpp:24-43 etc.: particle i uses its own generator seeded from its position and index *)
  Definition assign {P : Type} (seed : P -> nat -> St) (vel : P -> St -> vec3) (points : list (P * R)) : list (P * vec3 * R) :=
    map (fun e => let '(i, (p, m)) := e in (p, vel p (seed p i), m)) (combine (seq 0 (length points)) points).
End sampler.

(** JeansAxi::moments, jeans.cpp:292-308: [fphi2], [fz2]: the two interpolators, [xmax], [ymax]: the limits of the grid, [epi]: epicycleRatio, [b]: bcoef.
    Result: mean vphi, and the second moments vR2, vz2, vphi2. *)
Definition moments (fphi2 fz2 : R -> R -> R) (xmax ymax : R) (epi : R -> R) (b kappa Rp zp : R) : R * R * R * R :=
  let z := Rabs zp in
  let out := Rlt_b xmax Rp || Rlt_b ymax z in
  let mult := if out then (if Req_b z 0 then xmax / Rp else if Req_b Rp 0 then ymax / z else Rmin (xmax / Rp) (ymax / z)) else 1 in
  let Rc := if out then Rmin xmax (Rp * mult) else Rp in
  let zc := if out then Rmin ymax (z * mult) else z in
  let vphi2 := fphi2 Rc zc * mult in
  let vz2 := fz2 Rc zc * mult in
  let vR2 := vz2 * b in
  (kappa * sqrt (Rmax 0 (vphi2 - vR2 * epi Rc)), vR2, vz2, vphi2).
(** epicycleRatioVal, jeans.cpp:268: [dR], [dR2]: the first and second derivative of the potential by R *)
Definition epicycleRatio (Rc dR dR2 : R) : R := 3 / 4 + 1 / 4 * Rc * dR2 / dR.
