(** Model of the Monte Carlo code Raga: raga_potential.cpp, raga_relaxation.cpp (sampling, selection, velocity kicks), raga_trajectory.cpp,
    raga_losscone.cpp, raga_binary.cpp (evolution of the binary), and the energy accounting of raga_core.cpp.
    Exact real arithmetic, except the sampling times in binary64 at the end. *)
From Coq Require Import Reals Lra Bool List Arith ZArith.
From Verif Require Import RandReal PolyModel CoordModel DiskModel.
Import ListNotations.
Local Open Scope R_scope.

(** ** collecting samples of a trajectory *)
Section Samples.
  Context {A : Type}.
  (** the loop in RuntimePotential::processTimestep, raga_potential.cpp:10-19, and RuntimeRelaxation::processTimestep, raga_relaxation.cpp:18-25.
      out: the elements from outputFirst to outputIter; rem = outputLast - outputIter (the loop stops when it is zero); dt: outputTimestep;
      sol: the solution (or a function of it) during this timestep *)
  Fixpoint sampleLoop (rem : nat) (dt tbegin tend : R) (sol : R -> A) (out : list A) : list A :=
    match rem with
    | O => out
    | S r =>
        let t := dt * INR (length out + 1) in
        if Rlt_b tbegin t && Rle_b t tend then sampleLoop r dt tbegin tend sol (out ++ [sol t]) else out
    end.
  (** one call of processTimestep for a block of n elements *)
  Definition sampleStep (n : nat) (dt tbegin tend : R) (sol : R -> A) (out : list A) : list A := sampleLoop (n - length out) dt tbegin tend sol out.
  (** BaseOrbitIntegrator::run, orbit.cpp:58-72: contiguous timesteps starting at t; each is given by its end and the dense output *)
  Fixpoint sampleRun (n : nat) (dt t : R) (steps : list (R * (R -> A))) (out : list A) : list A :=
    match steps with
    | [] => out
    | (tend, sol) :: rest => sampleRun n dt tend rest (sampleStep n dt t tend sol out)
    end.

  (** the loop removing bad samples in place, raga_potential.cpp:69-79, raga_relaxation.cpp:146-160; ok is the condition, arr the array,
      returns the array and the number of elements that are kept by erase *)
  Fixpoint replace (i : nat) (x : A) (l : list A) : list A :=
    match l, i with
    | [], _ => []
    | _ :: r, O => x :: r
    | y :: r, S j => y :: replace j x r
    end.
  Fixpoint squeeze (fuel : nat) (ok : A -> bool) (arr : list A) (src dest : nat) : list A * nat :=
    match fuel with
    | O => (arr, dest)
    | S f =>
        match nth_error arr src with
        | None => (arr, dest)
        | Some x => if ok x then squeeze f ok (replace dest x arr) (S src) (S dest) else squeeze f ok arr (S src) dest
        end
    end.
  Definition compact (ok : A -> bool) (arr : list A) : list A := let '(a, n) := squeeze (length arr) ok arr 0 0 in firstn n a.
End Samples.

(** RagaTaskPotential::startEpisode, raga_potential.cpp:49-52, and the runtime function of each particle (36-43): the array consists of
    blocks of n elements, initially NaN (None); each block receives the samples of one particle *)
Definition block {A} (n : nat) (out : list A) : list (option A) := map Some out ++ repeat None (n - length out).
(** RagaTaskPotential::finishEpisode, raga_potential.cpp:59-79: a mass for each sample, then the selection; the result is the input of Multipole::create *)
Definition setMasses {A} (n : nat) (masses : list R) (arr : list (option A)) : list (option A * R) :=
  flat_map (fun i => map (fun j => (nth (i * n + j) arr None, nth i masses 0 / INR n)) (seq 0 n)) (seq 0 (length masses)).
Definition goodSample {A} (s : option A * R) : bool := match fst s with Some _ => Rlt_b 0 (snd s) | None => false end.
Definition potentialSamples {A} (n : nat) (masses : list R) (outs : list (list A)) : list (option A * R) :=
  compact goodSample (setMasses n masses (flat_map (block n) outs)).

(** ** output schedule *)
(** RagaTaskTrajectory::outputParticles, raga_trajectory.cpp:22-40; prev=None: minus infinity; returns the new prev and whether a snapshot was written *)
Definition outputAt (interval : R) (prev : option R) (time : R) : option R * bool :=
  let now := match prev with None => true | Some p => Rle_b (p + interval * 0.999999) time end in
  if now then (Some time, true) else (prev, false).
(** the sequence of calls: startEpisode (42-47) and finishEpisode (49-52); returns the times at which snapshots are written *)
Fixpoint outputs (interval : R) (prev : option R) (calls : list R) : list R :=
  match calls with
  | [] => []
  | t :: rest => let '(p, w) := outputAt interval prev t in if w then t :: outputs interval p rest else outputs interval p rest
  end.
(** the calls made by RagaCore::doEpisode, raga_core.cpp:103-105, 161-166, in n episodes of equal length starting at t0 *)
Fixpoint episodeCalls (n : nat) (len t0 : R) : list R :=
  match n with O => [] | S m => t0 :: (t0 + len) :: episodeCalls m len (t0 + len) end.

(** ** captures *)
(** KeplerBinaryParams, potential_analytic.h:144-154 *)
Record bhPar := mkBH { bmass : R; bq : R; bsma : R; becc : R; bphase : R }.
(** 8 * M / pow_2(speedOfLight); None: infinite speed of light *)
Definition captureGR (c : option R) (m : R) : R := match c with None => 0 | Some c => 8 * m / pow_2 c end.
(** RagaTaskLosscone::createRuntimeFnc, raga_losscone.cpp:119-134: capture radii of both black holes *)
Definition captureRadii (bh : bhPar) (c : option R) (stellarRadius stellarMass : R) : R * R :=
  let Mbh0 := if Req_b (bsma bh) 0 then bmass bh / (1 + bq bh) else bmass bh in
  let Mbh1 := if Req_b (bsma bh) 0 then bmass bh / (1 + bq bh) * bq bh else 0 in
  (Rmax (captureGR c Mbh0) (stellarRadius * mpow (Mbh0 / stellarMass) (1 / 3)),
   Rmax (captureGR c Mbh1) (stellarRadius * mpow (Mbh1 / stellarMass) (1 / 3))).

(** CaptureData, raga_losscone.h:37-56, without the energy: time, pericenter distance, capture radius, index *)
Record capture := mkCapt { tcapt : R; crperi : R; crcapt : R; cindex : nat }.
Section Losscone.
  (** pf b: PericenterFinder for the b-th black hole; root b t1 t2: math::findRoot (None: NaN); dist b t: distance to the b-th black hole *)
  Variable pf : nat -> R -> R.
  Variable root : nat -> R -> R -> option R.
  Variable dist : nat -> R -> R.
  Variable rad : nat -> R.
  (** the loop over black holes in RuntimeLosscone::processTimestep, raga_losscone.cpp:51-99; drdt: values stored by the previous timestep *)
  Fixpoint lossLoop (bs : list nat) (tbegin tend : R) (drdt : nat -> R) : (nat -> R) * option capture :=
    match bs with
    | [] => (drdt, None)
    | b :: rest =>
        let prev := if Req_b tbegin 0 then pf b tbegin else drdt b in
        let cur := pf b tend in
        let drdt' := fun i => if Nat.eqb i b then cur else drdt i in
        if negb (Rle_b prev 0 && Rlt_b 0 cur) then lossLoop rest tbegin tend drdt' else
        let tperi := match root b tbegin tend with Some t => t | None => tbegin end in
        let rperi := dist b tperi in
        if Rlt_b (rad b) rperi then lossLoop rest tbegin tend drdt' else
        (drdt', Some (mkCapt tperi rperi (rad b) b))
    end.
  (** raga_losscone.cpp:42-104; the orbit integration is terminated when a capture is recorded (orbit.cpp:68-71) *)
  Definition lossStep (binary : bool) (tbegin tend : R) (drdt : nat -> R) := lossLoop (if binary then [0; 1]%nat else [0%nat]) tbegin tend drdt.
  Fixpoint lossRun (binary : bool) (t : R) (ends : list R) (drdt : nat -> R) : option capture :=
    match ends with
    | [] => None
    | tend :: rest => match lossStep binary t tend drdt with (_, Some c) => Some c | (d, None) => lossRun binary tend rest d end
    end.
End Losscone.

Definition sumR (l : list R) : R := fold_right Rplus 0 l.
(** RagaTaskLosscone::finishEpisode, raga_losscone.cpp:143-206; captures: the index of the black hole for captured particles (tcapt>=0) *)
Definition isCaptured (p : R * option nat) : bool := match snd p with Some _ => negb (Req_b (fst p) 0) | None => false end.
Definition capturedBy (b : nat) (p : R * option nat) : R :=
  if isCaptured p then match snd p with Some i => if Nat.eqb i b then fst p else 0 | None => 0 end else 0.
Definition lossFinish (fraction : R) (bh : bhPar) (particles : list (R * option nat)) : bhPar * list R :=
  let captured0 := sumR (map (capturedBy 0) particles) in
  let captured1 := sumR (map (capturedBy 1) particles) in
  let masses := map (fun p => if isCaptured p then 0 else fst p) particles in
  if existsb isCaptured particles then
    let q := if Rlt_b 0 (bsma bh) then (bmass bh * bq bh + captured1 * (1 + bq bh)) / (bmass bh + captured0 * (1 + bq bh)) else bq bh in
    (mkBH (bmass bh + (captured0 + captured1) * fraction) q (bsma bh) (becc bh) (bphase bh), masses)
  else (bh, masses).
(** the masses at the end of each episode; captures of each episode (a particle of zero mass is not integrated, raga_core.cpp:140) *)
Fixpoint lossHistory (fraction : R) (bh : bhPar) (masses : list R) (episodes : list (list (option nat))) : bhPar * list R :=
  match episodes with
  | [] => (bh, masses)
  | e :: rest => let '(bh', m') := lossFinish fraction bh (combine masses e) in lossHistory fraction bh' m' rest
  end.

(** ** evolution of a binary black hole *)
(** numbers that may be plus infinity *)
Definition edivpos (a b : R) : option R := if Req_b b 0 then None else Some (a / b).
Definition efmin2 (x y : option R) : option R := match x, y with None, y => y | x, None => x | Some a, Some b => Some (Rmin a b) end.
(** common multiple in evolveBH, raga_binary.cpp:211-212; the speed of light may be infinite *)
Definition gwMult (c : option R) (M q sma ecc : R) : R :=
  match c with
  | None => 0
  | Some c => M ^ 3 * (1 / (c * sma) ^ 5) * sma * q / pow_2 (1 + q) * Rpower (1 - pow_2 ecc) (-3.5)
  end.
Definition gwH (c : option R) (M q sma ecc : R) : R := gwMult c M q sma ecc * (192 + pow_2 ecc * (584 + 74 * pow_2 ecc)) / 15 / sma.
Definition gwK (c : option R) (M q sma ecc : R) : R := - gwMult c M q sma ecc * (608 + pow_2 ecc * 242) / 15 * (1 - pow_2 ecc) * pow_2 ecc.
Definition MAX_ECC : R := 0.999.
(** the body of the loop, raga_binary.cpp:208-231: (sma, ecc, timePassed, maxTime) *)
Definition evolveIter (c : option R) (M q H K : R) (st : R * R * R * R) : R * R * R * R :=
  let '(sma, ecc, tp, T) := st in
  let Hgw := gwH c M q sma ecc in
  let Kgw := gwK c M q sma ecc in
  let rest := T - tp in
  let tstep := match efmin2 (edivpos (Rmin (1 - pow_2 ecc) (pow_2 ecc + 1 / 1000)) (Rabs (K + Kgw))) (edivpos (1 / sma) (Rabs (H + Hgw))) with
    | None => rest
    | Some s => let s := 0.01 * s in if Rlt_b rest s then rest else s
    end in
  if (if Req_b Hgw 0 then false else Rlt_b (0.25 / sma / Hgw) rest) && Rlt_b ecc 0.01 then
    let tp' := tp + 0.25 / sma / Hgw in (0, 0, tp', tp')
  else
    (1 / (1 / sma + tstep * (H + Hgw)), Rmin MAX_ECC (sqrt (Rmax 0 (pow_2 ecc + tstep * (K + Kgw)))), tp + tstep, T).
(** raga_binary.cpp:204-233: the loop; None: it did not end within the fuel. Returns the last state *)
Fixpoint evolveLoop (fuel : nat) (c : option R) (M q H K : R) (st : R * R * R * R) : option (R * R * R * R) :=
  match fuel with
  | O => None
  | S f =>
      let st' := evolveIter c M q H K st in
      let '(_, _, tp, T) := st' in
      if Rlt_b tp (T * (1 - 1 / 10000000000)) then evolveLoop f c M q H K st' else Some st'
  end.
(** RagaTaskBinary::finishEpisode, raga_binary.cpp:245-269: hardening and eccentricity growth rates from the changes of energy and angular
    momentum of all encounters of all particles: (mass, list of (deltaE, deltaLz)) *)
Definition sumEnc (sel : R * R -> R) (parts : list (R * list (R * R))) : R := sumR (map (fun p => sumR (map (fun e => fst p * sel e) (snd p))) parts).
Definition rateH (bh : bhPar) (len : R) (parts : list (R * list (R * R))) : R :=
  2 * pow_2 (1 + bq bh) / bq bh / pow_2 (bmass bh) / len * sumEnc fst parts.
Definition rateK (bh : bhPar) (len : R) (parts : list (R * list (R * R))) : R :=
  2 * pow_2 (1 + bq bh) / bq bh / pow_2 (bmass bh) / len *
  (sqrt ((1 - pow_2 (becc bh)) * bmass bh / bsma bh) * sumEnc snd parts - (1 - pow_2 (becc bh)) * sumEnc fst parts * bsma bh).
(** raga_binary.cpp:237-274; wrap: math::wrapAngle. Returns the new parameters and the length of the episode (until the coalescence) *)
Definition binaryFinish (wrap : R -> R) (fuel : nat) (c : option R) (bh : bhPar) (len : R) (parts : list (R * list (R * R))) : option (bhPar * R) :=
  if Req_b (bsma bh) 0 || Req_b (bmass bh) 0 then Some (bh, len) else
  match evolveLoop fuel c (bmass bh) (bq bh) (rateH bh len parts) (rateK bh len parts) (bsma bh, becc bh, 0, len) with
  | None => None
  | Some (sma, ecc, _, T) => Some (mkBH (bmass bh) (bq bh) sma ecc (wrap (bphase bh + sqrt (bmass bh / bsma bh ^ 3) * len)), T)
  end.

(** ** velocity kicks: raga_relaxation.cpp:66-81; uper: the unit vector perpendicular to the velocity from math::getRandomPerpendicularVector, vmag=|v| *)
Definition kick (v uper : vec3) (dpar dper : R) : vec3 :=
  let '(vx, vy, vz) := v in let '(ux, uy, uz) := uper in
  let vmag := sqrt (pow_2 vx + pow_2 vy + pow_2 vz) in
  (vx + (vx / vmag * dpar + ux * dper), vy + (vy / vmag * dpar + uy * dper), vz + (vz / vmag * dpar + uz * dper)).
(** the parallel and perpendicular changes, raga_relaxation.cpp:66-67 *)
Definition kickSize (rand1 rand2 dvpar dv2par dv2per vel dt : R) : R * R :=
  (rand1 * sqrt (dv2par * dt) + dvpar / vel * dt, rand2 * sqrt (dv2per * dt)).

(** ** computeTotalEnergyModel, raga_core.cpp:16-51, and printLog (62-64): kinetic and potential energy; particles: (mass, velocity, potential incl. black holes) *)
Definition energies (bh : bhPar) (phi0 : R) (parts : list (R * vec3 * R)) : R * R :=
  let central := if Rlt_b 0 (bmass bh) then bmass bh * phi0 else 0 in
  let Ebin := if Rlt_b 0 (bsma bh) then 0.5 * pow_2 (bmass bh) / bsma bh * bq bh / pow_2 (1 + bq bh) else 0 in
  let kin := fun p : R * vec3 * R => let '(m, (vx, vy, vz), e) := p in (pow_2 vx + pow_2 vy + pow_2 vz) * 0.5 in
  let Etot := central * 0.5 - Ebin + sumR (map (fun p => fst (fst p) * (kin p + snd p * 0.5)) parts) in
  let Esum := central - Ebin * 2 + sumR (map (fun p => fst (fst p) * (kin p + snd p)) parts) in
  (2 * Etot - Esum, - Etot + Esum).
