(** Model of the recording of orbit trajectories (orbit.cpp:15-79), over exact real numbers.
    The ODE solver is abstracted to the sequence of its internal times; a recorded point is represented by its time stamp together with the
    timestep (tbegin,tend) during which the solver's interpolating polynomial was evaluated. *)
From Coq Require Export Reals Lra Lia ZArith List Bool.
From Verif Require Export PolyModel MathModel.
Export ListNotations.
Local Open Scope R_scope.

(** orbit.cpp:11 ROUNDOFF = 10*DBL_EPSILON *)
Definition ROUNDOFF : R := 10 / 2 ^ 52.
(** one recorded point: time stamp, and the timestep whose interpolant was used *)
Record point := { ptime : R; pstep : R * R }.
(** conversion double -> ptrdiff_t: truncation towards zero *)
Definition toInt (x : R) : Z := if Rle_b 0 x then Int_part x else (- Int_part (- x))%Z.

(** std::vector<point> after resize: elements never assigned are default-initialised (None) *)
Definition resize (n : nat) (l : list (option point)) : list (option point) := firstn n l ++ repeat None (n - length l).
(** trajectory[i] = v; None = index out of bounds (undefined behaviour) *)
Definition assign (i : Z) (v : point) (l : list (option point)) : option (list (option point)) :=
  if Z.ltb i 0 || Z.leb (Z.of_nat (length l)) i then None
  else Some (firstn (Z.to_nat i) l ++ Some v :: skipn (S (Z.to_nat i)) l).

(** orbit.cpp:28 sign, 29 dtroundoff *)
Definition dirsign (tbegin tend : R) : R := if Rle_b tbegin tend then 1 else -1.
Definition dtround (tend tbegin t0 : R) : R := ROUNDOFF * Rmax (Rmax (Rabs tend) (Rabs tbegin)) (Rabs t0).
(** orbit.cpp:33-37: the loop over output points; [n] points starting from index [iout] *)
Fixpoint recordLoop (n : nat) (iout : Z) (sign dt t0 tbegin tend dtr : R) (traj : list (option point)) : option (list (option point)) :=
  match n with
  | O => Some traj
  | S n' =>
    let tout := sign * dt * IZR iout + t0 in
    match (if Rle_b (sign * tbegin - dtr) (sign * tout) && Rle_b (sign * tout) (sign * tend + dtr)
           then assign iout {| ptime := tout; pstep := (tbegin, tend) |} traj else Some traj) with
    | None => None
    | Some traj' => recordLoop n' (iout + 1) sign dt t0 tbegin tend dtr traj'
    end
  end.
(** orbit.cpp:15-47 processTimestep for a positive finite sampling interval; t0 is already set (first call: t0 = tbegin).
    None: undefined behaviour (write out of bounds) or std::length_error (resize to a negative size) *)
Definition processInterval (dt t0 : R) (traj : list (option point)) (step : R * R) : option (list (option point)) :=
  let '(tbegin, tend) := step in
  let sign := dirsign tbegin tend in
  let dtr := dtround tend tbegin t0 in
  let ibegin := toInt ((sign * (tbegin - t0) - dtr) / dt) in
  let iend := toInt ((sign * (tend - t0) + dtr) / dt) in
  if Z.ltb (iend + 1) 0 then None
  else recordLoop (Z.to_nat (iend + 1 - ibegin)) ibegin sign dt t0 tbegin tend dtr (resize (Z.to_nat (iend + 1)) traj).
(** the sampling interval: INFINITY, zero (or negative, or NaN), or positive *)
Inductive interval := EveryStep | LastOnly | Every (dt : R).
(** orbit.cpp:19-24, 38-45 for the other kinds of sampling interval *)
Definition processTimestep (iv : interval) (t0 : R) (traj : list (option point)) (step : R * R) : option (list (option point)) :=
  let '(tbegin, tend) := step in
  match iv with
  | LastOnly => Some (Some {| ptime := tend; pstep := step |} :: tl (match traj with [] => [None] | _ => traj end))
  | EveryStep => Some ((match traj with [] => [Some {| ptime := tbegin; pstep := step |}] | _ => traj end) ++ [Some {| ptime := tend; pstep := step |}])
  | Every dt => processInterval dt t0 traj step
  end.
Fixpoint processAll (iv : interval) (t0 : R) (traj : list (option point)) (steps : list (R * R)) : option (list (option point)) :=
  match steps with
  | [] => Some traj
  | s :: rest => match processTimestep iv t0 traj s with Some traj' => processAll iv t0 traj' rest | None => None end
  end.

(** orbit.cpp:52-79 BaseOrbitIntegrator::run: [times] are the solver's times after each subsequent call of doStep (end of list: the solver fails);
    [stime] is the solver's current time.  Result: the timesteps passed to the runtime functions (which all return true), the solver's time and the remaining steps *)
Fixpoint runLoop (numSteps : nat) (maxNumSteps : nat) (times : list R) (stime sign cur endTime : R) : list (R * R) * R * list R :=
  match times with
  | [] => ([], stime, [])
  | t :: rest =>
    if Rlt_b 0 ((t - stime) * sign) then
      let cur' := Rmin (t * sign) (endTime * sign) * sign in
      if Rle_b (endTime * sign) (cur' * sign) || Nat.leb maxNumSteps (S numSteps) then ([(cur, cur')], t, rest)
      else let '(steps, st, rem) := runLoop (S numSteps) maxNumSteps rest t sign cur' endTime in ((cur, cur') :: steps, st, rem)
    else ([], stime, times)
  end.
Definition run (maxNumSteps : nat) (times : list R) (stime totalTime : R) : list (R * R) * R * list R :=
  if Req_b totalTime 0 then ([], stime, times)
  else runLoop 0 maxNumSteps times stime (if Rlt_b 0 totalTime then 1 else -1) stime (totalTime + stime).
(** orbit.h:250-275 integrateTraj: record a trajectory in a single run *)
Definition integrateTraj (iv : interval) (maxNumSteps : nat) (times : list R) (startTime totalTime : R) : option (list (option point)) :=
  let '(steps, _, _) := run maxNumSteps times startTime totalTime in
  processAll iv (match steps with (tb, _) :: _ => tb | [] => startTime end) [] steps.
