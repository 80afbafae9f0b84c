(** Solvers of ordinary differential equations, /repo/src/math_ode.cpp:14-495, math_ode.h:19-162.
    Exact reals.  A vector is a function of the index of the component; the ODE system is a function rhs of the time and the vector,
    N = odeSystem.size().  The std::vector state with its blocks of N numbers is a record of vectors (line citations below).
    Values returned by rhs are assumed to be finite; the coefficients are the exact decimals of the source (not rounded to doubles). *)
From Coq Require Import Reals Lra QArith Qreals List Bool.
From Verif Require Import RandReal PolyModel.
Import ListNotations.
Local Open Scope R_scope.

Definition vec := nat -> R.
(** the sum over components, for(int i=0; i<NDIM; i++) s += f(i) *)
Fixpoint vsum (N : nat) (f : nat -> R) : R := match N with O => 0 | S n => vsum n f + f n end.
(** a1*k1[i] + a2*k2[i] + ... *)
Definition lc (l : list (Q * vec)) : vec := fun i => fold_right (fun p s => Q2R (fst p) * snd p i + s) 0 l.

(** a non-negative double: not-a-number, infinity or a number *)
Inductive ext := NaN | Inf | Fin (r : R).
(** a/b for non-negative finite a and b *)
Definition ediv (a b : R) : ext := if Req_b b 0 then (if Req_b a 0 then NaN else Inf) else Fin (a / b).
(** f(x) for f(x) = c*sqrt(x), c>=0 (c*INFINITY is NaN if c=0) *)
Definition escale (c : R) (f : R -> R) (x : ext) : ext := match x with NaN => NaN | Inf => if Req_b c 0 then NaN else Inf | Fin r => Fin (c * f r) end.
(** fmin: a NaN argument is ignored *)
Definition efmin (x y : ext) : ext := match x, y with NaN, _ => y | _, NaN => x | Inf, _ => y | _, Inf => x | Fin a, Fin b => Fin (Rmin a b) end.

(** math_ode.cpp:20 *)
Definition HMIN : R := / 1000000000000.
Definition HMAX : R := 1000000000000.
(** fmax(HMIN, fmin(HMAX, v)), lines 39 and 68 *)
Definition hclamp (v : ext) : R := match efmin (Fin HMAX) v with Fin r => Rmax HMIN r | _ => HMIN end.

(** math_ode.cpp:15-70; pw = pow(accRel, 1./8) >= 0 *)
Definition initTimeStep (N : nat) (rhs : R -> vec -> vec) (time : R) (x : vec) (accAbs pw : R) : R :=
  let k1 := rhs time x in
  let normx0 := vsum N (fun i => x i * x i) in
  let normd0 := vsum N (fun i => k1 i * k1 i) in
  let h1 := hclamp (escale 0.01 sqrt (ediv normx0 normd0)) in
  let xt := fun i => x i + h1 * k1 i in
  let k2 := rhs (time + h1) xt in
  let xt := fun i => x i + 0.5 * h1 * (k1 i + k2 i) in
  let k3 := rhs (time + h1) xt in
  let hh i :=
    let d0 := Rmax accAbs (Rmax (Rabs (x i)) (Rabs (xt i))) in
    let d1 := Rmax (Rabs (k1 i)) (Rabs (k3 i)) in
    let d2 := Rabs ((3 * k2 i - k1 i - 2 * k3 i) / h1) in
    let d3 := Rabs (6 * (k3 i - k2 i) / (h1 * h1)) in
    ediv (d0 * d2 + d1 * d1) (d1 * d3 + d2 * d2) in
  let h2 := fold_left (fun h i => efmin h (hh i)) (seq 0 N) Inf in
  hclamp (escale pw sqrt h2).

(** ** OdeSolverDOP853 *)
(** math_ode.cpp:91-210: the coefficients *)
Definition c2 : Q := 0.05260015195876773187856.
Definition c3 : Q := 0.07890022793815159781784.
Definition c4 : Q := 0.11835034190722739672676.
Definition c5 : Q := 0.28164965809277260327324.
Definition c6 : Q := 0.33333333333333333333333.
Definition c7 : Q := 0.25000000000000000000000.
Definition c8 : Q := 0.30769230769230769230769.
Definition c9 : Q := 0.65128205128205128205128.
Definition c10 : Q := 0.60000000000000000000000.
Definition c11 : Q := 0.85714285714285714285714.
Definition c12 : Q := 1.00000000000000000000000.
Definition a21 : Q := 0.05260015195876773187856.
Definition a31 : Q := 0.01972505698453789945446.
Definition a32 : Q := 0.05917517095361369836338.
Definition a41 : Q := 0.02958758547680684918169.
Definition a43 : Q := 0.08876275643042054754507.
Definition a51 : Q := 0.24136513415926668550237.
Definition a53 : Q := -0.88454947932828608534486.
Definition a54 : Q := 0.92483400326179200311574.
Definition a61 : Q := 0.03703703703703703703704.
Definition a64 : Q := 0.17082860872947387127960.
Definition a65 : Q := 0.12546768756682242501669.
Definition a71 : Q := 0.03710937500000000000000.
Definition a74 : Q := 0.17025221101954403931498.
Definition a75 : Q := 0.06021653898045596068502.
Definition a76 : Q := -0.01757812500000000000000.
Definition a81 : Q := 0.03709200011850479271088.
Definition a84 : Q := 0.17038392571223999381021.
Definition a85 : Q := 0.10726203044637328465181.
Definition a86 : Q := -0.01531943774862440175279.
Definition a87 : Q := 0.00827378916381402288758.
Definition a91 : Q := 0.62411095871607571711443.
Definition a94 : Q := -3.36089262944694129406857.
Definition a95 : Q := -0.86821934684172600681819.
Definition a96 : Q := 27.5920996994467083049416.
Definition a97 : Q := 20.1540675504778934086187.
Definition a98 : Q := -43.4898841810699588477366.
Definition a101 : Q := 0.47766253643826436589043.
Definition a104 : Q := -2.48811461997166764192642.
Definition a105 : Q := -0.59029082683684299637145.
Definition a106 : Q := 21.2300514481811942347289.
Definition a107 : Q := 15.2792336328824235832597.
Definition a108 : Q := -33.2882109689848629194453.
Definition a109 : Q := -0.02033120170850862613582.
Definition a111 : Q := -0.93714243008598732571704.
Definition a114 : Q := 5.18637242884406370830024.
Definition a115 : Q := 1.09143734899672957818500.
Definition a116 : Q := -8.14978701074692612513997.
Definition a117 : Q := -18.5200656599969598641566.
Definition a118 : Q := 22.7394870993505042818970.
Definition a119 : Q := 2.49360555267965238987089.
Definition a1110 : Q := -3.04676447189821950038237.
Definition a121 : Q := 2.27331014751653820792360.
Definition a124 : Q := -10.5344954667372501984067.
Definition a125 : Q := -2.00087205822486249909676.
Definition a126 : Q := -17.9589318631187989172766.
Definition a127 : Q := 27.9488845294199600508500.
Definition a128 : Q := -2.85899827713502369474066.
Definition a129 : Q := -8.87285693353062954433549.
Definition a1210 : Q := 12.3605671757943030647266.
Definition a1211 : Q := 0.64339274601576353035597.
Definition b1 : Q := 0.05429373411656876223805.
Definition b6 : Q := 4.45031289275240888144114.
Definition b7 : Q := 1.89151789931450038304282.
Definition b8 : Q := -5.80120396001058478146721.
Definition b9 : Q := 0.31116436695781989440892.
Definition b10 : Q := -0.15216094966251607855618.
Definition b11 : Q := 0.20136540080403034837478.
Definition b12 : Q := 0.04471061572777259051769.
Definition bhh1 : Q := 0.24409448818897637795276.
Definition bhh2 : Q := 0.73384668828161185734136.
Definition bhh3 : Q := 0.02205882352941176470588.
Definition er1 : Q := 0.01312004499419488073250.
Definition er6 : Q := -1.22515644637620444072057.
Definition er7 : Q := -0.49575894965725019152141.
Definition er8 : Q := 1.66437718245498653696153.
Definition er9 : Q := -0.35032884874997368168865.
Definition er10 : Q := 0.33417911871301747902973.
Definition er11 : Q := 0.08192320648511571246571.
Definition er12 : Q := -0.02235530786388629525884.
Definition d41 : Q := -5.40685903845352664250302.
Definition d46 : Q := 367.268892700041893590281.
Definition d47 : Q := 154.609958204083905482676.
Definition d48 : Q := -505.920283865412564024766.
Definition d49 : Q := 15.5975154819608130688200.
Definition d410 : Q := -26.1936204184402805956691.
Definition d411 : Q := -0.74003512364122230844721.
Definition d412 : Q := 1.11776539319431476294221.
Definition d413 : Q := -0.33333333333333333333333.
Definition d51 : Q := 6.51987095363079615048119.
Definition d56 : Q := -1066.34956011730205278592.
Definition d57 : Q := -351.864047514639508625601.
Definition d58 : Q := 1363.51955696662884408368.
Definition d59 : Q := -112.727669432657582669864.
Definition d510 : Q := 159.796191868560289612921.
Definition d511 : Q := -2.13865100308788816220259.
Definition d512 : Q := -3.75569172113289760348584.
Definition d513 : Q := 7.00000000000000000000000.
Definition d61 : Q := 10.4698004763293477204238.
Definition d66 : Q := -1380.01473607038123167155.
Definition d67 : Q := -531.219827862514074379012.
Definition d68 : Q := 1866.98964341870892451324.
Definition d69 : Q := -53.3302605020547902574560.
Definition d610 : Q := 82.4147560258671369782481.
Definition d611 : Q := 7.38443654502992069572676.
Definition d612 : Q := 0.41729908012587751149843.
Definition d613 : Q := -3.11111111111111111111111.
Definition d71 : Q := -16.6338582677165354330709.
Definition d76 : Q := 4516.16568914956011730205.
Definition d77 : Q := 1393.85185384057776465219.
Definition d78 : Q := -5687.52042419481539670071.
Definition d79 : Q := 473.965563750151263163661.
Definition d710 : Q := -661.810776942355889724311.
Definition d711 : Q := -18.0180473354013232598119.
Definition d712 : Q := 0.
Definition d713 : Q := 0.
(** math_ode.cpp:211-214 *)
Definition fdec : R := 0.333.
Definition finc : R := 6.
Definition safe : R := 0.9.

(** math_ode.h:134-139 and math_ode.cpp:216-236, 354-363: x, k1 (the value and the derivative at the current time) and the eight interpolation coefficients *)
Record dop := mkDop { d_time : R; d_timePrev : R; d_next : R; d_x : vec; d_k1 : vec;
  d_rc1 : vec; d_rc2 : vec; d_rc3 : vec; d_rc4 : vec; d_rc5 : vec; d_rc6 : vec; d_rc7 : vec; d_rc8 : vec }.
Definition zerov : vec := fun _ => 0.
(** math_ode.h:122-127 *)
Definition dop_new : dop := mkDop 0 0 0 zerov zerov zerov zerov zerov zerov zerov zerov zerov zerov.
(** math_ode.cpp:74-85; timeNew=None is NaN (time is not changed) *)
Definition dop_init (N : nat) (rhs : R -> vec -> vec) (accAbs pw : R) (stateNew : vec) (timeNew : option R) (s : dop) : dop :=
  let time := match timeNew with Some t => t | None => d_time s end in
  mkDop time (d_timePrev s) (if Req_b (d_next s) 0 then initTimeStep N rhs time stateNew accAbs pw else d_next s) stateNew (rhs time stateNew)
    (d_rc1 s) (d_rc2 s) (d_rc3 s) (d_rc4 s) (d_rc5 s) (d_rc6 s) (d_rc7 s) (d_rc8 s).

(** math_ode.cpp:248-300: the twelve stages, for the timestep h; b is k13 (line 297), xt the new solution *)
Record stages := mkStages { s_k1 : vec; s_k6 : vec; s_k7 : vec; s_k8 : vec; s_k9 : vec; s_k10 : vec; s_k11 : vec; s_k12 : vec; s_b : vec; s_xt : vec }.
Definition rkStages (rhs : R -> vec -> vec) (time : R) (x k1 : vec) (h : R) : stages :=
  let stage (c : Q) (l : list (Q * vec)) : vec := rhs (time + Q2R c * h) (fun i => x i + h * lc l i) in
  let k2 := stage c2 [(a21,k1)] in
  let k3 := stage c3 [(a31,k1); (a32,k2)] in
  let k4 := stage c4 [(a41,k1); (a43,k3)] in
  let k5 := stage c5 [(a51,k1); (a53,k3); (a54,k4)] in
  let k6 := stage c6 [(a61,k1); (a64,k4); (a65,k5)] in
  let k7 := stage c7 [(a71,k1); (a74,k4); (a75,k5); (a76,k6)] in
  let k8 := stage c8 [(a81,k1); (a84,k4); (a85,k5); (a86,k6); (a87,k7)] in
  let k9 := stage c9 [(a91,k1); (a94,k4); (a95,k5); (a96,k6); (a97,k7); (a98,k8)] in
  let k10 := stage c10 [(a101,k1); (a104,k4); (a105,k5); (a106,k6); (a107,k7); (a108,k8); (a109,k9)] in
  let k11 := stage c11 [(a111,k1); (a114,k4); (a115,k5); (a116,k6); (a117,k7); (a118,k8); (a119,k9); (a1110,k10)] in
  let k12 := stage c12 [(a121,k1); (a124,k4); (a125,k5); (a126,k6); (a127,k7); (a128,k8); (a129,k9); (a1210,k10); (a1211,k11)] in
  let k13 := lc [(b1,k1); (b6,k6); (b7,k7); (b8,k8); (b9,k9); (b10,k10); (b11,k11); (b12,k12)] in
  mkStages k1 k6 k7 k8 k9 k10 k11 k12 k13 (fun i => x i + h * k13 i).
(** the numerators in lines 308-310 *)
Definition errVec3 (s : stages) : vec := fun i => s_b s i - lc [(bhh1, s_k1 s); (bhh2, s_k9 s); (bhh3, s_k12 s)] i.
Definition errVec5 (s : stages) : vec :=
  lc [(er1, s_k1 s); (er6, s_k6 s); (er7, s_k7 s); (er8, s_k8 s); (er9, s_k9 s); (er10, s_k10 s); (er11, s_k11 s); (er12, s_k12 s)].
(** math_ode.cpp:302-313: err for the timestep h; accFac = odeSystem.getAccuracyFactor *)
Definition errEst (N : nat) (accFac : R -> vec -> R) (accRel accAbs time : R) (x : vec) (h : R) (s : stages) : R :=
  let af := accFac (time + h) (s_xt s) in
  let sk i := (accAbs + accRel * Rmax (Rabs (x i)) (Rabs (s_xt s i))) * af in
  let term (v : vec) i := if Req_b (sk i) 0 then 0 else (v i / sk i) * (v i / sk i) in
  let err3 := vsum N (term (errVec3 s)) in
  let err5 := vsum N (term (errVec5 s)) in
  let den := sqrt (INR N * (err5 + 0.01 * err3)) in
  if Req_b den 0 then 0 else err5 * Rabs h / den.

(** math_ode.cpp:319 *)
Definition root8 (err : R) : R := sqrt (sqrt (sqrt err)).
(** fmin(finc, safe/fac): infinite safe/fac if fac=0, line 325 *)
Definition grow (fac : R) : R := if Req_b fac 0 then finc else Rmin finc (safe / fac).

(** the loop in lines 243-348; the error of a trial timestep is the function err; given = (dt!=0); preverr=None stands for INFINITY.
    Returns the accepted timestep and the next timestep (None: return 0 with the state unchanged); fuel is a bound on the number of passes. *)
Inductive outcome := Accept (h next : R) | Zero | OutOfFuel.
Fixpoint dopLoop (fuel : nat) (err : R -> R) (given : bool) (nbad : nat) (preverr : option R) (h : R) : outcome :=
  match fuel with
  | O => OutOfFuel
  | S fuel =>
    if Req_b h 0 then Zero else
    let e := err h in
    let fac := root8 e in
    if given || Rle_b e 1 then Accept h (Rabs h * grow fac) else
    let bad := match preverr with Some p => Rlt_b (0.5 * p) e | None => false end in
    if bad then
      let nbad := S nbad in
      let fac := if Nat.leb 2 nbad then 1 / fdec else fac in
      if Nat.leb 4 nbad then Accept h (Rabs h) else
      dopLoop fuel err given nbad (Some e) (h * Rmax fdec (safe / fac))
    else dopLoop fuel err given 0 (Some e) (h * Rmax fdec (safe / fac))
  end.

(** math_ode.cpp:350-384: the end of doStep for the accepted timestep h *)
Definition dopFinish (rhs : R -> vec -> vec) (s : dop) (h next : R) : dop :=
  let st := rkStages rhs (d_time s) (d_x s) (d_k1 s) h in
  let x := d_x s in
  let xt := s_xt st in
  let k13 := rhs (d_time s + h) xt in
  let xd i := xt i - x i in
  let xc i := h * d_k1 s i - xd i in
  let r (d1 d6 d7 d8 d9 d10 d11 d12 d13 : Q) : vec := fun i =>
    h * lc [(d1, s_k1 st); (d6, s_k6 st); (d7, s_k7 st); (d8, s_k8 st); (d9, s_k9 st); (d10, s_k10 st); (d11, s_k11 st); (d12, s_k12 st); (d13, k13)] i in
  mkDop (d_time s + h) (d_time s) next xt k13 x xd xc (fun i => xd i - h * k13 i - xc i)
    (r d41 d46 d47 d48 d49 d410 d411 d412 d413)
    (r d51 d56 d57 d58 d59 d510 d511 d512 d513)
    (r d61 d66 d67 d68 d69 d610 d611 d612 d613)
    (r d71 d76 d77 d78 d79 d710 d711 d712 d713).

(** the argument of doStep: a non-zero number, or a zero and its sign bit *)
Inductive stepArg := Given (dt : R) | Auto (backward : bool).
(** math_ode.cpp:87-386: the returned value and the new state; None if the loop did not end within the fuel *)
Definition dopStep (fuel N : nat) (rhs : R -> vec -> vec) (accFac : R -> vec -> R) (accRel accAbs : R) (dt : stepArg) (s : dop) : option (R * dop) :=
  let timeStep := match dt with Given dt => dt | Auto backward => d_next s * (if backward then -1 else 1) end in
  let given := match dt with Given _ => true | Auto _ => false end in
  let err h := errEst N accFac accRel accAbs (d_time s) (d_x s) h (rkStages rhs (d_time s) (d_x s) (d_k1 s) h) in
  match dopLoop fuel err given 0 None timeStep with
  | Accept h next => Some (h, dopFinish rhs s h next)
  | Zero => Some (0, s)
  | OutOfFuel => None
  end.

(** math_ode.cpp:389-401; None: std::out_of_range *)
Definition dopGetSol (N : nat) (s : dop) (t : R) (i : nat) : option R :=
  if Nat.leb N i then None else
  if Req_b t (d_time s) then Some (d_x s i) else
  if Req_b t (d_timePrev s) then Some (d_rc1 s i) else
  let p := (t - d_timePrev s) / (d_time s - d_timePrev s) in
  let q := 1 - p in
  Some (d_rc1 s i + p * (d_rc2 s i + q * (d_rc3 s i + p * (d_rc4 s i +
    q * (d_rc5 s i + p * (d_rc6 s i + q * (d_rc7 s i + p * d_rc8 s i))))))).

(** ** OdeSolverHermite *)
(** math_ode.h:147-162, math_ode.cpp:426-435: the blocks of the state; the first 4*NDIM/2 numbers of the state in init are the blocks newpos, newvel *)
Record hermite := mkHermite { h_time : R; h_timePrev : R; h_next : ext; h_oldpos : vec; h_oldvel : vec; h_oldacc : vec; h_oldjrk : vec;
  h_newpos : vec; h_newvel : vec; h_newacc : vec; h_newjrk : vec; h_snap : vec; h_crackle : vec }.
(** math_ode.cpp:403-410 *)
Definition hermite_new : hermite := mkHermite 0 0 (Fin 0) zerov zerov zerov zerov zerov zerov zerov zerov zerov zerov.
(** math_ode.cpp:412-420; pos and vel are the halves of stateNew; initStep = initTimeStep *)
Definition hermite_init (initStep : R -> R) (pos vel : vec) (timeNew : option R) (s : hermite) : hermite :=
  let time := match timeNew with Some t => t | None => h_time s end in
  mkHermite time (h_timePrev s) (match h_next s with Fin r => if Req_b r 0 then Fin (initStep time) else h_next s | e => e end)
    (h_oldpos s) (h_oldvel s) (h_oldacc s) (h_oldjrk s) pos vel (h_newacc s) (h_newjrk s) (h_snap s) (h_crackle s).

(** math_ode.cpp:447-466: one trial with the timestep dt from pos, vel, with the acceleration and jerk acc, jrk at the beginning;
    eval = odeSystem.eval: (acceleration, jerk) as a function of the time, position and velocity; n = NDIM/2 *)
Record trial := mkTrial { t_acc : vec; t_jrk : vec; t_snap : vec; t_crackle : vec; t_next : ext }.
Definition hermiteTrial (n : nat) (eval : R -> vec -> vec -> vec * vec) (accRel time dt : R) (pos vel acc jrk : vec) : trial :=
  let newpos i := pos i + dt * (vel i + 0.5 * dt * (acc i + 1/3 * dt * jrk i)) in
  let newvel i := vel i + dt * (acc i + 0.5 * dt * jrk i) in
  let '(newacc, newjrk) := eval (time + dt) newpos newvel in
  let snap i := - (4 * jrk i + 2 * newjrk i) / dt + 6 * (newacc i - acc i) / (dt * dt) in
  let crackle i := 6 * (jrk i + newjrk i - 2 * (newacc i - acc i) / dt) / (dt * dt) in
  let sumasq := vsum n (fun i => newacc i * newacc i) in
  let sumjsq := vsum n (fun i => newjrk i * newjrk i) in
  let sumssq := vsum n (fun i => snap i * snap i) in
  let sumcsq := vsum n (fun i => crackle i * crackle i) in
  mkTrial newacc newjrk snap crackle
    (escale accRel sqrt (ediv (sqrt (sumasq * sumssq) + sumjsq) (sqrt (sumjsq * sumcsq) + sumssq))).
(** math_ode.cpp:446-468: the loop; nleft = the number of repetitions which are still allowed; returns the last timestep used and its trial.
    nextTimeStep < dt*0.5 is false for NaN and INFINITY; a repetition with nextTimeStep=0 is not modelled (None: division by zero). *)
Fixpoint hermiteLoop (nleft : nat) (try : R -> trial) (dt : R) : option (R * trial) :=
  if Req_b dt 0 then None else
  let t := try dt in
  match t_next t, nleft with
  | Fin next, S nleft => if Rlt_b next (dt * 0.5) then hermiteLoop nleft try next else Some (dt, t)
  | _, _ => Some (dt, t)
  end.
(** math_ode.cpp:422-481; None: the timestep is zero or not finite *)
Definition hermiteStep (n : nat) (eval : R -> vec -> vec -> vec * vec) (accRel : R) (dt : stepArg) (s : hermite) : option (R * hermite) :=
  let pos := h_newpos s in
  let vel := h_newvel s in
  let '(acc, jrk) := eval (h_time s) pos vel in
  match (match dt with
         | Given dt => Some (dt, O)
         | Auto backward => match h_next s with Fin r => Some (r * (if backward then -1 else 1), 2%nat) | _ => None end
         end) with
  | None => None
  | Some (timeStep, nleft) =>
    match hermiteLoop nleft (fun dt => hermiteTrial n eval accRel (h_time s) dt pos vel acc jrk) timeStep with
    | None => None
    | Some (dt, t) =>
      let newvel i := vel i + 0.5 * dt * (acc i + t_acc t i + 1/6 * dt * (jrk i - t_jrk t i)) in
      let newpos i := pos i + 0.5 * dt * (vel i + newvel i + 1/6 * dt * (acc i - t_acc t i)) in
      Some (dt, mkHermite (h_time s + dt) (h_time s) (t_next t) pos vel acc jrk newpos newvel (t_acc t) (t_jrk t) (t_snap t) (t_crackle t))
    end
  end.
(** math_ode.cpp:483-495; n = NDIM/2; the index is not checked; ind >= 2n is the same as ind mod n + n *)
Definition hermiteGetSol (n : nat) (s : hermite) (t : R) (ind : nat) : R :=
  let i := Nat.modulo ind n in
  let deltat := t - h_timePrev s in
  if Nat.ltb ind n then
    h_oldpos s i + deltat * (h_oldvel s i + deltat/2 * (h_oldacc s i + deltat/3 * (h_oldjrk s i + deltat/4 * (h_snap s i + deltat/5 * h_crackle s i))))
  else
    h_oldvel s i + deltat * (h_oldacc s i + deltat/2 * (h_oldjrk s i + deltat/3 * (h_snap s i + deltat/4 * h_crackle s i))).
