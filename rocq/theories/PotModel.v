(** Density and potential objects, their composition and modifiers:
    src/potential_base.h, src/potential_base.cpp (densities from the Laplacian), src/potential_composite.h, src/potential_composite.cpp,
    coord.h:49-137 (symmetry types), coord.h:675-735 (combine).
    An object of a class derived from BaseDensity/BasePotential is the record of its virtual functions.  Output pointers that are
    NULL are the `false` entries of a triple of flags; an output variable is `None` when it was not assigned, so that using an
    unassigned variable anywhere makes the result `None`.  Exact reals; CubicSpline functions of time are arbitrary functions R -> R.
    Not modelled: the numerical defaults of totalMass/enclosedMass (their values are parameters), names, stack/heap choice of ALLOC. *)
From Coq Require Import Reals Lra Bool ZArith List.
From Verif Require Import RandReal PolyModel Base BinSearchModel CoordModel OrientModel.
Import ListNotations.
Local Open Scope R_scope.

Inductive cs := Car | Cyl | Sph.
Definition cs_eqb (a b : cs) : bool := match a, b with Car, Car | Cyl, Cyl | Sph, Sph => true | _, _ => false end.
Definition flags := (bool * bool * bool)%type.
Definition eres := (option R * option vec3 * option hess6)%type.
Definition zero3 : vec3 := (0, 0, 0).
Definition zeroH : hess6 := mkH 0 0 0 0 0 0.

(* ---------- symmetry types: coord.h:49-137 ---------- *)
Definition ST_NONE : Z := 0. Definition ST_XREFLECTION : Z := 1. Definition ST_YREFLECTION : Z := 2. Definition ST_ZREFLECTION : Z := 4.
Definition ST_REFLECTION : Z := 8. Definition ST_ZROTATION : Z := 16. Definition ST_ROTATION : Z := 32. Definition ST_UNKNOWN : Z := 64.
Definition ST_BISYMMETRIC : Z := Z.lor ST_ZREFLECTION ST_REFLECTION.
Definition ST_TRIAXIAL : Z := Z.lor (Z.lor (Z.lor ST_XREFLECTION ST_YREFLECTION) ST_ZREFLECTION) ST_REFLECTION.
Definition ST_AXISYMMETRIC : Z := Z.lor ST_TRIAXIAL ST_ZROTATION.
Definition ST_SPHERICAL : Z := Z.lor ST_AXISYMMETRIC ST_ROTATION.
Definition isZRotSymmetric (sym : Z) : bool := Z.eqb (Z.land sym ST_ZROTATION) ST_ZROTATION.
Definition isSpherical (sym : Z) : bool := Z.eqb (Z.land sym ST_SPHERICAL) ST_SPHERICAL.
Definition isUnknown (sym : Z) : bool := Z.ltb sym 0 || Z.ltb ST_SPHERICAL sym.

(* ---------- objects ---------- *)
(** potential_base.h:42-118 BaseDensity: densityCar/Cyl/Sph(pos, time), evalmanyDensityCar/Cyl/Sph, totalMass, enclosedMass, symmetry *)
Record dens := mkDens { d_density : cs -> R -> vec3 -> R; d_many : cs -> R -> list vec3 -> list R;
  d_mass : R; d_encl : R -> R; d_sym : Z }.
(** potential_base.h:140-196 BasePotential; p_kind = which of BasePotentialCar/Cyl/Sph the class derives from, if any *)
Record pot := mkPot { p_dens : dens; p_kind : option cs; p_eval : cs -> flags -> R -> vec3 -> eres }.
(** potential_base.h:88-106 default evalmanyDensity: a loop over points *)
Definition many_default (density : cs -> R -> vec3 -> R) : cs -> R -> list vec3 -> list R := fun s t ps => map (density s t) ps.

(* ---------- conversions between the three systems, by name ---------- *)
Definition toPosG (out int : cs) : vec3 -> vec3 :=
  match out, int with
  | Car, Cyl => toPos_CY | Car, Sph => toPos_CS | Cyl, Car => toPos_YC | Cyl, Sph => toPos_YS | Sph, Car => toPos_SC | Sph, Cyl => toPos_SY
  | _, _ => fun p => p end.
Definition posDG (out int : cs) : vec3 -> vec3 :=
  match out, int with
  | Car, Cyl => posD_CY | Car, Sph => posD_CS | Cyl, Car => posD_YC | Cyl, Sph => posD_YS | Sph, Car => posD_SC | Sph, Cyl => posD_SY
  | _, _ => fun p => p end.
(** toGrad<int,out>(g, coordDeriv at pos) *)
Definition gradG (out int : cs) (pos g : vec3) : vec3 :=
  match out, int with
  | Car, Cyl => toGrad_CY g (deriv_CY pos) | Car, Sph => toGrad_CS g (deriv_CS pos)
  | Cyl, Car => toGrad_YC g (deriv_YC pos) | Cyl, Sph => toGrad_YS g (deriv_YS pos)
  | Sph, Car => toGrad_SC g (deriv_SC pos) | Sph, Cyl => toGrad_SY g (deriv_SY pos)
  | _, _ => g end.
(** toHess<int,out>(g, h, coordDeriv, coordDeriv2 at pos) *)
Definition hessG (out int : cs) (pos g : vec3) (h : hess6) : hess6 :=
  match out, int with
  | Car, Cyl => toHess_CY g h (deriv_CY pos) (deriv2_CY pos) | Car, Sph => toHess_CS g h (deriv_CS pos) (deriv2_CS pos)
  | Cyl, Car => toHess_YC g h (deriv_YC pos) (deriv2_YC pos) | Cyl, Sph => toHess_YS g h (deriv_YS pos) (deriv2_YS pos)
  | Sph, Car => toHess_SC g h (deriv_SC pos) (deriv2_SC pos) | Sph, Cyl => toHess_SY g h (deriv_SY pos) (deriv2_SY pos)
  | _, _ => h end.
Definition toPosCar (s : cs) : vec3 -> vec3 := toPosG s Car.

Definition omap {A B} (f : A -> B) (a : option A) : option B := match a with Some x => Some (f x) | None => None end.
Definition omap2 {A B C} (f : A -> B -> C) (a : option A) (b : option B) : option C := match a, b with Some x, Some y => Some (f x y) | _, _ => None end.
(** coord.h:675-735 combine(A, B, a, b): A = a*A + b*B in each field *)
Definition combineG (a b : R) (A B : vec3) : vec3 := (a * v1 A + b * v1 B, a * v2 A + b * v2 B, a * v3 A + b * v3 B).
Definition combineH (a b : R) (A B : hess6) : hess6 :=
  mkH (a * h11 A + b * h11 B) (a * h22 A + b * h22 B) (a * h33 A + b * h33 B) (a * h12 A + b * h12 B) (a * h23 A + b * h23 B) (a * h13 A + b * h13 B).

(** coord.h:831-855 evalAndConvert<int,out>, with NULL pointers; F is evalScalar of the function in its own system *)
Definition convert (out int : cs) (F : flags -> vec3 -> eres) (fl : flags) (pos : vec3) : eres :=
  let '(wp, wg, wh) := fl in
  let needDeriv := wg || wh in let needDeriv2 := wh in
  let evalPos := if needDeriv then posDG out int pos else toPosG out int pos in
  let '(value, evalGrad, evalHess) := F (wp, needDeriv, needDeriv2) evalPos in
  (if wp then value else None,
   if wg then omap (gradG out int pos) evalGrad else None,
   if wh then omap2 (hessG out int pos) evalGrad evalHess else None).

(* ---------- densities from the Laplacian: potential_base.cpp:42-90 ---------- *)
(** math_base.h:21-24 *)
Definition DBL_EPSILON : R := / (2 ^ 52).
Definition SQRT_DBL_EPSILON : R := / (2 ^ 26).
Definition ROOT3_DBL_EPSILON : R := 60554544523933429 / 10 ^ 22.
(** potential_base.cpp:26 *)
Definition EPSREL_DENSITY_DER : R := DBL_EPSILON / ROOT3_DBL_EPSILON.
(** an unassigned output is replaced by zero here; every object considered assigns the requested outputs *)
Definition gof (r : eres) : vec3 := match r with (_, Some g, _) => g | _ => zero3 end.
Definition hof (r : eres) : hess6 := match r with (_, _, Some h) => h | _ => zeroH end.
(** potential_base.cpp:42-47 *)
Definition lapCar (ev : flags -> vec3 -> eres) (pos : vec3) : R :=
  let d2 := hof (ev (false, false, true) pos) in (h11 d2 + h22 d2 + h33 d2) * (1 / (4 * PI)).
(** potential_base.cpp:49-66; Hessian in Cyl: h11=dR2, h22=dz2, h33=dphi2 *)
Definition lapCyl (ev : flags -> vec3 -> eres) (pos : vec3) : R :=
  let '(Rc, z, phi) := pos in
  let r := ev (false, true, true) pos in let d := gof r in let d2 := hof r in
  let '(derivR_over_R, deriv2phi_over_R2) :=
    if Rle_b Rc (Rabs z * SQRT_DBL_EPSILON) then (h11 d2, 0) else (v1 d / Rc, h33 d2 / pow_2 Rc) in
  let result := h11 d2 + derivR_over_R + h22 d2 + deriv2phi_over_R2 in
  if negb (Rlt_b (EPSREL_DENSITY_DER * (Rabs (h11 d2) + Rabs derivR_over_R + Rabs (h22 d2) + Rabs deriv2phi_over_R2)) (Rabs result))
  then 0 else result / (4 * PI).
(** potential_base.cpp:68-90; Hessian in Sph: h11=dr2, h22=dtheta2, h33=dphi2 *)
Definition lapSph (ev : flags -> vec3 -> eres) (pos : vec3) : R :=
  let '(r, theta, phi) := pos in
  let e := ev (false, true, true) pos in let d := gof e in let d2 := hof e in
  let sintheta := sin theta in let costheta := cos theta in
  let derivtheta_cottheta := if Req_b sintheta 0 then h22 d2 else v2 d * costheta / sintheta in
  let '(derivr_over_r, angular_part) :=
    if Req_b r 0 then (h11 d2, 0)
    else (v1 d / r, (h22 d2 + derivtheta_cottheta + (if negb (Req_b sintheta 0) then h33 d2 / pow_2 sintheta else 0)) / pow_2 r) in
  let result := h11 d2 + 2 * derivr_over_r + angular_part in
  if negb (Rlt_b (EPSREL_DENSITY_DER * (Rabs (h11 d2) + Rabs (2 * derivr_over_r) + Rabs angular_part)) (Rabs result))
  then 0 else result / (4 * PI).

(* ---------- base classes of potentials ---------- *)
(** potential_base.h:206-231 BasePotentialCar, 237-262 BasePotentialCyl, 268-293 BasePotentialSph: the class implements `native`,
    its evaluation in system k; the other two systems convert; the density is computed in system k *)
Definition base_eval (k : cs) (native : flags -> R -> vec3 -> eres) : cs -> flags -> R -> vec3 -> eres :=
  fun s fl t pos => if cs_eqb s k then native fl t pos else convert s k (fun f => native f t) fl pos.
Definition base_density (k : cs) (dn : R -> vec3 -> R) : cs -> R -> vec3 -> R := fun s t pos => dn t (toPosG s k pos).
(** density computed from the Laplacian in the native system *)
Definition lapG (k : cs) (ev : flags -> vec3 -> eres) : vec3 -> R := match k with Car => lapCar ev | Cyl => lapCyl ev | Sph => lapSph ev end.
Definition basePot (k : cs) (native : flags -> R -> vec3 -> eres) (dn : R -> vec3 -> R) (mass : R) (encl : R -> R) (sym : Z) : pot :=
  mkPot (mkDens (base_density k dn) (many_default (base_density k dn)) mass encl sym) (Some k) (base_eval k native).
(** potential_base.h:301-331 BasePotentialSphericallySymmetric: F r = evalDeriv at radius r: value, first and second derivative;
    coord.cpp:923-1006 evalAndConvertSph (CoordModel) with NULL pointers *)
Definition maskres (fl : flags) (x : R * vec3 * hess6) : eres :=
  let '(wp, wg, wh) := fl in let '(v, g, h) := x in
  (if wp then Some v else None, if wg then Some g else None, if wh then Some h else None).
Definition sphEval (F : R -> R * R * R) (s : cs) (pos : vec3) : R * vec3 * hess6 :=
  let r := match s with Car => sphR_C pos | Cyl => sphR_Y pos | Sph => v1 pos end in
  let '(v, d, d2) := F r in
  match s with
  | Car => (v, sphGrad_C pos d, sphHess_C pos d d2)
  | Cyl => (v, sphGrad_Y pos d, sphHess_Y pos d d2)
  | Sph => (v, sphGrad_S pos d, sphHess_S pos d d2) end.
Definition sphericalPot (F : R -> R * R * R) (dn : vec3 -> R) (mass : R) (encl : R -> R) : pot :=
  let density := fun (s : cs) (t : R) pos => dn (toPosG s Sph pos) in
  mkPot (mkDens density (many_default density) mass encl ST_SPHERICAL) None (fun s fl t pos => maskres fl (sphEval F s pos)).

(* ---------- composite objects ---------- *)
(** the loops `sum += ...` over components, starting from 0 *)
Definition sumloop {A} (f : A -> R) (l : list A) : R := fold_left (fun sum c => sum + f c) l 0.
(** potential_composite.cpp:223-258, 347-382: first component, then += the others; `values[p] += tmpvalues[p]` *)
Fixpoint addlists (a b : list R) : list R := match a, b with x :: a', y :: b' => (x + y) :: addlists a' b' | _, _ => a end.
Definition composite_many {A} (f : A -> list R) (l : list A) : list R :=
  match l with [] => [] | c :: l' => fold_left (fun values c => addlists values (f c)) l' (f c) end.
(** potential_composite.cpp:267-276, 392-401 symmetry() *)
Fixpoint composite_sym_loop (sym : Z) (l : list Z) : Z :=
  match l with
  | [] => sym
  | csym :: l' => if isUnknown csym then csym else composite_sym_loop (Z.land sym csym) l'
  end.
(** potential_composite.cpp:195-287 CompositeDensity *)
Definition CompositeDensity (l : list dens) (encl : R -> R) : option dens :=
  match l with [] => None | _ => Some
    (mkDens (fun s t pos => sumloop (fun c => d_density c s t pos) l)
            (fun s t ps => composite_many (fun c => d_many c s t ps) l)
            (sumloop d_mass l) encl (composite_sym_loop ST_SPHERICAL (map d_sym l))) end.

(** potential_composite.cpp:24-27 identifiers and 297-308 componentTypes (zero-initialised) *)
Definition CoordT_id (s : cs) : Z := match s with Car => 1 | Cyl => 2 | Sph => 3 end.
Definition componentType (c : pot) : Z := match p_kind c with Some k => CoordT_id k | None => 0 end.

Definition internal := option (vec3 * option vec3 * option hess6)%type.
Record acc := mkAcc { a_pot : option R; a_der : option vec3; a_der2 : option hess6; a_i1 : internal; a_i2 : internal }.
(** potential_composite.cpp:88-110 and 111-132: a component evaluated in an internal system *)
Definition evalInternal (out int : cs) (fl : flags) (t : R) (pos : vec3) (c : pot) (p : option R) (i : internal) : option R * internal :=
  let '(wp, wg, wh) := fl in let needDeriv := wg || wh in let needDeriv2 := wh in
  let '(ipos, ig, ih) := match i with
    | Some x => x
    | None => (if needDeriv then posDG out int pos else toPosG out int pos, Some zero3, Some zeroH) end in
  let '(v, g, h) := p_eval c int (wp, needDeriv, needDeriv2) t ipos in
  (if wp then omap2 Rplus p v else p,
   Some (ipos, if needDeriv then omap2 (combineG 1 1) ig g else ig, if needDeriv2 then omap2 (combineH 1 1) ih h else ih)).
(** potential_composite.cpp:84-146 body of the loop *)
Definition evalStep (int1 int2 out : cs) (fl : flags) (t : R) (pos : vec3) (a : acc) (c : pot) : acc :=
  let '(wp, wg, wh) := fl in
  let ty := componentType c in
  if Z.eqb ty (CoordT_id int1) then
    let '(p, i) := evalInternal out int1 fl t pos c (a_pot a) (a_i1 a) in mkAcc p (a_der a) (a_der2 a) i (a_i2 a)
  else if Z.eqb ty (CoordT_id int2) then
    let '(p, i) := evalInternal out int2 fl t pos c (a_pot a) (a_i2 a) in mkAcc p (a_der a) (a_der2 a) (a_i1 a) i
  else
    let '(v, g, h) := p_eval c out (wp, wg, wh) t pos in
    mkAcc (if wp then omap2 Rplus (a_pot a) v else a_pot a)
          (if wg then omap2 (combineG 1 1) (a_der a) g else a_der a)
          (if wh then omap2 (combineH 1 1) (a_der2 a) h else a_der2 a) (a_i1 a) (a_i2 a).
(** potential_composite.cpp:150-162: add the contribution accumulated in one internal system *)
Definition addInternal (out int : cs) (fl : flags) (pos : vec3) (i : internal) (d : option vec3) (d2 : option hess6) : option vec3 * option hess6 :=
  let '(wp, wg, wh) := fl in
  match i with
  | None => (d, d2)
  | Some (_, ig, ih) =>
    (if wg then omap2 (combineG 1 1) d (omap (gradG out int pos) ig) else d,
     if wh then omap2 (combineH 1 1) d2 (omap2 (hessG out int pos) ig ih) else d2)
  end.
(** potential_composite.cpp:50-163 evalComponents<int1, int2, out> *)
Definition evalComponents (int1 int2 out : cs) (comps : list pot) (fl : flags) (t : R) (pos : vec3) : eres :=
  let '(wp, wg, wh) := fl in
  let a0 := mkAcc (if wp then Some 0 else None) (if wg then Some zero3 else None) (if wh then Some zeroH else None) None None in
  let a := fold_left (evalStep int1 int2 out fl t pos) comps a0 in
  let '(d, d2) := addInternal out int1 fl pos (a_i1 a) (a_der a) (a_der2 a) in
  let '(d', d2') := addInternal out int2 fl pos (a_i2 a) d d2 in
  (a_pot a, d', d2').
(** potential_composite.cpp:289-411 Composite *)
Definition Composite (l : list pot) (encl : R -> R) : option pot :=
  match l with [] => None | _ => Some (mkPot
    (mkDens (fun s t pos => sumloop (fun c => d_density (p_dens c) s t pos) l)
            (fun s t ps => composite_many (fun c => d_many (p_dens c) s t ps) l)
            (sumloop (fun c => d_mass (p_dens c)) l) encl (composite_sym_loop ST_SPHERICAL (map (fun c => d_sym (p_dens c)) l)))
    None
    (fun s => match s with
      | Car => evalComponents Cyl Sph Car l
      | Cyl => evalComponents Car Sph Cyl l
      | Sph => evalComponents Car Cyl Sph l end)) end.

(* ---------- Evolving ---------- *)
(** potential_composite.cpp:166-191 searchInterp: index of the left node and its weight *)
Definition searchInterp (val : R) (arr : list R) (interpLinear : bool) : res (Z * R) :=
  let size := zlen arr in
  index <- binSearchR val arr ;;
  if Z.ltb index 0 then Ok (0%Z, 1)
  else if Z.leb (size - 1) index then Ok ((size - 1)%Z, 1)
  else
    a1 <- get arr (index + 1) ;;
    a0 <- get arr index ;;
    if interpLinear then Ok (index, (a1 - val) / (a1 - a0))
    else if Rlt_b (a1 - val) (val - a0) then Ok ((index + 1)%Z, 1) else Ok (index, 1).
(** potential_composite.cpp:424-435: the loop of the constructor *)
Fixpoint evolving_sym (sym : Z) (prev : R) (l : list (R * Z)) : option Z :=
  match l with
  | [] => Some sym
  | (ti, isym) :: l' =>
    if negb (Rlt_b prev ti) then None
    else evolving_sym (if isUnknown isym || isUnknown sym then ST_UNKNOWN else Z.land sym isym) ti l'
  end.
(** potential_composite.cpp:440-460 evalCar *)
Definition evolving_eval (times : list R) (insts : list pot) (interpLinear : bool) (fl : flags) (t : R) (pos : vec3) : eres :=
  let '(wp, wg, wh) := fl in
  match searchInterp t times interpLinear with
  | Ok (index, weight) =>
    match get insts index with
    | Ok c =>
      let '(v, g, h) := p_eval c Car fl t pos in
      if negb (Req_b weight 1) then
        match get insts (index + 1) with
        | Ok c1 =>
          let '(v', g', h') := p_eval c1 Car (wp, wg, wh) t pos in
          (if wp then omap2 (fun a b => weight * a + (1 - weight) * b) v v' else v,
           if wg then omap2 (combineG weight (1 - weight)) g g' else g,
           if wh then omap2 (combineH weight (1 - weight)) h h' else h)
        | _ => (None, None, None) end
      else (v, g, h)
    | _ => (None, None, None) end
  | _ => (None, None, None) end.
(** potential_composite.cpp:462-471 densityCar (an out-of-range access would give an arbitrary number: 0 here) *)
Definition evolving_density (times : list R) (insts : list pot) (interpLinear : bool) (t : R) (pos : vec3) : R :=
  match searchInterp t times interpLinear with
  | Ok (index, weight) =>
    match get insts index with
    | Ok c =>
      let result := d_density (p_dens c) Car t pos in
      if negb (Req_b weight 1) then
        match get insts (index + 1) with
        | Ok c1 => weight * result + (1 - weight) * d_density (p_dens c1) Car t pos
        | _ => 0 end
      else result
    | _ => 0 end
  | _ => 0 end.
(** potential_composite.cpp:414-437 constructor; Evolving derives from BasePotentialCar (potential_composite.h:97) *)
Definition Evolving (times : list R) (insts : list pot) (interpLinear : bool) (mass : R) (encl : R -> R) : option pot :=
  if negb (Nat.eqb (length times) (length insts)) then None else
  match times, insts with
  | t0 :: times', c0 :: insts' =>
    match evolving_sym (d_sym (p_dens c0)) t0 (combine times' (map (fun c => d_sym (p_dens c)) insts')) with
    | None => None
    | Some sym => Some (basePot Car (evolving_eval times insts interpLinear) (evolving_density times insts interpLinear) mass encl sym)
    end
  | _, _ => None
  end.

(* ---------- UniformAcceleration: potential_composite.h:123-155 ---------- *)
Definition UniformAcceleration (accx accy accz : R -> R) (mass : R) (encl : R -> R) : pot :=
  let native := fun (fl : flags) (t : R) (pos : vec3) =>
    let dx := - accx t in let dy := - accy t in let dz := - accz t in
    maskres fl (v1 pos * dx + v2 pos * dy + v3 pos * dz, (dx, dy, dz), zeroH) in
  basePot Car native (fun t => lapCar (fun fl => native fl t)) mass encl ST_NONE.

(* ---------- Shifted ---------- *)
(** potential_composite.h:192-195, 240-251 *)
Definition shiftPos (cx cy cz : R -> R) (t : R) (p : vec3) : vec3 := (v1 p - cx t, v2 p - cy t, v3 p - cz t).
(** potential_composite.h:166-208 and potential_composite.cpp:477-505 Shifted<BaseDensity> *)
Definition Shifted_dens (d : dens) (cx cy cz : R -> R) (encl : R -> R) : dens :=
  mkDens (fun s t pos => d_density d Car t (shiftPos cx cy cz t (toPosCar s pos)))
         (fun s t ps => d_many d Car t (map (fun p => shiftPos cx cy cz t (toPosCar s p)) ps))
         (d_mass d) encl (if isUnknown (d_sym d) then ST_UNKNOWN else ST_NONE).
(** potential_composite.h:211-257 Shifted<BasePotential>: derives from BasePotentialCar *)
Definition Shifted (c : pot) (cx cy cz : R -> R) (encl : R -> R) : pot :=
  mkPot (Shifted_dens (p_dens c) cx cy cz encl) (Some Car)
    (base_eval Car (fun fl t pos => p_eval c Car fl t (shiftPos cx cy cz t pos))).

(* ---------- Tilted ---------- *)
(** potential_composite.h:260-299 and potential_composite.cpp:521-558, 560-564 Tilted<BaseDensity> *)
Definition tilted_sym (sym : Z) : Z := if isUnknown sym || isSpherical sym then sym else Z.land sym ST_REFLECTION.
Definition Tilted_dens (d : dens) (alpha beta gamma : R) : dens :=
  let m := Orientation alpha beta gamma in
  mkDens (fun s t pos => d_density d Car t (toRotated m (toPosCar s pos)))
         (fun s t ps => d_many d Car t (map (fun p => toRotated m (toPosCar s p)) ps))
         (d_mass d) (d_encl d) (tilted_sym (d_sym d)).
(** potential_composite.h:302-346, potential_composite.cpp:566-570 Tilted<BasePotential> *)
Definition Tilted (c : pot) (alpha beta gamma : R) : pot :=
  let m := Orientation alpha beta gamma in
  mkPot (Tilted_dens (p_dens c) alpha beta gamma) (Some Car)
    (base_eval Car (fun fl t pos =>
       let '(wp, wg, wh) := fl in
       let '(v, g, h) := p_eval c Car fl t (toRotated m pos) in
       (v, if wg then omap (fromRotated m) g else g, if wh then omap (fromRotatedH m) h else h))).

(* ---------- Rotating ---------- *)
Definition rotPos (s : cs) (a : R) (p : vec3) : vec3 :=
  match s with
  | Car => (v1 p * cos a + v2 p * sin a, v2 p * cos a - v1 p * sin a, v3 p)
  | _ => (v1 p, v2 p, v3 p - a) end.
(** potential_composite.cpp:698-702, 704-708 *)
Definition rotating_sym (sym : Z) : Z := if isUnknown sym || isZRotSymmetric sym then sym else Z.land sym ST_BISYMMETRIC.
(** potential_composite.h:351-383, potential_composite.cpp:573-611 Rotating<BaseDensity> *)
Definition Rotating_dens (d : dens) (angle : R -> R) : dens :=
  mkDens (fun s t pos => d_density d s t (rotPos s (angle t) pos))
         (fun s t ps => d_many d s t (map (rotPos s (angle t)) ps))
         (d_mass d) (d_encl d) (rotating_sym (d_sym d)).
(** potential_composite.cpp:673-682: gradient and Hessian in Cartesian coordinates *)
Definition rotGrad (ca sa : R) (g : vec3) : vec3 := (v1 g * ca - v2 g * sa, v2 g * ca + v1 g * sa, v3 g).
Definition rotHess (ca sa : R) (h : hess6) : hess6 :=
  {| h11 := ca * ca * h11 h + sa * sa * h22 h - 2 * ca * sa * h12 h;
     h22 := sa * sa * h11 h + ca * ca * h22 h + 2 * ca * sa * h12 h;
     h12 := ca * sa * (h11 h - h22 h) + (ca * ca - sa * sa) * h12 h;
     h13 := ca * h13 h - sa * h23 h;
     h23 := ca * h23 h + sa * h13 h;
     h33 := h33 h |}.
(** potential_composite.h:387-425, potential_composite.cpp:613-696 Rotating<BasePotential> *)
Definition Rotating (c : pot) (angle : R -> R) : pot :=
  mkPot (Rotating_dens (p_dens c) angle) None
    (fun s fl t pos => match s with
     | Car =>
       let '(wp, wg, wh) := fl in let sa := sin (angle t) in let ca := cos (angle t) in
       let '(v, g, h) := p_eval c Car (wp, wg, wh) t (rotPos Car (angle t) pos) in
       (v, if wg then omap (rotGrad ca sa) g else None, if wh then omap (rotHess ca sa) h else None)
     | s => p_eval c s fl t (rotPos s (angle t) pos) end).

(* ---------- Scaled ---------- *)
Definition scalePos (s : cs) (k : R) (p : vec3) : vec3 :=
  match s with
  | Car => (v1 p * k, v2 p * k, v3 p * k)
  | Cyl => (v1 p * k, v2 p * k, v3 p)
  | Sph => (v1 p * k, v2 p, v3 p) end.
(** potential_composite.h:430-480, potential_composite.cpp:711-748 Scaled<BaseDensity> *)
Definition Scaled_dens (d : dens) (ampl scale : R -> R) : dens :=
  mkDens (fun s t pos => let k := 1 / scale t in k * k * k * ampl t * d_density d s t (scalePos s k pos))
         (fun s t ps => let k := 1 / scale t in let as3 := pow_3 k * ampl t in
            map (fun v => v * as3) (d_many d s t (map (scalePos s k) ps)))
         (d_mass d * ampl 0) (fun r => d_encl d (r / scale 0) * ampl 0) (d_sym d).
Definition scaleGrad (s : cs) (as1 as2 : R) (g : vec3) : vec3 :=
  match s with
  | Car => (v1 g * as2, v2 g * as2, v3 g * as2)
  | Cyl => (v1 g * as2, v2 g * as2, v3 g * as1)
  | Sph => (v1 g * as2, v2 g * as1, v3 g * as1) end.
Definition scaleHess (s : cs) (as1 as2 as3 : R) (h : hess6) : hess6 :=
  match s with
  | Car => mkH (h11 h * as3) (h22 h * as3) (h33 h * as3) (h12 h * as3) (h23 h * as3) (h13 h * as3)
  | Cyl => mkH (h11 h * as3) (h22 h * as3) (h33 h * as1) (h12 h * as3) (h23 h * as2) (h13 h * as2)
  | Sph => mkH (h11 h * as3) (h22 h * as1) (h33 h * as1) (h12 h * as2) (h23 h * as1) (h13 h * as2) end.
(** potential_composite.h:483-540, potential_composite.cpp:750-827 Scaled<BasePotential> *)
Definition Scaled (c : pot) (ampl scale : R -> R) : pot :=
  mkPot (Scaled_dens (p_dens c) ampl scale) None
    (fun s fl t pos =>
       let '(wp, wg, wh) := fl in
       let k := 1 / scale t in let as1 := ampl t * k in let as2 := as1 * k in let as3 := as2 * k in
       let '(v, g, h) := p_eval c s fl t (scalePos s k pos) in
       (if wp then omap (fun x => x * as1) v else v,
        if wg then omap (scaleGrad s as1 as2) g else g,
        if wh then omap (scaleHess s as1 as2 as3) h else h)).
