(** Model of src/potential_ferrers.cpp (Ferrers n=2 potential) and of the spherical case of src/potential_dehnen.cpp; exact real arithmetic. *)
From Coq Require Import Reals Lra Bool.
From Coquelicot Require Import Coquelicot.
From Verif Require Import RandReal PolyModel CoordModel DiskModel.
Local Open Scope R_scope.

(** math::ellintF, math::ellintE (math_specfunc.cpp:309-315): Legendre elliptic integrals of GSL *)
Definition ellintF (phi k : R) : R := RInt (fun t => 1 / sqrt (1 - (k * sin t) ^ 2)) 0 phi.
Definition ellintE (phi k : R) : R := RInt (fun t => sqrt (1 - (k * sin t) ^ 2)) 0 phi.

(** data members of Ferrers, potential_ferrers.h:32-34 *)
Record ferrers := mkFer { fa : R; fb : R; fc : R; fmass : R; frho0 : R }.
(** Ferrers::Ferrers, potential_ferrers.cpp:17-25; None: std::invalid_argument *)
Definition ferConstruct (mass r p q : R) : option ferrers :=
  let a := r in let b := r * p in let c := r * q in
  if negb (Rlt_b 0 r) then None
  else if negb (Rlt_b p 1 && Rlt_b q p && Rlt_b 0 q) then None
  else Some (mkFer a b c mass (mass * 105 / (32 * PI * a * b * c))).
(** Ferrers::densityCar, potential_ferrers.cpp:27-31 *)
Definition ferDensity (P : ferrers) (pos : vec3) : R :=
  let '(x, y, z) := pos in
  let m2 := pow_2 (x / fa P) + pow_2 (y / fb P) + pow_2 (z / fc P) in
  if Rlt_b 1 m2 then 0 else frho0 P * pow_2 (1 - m2).

(** the array of 20 coefficients *)
Record wtab := mkW { w0 : R; w1 : R; w2 : R; w3 : R; w4 : R; w5 : R; w6 : R; w7 : R; w8 : R; w9 : R; w10 : R; w11 : R; w12 : R; w13 : R; w14 : R; w15 : R; w16 : R; w17 : R; w18 : R; w19 : R }.
(** Ferrers::computeW, potential_ferrers.cpp:133-163 *)
Definition computeW (P : ferrers) (lambda : R) : wtab :=
  let a := fa P in let b := fb P in let c := fc P in
  let ab2 := a * a - b * b in let ab := sqrt ab2 in
  let ac2 := a * a - c * c in let ac := sqrt ac2 in
  let bc2 := b * b - c * c in
  let denom := sqrt ((lambda + a * a) * (lambda + b * b) * (lambda + c * c)) in
  let argphi := asin (sqrt (ac2 / (a * a + lambda))) in
  let E := ellintE argphi (ab / ac) in
  let F := ellintF argphi (ab / ac) in
  let W0 := 2 * F / ac in
  let W1 := 2 * (F - E) / (ab2 * ac) in
  let W3 := 2 / bc2 * (b * b + lambda) / denom - 2 * E / bc2 / ac in
  let W2 := 2 / denom - W1 - W3 in
  let W4 := (W2 - W1) / ab2 in
  let W5 := (W3 - W2) / bc2 in
  let W6 := - (W1 - W3) / ac2 in
  let W7 := (2 / denom / (a * a + lambda) - W4 - W6) / 3 in
  let W8 := (2 / denom / (b * b + lambda) - W5 - W4) / 3 in
  let W9 := (2 / denom / (c * c + lambda) - W6 - W5) / 3 in
  let W10 := - (W4 - W5) / ac2 in
  let W11 := (W8 - W4) / ab2 in
  let W12 := (W9 - W5) / bc2 in
  let W13 := - (W7 - W6) / ac2 in
  let W14 := (W4 - W7) / ab2 in
  let W15 := (W5 - W8) / bc2 in
  let W16 := - (W6 - W9) / ac2 in
  let W17 := (2 / denom / pow_2 (a * a + lambda) - W14 - W13) / 5 in
  let W18 := (2 / denom / pow_2 (b * b + lambda) - W15 - W11) / 5 in
  let W19 := (2 / denom / pow_2 (c * c + lambda) - W16 - W12) / 5 in
  mkW W0 W1 W2 W3 W4 W5 W6 W7 W8 W9 W10 W11 W12 W13 W14 W15 W16 W17 W18 W19.

(** the part of Ferrers::evalCar inside 10 scale radii, potential_ferrers.cpp:90-130 *)
Definition ferNear (P : ferrers) (W : wtab) (pos : vec3) : R * vec3 * hess6 :=
  let '(x, y, z) := pos in
  let X2 := pow_2 x in let Y2 := pow_2 y in let Z2 := pow_2 z in
  let mult := 2 * PI * frho0 P * fa P * fb P * fc P in
  (- PI / 3 * frho0 P * fa P * fb P * fc P * (w0 W - 6 * w10 W * X2 * Y2 * Z2
     + X2 * (X2 * (3 * w7 W - X2 * w17 W) + 3 * Y2 * (2 * w4 W - Y2 * w11 W - X2 * w14 W) - 3 * w1 W)
     + Y2 * (Y2 * (3 * w8 W - Y2 * w18 W) + 3 * Z2 * (2 * w5 W - Z2 * w12 W - Y2 * w15 W) - 3 * w2 W)
     + Z2 * (Z2 * (3 * w9 W - Z2 * w19 W) + 3 * X2 * (2 * w6 W - X2 * w13 W - Z2 * w16 W) - 3 * w3 W)),
   (x * mult * (w1 W + X2 * (X2 * w17 W + 2 * Y2 * w14 W - 2 * w7 W) + Y2 * (Y2 * w11 W + 2 * Z2 * w10 W - 2 * w4 W) + Z2 * (Z2 * w16 W + 2 * X2 * w13 W - 2 * w6 W)),
    y * mult * (w2 W + X2 * (X2 * w14 W + 2 * Y2 * w11 W - 2 * w4 W) + Y2 * (Y2 * w18 W + 2 * Z2 * w15 W - 2 * w8 W) + Z2 * (Z2 * w12 W + 2 * X2 * w10 W - 2 * w5 W)),
    z * mult * (w3 W + X2 * (X2 * w13 W + 2 * Y2 * w10 W - 2 * w6 W) + Y2 * (Y2 * w15 W + 2 * Z2 * w12 W - 2 * w5 W) + Z2 * (Z2 * w19 W + 2 * X2 * w16 W - 2 * w9 W))),
   {| h11 := mult * (w1 W + X2 * (5 * X2 * w17 W + 6 * Y2 * w14 W - 6 * w7 W) + Y2 * (Y2 * w11 W + 2 * Z2 * w10 W - 2 * w4 W) + Z2 * (Z2 * w16 W + 6 * X2 * w13 W - 2 * w6 W));
      h22 := mult * (w2 W + X2 * (X2 * w14 W + 6 * Y2 * w11 W - 2 * w4 W) + Y2 * (5 * Y2 * w18 W + 6 * Z2 * w15 W - 6 * w8 W) + Z2 * (Z2 * w12 W + 2 * X2 * w10 W - 2 * w5 W));
      h33 := mult * (w3 W + X2 * (X2 * w13 W + 2 * Y2 * w10 W - 2 * w6 W) + Y2 * (Y2 * w15 W + 6 * Z2 * w12 W - 2 * w5 W) + Z2 * (5 * Z2 * w19 W + 6 * X2 * w16 W - 6 * w9 W));
      h12 := mult * 4 * x * y * (X2 * w14 W + Y2 * w11 W + Z2 * w10 W - w4 W);
      h23 := mult * 4 * y * z * (X2 * w10 W + Y2 * w15 W + Z2 * w12 W - w5 W);
      h13 := mult * 4 * z * x * (X2 * w13 W + Y2 * w10 W + Z2 * w16 W - w6 W) |}).
(** the part beyond 10 scale radii, potential_ferrers.cpp:63-88 *)
Definition ferFar (P : ferrers) (pos : vec3) : R * vec3 * hess6 :=
  let '(x, y, z) := pos in
  let a := fa P in let b := fb P in let c := fc P in
  let X2 := pow_2 x in let Y2 := pow_2 y in let Z2 := pow_2 z in
  let r2 := X2 + Y2 + Z2 in
  let Mr := 32 * PI / 105 * frho0 P * a * b * c / sqrt r2 in
  let Mr3 := Mr / r2 in
  let C20 := 1 / 36 * (2 * c * c - a * a - b * b) in let C22 := 1 / 12 * (b * b - a * a) in
  let add := 5 * (C20 * (2 * Z2 - X2 - Y2) + C22 * (Y2 - X2)) / (r2 * r2) in
  (- Mr * (1 + (1 / 36 * (2 * c * c - a * a - b * b) * (2 * Z2 - X2 - Y2) + 1 / 12 * (b * b - a * a) * (Y2 - X2)) / (r2 * r2)),
   (x * Mr3 * (1 + add + 2 * (C20 + C22) / r2), y * Mr3 * (1 + add + 2 * (C20 - C22) / r2), z * Mr3 * (1 + add - 4 * C20 / r2)),
   {| h11 := Mr3 * (1 - 3 * X2 / r2 + add * (1 - 7 * X2 / r2) + 2 * (C20 + C22) / r2 * (1 - 10 * X2 / r2));
      h22 := Mr3 * (1 - 3 * Y2 / r2 + add * (1 - 7 * Y2 / r2) + 2 * (C20 - C22) / r2 * (1 - 10 * Y2 / r2));
      h33 := Mr3 * (1 - 3 * Z2 / r2 + add * (1 - 7 * Z2 / r2) - 4 * C20 / r2 * (1 - 10 * Z2 / r2));
      h12 := Mr3 * x * y / r2 * (- 3 - add * 7 - 20 * C20 / r2);
      h23 := Mr3 * y * z / r2 * (- 3 - add * 7 + 10 * (C20 + C22) / r2);
      h13 := Mr3 * z * x / r2 * (- 3 - add * 7 + 10 * (C20 - C22) / r2) |}).
(** Ferrers::evalCar, potential_ferrers.cpp:50-131, at finite positions; root: the result of math::findRoot for the equation of FerrersLambdaRootFinder (35-48) *)
Definition ferEval (P : ferrers) (root : vec3 -> R) (pos : vec3) : R * vec3 * hess6 :=
  let '(x, y, z) := pos in
  let m2 := pow_2 x / (fa P * fa P) + pow_2 y / (fb P * fb P) + pow_2 z / (fc P * fc P) in
  if Rlt_b (pow_2 (10 * fa P)) (pow_2 x + pow_2 y + pow_2 z) then ferFar P pos
  else ferNear P (computeW P (if Rlt_b 1 m2 then root pos else 0)) pos.

(** ** Dehnen, potential_dehnen.cpp:27-43 and the spherical branch 91-124 *)
Definition dehConstruct (scalerad gamma : R) : bool := negb (Rle_b scalerad 0) && negb (Rlt_b gamma 0 || Rlt_b 2 gamma).
Definition dehDensity (mass scalerad gamma ay az : R) (pos : vec3) : R :=
  let '(x, y, z) := pos in
  let m := sqrt (pow_2 x + pow_2 (y / ay) + pow_2 (z / az)) in
  mass * scalerad * (3 - gamma) / (4 * PI * ay * az) * mpow m (- gamma) * mpow (scalerad + m) (gamma - 4).
Definition dehSph (mass scalerad gamma : R) (pos : vec3) : R * vec3 * hess6 :=
  let '(x, y, z) := pos in
  let r := sqrt (x * x + y * y + z * z) in
  let s := scalerad / r in
  let pot := if Rlt_b (0.002 / (4 - gamma)) s then mass / scalerad * (if Req_b gamma 2 then - ln (1 + s) else (1 - mpow (1 + s) (gamma - 2)) / (gamma - 2))
    else mass / scalerad * - s * (1 + s * (gamma - 3) / 2 * (1 + s * (gamma - 4) / 3 * (1 + s * (gamma - 5) / 4))) in
  let xr := x / r in let yr := y / r in let zr := z / r in
  let val := mass * mpow r (1 - gamma) * mpow (r + scalerad) (gamma - 3) in
  let val2 := - val * (gamma * s + 3) / (r + scalerad) in
  (pot, (if Rlt_b 0 r then val * xr else 0, if Rlt_b 0 r then val * yr else 0, if Rlt_b 0 r then val * zr else 0),
   {| h11 := val2 * xr * xr + val / r; h22 := val2 * yr * yr + val / r; h33 := val2 * zr * zr + val / r;
      h12 := val2 * xr * yr; h23 := val2 * yr * zr; h13 := val2 * zr * xr |}).
