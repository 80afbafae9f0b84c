(** Generation of grids, /repo/src/math_spline.cpp:4224-4313.  Exact reals.
    Simplifications: numbers are finite, and exponentials do not overflow; an element of an array is None if it is NaN or infinite. *)
From Verif Require Export Arr PolyModel RootModel.
From Flocq Require Import Core.
Local Open Scope Z_scope.

(** math_spline.cpp:4226-4236 *)
Definition createUniformGrid (nnodes : Z) (xmin xmax : R) : res (arr R) :=
  if (nnodes <? 2) || Rle_b xmax xmin then Throw else
  grid <- for_ 1 (nnodes - 1) (fun k grid => aset grid k ((xmin * IZR (nnodes - 1 - k) + xmax * IZR k) / IZR (nnodes - 1))%R) (anew nnodes 0%R) ;;
  grid <- aset grid 0 xmin ;;
  aset grid (nnodes - 1) xmax.
(** math_spline.cpp:4238-4249 *)
Definition createExpGrid (nnodes : Z) (xmin xmax : R) : res (arr R) :=
  if (nnodes <? 2) || Rle_b xmin 0 || Rle_b xmax xmin then Throw else
  let logmin := ln xmin in let logmax := ln xmax in
  grid <- aset (anew nnodes 0%R) 0 xmin ;;
  grid <- aset grid (nnodes - 1) xmax ;;
  for_ 1 (nnodes - 1) (fun k grid => aset grid k (exp (logmin + IZR k * (logmax - logmin) / IZR (nnodes - 1)))) grid.

(** math_core.cpp:103-114 fcmp(x, y, eps)==0 for nonzero x, y: gsl_fcmp compares |x-y| with eps * 2^e, where 2^(e-1) <= max(|x|,|y|) < 2^e *)
Definition fcmp0 (x y eps : R) : bool := Rle_b (Rabs (x - y)) (eps * bpow radix2 (mag radix2 (Rmax (Rabs x) (Rabs y)))).
(** math_spline.cpp:4253-4262 GridSpacingFinder *)
Definition spacing (ratio n A : R) : R :=
  (if Rlt_b (Rabs A) (1 / 10 ^ 8) then n - ratio + 1 / 2 * A * n * (n - 1) else (exp (A * n) - 1) / (exp A - 1) - ratio)%R.
Definition spacingFinder (xmin xmax : R) (n : Z) : result :=
  let ratio := (xmax / xmin)%R in
  findRoot (fun A => (Some (spacing ratio (IZR n) A), DNan)) (ln (1 - 1 / ratio)) (ln ratio / IZR ((n - 2) mod 2 ^ 32)) (1 / 10 ^ 6).
(** math_spline.cpp:4265-4291; n is the number of nonzero nodes (nnodes after the decrement, an unsigned integer: n-2 wraps around if n=1);
    when n=2 the upper limit passed to findRoot is infinite, and it throws an exception (math_core.cpp:850-852) *)
Definition createNonuniformGrid (nnodes : Z) (xmin xmax : R) (zeroelem : bool) : res (arr (option R)) :=
  if (nnodes <? 2) || Rle_b xmin 0 || Rle_b xmax xmin then Throw else
  let indexstart := if zeroelem then 1 else 0 in
  let n := nnodes - indexstart in
  grid <- (if zeroelem then aset (anew nnodes (Some 0%R)) 0 (Some 0%R) else Ok (anew nnodes (Some 0%R))) ;;
  if fcmp0 (IZR n) (xmax / xmin) (1 / 10 ^ 12) then
    for_ 0 n (fun i grid => aset grid (i + indexstart) (if n =? 1 then None else Some (xmin + (xmax - xmin) * IZR i / IZR (n - 1))%R)) grid
  else if n =? 2 then Throw else
  let A := match fst (spacingFinder xmin xmax n) with Some (A, _, _, _) => if Req_b (exp A) 1 then None else Some A | None => None end in
  grid <- for_ 0 n (fun i grid =>
    aset grid (i + indexstart) match A with Some A => Some (xmin / (exp A - 1) * (exp (A * IZR (i + 1)) - 1))%R | None => None end) grid ;;
  aset grid (n - 1 + indexstart) (Some xmax).
(** comparison of possibly NaN numbers: a <= b *)
Definition nan_le (a b : option R) : bool := match a, b with Some a, Some b => Rle_b a b | _, _ => false end.
Definition nan_opp (a : option R) : option R := match a with Some a => Some (- a)%R | None => None end.
(** math_spline.cpp:4294-4308 *)
Definition mirrorGrid (input : arr (option R)) : res (arr (option R)) :=
  let size := alen input in
  if size =? 0 then Throw else
  i0 <- aget input 0 ;;
  if negb match i0 with Some r => Req_b r 0 | None => false end then Throw else
  output <- aset (anew (size * 2 - 1) (Some 0%R)) (size - 1) (Some 0%R) ;;
  for_ 1 size (fun i output =>
    xi <- aget input i ;; xp <- aget input (i - 1) ;;
    if nan_le xi xp then Throw else
    output <- aset output (size - 1 - i) (nan_opp xi) ;;
    aset output (size - 1 + i) xi) output.
(** math_spline.cpp:4310-4326; xmax=None stands for the default value NAN *)
Definition createSymmetricGrid (nnodes : Z) (xmin : R) (xmax : option R) : res (arr (option R)) :=
  match xmax with
  | Some xmax =>
    if nnodes mod 2 =? 1 then g <- createNonuniformGrid (nnodes / 2 + 1) xmin xmax true ;; mirrorGrid g
    else
      tmpgrid <- createNonuniformGrid nnodes (xmin * (1 / 2)) xmax true ;;
      tmpgrid <- for_ 0 (nnodes / 2) (fun i t => v <- aget t (nnodes - 1 - 2 * i) ;; aset t (nnodes - 1 - i) v) tmpgrid ;;
      for_ 0 (nnodes / 2) (fun i t => v <- aget t (nnodes - 1 - i) ;; aset t i (nan_opp v)) tmpgrid
  | None =>
    g <- createUniformGrid nnodes (- xmin * (1 / 2) * IZR (nnodes - 1)) (xmin * (1 / 2) * IZR (nnodes - 1)) ;;
    Ok (mkArr (alen g) (fun i => Some (afn g i)))
  end.
