(** Model of the adaptive multidimensional sampler, src/math_sample.cpp. Numbers are exact reals (the volatile accumulators
    and all rounding are not represented); failed assertions are the outcome UB. *)
From Verif Require Import Arr PolyModel RandModel.
From Flocq Require Import Core.Raux.
Local Open Scope Z_scope.

(** math_sample.cpp:71-93 struct Cell and its default constructor *)
Record cell := mkCell { c_head : Z; c_parent : Z; c_child : Z; c_dim : Z; c_weight : R }.
Definition cell0 : cell := mkCell (-1) (-1) (-1) (-1) 0.
Definition set_head (c : cell) (v : Z) := mkCell v (c_parent c) (c_child c) (c_dim c) (c_weight c).
Definition set_parent (c : cell) (v : Z) := mkCell (c_head c) v (c_child c) (c_dim c) (c_weight c).
Definition set_child (c : cell) (v : Z) := mkCell (c_head c) (c_parent c) v (c_dim c) (c_weight c).
Definition set_dim (c : cell) (v : Z) := mkCell (c_head c) (c_parent c) (c_child c) v (c_weight c).
Definition set_weight (c : cell) (v : R) := mkCell (c_head c) (c_parent c) (c_child c) (c_dim c) v.

(** math_sample.cpp:95-137: the constant members and the external inputs.
    fnc: the user's function of Ndim variables; None stands for a thrown exception or a non-finite value.
    unif first last p d: the number fmod(quasiRandomHalton(first+perm[p-first],PRIMES[d])+offsets[d],1) computed at lines 435-440,
      a function of the seed (= last), the range of points, the point and the dimension; an arbitrary function here.
    order: the order in which the iterations of the parallel loop at lines 611-618 are executed. *)
Record env := mkEnv {
  Ndim : Z; xlower : Z -> R; xupper : Z -> R; Nout : Z;
  fnc : list R -> option R;
  unif : Z -> Z -> Z -> Z -> R;
  order : list (Z * Z * Z) -> list (Z * Z * Z) }.

(** math_sample.cpp:108-126: the variable members: cells, nextPoint, pointCoords, fncValues *)
Record smp := mkSmp { cells : arr cell; nextp : arr Z; coords : arr R; fvals : arr R }.
Definition with_cells (s : smp) (c : arr cell) := mkSmp c (nextp s) (coords s) (fvals s).
Definition mod_cell (s : smp) (i : Z) (f : cell -> cell) : res smp :=
  c <- aget (cells s) i ;; a <- aset (cells s) i (f c) ;; Ok (with_cells s a).
(** std::vector::resize: the new elements are v *)
Definition resize {A} (a : arr A) (n : Z) (v : A) : arr A := mkArr n (fun i => if i <? alen a then afn a i else v).

(** constants, lines 24-36 *)
Definition maxInitSamples : Z := 1048576.
Definition minNumPointsInCell : Z := 256.
Definition numBinsEntropy : Z := 16.
Definition maxNumIter : nat := 50.
Definition MAX_PRIMES : Z := 10.      (* math_random.h:80 *)

(** math_sample.cpp:213-246 the constructor: checks of the input, volume of the region (offsets are part of unif) *)
Definition newSampler (e : env) : res (R * arr cell) :=
  if MAX_PRIMES <? Ndim e then Throw else
  vol <- for_ 0 (Ndim e) (fun d v => if Rlt_b (xlower e d) (xupper e d) then Ok (v * (xupper e d - xlower e d))%R else Throw) 1%R ;;
  Ok (vol, anew 1 cell0).

(** loops of the form for(p = head; p>=0; p = nextPoint[p]) body; the fuel (number of points plus one) is shown to suffice *)
Fixpoint walk {A} (fuel : nat) (nx : arr Z) (p : Z) (body : Z -> A -> res A) (acc : A) : res A :=
  if p <? 0 then Ok acc else
  match fuel with
  | O => Fuel
  | S f => acc' <- body p acc ;; q <- aget nx p ;; walk f nx q body acc'
  end.
Definition walkp {A} (s : smp) (p : Z) (body : Z -> A -> res A) (acc : A) : res A :=
  walk (S (Z.to_nat (alen (nextp s)))) (nextp s) p body acc.

(** math_sample.cpp:248-287 computeResult: sum of weights (integValue), refineFactor; the error estimate is not modelled *)
Definition computeResult (e : env) (s : smp) : res (R * R) :=
  r <- for_ 0 (alen (cells s)) (fun c acc =>
        cc <- aget (cells s) c ;;
        walkp s (c_head cc) (fun p acc =>
          let '(count, integ, mx) := acc in
          f <- aget (fvals s) p ;;
          let w := (f * c_weight cc)%R in
          Ok (count + 1, (integ + w)%R, Rmax mx w)) acc) (0, 0%R, 0%R) ;;
  let '(count, integ, mx) := r in
  if negb (count =? alen (fvals s)) then UB else
  let refine := (mx * IZR (Nout e) / integ)%R in
  if Rle_b integ 0 then Throw else Ok (integ, refine).

(** math_sample.cpp:289-328 evalFncLoop: the loop over blocks of 1024 points is the loop over all points *)
Definition point (e : env) (co : arr R) (p : Z) : list R :=
  map (fun d => afn co (p * Ndim e + Z.of_nat d)) (seq 0 (Z.to_nat (Ndim e))).
Definition evalFncLoop (e : env) (s : smp) (first last : Z) : res smp :=
  fv <- for_ first last (fun p fv =>
          if negb ((0 <=? p) && ((p + 1) * Ndim e <=? alen (coords s)))%bool then UB else
          match fnc e (point e (coords s) p) with
          | None => Throw
          | Some v => if Rlt_b v 0 then Throw else aset fv p v
          end) (fvals s) ;;
  Ok (mkSmp (cells s) (nextp s) (coords s) fv).

(** math_sample.cpp:330-362 getCellBoundaries; the loop over parents, then the conversion to absolute coordinates *)
Fixpoint bound_loop (fuel : nat) (cs : arr cell) (index : Z) (b : arr R * arr R) : res (arr R * arr R) :=
  if index <=? 0 then Ok b else
  match fuel with
  | O => Fuel
  | S f =>
      c <- aget cs index ;; let pi := c_parent c in
      pc <- aget cs pi ;; let sd := c_dim pc in
      let lower := index =? c_child pc in
      let upper := index =? c_child pc + 1 in
      if negb (lower || upper) then UB else
      lo <- aget (fst b) sd ;; up <- aget (snd b) sd ;;
      b' <- (if lower then lo' <- aset (fst b) sd (lo * / 2)%R ;; up' <- aset (snd b) sd (up * / 2)%R ;; Ok (lo', up')
             else lo' <- aset (fst b) sd (/ 2 * (1 + lo))%R ;; up' <- aset (snd b) sd (/ 2 * (1 + up))%R ;; Ok (lo', up')) ;;
      bound_loop f cs pi b'
  end.
Definition getCellBoundaries (e : env) (cs : arr cell) (c : Z) : res (arr R * arr R) :=
  b <- bound_loop (S (Z.to_nat (alen cs))) cs c (anew (Ndim e) 0%R, anew (Ndim e) 1%R) ;;
  Ok (mkArr (Ndim e) (fun d => xlower e d + (xupper e d - xlower e d) * afn (fst b) d)%R,
      mkArr (Ndim e) (fun d => xlower e d + (xupper e d - xlower e d) * afn (snd b) d)%R).

(** math_sample.cpp:384-400 addCellToQueue; queue: list of (cell, cumulative number of points) *)
Fixpoint halve_loop (fuel : nat) (cs : arr cell) (index : Z) (n : R) : res R :=
  if index <=? 0 then Ok n else
  match fuel with
  | O => Fuel
  | S f => c <- aget cs index ;; halve_loop f cs (c_parent c) (n * / 2)%R
  end.
Definition addCellToQueue (s : smp) (q : list (Z * Z)) (c : Z) : res (smp * list (Z * Z)) :=
  cc <- aget (cells s) c ;;
  n <- halve_loop (S (Z.to_nat (alen (cells s)))) (cells s) c (1 / c_weight cc)%R ;;
  s' <- mod_cell s c (fun cc => set_weight cc (c_weight cc * / 2)%R) ;;
  let numPrev := snd (last q (0, 0)) in
  Ok (s', q ++ [(c, Ztrunc n + numPrev)]).

(** math_sample.cpp:402-446 addPointsToCell *)
Definition addPointsToCell (e : env) (s : smp) (c first last : Z) : res smp :=
  b <- getCellBoundaries e (cells s) c ;;
  cc <- aget (cells s) c ;;
  r <- for_ first last (fun p acc =>
        let '(nx, co, nextInList) := acc in
        co' <- for_ 0 (Ndim e) (fun d co =>
                 lo <- aget (fst b) d ;; up <- aget (snd b) d ;;
                 aset co (p * Ndim e + d) (lo + (up - lo) * unif e first last p d)%R) co ;;
        nx' <- aset nx p nextInList ;;
        Ok (nx', co', p)) (nextp s, coords s, c_head cc) ;;
  let '(nx, co, h) := r in
  cs <- aset (cells s) c (set_head cc h) ;;
  Ok (mkSmp cs nx co (fvals s)).

(** math_sample.cpp:448-484 splitCell *)
Fixpoint split_loop (fuel : nat) (e : env) (co : arr R) (child dim : Z) (boundary : R) (p : Z) (cs : arr cell) (nx : arr Z)
  : res (arr cell * arr Z) :=
  match fuel with
  | O => Fuel
  | S f =>
      next <- aget nx p ;;
      x <- aget co (p * Ndim e + dim) ;;
      let ch := if Rlt_b x boundary then child else child + 1 in
      cc <- aget cs ch ;;
      nx' <- (if c_head cc <? 0 then aset nx p (-1) else aset nx p (c_head cc)) ;;
      cs' <- aset cs ch (set_head cc p) ;;
      if 0 <=? next then split_loop f e co child dim boundary next cs' nx' else Ok (cs', nx')
  end.
Definition splitCell (e : env) (s : smp) (c dim : Z) (boundary : R) : res smp :=
  let child := alen (cells s) in
  let s1 := with_cells s (resize (cells s) (child + 2) cell0) in
  cc <- aget (cells s1) c ;;
  s1 <- mod_cell s1 child (fun x => set_parent x c) ;;
  s1 <- mod_cell s1 (child + 1) (fun x => set_parent x c) ;;
  s1 <- mod_cell s1 child (fun x => set_weight x (c_weight cc)) ;;
  s1 <- mod_cell s1 (child + 1) (fun x => set_weight x (c_weight cc)) ;;
  s1 <- mod_cell s1 c (fun x => set_dim x dim) ;;
  s1 <- mod_cell s1 c (fun x => set_child x child) ;;
  let p := c_head cc in
  if p <? 0 then UB else
  s1 <- mod_cell s1 c (fun x => set_head x (-1)) ;;
  r <- split_loop (S (Z.to_nat (alen (nextp s)))) e (coords s) child dim boundary p (cells s1) (nextp s1) ;;
  Ok (mkSmp (fst r) (snd r) (coords s) (fvals s)).

(** math_sample.cpp:486-537 decideHowToSplitCell; minEntropy: None = INFINITY *)
Definition entropy_of (h : arr R) (dim : Z) : res R :=
  for_ 0 numBinsEntropy (fun bin en =>
    v <- aget h (dim * numBinsEntropy + bin) ;;
    if Rlt_b 0 v then Ok (en - v * ln v)%R else Ok en) 0%R.
Definition decideHowToSplitCell (e : env) (s : smp) (c : Z) : res smp :=
  b <- getCellBoundaries e (cells s) c ;;
  cc <- aget (cells s) c ;;
  if c_head cc <? 0 then UB else
  h <- walkp s (c_head cc) (fun p h =>
        f <- aget (fvals s) p ;;
        for_ 0 (Ndim e) (fun d h =>
          x <- aget (coords s) (p * Ndim e + d) ;;
          lo <- aget (fst b) d ;; up <- aget (snd b) d ;;
          let bin := Ztrunc ((x - lo) / (up - lo) * IZR numBinsEntropy)%R in
          v <- aget h (d * numBinsEntropy + bin) ;;
          aset h (d * numBinsEntropy + bin) (v + f)%R) h) (anew (Ndim e * numBinsEntropy) 0%R) ;;
  best <- for_ 0 (Ndim e) (fun d (acc : Z * option R) =>
        en <- entropy_of h d ;;
        match snd acc with
        | None => Ok (d, Some en)
        | Some m => if Rlt_b en m then Ok (d, Some en) else Ok acc
        end) (-1, None) ;;
  let dim := fst best in
  if dim <? 0 then UB else
  lo <- aget (fst b) dim ;; up <- aget (snd b) dim ;;
  splitCell e s c dim (/ 2 * (lo + up))%R.

(** math_sample.cpp:539-573 processCell *)
Definition processCell (e : env) (integ : R) (s : smp) (q : list (Z * Z)) (c : Z) : res (smp * list (Z * Z)) :=
  cc <- aget (cells s) c ;;
  r <- walkp s (c_head cc) (fun p acc =>
        let '(num, l1, l2) := acc in
        f <- aget (fvals s) p ;;
        if Rlt_b l1 f then Ok (num + 1, f, l1) else if Rlt_b l2 f then Ok (num + 1, l1, f) else Ok (num + 1, l1, l2)) (0, 0%R, 0%R) ;;
  let '(num, l1, l2) := r in
  if num =? 0 then Ok (s, q) else
  let refine := (c_weight cc * IZR (Nout e) / integ * (l1 * 2 - l2))%R in
  if Rlt_b refine 1 then Ok (s, q) else
  if 2 * minNumPointsInCell <? num then s' <- decideHowToSplitCell e s c ;; Ok (s', q) else addCellToQueue s q c.
(** line 601: the loop over all cells, including those appended by it *)
Fixpoint processCells (fuel : nat) (e : env) (integ : R) (c : Z) (s : smp) (q : list (Z * Z)) : res (smp * list (Z * Z)) :=
  if alen (cells s) <=? c then Ok (s, q) else
  match fuel with
  | O => Fuel
  | S f => r <- processCell e integ s q c ;; processCells f e integ (c + 1) (fst r) (snd r)
  end.

(** lines 613-618: the calls made by the parallel loop: (cell, first, last) *)
Fixpoint calls (base prev : Z) (q : list (Z * Z)) : list (Z * Z * Z) :=
  match q with
  | [] => []
  | (c, n) :: q' => (c, base + prev, base + n) :: calls base n q'
  end.
Fixpoint addAll (e : env) (s : smp) (l : list (Z * Z * Z)) : res smp :=
  match l with
  | [] => Ok s
  | (c, first, last) :: l' => s' <- addPointsToCell e s c first last ;; addAll e s' l'
  end.
(** lines 604-610: enlarge the arrays *)
Definition grow (e : env) (s : smp) (n : Z) : smp :=
  mkSmp (cells s) (resize (nextp s) n 0) (resize (coords s) (n * Ndim e) 0%R) (resize (fvals s) n 0%R).
(** one iteration of the do-while loop, lines 592-627 (the Ctrl-Break test and the messages are omitted): new state, integral, refineFactor *)
Definition refineStep (F : nat) (e : env) (s : smp) (integ : R) : res (smp * R * R) :=
  r <- processCells F e integ 0 s [] ;;
  let '(s, q) := r in
  if (length q =? 0)%nat then UB else
  let existing := alen (fvals s) in
  let overall := existing + snd (last q (0, 0)) in
  s <- addAll e (grow e s overall) (order e (calls existing 0 q)) ;;
  s <- evalFncLoop e s existing overall ;;
  r <- computeResult e s ;;
  Ok (s, fst r, snd r).
(** do{...}while(++nIter<maxNumIter); fuel = number of remaining iterations *)
Fixpoint refineLoop (iters : nat) (F : nat) (e : env) (s : smp) (integ : R) : res (smp * R) :=
  match iters with
  | O => Throw
  | S k =>
      r <- refineStep F e s integ ;;
      let '(s', integ', refine) := r in
      if Rle_b refine 1 then Ok (s', integ') else refineLoop k F e s' integ'
  end.
(** math_sample.cpp:575-590 the first iteration: uniform sampling in the root cell *)
Definition numInitSamples (e : env) : Z := Z.min maxInitSamples ((1 + Nout e / minNumPointsInCell) * minNumPointsInCell).
Definition initState (e : env) (cs : arr cell) : res smp :=
  let n := numInitSamples e in
  s <- mod_cell (mkSmp cs (anew 0 0) (anew 0 0%R) (anew 0 0%R)) 0 (fun c => set_weight c (1 / IZR n)%R) ;;
  s <- addPointsToCell e (grow e s n) 0 0 n ;;
  evalFncLoop e s 0 n.
(** math_sample.cpp:575-631 run; F is the fuel of the loop over cells *)
Definition run (F : nat) (e : env) (cs : arr cell) : res (smp * R) :=
  s <- initState e cs ;;
  r <- computeResult e s ;;
  if Rle_b (snd r) 1 then Ok (s, fst r) else refineLoop (maxNumIter - 1) F e s (fst r).

(** math_sample.cpp:633-664 drawSamples; js: the choices made by the random permutation (Verif.RandModel, C15).
    The matrix is a row-major array of Nout x Ndim numbers. &permutation.front() of an empty vector is undefined behaviour. *)
Definition drawSamples (e : env) (s : smp) (integ : R) (js : list nat) : res (arr R) :=
  if Nout e <=? 0 then UB else
  if negb (alen (coords s) =? alen (fvals s) * Ndim e) then UB else
  let osw := (integ / IZR (Nout e))%R in
  perm <- getRandomPermutation js (repeat O (Z.to_nat (Nout e))) ;;
  r <- for_ 0 (alen (cells s)) (fun c acc =>
        cc <- aget (cells s) c ;;
        walkp s (c_head cc) (fun p acc =>
          let '(ps, oi, out) := acc in
          f <- aget (fvals s) p ;;
          let w := (f * c_weight cc)%R in
          if Rlt_b osw w then UB else
          let ps := (ps + w)%R in
          if Rle_b ((IZR oi + / 2) * osw)%R ps then
            row <- get perm oi ;;
            out <- for_ 0 (Ndim e) (fun d out =>
                     x <- aget (coords s) (p * Ndim e + d) ;;
                     aset out (Z.of_nat row * Ndim e + d) x) out ;;
            Ok (ps, oi + 1, out)
          else Ok (ps, oi, out)) acc) (0%R, 0, anew (Nout e * Ndim e) 0%R) ;;
  let '(_, oi, out) := r in
  if negb (oi =? Nout e) then UB else Ok out.

(** math_sample.cpp:668-689 sampleNdim: samples, number of function evaluations, integral *)
Definition sampleNdim (F : nat) (e : env) (js : list nat) : res (arr R * Z * R) :=
  vc <- newSampler e ;;
  r <- run F e (snd vc) ;;
  out <- drawSamples e (fst r) (snd r) js ;;
  Ok (out, alen (fvals (fst r)), (fst vc * snd r)%R).
