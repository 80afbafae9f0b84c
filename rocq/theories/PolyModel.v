(** Model over exact real numbers (no rounding: the simplification) of the closed-form polynomial solvers of math_core.
    [result] arrays plus the returned count are lists.  Division by zero never occurs on the modelled paths except where stated. *)
From Coq Require Export Reals Lra Lia List.
From Verif Require Export Base RandReal.
Export ListNotations.
Local Open Scope R_scope.

(** math_base.h: pow_3 (line 54); DBL_EPSILON = 2^-52 (float.h), SQRT_DBL_EPSILON (line 23) = 2^-26 *)
Definition pow_3 (x : R) : R := x * x * x.
Definition deps : R := / 2 ^ 52.
Definition sqrteps : R := / 2 ^ 26.

(** boolean comparisons of doubles *)
Definition Req_b (x y : R) : bool := if Req_EM_T x y then true else false.
Definition Rlt_b (x y : R) : bool := if Rlt_dec x y then true else false.
Definition Rle_b (x y : R) : bool := if Rle_dec x y then true else false.

(** math_core.h:327-333 solveLinear *)
Definition solveLinear (a1 a0 : R) : list R :=
  if Req_b a1 0 && negb (Req_b a0 0) then []
  else [if negb (Req_b a1 0) then - a0 / a1 else 0].

(** math_core.cpp:658-674 solveQuadratic *)
Definition solveQuadratic (a2 a1 a0 : R) : list R :=
  if Req_b a2 0 then solveLinear a1 a0
  else
    let d := a1 * a1 - 4 * a0 * a2 in
    if negb (Rle_b 0 d) then []
    else if Req_b d 0 then [- (1 / 2) * a1 / a2]
    else
      let t := - (1 / 2) * (a1 + (if Rle_b 0 a1 then 1 else -1) * sqrt d) in
      let r1 := t / a2 in let r2 := a0 / t in
      [if Rlt_b r1 r2 then r1 else r2; if Rlt_b r1 r2 then r2 else r1].

(** math_core.cpp:626-636: the inner loop of polishRoot over i = N-1 .. 0 (Horner scheme for f, f', f'' and the roundoff estimate) *)
Fixpoint polishHorner (a : nat -> R) (x : R) (i : nat) (st : R * R * R * R) : R * R * R * R :=
  match i with
  | O => st
  | S j =>
    let '(f, df, d2f, e) := st in
    let f' := x * f + a j in
    let e' := Rabs x * e + Rabs f' in
    let df' := if Nat.leb 1 j then x * df + a j * INR j else df in
    let d2f' := if Nat.leb 2 j then x * d2f + a j * INR j * INR (j - 1) else d2f in
    polishHorner a x j (f', df', d2f', e')
  end.

(** math_core.cpp:622-645 polishRoot<N>; [k] iterations remaining *)
Fixpoint polishLoop (n : nat) (a : nat -> R) (k : nat) (x : R) : R :=
  match k with
  | O => x
  | S k' =>
    let '(f, df, d2f, e) := polishHorner a x n
         (a n, a n * INR n, a n * INR n * INR (n - 1), 1 / 2 * Rabs (a n)) in
    let e := (e - 1 / 2 * Rabs f) * deps in
    if Rle_b (Rabs f) e then x
    else
      let dx := - f * df / (df * df - 1 / 2 * f * d2f) in
      if Rlt_b (Rabs dx) (Rabs x * sqrteps) then x + dx
      else polishLoop n a k' (x + dx)
  end.
Definition polishRoot (n : nat) (a : nat -> R) (x : R) : R := polishLoop n a (S n) x.

(** coefficient array {a0, a1, ...} *)
Definition coef (l : list R) (i : nat) : R := nth i l 0.

(** math_core.cpp:647-654 swapIfNeeded on the elements i,j of a list *)
Definition swapIfNeeded (i j : nat) (l : list R) : list R :=
  let x1 := nth i l 0 in let x2 := nth j l 0 in
  if Rlt_b x2 x1 then map (fun k => if Nat.eqb k i then x2 else if Nat.eqb k j then x1 else nth k l 0) (seq 0 (length l)) else l.

(** cbrt of the C library, for non-negative arguments *)
Definition cbrt (x : R) : R := if Rlt_b 0 x then Rpower x (1 / 3) else 0.

(** math_core.cpp:715-726: sorting network for the case of 0-3 roots *)
Definition sort3 (l : list R) : list R :=
  match length l with
  | 2%nat => swapIfNeeded 0 1 l
  | 3%nat => swapIfNeeded 1 2 (swapIfNeeded 0 2 (swapIfNeeded 0 1 l))
  | _ => l
  end.

(** math_core.cpp:689-708: the roots of the cubic before polishing, given s,Q,R (not both Q and R zero) *)
Definition cubicRoots (s Q Rr : R) : list R :=
  let D := pow_3 Q + pow_2 Rr in
  if Rle_b (Rabs D) (2 * deps * pow_2 Rr) then [s + Rr / Q; s - Rr / Q * 2]
  else if Rlt_b 0 D then
    let a := (if Rle_b 0 Rr then 1 else -1) * cbrt (Rabs Rr + sqrt D) in
    let b := - Q / a in [a + b + s]
  else
    let a := sqrt (- Q) in
    let phi := 1 / 3 * acos (Rr / pow_3 a) in
    [2 * a * cos (phi + PI * 2 / 3) + s; 2 * a * cos (phi + PI * 4 / 3) + s; 2 * a * cos phi + s].

(** math_core.cpp:676-728 solveCubic *)
Definition cubicS (a3 a2 : R) : R := - (1 / 3) * a2 * (1 / a3).
Definition cubicQ (a3 a2 a1 : R) : R := 1 / 3 * a1 * (1 / a3) - pow_2 (cubicS a3 a2).
Definition cubicR (a3 a2 a1 a0 : R) : R := pow_3 (cubicS a3 a2) - 1 / 2 * (cubicS a3 a2 * a1 + a0) * (1 / a3).
Definition solveCubic (a3 a2 a1 a0 : R) : list R :=
  if Req_b a3 0 then solveQuadratic a2 a1 a0
  else
    let s := cubicS a3 a2 in let Q := cubicQ a3 a2 a1 in let Rr := cubicR a3 a2 a1 a0 in
    if Req_b Q 0 && Req_b Rr 0 then [s]
    else sort3 (map (polishRoot 3 (coef [a0; a1; a2; a3])) (cubicRoots s Q Rr)).

(** math_core.cpp:740-760: choice of the root of the resolvent.  State: (w, m, z) if chosen, and minerr (None = INFINITY).
    absc / |derc| is +infinity when derc = 0 < absc, and NaN (ignored by fmax) when both are zero. *)
Definition resolventErr (b2 b1 b0 w : R) : option R :=
  let absw := Rabs w in
  let absc := Rmax (Rmax (Rmax absw (Rabs b2) * absw) (Rabs b1) * absw) (Rabs b0) in
  let derc := b1 + w * (b2 * 2 + w * 3) in
  if Req_b derc 0 then
    if Req_b absc 0 then Some (absw * deps * 2 * Rmax 1 (1 / 2 * absw)) else None
  else Some (Rmax (absc / Rabs derc) absw * deps * 2 * Rmax 1 (1 / 2 * absw)).
Definition errLe (x y : option R) : bool :=
  match x, y with _, None => true | None, Some _ => false | Some a, Some b => Rle_b a b end.
Definition quarticChoice (a3 a2 a0 b2 b1 b0 : R) (st : option (R * R * R) * option R) (w : R) : option (R * R * R) * option R :=
  let err := resolventErr b2 b1 b0 w in
  if errLe err (snd st) then
    let m2 := 1 / 4 * a3 * a3 - a2 + w in
    let z2 := 1 / 4 * pow_2 w - a0 in
    (if Rle_b 0 m2 && Rle_b 0 z2 then Some (w, sqrt m2, sqrt z2) else fst st, err)
  else st.

(** math_core.cpp:773-794: sorting network for up to 4 roots *)
Definition sort4 (l : list R) : list R :=
  match length l with
  | 2%nat => swapIfNeeded 0 1 l
  | 3%nat => swapIfNeeded 1 2 (swapIfNeeded 0 2 (swapIfNeeded 0 1 l))
  | 4%nat => swapIfNeeded 1 2 (swapIfNeeded 1 3 (swapIfNeeded 0 2 (swapIfNeeded 2 3 (swapIfNeeded 0 1 l))))
  | _ => l
  end.

(** math_core.cpp:796-804: removal of duplicate roots; after a removal at position p the loop goes on with p+1 *)
Fixpoint dedupLoop (fuel p : nat) (l : list R) : list R :=
  match fuel with
  | O => l
  | S fuel' =>
    if Nat.ltb p (length l) then
      let l' := if Rle_b (nth p l 0 - nth (p - 1) l 0) (2 * deps * Rabs (nth p l 0))
                then firstn p l ++ skipn (S p) l else l in
      dedupLoop fuel' (S p) l'
    else l
  end.
Definition dedup (l : list R) : list R := dedupLoop (length l) 1 l.

(** math_core.cpp:730-807 solveQuartic *)
Definition solveQuartic (a4 a3 a2 a1 a0 : R) : list R :=
  if Req_b a4 0 then solveCubic a3 a2 a1 a0
  else
    let inva4 := 1 / a4 in
    let c0 := a0 * inva4 in let c1 := a1 * inva4 in let c2 := a2 * inva4 in let c3 := a3 * inva4 in
    let b2 := - c2 in let b1 := c1 * c3 - 4 * c0 in let b0 := (4 * c2 - c3 * c3) * c0 - c1 * c1 in
    match fst (fold_left (quarticChoice c3 c2 c0 b2 b1 b0) (solveCubic 1 b2 b1 b0) (None, None)) with
    | None => []
    | Some (w, m, z0) =>
      let z := if Rlt_b (c3 * w) (2 * c1) then - z0 else z0 in
      let roots := solveQuadratic 1 (1 / 2 * c3 - m) (1 / 2 * w - z)
                ++ solveQuadratic 1 (1 / 2 * c3 + m) (1 / 2 * w + z) in
      dedup (sort4 (map (polishRoot 4 (coef [c0; c1; c2; c3; 1])) roots))
    end.
