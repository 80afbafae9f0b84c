(** Model of findRoot (math_core.cpp:809-990) over exact real numbers.
    The function is arbitrary: its value at a point may be infinite or NaN (None); its derivative, if available, may be anything. *)
From Coq Require Export Reals Lra List Bool.
From Verif Require Export PolyModel MathModel.
Export ListNotations.
Local Open Scope R_scope.

(** a derivative returned by evalDeriv: NaN (also when derivatives are unavailable), infinite, or finite *)
Inductive dval := DNan | DInf (neg : bool) | DFin (r : R).
Definition function := R -> option R * dval.
(** fderb * fderc > 0 *)
Definition dsame (x y : dval) : bool :=
  let pos v := match v with DFin r => Rlt_b 0 r | DInf neg => negb neg | DNan => false end in
  let neg v := match v with DFin r => Rlt_b r 0 | DInf neg => neg | DNan => false end in
  (pos x && pos y) || (neg x && neg y).
(** 1/fder, finite whenever [dsame] holds *)
Definition dinv (x : dval) : R := match x with DFin r => 1 / r | _ => 0 end.

(** math_core.cpp:815-836 hermiteInterpMonotone; None = NAN. *)
Definition hermiteInterpMonotone (x x1 x2 f1 f2 d1 d2 : R) : option R :=
  if (Rle_b 0 d1 && Rlt_b d2 0) || (Rle_b 0 d2 && Rlt_b d1 0) then None
  else
  let dx := x2 - x1 in
  let den := -6 * (f2 - f1) / dx + 3 * (d1 + d2) in
  if Req_b den 0 then None   (* ai infinite, hence ba or D infinite or NaN *)
  else
  let ai := 1 / den in
  let ba := - 1 + (d2 - d1) * ai in
  let ca := d1 * ai in
  let D := pow_2 ba - 4 * ca in
  if Rle_b 0 D then
    let sqD := sqrt D in
    let t1 := 1 / 2 * (- ba - sqD) in
    let t2 := 1 / 2 * (- ba + sqD) in
    if (Rle_b 0 t1 && Rle_b t1 1) || (Rle_b 0 t2 && Rle_b t2 1) then None
    else Some (hermiteInterp x x1 x2 f1 f2 d1 d2)
  else Some (hermiteInterp x x1 x2 f1 f2 d1 d2).

(** math_core.cpp:840 *)
Definition DELTA_HERMITE : R := 1 / 10 ^ 12.
Definition DBL_EPSILON : R := / 2 ^ 52.
(** math_core.cpp:27 *)
Definition MAXITER : nat := 64.

(** loop variables of math_core.cpp:855-890 *)
Record rstate := { sa : R; sb : R; sc : R; fa : R; fb : R; fc : R; da : dval; db : dval; dc : dval; sd : R; se : R }.

(** math_core.cpp:906-930: the step of Brent's method: Some (p/q) if the interpolation is accepted *)
Definition brentStep (s : rstate) (m tol : R) : option R :=
  let r0 := fb s / fa s in
  let '(p, q) :=
    if Req_b (sa s) (sc s) then (2 * m * r0, 1 - r0)
    else let q := fa s / fc s in let r := fb s / fc s in
      (r0 * (2 * m * q * (q - r) - (sb s - sa s) * (r - 1)), (q - 1) * (r - 1) * (r0 - 1)) in
  let '(p, q) := if Rlt_b 0 p then (p, - q) else (- p, q) in
  if Rlt_b (2 * p) (Rmin (3 * m * q - Rabs (tol * q)) (Rabs (se s * q))) then Some (p / q) else None.

(** math_core.cpp:888-935: the choice of the next step; result (d, e) *)
Definition chooseStep (s : rstate) (m tol : R) : R * R :=
  let cminusb := sc s - sb s in
  if Rlt_b (Rabs (se s)) tol || Rle_b (Rabs (fa s)) (Rabs (fb s)) then (m, m)
  else
    let dd := if dsame (db s) (dc s) then hermiteInterpMonotone 0 (fb s) (fc s) 0 cminusb (dinv (db s)) (dinv (dc s)) else None in
    let brent := match brentStep s m tol with Some d => (d, sd s) | None => (m, m) end in
    match dd with
    | Some v => if Rlt_b (Rabs cminusb * DELTA_HERMITE) (Rmin (Rabs v) (Rabs (cminusb - v))) then (v, se s) else brent
    | None => brent
    end.

(** exchange of b and c, math_core.cpp:868-878 and 954-964 *)
Definition swapBC (s : rstate) : rstate :=
  if Rlt_b (Rabs (fc s)) (Rabs (fb s)) then
    {| sa := sb s; sb := sc s; sc := sb s; fa := fb s; fb := fc s; fc := fb s; da := db s; db := dc s; dc := db s; sd := sd s; se := se s |}
  else s.

(** why the iterations stopped *)
Inductive reason := Exact | Bracket | Newton | MaxIter.
(** (offset>0 && offset<c-b) || (offset<0 && offset>c-b) *)
Definition bracketed (offset b c : R) : bool := (Rlt_b 0 offset && Rlt_b offset (c - b)) || (Rlt_b offset 0 && Rlt_b (c - b) offset).

(** result: the returned number (None = NAN), the reason, the final pair b,c before the last correction, and the points where the function was evaluated *)
Definition result := (option (R * reason * R * R) * list R)%type.

(** math_core.cpp:881-988: do-while loop; [n] = MAXITER - numIter *)
Fixpoint rootLoop (F : function) (abstoler : R) (n : nat) (s : rstate) (pts : list R) : result :=
  match n with
  | O => (Some (sb s, MaxIter, sb s, sc s), pts)
  | S n' =>
    let tol := 1 / 2 * DBL_EPSILON * Rabs (sb s) in
    let m := 1 / 2 * (sc s - sb s) in
    if Req_b (fb s) 0 || Rle_b (Rabs m) tol then (Some (sb s, Exact, sb s, sc s), pts)
    else
      let '(d, e) := chooseStep s m tol in
      let b := if Rlt_b tol (Rabs d) then sb s + d else sb s + (if Rlt_b 0 m then tol else - tol) in
      let pts := b :: pts in
      match F b with
      | (None, _) => (None, pts)
      | (Some fbn, dbn) =>
        let s1 := {| sa := sb s; sb := b; sc := sc s; fa := fb s; fb := fbn; fc := fc s; da := db s; db := dbn; dc := dc s; sd := d; se := e |} in
        let s2 := if (Rlt_b fbn 0 && Rlt_b (fc s) 0) || (Rlt_b 0 fbn && Rlt_b 0 (fc s)) then
            {| sa := sb s; sb := b; sc := sb s; fa := fb s; fb := fbn; fc := fb s; da := db s; db := dbn; dc := db s; sd := b - sb s; se := b - sb s |} else s1 in
        let s3 := swapBC s2 in
        if Rle_b (Rabs (sb s3 - sc s3)) abstoler then
          let offset := fb s3 * (sb s3 - sc s3) / (fc s3 - fb s3) in
          (Some (if bracketed offset (sb s3) (sc s3) then sb s3 + offset else sb s3, Bracket, sb s3, sc s3), pts)
        else
          let newton := match db s3 with
            | DFin fder => if Req_b fder 0 then None else let offset := - fb s3 / fder in
                if bracketed offset (sb s3) (sc s3) && Rlt_b (Rabs offset) abstoler then Some (sb s3 + offset) else None
            | _ => None end in
          match newton with
          | Some r => (Some (r, Newton, sb s3, sc s3), pts)
          | None => rootLoop F abstoler n' s3 pts
          end
      end
  end.

(** math_core.cpp:845-990 findRoot for reltoler>0 and finite endpoints *)
Definition findRoot (F : function) (xlower xupper reltoler : R) : result :=
  let pts := [xupper; xlower] in
  match F xlower, F xupper with
  | (Some fa, dera), (Some fb, derb) =>
    if (Rlt_b fa 0 && Rlt_b fb 0) || (Rlt_b 0 fa && Rlt_b 0 fb) then (None, pts)
    else if Req_b fa 0 then
      if Req_b fb 0 then (Some (1 / 2 * (xlower + xupper), Exact, xlower, xupper), pts) else (Some (xlower, Exact, xlower, xupper), pts)
    else if Req_b fb 0 then (Some (xupper, Exact, xupper, xlower), pts)
    else
      let s := swapBC {| sa := xlower; sb := xupper; sc := xlower; fa := fa; fb := fb; fc := fa; da := dera; db := derb; dc := dera; sd := xupper - xlower; se := xupper - xlower |} in
      rootLoop F (Rabs (xlower - xupper) * reltoler) MAXITER s pts
  | _, _ => (None, pts)
  end.
