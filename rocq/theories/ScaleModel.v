(** Model over exact real numbers of the scaling transformations of math_core (finite arguments only: u=+-infinity is not represented,
    so the open interval 0<s<1 is used for infinite ranges). *)
From Coq Require Export Reals Lra.
From Verif Require Export RandReal PolyModel MathModel.
Local Open Scope R_scope.

(** math_core.h:117-172: the types of scaling transformations with their parameters; the sign bit of a zero u0 selects SemiInf0 +1/-1 *)
Inductive scaling :=
| ScalingInf
| ScalingSemiInf0 (negative : bool)       (* u0 = +0.0 or -0.0 *)
| ScalingSemiInf (u0 : R)                 (* u0 <> 0 *)
| ScalingDoubleInf (u0 : R)
| ScalingLin (uleft uright : R)
| ScalingCub (uleft uright : R)
| ScalingQui (uleft uright : R).

(** math_core.h:21 sign *)
Definition sign (x : R) : R := if Rlt_b 0 x then 1 else if Rlt_b x 0 then -1 else 0.

(** math_core.cpp:248-252 scale(ScalingInf) *)
Definition scaleInf (u : R) : R :=
  if Rlt_b (Rabs u) 1 then 1 / (1 + sqrt (1 + 1 / 4 * u * u) - 1 / 2 * u)
  else 1 / 2 + sqrt (1 / 4 + pow_2 (1 / u)) * sign u - 1 / u.
(** math_core.cpp:254-258 unscale(ScalingInf) *)
Definition unscaleInf (s : R) : R := 1 / (1 - s) - 1 / s.
Definition dudsInf (s : R) : R := 1 / pow_2 (1 - s) + 1 / pow_2 s.

(** math_core.cpp:285-290: the exponential term of unscale(ScalingDoubleInf); 1/t = infinity gives u = 0 when t = 0 *)
Definition doubleInfExp (t : R) : R := if Req_b t 0 then 0 else exp (1 / (1 / 2 - t) - 1 / t).

(** unscale: math_core.cpp:254-258, 268-282, 285-290, 315-319, 341-345, 382-387 *)
Definition unscale (sc : scaling) (s : R) : R :=
  match sc with
  | ScalingInf => unscaleInf s
  | ScalingSemiInf0 neg => let u := exp (1 / (1 - s) - 1 / s) in if neg then - 1 / u else u
  | ScalingSemiInf u0 => u0 * exp (s / (1 - s))
  | ScalingDoubleInf u0 => let t := Rabs (s - 1 / 2) in u0 * (s - 1 / 2) + doubleInfExp t * sign (s - 1 / 2)
  | ScalingLin ul ur => ul * (1 - s) + ur * s
  | ScalingCub ul ur => ul * pow_2 (1 - s) * (1 + 2 * s) + ur * pow_2 s * (3 - 2 * s)
  | ScalingQui ul ur => ul * pow_3 (1 - s) * (1 + (6 * s + 3) * s) + ur * pow_3 s * (10 + (6 * s - 15) * s)
  end.
(** the optional output *duds of the same functions *)
Definition duds (sc : scaling) (s : R) : R :=
  match sc with
  | ScalingInf => dudsInf s
  | ScalingSemiInf0 neg => let u := exp (1 / (1 - s) - 1 / s) in let u := if neg then - 1 / u else u in Rabs u * (1 / pow_2 (1 - s) + 1 / pow_2 s)
  | ScalingSemiInf u0 => u0 * exp (s / (1 - s)) / pow_2 (1 - s)
  | ScalingDoubleInf u0 => let t := Rabs (s - 1 / 2) in let u := doubleInfExp t in
      u0 + (if Req_b u 0 then 0 else u * (1 / pow_2 (1 / 2 - t) + 1 / pow_2 t))
  | ScalingLin ul ur => ur - ul
  | ScalingCub ul ur => (ur - ul) * 6 * s * (1 - s)
  | ScalingQui ul ur => (ur - ul) * 30 * pow_2 (s * (1 - s))
  end.
(** one Newton iteration of scale(ScalingCub), math_core.cpp:336, and one Halley iteration of scale(ScalingQui), math_core.cpp:373-377 *)
Definition cubNewton (w s : R) : R := s - 1 / 6 * (s * s * (3 - 2 * s) - w) / (s * (1 - s)).
Definition quiHalley (w s : R) : R :=
  let s2 := s * s in let s3 := s2 * s in
  s * ((s3 * (12 * s3 - 33 * s2 + 30 * s - 10) + (3 * s - 2) * w) / (s3 * (18 * s3 - 54 * s2 + 55 * s - 20) + (2 * s - 1) * w)).
(** scale: math_core.cpp:248-252, 261-266, 292-308 (only the analytic branch u0=0), 311-313, 322-339.
    None: not modelled (iterations of ScalingDoubleInf with u0>0; ScalingQui, whose initial guess uses frexp/ldexp) *)
Definition scale (sc : scaling) (u : R) : option R :=
  match sc with
  | ScalingInf => Some (scaleInf u)
  | ScalingSemiInf0 neg => Some (scaleInf (if neg then - ln (- u) else ln u))
  | ScalingSemiInf u0 => let l := ln (u / u0) in Some (l / (1 + l))
  | ScalingDoubleInf u0 =>
      if Req_b u 0 then Some (1 / 2)
      else if Req_b u0 0 then Some (1 / 2 + 1 / 2 * scaleInf (ln (Rabs u) * (1 / 2)) * sign u)
      else None
  | ScalingLin ul ur => Some ((u - ul) / (ur - ul))
  | ScalingCub ul ur =>
      if Req_b u ul then Some 0 else if Req_b u ur then Some 1
      else let half := 1 / 2 * (ul + ur) in
      if Req_b u half then Some (1 / 2)
      else let w := if Rlt_b u half then (u - ul) / (ur - ul) else (ur - u) / (ur - ul) in
        let s := 1 / sqrt 3 * sqrt w + w * (1184 / 10000 + 1291 / 10000 * w) in
        let s := cubNewton w (cubNewton w s) in
        Some (if Rlt_b u half then s else 1 - s)
  | ScalingQui _ _ => None
  end.
(** the range of s and of u on which the transformation is used *)
Definition srange (sc : scaling) (s : R) : Prop :=
  match sc with
  | ScalingInf | ScalingSemiInf0 _ | ScalingDoubleInf _ => 0 < s < 1
  | ScalingSemiInf _ => 0 <= s < 1
  | ScalingLin _ _ | ScalingCub _ _ | ScalingQui _ _ => 0 <= s <= 1
  end.

(** math_core.h:205-216 ScaledFnc::evalDeriv *)
Definition scaledFnc_val (sc : scaling) (f : R -> R) (s : R) : R := f (unscale sc s).
Definition scaledFnc_der (sc : scaling) (df : R -> R) (s : R) : R := df (unscale sc s) * duds sc s.
(** math_core.h:248-251 ScaledIntegrand::value *)
Definition scaledIntegrand (sc : scaling) (f : R -> R) (s : R) : R := f (unscale sc s) * duds sc s.
