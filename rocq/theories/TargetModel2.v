(** Model of the optimized projection of a density onto the classic target grid: the quadrature points and their contributions
    (galaxymodel_densitygrid.cpp:240-302). Exact real arithmetic. *)
From Verif Require Import Base RandReal PolyModel TargetModel.
From Coq Require Import Reals.
Local Open Scope Z_scope.
(** the value of the grid node before the shell, densitygrid.cpp:258-259 *)
Definition innerRadius (g : list R) (ish : Z) : R := if ish =? 0 then 0%R else nth (Z.to_nat (ish - 1)) g 0%R.
(** nodesAng, densitygrid.cpp:250: [o] is a node of the Gauss-Legendre rule on [0,1] *)
Definition nodeAng (s i : Z) (o : R) : R := tan (PI / 4 * (IZR i + o) / IZR s).
(** coord and the point at which the density is evaluated, densitygrid.cpp:258-262, 270-271, 274-276 *)
Definition projPoint (s : Z) (g : list R) (ax : R * R * R) (ish : Z) (oR : R) (pane i1 : Z) (o1 : R) (i2 : Z) (o2 : R) : R * R * R :=
  let radius := (innerRadius g ish * (1 - oR) + nth (Z.to_nat ish) g 0 * oR)%R in
  let n1 := nodeAng s i1 o1 in let n2 := nodeAng s i2 o2 in
  let denom := (1 / sqrt (1 + pow_2 n1 + pow_2 n2))%R in
  let coord (k : Z) := (if k =? 0 then radius * denom else if k =? 1 then radius * denom * n1 else radius * denom * n2)%R in
  let '(a1, a2, a3) := ax in
  (coord ((3 - pane) mod 3) * a1, coord ((4 - pane) mod 3) * a2, coord ((5 - pane) mod 3) * a3)%R.
(** contributions of one quadrature point with weighted density [value], densitygrid.cpp:277-298 *)
Definition projAdd (N s ish : Z) (oR : R) (pane i1 : Z) (o1 : R) (i2 : Z) (o2 : R) (value : R) : contrib :=
  if N =? 0 then [(corner0 pane i1 i2 s + ish * vps N s, value)]
  else
    let '(ll, ul, lu, uu) := corner1 pane i1 i2 s in
    let o := ish * vps N s + 1 in
    [((o + ll)%Z, value * oR * (1 - o1) * (1 - o2)); ((o + ul)%Z, value * oR * o1 * (1 - o2)); ((o + lu)%Z, value * oR * (1 - o1) * o2); ((o + uu)%Z, value * oR * o1 * o2)]%R ++
    (if ish =? 0 then [(0, (value * (1 - oR))%R)]
     else let o := o - vps N s in
       [((o + ll)%Z, value * (1 - oR) * (1 - o1) * (1 - o2)); ((o + ul)%Z, value * (1 - oR) * o1 * (1 - o2)); ((o + lu)%Z, value * (1 - oR) * (1 - o1) * o2); ((o + uu)%Z, value * (1 - oR) * o1 * o2)]%R).
