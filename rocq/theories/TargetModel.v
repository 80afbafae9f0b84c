(** Model of density discretization schemes (galaxymodel_densitygrid.{h,cpp}). Exact real arithmetic; [int] indices do not overflow.
    The effect of addPoint on the output array is the list of (index, increment) in the order of the assignments. *)
From Verif Require Import Base BinSearchModel RandReal PolyModel.
From Coq Require Import Reals Lra.
Local Open Scope Z_scope.
Definition contrib := list (Z * R).

(** ** grids *)
Fixpoint increasingb (prev : R) (l : list R) : bool := match l with [] => true | x :: t => Rlt_b prev x && increasingb x t end.
(** densitygrid.cpp:157, 362, 492-493: the first element which is not positive is skipped *)
Definition skipZero (grid : list R) : list R := match grid with [] => [] | x :: t => if Rlt_b 0 x then grid else t end.
(** the checks in constructors, e.g. densitygrid.cpp:162-166, 364-368, 496-502: at least one element, the first positive, increasing *)
Definition gridOk (grid : list R) : bool := match grid with [] => false | x :: t => Rlt_b 0 x && increasingb x t end.
(** TargetDensityClassic, densitygrid.cpp:149-167: shellRadii, or an exception *)
Definition mkClassic (s : Z) (grid : list R) (axisYtoX axisZtoX : R) : option (list R) :=
  let g := skipZero grid in if negb (gridOk g) || (s <? 1) || Rle_b axisYtoX 0 || Rle_b axisZtoX 0 then None else Some g.
(** densitygrid.cpp:158-160 (cbrt of a positive number) *)
Definition axes (p q : R) : R * R * R := let ax := (1 / Rpower (p * q) (1 / 3))%R in (ax, p * ax, q * ax)%R.
(** the segment of the radial grid containing r, and the fractional offset in it: densitygrid.cpp:175-179, 219-221; 381-390; 510-519 *)
Definition radSeg (grid : list R) (r : R) : res (option (Z * R)) :=
  k <- binSearchR r grid ;;
  let ind := k + 1 in
  if zlen grid <=? ind then Ok None else
  gi <- get grid ind ;;
  prev <- (if ind =? 0 then Ok 0%R else get grid (ind - 1)) ;;
  Ok (Some (ind, (r - prev) / (gi - prev))%R).

(** ** Classic scheme *)
(** densitygrid.h (numValues), densitygrid.cpp:155: N is the order, 0 or 1 *)
Definition vps (N s : Z) : Z := 3 * s * (s + N) + N.
Definition numClassic (N s : Z) (grid : list R) : Z := vps N s * zlen grid + N.
(** densitygrid.cpp:180-198 *)
Definition paneOf (X Y Zc : R) : res (Z * R * R * R) :=
  if Rle_b Y X && Rlt_b Zc X then Ok (0, X, Y, Zc)
  else if Rle_b Zc Y && Rlt_b X Y then Ok (1, Y, Zc, X)
  else if Rle_b X Zc && Rle_b Y Zc then Ok (2, Zc, X, Y)
  else Throw.
(** densitygrid.cpp:202-205, 216-217: index of the row and the fractional offset in it; 0/0 is NaN and fmin(NaN,1)=1 *)
Definition strip (s : Z) (c1 c0 : R) : Z * R :=
  let ratio := ((if Req_b c0 0 then 1 else Rmin (atan (c1 / c0) * (4 / PI)) 1) * IZR s)%R in
  let ind := Z.min (Int_part ratio) (s - 1) in (ind, ratio - IZR ind)%R.
(** getCornerIndicesClassic<0>, densitygrid.cpp:65-70 *)
Definition corner0 (pane i1 i2 s : Z) : Z := i1 + (i2 + pane * s) * s.
(** getCornerIndicesClassic<1>, densitygrid.cpp:71-88 *)
Definition corner1 (pane i1 i2 s : Z) : Z * Z * Z * Z :=
  let ll := i1 + (i2 + pane * s) * (s + 1) in
  let ul := ll + 1 in
  if i2 <? s - 1 then let lu := ll + s + 1 in (ll, ul, lu, lu + 1)
  else
    let adj := (pane + 2) mod 3 in
    let lu := (i1 + adj * s + 1) * (s + 1) - 1 in
    (ll, ul, lu, if i1 <? s - 1 then lu + s + 1 else 3 * s * (s + 1)).
(** addPoint, densitygrid.cpp:170-238; [ax] are the three axes *)
Definition addClassic (N s : Z) (grid : list R) (ax : R * R * R) (x y z mult : R) : res contrib :=
  let '(ax1, ax2, ax3) := ax in
  let X := Rabs (x / ax1) in let Y := (Rabs y / ax2)%R in let Zc := (Rabs z / ax3)%R in
  let r := sqrt (X * X + Y * Y + Zc * Zc) in
  seg <- radSeg grid r ;;
  match seg with
  | None => Ok []
  | Some (ish, off) =>
    if Req_b mult 0 then Ok [] else
    p <- paneOf X Y Zc ;;
    let '(pane, c0, c1, c2) := p in
    let '(i1, f1) := strip s c1 c0 in
    let '(i2, f2) := strip s c2 c0 in
    if N =? 0 then Ok [(corner0 pane i1 i2 s + ish * vps N s, mult)]
    else
      let '(ll, ul, lu, uu) := corner1 pane i1 i2 s in
      let four (o : Z) (v : R) := [((o + ll)%Z, (1 - f1) * (1 - f2) * v); ((o + ul)%Z, f1 * (1 - f2) * v); ((o + lu)%Z, (1 - f1) * f2 * v); ((o + uu)%Z, f1 * f2 * v)]%R in
      let val := (mult * off)%R in
      let o := ish * vps N s + 1 in
      Ok (four o val ++ (if ish =? 0 then [(0, (mult - val)%R)] else four (o - vps N s) (mult - val)%R))
  end.
(** the position described by coefName, densitygrid.cpp:305-345: shell number (-1: the origin), and the direction (not normalized) *)
Definition rotate (pane : Z) (c0 c1 c2 : R) : R * R * R := if pane =? 0 then (c0, c1, c2) else if pane =? 1 then (c2, c0, c1) else (c1, c2, c0).
Definition tanS (s j : Z) : R := tan (PI / 4 * IZR j / IZR s).
Definition nodeClassic (s index : Z) : Z * (R * R * R) :=
  if index =? 0 then (-1, (1, 0, 0)%R) else
  let k := index - 1 in
  let shell := k / vps 1 s in
  let k := k mod vps 1 s in
  if k =? vps 1 s - 1 then (shell, (1, 1, 1)%R)
  else let pane := k / (s * (s + 1)) in let k := k mod (s * (s + 1)) in
    (shell, rotate pane 1%R (tanS s (k mod (s + 1))) (tanS s (k / (s + 1)))).

(** ** Cylindrical scheme *)
(** densitygrid.cpp:494; mmax/2 is an integer division *)
Definition numCyl (N mmax nR nz : Z) : Z := (nz + N) * (nR * (mmax / 2 + 1) + N).
(** getCornerIndicesCylindrical<0>, densitygrid.cpp:96-101 *)
Definition cylCorner0 (m iR iz nR nz : Z) : Z := iR + (iz + m / 2 * nz) * nR.
(** getCornerIndicesCylindrical<1>, densitygrid.cpp:102-117 *)
Definition cylCorner1 (m iR iz nR nz : Z) : Z * Z * Z * Z :=
  let '(off, nR', iR') := if 0 <? m then ((1 + m / 2 * nR) * (nz + 1), nR - 1, iR - 1) else (0, nR, iR) in
  let ll := off + iR' + iz * (nR' + 1) in let lu := ll + nR' + 1 in (ll, ll + 1, lu, lu + 1).
(** even numbers 0, 2, ..., <= mmax *)
Definition evens (mmax : Z) : list Z := map (fun k => 2 * Z.of_nat k) (seq 0 (Z.to_nat (mmax / 2 + 1))).
(** addPoint, densitygrid.cpp:506-544: [Rc], [z]: cylindrical radius and |z|; [cosm m]: cos(m phi) *)
Definition addCyl (N mmax : Z) (gridR gridz : list R) (Rc z : R) (cosm : Z -> R) (mult : R) : res contrib :=
  sR <- radSeg gridR Rc ;;
  sz <- radSeg gridz z ;;
  match sR, sz with
  | Some (iR, oR), Some (iz, oz) =>
    if Req_b mult 0 then Ok [] else
    let nR := zlen gridR in let nz := zlen gridz in
    Ok (flat_map (fun m =>
      let val := (mult * (if (m =? 0)%Z then 1 else 2 * cosm m))%R in
      if N =? 0 then [(cylCorner0 m iR iz nR nz, val)] else
      let '(ll, ul, lu, uu) := cylCorner1 m iR iz nR nz in
      [(ul, val * oR * (1 - oz)); (uu, val * oR * oz)]%R ++
      (if (m =? 0) || (0 <? iR) then [(ll, val * (1 - oR) * (1 - oz)); (lu, val * (1 - oR) * oz)]%R else [])) (evens mmax))
  | _, _ => Ok []
  end.
(** coefName: (m, index of the node in R, index of the node in z); -1 is the extra node at zero. densitygrid.cpp:606-636 *)
Definition nodeCyl1 (nR nz index : Z) : Z * Z * Z :=
  let m0 := (nR + 1) * (nz + 1) in let ms := nR * (nz + 1) in
  let m := if index <? m0 then 0 else ((index - m0) / ms + 1) * 2 in
  let iz := if index <? m0 then index / (nR + 1) else (index - m0) / nR mod (nz + 1) in
  let iR := if index <? m0 then index mod (nR + 1) else (index - m0) mod nR + 1 in
  (m, iR - 1, iz - 1).
Definition nodeCyl0 (nR nz index : Z) : Z * Z * Z := let imz := index / nR in (imz / nz * 2, index mod nR, imz mod nz).

(** ** spherical-harmonic scheme *)
(** densitygrid.h (numValues), densitygrid.cpp:360 *)
Definition angularCoefs (lmax mmax : Z) : Z := (lmax / 2 + 1) * (mmax / 2 + 1) - mmax / 2 * (mmax / 2 + 1) / 2.
Definition numSph (lmax mmax : Z) (grid : list R) : Z := angularCoefs lmax mmax * zlen grid + 1.
(** one pass of the loop over l, densitygrid.cpp:404-409: [cnt] iterations from [l], with the increment of the offset *)
Fixpoint lLoop (cnt : nat) (n m l offset ir : Z) (ylm : Z -> Z -> R) (mult off : R) : contrib :=
  match cnt with
  | O => []
  | S c => let val := (mult * ylm l m)%R in
      (offset, val * off)%R :: (if (0 <? ir) || (l =? 0) then [((offset - 1)%Z, val * (1 - off))%R] else []) ++ lLoop c n m (l + 2) (offset + n) ir ylm mult off
  end.
(** number of iterations of for(l=m; l<=lmax; l+=2) *)
Definition cntL (lmax m : Z) : nat := Z.to_nat ((lmax - m) / 2 + 1).
(** densitygrid.cpp:402-410 *)
Fixpoint mLoop (cnt : nat) (lmax n m offset ir : Z) (ylm : Z -> Z -> R) (mult off : R) : contrib :=
  match cnt with
  | O => []
  | S c => lLoop (cntL lmax m) n m m offset ir ylm mult off ++ mLoop c lmax n (m + 2) (offset + n * Z.of_nat (cntL lmax m)) ir ylm mult off
  end.
(** addPoint, densitygrid.cpp:371-411; [r]: spherical radius; [ylm l m]: the angular function, leg[l-m] * 2 sqrt(pi) * (m==0 ? 1 : sqrt 2 cos(m phi)) *)
Definition addSph (lmax mmax : Z) (grid : list R) (r : R) (ylm : Z -> Z -> R) (mult : R) : res contrib :=
  if Req_b r 0 then Ok [(0, mult)] else
  seg <- radSeg grid r ;;
  match seg with
  | None => Ok []
  | Some (ir, off) => if Req_b mult 0 then Ok [] else Ok (mLoop (Z.to_nat (mmax / 2 + 1)) lmax (zlen grid) 0 (ir + 1) ir ylm mult off)
  end.

(** coefName, densitygrid.cpp:465-479: (m, l, index of the node in r); -1 is the origin *)
Fixpoint nodeSphLoop (fuel : nat) (n lmax m index : Z) : res (Z * Z * Z) :=
  match fuel with
  | O => Fuel
  | S k => if n * (1 + lmax / 2 - m / 2) <=? index then nodeSphLoop k n lmax (m + 2) (index - n * (1 + lmax / 2 - m / 2)) else Ok (m, index / n * 2 + m, index mod n)
  end.
Definition nodeSph (lmax mmax n index : Z) : res (Z * Z * Z) := if index =? 0 then Ok (0, 0, -1) else nodeSphLoop (Z.to_nat (mmax / 2 + 1)) n lmax 0 (index - 1).
(** TargetDensitySphHarm, densitygrid.cpp:356-369 *)
Definition mkSph (lmax mmax : Z) (grid : list R) : option (list R) :=
  let g := skipZero grid in if (0 <=? lmax) && (0 <=? mmax) && (mmax <=? lmax) && gridOk g then Some g else None.
(** TargetDensityCylindrical, densitygrid.cpp:487-503: the two grids *)
Definition mkCyl (mmax : Z) (gridR gridz : list R) : option (list R * list R) :=
  let gR := skipZero gridR in let gz := skipZero gridz in if (0 <=? mmax) && gridOk gR && gridOk gz then Some (gR, gz) else None.
