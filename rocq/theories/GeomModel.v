(** Polygons and integrals of tensor-product B-splines over them, /repo/src/math_geometry.{h,cpp}.  Exact reals.
    Simplifications: coordinates are finite; the numbers of vertices fit into int; a polygon is a list of vertices;
    the decimal constants of the quadrature rules are a parameter [georule] (the values in the code are [codeRule]);
    the template parameter N is an ordinary argument. *)
From Verif Require Export Arr BinSearchModel SplineModel PolyModel BsplModel.
Require Import List. Import ListNotations.
Local Open Scope R_scope.

(** Point2d, math_geometry.h:13-20: (x, y) *)
Definition pt := (R * R)%type.
(** Rectangle, math_geometry.h:23-29 *)
Record rect := mkRect { r_lower : pt; r_upper : pt }.
(** math_core.h:74-75 *)
Definition linearInterp (x x1 x2 y1 y2 : R) : R := ((x - x1) * y2 + (x2 - x) * y1) / (x2 - x1).

(** math_geometry.cpp:107-115 *)
Definition isInside (p : pt) (r : rect) (dir : Z) : bool :=
  if (dir =? 0)%Z then Rle_b (snd (r_lower r)) (snd p)
  else if (dir =? 1)%Z then Rle_b (fst p) (fst (r_upper r))
  else if (dir =? 2)%Z then Rle_b (snd p) (snd (r_upper r))
  else Rle_b (fst (r_lower r)) (fst p).
(** the new vertex, math_geometry.cpp:145-161 *)
Definition intersection (prev curr : pt) (r : rect) (dir : Z) : pt :=
  if (dir =? 0)%Z then (linearInterp (snd (r_lower r)) (snd prev) (snd curr) (fst prev) (fst curr), snd (r_lower r))
  else if (dir =? 1)%Z then (fst (r_upper r), linearInterp (fst (r_upper r)) (fst prev) (fst curr) (snd prev) (snd curr))
  else if (dir =? 2)%Z then (linearInterp (snd (r_upper r)) (snd prev) (snd curr) (fst prev) (fst curr), snd (r_upper r))
  else (fst (r_lower r), linearInterp (fst (r_lower r)) (fst prev) (fst curr) (snd prev) (snd curr)).
(** the loop over vertices, math_geometry.cpp:139-167: the vertices appended to dest *)
Fixpoint clipLoop (r : rect) (dir : Z) (prev : pt) (src : list pt) : list pt :=
  match src with
  | [] => []
  | curr :: rest =>
    (if xorb (isInside prev r dir) (isInside curr r dir) then [intersection prev curr r dir] else [])
    ++ (if isInside curr r dir then [curr] else [])
    ++ clipLoop r dir curr rest
  end.
(** one pass of the outer loop, math_geometry.cpp:131-168; the first prev is src.back() *)
Definition clipDir (r : rect) (dir : Z) (src : list pt) : list pt :=
  match src with [] => [] | a :: _ => clipLoop r dir (last src a) src end.
(** math_geometry.cpp:119-170; the alternating use of tmp and result only passes each output to the next pass *)
Definition clipPolygonByRectangle (polygon : list pt) (r : rect) : list pt :=
  clipDir r 3 (clipDir r 2 (clipDir r 1 (clipDir r 0 polygon))).

(** math_geometry.cpp:233-240; j is the previous vertex, initially the last one *)
Fixpoint areaLoop (prev : pt) (l : list pt) (result : R) : R :=
  match l with [] => result | v :: t => areaLoop v t (result + (fst v + fst prev) * (snd v - snd prev)) end.
Definition polygonArea (polygon : list pt) : R :=
  match polygon with [] => 0 * 0.5 | a :: _ => areaLoop (last polygon a) polygon 0 * 0.5 end.

(** math_geometry.cpp:242-260; the next vertex after the last one is polygon[0] *)
Definition windStep (x y : R) (v w : pt) (wind : Z) : Z :=
  let dx := fst w - fst v in let dy := snd w - snd v in let sign := dx * (y - snd v) - dy * (x - fst v) in
  if Rle_b (snd v) y then
    (if Rlt_b y (snd w) && Rlt_b 0 sign then wind + 1 else wind)%Z
  else (if Rle_b (snd w) y && Rlt_b sign 0 then wind - 1 else wind)%Z.
Fixpoint windLoop (x y : R) (first : pt) (l : list pt) (wind : Z) : Z :=
  match l with
  | [] => wind
  | v :: t => windLoop x y first t (windStep x y v (match t with [] => first | w :: _ => w end) wind)
  end.
Definition isPointInsidePolygon (x y : R) (polygon : list pt) : bool :=
  match polygon with [] => false | a :: _ => negb (windLoop x y a polygon 0 =? 0)%Z end.

(** the numerical constants: X1 (line 22) and rule6 (lines 57-63) *)
Record georule := mkRule { g_X1 : R; g_rule6 : list (R * R * R) }.
Definition codeRule : georule := mkRule 0.2113248654051871
  [ (0.091576213509771, 0.091576213509771, 0.1099517436553219);
    (0.091576213509771, 0.816847572980459, 0.1099517436553219);
    (0.816847572980459, 0.091576213509771, 0.1099517436553219);
    (0.445948490915965, 0.445948490915965, 0.2233815896780115);
    (0.108103018168070, 0.445948490915965, 0.2233815896780115);
    (0.445948490915965, 0.108103018168070, 0.2233815896780115) ].
Definition rule1 : list (R * R * R) := [ (1/3, 1/3, 1) ].
Definition rule3 : list (R * R * R) := [ (1/6, 1/6, 1/3); (1/6, 2/3, 1/3); (2/3, 1/6, 1/3) ].

Section Integrals.
  Variable T : georule.
  Variable N : nat.
  Variables gx gy : arr R.
  (** bsplx.numValues() *)
  Let nx := numComp N gx.
  (** the double loop of lines 38-40 and 73-75: output[(j + indy) * nx + i + indx] += mult * weightx[i] * weighty[j] *)
  Definition accumulate (mult : R) (indx indy : Z) (wx wy : arr R) (output : arr R) : res (arr R) :=
    for_ 0 (Z.of_nat N + 1) (fun i output =>
      for_ 0 (Z.of_nat N + 1) (fun j output =>
        a <- aget wx i ;; b <- aget wy j ;;
        let k := ((j + indy) * nx + i + indx)%Z in
        o <- aget output k ;; aset output k (o + mult * a * b)) output) output.
  (** math_geometry.cpp:12-42; weightxb, weightyb are computed and used only if N>1; p=0,1,2,3 *)
  Definition integrateOverRectangle (r : rect) (output : arr R) : res (arr R) :=
    let small := (N <=? 1)%nat in
    let area := (fst (r_upper r) - fst (r_lower r)) * (snd (r_upper r) - snd (r_lower r)) * (if small then 1 else 0.25) in
    let X1 := g_X1 T in let X2 := 1 - X1 in
    let xa := if small then 0.5 * (fst (r_lower r) + fst (r_upper r)) else X1 * fst (r_lower r) + X2 * fst (r_upper r) in
    let ya := if small then 0.5 * (snd (r_lower r) + snd (r_upper r)) else X1 * snd (r_lower r) + X2 * snd (r_upper r) in
    cx <- nonzeroComponents N gx xa 0 ;; let (indx, wxa) := cx : Z * arr R in
    cy <- nonzeroComponents N gy ya 0 ;; let (indy, wya) := cy : Z * arr R in
    if small then accumulate area indx indy wxa wya output else
    dx <- nonzeroComponents N gx (X1 * fst (r_upper r) + X2 * fst (r_lower r)) 0 ;; let (_, wxb) := dx : Z * arr R in
    dy <- nonzeroComponents N gy (X1 * snd (r_upper r) + X2 * snd (r_lower r)) 0 ;; let (_, wyb) := dy : Z * arr R in
    output <- accumulate area indx indy wxa wya output ;;
    output <- accumulate area indx indy wxb wya output ;;
    output <- accumulate area indx indy wxa wyb output ;;
    accumulate area indx indy wxb wyb output.
  (** the loop over points, math_geometry.cpp:67-76 *)
  Fixpoint rulePoints (p1 p2 p3 : pt) (area : R) (rule : list (R * R * R)) (output : arr R) : res (arr R) :=
    match rule with
    | [] => Ok output
    | (a, b, w) :: rest =>
      let x := fst p1 * a + fst p2 * b + fst p3 * (1 - a - b) in
      let y := snd p1 * a + snd p2 * b + snd p3 * (1 - a - b) in
      cx <- nonzeroComponents N gx x 0 ;; let (indx, wx) := cx : Z * arr R in
      cy <- nonzeroComponents N gy y 0 ;; let (indy, wy) := cy : Z * arr R in
      output <- accumulate (area * w) indx indy wx wy output ;;
      rulePoints p1 p2 p3 area rest output
    end.
  Definition ruleN : list (R * R * R) := match N with O => rule1 | Datatypes.S O => rule3 | _ => g_rule6 T end.
  (** math_geometry.cpp:46-77 *)
  Definition integrateOverTriangle (p1 p2 p3 : pt) (output : arr R) : res (arr R) :=
    let area := 0.5 * (fst p1 * (snd p2 - snd p3) + fst p2 * (snd p3 - snd p1) + fst p3 * (snd p1 - snd p2)) in
    if Req_b area 0 then Ok output else rulePoints p1 p2 p3 area ruleN output.
  (** the loop over v=2..numVertices-1, math_geometry.cpp:102-103: p0 = polygon[0], prev = polygon[v-1] *)
  Fixpoint fan (p0 prev : pt) (l : list pt) (output : arr R) : res (arr R) :=
    match l with [] => Ok output | v :: t => output <- integrateOverTriangle p0 prev v output ;; fan p0 v t output end.
  Definition fanAll (polygon : list pt) (output : arr R) : res (arr R) :=
    match polygon with p0 :: p1 :: t => fan p0 p1 t output | _ => Ok output end.
  (** math_geometry.cpp:80-104 *)
  Definition integrateOverPolygon (polygon : list pt) (output : arr R) : res (arr R) :=
    match polygon with
    | [p0; p1; p2; p3] =>
      if Req_b (fst p0) (fst p3) && Req_b (snd p0) (snd p1) && Req_b (fst p1) (fst p2) && Req_b (snd p2) (snd p3) then integrateOverRectangle (mkRect p0 p2) output
      else if Req_b (fst p1) (fst p0) && Req_b (snd p1) (snd p2) && Req_b (fst p2) (fst p3) && Req_b (snd p3) (snd p0) then integrateOverRectangle (mkRect p1 p3) output
      else fanAll polygon output
    | _ => fanAll polygon output
    end.
  (** lines 185-194, the bounding box and the area: (area, xmin, xmax, ymin, ymax); the running minima start from the first vertex rather than from INFINITY *)
  Fixpoint bbox (first : pt) (l : list pt) (st : R * R * R * R * R) : R * R * R * R * R :=
    match l with
    | [] => st
    | v :: t =>
      let w := match t with [] => first | w :: _ => w end in
      let '(area, xmin, xmax, ymin, ymax) := st in
      bbox first t (area + 0.5 * (fst v + fst w) * (snd w - snd v), Rmin xmin (fst v), Rmax xmax (fst v), Rmin ymin (snd v), Rmax ymax (snd v))
    end.
  (** math_geometry.cpp:173-220: the returned flag and the output array *)
  Definition computeBsplineIntegralsOverPolygon (polygon : list pt) (output : arr R) : res (bool * arr R) :=
    match polygon with
    | v0 :: _ :: _ :: _ =>
      let '(area, xmin, xmax, ymin, ymax) := bbox v0 polygon (0, fst v0, fst v0, snd v0, snd v0) in
      bx1 <- binSearchR xmin (alist gx) ;; bx2 <- binSearchR xmax (alist gx) ;;
      by1 <- binSearchR ymin (alist gy) ;; by2 <- binSearchR ymax (alist gy) ;;
      let o1 := (bx1 <? 0)%Z in let indXmin := if o1 then 0%Z else bx1 in
      let o2 := (by1 <? 0)%Z in let indYmin := if o2 then 0%Z else by1 in
      let o3 := (alen gx - 1 <? bx2 + 1)%Z in let indXmax := (if o3 then alen gx - 1 else bx2 + 1)%Z in
      let o4 := (alen gy - 1 <? by2 + 1)%Z in let indYmax := (if o4 then alen gy - 1 else by2 + 1)%Z in
      let newpoly := if Rle_b 0 area then polygon else rev polygon in
      output <- for_ indYmin indYmax (fun iy output => for_ indXmin indXmax (fun ix output =>
        x1 <- aget gx ix ;; y1 <- aget gy iy ;; x2 <- aget gx (ix + 1) ;; y2 <- aget gy (iy + 1) ;;
        integrateOverPolygon (clipPolygonByRectangle newpoly (mkRect (x1, y1) (x2, y2))) output) output) output ;;
      Ok (o1 || o2 || o3 || o4, output)
    | _ => Ok (false, output)
    end.
End Integrals.
