(** Model of the two-dimensional interpolators, /repo/src/math_spline.cpp:2147-2615 (exact real arithmetic).
    A 2d array is flattened in the row-major order: element (i,j) of an array with ny columns is at i*ny+j. *)
From Verif Require Export Arr BandModel BinSearchModel SplineModel.
Local Open Scope Z_scope.

(** IMatrixDense: rows(), cols(), data(); size() = rows*cols *)
Record mat := mkMat { m_rows : Z; m_cols : Z; m_data : arr R }.
(** the loops which copy a row or a column into a temporary array (lines 2234-2235, 2245-2246, 2260-2261, 2399-2404 etc.) and back (2239-2240, 2250-2251, 2266-2267, 2407-2409 etc.) *)
Definition rowof (a : arr R) (ny i : Z) : arr R := mkArr ny (fun j => afn a (i * ny + j)).
Definition colof (a : arr R) (nx ny j : Z) : arr R := mkArr nx (fun i => afn a (i * ny + j)).
Definition setrow (a : arr R) (ny i : Z) (d : arr R) : arr R := mkArr (alen a) (fun k => if k / ny =? i then afn d (k mod ny) else afn a k).
Definition setcol (a : arr R) (ny j : Z) (d : arr R) : arr R := mkArr (alen a) (fun k => if k mod ny =? j then afn d (k / ny) else afn a k).

(** BaseInterpolator2d, lines 2149-2166, with checkSizes2d, lines 1168-1179 (all numbers are finite in this model) *)
Definition checkSizes2d (m : mat) (nx ny : Z) : res unit := if negb (m_rows m =? nx) then Throw else if negb (m_cols m =? ny) then Throw else Ok tt.
Definition check2d (xs ys : arr R) (f : mat) : res unit :=
  if (alen xs <? 2) || (alen ys <? 2) then Throw else
  u <- checkMonotonic xs ;; u <- checkMonotonic ys ;; checkSizes2d f (alen xs) (alen ys).

Local Open Scope R_scope.
(** z, z_x, z_y and z_xx, z_xy, z_yy; None: all three are NaN *)
Definition vals2 : Type := (option (R * R * R) * option (R * R * R))%type.

(** ** LinearInterpolator2d *)
Record lin2d := mkLin2 { l2_x : arr R; l2_y : arr R; l2_f : arr R }.
Definition linear2dNew (xs ys : arr R) (f : mat) : res lin2d := u <- check2d xs ys f ;; Ok (mkLin2 xs ys (m_data f)).
(** the test that a point is inside the grid, lines 2188, 2292, 2570 *)
Definition outside (nx ny xi yi : Z) : bool := ((xi <? 0) || (xi >=? nx - 1) || (yi <? 0) || (yi >=? ny - 1))%Z.
(** evalDeriv, lines 2170-2210 *)
Definition linear2dEval (s : lin2d) (x y : R) : res vals2 :=
  if (alen (l2_f s) =? 0)%Z then Throw else
  let nx := alen (l2_x s) in let ny := alen (l2_y s) in
  xi <- binSearchR x (alist (l2_x s)) ;; yi <- binSearchR y (alist (l2_y s)) ;;
  let ill := (xi * ny + yi)%Z in let ilu := (ill + 1)%Z in let iul := (ill + ny)%Z in let iuu := (iul + 1)%Z in
  if outside nx ny xi yi then Ok (None, Some (0, 0, 0)) else
  zll <- aget (l2_f s) ill ;; zlu <- aget (l2_f s) ilu ;; zul <- aget (l2_f s) iul ;; zuu <- aget (l2_f s) iuu ;;
  xu <- aget (l2_x s) (xi + 1)%Z ;; xl <- aget (l2_x s) xi ;; yu <- aget (l2_y s) (yi + 1)%Z ;; yl <- aget (l2_y s) yi ;;
  let dx := xu - xl in let dy := yu - yl in
  let t := (x - xl) / dx in let u := (y - yl) / dy in let T := 1 - t in let U := 1 - u in
  Ok (Some (T * (U * zll + u * zlu) + t * (U * zul + u * zuu), (U * (zul - zll) + u * (zuu - zlu)) / dx, (T * (zlu - zll) + t * (zuu - zul)) / dy), Some (0, 0, 0)).

(** ** CubicSpline2d *)
Record cub2d := mkCub2 { c2_x : arr R; c2_y : arr R; c2_f : arr R; c2_fx : arr R; c2_fy : arr R; c2_fxy : arr R }.
(** derivatives of a 1d spline: constructCubicSpline, then the optional regularizeSpline *)
Definition slopes (regularize : bool) (x f : arr R) (dL dR : option R) : res (arr R) :=
  d <- constructCubicSpline x f dL dR ;; if regularize then regularizeSpline x f d else Ok d.
(** isFinite(deriv) ? 0. : NAN *)
Definition zero_if (d : option R) : option R := match d with Some _ => Some 0 | None => None end.
Definition finite (d : option R) : bool := match d with Some _ => true | None => false end.
(** the constructor, lines 2215-2274 *)
Definition cubic2dNew (xs ys : arr R) (f : mat) (regularize : bool) (dxmin dxmax dymin dymax : option R) : res cub2d :=
  u <- check2d xs ys f ;;
  let nx := alen xs in let ny := alen ys in let f := m_data f in
  let zero := anew (alen f) 0 in
  (* step 1, lines 2231-2241 *)
  fy <- for_ 0%Z nx (fun i fy => d <- slopes regularize ys (rowof f ny i) dymin dymax ;; Ok (setrow fy ny i d)) zero ;;
  (* steps 2 and 3, lines 2242-2268 *)
  fxs <- for_ 0%Z ny (fun j (st : arr R * arr R) =>
    let (fx, fxy) := st in
    d <- slopes regularize xs (colof f nx ny j) dxmin dxmax ;;
    let fx := setcol fx ny j d in
    if (((j =? 0)%Z && finite dymin) || ((j =? ny - 1)%Z && finite dymax))%bool then Ok (fx, setcol fxy ny j (anew nx 0))
    else d <- slopes regularize xs (colof fy nx ny j) (zero_if dxmin) (zero_if dxmax) ;; Ok (fx, setcol fxy ny j d)) (zero, zero) ;;
  let (fx, fxy) := fxs in
  (* step 4, lines 2269-2273 *)
  fxy <- (if regularize then for_ 0%Z nx (fun i fxy => d <- regularizeSpline ys (rowof fx ny i) (rowof fxy ny i) ;; Ok (setrow fxy ny i d)) fxy else Ok fxy) ;;
  Ok (mkCub2 xs ys f fx fy fxy).
(** evalDeriv, lines 2276-2334; all outputs are requested *)
Definition cubic2dEval (s : cub2d) (x y : R) : res vals2 :=
  if (alen (c2_f s) =? 0)%Z then Throw else
  let nx := alen (c2_x s) in let ny := alen (c2_y s) in
  xi <- binSearchR x (alist (c2_x s)) ;; yi <- binSearchR y (alist (c2_y s)) ;;
  let ill := (xi * ny + yi)%Z in let ilu := (ill + 1)%Z in let iul := (ill + ny)%Z in let iuu := (iul + 1)%Z in
  if outside nx ny xi yi then Ok (None, None) else
  xlow <- aget (c2_x s) xi ;; xupp <- aget (c2_x s) (xi + 1)%Z ;; ylow <- aget (c2_y s) yi ;; yupp <- aget (c2_y s) (yi + 1)%Z ;;
  fll <- aget (c2_f s) ill ;; ful <- aget (c2_f s) iul ;; flu <- aget (c2_f s) ilu ;; fuu <- aget (c2_f s) iuu ;;
  xll <- aget (c2_fx s) ill ;; xul <- aget (c2_fx s) iul ;; xlu <- aget (c2_fx s) ilu ;; xuu <- aget (c2_fx s) iuu ;;
  yll <- aget (c2_fy s) ill ;; yul <- aget (c2_fy s) iul ;; ylu <- aget (c2_fy s) ilu ;; yuu <- aget (c2_fy s) iuu ;;
  pll <- aget (c2_fxy s) ill ;; pul <- aget (c2_fxy s) iul ;; plu <- aget (c2_fxy s) ilu ;; puu <- aget (c2_fxy s) iuu ;;
  let off := if Req_EM_T x xupp then (if Req_EM_T y yupp then fuu else ful) else (if Req_EM_T y yupp then flu else fll) in
  (* the four interpolations along y *)
  let e0 := evalCubic y ylow yupp (fll - off) (flu - off) yll ylu in
  let e1 := evalCubic y ylow yupp (ful - off) (fuu - off) yul yuu in
  let e2 := evalCubic y ylow yupp xll xlu pll plu in
  let e3 := evalCubic y ylow yupp xul xuu pul puu in
  let r := evalCubic x xlow xupp (v_f e0) (v_f e1) (v_f e2) (v_f e3) in
  let ry := evalCubic x xlow xupp (v_d e0) (v_d e1) (v_d e2) (v_d e3) in
  let ryy := evalCubic x xlow xupp (v_d2 e0) (v_d2 e1) (v_d2 e2) (v_d2 e3) in
  Ok (Some (v_f r + off, v_d r, v_f ry), Some (v_d2 r, v_d ry, v_f ryy)).

(** ** QuinticSpline2d *)
Record qui2d := mkQui2 { q2_x : arr R; q2_y : arr R; q2_f : arr R; q2_fx : arr R; q2_fy : arr R; q2_fxx : arr R; q2_fxy : arr R; q2_fyy : arr R;
  q2_fxxy : arr R; q2_fxyy : arr R; q2_fxxyy : arr R }.
(** setupWithMixedDeriv, lines 2496-2551 *)
Definition quintic2dMixed (xs ys f fx fy fxy : arr R) : res qui2d :=
  let nx := alen xs in let ny := alen ys in let zero := anew (alen fx) 0 in
  (* step 1, lines 2501-2521 *)
  st <- for_ 0%Z ny (fun j (st : arr R * arr R) =>
    let (fxx, fxxy) := st in
    txx <- constructQuinticSpline xs (colof f nx ny j) (colof fx nx ny j) ;;
    txxy <- constructQuinticSpline xs (colof fy nx ny j) (colof fxy nx ny j) ;;
    Ok (setcol fxx ny j txx, setcol fxxy ny j txxy)) (zero, zero) ;;
  let (fxx, fxxy) := st in
  (* step 2, lines 2523-2550 *)
  st <- for_ 0%Z nx (fun i (st : arr R * arr R * arr R) =>
    let '(fyy, fxyy, fxxyy) := st in
    tyy <- constructQuinticSpline ys (rowof f ny i) (rowof fy ny i) ;;
    txyy <- constructQuinticSpline ys (rowof fx ny i) (rowof fxy ny i) ;;
    txxyy <- constructQuinticSpline ys (rowof fxx ny i) (rowof fxxy ny i) ;;
    Ok (setrow fyy ny i tyy, setrow fxyy ny i txyy, setrow fxxyy ny i txxyy)) (zero, zero, zero) ;;
  let '(fyy, fxyy, fxxyy) := st in
  Ok (mkQui2 xs ys f fx fy fxx fxy fyy fxxy fxyy fxxyy).
(** evalCubicSplines at node i of a spline with values t and derivatives d, on the segment starting at min(i, n-2): lines 2410-2413, 2443-2445, 2465-2467, 2484-2487 *)
Definition atnode (xs t d : arr R) (i : Z) : vals :=
  let ii := Z.min i (alen xs - 2) in
  evalCubic (afn xs i) (afn xs ii) (afn xs (ii + 1)%Z) (afn t ii) (afn t (ii + 1)%Z) (afn d ii) (afn d (ii + 1)%Z).
(** fxzero, fyzero: all elements of a row or a column are zero *)
Definition allzero (a : arr R) : bool := forallb (fun k => if Req_EM_T (afn a (Z.of_nat k)) 0 then true else false) (seq 0 (Z.to_nat (alen a))).
Definition edge (n i : Z) : bool := ((i =? 0) || (i =? n - 1))%Z.
(** setupWoutMixedDeriv, lines 2380-2493; the flag fxzero[i] is computed in step 2 from the whole row before its use *)
Definition quintic2dWout (xs ys f fx fy : arr R) : res qui2d :=
  let nx := alen xs in let ny := alen ys in let zero := anew (alen fx) 0 in
  let fyzero j := allzero (colof fy nx ny j) in
  let fxzero i := allzero (rowof fx ny i) in
  (* step 1, lines 2389-2416 *)
  st <- for_ 0%Z ny (fun j (st : arr R * arr R * arr R) =>
    let '(fxx, fxy, fxxy) := st in
    let ty := colof fy nx ny j in
    txx <- constructQuinticSpline xs (colof f nx ny j) (colof fx nx ny j) ;;
    txy <- constructCubicSpline xs ty None None ;;
    Ok (setcol fxx ny j txx, setcol fxy ny j txy,
        if edge ny j then setcol fxxy ny j (mkArr nx (fun i => v_d2 (atnode xs ty txy i))) else fxxy)) (zero, zero, zero) ;;
  let '(fxx, fxy, fxxy) := st in
  (* step 2, lines 2418-2472; the corners keep fxyy = 0 *)
  st <- for_ 0%Z nx (fun i (st : arr R * arr R * arr R * arr R * arr R) =>
    let '(fyy, fxy, fxyy, fxxy, fxxyy) := st in
    let tx := rowof fx ny i in
    let txx := rowof fxx ny i in
    tyy <- constructQuinticSpline ys (rowof f ny i) (rowof fy ny i) ;;
    txy <- constructCubicSpline ys tx None None ;;
    txxy <- constructCubicSpline ys txx None None ;;
    let f1 j := afn fxy (i * ny + j)%Z in
    let f2 j := v_d (atnode ys tx txy j) in
    let f3 j := v_d2 (atnode ys tx txy j) in
    let g j := if (edge nx i && negb (edge ny j))%bool then f2 j else f1 j in
    let newxy j := if (negb (edge ny j) || (edge nx i && edge ny j))%bool then (if (fxzero i || fyzero j)%bool then 0 else (g j + f2 j) * 0.5) else g j in
    let newxyy j := if (edge nx i && negb (edge ny j))%bool then f3 j else afn fxyy (i * ny + j)%Z in
    let newxxy j := if edge ny j then afn fxxy (i * ny + j)%Z else if fyzero j then 0 else v_d (atnode ys txx txxy j) in
    let newxxyy j := if edge ny j then afn fxxyy (i * ny + j)%Z else v_d2 (atnode ys txx txxy j) in
    Ok (setrow fyy ny i tyy, setrow fxy ny i (mkArr ny newxy), setrow fxyy ny i (mkArr ny newxyy), setrow fxxy ny i (mkArr ny newxxy), setrow fxxyy ny i (mkArr ny newxxyy)))
    (zero, fxy, zero, fxxy, zero) ;;
  let '(fyy, fxy, fxyy, fxxy, fxxyy) := st in
  (* step 3, lines 2474-2492 *)
  st <- for_ 0%Z ny (fun j (st : arr R * arr R) =>
    let (fxyy, fxxyy) := st in
    let tyy := colof fyy nx ny j in
    txyy <- constructCubicSpline xs tyy None None ;;
    let newxyy i := if edge nx i then afn fxyy (i * ny + j)%Z else if fxzero i then 0 else v_d (atnode xs tyy txyy i) in
    let newxxyy i := if edge nx i then afn fxxyy (i * ny + j)%Z else
      let f4 := v_d2 (atnode xs tyy txyy i) in if edge ny j then f4 else (afn fxxyy (i * ny + j)%Z + f4) * 0.5 in
    Ok (setcol fxyy ny j (mkArr nx newxyy), setcol fxxyy ny j (mkArr nx newxxyy))) (fxyy, fxxyy) ;;
  let (fxyy, fxxyy) := st in
  Ok (mkQui2 xs ys f fx fy fxx fxy fyy fxxy fxyy fxxyy).
(** the constructor, lines 2339-2377; mixed = None: an empty matrix d2fdxdy *)
Definition quintic2dNew (xs ys : arr R) (f dfdx dfdy : mat) (d2fdxdy : option mat) : res qui2d :=
  u <- check2d xs ys f ;;
  let nx := alen xs in let ny := alen ys in
  u <- checkSizes2d dfdx nx ny ;; u <- checkSizes2d dfdy nx ny ;;
  match d2fdxdy with
  | Some m => u <- checkSizes2d m nx ny ;; quintic2dMixed xs ys (m_data f) (m_data dfdx) (m_data dfdy) (m_data m)
  | None => quintic2dWout xs ys (m_data f) (m_data dfdx) (m_data dfdy)
  end.
(** evalDeriv, lines 2553-2614 *)
Definition quintic2dEval (s : qui2d) (x y : R) : res vals2 :=
  if (alen (q2_f s) =? 0)%Z then Throw else
  let nx := alen (q2_x s) in let ny := alen (q2_y s) in
  xi <- binSearchR x (alist (q2_x s)) ;; yi <- binSearchR y (alist (q2_y s)) ;;
  let ill := (xi * ny + yi)%Z in let ilu := (ill + 1)%Z in let iul := (ill + ny)%Z in let iuu := (iul + 1)%Z in
  if outside nx ny xi yi then Ok (None, None) else
  xlow <- aget (q2_x s) xi ;; xupp <- aget (q2_x s) (xi + 1)%Z ;; ylow <- aget (q2_y s) yi ;; yupp <- aget (q2_y s) (yi + 1)%Z ;;
  fll <- aget (q2_f s) ill ;; ful <- aget (q2_f s) iul ;; flu <- aget (q2_f s) ilu ;; fuu <- aget (q2_f s) iuu ;;
  xll <- aget (q2_fx s) ill ;; xul <- aget (q2_fx s) iul ;; xlu <- aget (q2_fx s) ilu ;; xuu <- aget (q2_fx s) iuu ;;
  xxll <- aget (q2_fxx s) ill ;; xxul <- aget (q2_fxx s) iul ;; xxlu <- aget (q2_fxx s) ilu ;; xxuu <- aget (q2_fxx s) iuu ;;
  yll <- aget (q2_fy s) ill ;; yul <- aget (q2_fy s) iul ;; ylu <- aget (q2_fy s) ilu ;; yuu <- aget (q2_fy s) iuu ;;
  xyll <- aget (q2_fxy s) ill ;; xyul <- aget (q2_fxy s) iul ;; xylu <- aget (q2_fxy s) ilu ;; xyuu <- aget (q2_fxy s) iuu ;;
  xxyll <- aget (q2_fxxy s) ill ;; xxyul <- aget (q2_fxxy s) iul ;; xxylu <- aget (q2_fxxy s) ilu ;; xxyuu <- aget (q2_fxxy s) iuu ;;
  yyll <- aget (q2_fyy s) ill ;; yyul <- aget (q2_fyy s) iul ;; yylu <- aget (q2_fyy s) ilu ;; yyuu <- aget (q2_fyy s) iuu ;;
  xyyll <- aget (q2_fxyy s) ill ;; xyyul <- aget (q2_fxyy s) iul ;; xyylu <- aget (q2_fxyy s) ilu ;; xyyuu <- aget (q2_fxyy s) iuu ;;
  xxyyll <- aget (q2_fxxyy s) ill ;; xxyyul <- aget (q2_fxxyy s) iul ;; xxyylu <- aget (q2_fxxyy s) ilu ;; xxyyuu <- aget (q2_fxxyy s) iuu ;;
  let off := if Req_EM_T x xupp then (if Req_EM_T y yupp then fuu else ful) else (if Req_EM_T y yupp then flu else fll) in
  let e0 := evalQuintic y ylow yupp (fll - off) (flu - off) yll ylu yyll yylu in
  let e1 := evalQuintic y ylow yupp (ful - off) (fuu - off) yul yuu yyul yyuu in
  let e2 := evalQuintic y ylow yupp xll xlu xyll xylu xyyll xyylu in
  let e3 := evalQuintic y ylow yupp xul xuu xyul xyuu xyyul xyyuu in
  let e4 := evalQuintic y ylow yupp xxll xxlu xxyll xxylu xxyyll xxyylu in
  let e5 := evalQuintic y ylow yupp xxul xxuu xxyul xxyuu xxyyul xxyyuu in
  let r pr := evalQuintic x xlow xupp (pr e0) (pr e1) (pr e2) (pr e3) (pr e4) (pr e5) in
  Ok (Some (v_f (r v_f) + off, v_d (r v_f), v_f (r v_d)), Some (v_d2 (r v_f), v_d (r v_d), v_f (r v_d2))).
