(** Specification vocabulary for functions of three variables: gradient and matrix of second derivatives. *)
From Coq Require Import Reals Lra Bool.
From Coquelicot Require Import Coquelicot.
From Verif Require Import RandReal CoordModel.
Local Open Scope R_scope.

(** g is the gradient of f at p: along every curve through p, differentiable there, f changes at the rate g . velocity
    (in particular g consists of the three partial derivatives; any Frechet-differentiable function satisfies this,
    see is_grad_frechet and is_grad_partial in CoordCalc.v) *)
Definition is_grad (f : vec3 -> R) (p g : vec3) : Prop :=
  forall (c1 c2 c3 : R -> R) (t u1 u2 u3 : R), (c1 t, c2 t, c3 t) = p ->
    is_derive c1 t u1 -> is_derive c2 t u2 -> is_derive c3 t u3 ->
    is_derive (fun s => f (c1 s, c2 s, c3 s)) t (v1 g * u1 + v2 g * u2 + v3 g * u3).

(** G is the gradient of f in a neighbourhood of p, and the derivatives of G at p are the (symmetric) matrix h *)
Definition is_hess_with (f : vec3 -> R) (G : vec3 -> vec3) (p : vec3) (h : hess6) : Prop :=
  locally p (fun q : vec3 => is_grad f q (G q)) /\
  is_grad (fun q => v1 (G q)) p (h11 h, h12 h, h13 h) /\
  is_grad (fun q => v2 (G q)) p (h12 h, h22 h, h23 h) /\
  is_grad (fun q => v3 (G q)) p (h13 h, h23 h, h33 h).
Definition is_hess (f : vec3 -> R) (p g : vec3) (h : hess6) : Prop :=
  exists G, G p = g /\ is_hess_with f G p h.

(** a coordinate map phi with a field of Jacobi matrices (rows = gradients of the three new coordinates)
    and matrices of second derivatives at p *)
Definition is_map1 (phi : vec3 -> vec3) (p : vec3) (J : vec3 * vec3 * vec3) : Prop :=
  is_grad (fun q => v1 (phi q)) p (fst (fst J)) /\ is_grad (fun q => v2 (phi q)) p (snd (fst J)) /\ is_grad (fun q => v3 (phi q)) p (snd J).
Definition is_map2 (phi : vec3 -> vec3) (J : vec3 -> vec3 * vec3 * vec3) (p : vec3) (K : hess6 * hess6 * hess6) : Prop :=
  is_hess_with (fun q => v1 (phi q)) (fun q => fst (fst (J q))) p (fst (fst K)) /\
  is_hess_with (fun q => v2 (phi q)) (fun q => snd (fst (J q))) p (snd (fst K)) /\
  is_hess_with (fun q => v3 (phi q)) (fun q => snd (J q)) p (snd K).

(** meaning of the tables of derivatives: entries not stored in the structure are identically 0 (or 1 for z=z, phi=phi) *)
Definition rows_CY (d : DCY) : vec3 * vec3 * vec3 := ((dRdx_CY d, dRdy_CY d, 0), (0, 0, 1), (dphidx_CY d, dphidy_CY d, 0)).
Definition rows_CS (d : DCS) : vec3 * vec3 * vec3 :=
  ((drdx_CS d, drdy_CS d, drdz_CS d), (dthetadx_CS d, dthetady_CS d, dthetadz_CS d), (dphidx_CS d, dphidy_CS d, 0)).
Definition rows_YC (d : DYC) : vec3 * vec3 * vec3 := ((dxdR_YC d, 0, dxdphi_YC d), (dydR_YC d, 0, dydphi_YC d), (0, 1, 0)).
Definition rows_YS (d : DYS) : vec3 * vec3 * vec3 := ((drdR_YS d, drdz_YS d, 0), (dthetadR_YS d, dthetadz_YS d, 0), (0, 0, 1)).
Definition rows_SC (d : DSC) : vec3 * vec3 * vec3 :=
  ((dxdr_SC d, dxdtheta_SC d, dxdphi_SC d), (dydr_SC d, dydtheta_SC d, dydphi_SC d), (dzdr_SC d, dzdtheta_SC d, 0)).
Definition rows_SY (d : DSY) : vec3 * vec3 * vec3 := ((dRdr_SY d, dRdtheta_SY d, 0), (dzdr_SY d, dzdtheta_SY d, 0), (0, 0, 1)).
Definition h0 : hess6 := mkH 0 0 0 0 0 0.
(* order of fields: 11 22 33 12 23 13 *)
Definition second_CY (d : DDCY) : hess6 * hess6 * hess6 :=
  (mkH (d2Rdx2_CY d) (d2Rdy2_CY d) 0 (d2Rdxdy_CY d) 0 0, h0, mkH (d2phidx2_CY d) (d2phidy2_CY d) 0 (d2phidxdy_CY d) 0 0).
Definition second_CS (d : DDCS) : hess6 * hess6 * hess6 :=
  (mkH (d2rdx2_CS d) (d2rdy2_CS d) (d2rdz2_CS d) (d2rdxdy_CS d) (d2rdydz_CS d) (d2rdxdz_CS d),
   mkH (d2thetadx2_CS d) (d2thetady2_CS d) (d2thetadz2_CS d) (d2thetadxdy_CS d) (d2thetadydz_CS d) (d2thetadxdz_CS d),
   mkH (d2phidx2_CS d) (d2phidy2_CS d) 0 (d2phidxdy_CS d) 0 0).
Definition second_YC (d : DDYC) : hess6 * hess6 * hess6 :=
  (mkH 0 0 (d2xdphi2_YC d) 0 0 (d2xdRdphi_YC d), mkH 0 0 (d2ydphi2_YC d) 0 0 (d2ydRdphi_YC d), h0).
Definition second_YS (d : DDYS) : hess6 * hess6 * hess6 :=
  (mkH (d2rdR2_YS d) (d2rdz2_YS d) 0 (d2rdRdz_YS d) 0 0, mkH (d2thetadR2_YS d) (d2thetadz2_YS d) 0 (d2thetadRdz_YS d) 0 0, h0).
Definition second_SC (d : DDSC) : hess6 * hess6 * hess6 :=
  (mkH 0 (d2xdtheta2_SC d) (d2xdphi2_SC d) (d2xdrdtheta_SC d) (d2xdthetadphi_SC d) (d2xdrdphi_SC d),
   mkH 0 (d2ydtheta2_SC d) (d2ydphi2_SC d) (d2ydrdtheta_SC d) (d2ydthetadphi_SC d) (d2ydrdphi_SC d),
   mkH 0 (d2zdtheta2_SC d) 0 (d2zdrdtheta_SC d) 0 0).
Definition second_SY (d : DDSY) : hess6 * hess6 * hess6 :=
  (mkH 0 (d2Rdtheta2_SY d) 0 (d2Rdrdtheta_SY d) 0 0, mkH 0 (d2zdtheta2_SY d) 0 (d2zdrdtheta_SY d) 0 0, h0).

(** a function of cylindrical or spherical coordinates describes a function in space if it has period 2 pi in the last variable *)
Definition periodic3 (f : vec3 -> R) : Prop := forall a b phi, f (a, b, phi + 2 * PI) = f (a, b, phi).
(** the half-plane x<=0, y=0 in which atan2(y,x) jumps *)
Definition on_cut (p : vec3) : Prop := v1 p <= 0 /\ v2 p = 0.
(** speed, squared *)
Definition speed2 (p : posvel) : R := pow_2 (v1 (snd p)) + pow_2 (v2 (snd p)) + pow_2 (v3 (snd p)).
(** angular momentum vector r x v in Cartesian coordinates *)
Definition cross (a b : vec3) : vec3 := (v2 a * v3 b - v3 a * v2 b, v3 a * v1 b - v1 a * v3 b, v1 a * v2 b - v2 a * v1 b).
Definition norm3 (a : vec3) : R := sqrt (v1 a * v1 a + v2 a * v2 a + v3 a * v3 a).
