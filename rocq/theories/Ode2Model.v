(** Solvers of linear second-order systems x'' = A(t) x + B(t) x', /repo/src/math_ode.cpp:498-926, math_ode.h:57-72, 171-243.
    Exact reals; N stands for the template parameter NDIM (in the code 1, 2 or 3), the nodes are the exact decimals of the source.
    The std::vector state is a function of the flat index; a matrix is a function of the flat (row-major) index. *)
From Coq Require Import Reals Lra List Arith Bool.
From Verif Require Import RandReal PolyModel OdeModel.
Local Open Scope R_scope.

(** IOde2System: eval(t, a, b), size() *)
Record ode2 := mkOde2 { o_size : nat; o_a : R -> nat -> R; o_b : R -> nat -> R }.
(** rhs += a[d*NDIM+j] * xh[j] + b[d*NDIM+j] * dh[j] for all j, lines 647-648 and in six other places *)
Definition rhs2 (N : nat) (a b : nat -> R) (xh dh : vec) : vec := fun d => vsum N (fun j => a (d * N + j)%nat * xh j + b (d * N + j)%nat * dh j).

(** the members state, time, newstep (math_ode.h:203-205, 223-224) *)
Record sol2 := mkSol2 { s_state : nat -> R; s_time : R; s_new : bool }.
(** the k-th block of NDIM numbers of a vector, out of nb such blocks: the pointers x, xdot, p, q, r, s, lines 532-533, 617-619, 728-729, 822-824 *)
Definition blk (nb N : nat) (st : nat -> R) (v k : nat) : vec := fun d => st (v * (nb * N) + k * N + d)%nat.

(** the constructors, lines 500-508 and 696-704 (time=0 in math_ode.h:174; state is filled with zeros in GL3, empty before init in GL4);
    None: std::invalid_argument *)
Definition new2 (N : nat) (ode : ode2) (nv : nat) : option sol2 :=
  if Nat.leb nv 0 then None else
  if negb (Nat.eqb (o_size ode) (N * 2)) then None else
  Some (mkSol2 (fun _ => 0) 0 true).
(** init, lines 511-519 and 707-715, with nb = 5 or 6 blocks; timeNew=None: NaN *)
Definition init2 (nb N nv : nat) (stateNew : nat -> R) (timeNew : option R) (s : sol2) : sol2 :=
  mkSol2 (fun i => let v := (i / (nb * N))%nat in let j := (i mod (nb * N))%nat in
                   if Nat.ltb v nv && Nat.ltb j (2 * N) then stateNew (v * (2 * N) + j)%nat else 0)
    (match timeNew with Some t => t | None => s_time s end) true.
(** the assignments to x[d], xdot[d], p[d], ... of all vectors: res v k d is the new value of the k-th block of the v-th vector; what is behind the end of the state is not changed *)
Definition store2 (nb N nv : nat) (st : nat -> R) (res : nat -> nat -> vec) : nat -> R :=
  fun i => let v := (i / (nb * N))%nat in let j := (i mod (nb * N))%nat in if Nat.ltb v nv then res v (j / N)%nat (j mod N)%nat else st i.

(** ** Ode2SolverGL3 *)
(** getSol, lines 522-538; None: std::out_of_range *)
Definition getSol3 (N nv : nat) (s : sol2) (t : R) (i : nat) : option R :=
  let T := t - s_time s in
  let v := (i / (2 * N))%nat in
  if Nat.leb nv v then None else
  let i := (i - v * (2 * N))%nat in
  if Req_b T 0 then Some (s_state s (v * (5 * N) + i)%nat) else
  let d := (i mod N)%nat in
  let x := blk 5 N (s_state s) v 0 d in
  let xdot := blk 5 N (s_state s) v 1 d in
  let p := blk 5 N (s_state s) v 2 d in
  let q := blk 5 N (s_state s) v 3 d in
  let r := blk 5 N (s_state s) v 4 d in
  if Nat.eqb i d then Some (x + T * (xdot + T * (p + T * (q + T * r))))
  else Some (xdot + T * (2 * p + T * (3 * q + T * 4 * r))).

Section GL3.
(** lines 547-575: the combinations of the nodes *)
Variables h0 h1 h2 : R.
Definition g3su0 := 0.5 * h0 * h0.
Definition g3sv0 := g3su0 * h0 * -2 / 3.
Definition g3sw0 := g3sv0 * (0.25 * h0 - h1).
Definition g3su1 := 0.5 * h1 * h1.
Definition g3sv1 := g3su1 * (h1 / 3 - h0).
Definition g3sw1 := g3su1 * h1 / 6 * (4 * h0 - h1).
Definition g3su2 := 0.5 * h2 * h2.
Definition g3sv2 := g3su2 * (h2 / 3 - h0).
Definition g3sw2 := g3su2 * (h2 / 3 * (0.5 * h2 - h0 - h1) + h0 * h1).
Definition g3du0 := h0.
Definition g3dv0 := h0 * - h0 / 2.
Definition g3dw0 := h0 * h0 * (h1 / 2 - h0 / 6).
Definition g3du1 := h1.
Definition g3dv1 := h1 * (h1 / 2 - h0).
Definition g3dw1 := h1 * h1 * (h0 / 2 - h1 / 6).
Definition g3du2 := h2.
Definition g3dv2 := h2 * (h2 / 2 - h0).
Definition g3dw2 := h2 * (h2 * (h2 / 3 - h1 / 2 - h0 / 2) + h0 * h1).
Definition g3mvu := 1 / (h1 - h0).
Definition g3mwu := 1 / (h2 - h0) / (h2 - h1).
Definition g3mwv := 1 / (h2 - h1).
Definition g3mpu := 1 / 2.
Definition g3mpv := 1 / 2 * (1 - h0).
Definition g3mpw := 1 / 2 * (1 - h0) * (1 - h1).
Definition g3mqv := 1 / 6.
Definition g3mqw := 1 / 6 * (2 - h0 - h1).
Definition g3mrw := 1 / 12.

(** the arrays u, v, w *)
Definition uvw := (vec * vec * vec)%type.
(** lines 624-628: the prediction *)
Definition predict3 (dt : R) (p q r : vec) : uvw :=
  let Q d := dt * q d in
  let R_ d := dt * dt * r d in
  (fun d => 2 * p d + 6 * h0 * Q d + 12 * h0 * h0 * R_ d, fun d => 6 * Q d + 12 * (h0 + h1) * R_ d, fun d => 12 * R_ d).
(** lines 633-674: one iteration; a0, b0, ... are the matrices at the three nodes *)
Definition sweep3 (N : nat) (a0 b0 a1 b1 a2 b2 : nat -> R) (dt : R) (x xdot : vec) (c : uvw) : uvw :=
  let '(u, v, w) := c in
  let dt2 := dt * dt in
  let xh d := x d + xdot d * dt * h0 + dt2 * (g3su0 * u d + g3sv0 * v d + g3sw0 * w d) in
  let dh d := xdot d + dt * (g3du0 * u d + g3dv0 * v d + g3dw0 * w d) in
  let u := rhs2 N a0 b0 xh dh in
  let xh d := x d + xdot d * dt * h1 + dt2 * (g3su1 * u d + g3sv1 * v d + g3sw1 * w d) in
  let dh d := xdot d + dt * (g3du1 * u d + g3dv1 * v d + g3dw1 * w d) in
  let v d := (rhs2 N a1 b1 xh dh d - u d) * g3mvu in
  let xh d := x d + xdot d * dt * h2 + dt2 * (g3su2 * u d + g3sv2 * v d + g3sw2 * w d) in
  let dh d := xdot d + dt * (g3du2 * u d + g3dv2 * v d + g3dw2 * w d) in
  let w d := (rhs2 N a2 b2 xh dh d - u d) * g3mwu - v d * g3mwv in
  (u, v, w).
(** lines 680-690: the new x, xdot, p, q, r *)
Definition finish3 (dt : R) (x xdot : vec) (c : uvw) (k : nat) : vec :=
  let '(u, v, w) := c in
  let dt2 := dt * dt in
  let idt := 1 / dt in
  let idt2 := idt * idt in
  fun d =>
  let P := g3mpw * w d + g3mpv * v d + g3mpu * u d in
  let Q := g3mqw * w d + g3mqv * v d in
  let R_ := g3mrw * w d in
  match k with
  | 0%nat => x d + ((P - 2 * Q + 3 * R_) * dt2 + xdot d * dt)
  | 1%nat => xdot d + (2 * P - 3 * Q + 4 * R_) * dt
  | 2%nat => P
  | 3%nat => Q * idt
  | _ => R_ * idt2
  end.
(** doStep, lines 541-694; the number of iterations is n *)
Definition step3_ (N nv : nat) (ode : ode2) (n : nat) (dt : R) (s : sol2) : sol2 :=
  let t := s_time s in
  let res v :=
    let b k := blk 5 N (s_state s) v k in
    let sw := sweep3 N (o_a ode (t + dt * h0)) (o_b ode (t + dt * h0)) (o_a ode (t + dt * h1)) (o_b ode (t + dt * h1))
                       (o_a ode (t + dt * h2)) (o_b ode (t + dt * h2)) dt (b 0%nat) (b 1%nat) in
    finish3 dt (b 0%nat) (b 1%nat) (Nat.iter n sw (predict3 dt (b 2%nat) (b 3%nat) (b 4%nat))) in
  mkSol2 (store2 5 N nv (s_state s) res) (t + dt) false.
End GL3.
(** line 547 *)
Definition G3h0 : R := 0.1127016653792583.
Definition G3h1 : R := 0.5.
Definition G3h2 : R := 1 - G3h0.
(** line 632: NUMITER *)
Definition numIter3 (new : bool) : nat := if new then 6 else 3.
Definition doStep3 (N nv : nat) (ode : ode2) (dt : R) (s : sol2) : sol2 := step3_ G3h0 G3h1 G3h2 N nv ode (numIter3 (s_new s)) dt s.

(** ** Ode2SolverGL4 *)
(** getSol, lines 718-734 *)
Definition getSol4 (N nv : nat) (s : sol2) (t : R) (i : nat) : option R :=
  let T := t - s_time s in
  let v := (i / (2 * N))%nat in
  if Nat.leb nv v then None else
  let i := (i - v * (2 * N))%nat in
  if Req_b T 0 then Some (s_state s (v * (6 * N) + i)%nat) else
  let d := (i mod N)%nat in
  let x := blk 6 N (s_state s) v 0 d in
  let xdot := blk 6 N (s_state s) v 1 d in
  let p := blk 6 N (s_state s) v 2 d in
  let q := blk 6 N (s_state s) v 3 d in
  let r := blk 6 N (s_state s) v 4 d in
  let s_ := blk 6 N (s_state s) v 5 d in
  if Nat.eqb i d then Some (x + T * (xdot + T * (p + T * (q + T * (r + T * s_)))))
  else Some (xdot + T * (2 * p + T * (3 * q + T * 4 * (r + T * 5 * s_)))).

Section GL4.
(** lines 743-792 *)
Variables h0 h1 h2 h3 : R.
Definition g4su0 := 0.5 * h0 * h0.
Definition g4sv0 := g4su0 * h0 * -2 / 3.
Definition g4sw0 := g4su0 * h0 * (h1 * 2 / 3 - h0 / 6).
Definition g4sz0 := g4su0 * h0 * (h0 * (h1 + h2) / 6 - h0 * h0 / 15 - h1 * h2 * 2 / 3).
Definition g4su1 := 0.5 * h1 * h1.
Definition g4sv1 := g4su1 * (h1 / 3 - h0).
Definition g4sw1 := g4su1 * h1 * (h0 * 2 / 3 - h1 / 6).
Definition g4sz1 := g4su1 * h1 * (h1 * (h0 + h2) / 6 - h1 * h1 / 15 - h0 * h2 * 2 / 3).
Definition g4su2 := 0.5 * h2 * h2.
Definition g4sv2 := g4su2 * (h2 / 3 - h0).
Definition g4sw2 := g4su2 * (h2 / 3 * (h2 / 2 - h0 - h1) + h0 * h1).
Definition g4sz2 := g4su2 * h2 * (h2 * (h0 + h1) / 6 - h2 * h2 / 15 - h0 * h1 * 2 / 3).
Definition g4su3 := 0.5 * h3 * h3.
Definition g4sv3 := g4su3 * (h3 / 3 - h0).
Definition g4sw3 := g4su3 * (h3 / 3 * (h3 / 2 - h0 - h1) + h0 * h1).
Definition g4sz3 := g4su3 * (h3 * (h3 * (h3 * 0.6 - h0 - h1 - h2) / 6 + (h0 * h1 + h1 * h2 + h0 * h2) / 3) - h0 * h1 * h2).
Definition g4du0 := h0.
Definition g4dv0 := h0 * - h0 / 2.
Definition g4dw0 := h0 * h0 * (h1 / 2 - h0 / 6).
Definition g4dz0 := h0 * h0 * (h0 * (- h0 / 12 + h1 / 6 + h2 / 6) - h1 * h2 / 2).
Definition g4du1 := h1.
Definition g4dv1 := h1 * (h1 / 2 - h0).
Definition g4dw1 := h1 * h1 * (h0 / 2 - h1 / 6).
Definition g4dz1 := h1 * h1 * (h1 * (- h1 / 12 + h0 / 6 + h2 / 6) - h0 * h2 / 2).
Definition g4du2 := h2.
Definition g4dv2 := h2 * (h2 / 2 - h0).
Definition g4dw2 := h2 * (h2 * (h2 / 3 - h1 / 2 - h0 / 2) + h0 * h1).
Definition g4dz2 := h2 * h2 * (h2 * (- h2 / 12 + h0 / 6 + h1 / 6) - h0 * h1 / 2).
Definition g4du3 := h3.
Definition g4dv3 := h3 * (h3 / 2 - h0).
Definition g4dw3 := h3 * (h3 * (h3 / 3 - h1 / 2 - h0 / 2) + h0 * h1).
Definition g4dz3 := h3 * (h3 * (h0 * h1 / 2 + h0 * h2 / 2 + h1 * h2 / 2 - h3 * (h0 / 3 + h1 / 3 + h2 / 3 - h3 / 4)) - h0 * h1 * h2).
Definition g4mvu := 1 / (h1 - h0).
Definition g4mwu := 1 / (h2 - h0) / (h2 - h1).
Definition g4mwv := 1 / (h2 - h1).
Definition g4mzu := 1 / (h3 - h0) / (h3 - h1) / (h3 - h2).
Definition g4mzv := 1 / (h3 - h1) / (h3 - h2).
Definition g4mzw := 1 / (h3 - h2).
Definition g4mpu := 1 / 2.
Definition g4mpv := 1 / 2 * (1 - h0).
Definition g4mpw := 1 / 2 * (1 - h0) * (1 - h1).
Definition g4mpz := 1 / 2 * (1 - h0) * (1 - h1) * (1 - h2).
Definition g4mqv := 1 / 6.
Definition g4mqw := 1 / 6 * (2 - h0 - h1).
Definition g4mqz := 1 / 6 * ((1 - h0) * (1 - h1) + (1 - h1) * (1 - h2) + (1 - h2) * (1 - h0)).
Definition g4mrw := 1 / 12.
Definition g4mrz := 1 / 12 * (3 - h0 - h1 - h2).
Definition g4msz := 1 / 20.

Definition uvwz := (vec * vec * vec * vec)%type.
(** lines 830-836 *)
Definition predict4 (dt : R) (p q r s : vec) : uvwz :=
  let Q d := dt * q d in
  let R_ d := dt * dt * r d in
  let S_ d := dt * dt * dt * s d in
  (fun d => 2 * p d + 6 * h0 * Q d + 12 * h0 * h0 * R_ d + 20 * h0 * h0 * h0 * S_ d,
   fun d => 6 * Q d + 12 * (h0 + h1) * R_ d + 20 * (h0 * h0 + h0 * h1 + h1 * h1) * S_ d,
   fun d => 12 * R_ d + 20 * (h0 + h1 + h2) * S_ d,
   fun d => 20 * S_ d).
(** lines 840-893 *)
Definition sweep4 (N : nat) (a0 b0 a1 b1 a2 b2 a3 b3 : nat -> R) (dt : R) (x xdot : vec) (c : uvwz) : uvwz :=
  let '(u, v, w, z) := c in
  let dt2 := dt * dt in
  let xh d := x d + xdot d * dt * h0 + dt2 * (g4su0 * u d + g4sv0 * v d + g4sw0 * w d + g4sz0 * z d) in
  let dh d := xdot d + dt * (g4du0 * u d + g4dv0 * v d + g4dw0 * w d + g4dz0 * z d) in
  let u := rhs2 N a0 b0 xh dh in
  let xh d := x d + xdot d * dt * h1 + dt2 * (g4su1 * u d + g4sv1 * v d + g4sw1 * w d + g4sz1 * z d) in
  let dh d := xdot d + dt * (g4du1 * u d + g4dv1 * v d + g4dw1 * w d + g4dz1 * z d) in
  let v d := (rhs2 N a1 b1 xh dh d - u d) * g4mvu in
  let xh d := x d + xdot d * dt * h2 + dt2 * (g4su2 * u d + g4sv2 * v d + g4sw2 * w d + g4sz2 * z d) in
  let dh d := xdot d + dt * (g4du2 * u d + g4dv2 * v d + g4dw2 * w d + g4dz2 * z d) in
  let w d := (rhs2 N a2 b2 xh dh d - u d) * g4mwu - v d * g4mwv in
  let xh d := x d + xdot d * dt * h3 + dt2 * (g4su3 * u d + g4sv3 * v d + g4sw3 * w d + g4sz3 * z d) in
  let dh d := xdot d + dt * (g4du3 * u d + g4dv3 * v d + g4dw3 * w d + g4dz3 * z d) in
  let z d := (rhs2 N a3 b3 xh dh d - u d) * g4mzu - v d * g4mzv - w d * g4mzw in
  (u, v, w, z).
(** lines 899-912 *)
Definition finish4 (dt : R) (x xdot : vec) (c : uvwz) (k : nat) : vec :=
  let '(u, v, w, z) := c in
  let dt2 := dt * dt in
  let idt := 1 / dt in
  let idt2 := idt * idt in
  let idt3 := idt2 * idt in
  fun d =>
  let P := g4mpz * z d + g4mpw * w d + g4mpv * v d + g4mpu * u d in
  let Q := g4mqz * z d + g4mqw * w d + g4mqv * v d in
  let R_ := g4mrz * z d + g4mrw * w d in
  let S_ := g4msz * z d in
  match k with
  | 0%nat => x d + ((P - 2 * Q + 3 * R_ - 4 * S_) * dt2 + xdot d * dt)
  | 1%nat => xdot d + (2 * P - 3 * Q + 4 * R_ - 5 * S_) * dt
  | 2%nat => P
  | 3%nat => Q * idt
  | 4%nat => R_ * idt2
  | _ => S_ * idt3
  end.
(** doStep, lines 737-916 *)
Definition step4_ (N nv : nat) (ode : ode2) (n : nat) (dt : R) (s : sol2) : sol2 :=
  let t := s_time s in
  let res v :=
    let b k := blk 6 N (s_state s) v k in
    let sw := sweep4 N (o_a ode (t + dt * h0)) (o_b ode (t + dt * h0)) (o_a ode (t + dt * h1)) (o_b ode (t + dt * h1))
                       (o_a ode (t + dt * h2)) (o_b ode (t + dt * h2)) (o_a ode (t + dt * h3)) (o_b ode (t + dt * h3)) dt (b 0%nat) (b 1%nat) in
    finish4 dt (b 0%nat) (b 1%nat) (Nat.iter n sw (predict4 dt (b 2%nat) (b 3%nat) (b 4%nat) (b 5%nat))) in
  mkSol2 (store2 6 N nv (s_state s) res) (t + dt) false.
End GL4.
(** line 743 *)
Definition G4h0 : R := 0.069431844202973713.
Definition G4h1 : R := 0.33000947820757187.
Definition G4h2 : R := 1 - G4h1.
Definition G4h3 : R := 1 - G4h0.
(** line 839 *)
Definition numIter4 (new : bool) : nat := if new then 8 else 4.
Definition doStep4 (N nv : nat) (ode : ode2) (dt : R) (s : sol2) : sol2 := step4_ G4h0 G4h1 G4h2 G4h3 N nv ode (numIter4 (s_new s)) dt s.
