(** Spherical-harmonic and Fourier transforms: src/math_sphharm.{h,cpp}.  Exact real arithmetic.
    Not modelled: the storage of temporary arrays on the stack, `unsigned` wrap-around (indices are nat and never negative here). *)
From Coq Require Import Reals List Arith ZArith.
From Verif Require Import RandReal RootModel Base.
Import ListNotations.
Local Open Scope R_scope.

(* ---------- multiples of an angle ---------- *)
(** math_sphharm.cpp:144-151 loop of trigMultiAngle, n iterations from (cosphi1, sinphi1): the cosines and the sines *)
Fixpoint trigLoop (n : nat) (alpha beta cosphi1 sinphi1 : R) : list R * list R :=
  match n with
  | O => ([], [])
  | S n' => let cosphi := cosphi1 - (alpha * cosphi1 + beta * sinphi1) in
            let sinphi := sinphi1 - (alpha * sinphi1 - beta * cosphi1) in
            let '(c, s) := trigLoop n' alpha beta cosphi sinphi in (cosphi :: c, sinphi :: s)
  end.
(** math_sphharm.cpp:134-152 trigMultiAngle: contents of outputArray, cosines then (if needSine) sines *)
Definition trigMultiAngle (phi : R) (m : nat) (needSine : bool) : list R :=
  let alpha := sin (phi / 2) * (sin (phi / 2) * 2) in
  let beta := sin phi in
  let '(c, s) := trigLoop m alpha beta 1 0 in
  if needSine then c ++ s else c.

(* ---------- Fourier transform ---------- *)
(** sum over k = 0..n-1, in the order of the loop *)
Fixpoint bsum (n : nat) (f : nat -> R) : R := match n with O => 0 | S n' => bsum n' f + f n' end.
(** math_sphharm.h:203 phi(i) *)
Definition fphi (mmax : nat) (i : nat) : R := INR i * PI / (INR mmax + / 2).
(** math_sphharm.h:199 size(); also nfnc in the constructor and in transform() *)
Definition fsize (mmax : nat) (useSine : bool) : nat := if useSine then mmax * 2 + 1 else mmax + 1.
(** math_sphharm.cpp:271-286: element i = k*nfnc+j of trigFnc, 0 <= k <= mmax, 0 <= j < nfnc *)
Definition trigFnc (mmax : nat) (useSine : bool) (i : nat) : R :=
  let nfnc := fsize mmax useSine in
  let k := (i / nfnc)%nat in
  let j := (i mod nfnc)%nat in
  let weight := PI / (INR mmax + / 2) in
  let value := match j with O => 1 | S j' => nth j' (trigMultiAngle (fphi mmax k) mmax useSine) 0 end in
  value * (weight * (if useSine then 1 else if Nat.eqb k 0 then 1 else 2)).
(** math_sphharm.cpp:289-304 transform: coefs[mm], with values[k*stride] = v k; m = mm-mmax or mm is negative for the first mmax entries if useSine *)
Definition fourier (mmax : nat) (useSine : bool) (v : nat -> R) (mm : nat) : R :=
  let nfnc := fsize mmax useSine in
  bsum nfnc (fun k =>
    let indphi := if Nat.leb k mmax then k else (2 * mmax + 1 - k)%nat in
    let negm := andb useSine (Nat.ltb mm mmax) in     (* m < 0 *)
    let indfnc := if negm then (mmax + (mmax - mm))%nat else if useSine then (mm - mmax)%nat else mm in
    let fnc := trigFnc mmax useSine (indphi * nfnc + indfnc) in
    (if andb negm (negb (Nat.leb k mmax)) then - fnc else fnc) * v k).

(* ---------- associated Legendre functions ---------- *)
(** math_specfunc.cpp factorial, dfactorial: n! and the product of odd numbers (2m-1)!! *)
Fixpoint dfact_odd (m : nat) : R := match m with O => 1 | S m' => (2 * INR m + (-1)) * dfact_odd m' end.
(** math_sphharm.cpp:37,54 prefact and coef: the tables PREFACT/COEF for m<=16 hold the same numbers rounded to double precision
    (C45_table); here the formula is used for all m *)
Definition pmm_prefact (m : nat) : R := / 2 / sqrt PI * sqrt ((2 * INR m + 1) / INR (fact (2 * m))).
Definition pmm_coef (m : nat) : R := pmm_prefact m * dfact_odd m * (if Nat.odd m then -1 else 1).
(** math_sphharm.cpp:22-61 legendrePmm: (value, der, der2) *)
Definition legendrePmm (m : nat) (ct st : R) : R * R * R :=
  let prefact := pmm_prefact m in
  match m with
  | O => (prefact, 0, 0)
  | S O => (- st * prefact, - ct * prefact, st * prefact)
  | S (S m2) =>
      let coef := pmm_coef m in
      let sinm2 := st ^ m2 in
      (coef * sinm2 * (st * st), INR m * coef * sinm2 * st * ct, INR m * coef * sinm2 * (INR m * (ct * ct) - 1))
  end.
Definition SEPS : R := / 10 ^ 8.
(** local variables of sphHarmArray *)
Record lgs := mkLgs { s_pref : R; s_P1 : R; s_P : R; s_P2 : R; s_d1 : R; s_d2 : R; s_d : R }.
(** (cond ? 1 : -1) *)
Definition psign (b : bool) : R := if b then 1 else -1.
(** math_sphharm.cpp:92-131 loop body, for given l: (state, (result, deriv, deriv2)); derivArray and deriv2Array are not NULL
    (if they are, the corresponding assignments are skipped and nothing else changes).  Integer divisions of l(l+1) by 2 and of
    (l-1)l(l+1)(l+2) by 4 are exact. *)
Definition lstep (m : nat) (ct st : R) (l : nat) (s : lgs) : lgs * (R * R * R) :=
  let L := INR l in let M := INR m in
  let Plm := if Nat.ltb (m + 1) l then (ct * (2 * L - 1) * s_P1 s - (L + M - 1) * s_P2 s) / (L - M) else s_P s in
  let prefact := s_pref s * sqrt ((2 * L + 1) / (2 * L - 1) * (L - M) / (L + M)) in
  let result := Plm * prefact in
  let generic := orb (Rle_b SEPS st) (andb (Nat.ltb 2 m) (Rlt_b 0 st)) in
  let dPlm := if generic then (L * ct * Plm - (L + M) * s_P1 s) / st else
    match m with
    | 0%nat => - L * (L + 1) / 2 * st * psign (orb (Rlt_b 0 ct) (Nat.odd l))
    | 1%nat => - L * (L + 1) / 2 * psign (orb (Rlt_b 0 ct) (Nat.even l))
    | 2%nat => L * (L + 1) * (L + 2) * (L - 1) / 4 * st * psign (orb (Rlt_b 0 ct) (Nat.odd l))
    | _ => 0
    end in
  let deriv := prefact * dPlm in
  let d2Plm := if generic then s_d s else match m with
    | 1%nat => if Nat.ltb (m + 1) l then
        let twodPlm1 := - L * (L - 1) * psign (orb (Rlt_b 0 ct) (Nat.odd l)) in
        ((2 * L - 1) * (ct * (s_d1 s - s_P1 s) - st * twodPlm1) - L * s_d2 s) / (L - 1) else s_d s
    | _ => s_d s end in
  let shift := andb (negb generic) (Nat.eqb m 1) in
  let deriv2 := if generic then ct * deriv / (- st) - (L * (L + 1) - (M / st) * (M / st)) * result else
    match m with
    | 0%nat => - L * (L + 1) / 2 * prefact * psign (orb (Rlt_b 0 ct) (Nat.even l))
    | 1%nat => prefact * d2Plm
    | 2%nat => L * (L + 1) * (L + 2) * (L - 1) / 4 * prefact * psign (orb (Rlt_b 0 ct) (Nat.even l))
    | _ => 0
    end in
  (mkLgs prefact Plm Plm (s_P1 s) (if shift then d2Plm else s_d1 s) (if shift then s_d1 s else s_d2 s) d2Plm, (result, deriv, deriv2)).
(** for(l = m+1; ...; l++), n iterations starting from l *)
Fixpoint lloop (n : nat) (m : nat) (ct st : R) (l : nat) (s : lgs) : list (R * R * R) :=
  match n with O => [] | S n' => let '(s', o) := lstep m ct st l s in o :: lloop n' m ct st (S l) s' end.
(** math_sphharm.cpp:76-77 *)
Definition tau_ct (tau : R) : R := 2 * tau / (1 + tau * tau).
Definition tau_st (tau : R) : R := (1 - tau * tau) / (1 + tau * tau).
(** math_sphharm.cpp:63-132 sphHarmArray: elements l = m..lmax of (resultArray, derivArray, deriv2Array) *)
Definition sphHarmArray (lmax m : nat) (tau : R) : res (list (R * R * R)) :=
  if Nat.ltb lmax m then Throw else
  if Nat.eqb lmax 0 then Ok [(/ 2 / sqrt PI, 0, 0)] else
  let ct := tau_ct tau in let st := tau_st tau in
  let prefact := pmm_prefact m in
  let '(v, d, d2) := legendrePmm m ct st in
  if Nat.eqb lmax m then Ok [(v, d, d2)] else
  let Plm1 := v / prefact in
  Ok ((v, d, d2) :: lloop (lmax - m) m ct st (m + 1) (mkLgs prefact Plm1 (ct * (2 * INR m + 1) * Plm1) 0 st 0 (12 * ct * st))).
