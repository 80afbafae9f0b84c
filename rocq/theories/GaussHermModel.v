(** Model of the Gauss-Hermite expansion (math_gausshermite.cpp). Exact real arithmetic. *)
From Verif Require Import Base.
From Coq Require Import Reals List.
Import ListNotations.
Local Open Scope R_scope.
(** hermiteArray, gausshermite.cpp:104-122; the table of square roots and sqrt(n+1.) are both the exact square root *)
Fixpoint hermLoop (k n : nat) (x prev cur sqrtn : R) : list R :=
  match k with
  | O => []
  | S k' => let sqrtnplus1 := sqrt (INR n + 1) in let nx := (sqrt 2 * x * cur - sqrtn * prev) / sqrtnplus1 in
    nx :: hermLoop k' (S n) x cur nx sqrtnplus1
  end.
Definition hermiteArray (nmax : nat) (x : R) : list R :=
  match nmax with O => [1] | S k => 1 :: sqrt 2 * x :: hermLoop k 1 x 1 (sqrt 2 * x) 1 end.
(** sums like for(i) result += a[i]*b[i], gausshermite.cpp:383-385 *)
Definition sumProd (a b : list R) : R := fold_left (fun acc e => acc + fst e * snd e) (combine a b) 0.
(** GaussHermiteExpansion::value, gausshermite.cpp:374-387 *)
Definition ghValue (moments : list R) (ampl center width x : R) : R :=
  match moments with
  | [] => 0
  | _ =>
    let xscaled := (x - center) / width in
    let norm := 1 / sqrt 2 / sqrt PI * ampl / width * exp (- (1 / 2) * (xscaled * xscaled)) in
    sumProd moments (hermiteArray (length moments - 1) xscaled) * norm
  end.
(** dfactorial, math_specfunc.cpp *)
Fixpoint dfact (n : nat) : R := match n with O => 1 | S m => match m with O => 1 | S k => INR n * dfact k end end.
(** GaussHermiteExpansion::normn, gausshermite.cpp:389-400; here the general formula is used for every even n: the literals for n=4,6,8 are treated separately (normnLiteral) *)
Definition normn (n : nat) : R := if Nat.odd n then 0 else sqrt (INR (fact n)) / dfact n.
Definition normnLiteral (n : nat) : R := match n with 4%nat => 6123724356957945 / 10^16 | 6%nat => 5590169943749474 / 10^16 | 8%nat => 5229125165837972 / 10^16 | _ => normn n end.
(** GaussHermiteExpansion::norm, gausshermite.cpp:402-407: the sum over even n; odd terms have normn=0, here they are added too *)
Definition ghNorm (moments : list R) (ampl : R) : R := sumProd moments (map normn (seq 0 (length moments))) * ampl.
(** computeGaussHermiteMoments for a generic function, gausshermite.cpp:126-142, element m of the result; QUADORDER=7 *)
Definition ghMomentTerm (f : R -> R) (m : nat) (order : nat) (ampl center width : R) (p : nat) : R :=
  let y := INR p * (1 / 7) in
  let mult := sqrt 2 * width / ampl / 7 * exp (- (1 / 2) * y * y) in
  let fp := f (center + width * y) in
  let fm := match p with O => 0 | _ => f (center - width * y) end in
  mult * (fp + (if Nat.odd m then -1 else 1) * fm) * nth m (hermiteArray order y) 0.
Definition ghMoment (f : R -> R) (m order : nat) (ampl center width : R) : R :=
  fold_left (fun acc p => acc + ghMomentTerm f m order ampl center width p) (seq 0 50) 0.
(** GaussHermiteFitterInterp::evalDeriv for order=2 (the only one used by the constructor), gausshermite.cpp:276-302: one node with the weight [w] and the value [fv] *)
Definition fitMult (center width node w : R) : R :=
  let y := (node - center) / width in 1 / sqrt 2 / sqrt PI * exp (- (1 / 2) * y * y) * w * 1 / width.
Definition fitValue (ampl center width node w fv : R) : R := w * fv - fitMult center width node w * ampl.
Definition fitDerivs (ampl center width node w : R) : R * R * R :=
  let y := (node - center) / width in let mult := fitMult center width node w in
  (- mult, - mult * ampl / width * y, mult * ampl / width * (1 - y * y)).
