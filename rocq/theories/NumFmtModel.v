(** Model of the number <-> string conversions of /repo/src/utils.cpp: toString(double, width) (lines 295-299:
    [snprintf(buf, 100, "%-.*g", width, val)]) and toDouble (lines 262-271: [strtod]).
    printf and strtod are functions of the C library; they are modelled after the C standard (C11 7.21.6.1 for the
    conversion specifier %g in the "C" locale and round-half-to-even, 7.22.1.3 for strtod).
    A finite double is represented by its exact rational value ([Q]); hence the sign of zero is not represented
    (printf prints -0 as "-0", the model as "0"). *)
From Coq Require Export QArith Qpower Qabs.
From Verif Require Export StrModel Base.
Local Open Scope Z_scope.

(** ---- printing ---- *)
Definition digit (d : Z) : ascii := ascii_of_N (Z.to_N (48 + d)).
(** the [p] lowest decimal digits of n, most significant first *)
Fixpoint dig (p : nat) (n : Z) : str :=
  match p with O => [] | S p' => dig p' (n / 10) ++ [digit (n mod 10)] end.
(** number of decimal digits of n > 0 *)
Fixpoint ndig_loop (fuel : nat) (n : Z) : nat :=
  match fuel with O => 1%nat | S f => if n <? 10 then 1%nat else S (ndig_loop f (n / 10)) end.
Definition ndig (n : Z) : nat := ndig_loop (Z.to_nat (Z.log2 n)) n.
(** a/b rounded to the nearest integer, ties to even *)
Definition rdiv (a b : Z) : Z :=
  let q := a / b in let r := a mod b in
  if 2 * r <? b then q else if b <? 2 * r then q + 1 else if Z.even q then q else q + 1.
(** decimal exponent of n/d > 0: the X with 10^X <= n/d < 10^(X+1) *)
Definition dexp (n d : Z) : Z :=
  let k := Z.of_nat (ndig n) - Z.of_nat (ndig d) in
  let ge := if 0 <=? k then d * 10 ^ k <=? n else d <=? n * 10 ^ (- k) in
  if ge then k else k - 1.
(** n/d * 10^s rounded to integer *)
Definition scaled (n d s : Z) : Z :=
  if 0 <=? s then rdiv (n * 10 ^ s) d else rdiv n (d * 10 ^ (- s)).
(** P significant digits (as an integer) and the decimal exponent of the style-e conversion of n/d *)
Definition sig (P n d : Z) : Z * Z :=
  let X := dexp n d in
  let D := scaled n d (P - 1 - X) in
  if D =? 10 ^ P then (10 ^ (P - 1), X + 1) else (D, X).

(** removal of trailing zeros of the fractional part (%g without the # flag) *)
Fixpoint strip0 (s : str) : str :=
  match s with
  | [] => []
  | c :: s' => match strip0 s' with
               | [] => if ceqb c "0"%char then [] else [c]
               | t => c :: t
               end
  end.
(** ".ddd", or nothing if the fractional part is empty *)
Definition frac (s : str) : str := match strip0 s with [] => [] | t => "."%char :: t end.
(** exponent field: sign and at least two digits *)
Definition expfield (X : Z) : str :=
  (if X <? 0 then "-"%char else "+"%char) :: dig (Nat.max 2 (ndig (Z.abs X))) (Z.abs X).

(** %.Pg of a positive number with significant digits D (P of them) and exponent X *)
Definition gstyle (P : Z) (D X : Z) : str :=
  let ds := dig (Z.to_nat P) D in
  if (-4 <=? X) && (X <? P) then
    if 0 <=? X then firstn (Z.to_nat (X + 1)) ds ++ frac (skipn (Z.to_nat (X + 1)) ds)
    else "0"%char :: frac (repeat "0"%char (Z.to_nat (- X - 1)) ++ ds)
  else firstn 1 ds ++ frac (skipn 1 ds) ++ "e"%char :: expfield X.

(** utils.cpp:295-299 toString(double val, unsigned int width); a precision of 0 is taken as 1 (C standard).
    The buffer of 100 bytes truncates the output at 99 characters ([gtrunc]); the proofs show when this matters. *)
Definition gprint (width : Z) (v : Q) : str :=
  let P := if width =? 0 then 1 else width in
  match Qnum v with
  | 0 => lit "0"
  | Zpos n => let (D, X) := sig P (Zpos n) (Zpos (Qden v)) in gstyle P D X
  | Zneg n => "-"%char :: (let (D, X) := sig P (Zpos n) (Zpos (Qden v)) in gstyle P D X)
  end.
Definition toString_double (width : Z) (v : Q) : str := firstn 99 (gprint width v).

(** ---- parsing ---- *)
Definition isdig (c : ascii) : bool := let n := N_of_ascii c in (48 <=? n)%N && (n <=? 57)%N.
Definition dval (c : ascii) : Z := Z.of_N (N_of_ascii c) - 48.
Definition digits_val (s : str) : Z := fold_left (fun a c => 10 * a + dval c) s 0.
Fixpoint span (p : ascii -> bool) (s : str) : str * str :=
  match s with
  | [] => ([], [])
  | c :: s' => if p c then let (a, b) := span p s' in (c :: a, b) else ([], s)
  end.
(** an optional sign *)
Definition sign (s : str) : bool * str :=
  match s with
  | c :: s' => if ceqb c "-"%char then (true, s') else if ceqb c "+"%char then (false, s') else (false, s)
  | [] => (false, s)
  end.
(** the optional exponent part: e or E, optional sign, at least one digit; otherwise nothing is consumed *)
Definition expo (s : str) : Z * str :=
  match s with
  | c :: s1 =>
      if ceqb c "e"%char || ceqb c "E"%char then
        let (neg, s2) := sign s1 in
        let (ds, s3) := span isdig s2 in
        match ds with
        | [] => (0, s)
        | _ => ((if neg then - digits_val ds else digits_val ds), s3)
        end
      else (0, s)
  | [] => (0, s)
  end.
Definition p10 (e : Z) : Q := Qpower (10 # 1) e.
(** strtod for decimal numbers ([strtod_u]: after the sign): value (exact, before rounding to double) and the rest of the string.
    None: no conversion.  Leading white space (utils.cpp callers never produce it here), hexadecimal numbers,
    "inf" and "nan" are not represented: the model returns None for the latter two and stops after the 0 of "0x". *)
Definition strtod_u (s1 : str) : option (Q * str) :=
  let (ip, s2) := span isdig s1 in
  let (fp, s3) := match s2 with
                  | c :: s2' => if ceqb c "."%char then span isdig s2' else ([], s2)
                  | [] => ([], s2)
                  end in
  match ip ++ fp with
  | [] => None
  | ds => let (e, s4) := expo s3 in
          Some ((inject_Z (digits_val ds) * p10 (e - Z.of_nat (length fp)))%Q, s4)
  end.
Definition strtod (s : str) : option (Q * str) :=
  let (neg, s1) := sign s in
  match strtod_u s1 with
  | Some (m, r) => Some ((if neg then - m else m)%Q, r)
  | None => None
  end.
(** utils.cpp:262-271 toDouble: 0 for the empty string, exception if nothing was parsed; trailing garbage ignored *)
Definition toDouble (s : str) : res Q :=
  match c_str s with
  | [] => Ok 0%Q
  | t => match strtod t with Some (v, _) => Ok v | None => Throw end
  end.
