(** Specification vocabulary for text snapshots. *)
From Verif Require Export TextIOModel NumFmtProofs.
Local Open Scope Z_scope.

(** the value read back for a stored value: the same special value, or a number within half a unit of the eighth
    significant digit (relative error at most 5e-8) *)
Definition close (a b : num) : Prop :=
  match a, b with
  | Fin u, Fin v => (Qabs (v - u) <= (5 # 100000000) * Qabs u)%Q
  | Inf s, Inf t => s = t
  | NaN s, NaN t => s = t
  | _, _ => False
  end.
Definition isZero (a : num) : Prop := match a with Fin q => (q == 0)%Q | _ => False end.
Definition closePos (a b : posCar) : Prop := close (p_x a) (p_x b) /\ close (p_y a) (p_y b) /\ close (p_z a) (p_z b).
Definition closePV (a b : posVelCar) : Prop :=
  closePos (v_pos a) (v_pos b) /\ close (v_x a) (v_x b) /\ close (v_y a) (v_y b) /\ close (v_z a) (v_z b).
(** relation between a stored particle and the particle read back *)
Definition backAux (e e' : particleAux * num) : Prop :=
  closePV (a_pv (fst e)) (a_pv (fst e')) /\ close (a_stellarMass (fst e)) (a_stellarMass (fst e')) /\
  close (a_stellarRadius (fst e)) (a_stellarRadius (fst e')) /\ close (snd e) (snd e').
Definition backPosVel (e : posVelCar * num) (e' : particleAux * num) : Prop :=
  closePV (fst e) (a_pv (fst e')) /\ close (snd e) (snd e') /\
  a_stellarMass (fst e') = snd e' /\ isZero (a_stellarRadius (fst e')).
Definition backPos (e : posCar * num) (e' : particleAux * num) : Prop :=
  closePos (fst e) (v_pos (a_pv (fst e'))) /\ close (snd e) (snd e') /\
  isZero (v_x (a_pv (fst e'))) /\ isZero (v_y (a_pv (fst e'))) /\ isZero (v_z (a_pv (fst e'))) /\
  a_stellarMass (fst e') = snd e' /\ isZero (a_stellarRadius (fst e')).

(** representable: the value in file units lies in the range of finite doubles (or is not finite) *)
Definition okn (v : num) (u : Q) : Prop := match v with Fin q => in_double_range (q / u) | _ => True end.
Definition okPos (c : unitsQ) (p : posCar) : Prop :=
  okn (p_x p) (lengthU c) /\ okn (p_y p) (lengthU c) /\ okn (p_z p) (lengthU c) /\ isFin (p_x p) = true.
Definition okPV (c : unitsQ) (v : posVelCar) : Prop :=
  okPos c (v_pos v) /\ okn (v_x v) (velocityU c) /\ okn (v_y v) (velocityU c) /\ okn (v_z v) (velocityU c).
Definition okAux (c : unitsQ) (a : particleAux) : Prop :=
  okPV c (a_pv a) /\ okn (a_stellarMass a) (massU c) /\ okn (a_stellarRadius a) (lengthU c).
Definition positiveU (c : unitsQ) : Prop := (0 < lengthU c /\ 0 < velocityU c /\ 0 < massU c /\ 0 < timeU c)%Q.
Definition no_newline (s : str) : Prop := ~ In LF s.
(** the particles whose whole line (with its end of line) lies within the first m bytes of the file: their number *)
Definition is_prefix {A} (a b : list A) : Prop := exists t, b = a ++ t.
