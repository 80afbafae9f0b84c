(** Theorems about number/string conversions and snapshot files (C20, C21, C48).
    Vocabulary: TextIOSpec.v ([close], [back*], [ok*]), NemoProofs.v ([Enc]: grammar of NEMO files; [expected]). *)
From Verif Require Import FloatBase.
From Verif Require Import NumFmtModel NumFmtProofs NumFloat TextIOModel TextIOSpec TextIOProofs NemoModel NemoProofs StrProofs.
From Coq Require Import Qreals.
Local Open Scope Z_scope.

(** ---- C48: numbers as strings ---- *)
(** every number in the range of finite doubles, printed with any precision that fits in the 100-byte buffer, is parsed
    back with a relative error of at most half a unit of the last printed digit (precision 0 counts as 1) *)
Theorem C48_parse_printed (w : Z) (v : Q) : 0 <= w <= 92 -> in_double_range v -> exists q,
  toDouble (toString_double w v) = Ok q /\
  (Qabs (q - v) <= (1 # 2) * Qpower (10 # 1) (1 - (if w =? 0 then 1 else w)) * Qabs v)%Q.
Proof. intros Hw HV. destruct (toString_toDouble w v Hw HV) as (q & A & B & _). exists q. split; assumption. Qed.
(** printing the parsed number again gives the same string *)
Theorem C48_print_parse_print (w : Z) (v : Q) : 0 <= w <= 92 -> in_double_range v -> exists q,
  toDouble (toString_double w v) = Ok q /\ forall v', (v' == q)%Q -> toString_double w v' = toString_double w v.
Proof.
  intros Hw HV. destruct (toString_toDouble w v Hw HV) as (q & A & _ & C). exists q. split; [exact A|].
  intros v' H. unfold toString_double. rewrite (C v' H). reflexivity.
Qed.
(** with at least 17 significant digits, every finite double is recovered exactly (strtod rounds to nearest) *)
Theorem C48_double_exact (w : Z) (x : double) : 17 <= w <= 92 -> is_finite x = true -> exists q,
  Q2R (B2Q x) = B2R x /\ toDouble (toString_double w (B2Q x)) = Ok q /\ rnd (Q2R q) = B2R x.
Proof.
  intros Hw _. destruct (double_string_roundtrip w x Hw) as (q & A & B). exists q. split; [apply B2Q_R|]. split; assumption.
Qed.
Example C48_ex_print : toString_double 8 (-(1 # 3)) = lit "-0.33333333" /\ toString_double 3 (123456 # 1) = lit "1.23e+05" /\
  toString_double 6 (1 # 100000) = lit "1e-05" /\ toString_double 6 (0 # 1) = lit "0".
Proof. vm_compute. repeat split. Qed.
Example C48_ex_range : in_double_range (1 # 3) /\ ~ in_double_range (p10 400).
Proof.
  split; [right; split; vm_compute; congruence|]. intros [H|[_ H]]; vm_compute in H; discriminate.
Qed.
(** fewer digits do not suffice: two adjacent doubles near 0.1 have the same 15 digits *)
Theorem C48_15_digits_refuted : exists u v : Q,
  u = (3602879701896397 # 36028797018963968)%Q /\ v = (3602879701896398 # 36028797018963968)%Q /\
  toString_double 15 u = toString_double 15 v /\ ~ (u == v)%Q.
Proof. do 2 eexists. split; [reflexivity|]. split; [reflexivity|]. split; [vm_compute; reflexivity|]. intros H. vm_compute in H. discriminate. Qed.

(** ---- C20: text snapshots ---- *)
Lemma hdrPos : exists h, headerPos = "#"%char :: h ++ [LF] /\ ~ In LF h.
Proof. exists (join (map lit ["x"; "y"; "z"; "mass"]%string)). split; [reflexivity|]. cbn. intuition discriminate. Qed.
Lemma hdrPosVel : exists h, headerPosVel = "#"%char :: h ++ [LF] /\ ~ In LF h.
Proof. exists (join (map lit ["x"; "y"; "z"; "vx"; "vy"; "vz"; "mass"]%string)). split; [reflexivity|]. cbn. intuition discriminate. Qed.
Lemma hdrAux : exists h, headerAux = "#"%char :: h ++ [LF] /\ ~ In LF h.
Proof. exists (join (map lit ["x"; "y"; "z"; "vx"; "vy"; "vz"; "particleMass"; "stellarMass"; "stellarRadius"]%string)). split; [reflexivity|]. cbn. intuition discriminate. Qed.

(** writing then reading: same number of particles, same order, all fields agree to the 8 printed digits; the fields that
    a flavour does not store come back as documented (velocity 0, stellar mass = particle mass, stellar radius 0) *)
Theorem C20_roundtrip_positions c l header time : positiveU c -> no_newline header ->
  Forall (fun e => okPos c (fst e) /\ okn (snd e) (massU c)) l ->
  exists l', readText c (writeTextPos l c header time) = Ok l' /\ Forall2 backPos l l'.
Proof.
  intros Pc NH H. apply (file_roundtrip c headerPos formatPos _ backPos hdrPos) with (2 := H); [|exact NH].
  intros e [A B]. apply linePos; assumption.
Qed.
Theorem C20_roundtrip_velocities c l header time : positiveU c -> no_newline header ->
  Forall (fun e => okPV c (fst e) /\ okn (snd e) (massU c)) l ->
  exists l', readText c (writeTextPosVel l c header time) = Ok l' /\ Forall2 backPosVel l l'.
Proof.
  intros Pc NH H. apply (file_roundtrip c headerPosVel formatPosVel _ backPosVel hdrPosVel) with (2 := H); [|exact NH].
  intros e [A B]. apply linePosVel; assumption.
Qed.
(** the full flavour; moreover writing what was read gives the identical file *)
Theorem C20_roundtrip_full c l header time : positiveU c -> no_newline header ->
  Forall (fun e => okAux c (fst e) /\ okn (snd e) (massU c)) l ->
  exists l', readText c (writeTextAux l c header time) = Ok l' /\ Forall2 backAux l l' /\
    writeTextAux l' c header time = writeTextAux l c header time.
Proof.
  intros Pc NH H.
  destruct (file_roundtrip c headerAux formatAux (fun e => okAux c (fst e) /\ okn (snd e) (massU c)) (fun e e' => backAux e e' /\ formatAux c e' = formatAux c e) hdrAux) with (l := l) (header := header) (time := time)
    as (l' & A & B); auto.
  - intros e [X Y]. apply lineAux; assumption.
  - exists l'. split; [exact A|]. split.
    + clear -B. induction B as [|e e' l l' [K _] _ IH]; constructor; assumption.
    + unfold writeTextAux, writeText. do 3 f_equal. clear -B. induction B as [|e e' l l' [_ K] _ IH]; [reflexivity|]. cbn [map concat]. rewrite K, IH. reflexivity.
Qed.
(** crash while writing: whatever prefix of the file reaches the disk, reading it gives the first k particles of the
    complete file (no wrong or partially parsed particle), and at least those whose line was completely written *)
Definition survives {P} (c : unitsQ) (back : P * num -> particleAux * num -> Prop) (wr : list (P * num) -> str) (l : list (P * num)) : Prop :=
  exists l', readText c (wr l) = Ok l' /\ Forall2 back l l' /\
  forall m, (0 < m)%nat -> exists k, readText c (firstn m (wr l)) = Ok (firstn k l') /\
    forall j, (j <= length l)%nat -> (length (wr (firstn j l)) <= m)%nat -> (j <= k)%nat.
Lemma survives_gen {P} c colhdr (fmt : unitsQ -> P * num -> str) (ok : P * num -> Prop) back header time l :
  (exists h, colhdr = "#"%char :: h ++ [LF] /\ ~ In LF h) ->
  (forall e, ok e -> exists line e', fmt c e = line ++ [LF] /\ ~ In LF line /\ readLine c line = Ok (Some e') /\ back e e') ->
  Forall ok l -> no_newline header -> survives c back (fun l => writeText colhdr fmt l c header time) l.
Proof.
  intros Hh Hl F NH. destruct (file_roundtrip c colhdr fmt ok back Hh Hl l header time F NH) as (l' & A & B).
  exists l'. split; [exact A|]. split; [exact B|]. intros m Hm.
  destruct (file_truncated c colhdr fmt ok back Hh Hl l header time m F NH Hm) as (l'' & A' & _ & k & K).
  rewrite A in A'. injection A' as <-. exists k. exact K.
Qed.
Theorem C20_crash_positions c l header time : positiveU c -> no_newline header ->
  Forall (fun e => okPos c (fst e) /\ okn (snd e) (massU c)) l ->
  survives c backPos (fun l => writeTextPos l c header time) l.
Proof. intros Pc NH H. apply (survives_gen c headerPos formatPos _ backPos header time l hdrPos) with (2 := H); [|exact NH]. intros e [A B]. apply linePos; assumption. Qed.
Theorem C20_crash_velocities c l header time : positiveU c -> no_newline header ->
  Forall (fun e => okPV c (fst e) /\ okn (snd e) (massU c)) l ->
  survives c backPosVel (fun l => writeTextPosVel l c header time) l.
Proof. intros Pc NH H. apply (survives_gen c headerPosVel formatPosVel _ backPosVel header time l hdrPosVel) with (2 := H); [|exact NH]. intros e [A B]. apply linePosVel; assumption. Qed.
Theorem C20_crash_full c l header time : positiveU c -> no_newline header ->
  Forall (fun e => okAux c (fst e) /\ okn (snd e) (massU c)) l ->
  survives c backAux (fun l => writeTextAux l c header time) l.
Proof.
  intros Pc NH H. apply (survives_gen c headerAux formatAux _ backAux header time l hdrAux) with (2 := H); [|exact NH].
  intros e [A B]. destruct (lineAux c Pc e A B) as (ln & e' & X1 & X2 & X3 & X4 & _). exists ln, e'. auto.
Qed.
(** comment lines and lines with fewer than four fields, inserted anywhere after a line of any file, never matter *)
Theorem C20_ignored_lines c h a ln b : no_newline ln ->
  (match ln with x :: _ => x = "#"%char \/ x = ";"%char | [] => False end) \/
  (exists fields, Tokens (fun c => mem c (lit "#;, " ++ [TAB])) ln fields /\ (length fields < 4)%nat) ->
  readText c (h :: a ++ LF :: ln ++ LF :: b) = readText c (h :: a ++ LF :: b).
Proof.
  intros NL H. apply insert_ignored; [exact NL|]. apply readLine_ignored. destruct H as [H|H]; [left|right; exact H].
  destruct ln as [|x ln]; [exact H|]. destruct H as [->| ->]; reflexivity.
Qed.
(** the reader never accesses a missing field, whatever bytes the file contains *)
Theorem C20_reader_safe c file : (exists l, readText c file = Ok l) \/ readText c file = Throw.
Proof. apply readText_safe. Qed.
(** a file beginning with a printable character (such as those written) is recognised as text *)
Theorem C20_detected c b file : 32 <= schar b -> readSnapshot c (b :: file) = readText c (b :: file).
Proof.
  intros H. unfold readSnapshot.
  assert (B0 : byte (b :: file) 0 = Ok (schar b)) by reflexivity.
  assert (E0 : forall v, v < 32 -> beq (b :: file) 0 v = Ok false).
  { intros v Hv. unfold beq. rewrite B0. cbn [bind]. rewrite (proj2 (Z.eqb_neq _ _)) by lia. reflexivity. }
  assert (IB : is_binary (b :: file) = Ok false) by (unfold is_binary, bor, band; rewrite !E0 by lia; reflexivity).
  rewrite IB. cbn [bind]. rewrite B0. cbn [bind]. rewrite (proj2 (Z.leb_le _ _)) by lia. reflexivity.
Qed.
(** but the dispatcher reads uninitialised memory for an empty file, and for a one-byte file with byte 0x92 *)
Theorem C20_short_file_refuted c : readSnapshot c [] = UB /\ readSnapshot c [byt (-110)] = UB.
Proof. split; reflexivity. Qed.
(** the hypotheses are needed: a line break in the header text injects a particle *)
Definition unit1 : unitsQ := mkUnits 1 1 1 1.
Theorem C20_header_newline_refuted : exists header e, readText unit1 (writeTextPos [] unit1 header (NaN false)) = Ok [e].
Proof. exists (lit "a" ++ LF :: lit "1 2 3 4"). eexists. vm_compute. reflexivity. Qed.
(** a particle whose x is NaN or +infinity is silently dropped, and its mass is lost *)
Theorem C20_nonfinite_refuted x : x = NaN false \/ x = Inf false ->
  readText unit1 (writeTextPos [(mkPos x (Fin 1) (Fin 1), Fin 1); (mkPos (Fin 2) (Fin 2) (Fin 2), Fin 1)] unit1 [] (NaN false)) =
  readText unit1 (writeTextPos [(mkPos (Fin 2) (Fin 2) (Fin 2), Fin 1)] unit1 [] (NaN false)).
Proof. intros [->| ->]; vm_compute; reflexivity. Qed.
(** non-vacuity *)
Definition exPos : list (posCar * num) := [(mkPos (Fin (1 # 3)) (Fin (-2)) (NaN true), Fin (1 # 7)); (mkPos (Fin 0) (Inf true) (Fin 1000000000), Fin 0)].
Example C20_ex_hyps : positiveU unit1 /\ no_newline (lit "test") /\ Forall (fun e => okPos unit1 (fst e) /\ okn (snd e) (massU unit1)) exPos.
Proof.
  split; [repeat split; reflexivity|]. split; [cbn; unfold no_newline; cbn; intuition discriminate|].
  assert (R : forall q, (q == 0)%Q \/ (p10 (-324) <= Qabs q /\ Qabs q < p10 309)%Q -> in_double_range q) by auto.
  apply Forall_cons; [|apply Forall_cons; [|apply Forall_nil]]; (split; [split; [|split; [|split]]|]); try exact Logic.I; try reflexivity;
    apply R; first [left; vm_compute; reflexivity|right; split; vm_compute; congruence].
Qed.
Example C20_ex_file : writeTextPos exPos unit1 (lit "test") (Fin (5 # 2)) =
  lit "#test" ++ LF :: lit "#time: 2.5" ++ LF :: tabbed (map lit ["#x"; "y"; "z"; "mass"]%string) ++
  tabbed (map lit ["0.33333333"; "-2"; "-nan"; "0.14285714"]%string) ++ tabbed (map lit ["0"; "-inf"; "1e+09"; "0"]%string).
Proof. vm_compute. reflexivity. Qed.

(** ---- C21: NEMO snapshots ---- *)
(** the bytes written obey the tag/type/shape grammar with balanced nesting, and the reader of py/nemofile.py returns the
    time and the arrays with their names, shapes and elements, for every number of particles and every flavour;
    the header (without an initial NUL character) does not interfere *)
Section NEMO.
Context {A : Type} (f32 d64 : A -> A -> Z) (fin : A -> bool).
Hypothesis F32 : forall v u, 0 <= f32 v u < 2 ^ 32.
Hypothesis D64 : forall v u, 0 <= d64 v u < 2 ^ 64.
Definition hdr_ok (header : str) : Prop := zlen header < 2 ^ 31 /\ match header with x :: _ => x <> NUL | [] => True end.
Lemma hdr_ok_c header : hdr_ok header -> (header = [] \/ c_str header <> []) /\ zlen header < 2 ^ 31.
Proof.
  intros [L H]. split; [|exact L]. destruct header as [|x h]; [left; reflexivity|right]. cbn [c_str].
  unfold ceqb. rewrite (proj2 (Ascii.eqb_neq x NUL) H). discriminate.
Qed.
Lemma write_ok old fl pts c header time append : pts <> [] -> exists b, writeNEMO f32 d64 fin old fl pts c header time append = Ok b.
Proof. intros H. unfold writeNEMO, writeParticles. destruct pts; [contradiction|]. cbn [bind]. eauto. Qed.

Theorem C21_well_formed fl pts c header time : pts <> [] -> zlen pts < 2 ^ 31 -> hdr_ok header -> exists bytes items,
  writeNEMO f32 d64 fin [] fl pts c header time false = Ok bytes /\ EncL items bytes.
Proof.
  intros N L H. destruct (hdr_ok_c _ H) as [H1 H2]. destruct (write_ok [] fl pts c header time false N) as [b E].
  assert (P : 0 < zlen pts < 2 ^ 31) by (unfold zlen in *; destruct pts; [contradiction|cbn [length] in *; lia]).
  destruct (writeNEMO_enc f32 d64 fin [] fl pts c header time false b P H1 H2 E) as (new & -> & EN). exists new. eauto.
Qed.
Theorem C21_roundtrip fl pts c header time : pts <> [] -> zlen pts < 2 ^ 31 -> hdr_ok header -> exists bytes,
  writeNEMO f32 d64 fin [] fl pts c header time false = Ok bytes /\
  readNEMO bytes = Ok [expected f32 d64 fin fl pts c time].
Proof.
  intros N L H. destruct (hdr_ok_c _ H) as [H1 H2]. destruct (write_ok [] fl pts c header time false N) as [b E].
  assert (P : 0 < zlen pts < 2 ^ 31) by (unfold zlen in *; destruct pts; [contradiction|cbn [length] in *; lia]).
  destruct (writeNEMO_enc f32 d64 fin [] fl pts c header time false b P H1 H2 E) as (new & -> & EN).
  eexists. split; [exact E|]. cbn [app]. rewrite (readNEMO_spec _ _ EN). apply top_write; assumption.
Qed.
(** the history of a file: one initial write and any number of appends; each adds exactly its snapshot, in order *)
Record job := mkJob { j_fl : flavour; j_pts : list (@npart A); j_units : @nunits A; j_header : str; j_time : A }.
Definition job_ok (j : job) : Prop := j_pts j <> [] /\ zlen (j_pts j) < 2 ^ 31 /\ hdr_ok (j_header j).
Fixpoint append_all (file : str) (l : list job) : res str :=
  match l with
  | [] => Ok file
  | j :: l' => f <- writeNEMO f32 d64 fin file (j_fl j) (j_pts j) (j_units j) (j_header j) (j_time j) true ;; append_all f l'
  end.
Definition job_snap (j : job) : snapshot := expected f32 d64 fin (j_fl j) (j_pts j) (j_units j) (j_time j).
Lemma append_gen l : Forall job_ok l -> forall file items snaps, EncL items file -> top items = Ok snaps ->
  exists bytes, append_all file l = Ok bytes /\ readNEMO bytes = Ok (snaps ++ map job_snap l).
Proof.
  induction 1 as [|j l (N & L & H) _ IH]; intros file items snaps E T; cbn [append_all].
  - exists file. split; [reflexivity|]. cbn [map]. rewrite app_nil_r, (readNEMO_spec _ _ E). exact T.
  - destruct (hdr_ok_c _ H) as [H1 H2].
    destruct (write_ok file (j_fl j) (j_pts j) (j_units j) (j_header j) (j_time j) true N) as [b W].
    assert (P : 0 < zlen (j_pts j) < 2 ^ 31) by (unfold zlen in *; destruct (j_pts j); [contradiction|cbn [length] in *; lia]).
    destruct (writeNEMO_enc f32 d64 fin file (j_fl j) (j_pts j) (j_units j) (j_header j) (j_time j) true b P H1 H2 W) as (new & -> & EN).
    rewrite W. cbn [bind].
    destruct (IH (file ++ new) _ (snaps ++ [job_snap j]) (EncL_app _ _ _ _ E EN)) as (bytes & B1 & B2).
    { rewrite top_app, T, top_write by assumption. reflexivity. }
    exists bytes. split; [exact B1|]. rewrite B2. cbn [map]. rewrite <- app_assoc. reflexivity.
Qed.
Theorem C21_append l : Forall job_ok l -> exists bytes, append_all [] l = Ok bytes /\ readNEMO bytes = Ok (map job_snap l).
Proof. intros H. destruct (append_gen l H [] [] [] EncL_nil eq_refl) as (b & B1 & B2). exists b. auto. Qed.
(** what is expected, spelled out for one particle of the full flavour: element 3i+k of Position is component k of
    particle i divided by the length unit and converted to a float, etc. *)
Theorem C21_elements pts c time i p : nth_error pts i = Some p ->
  let s := expected f32 d64 fin FAux pts c time in
  exists pos vel mass aux eps, s_arrays s =
    [(lit "Position", [zlen pts; 3], pos); (lit "Velocity", [zlen pts; 3], vel); (lit "Mass", [zlen pts], mass);
     (lit "Aux", [zlen pts], aux); (lit "Eps", [zlen pts], eps)] /\
    s_time s = (if fin time then Some (d64 time (ntime c)) else None) /\
    nth_error pos (3 * i) = Some (f32 (n_x p) (nlength c)) /\ nth_error pos (3 * i + 1) = Some (f32 (n_y p) (nlength c)) /\
    nth_error pos (3 * i + 2) = Some (f32 (n_z p) (nlength c)) /\
    nth_error vel (3 * i) = Some (f32 (n_vx p) (nvelocity c)) /\ nth_error vel (3 * i + 1) = Some (f32 (n_vy p) (nvelocity c)) /\
    nth_error vel (3 * i + 2) = Some (f32 (n_vz p) (nvelocity c)) /\
    nth_error mass i = Some (f32 (n_m p) (nmass c)) /\ nth_error aux i = Some (f32 (n_sm p) (nmass c)) /\
    nth_error eps i = Some (f32 (n_sr p) (nlength c)).
Proof.
  intros H. cbv zeta. do 5 eexists. split; [reflexivity|]. split; [reflexivity|].
  assert (K : forall (g : @npart A -> list Z) (l : list (@npart A)), (forall q, length (g q) = 3%nat) -> forall i p k, nth_error l i = Some p -> (k < 3)%nat ->
     nth_error (flat_map g l) (3 * i + k) = nth_error (g p) k).
  { intros g l G. induction l as [|q l IH]; intros n r k Hn Hk; [destruct n; discriminate|]. cbn [flat_map]. destruct n as [|n].
    - injection Hn as ->. rewrite Nat.mul_0_r, Nat.add_0_l. rewrite nth_error_app1 by (rewrite G; exact Hk). reflexivity.
    - rewrite nth_error_app2 by (rewrite G; lia). rewrite G. replace (3 * S n + k - 3)%nat with (3 * n + k)%nat by lia. apply IH; assumption. }
  assert (K0 : forall (g : @npart A -> list Z) (l : list (@npart A)), (forall q, length (g q) = 3%nat) -> forall i p, nth_error l i = Some p ->
     nth_error (flat_map g l) (3 * i) = nth_error (g p) 0).
  { intros g l G n r Hn. rewrite <- (K g l G n r 0%nat Hn) by lia. f_equal. lia. }
  unfold posArr, velArr, massArr, auxArr, epsArr.
  repeat split; first [erewrite K0; [|intros; reflexivity|exact H]; reflexivity
    |erewrite K; [|intros; reflexivity|exact H|lia]; reflexivity|rewrite nth_error_map, H; reflexivity].
Qed.
End NEMO.
(** the Python writer: arrays with distinct names, positive dimensions and matching size come back unchanged *)
Theorem C21_python_roundtrip time nbody arrs :
  (match time with Some t => 0 <= t < 2 ^ 64 | None => True end) -> NoDup (map (fun a => fst (fst (fst a))) arrs) ->
  Forall (fun a => let '(name, single, dims, el) := a in
     ~ In NULc name /\ name <> lit "CoordSystem" /\ Forall (fun d => 0 < d < 2 ^ 31) dims /\ dims <> [] /\
     Z.of_nat (length el) = fold_left Z.mul dims 1 /\ Forall (fun z => 0 <= z < 256 ^ (if single : bool then 4 else 8)) el) arrs ->
  readNEMO (py_write time nbody arrs) = Ok [mkSnap time (map (fun a => let '(name, single, dims, el) := a in (name, dims, el)) arrs)].
Proof.
  intros HT ND H.
  assert (OK : Forall py_ok arrs).
  { eapply Forall_impl; [|exact H]. intros [[[name single] dims] el] (A & B & C & D & E & F). repeat split; auto.
    destruct (seq name (lit "CoordSystem")) eqn:Q; [apply seq_eq in Q; contradiction|reflexivity]. }
  rewrite (readNEMO_spec _ _ (EncL_one _ _ (py_write_enc time nbody arrs OK))). apply top_py; assumption.
Qed.
(** the restrictions are needed *)
Theorem C21_no_particles_refuted {A} (f32 d64 : A -> A -> Z) fin old fl c header time append :
  writeNEMO f32 d64 fin old fl [] c header time append = UB.
Proof. reflexivity. Qed.
(** an array of shape (0,3) written by the Python class cannot be read back: the zero dimension ends the list of dimensions *)
Theorem C21_python_empty_refuted : readNEMO (py_write None 0 [(lit "Position", true, [0; 3], [])]) <> Ok [mkSnap None [(lit "Position", [0; 3], [])]].
Proof. vm_compute. discriminate. Qed.
(** a file truncated in the middle of a tag makes the reader loop forever ([Fuel]); this is the case for every proper
    prefix that ends within a tag, here after the first letter *)
Theorem C21_truncated_hangs_refuted : read_string true (lit "SnapSh") = Fuel /\ readNEMO (firstn 8 (startLevel (lit "SnapShot"))) = Fuel.
Proof. split; vm_compute; reflexivity. Qed.
(** a header that begins with a NUL character produces a file that cannot be read *)
Theorem C21_header_nul_refuted : exists bytes,
  writeNEMO (fun v u : Z => v mod 2 ^ 32) (fun v u => v mod 2 ^ 64) (fun _ => true) [] FPos [mkNP 1 2 3 4 5 6 7 8 9] (mkNU 1 1 1 1) [NUL] 0 false = Ok bytes /\
  readNEMO bytes = Throw.
Proof. eexists. split; [reflexivity|]. vm_compute. reflexivity. Qed.
(** non-vacuity: float conversion as truncation modulo 2^32, one and two particles *)
Example C21_ex : let f := fun v u : Z => (v / u) mod 2 ^ 32 in let d := fun v u : Z => (v / u) mod 2 ^ 64 in
  exists b, writeNEMO f d (fun _ => true) [] FAux [mkNP 1 2 3 4 5 6 7 8 9; mkNP 11 12 13 14 15 16 17 18 19] (mkNU 1 1 1 1) (lit "hello") 42 false = Ok b /\
  readNEMO b = Ok [mkSnap (Some 42) [(lit "Position", [2; 3], [1; 2; 3; 11; 12; 13]); (lit "Velocity", [2; 3], [4; 5; 6; 14; 15; 16]);
     (lit "Mass", [2], [9; 19]); (lit "Aux", [2], [7; 17]); (lit "Eps", [2], [8; 18])]].
Proof. eexists. split; [reflexivity|]. vm_compute. reflexivity. Qed.

Print Assumptions C48_parse_printed.
Print Assumptions C48_print_parse_print.
Print Assumptions C48_double_exact.
Print Assumptions C20_roundtrip_positions.
Print Assumptions C20_roundtrip_velocities.
Print Assumptions C20_roundtrip_full.
Print Assumptions C20_crash_positions.
Print Assumptions C20_crash_velocities.
Print Assumptions C20_crash_full.
Print Assumptions C20_ignored_lines.
Print Assumptions C20_reader_safe.
Print Assumptions C20_detected.
Print Assumptions C21_well_formed.
Print Assumptions C21_roundtrip.
Print Assumptions C21_append.
Print Assumptions C21_elements.
Print Assumptions C21_python_roundtrip.
