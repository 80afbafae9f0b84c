From Verif Require Import StrProofs TextIOSpec.
From Coq Require Import Lqa.
Local Open Scope Z_scope.

Definition DELIM : str := lit "#;, " ++ [TAB].
Definition fieldc (c : ascii) : bool := negb (mem c DELIM) && negb (ceqb c LF).
Definition field (s : str) : Prop := s <> [] /\ Forall (fun c => fieldc c = true) s.

Lemma isdig_cases c : isdig c = true -> exists d, 0 <= d < 10 /\ c = digit d.
Proof.
  unfold isdig. intros H. apply andb_true_iff in H as [A B]. apply N.leb_le in A, B.
  exists (Z.of_N (N_of_ascii c) - 48). split; [lia|]. unfold digit.
  replace (Z.to_N (48 + (Z.of_N (N_of_ascii c) - 48))) with (N_of_ascii c) by lia.
  rewrite ascii_N_embedding. reflexivity.
Qed.
Lemma digit_cases d : 0 <= d < 10 -> d = 0 \/ d = 1 \/ d = 2 \/ d = 3 \/ d = 4 \/ d = 5 \/ d = 6 \/ d = 7 \/ d = 8 \/ d = 9.
Proof. lia. Qed.
Lemma isdig_field c : isdig c = true -> fieldc c = true /\ tolower c = c /\ ceqb c "-"%char = false /\ ceqb c "+"%char = false
  /\ ceqb "i"%char c = false /\ ceqb "n"%char c = false.
Proof.
  intros H. apply isdig_cases in H as (d & D & ->). apply digit_cases in D.
  repeat (destruct D as [->|D]; [repeat split; reflexivity|]). subst. repeat split; reflexivity.
Qed.
Lemma numchar_field c : numchar c = true -> fieldc c = true.
Proof.
  unfold numchar. intros H. apply orb_true_iff in H as [H|H]; [apply isdig_field; exact H|].
  unfold mem, lit in H. cbn in H. rewrite !orb_true_iff in H.
  repeat (destruct H as [H|H]; [apply Ascii.eqb_eq in H; subst; reflexivity|]). discriminate.
Qed.
Lemma gprint_sign w v : 0 <= w -> exists neg t1, sign (gprint w v) = (neg, t1) /\
  match t1 with c :: _ => isdig c = true | [] => False end.
Proof.
  intros Hw. destruct (gprint_chars w v Hw) as [_ G2]. pose proof (prec_pos w Hw) as HP.
  unfold gprint in *. fold (prec w) in *.
  assert (S1 : forall n, let (D, X) := sig (prec w) (Zpos n) (Zpos (Qden v)) in
    match gstyle (prec w) D X with c :: _ => isdig c = true | [] => False end).
  { intros n. pose proof (sig_spec (prec w) (Zpos n) (Zpos (Qden v)) HP eq_refl eq_refl) as S.
    destruct (sig (prec w) (Zpos n) (Zpos (Qden v))) as [D X]. pose proof (pow10_pos' (prec w - 1) ltac:(lia)).
    apply gstyle_chars; [exact HP|lia]. }
  destruct (Qnum v) as [|n|n].
  - exists false, (lit "0"). split; reflexivity.
  - specialize (S1 n). destruct (sig _ _ _) as [D X]. destruct (gstyle (prec w) D X) as [|c s]; [contradiction|].
    exists false, (c :: s). split; [|exact S1]. cbn [sign]. destruct (isdig_field c S1) as (_ & _ & -> & -> & _). reflexivity.
  - specialize (S1 n). destruct (sig _ _ _) as [D X]. exists true, (gstyle (prec w) D X). split; [reflexivity|exact S1].
Qed.

Lemma toStr_field w v : 0 <= w -> field (toStr w v).
Proof.
  intros Hw. destruct v as [q|s|s]; cbn [toStr].
  - destruct (gprint_chars w q Hw) as [A B]. unfold toString_double. split.
    + destruct (gprint w q); [contradiction|discriminate].
    + apply Forall_firstn. eapply Forall_impl; [|exact A]. apply numchar_field.
  - destruct s; split; try discriminate; repeat constructor.
  - destruct s; split; try discriminate; repeat constructor.
Qed.

Lemma num_rt v L : (0 < L)%Q -> okn v L -> exists n, toNum (toStr 8 (ndiv v L)) = Ok n /\ close v (nmul n L) /\
  toStr 8 (ndiv (nmul n L) L) = toStr 8 (ndiv v L).
Proof.
  intros HL HO. assert (NL : ~ (L == 0)%Q) by (intro E; rewrite E in HL; discriminate).
  destruct v as [q|s|s].
  - cbn [okn] in HO. cbn [ndiv toStr].
    destruct (toString_toDouble 8 (q / L) ltac:(lia) HO) as (r & A & B & C).
    exists (Fin r). cbn [nmul close ndiv toStr]. split; [|split].
    + unfold toNum. unfold toDouble in A. rewrite toString_no_trunc in * by (try assumption; lia).
      destruct (gprint_chars 8 (q / L) ltac:(lia)) as [G1 _]. rewrite (c_str_num _ G1) in *.
      destruct (gprint_sign 8 (q / L) ltac:(lia)) as (neg & t1 & S1 & S2).
      destruct (gprint 8 (q / L)) as [|c s] eqn:E; [cbn in S1; injection S1 as <- <-; contradiction|]. rewrite S1.
      destruct t1 as [|c1 t1]; [contradiction|]. destruct (isdig_field c1 S2) as (_ & T & _ & _ & T1 & T2).
      cbn [lower map]. rewrite T. cbn [prefixb lit list_ascii_of_string]. rewrite T1, T2. cbn [andb].
      destruct (strtod (c :: s)) as [[v' r']|]; [|discriminate]. injection A as ->. reflexivity.
    + setoid_replace (r * L - q)%Q with ((r - q / L) * L)%Q by (field; exact NL).
      rewrite Qabs_Qmult, (Qabs_pos L) by lra.
      setoid_replace (Qabs q) with (Qabs (q / L) * L)%Q.
      * rewrite Qmult_assoc. apply Qmult_le_compat_r; [|lra]. eapply Qle_trans; [exact B|].
        apply Qmult_le_compat_r; [|apply Qabs_nonneg]. vm_compute. discriminate.
      * rewrite <- (Qabs_pos L) at 2 by lra. rewrite <- Qabs_Qmult. setoid_replace (q / L * L)%Q with q by (field; exact NL). reflexivity.
    + unfold toString_double. rewrite (C (r * L / L)%Q); [reflexivity|]. field. exact NL.
  - exists (Inf s). destruct s; repeat split; reflexivity.
  - exists (NaN s). destruct s; repeat split; reflexivity.
Qed.

(** ---- lines ---- *)
Fixpoint join (l : list str) : str :=
  match l with [] => [] | [f] => f | f :: r => f ++ TAB :: join r end.
Lemma tabbed_join l : tabbed l = join l ++ [LF].
Proof.
  induction l as [|f l IH]; [reflexivity|]. destruct l as [|g l]; [reflexivity|].
  change (tabbed (f :: g :: l)) with (f ++ TAB :: tabbed (g :: l)). rewrite IH. cbn [join]. rewrite <- app_assoc. reflexivity.
Qed.
Lemma field_nodelim f : field f -> f <> [] /\ forallb (fun c => negb (mem c DELIM)) f = true /\ ~ In LF f.
Proof.
  intros [A B]. split; [exact A|]. rewrite Forall_forall in B. split.
  - apply forallb_forall. intros c Hc. specialize (B c Hc). apply andb_true_iff in B. tauto.
  - intros Hc. specialize (B LF Hc). discriminate.
Qed.
Lemma Tokens_delim isd c s l : isd c = true -> Tokens isd s l -> Tokens isd (c :: s) l.
Proof.
  intros Hc H. destruct H as [d Hd|d t rest l Hd Ht1 Ht2 Hr H].
  - apply Tok_nil. cbn. rewrite Hc. exact Hd.
  - change (c :: d ++ t ++ rest) with ((c :: d) ++ t ++ rest). apply Tok_cons; auto. cbn. rewrite Hc. exact Hd.
Qed.
Lemma join_tokens l : Forall field l -> Tokens (fun c => mem c DELIM) (join l) l.
Proof.
  induction 1 as [|f l Hf Hl IH]; [apply Tok_nil; reflexivity|].
  destruct (field_nodelim f Hf) as (A & B & _).
  destruct l as [|g l].
  - replace (join [f]) with ([] ++ f ++ []) by (cbn; rewrite app_nil_r; reflexivity).
    apply Tok_cons; auto.
  - change (join (f :: g :: l)) with ([] ++ f ++ TAB :: join (g :: l)).
    apply Tok_cons; auto.
    + right. exists TAB, (join (g :: l)). split; reflexivity.
    + apply Tokens_delim; [reflexivity|exact IH].
Qed.
Lemma join_noLF l : Forall field l -> ~ In LF (join l).
Proof.
  induction 1 as [|f l Hf Hl IH]; [exact (fun H => H)|]. destruct (field_nodelim f Hf) as (_ & _ & C).
  destruct l as [|g l]; [exact C|]. cbn [join]. intros H. apply in_app_or in H as [H|[H|H]]; [tauto|discriminate|tauto].
Qed.
Lemma split_join l : Forall field l -> splitString (join l) DELIM = SplitOk l.
Proof.
  intros H. destruct (splitString_spec (join l) DELIM) as (l' & A & B). rewrite A. f_equal.
  eapply Tokens_unique; [exact B|apply join_tokens; exact H].
Qed.
Lemma complete_cur cur s rest : ~ In LF s -> complete_lines cur (s ++ LF :: rest) = (rev cur ++ s) :: complete_lines [] rest.
Proof.
  revert cur; induction s as [|c s IH]; intros cur H; cbn [app complete_lines].
  - change (ceqb LF LF) with true. cbv iota. rewrite app_nil_r. reflexivity.
  - assert (ceqb c LF = false). { apply Ascii.eqb_neq. intros ->. apply H. left. reflexivity. }
    rewrite H0. rewrite IH by (intros K; apply H; right; exact K). cbn [rev]. rewrite <- app_assoc. reflexivity.
Qed.
Lemma complete_line s rest : ~ In LF s -> complete_lines [] (s ++ LF :: rest) = s :: complete_lines [] rest.
Proof. intros H. rewrite complete_cur by exact H. reflexivity. Qed.
(** reading a prefix of a file gives a prefix of its lines *)
Lemma complete_prefix m s cur : is_prefix (complete_lines cur (firstn m s)) (complete_lines cur s).
Proof.
  revert s cur; induction m as [|m IH]; intros s cur; [eexists; reflexivity|].
  destruct s as [|c s]; [exists []; reflexivity|]. cbn [firstn complete_lines]. destruct (ceqb c LF).
  - destruct (IH s []) as [t E]. exists t. rewrite E. reflexivity.
  - apply IH.
Qed.
Lemma comment_line c s : readLine c ("#"%char :: s) = Ok None. Proof. reflexivity. Qed.

(** generic form of the body for a line made of fields *)
Lemma field_notcomment f r : field f -> match f ++ r with [] => false | b :: _ => isComment b end = false.
Proof.
  intros [A B]. destruct f as [|b f]; [contradiction|]. cbn. inversion B; subst. unfold isComment.
  apply orb_false_iff. unfold fieldc in H1. apply andb_true_iff in H1 as [H1 _]. apply negb_true_iff in H1.
  unfold mem, DELIM, lit in H1. cbn in H1. rewrite !orb_false_iff in H1. tauto.
Qed.
Lemma startable_get x L w : 0 <= w -> isFin x = true -> numeric_start (toStr w (ndiv x L)) = Ok true.
Proof.
  intros Hw H. destruct x as [q|s|s]; try discriminate. cbn [ndiv toStr]. unfold toString_double.
  destruct (gprint_chars w (q / L) Hw) as [_ B]. destruct (gprint w (q / L)) as [|c s]; [contradiction|].
  cbn [firstn]. unfold numeric_start. cbn [get bind]. unfold get. cbn.
  destruct B as [B|B]; [rewrite B; reflexivity|subst; rewrite orb_true_r; reflexivity].
Qed.

Lemma readLine_join c l : Forall field l -> readLine c (join l) = readFields c l.
Proof.
  intros H. unfold readLine. fold DELIM. rewrite (split_join _ H).
  destruct l as [|f l]; [reflexivity|].
  assert (E : exists r, join (f :: l) = f ++ r) by (destruct l; [exists []; cbn; rewrite app_nil_r; reflexivity|eexists; reflexivity]).
  destruct E as [r ->]. rewrite (field_notcomment f r) by (inversion H; assumption). reflexivity.
Qed.
Section OneLine.
Variable c : unitsQ.
Hypothesis HU : positiveU c.
Ltac nums := repeat match goal with
  | H : okn ?v ?u |- _ => let n := fresh "n" in let A := fresh "A" in let B := fresh "B" in let C := fresh "C" in
      assert (exists n, toNum (toStr 8 (ndiv v u)) = Ok n /\ close v (nmul n u) /\ toStr 8 (ndiv (nmul n u) u) = toStr 8 (ndiv v u)) as (n & A & B & C)
        by (apply num_rt; [destruct HU as (? & ? & ? & ?); assumption|exact H]); clear H
  end.
Ltac run := cbv - [numeric_start toNum toStr nmul ndiv lengthU velocityU massU];
  repeat (match goal with
          | H : toNum ?t = Ok _ |- context [toNum ?t] => rewrite H
          | H : numeric_start ?t = Ok _ |- context [numeric_start ?t] => rewrite H
          end; cbv - [numeric_start toNum toStr nmul ndiv lengthU velocityU massU]).
Ltac prove_line x F :=
  rewrite tabbed_join;
  match goal with |- exists line e', join ?l ++ _ = _ /\ _ => exists (join l); assert (FS : Forall field l) by (repeat (apply Forall_cons; [apply toStr_field; lia|]); apply Forall_nil) end;
  pose proof (startable_get x (lengthU c) 8 ltac:(lia) F) as ST; nums;
  eexists; split; [reflexivity|]; split; [apply join_noLF; assumption|].
Ltac prove_read :=
  match goal with FS : Forall field _ |- _ => rewrite (readLine_join c _ FS) end; unfold readFields; run; reflexivity.

Lemma linePos e : okPos c (fst e) -> okn (snd e) (massU c) -> exists line e',
  formatPos c e = line ++ [LF] /\ ~ In LF line /\ readLine c line = Ok (Some e') /\ backPos e e'.
Proof.
  destruct e as [[x y z] m]. intros (O1 & O2 & O3 & F) O4. cbn [fst snd p_x p_y p_z] in *.
  unfold formatPos. cbn [p_x p_y p_z]. prove_line x F. split; [prove_read|].
  unfold backPos, closePos. cbn. repeat split; auto; reflexivity.
Qed.
Lemma linePosVel e : okPV c (fst e) -> okn (snd e) (massU c) -> exists line e',
  formatPosVel c e = line ++ [LF] /\ ~ In LF line /\ readLine c line = Ok (Some e') /\ backPosVel e e'.
Proof.
  destruct e as [[[x y z] vx vy vz] m]. intros ((O1 & O2 & O3 & F) & O5 & O6 & O7) O4. cbn [fst snd p_x p_y p_z v_pos v_x v_y v_z] in *.
  unfold formatPosVel. cbn [p_x p_y p_z v_pos v_x v_y v_z]. prove_line x F. split; [prove_read|].
  unfold backPosVel, closePV, closePos. cbn. repeat split; auto; reflexivity.
Qed.
Lemma lineAux e : okAux c (fst e) -> okn (snd e) (massU c) -> exists line e',
  formatAux c e = line ++ [LF] /\ ~ In LF line /\ readLine c line = Ok (Some e') /\ backAux e e' /\ formatAux c e' = formatAux c e.
Proof.
  destruct e as [[[[x y z] vx vy vz] sm sr] m]. intros (((O1 & O2 & O3 & F) & O5 & O6 & O7) & O8 & O9) O4.
  cbn [fst snd p_x p_y p_z v_pos v_x v_y v_z a_pv a_stellarMass a_stellarRadius] in *.
  unfold formatAux at 1. cbn [p_x p_y p_z v_pos v_x v_y v_z a_pv a_stellarMass a_stellarRadius]. prove_line x F. split; [prove_read|].
  split.
  - unfold backAux, closePV, closePos. cbn. repeat split; auto; reflexivity.
  - unfold formatAux. cbn [p_x p_y p_z v_pos v_x v_y v_z a_pv a_stellarMass a_stellarRadius].
    repeat match goal with H : toStr 8 (ndiv (nmul _ _) _) = _ |- _ => rewrite H; clear H end. reflexivity.
Qed.
End OneLine.

(** ---- whole files ---- *)
Lemma readLines_app c a b : readLines c (a ++ b) = (ra <- readLines c a ;; rb <- readLines c b ;; Ok (ra ++ rb)).
Proof.
  induction a as [|l a IH]; cbn [app readLines].
  - cbn. destruct (readLines c b); reflexivity.
  - rewrite IH. destruct (readLine c l) as [o| | |]; cbn; try reflexivity.
    destruct (readLines c a); cbn; try reflexivity. destruct (readLines c b); cbn; try reflexivity. destruct o; reflexivity.
Qed.
Section File.
Context {P : Type}.
Variables (c : unitsQ) (colhdr : str) (fmt : unitsQ -> P * num -> str) (ok : P * num -> Prop) (back : P * num -> particleAux * num -> Prop).
Hypothesis hdr : exists h, colhdr = "#"%char :: h ++ [LF] /\ ~ In LF h.
Hypothesis line : forall e, ok e -> exists line e', fmt c e = line ++ [LF] /\ ~ In LF line /\ readLine c line = Ok (Some e') /\ back e e'.

Lemma read_points l : Forall ok l -> exists l' lines, complete_lines [] (concat (map (fmt c) l)) = lines /\
  readLines c lines = Ok l' /\ Forall2 back l l' /\
  Forall2 (fun ln e' => readLine c ln = Ok (Some e')) lines l'.
Proof.
  induction 1 as [|e l He Hl (l' & lines & E & R & B & S)].
  - exists [], []. repeat split; constructor.
  - destruct (line e He) as (ln & e' & F & N & RL & Bk). exists (e' :: l'), (ln :: lines). cbn [map concat]. rewrite F, <- app_assoc.
    change ([LF] ++ concat (map (fmt c) l)) with (LF :: concat (map (fmt c) l)). rewrite complete_line by exact N. rewrite E.
    split; [reflexivity|]. cbn [readLines]. rewrite RL. cbn. rewrite R. cbn. repeat split; constructor; assumption.
Qed.
Lemma time_noLF w v : 0 <= w -> ~ In LF (toStr w v).
Proof. intros Hw. exact (proj2 (proj2 (field_nodelim _ (toStr_field w v Hw)))). Qed.
Lemma write_lines l header time : no_newline header ->
  exists hl, complete_lines [] (writeText colhdr fmt l c header time) = hl ++ complete_lines [] (concat (map (fmt c) l)) /\
    readLines c hl = Ok [] /\ Forall (fun ln => readLine c ln = Ok None) hl /\
    (exists t, writeText colhdr fmt l c header time = "#"%char :: t).
Proof.
  intros NH. destruct hdr as (h & -> & Nh). unfold writeText.
  set (body := concat (map (fmt c) l)).
  assert (H0 : complete_lines [] (("#"%char :: h ++ [LF]) ++ body) = ("#"%char :: h) :: complete_lines [] body).
  { change (("#"%char :: h ++ [LF]) ++ body) with ("#"%char :: ((h ++ [LF]) ++ body)). rewrite <- app_assoc.
    change ([LF] ++ body) with (LF :: body). rewrite (app_comm_cons h). apply complete_line. intros [K|K]; [discriminate|tauto]. }
  set (tm := if isFin time then lit "#time: " ++ toStr 6 (ndiv time (timeU c)) ++ [LF] else []).
  assert (H1 : exists hl, complete_lines [] (tm ++ ("#"%char :: h ++ [LF]) ++ body) = hl ++ complete_lines [] body /\
     Forall (fun ln => readLine c ln = Ok None) hl /\ exists t, tm ++ ("#"%char :: h ++ [LF]) ++ body = "#"%char :: t).
  { unfold tm. destruct (isFin time).
    - exists [lit "#time: " ++ toStr 6 (ndiv time (timeU c)); "#"%char :: h].
      rewrite <- !(app_assoc (lit "#time: ")). rewrite <- (app_assoc (toStr 6 (ndiv time (timeU c)))).
      change ([LF] ++ ("#"%char :: h ++ [LF]) ++ body) with (LF :: ("#"%char :: h ++ [LF]) ++ body).
      rewrite (app_assoc (lit "#time: ")). split; [|split; [repeat constructor|eexists; reflexivity]].
      rewrite complete_line; [rewrite H0; reflexivity|].
      intros K. apply in_app_or in K as [K|K]; [cbn in K; repeat (destruct K as [K|K]; [discriminate|]); exact K|].
      revert K. apply time_noLF. lia.
    - exists ["#"%char :: h]. cbn [app] in *. rewrite H0. split; [reflexivity|]. split; [repeat constructor|]. eexists; reflexivity. }
  assert (NIL : forall hl, Forall (fun ln => readLine c ln = Ok None) hl -> readLines c hl = Ok []).
  { induction 1 as [|ln hl K _ IH]; [reflexivity|]. cbn [readLines]. rewrite K. cbn. rewrite IH. reflexivity. }
  destruct H1 as (hl & A & B & t & T).
  destruct header as [|x header].
  - exists hl. cbn [app]. repeat split; auto. exists t. exact T.
  - exists (("#"%char :: x :: header) :: hl).
    change (("#"%char :: (x :: header) ++ [LF]) ++ tm ++ ("#"%char :: h ++ [LF]) ++ body)
      with ("#"%char :: ((x :: header) ++ [LF]) ++ tm ++ ("#"%char :: h ++ [LF]) ++ body).
    rewrite <- app_assoc. change ([LF] ++ tm ++ ("#"%char :: h ++ [LF]) ++ body) with (LF :: tm ++ ("#"%char :: h ++ [LF]) ++ body).
    rewrite (app_comm_cons (x :: header)). rewrite complete_line by (intros [K|K]; [discriminate|exact (NH K)]).
    rewrite A. split; [reflexivity|]. assert (F : Forall (fun ln => readLine c ln = Ok None) (("#"%char :: x :: header) :: hl)) by (constructor; [reflexivity|exact B]).
    split; [apply NIL; exact F|]. split; [exact F|]. eexists; reflexivity.
Qed.
Lemma file_roundtrip l header time : Forall ok l -> no_newline header ->
  exists l', readText c (writeText colhdr fmt l c header time) = Ok l' /\ Forall2 back l l'.
Proof.
  intros Hl NH. destruct (write_lines l header time NH) as (hl & A & B & _ & t & T).
  destruct (read_points l Hl) as (l' & lines & E & R & Bk & _). exists l'. split; [|exact Bk].
  unfold readText. rewrite T. change (schar "#" <? 32) with false. cbv iota. rewrite <- T, A, readLines_app, B, E. cbn. rewrite R. reflexivity.
Qed.
Lemma is_prefix_app {A} (p a b : list A) : is_prefix p (a ++ b) -> is_prefix p a \/ exists p', p = a ++ p' /\ is_prefix p' b.
Proof.
  revert p; induction a as [|x a IH]; intros p [t E]; cbn [app] in E.
  - right. exists p. split; [reflexivity|exists t; exact E].
  - destruct p as [|y p]; [left; eexists; reflexivity|]. cbn in E. injection E as -> E.
    destruct (IH p (ex_intro _ t E)) as [[t' ->]|(p' & -> & H)].
    + left. exists t'. reflexivity.
    + right. exists p'. split; [reflexivity|exact H].
Qed.
(** a truncated file (any prefix) is read as a prefix of the particles, containing at least those whose line is complete *)
Lemma complete_app cur s t : complete_lines cur (s ++ LF :: t) = complete_lines cur (s ++ [LF]) ++ complete_lines [] t.
Proof.
  revert cur; induction s as [|x s IH]; intros cur; cbn [app complete_lines].
  - change (ceqb LF LF) with true. reflexivity.
  - destruct (ceqb x LF); rewrite IH; reflexivity.
Qed.
Lemma map_firstn_concat l j : exists t, concat (map (fmt c) l) = concat (map (fmt c) (firstn j l)) ++ t.
Proof.
  revert l; induction j as [|j IH]; intros l; [eexists; reflexivity|]. destruct l as [|e l]; [exists []; reflexivity|].
  cbn [firstn map concat]. destruct (IH l) as [t ->]. exists t. apply app_assoc.
Qed.
Lemma file_end l header time : Forall ok l -> exists s, writeText colhdr fmt l c header time = s ++ [LF].
Proof.
  intros Hl. unfold writeText. destruct hdr as (h & -> & _).
  assert (K : exists s, ("#"%char :: h ++ [LF]) ++ concat (map (fmt c) l) = s ++ [LF]).
  { destruct (@exists_last _ (("#"%char :: h ++ [LF]) ++ concat (map (fmt c) l)) ltac:(discriminate)) as (s & x & E). exists s. rewrite E. f_equal. f_equal.
    revert E. destruct l as [|e0 l0] using rev_ind.
    - cbn [map concat]. rewrite app_nil_r. change ("#"%char :: h ++ [LF]) with (("#"%char :: h) ++ [LF]). intros E. apply app_inj_tail in E. symmetry. tauto.
    - rewrite map_app, concat_app. cbn [map concat]. rewrite app_nil_r. apply Forall_app in Hl as [_ Hl]. inversion Hl; subst.
      destruct (line e0 H1) as (ln & e' & -> & _). rewrite !app_assoc. intros E. apply app_inj_tail in E. symmetry. tauto. }
  destruct K as [s E]. rewrite E. rewrite !app_assoc. eauto.
Qed.
Lemma file_truncated l header time m : Forall ok l -> no_newline header -> (0 < m)%nat ->
  exists l', readText c (writeText colhdr fmt l c header time) = Ok l' /\ Forall2 back l l' /\
  exists k, readText c (firstn m (writeText colhdr fmt l c header time)) = Ok (firstn k l') /\
    forall j, (j <= length l)%nat -> (length (writeText colhdr fmt (firstn j l) c header time) <= m)%nat -> (j <= k)%nat.
Proof.
  intros Hl NH Hm. destruct (write_lines l header time NH) as (hl & A & B & N & t & T).
  destruct (read_points l Hl) as (l' & lines & E & R & Bk & SS). exists l'. split.
  { unfold readText. rewrite T. change (schar "#" <? 32) with false. cbv iota. rewrite <- T, A, readLines_app, B, E. cbn. rewrite R. reflexivity. }
  split; [exact Bk|].
  pose proof (complete_prefix m (writeText colhdr fmt l c header time) []) as PF. rewrite A, E in PF.
  assert (RT : readText c (firstn m (writeText colhdr fmt l c header time)) =
     readLines c (complete_lines [] (firstn m (writeText colhdr fmt l c header time)))).
  { rewrite T. destruct m; [lia|]. reflexivity. }
  rewrite RT.
  assert (J : forall j, (j <= length l)%nat -> (length (writeText colhdr fmt (firstn j l) c header time) <= m)%nat ->
     exists r1 r2, readLines c (complete_lines [] (firstn m (writeText colhdr fmt l c header time))) = (b <- r2 ;; Ok (r1 ++ b)) /\ length r1 = j).
  { intros j Hj Lj. assert (Hlj : Forall ok (firstn j l)) by (apply Forall_firstn; exact Hl).
    destruct (file_end (firstn j l) header time Hlj) as [s Es].
    assert (Ef : exists t', writeText colhdr fmt l c header time = s ++ LF :: t').
    { destruct (map_firstn_concat l j) as [t' E']. exists t'. revert Es. unfold writeText. rewrite E'. intros Es.
      rewrite !app_assoc in *. rewrite Es, <- app_assoc. reflexivity. }
    destruct Ef as [t' Ef]. rewrite Ef.
    assert (Ls : length (s ++ [LF]) = Datatypes.S (length s)) by (rewrite app_length; cbn; lia).
    replace (s ++ LF :: t') with ((s ++ [LF]) ++ t') by (rewrite <- app_assoc; reflexivity).
    rewrite Es in Lj. rewrite firstn_app, firstn_all2 by exact Lj. rewrite <- app_assoc. cbn [app]. rewrite complete_app, <- Es.
    destruct (write_lines (firstn j l) header time NH) as (hl' & A' & B' & _).
    destruct (read_points (firstn j l) Hlj) as (r1 & lines' & E1 & R1 & Bk1 & _).
    exists r1. eexists. rewrite readLines_app, A', readLines_app, B', E1, R1. cbn [bind app]. split; [reflexivity|].
    assert (FL : forall (x : list (P * num)) y, Forall2 back x y -> length x = length y) by (induction 1; cbn; congruence).
    rewrite <- (FL _ _ Bk1), firstn_length. lia. }
  set (pl := complete_lines [] (firstn m (writeText colhdr fmt l c header time))) in *. clearbody pl.
  assert (NIL : forall hl, Forall (fun ln => readLine c ln = Ok None) hl -> readLines c hl = Ok []).
  { induction 1 as [|ln hl' K _ IH]; [reflexivity|]. cbn [readLines]. rewrite K. cbn. rewrite IH. reflexivity. }
  assert (FIN : forall k, readLines c pl = Ok (firstn k l') -> forall j, (j <= length l)%nat ->
     (length (writeText colhdr fmt (firstn j l) c header time) <= m)%nat -> (j <= k)%nat).
  { intros k Hk j Hj Lj. destruct (J j Hj Lj) as (r1 & r2 & E1 & E2). rewrite Hk in E1. destruct r2 as [r2| | |]; try discriminate.
    cbn [bind] in E1. injection E1 as E1. apply (f_equal (@length _)) in E1. rewrite app_length, firstn_length in E1. lia. }
  destruct (is_prefix_app _ _ _ PF) as [[t' E']|(p' & -> & t' & E')].
  - assert (Q0 : readLines c pl = Ok (firstn 0 l')) by (apply NIL; rewrite E' in N; apply Forall_app in N; tauto).
    exists O. split; [exact Q0|apply FIN; exact Q0].
  - assert (K : forall p t' l', Forall2 (fun ln e' => readLine c ln = Ok (Some e')) (p ++ t') l' -> readLines c p = Ok (firstn (length p) l')).
    { clear. induction p as [|x p IH]; intros t' l' H; [reflexivity|]. inversion H; subst. cbn [readLines length firstn]. rewrite H2. cbn [bind].
      rewrite (IH t' l'0 H4). reflexivity. }
    rewrite E' in SS. assert (Q0 : readLines c (hl ++ p') = Ok (firstn (length p') l')).
    { rewrite readLines_app, B. cbn [bind]. rewrite (K p' t' l' SS). reflexivity. }
    exists (length p'). split; [exact Q0|apply FIN; exact Q0].
Qed.
End File.

(** the reader never accesses a missing field, whatever the contents of the file *)
Lemma toNum_ok s : (exists n, toNum s = Ok n) \/ toNum s = Throw.
Proof.
  unfold toNum. destruct (c_str s); [eauto|]. destruct (sign _). destruct (prefixb _ _); [eauto|]. destruct (prefixb _ _); [eauto|].
  destruct (strtod _) as [[v r]|]; eauto.
Qed.
Lemma readLine_safe c b : (exists o, readLine c b = Ok o) \/ readLine c b = Throw.
Proof.
  unfold readLine. destruct (match b with [] => false | x :: _ => isComment x end); [eauto|].
  destruct (splitString_spec b DELIM) as (l & A & B). fold DELIM. rewrite A. unfold readFields.
  destruct (Tokens_props _ _ _ B) as [T _].
  destruct (Z.ltb_spec (zlen l) 4) as [|G]; [eauto|].
  destruct (get_ok l 0 ltac:(lia)) as (f0 & -> & N0). cbn [bind].
  assert (F0 : f0 <> []). { rewrite Forall_forall in T. apply (T f0). eapply nth_error_In; exact N0. }
  destruct f0 as [|c0 f0]; [contradiction|].
  assert (NS : exists st, numeric_start (c0 :: f0) = Ok st) by (eexists; reflexivity). destruct NS as [st ->]. cbn [bind].
  destruct (negb st); [eauto|].
  assert (GG : forall i, 0 <= i < zlen l -> exists f, get l i = Ok f) by (intros i Hi; destruct (get_ok l i Hi) as (f & -> & _); eauto).
  Ltac step GG := match goal with
    | |- context [get ?l ?i] => let f := fresh "f" in let E := fresh in destruct (GG i ltac:(lia)) as [f E]; rewrite E; cbn [bind]
    | |- context [toNum ?s] => let H := fresh in let n := fresh in destruct (toNum_ok s) as [[n H]|H]; rewrite H; cbn [bind]; [|try (right; reflexivity)]
    end.
  destruct (Z.leb_spec 7 (zlen l)) as [G7|G7]; destruct (Z.leb_spec 8 (zlen l)) as [G8|G8]; destruct (Z.leb_spec 9 (zlen l)) as [G9|G9]; try lia;
    repeat step GG; first [left; eexists; reflexivity|right; reflexivity].
Qed.
Lemma readText_safe c file : (exists l, readText c file = Ok l) \/ readText c file = Throw.
Proof.
  unfold readText. destruct file as [|b f]; [auto|]. destruct (schar b <? 32); [auto|].
  induction (complete_lines [] (b :: f)) as [|ln ls IH]; [left; eexists; reflexivity|]. cbn [readLines].
  destruct (readLine_safe c ln) as [[o ->]| ->]; [|right; reflexivity]. cbn [bind].
  destruct IH as [[r ->]| ->]; [left; eexists; reflexivity|right; reflexivity].
Qed.

(** a line that is a comment or has fewer than four fields, inserted anywhere, changes nothing *)
Definition few_fields (ln : str) : Prop := exists l, Tokens (fun c => mem c DELIM) ln l /\ (length l < 4)%nat.
Lemma readLine_ignored c ln : (match ln with b :: _ => isComment b = true | [] => False end) \/ few_fields ln -> readLine c ln = Ok None.
Proof.
  intros [H|(l & TK & L)]; unfold readLine.
  - destruct ln; [contradiction|]. rewrite H. reflexivity.
  - destruct (match ln with [] => false | b :: _ => isComment b end); [reflexivity|].
    destruct (splitString_spec ln DELIM) as (l' & A & B). fold DELIM. rewrite A. rewrite (Tokens_unique _ _ _ _ B TK).
    unfold readFields. rewrite (proj2 (Z.ltb_lt (zlen l) 4)) by (unfold zlen; lia). reflexivity.
Qed.
Lemma insert_ignored c h a ln b : no_newline ln -> readLine c ln = Ok None ->
  readText c (h :: a ++ LF :: ln ++ LF :: b) = readText c (h :: a ++ LF :: b).
Proof.
  intros NL H. unfold readText. destruct (schar h <? 32); [reflexivity|].
  change (h :: a ++ LF :: ln ++ LF :: b) with ((h :: a) ++ LF :: ln ++ LF :: b). change (h :: a ++ LF :: b) with ((h :: a) ++ LF :: b).
  rewrite (complete_app _ (h :: a) b), (complete_app _ (h :: a) (ln ++ LF :: b)), (complete_line ln b NL), !readLines_app. cbn [readLines]. rewrite H. cbn [bind].
  destruct (readLines c (complete_lines [] ((h :: a) ++ [LF]))); cbn [bind]; try reflexivity. destruct (readLines c (complete_lines [] b)); reflexivity.
Qed.
