From Verif Require Import NemoModel.
Local Open Scope Z_scope.

(** well-formed structure of a NEMO file: bytes of an item *)
Definition tag_ok (t : str) : Prop := ~ In NULc t.
Inductive Enc : item -> str -> Prop :=
| Enc_single c k tag data : itemsize c = Some k -> tag_ok tag -> length data = k ->
    Enc (Leaf c tag [1] data) (MAGIC :: byt 9 :: c :: NULc :: tag ++ NULc :: data)
| Enc_plural c k tag dims data : itemsize c = Some k -> tag_ok tag -> Forall (fun d => 0 < d < 2 ^ 31) dims ->
    dims <> [] -> Z.of_nat (length data) = Z.of_nat k * prodZ dims ->
    Enc (Leaf c tag dims data) (MAGIC :: byt 11 :: c :: NULc :: tag ++ NULc :: concat (map (le 4) dims) ++ le 4 0 ++ data)
| Enc_set tag l b : tag_ok tag -> EncL l b ->
    Enc (SetI tag l) ((MAGIC :: byt 9 :: "("%char :: NULc :: tag ++ [NULc]) ++ b ++ [MAGIC; byt 9; ")"%char; NULc])
with EncL : list item -> str -> Prop :=
| EncL_nil : EncL [] []
| EncL_cons it l b1 b2 : Enc it b1 -> EncL l b2 -> EncL (it :: l) (b1 ++ b2).
Scheme Enc_ind2 := Induction for Enc Sort Prop with EncL_ind2 := Induction for EncL Sort Prop.

Lemma byt_val z : Z.of_N (N_of_ascii (byt z)) = z mod 256.
Proof. unfold byt. pose proof (Z.mod_pos_bound z 256 ltac:(lia)). rewrite N_ascii_embedding by lia. lia. Qed.
Lemma le_length n z : length (le n z) = n.
Proof. revert z; induction n; intros; cbn; [reflexivity|]. rewrite IHn. reflexivity. Qed.
Lemma unle_le n z : unle (le n z) = z mod 256 ^ Z.of_nat n.
Proof.
  revert z; induction n; intros z. { cbn. rewrite Z.mod_1_r. reflexivity. }
  cbn [le unle]. rewrite byt_val, IHn. replace (Z.of_nat (S n)) with (1 + Z.of_nat n) by lia.
  rewrite Z.pow_add_r by lia. rewrite Z.pow_1_r. rewrite Z.rem_mul_r by (try apply Z.pow_nonzero; lia). reflexivity.
Qed.
Lemma unle_le_small n z : 0 <= z < 256 ^ Z.of_nat n -> unle (le n z) = z.
Proof. intros H. rewrite unle_le. apply Z.mod_small. exact H. Qed.

Lemma read_string_spec first t rest : tag_ok t -> read_string first (t ++ NULc :: rest) = Ok (t, rest).
Proof.
  revert first; induction t as [|c t IH]; intros first H; cbn [app read_string].
  - change (ceqb NULc NULc) with true. reflexivity.
  - assert (ceqb c NULc = false). { apply Ascii.eqb_neq. intros ->. apply H. left. reflexivity. }
    rewrite H0, IH by (intros K; apply H; right; exact K). reflexivity.
Qed.
Lemma int32_le d : 0 <= d < 2 ^ 31 -> int32 (le 4 d) = d.
Proof. intros H. unfold int32. rewrite unle_le_small by (cbn; lia). rewrite (proj2 (Z.leb_gt _ _)) by lia. reflexivity. Qed.
Lemma firstn_le n z rest : firstn n (le n z ++ rest) = le n z.
Proof. rewrite firstn_app, le_length, Nat.sub_diag. cbn. rewrite app_nil_r. apply firstn_all2. rewrite le_length. lia. Qed.
Lemma skipn_le n z rest : skipn n (le n z ++ rest) = rest.
Proof. rewrite skipn_app, le_length, Nat.sub_diag, skipn_all2 by (rewrite le_length; lia). reflexivity. Qed.
Lemma firstn_len {A} (a b : list A) n : length a = n -> firstn n (a ++ b) = a.
Proof. intros <-. rewrite firstn_app, Nat.sub_diag, firstn_all. cbn. apply app_nil_r. Qed.
Lemma skipn_len {A} (a b : list A) n : length a = n -> skipn n (a ++ b) = b.
Proof. intros <-. rewrite skipn_app, Nat.sub_diag, skipn_all. reflexivity. Qed.

Lemma read_dims_step f first d rest : 0 <= d < 2 ^ 31 ->
  read_dims (S f) first (le 4 d ++ rest) =
  (if d =? 0 then Ok ([], rest) else r <- read_dims f false rest ;; Ok (d :: fst r, snd r)).
Proof.
  intros H. cbn [read_dims].
  assert (G : exists x y, le 4 d ++ rest = x :: y) by (cbn; eauto). destruct G as (x & y & G).
  assert (L : (length (le 4 d ++ rest) <? 4)%nat = false) by (apply Nat.ltb_ge; rewrite app_length, le_length; lia).
  assert (F : firstn 4 (le 4 d ++ rest) = le 4 d) by apply firstn_le.
  assert (K : skipn 4 (le 4 d ++ rest) = rest) by apply skipn_le.
  rewrite L, F, K, int32_le by exact H. rewrite G. reflexivity.
Qed.
Lemma read_dims_spec dims rest : Forall (fun d => 0 < d < 2 ^ 31) dims -> forall f first, (length dims < f)%nat ->
  read_dims f first (concat (map (le 4) dims) ++ le 4 0 ++ rest) = Ok (dims, rest).
Proof.
  induction 1 as [|d dims Hd _ IH]; intros f first Hf; destruct f as [|f]; try (cbn in Hf; lia).
  - cbn [map concat app]. rewrite read_dims_step by lia. reflexivity.
  - cbn [map concat]. rewrite <- app_assoc. rewrite read_dims_step by lia.
    rewrite (proj2 (Z.eqb_neq d 0)) by lia. rewrite IH by (cbn in Hf; lia). reflexivity.
Qed.

Lemma itemsize_letter c k : itemsize c = Some k -> ceqb c "("%char = false /\ ceqb c ")"%char = false /\ ceqb c NULc = false.
Proof.
  intros H. repeat split; apply Ascii.eqb_neq; intros ->; discriminate.
Qed.
Lemma header_single c k tag data : itemsize c = Some k -> tag_ok tag ->
  header (MAGIC :: byt 9 :: c :: NULc :: tag ++ NULc :: data) = Ok (Some ([c], tag, [1], data)).
Proof.
  intros H T. destruct (itemsize_letter c k H) as (_ & E & N). unfold header.
  change (ceqb MAGIC MAGIC && (ceqb (byt 9) (byt 9) || ceqb (byt 9) (byt 11))) with true. cbn [negb].
  cbn [read_string]. rewrite N. change (ceqb NULc NULc) with true. cbn [bind fst snd]. rewrite E.
  rewrite read_string_spec by exact T. cbn [bind fst snd]. change (ceqb (byt 9) (byt 11)) with false. reflexivity.
Qed.
Lemma concat_le_length l : length (concat (map (le 4) l)) = (4 * length l)%nat.
Proof. induction l; cbn [map concat length]; [reflexivity|]. rewrite app_length, le_length, IHl. lia. Qed.
Lemma header_plural c k tag dims data : itemsize c = Some k -> tag_ok tag -> Forall (fun d => 0 < d < 2 ^ 31) dims ->
  header (MAGIC :: byt 11 :: c :: NULc :: tag ++ NULc :: concat (map (le 4) dims) ++ le 4 0 ++ data) = Ok (Some ([c], tag, dims, data)).
Proof.
  intros H T D. destruct (itemsize_letter c k H) as (_ & E & N). unfold header.
  change (ceqb MAGIC MAGIC && (ceqb (byt 11) (byt 9) || ceqb (byt 11) (byt 11))) with true. cbn [negb].
  cbn [read_string]. rewrite N. change (ceqb NULc NULc) with true. cbn [bind fst snd]. rewrite E.
  rewrite read_string_spec by exact T. cbn [bind fst snd]. change (ceqb (byt 11) (byt 11)) with true. cbv iota.
  rewrite read_dims_spec; [reflexivity|exact D|]. cbn [length]. rewrite app_length. cbn [length]. rewrite !app_length, concat_le_length. lia.
Qed.
Lemma header_set tag rest : tag_ok tag ->
  header ((MAGIC :: byt 9 :: "("%char :: NULc :: tag ++ [NULc]) ++ rest) = Ok (Some (["("%char], tag, [1], rest)).
Proof.
  intros T. cbn [app]. rewrite <- app_assoc. cbn [app]. unfold header.
  change (ceqb MAGIC MAGIC && (ceqb (byt 9) (byt 9) || ceqb (byt 9) (byt 11))) with true. cbn [negb].
  cbn [read_string]. change (ceqb "(" NULc) with false. change (ceqb NULc NULc) with true. cbn [bind fst snd].
  change (ceqb "(" ")") with false. cbv iota.
  rewrite read_string_spec by exact T. cbn [bind fst snd]. change (ceqb (byt 9) (byt 11)) with false. reflexivity.
Qed.
Lemma header_end rest : header ([MAGIC; byt 9; ")"%char; NULc] ++ rest) = Ok (Some ([")"%char], [], [1], rest)).
Proof. reflexivity. Qed.

Lemma Enc_not_end it b : Enc it b -> it <> EndSet.
Proof. intros H E. subst. inversion H. Qed.
Lemma Enc_length it b : Enc it b -> (4 <= length b)%nat.
Proof. intros H. destruct H; cbn [length app]; rewrite ?app_length; cbn; lia. Qed.

Lemma read_leaf f c k tag dims data rest b : itemsize c = Some k -> header (b ++ rest) = Ok (Some ([c], tag, dims, data ++ rest)) ->
  Z.of_nat (length data) = Z.of_nat k * prodZ dims ->
  read_item (S f) (b ++ rest) = Ok (Some (Leaf c tag dims data, rest)).
Proof.
  intros H Hh L. destruct (itemsize_letter c k H) as (E1 & E2 & _). cbn [read_item]. rewrite Hh. cbn [bind].
  rewrite E1, E2, H. rewrite <- L. rewrite (proj2 (Z.ltb_ge (Z.of_nat (length data)) 0)) by lia.
  rewrite (proj2 (Z.ltb_ge _ _)) by (unfold zlen; rewrite app_length; lia). cbn [orb].
  rewrite Nat2Z.id, firstn_len, skipn_len by reflexivity. reflexivity.
Qed.
Lemma read_enc it b : Enc it b -> forall f rest, (length b < f)%nat -> read_item f (b ++ rest) = Ok (Some (it, rest)).
Proof.
  intros H. induction H using Enc_ind2 with
    (P0 := fun l b _ => forall f rest, (length b + 4 < f)%nat ->
       read_set f (b ++ [MAGIC; byt 9; ")"%char; NULc] ++ rest) = Ok (l, rest)).
  - intros fu rest Hf. destruct fu as [|fu]; [lia|]. eapply read_leaf; [exact e| |rewrite e0; reflexivity || (cbn; lia)].
    rewrite <- (header_single c k tag (data ++ rest) e t). cbn [app]. rewrite <- app_assoc. reflexivity.
  - intros fu rest Hf. destruct fu as [|fu]; [lia|]. eapply read_leaf; [exact e| |exact e0].
    rewrite <- (header_plural c k tag dims (data ++ rest) e t f). cbn [app]. rewrite <- app_assoc. cbn [app].
    rewrite <- !app_assoc. reflexivity.
  - intros fu rest Hf. destruct fu as [|fu]; [lia|]. cbn [read_item].
    rewrite <- app_assoc, header_set by exact t. cbn [bind]. change (ceqb "(" "(") with true. cbv iota.
    rewrite <- app_assoc. rewrite IHEnc; [reflexivity|]. rewrite !app_length in Hf. cbn [length] in Hf. lia.
  - intros fu rest Hf. destruct fu as [|fu]; [lia|]. cbn [read_set]. destruct fu as [|fu]; [cbn in Hf; lia|]. 
    cbn [app]. change (read_item (S fu) (MAGIC :: byt 9 :: ")"%char :: NULc :: rest)) with
      (h <- header ([MAGIC; byt 9; ")"%char; NULc] ++ rest) ;;
      match h with
      | None => Ok None
      | Some ([letter], tag, dims, s1) =>
          if ceqb letter "("%char then
            r <- read_set fu s1 ;; Ok (Some (SetI tag (fst r), snd r))
          else if ceqb letter ")"%char then Ok (Some (EndSet, s1))
          else match itemsize letter with
               | None => Throw
               | Some k =>
                   let n := Z.of_nat k * prodZ dims in
                   if (n <? 0) || (zlen s1 <? n) then Throw
                   else Ok (Some (Leaf letter tag dims (firstn (Z.to_nat n) s1), skipn (Z.to_nat n) s1))
               end
      | Some _ => Throw
      end). rewrite header_end. reflexivity.
  - intros fu rest Hf. destruct fu as [|fu]; [lia|]. cbn [read_set]. rewrite <- app_assoc.
    pose proof (Enc_length it b1 H) as L. rewrite app_length in Hf.
    rewrite IHEnc by lia. cbn [bind]. rewrite IHEnc0 by lia. cbn [bind fst snd].
    pose proof (Enc_not_end it b1 H). destruct it; [reflexivity|reflexivity|contradiction].
Qed.

(** ---- reading a well-formed file ---- *)
Definition isSnap (it : item) : bool := seq (tag_of it) (lit "SnapShot").
Fixpoint top (l : list item) : res (list snapshot) :=
  match l with
  | [] => Ok []
  | it :: l' => if isSnap it then li <- set_items it ;; d <- decode li ;; r <- top l' ;; Ok (d :: r) else top l'
  end.
Lemma read_snap_spec l b : EncL l b -> forall f, (length b < f)%nat ->
  (top l = Ok [] /\ read_snap f b = Ok None) \/
  (exists it l' b', isSnap it = true /\ EncL l' b' /\ (length b' < length b)%nat /\
     top l = (li <- set_items it ;; d <- decode li ;; r <- top l' ;; Ok (d :: r)) /\
     read_snap f b = (li <- set_items it ;; d <- decode li ;; Ok (Some (d, b')))).
Proof.
  revert b; induction l as [|it l IH]; intros b H f Hf; inversion H as [|it' l'' b1 b2 E EL]; subst.
  - left. destruct f; [cbn in Hf; lia|]. split; reflexivity.
  - destruct f as [|f]; [lia|]. cbn [read_snap]. pose proof (Enc_length _ _ E) as L4. rewrite app_length in Hf.
    rewrite (read_enc it b1 E) by (rewrite app_length; lia). cbn [bind].
    fold (isSnap it). destruct (isSnap it) eqn:S; cbn [negb top]; rewrite S.
    + right. exists it, l, b2. rewrite app_length. repeat split; auto. lia.
    + destruct (IH b2 EL f ltac:(lia)) as [A|(it' & l' & b' & A & B & C & D & F)]; [left; exact A|].
      right. exists it', l', b'. rewrite app_length. repeat split; auto. lia.
Qed.
Lemma read_all_spec n : forall l b f, (length b <= n)%nat -> EncL l b -> (length b < f)%nat -> read_all f b = top l.
Proof.
  induction n as [n IH] using lt_wf_ind. intros l b f Hn H Hf. destruct f as [|f]; [lia|]. cbn [read_all].
  destruct (read_snap_spec l b H (S (length b)) ltac:(lia)) as [[A ->]|(it & l' & b' & A & B & C & D & ->)].
  - rewrite A. reflexivity.
  - rewrite D. destruct (set_items it); cbn [bind]; try reflexivity. destruct (decode a); cbn [bind]; try reflexivity.
    rewrite (IH (length b') ltac:(lia) l' b' f) by (auto; lia). reflexivity.
Qed.
Lemma readNEMO_spec l b : EncL l b -> readNEMO b = top l.
Proof. intros H. apply (read_all_spec (length b)); auto. Qed.
Lemma EncL_app l1 b1 l2 b2 : EncL l1 b1 -> EncL l2 b2 -> EncL (l1 ++ l2) (b1 ++ b2).
Proof.
  revert b1; induction l1 as [|it l1 IH]; intros b1 H1 H2; inversion H1 as [|i ll c1 c2 E EL]; subst; [exact H2|].
  cbn [app]. rewrite <- app_assoc. constructor; auto.
Qed.
Lemma EncL_one it b : Enc it b -> EncL [it] b.
Proof. intros H. rewrite <- (app_nil_r b). constructor; [exact H|constructor]. Qed.
Lemma top_app l1 l2 : top (l1 ++ l2) = (a <- top l1 ;; b <- top l2 ;; Ok (a ++ b)).
Proof.
  induction l1 as [|it l1 IH]; cbn [app top]; [cbn; destruct (top l2); reflexivity|].
  destruct (isSnap it); [|exact IH]. rewrite IH. destruct (set_items it); cbn [bind]; try reflexivity.
  destruct (decode a); cbn [bind]; try reflexivity. destruct (top l1); cbn [bind]; try reflexivity. destruct (top l2); reflexivity.
Qed.

(** ---- the C++ writer produces such files ---- *)
Lemma chunks_le k l f : (0 < k)%nat -> Forall (fun z => 0 <= z < 256 ^ Z.of_nat k) l -> (length l <= f)%nat ->
  chunks f k (concat (map (le k) l)) = l.
Proof.
  intros Hk H. revert f. induction H as [|z l Hz _ IH]; intros f Hf.
  - destruct f; reflexivity.
  - destruct f as [|f]; [cbn in Hf; lia|]. cbn [map concat chunks].
    assert (G : exists x y, le k z ++ concat (map (le k) l) = x :: y) by (destruct k; [lia|cbn; eauto]).
    rewrite firstn_le, skipn_le, unle_le_small, IH by (auto; cbn in Hf; lia). destruct G as (x & y & ->). reflexivity.
Qed.
Lemma concat_len k l : length (concat (map (le k) l)) = (k * length l)%nat.
Proof. induction l; cbn [map concat length]; [lia|]. rewrite app_length, le_length, IHl. lia. Qed.

Lemma arrays_ok all l ex : Forall2 (fun it e => seq (tag_of it) (lit "CoordSystem") = false /\ lookup (tag_of it) all = Some it /\
    elements it = Ok (snd (fst e), snd e) /\ tag_of it = fst (fst e)) l ex -> arrays all l = Ok ex.
Proof.
  induction 1 as [|it e l ex (H1 & H2 & H3 & H4) _ IH]; [reflexivity|]. cbn [arrays]. rewrite H1, H2, H3, IH, H4. cbn [bind fst snd].
  destruct e as [[n d] v]. reflexivity.
Qed.
Section WriterProofs.
Context {A : Type}.
Variables (f32 d64 : A -> A -> Z) (fin : A -> bool).
Hypothesis F32 : forall v u, 0 <= f32 v u < 2 ^ 32.
Hypothesis D64 : forall v u, 0 <= d64 v u < 2 ^ 64.

(** the content expected in the file *)
Definition arr3 (pts : list (@npart A)) : list Z := [zlen pts; 3].
Definition expected (fl : flavour) (pts : list (@npart A)) (c : @nunits A) (time : A) : snapshot :=
  let pos := (lit "Position", arr3 pts, posArr f32 c pts) in
  let vel := (lit "Velocity", arr3 pts, velArr f32 c pts) in
  let mass := (lit "Mass", [zlen pts], massArr f32 c pts) in
  let aux := (lit "Aux", [zlen pts], auxArr f32 c pts) in
  let eps := (lit "Eps", [zlen pts], epsArr f32 c pts) in
  mkSnap (if fin time then Some (d64 time (ntime c)) else None)
    (match fl with FPos => [pos; mass] | FPosVel => [pos; vel; mass] | FAux => [pos; vel; mass; aux; eps] end).

Lemma posArr_len c pts : length (posArr f32 c pts) = (3 * length pts)%nat.
Proof. induction pts; cbn [posArr flat_map length app] in *; [reflexivity|]. unfold posArr in IHpts. rewrite IHpts. lia. Qed.
Lemma velArr_len c pts : length (velArr f32 c pts) = (3 * length pts)%nat.
Proof. induction pts; cbn [velArr flat_map length app] in *; [reflexivity|]. unfold velArr in IHpts. rewrite IHpts. lia. Qed.
Lemma posArr_range c pts : Forall (fun z => 0 <= z < 256 ^ Z.of_nat 4) (posArr f32 c pts).
Proof. unfold posArr. induction pts; cbn [flat_map app]; [constructor|]. repeat (constructor; [apply F32|]). exact IHpts. Qed.
Lemma velArr_range c pts : Forall (fun z => 0 <= z < 256 ^ Z.of_nat 4) (velArr f32 c pts).
Proof. unfold velArr. induction pts; cbn [flat_map app]; [constructor|]. repeat (constructor; [apply F32|]). exact IHpts. Qed.
Lemma mapArr_range (g : @npart A -> Z) pts : (forall p, 0 <= g p < 2 ^ 32) -> Forall (fun z => 0 <= z < 256 ^ Z.of_nat 4) (map g pts).
Proof. intros H. induction pts; cbn; constructor; auto. Qed.

Definition leafF (name : str) (dims el : list Z) : item := Leaf "f"%char name dims (floats el).
Definition partItems (fl : flavour) (pts : list (@npart A)) (c : @nunits A) : list item :=
  let pos := leafF (lit "Position") (arr3 pts) (posArr f32 c pts) in
  let vel := leafF (lit "Velocity") (arr3 pts) (velArr f32 c pts) in
  let mass := leafF (lit "Mass") [zlen pts] (massArr f32 c pts) in
  let aux := leafF (lit "Aux") [zlen pts] (auxArr f32 c pts) in
  let eps := leafF (lit "Eps") [zlen pts] (epsArr f32 c pts) in
  match fl with FPos => [pos; mass] | FPosVel => [pos; vel; mass] | FAux => [pos; vel; mass; aux; eps] end.
Definition snapItem (fl : flavour) (pts : list (@npart A)) (c : @nunits A) (time : A) : item :=
  SetI (lit "SnapShot")
    [ SetI (lit "Parameters") (Leaf "i"%char (lit "Nobj") [1] (le 4 (zlen pts)) ::
        (if fin time then [Leaf "d"%char (lit "Time") [1] (le 8 (d64 time (ntime c)))] else []));
      SetI (lit "Particles") (Leaf "i"%char (lit "CoordSystem") [1] (le 4 COORDSYS) :: partItems fl pts c) ].
Definition histItem (header : str) : list item :=
  match header with [] => [] | _ => [Leaf "c"%char (lit "History") [zlen (c_str header)] (c_str header)] end.

Lemma tag_lit_ok (s : string) : forallb (fun c => negb (ceqb c NULc)) (lit s) = true -> tag_ok (lit s).
Proof. intros H K. rewrite forallb_forall in H. specialize (H _ K). discriminate. Qed.
Ltac tagok := apply tag_lit_ok; reflexivity.

Lemma enc_array name dims el : tag_ok name -> Forall (fun d => 0 < d < 2 ^ 31) dims -> dims <> [] ->
  Z.of_nat (length el) = prodZ dims -> Enc (leafF name dims el) (putArray name "f"%char dims (floats el)).
Proof.
  intros T D N L. unfold leafF, putArray, putZString. cbn [app]. rewrite <- app_assoc. cbn [app].
  apply Enc_plural with (k := 4%nat); auto. unfold floats. rewrite concat_len, Nat2Z.inj_mul, L. reflexivity.
Qed.
Lemma enc_val name c k z : itemsize c = Some k -> tag_ok name -> Enc (Leaf c name [1] (le k z)) (putVal name c (le k z)).
Proof.
  intros H T. unfold putVal, putZString. cbn [app]. rewrite <- app_assoc. cbn [app].
  apply Enc_single with (k := k); auto. apply le_length.
Qed.
Lemma enc_set name l b : tag_ok name -> EncL l b -> Enc (SetI name l) (startLevel name ++ b ++ endLevel).
Proof. intros T H. exact (Enc_set name l b T H). Qed.

Lemma enc_parts fl pts c parts : 0 < zlen pts < 2 ^ 31 -> writeParticles f32 fl pts c = Ok parts -> EncL (partItems fl pts c) parts.
Proof.
  intros HN HW. unfold writeParticles in HW. destruct pts as [|p0 pts']; [discriminate|]. set (pts := p0 :: pts') in *.
  assert (D3 : Forall (fun d => 0 < d < 2 ^ 31) (arr3 pts)) by (repeat constructor; lia).
  assert (D1 : Forall (fun d => 0 < d < 2 ^ 31) [zlen pts]) by (repeat constructor; lia).
  assert (P3 : prodZ (arr3 pts) = 3 * zlen pts) by (unfold prodZ, arr3; cbn [fold_left]; lia).
  assert (P1 : prodZ [zlen pts] = zlen pts) by (unfold prodZ; cbn [fold_left]; lia).
  assert (E1 : Enc (leafF (lit "Position") (arr3 pts) (posArr f32 c pts)) (putArray (lit "Position") "f"%char [zlen pts; 3] (floats (posArr f32 c pts)))).
  { apply enc_array; [tagok|exact D3|discriminate|]. rewrite posArr_len. transitivity (3 * zlen pts); [unfold zlen; lia|symmetry; exact P3]. }
  assert (E2 : Enc (leafF (lit "Velocity") (arr3 pts) (velArr f32 c pts)) (putArray (lit "Velocity") "f"%char [zlen pts; 3] (floats (velArr f32 c pts)))).
  { apply enc_array; [tagok|exact D3|discriminate|]. rewrite velArr_len. transitivity (3 * zlen pts); [unfold zlen; lia|symmetry; exact P3]. }
  assert (E3 : Enc (leafF (lit "Mass") [zlen pts] (massArr f32 c pts)) (putArray (lit "Mass") "f"%char [zlen pts] (floats (massArr f32 c pts)))).
  { apply enc_array; [tagok|exact D1|discriminate|]. unfold massArr. rewrite map_length, P1. reflexivity. }
  assert (E4 : Enc (leafF (lit "Aux") [zlen pts] (auxArr f32 c pts)) (putArray (lit "Aux") "f"%char [zlen pts] (floats (auxArr f32 c pts)))).
  { apply enc_array; [tagok|exact D1|discriminate|]. unfold auxArr. rewrite map_length, P1. reflexivity. }
  assert (E5 : Enc (leafF (lit "Eps") [zlen pts] (epsArr f32 c pts)) (putArray (lit "Eps") "f"%char [zlen pts] (floats (epsArr f32 c pts)))).
  { apply enc_array; [tagok|exact D1|discriminate|]. unfold epsArr. rewrite map_length, P1. reflexivity. }
  injection HW as <-. unfold partItems. destruct fl.
  - exact (EncL_cons _ _ _ _ E1 (EncL_one _ _ E3)).
  - exact (EncL_cons _ _ _ _ E1 (EncL_cons _ _ _ _ E2 (EncL_one _ _ E3))).
  - exact (EncL_cons _ _ _ _ E1 (EncL_cons _ _ _ _ E2 (EncL_cons _ _ _ _ E3 (EncL_cons _ _ _ _ E4 (EncL_one _ _ E5))))).
Qed.
Lemma enc_hist header : (header = [] \/ c_str header <> []) -> zlen header < 2 ^ 31 ->
  EncL (histItem header) (match header with [] => [] | _ => putString (lit "History") (c_str header) end).
Proof.
  intros H L. unfold histItem. destruct header as [|x h]; [constructor|]. destruct H as [H|H]; [discriminate|].
  apply EncL_one. unfold putString, putArray, putZString.
  assert (LE : forall s, (length (c_str s) <= length s)%nat).
  { induction s as [|y s IH]; cbn; [lia|]. destruct (ceqb y NUL); cbn; lia. }
  specialize (LE (x :: h)). set (t := c_str (x :: h)) in *. clearbody t.
  cbn [app]. rewrite <- app_assoc. cbn [app].
  apply Enc_plural with (k := 1%nat); auto; [tagok| |discriminate|].
  - repeat constructor; unfold zlen in *; destruct t; cbn in *; try contradiction; lia.
  - unfold prodZ, zlen. cbn [fold_left]. lia.
Qed.
Lemma writeNEMO_enc old fl pts c header time append bytes : 0 < zlen pts < 2 ^ 31 ->
  (header = [] \/ c_str header <> []) -> zlen header < 2 ^ 31 ->
  writeNEMO f32 d64 fin old fl pts c header time append = Ok bytes ->
  exists new, bytes = (if append then old else []) ++ new /\ EncL (histItem header ++ [snapItem fl pts c time]) new.
Proof.
  intros HN HH HL HW. unfold writeNEMO in HW. destruct (writeParticles f32 fl pts c) as [parts| | |] eqn:E; try discriminate.
  cbn [bind] in HW. injection HW as <-. eexists. split; [reflexivity|].
  apply EncL_app; [apply enc_hist; assumption|]. apply EncL_one.
  assert (EP : Enc (SetI (lit "Parameters") (Leaf "i"%char (lit "Nobj") [1] (le 4 (zlen pts)) ::
        (if fin time then [Leaf "d"%char (lit "Time") [1] (le 8 (d64 time (ntime c)))] else [])))
     (startLevel (lit "Parameters") ++ (putVal (lit "Nobj") "i"%char (le 4 (zlen pts)) ++
      (if fin time then putVal (lit "Time") "d"%char (le 8 (d64 time (ntime c))) else [])) ++ endLevel)).
  { apply enc_set; [tagok|]. apply EncL_cons; [apply enc_val; [reflexivity|tagok]|].
    destruct (fin time); [apply EncL_one, enc_val; [reflexivity|tagok]|constructor]. }
  assert (EQ : Enc (SetI (lit "Particles") (Leaf "i"%char (lit "CoordSystem") [1] (le 4 COORDSYS) :: partItems fl pts c))
     (startLevel (lit "Particles") ++ (putVal (lit "CoordSystem") "i"%char (le 4 COORDSYS) ++ parts) ++ endLevel)).
  { apply enc_set; [tagok|]. apply EncL_cons; [apply enc_val; [reflexivity|tagok]|]. apply enc_parts; assumption. }
  pose proof (enc_set (lit "SnapShot") _ _ ltac:(tagok) (EncL_cons _ _ _ _ EP (EncL_one _ _ EQ))) as R.
  rewrite <- !app_assoc in R. exact R.
Qed.

Lemma elements_floats name dims el : Forall (fun z => 0 <= z < 256 ^ Z.of_nat 4) el -> elements (leafF name dims el) = Ok (dims, el).
Proof.
  intros H. unfold leafF, elements. cbn [itemsize]. change (itemsize "f"%char) with (Some 4%nat). cbv iota.
  unfold floats. rewrite chunks_le; [reflexivity|lia|exact H|]. rewrite concat_len. lia.
Qed.
Lemma decode_snap fl pts c time l : snapItem fl pts c time = SetI (lit "SnapShot") l -> decode l = Ok (expected fl pts c time).
Proof.
  intros H. injection H as <-. unfold decode.
  match goal with |- context [lookup (lit "Parameters") (?a :: ?r)] => change (lookup (lit "Parameters") (a :: r)) with (Some a) end.
  match goal with |- context [lookup (lit "Particles") (?a :: ?b :: ?r)] => change (lookup (lit "Particles") (a :: b :: r)) with (Some b) end.
  cbn [set_items bind].
  assert (T : forall a, lookup (lit "Time") (Leaf "i"%char (lit "Nobj") [1] a :: (if fin time then [Leaf "d"%char (lit "Time") [1] (le 8 (d64 time (ntime c)))] else []))
     = if fin time then Some (Leaf "d"%char (lit "Time") [1] (le 8 (d64 time (ntime c)))) else None) by (intros a; destruct (fin time); reflexivity).
  rewrite T. clear T.
  match goal with |- bind ?t _ = _ => assert (TT : t = Ok (if fin time then Some (d64 time (ntime c)) else None)) end.
  { destruct (fin time); [|reflexivity]. unfold elements. change (itemsize "d"%char) with (Some 8%nat). cbv iota.
    rewrite <- (app_nil_r (le 8 (d64 time (ntime c)))). change (le 8 (d64 time (ntime c)) ++ []) with (concat (map (le 8) [d64 time (ntime c)])).
    rewrite chunks_le; [reflexivity|lia|repeat constructor; apply D64|]. rewrite concat_len. cbn. lia. }
  rewrite TT. cbn [bind]. clear TT.
  assert (M : forall g : @npart A -> Z, (forall p, 0 <= g p < 2 ^ 32) -> Forall (fun z => 0 <= z < 256 ^ Z.of_nat 4) (map g pts)) by (intros; apply mapArr_range; assumption).
  match goal with |- bind ?t _ = _ => assert (TT : t = Ok (s_arrays (expected fl pts c time))) end.
  { match goal with |- arrays ?a (?b :: ?r) = _ => change (arrays a (b :: r)) with (arrays a r) end.
    apply arrays_ok. unfold expected. cbn [s_arrays].
    destruct fl; repeat (constructor; [split; [reflexivity|split; [reflexivity|split; [|reflexivity]]]|]); try constructor; cbn [fst snd];
    rewrite elements_floats by (first [apply posArr_range|apply velArr_range|apply M; intros; apply F32]); reflexivity. }
  rewrite TT. reflexivity.
Qed.
Lemma top_write fl pts c header time : top (histItem header ++ [snapItem fl pts c time]) = Ok [expected fl pts c time].
Proof.
  rewrite top_app. assert (H0 : top (histItem header) = Ok []) by (destruct header; reflexivity). rewrite H0. cbn [bind].
  cbn [top]. change (isSnap (snapItem fl pts c time)) with true. cbv iota.
  assert (S1 : exists l, snapItem fl pts c time = SetI (lit "SnapShot") l) by (eexists; reflexivity). destruct S1 as [l E].
  rewrite E. cbn [set_items bind]. rewrite (decode_snap fl pts c time l E). reflexivity.
Qed.
End WriterProofs.


(** ---- the Python writer ---- *)
Definition pyItem (a : str * bool * list Z * list Z) : item :=
  let '(name, single, dims, el) := a in
  if single : bool then Leaf "f"%char name dims (concat (map (le 4) el)) else Leaf "d"%char name dims (concat (map (le 8) el)).
Definition pyName (a : str * bool * list Z * list Z) : str := fst (fst (fst a)).
Definition pyExp (a : str * bool * list Z * list Z) : str * list Z * list Z := let '(name, single, dims, el) := a in (name, dims, el).
Definition py_ok (a : str * bool * list Z * list Z) : Prop :=
  let '(name, single, dims, el) := a in
  tag_ok name /\ seq name (lit "CoordSystem") = false /\ Forall (fun d => 0 < d < 2 ^ 31) dims /\ dims <> [] /\ Z.of_nat (length el) = prodZ dims /\
  Forall (fun z => 0 <= z < 256 ^ (if single : bool then 4 else 8)) el.
Lemma enc_py_leaf c k tag dims data : itemsize c = Some k -> tag_ok tag -> Forall (fun d => 0 < d < 2 ^ 31) dims ->
  dims <> [] -> Z.of_nat (length data) = Z.of_nat k * prodZ dims -> Enc (Leaf c tag dims data) (py_leaf c tag dims data).
Proof.
  intros H T D N L. unfold py_leaf. destruct (is_plural dims) eqn:P; cbn [app]; unfold putZString; cbn [app]; rewrite <- app_assoc; cbn [app].
  - rewrite <- app_assoc. eapply Enc_plural; eassumption.
  - destruct dims as [|d [|d2 ds]]; cbn in P; try discriminate. apply negb_false_iff, Z.leb_le in P.
    inversion D as [|? ? D1 _]; subst. assert (d = 1) by lia. subst. eapply Enc_single; [exact H|exact T|].
    unfold prodZ in L. cbn [fold_left] in L. lia.
Qed.
Lemma enc_py a : py_ok a -> Enc (pyItem a) (py_array a).
Proof.
  destruct a as [[[name single] dims] el]. intros (T & _ & D & N & L & _). unfold py_array, pyItem.
  destruct single; [apply enc_py_leaf with (k := 4%nat)|apply enc_py_leaf with (k := 8%nat)]; auto; rewrite concat_len, Nat2Z.inj_mul, L; reflexivity.
Qed.
Lemma seq_eq a b : seq a b = true <-> a = b.
Proof. unfold seq. destruct (list_eq_dec ascii_dec a b); split; intros; congruence. Qed.
Lemma tag_pyItem a : tag_of (pyItem a) = pyName a.
Proof. destruct a as [[[name single] dims] el]. destruct single; reflexivity. Qed.
Lemma lookup_py arrs a : NoDup (map pyName arrs) -> In a arrs -> lookup (pyName a) (map pyItem arrs) = Some (pyItem a).
Proof.
  unfold lookup. induction arrs as [|b l IH]; intros ND I; [destruct I|]. cbn [map find]. inversion ND as [|x y NI ND']; subst.
  rewrite tag_pyItem. destruct (seq (pyName b) (pyName a)) eqn:E.
  - apply seq_eq in E. destruct I as [->|I]; [reflexivity|]. exfalso. apply NI. rewrite E. apply in_map. exact I.
  - destruct I as [->|I]; [|apply IH; auto]. assert (seq (pyName a) (pyName a) = true) by (apply seq_eq; reflexivity). congruence.
Qed.
Definition pySnap (time : option Z) (nbody : Z) (arrs : list (str * bool * list Z * list Z)) : item :=
  SetI (lit "SnapShot")
    [ SetI (lit "Parameters") ((match time with Some t => [Leaf "d"%char (lit "Time") [1] (le 8 t)] | None => [] end) ++
        [Leaf "i"%char (lit "Nobj") [1] (le 4 nbody)]);
      SetI (lit "Particles") (map pyItem arrs) ].
Lemma EncL_map l : Forall py_ok l -> EncL (map pyItem l) (concat (map py_array l)).
Proof. induction 1; cbn; constructor; [apply enc_py|]; assumption. Qed.
Lemma py_write_enc time nbody arrs : Forall py_ok arrs -> Enc (pySnap time nbody arrs) (py_write time nbody arrs).
Proof.
  intros H.
  assert (V : forall c k tag z, itemsize c = Some k -> tag_ok tag -> Enc (Leaf c tag [1] (le k z)) (py_leaf c tag [1] (le k z))).
  { intros c k tag z Hc T. apply enc_py_leaf with (k := k); auto; [repeat constructor; lia|discriminate|]. rewrite le_length. unfold prodZ. cbn [fold_left]. lia. }
  assert (tk : forall s : string, forallb (fun c => negb (ceqb c NULc)) (lit s) = true -> tag_ok (lit s)) by exact tag_lit_ok.
  assert (EP : Enc (SetI (lit "Parameters") ((match time with Some t => [Leaf "d"%char (lit "Time") [1] (le 8 t)] | None => [] end) ++
        [Leaf "i"%char (lit "Nobj") [1] (le 4 nbody)]))
     (startLevel (lit "Parameters") ++ ((match time with Some t => py_leaf "d"%char (lit "Time") [1] (le 8 t) | None => [] end) ++
      py_leaf "i"%char (lit "Nobj") [1] (le 4 nbody)) ++ endLevel)).
  { apply enc_set; [apply tk; reflexivity|]. apply EncL_app.
    - destruct time; [apply EncL_one, V; [reflexivity|apply tk; reflexivity]|constructor].
    - apply EncL_one, V; [reflexivity|apply tk; reflexivity]. }
  assert (EQ : Enc (SetI (lit "Particles") (map pyItem arrs)) (startLevel (lit "Particles") ++ concat (map py_array arrs) ++ endLevel)).
  { apply enc_set; [apply tk; reflexivity|]. apply EncL_map. exact H. }
  pose proof (enc_set (lit "SnapShot") _ _ ltac:(apply tk; reflexivity) (EncL_cons _ _ _ _ EP (EncL_one _ _ EQ))) as R.
  rewrite <- !app_assoc in R. exact R.
Qed.
Lemma elements_py a : py_ok a -> elements (pyItem a) = Ok (snd (fst (pyExp a)), snd (pyExp a)).
Proof.
  destruct a as [[[name single] dims] el]. intros (_ & _ & _ & _ & _ & R). destruct single; cbn [pyItem pyExp elements fst snd].
  - change (itemsize "f"%char) with (Some 4%nat). cbv iota. rewrite chunks_le; [reflexivity|lia|exact R|rewrite concat_len; lia].
  - change (itemsize "d"%char) with (Some 8%nat). cbv iota. rewrite chunks_le; [reflexivity|lia|exact R|rewrite concat_len; lia].
Qed.
Lemma top_py time nbody arrs : (match time with Some t => 0 <= t < 2 ^ 64 | None => True end) -> Forall py_ok arrs ->
  NoDup (map pyName arrs) -> top [pySnap time nbody arrs] = Ok [mkSnap time (map pyExp arrs)].
Proof.
  intros HT HA ND. cbn [top]. change (isSnap (pySnap time nbody arrs)) with true. cbv iota. unfold pySnap. cbn [set_items bind].
  unfold decode.
  match goal with |- context [lookup (lit "Parameters") (?a :: ?r)] => change (lookup (lit "Parameters") (a :: r)) with (Some a) end.
  match goal with |- context [lookup (lit "Particles") (?a :: ?b :: ?r)] => change (lookup (lit "Particles") (a :: b :: r)) with (Some b) end.
  cbn [set_items bind].
  assert (AA : arrays (map pyItem arrs) (map pyItem arrs) = Ok (map pyExp arrs)).
  { apply arrays_ok. assert (K : forall l, (forall a, In a l -> In a arrs) -> Forall2 (fun it e => seq (tag_of it) (lit "CoordSystem") = false /\ lookup (tag_of it) (map pyItem arrs) = Some it /\
       elements it = Ok (snd (fst e), snd e) /\ tag_of it = fst (fst e)) (map pyItem l) (map pyExp l)).
    { induction l as [|a l IH]; intros I; cbn [map]; constructor.
      - assert (Ia : In a arrs) by (apply I; left; reflexivity). rewrite Forall_forall in HA. pose proof (HA a Ia) as OK.
        rewrite tag_pyItem. split; [|split; [|split]].
        + destruct a as [[[name single] dims] el]. apply OK.
        + apply lookup_py; assumption.
        + apply elements_py. exact OK.
        + destruct a as [[[name single] dims] el]. reflexivity.
      - apply IH. intros b Ib. apply I. right. exact Ib. }
    apply K. auto. }
  rewrite AA. destruct time as [t|]; cbn [app].
  - match goal with |- context [lookup (lit "Time") (?a :: ?r)] => change (lookup (lit "Time") (a :: r)) with (Some a) end.
    unfold elements. change (itemsize "d"%char) with (Some 8%nat). cbv iota.
    rewrite <- (app_nil_r (le 8 t)). change (le 8 t ++ []) with (concat (map (le 8) [t])).
    rewrite chunks_le; [reflexivity|lia|repeat constructor; apply HT|]. rewrite concat_len. cbn. lia.
  - reflexivity.
Qed.
