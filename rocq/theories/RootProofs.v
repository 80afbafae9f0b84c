From Coq Require Import Psatz Lia.
From Coquelicot Require Import Coquelicot.
From Verif Require Import RootModel PolyProofs MathProofs.
Local Open Scope R_scope.

Definition between (a b x : R) : Prop := Rmin a b <= x <= Rmax a b.
Lemma between_iff a b x : between a b x <-> (a <= x <= b \/ b <= x <= a).
Proof. unfold between, Rmin, Rmax. destruct (Rle_dec a b); lra. Qed.
Lemma between_param b c k : 0 <= k <= 1 -> between b c (b + k * (c - b)).
Proof. intros K. apply between_iff. destruct (Rle_dec b c); [left|right]; nra. Qed.
Lemma between_param_inv b c x : between b c x -> exists k, 0 <= k <= 1 /\ x = b + k * (c - b).
Proof.
  intros H. apply between_iff in H. destruct (Req_dec b c) as [E|E]; [exists 0; subst; lra|].
  exists ((x - b) / (c - b)). split; [|field; lra]. destruct H as [H|H].
  - split; [apply Rmult_le_pos; [lra|left; apply Rinv_0_lt_compat; lra]|]. apply Rmult_le_reg_r with (c - b); [lra|]. unfold Rdiv. rewrite Rmult_assoc, Rinv_l by lra. lra.
  - replace ((x - b) / (c - b)) with ((b - x) / (b - c)) by (field; lra). split; [apply Rmult_le_pos; [lra|left; apply Rinv_0_lt_compat; lra]|]. apply Rmult_le_reg_r with (b - c); [lra|]. unfold Rdiv. rewrite Rmult_assoc, Rinv_l by lra. lra.
Qed.
Lemma between_sym a b x : between a b x <-> between b a x.
Proof. rewrite !between_iff. tauto. Qed.
Lemma between_within lo hi a b x : lo <= a <= hi -> lo <= b <= hi -> between a b x -> lo <= x <= hi.
Proof. intros A B H. apply between_iff in H. lra. Qed.

Ltac rb := repeat match goal with
  | H : (_ || _)%bool = true |- _ => apply Bool.orb_true_iff in H
  | H : (_ && _)%bool = true |- _ => apply Bool.andb_true_iff in H; destruct H
  | H : (_ || _)%bool = false |- _ => apply Bool.orb_false_iff in H; destruct H
  | H : Rlt_b _ _ = true |- _ => unfold Rlt_b in H; destruct (Rlt_dec _ _) in H; [|discriminate]; clear H
  | H : Rlt_b _ _ = false |- _ => unfold Rlt_b in H; destruct (Rlt_dec _ _) in H; [discriminate|]; clear H
  | H : Rle_b _ _ = true |- _ => unfold Rle_b in H; destruct (Rle_dec _ _) in H; [|discriminate]; clear H
  | H : Rle_b _ _ = false |- _ => unfold Rle_b in H; destruct (Rle_dec _ _) in H; [discriminate|]; clear H
  | H : Req_b _ _ = true |- _ => unfold Req_b in H; destruct (Req_EM_T _ _) in H; [|discriminate]; clear H
  | H : Req_b _ _ = false |- _ => unfold Req_b in H; destruct (Req_EM_T _ _) in H; [discriminate|]; clear H
  end.

(** a quadratic trinomial without roots on [0,1] has a constant sign there *)
Lemma quad_sign ba ca :
  let D := pow_2 ba - 4 * ca in
  (0 <= D -> ~ (0 <= 1 / 2 * (- ba - sqrt D) <= 1) /\ ~ (0 <= 1 / 2 * (- ba + sqrt D) <= 1)) ->
  (forall t, 0 <= t <= 1 -> 0 < t * t + ba * t + ca) \/ (forall t, 0 <= t <= 1 -> t * t + ba * t + ca < 0).
Proof.
  intros D H. destruct (Rle_lt_dec 0 D) as [P|P].
  - destruct (H P) as [N1 N2]. set (q := sqrt D) in *. assert (Q : q * q = D) by (apply sqrt_sqrt, P). assert (Q0 : 0 <= q) by apply sqrt_pos. unfold D, pow_2 in Q.
    set (t1 := 1 / 2 * (- ba - q)) in *. set (t2 := 1 / 2 * (- ba + q)) in *.
    assert (F : forall t, t * t + ba * t + ca = (t - t1) * (t - t2)). { intros t. unfold t1, t2. replace ca with ((ba * ba - q * q) / 4) by lra. field. }
    assert (T12 : t1 <= t2) by (unfold t1, t2; lra).
    destruct (Rlt_dec t2 0) as [A|A]; [left; intros t Ht; rewrite F; apply Rmult_lt_0_compat; lra|].
    assert (1 < t2) by (destruct (Rle_dec t2 1); [exfalso; apply N2; lra|lra]).
    destruct (Rlt_dec t1 0) as [B|B]; [right; intros t Ht; rewrite F; nra|].
    assert (1 < t1) by (destruct (Rle_dec t1 1); [exfalso; apply N1; lra|lra]). left. intros t Ht. rewrite F. nra.
  - left. intros t _. unfold D, pow_2 in P. assert (0 <= (t + ba / 2) * (t + ba / 2)) by apply Rle_0_sqr. nra.
Qed.

Lemma hermiteMonotone_between x x1 x2 f1 f2 d1 d2 v : x1 <> x2 -> between x1 x2 x ->
  hermiteInterpMonotone x x1 x2 f1 f2 d1 d2 = Some v -> between f1 f2 v.
Proof.
  intros N B H. unfold hermiteInterpMonotone in H. destruct (_ || _)%bool in H; [discriminate|]. cbv zeta in H.
  set (a := -6 * (f2 - f1) / (x2 - x1) + 3 * (d1 + d2)) in *. destruct (Req_b a 0) eqn:E0 in H; [discriminate|]. rb.
  set (ba := - 1 + (d2 - d1) * (1 / a)) in *. set (ca := d1 * (1 / a)) in *.
  assert (S : (v = hermiteInterp x x1 x2 f1 f2 d1 d2) /\ ((forall t, 0 <= t <= 1 -> 0 < t * t + ba * t + ca) \/ (forall t, 0 <= t <= 1 -> t * t + ba * t + ca < 0))).
  { destruct (Rle_b 0 (pow_2 ba - 4 * ca)) eqn:ED.
    - destruct (_ || _)%bool eqn:ET in H; [discriminate|]. split; [congruence|]. apply quad_sign. intros _. apply Bool.orb_false_iff in ET. destruct ET as [T1 T2].
      split; intros [A1 A2]; [rewrite Rle_b_t in T1 by exact A1; rewrite Rle_b_t in T1 by exact A2; discriminate|rewrite Rle_b_t in T2 by exact A1; rewrite Rle_b_t in T2 by exact A2; discriminate].
    - split; [congruence|]. apply quad_sign. intros P. rewrite Rle_b_t in ED by exact P. discriminate. }
  destruct S as [-> S].
  destruct (between_param_inv _ _ _ B) as [t [T ->]].
  (* as a function of t *)
  set (h := fun t : R => (1 - t) * (1 - t) * ((1 + 2 * t) * f1 + t * d1 * (x2 - x1)) + t * t * ((3 - 2 * t) * f2 + (t - 1) * d2 * (x2 - x1))).
  assert (Eh : hermiteInterp (x1 + t * (x2 - x1)) x1 x2 f1 f2 d1 d2 = h t).
  { unfold hermiteInterp, h, pow_2. cbv zeta. replace ((x1 + t * (x2 - x1) - x1) / (x2 - x1)) with t by (field; lra). reflexivity. }
  rewrite Eh.
  assert (Dh : forall s, is_derive h s ((x2 - x1) * a * (s * s + ba * s + ca))).
  { intros s. unfold h. auto_derive; [exact Logic.I|]. unfold ba, ca.
    replace ((x2 - x1) * a * (s * s + (- 1 + (d2 - d1) * (1 / a)) * s + d1 * (1 / a))) with ((x2 - x1) * (a * (s * s - s) + (d2 - d1) * s + d1)) by (field; assumption).
    unfold a. field. lra. }
  assert (h0 : h 0 = f1) by (unfold h; ring). assert (h1 : h 1 = f2) by (unfold h; ring).
  assert (Mono : forall s1 s2, s1 <= s2 -> 0 <= s1 -> s2 <= 1 -> exists s, s1 <= s <= s2 /\ h s2 - h s1 = (x2 - x1) * a * (s * s + ba * s + ca) * (s2 - s1)).
  { intros s1 s2 L A1 A2. destruct (MVT_gen h s1 s2 (fun s => (x2 - x1) * a * (s * s + ba * s + ca))) as [s [Hs1 Hs2]].
    - intros z _. apply Dh.
    - intros z _. apply continuity_pt_filterlim. apply (ex_derive_continuous h z). eexists; apply Dh.
    - rewrite Rmin_left, Rmax_right in Hs1 by exact L. eauto. }
  destruct (Mono 0 t) as [s [Hs Es]]; try lra. destruct (Mono t 1) as [s' [Hs' Es']]; try lra. rewrite h0 in Es. rewrite h1 in Es'.
  set (K := (x2 - x1) * a) in *. apply between_iff.
  assert (Sg : forall s, 0 <= s <= 1 -> (forall u, 0 <= u <= 1 -> 0 < u * u + ba * u + ca) \/ (forall u, 0 <= u <= 1 -> u * u + ba * u + ca < 0)) by (intros; exact S). clear Sg.
  assert (W : (0 <= K * (s * s + ba * s + ca) /\ 0 <= K * (s' * s' + ba * s' + ca)) \/ (K * (s * s + ba * s + ca) <= 0 /\ K * (s' * s' + ba * s' + ca) <= 0)).
  { destruct S as [S|S]; pose proof (S s ltac:(lra)); pose proof (S s' ltac:(lra)); destruct (Rle_dec 0 K); [left|right|right|left]; split; nra. }
  assert (T0 : 0 <= t - 0) by lra. assert (T1 : 0 <= 1 - t) by lra.
  destruct W as [[W1 W2]|[W1 W2]]; [left|right].
  - pose proof (Rmult_le_pos _ _ W1 T0). pose proof (Rmult_le_pos _ _ W2 T1). lra.
  - assert (0 <= - (K * (s * s + ba * s + ca)) * (t - 0)) by (apply Rmult_le_pos; lra). assert (0 <= - (K * (s' * s' + ba * s' + ca)) * (1 - t)) by (apply Rmult_le_pos; lra). lra.
Qed.

(** the chosen step stays between b and c *)
Lemma brent_between s m tol d : sc s - sb s = 2 * m -> brentStep s m tol = Some d -> between (sb s) (sc s) (sb s + d).
Proof.
  intros M H. unfold brentStep in H. destruct (if Req_b (sa s) (sc s) then _ else _) as [p0 q0] in H.
  destruct (if Rlt_b 0 p0 then (p0, - q0) else (- p0, q0)) as [p q] eqn:E.
  assert (P : 0 <= p). { destruct (Rlt_b 0 p0) eqn:L; injection E as <- <-; rb; lra. }
  destruct (Rlt_b _ _) eqn:L in H; [|discriminate]. injection H as <-. rb. rename r into L'.
  pose proof (Rmin_l (3 * m * q - Rabs (tol * q)) (Rabs (se s * q))). pose proof (Rabs_pos (tol * q)).
  assert (MQ : 0 < m * q) by nra. assert (Nq : q <> 0) by (intros ->; lra). assert (Nm : m <> 0) by (intros ->; lra).
  replace (p / q) with (p / (2 * (m * q)) * (sc s - sb s)) by (rewrite M; field; split; assumption). apply between_param. split.
  - apply Rmult_le_pos; [lra|left; apply Rinv_0_lt_compat; lra].
  - apply Rmult_le_reg_r with (2 * (m * q)); [lra|]. unfold Rdiv. rewrite Rmult_assoc, Rinv_l by lra. lra.
Qed.
Lemma choose_between s m tol d e : sc s - sb s = 2 * m -> fb s * fc s < 0 -> chooseStep s m tol = (d, e) -> between (sb s) (sc s) (sb s + d).
Proof.
  intros M Sg H. unfold chooseStep in H. cbv zeta in H.
  assert (Bis : between (sb s) (sc s) (sb s + m)) by (replace m with (1 / 2 * (sc s - sb s)) by lra; apply between_param; lra).
  destruct (_ || _)%bool in H; [injection H as <- _; exact Bis|].
  assert (Br : forall d e, match brentStep s m tol with Some d => (d, sd s) | None => (m, m) end = (d, e) -> between (sb s) (sc s) (sb s + d)).
  { intros d' e' H'. destruct (brentStep s m tol) as [x|] eqn:B; injection H' as <- _; [apply (brent_between s m tol _ M B)|exact Bis]. }
  destruct (if dsame (db s) (dc s) then _ else _) as [v|] eqn:Hm in H; [|apply (Br _ _ H)].
  destruct (Rlt_b _ _) in H; [|apply (Br _ _ H)]. injection H as <- _.
  destruct (dsame (db s) (dc s)); [|discriminate].
  assert (Nf : fb s <> fc s) by (intros E; rewrite E in Sg; nra).
  assert (B0 : between (fb s) (fc s) 0) by (apply between_iff; nra).
  pose proof (hermiteMonotone_between _ _ _ _ _ _ _ _ Nf B0 Hm) as V. apply between_iff in V. apply between_iff. lra.
Qed.

(** invariant of the loop *)
Record inv (F : function) (lo hi : R) (s : rstate) : Prop := {
  inv_b : lo <= sb s <= hi; inv_c : lo <= sc s <= hi;
  inv_fb : fst (F (sb s)) = Some (fb s); inv_fc : fst (F (sc s)) = Some (fc s);
  inv_db : snd (F (sb s)) = db s;  inv_dc : snd (F (sc s)) = dc s;
  inv_nz : fc s <> 0; inv_sign : fb s * fc s <= 0; inv_le : Rabs (fb s) <= Rabs (fc s) }.

Lemma swap_inv F lo hi s : lo <= sb s <= hi -> lo <= sc s <= hi -> fst (F (sb s)) = Some (fb s) -> fst (F (sc s)) = Some (fc s) ->
  snd (F (sb s)) = db s -> snd (F (sc s)) = dc s -> fc s <> 0 -> fb s * fc s <= 0 -> inv F lo hi (swapBC s).
Proof.
  intros. unfold swapBC. destruct (Rlt_b (Rabs (fc s)) (Rabs (fb s))) eqn:L; rb; constructor; cbn; try assumption; try lra.
  intros E. rewrite E, Rabs_R0 in r. pose proof (Rabs_pos (fc s)). lra.
Qed.
Lemma swap_seg s x : between (sb (swapBC s)) (sc (swapBC s)) x <-> between (sb s) (sc s) x.
Proof. unfold swapBC. destruct (Rlt_b _ _); [cbn; apply between_sym|reflexivity]. Qed.

(** what a result guarantees; abstol = absolute tolerance, n0 = allowed number of evaluations *)
Definition good (F : function) (lo hi abstol : R) (r : option (R * reason * R * R)) : Prop :=
  match r with
  | None => True
  | Some (x, why, b, c) =>
    lo <= b <= hi /\ lo <= c <= hi /\ between b c x /\
    exists fb fc, fst (F b) = Some fb /\ fst (F c) = Some fc /\ fb * fc <= 0 /\
    match why with
    | Exact => fb = 0 \/ x = b /\ Rabs (c - b) <= DBL_EPSILON * Rabs b
    | Bracket => Rabs (b - c) <= abstol
    | Newton => Rabs (x - b) < abstol /\ exists d, snd (F b) = DFin d /\ fb + d * (x - b) = 0
    | MaxIter => x = b
    end
  end.
Lemma bracketed_between off b c : bracketed off b c = true -> between b c (b + off).
Proof. intros H. unfold bracketed in H. apply between_iff. rb. destruct H as [H|H]; rb; lra. Qed.
Lemma between_left b c : between b c b. Proof. apply between_iff. lra. Qed.

Lemma rootLoop_ok F lo hi abstol : forall n s pts r pts', inv F lo hi s -> (forall x, In x pts -> lo <= x <= hi) ->
  rootLoop F abstol n s pts = (r, pts') ->
  good F lo hi abstol r /\ (forall x, In x pts' -> lo <= x <= hi) /\ (length pts' <= n + length pts)%nat /\
  ((forall x, fst (F x) <> None) -> r <> None).
Proof.
  induction n as [|n IH]; intros s pts r pts' I P H.
  - cbn [rootLoop] in H. injection H as <- <-. destruct I as [Ib Ic If1 If2 _ _ Inz Is _]. split; [|split; [exact P|split; [lia|discriminate]]].
    cbn. split; [exact Ib|]. split; [exact Ic|]. split; [apply between_left|]. exists (fb s), (fc s). auto.
  - cbn [rootLoop] in H. cbv zeta in H. pose proof I as I0. destruct I as [Ib Ic If1 If2 Id1 Id2 Inz Is Il].
    set (tol := 1 / 2 * DBL_EPSILON * Rabs (sb s)) in *. set (m := 1 / 2 * (sc s - sb s)) in *.
    assert (Ep : 0 < DBL_EPSILON) by (apply Rinv_0_lt_compat, pow_lt; lra).
    assert (T0 : 0 <= tol) by (unfold tol; pose proof (Rabs_pos (sb s)); apply Rmult_le_pos; lra).
    destruct (_ || _)%bool eqn:St in H.
    { injection H as <- <-. split; [|split; [exact P|split; [lia|discriminate]]]. cbn. split; [exact Ib|]. split; [exact Ic|]. split; [apply between_left|]. exists (fb s), (fc s). split; [exact If1|]. split; [exact If2|]. split; [exact Is|].
      rb. destruct St as [St|St]; rb; [left; assumption|right; split; [reflexivity|]]. replace (sc s - sb s) with (2 * m) by (unfold m; field). rewrite Rabs_mult, (Rabs_right 2) by lra. unfold tol in r. lra. }
    rb. assert (Am : tol < Rabs m) by lra. assert (Sg : fb s * fc s < 0). { destruct Is as [Is|Is]; [exact Is|]. apply Rmult_integral in Is. destruct Is; contradiction. }
    destruct (chooseStep s m tol) as [d e] eqn:Ch. assert (M2 : sc s - sb s = 2 * m) by (unfold m; field). pose proof (choose_between s m tol d e M2 Sg Ch) as Bd.
    set (b := if Rlt_b tol (Rabs d) then sb s + d else sb s + (if Rlt_b 0 m then tol else - tol)) in *.
    assert (Bb : between (sb s) (sc s) b).
    { unfold b. destruct (Rlt_b tol (Rabs d)) eqn:L; [exact Bd|]. apply between_iff. destruct (Rlt_b 0 m) eqn:Lm; rb.
      - rewrite Rabs_right in Am by lra. lra.
      - rewrite Rabs_left1 in Am by lra. lra. }
    assert (Rb : lo <= b <= hi) by (apply (between_within lo hi _ _ _ Ib Ic Bb)).
    assert (P' : forall x, In x (b :: pts) -> lo <= x <= hi) by (intros x [<-|Hx]; [exact Rb|apply P, Hx]).
    destruct (F b) as [[fbn|] dbn] eqn:Fb.
    2:{ injection H as <- <-. split; [exact Logic.I|]. split; [exact P'|]. split; [cbn [length]; lia|]. intros Tot. exfalso. apply (Tot b). rewrite Fb. reflexivity. }
    set (s2 := if (Rlt_b fbn 0 && Rlt_b (fc s) 0 || Rlt_b 0 fbn && Rlt_b 0 (fc s))%bool then _ else _) in H.
    assert (I3 : inv F lo hi (swapBC s2)).
    { unfold s2. destruct (_ || _)%bool eqn:Sw.
      - apply swap_inv; cbn [sb sc fb fc db dc]; try assumption; [rewrite Fb; reflexivity|rewrite Fb; reflexivity|].
        rb. destruct Sw as [Sw|Sw]; rb; nra.
      - apply swap_inv; cbn [sb sc fb fc db dc]; try assumption; [rewrite Fb; reflexivity|rewrite Fb; reflexivity|].
        apply Bool.orb_false_iff in Sw. destruct Sw as [S1 S2].
        destruct (Rlt_dec fbn 0) as [L|L]; [rewrite (Rlt_b_t fbn 0 L) in S1; cbn [andb] in S1; rb; nra|].
        destruct (Rlt_dec 0 fbn) as [L'|L']; [rewrite (Rlt_b_t 0 fbn L') in S2; cbn [andb] in S2; rb; nra|]. assert (fbn = 0) by lra. subst. lra. }
    set (s3 := swapBC s2) in *. clearbody s3. clear s2.
    destruct (Rle_b (Rabs (sb s3 - sc s3)) abstol) eqn:Cv.
    { injection H as <- <-. split; [|split; [exact P'|split; [cbn [length]; lia|discriminate]]]. destruct I3 as [J1 J2 J3 J4 J5 J6 J7 J8 J9]. cbn. split; [exact J1|]. split; [exact J2|]. rb.
      split; [destruct (bracketed _ _ _) eqn:Bk; [apply bracketed_between, Bk|apply between_left]|]. exists (fb s3), (fc s3). auto. }
    destruct (match db s3 with DNan | _ => _ end) as [x|] eqn:Nw in H.
    { injection H as <- <-. split; [|split; [exact P'|split; [cbn [length]; lia|discriminate]]]. destruct I3 as [J1 J2 J3 J4 J5 J6 J7 J8 J9].
      destruct (db s3) as [| |fd] eqn:Ed; try discriminate. destruct (Req_b fd 0) eqn:Z; [discriminate|]. destruct (_ && _)%bool eqn:Bk in Nw; [|discriminate]. injection Nw as <-. apply Bool.andb_true_iff in Bk. destruct Bk as [Bk Lt]. rb.
      cbn. split; [exact J1|]. split; [exact J2|]. split; [apply bracketed_between, Bk|]. exists (fb s3), (fc s3). split; [exact J3|]. split; [exact J4|]. split; [exact J8|]. 
      replace (sb s3 + - fb s3 / fd - sb s3) with (- fb s3 / fd) by ring. split; [assumption|]. exists fd. split; [exact J5|]. field. assumption. }
    destruct (IH s3 (b :: pts) r pts' I3 P' H) as [G1 [G2 [G3 G4]]]. split; [exact G1|]. split; [exact G2|]. split; [cbn [length] in G3; lia|exact G4].
Qed.
