(** Property C34: findRoot (exact arithmetic, arbitrary function). *)
From Coq Require Import Reals Lra List Psatz Lia.
From Coquelicot Require Import Coquelicot.
From Verif Require Import PolyProofs RootModel RootProofs.
Local Open Scope R_scope.

(** the number returned to the caller: None = NAN *)
Definition answer (r : result) : option R := match fst r with Some (x, _, _, _) => Some x | None => None end.
(** the points where the user's function was evaluated *)
Definition evaluations (r : result) : list R := snd r.

(** endpoints that are not finite or have the same non-zero sign: NAN, after two evaluations *)
Theorem C34_no_bracket_is_reported F x1 x2 tol :
  (fst (F x1) = None \/ fst (F x2) = None \/ exists f1 f2, fst (F x1) = Some f1 /\ fst (F x2) = Some f2 /\ 0 < f1 * f2) ->
  answer (findRoot F x1 x2 tol) = None /\ length (evaluations (findRoot F x1 x2 tol)) = 2%nat.
Proof.
  intros H. unfold findRoot, answer, evaluations. destruct (F x1) as [[f1|] d1]; [|auto]. destruct (F x2) as [[f2|] d2]; [|auto]. cbn [fst] in H.
  destruct H as [H|[H|[g1 [g2 [E1 [E2 H]]]]]]; try discriminate. injection E1 as ->. injection E2 as ->.
  assert (S : (g1 < 0 /\ g2 < 0) \/ (0 < g1 /\ 0 < g2)) by (destruct (Rtotal_order g1 0) as [?|[?|?]]; [left; split; [assumption|nra]|nra|right; split; [assumption|nra]]).
  destruct S as [[A B]|[A B]].
  - rewrite (Rlt_b_t g1 0 A), (Rlt_b_t g2 0 B). auto.
  - rewrite (Rlt_b_t 0 g1 A), (Rlt_b_t 0 g2 B), Bool.orb_true_r. auto.
Qed.

(** For any function whatsoever: never more than 2+64 evaluations, all within the interval; an answer lies in the interval, inside a final pair of
    points [b,c] where the function has values of opposite sign (or zero); and a totally finite function with a sign change always yields an answer. *)
Theorem C34_answer_is_bracketed F x1 x2 reltol :
  let r := findRoot F x1 x2 reltol in
  (forall x, In x (evaluations r) -> Rmin x1 x2 <= x <= Rmax x1 x2) /\
  (length (evaluations r) <= 66)%nat /\
  (forall x, answer r = Some x ->
     exists b c fb fc, Rmin x1 x2 <= b <= Rmax x1 x2 /\ Rmin x1 x2 <= c <= Rmax x1 x2 /\ Rmin b c <= x <= Rmax b c /\
       fst (F b) = Some fb /\ fst (F c) = Some fc /\ fb * fc <= 0) /\
  ((forall x, fst (F x) <> None) -> (forall f1 f2, fst (F x1) = Some f1 -> fst (F x2) = Some f2 -> f1 * f2 <= 0) -> answer r <> None).
Proof.
  intros r.
  assert (R1 : Rmin x1 x2 <= x1 <= Rmax x1 x2) by (unfold Rmin, Rmax; destruct (Rle_dec x1 x2); lra).
  assert (R2 : Rmin x1 x2 <= x2 <= Rmax x1 x2) by (unfold Rmin, Rmax; destruct (Rle_dec x1 x2); lra).
  assert (P : forall x, In x (x2 :: x1 :: nil) -> Rmin x1 x2 <= x <= Rmax x1 x2) by (intros x [<-|[<-|[]]]; assumption).
  assert (G : good F (Rmin x1 x2) (Rmax x1 x2) (Rabs (x1 - x2) * reltol) (fst r) /\ (forall x, In x (snd r) -> Rmin x1 x2 <= x <= Rmax x1 x2) /\ (length (snd r) <= 66)%nat /\
    ((forall x, fst (F x) <> None) -> (forall f1 f2, fst (F x1) = Some f1 -> fst (F x2) = Some f2 -> f1 * f2 <= 0) -> fst r <> None)).
  { unfold r, findRoot. destruct (F x1) as [[f1|] d1] eqn:E1.
    2:{ cbn [fst snd good]. split; [exact Logic.I|]. split; [exact P|]. split; [cbn; lia|]. intros T. exfalso. apply (T x1). rewrite E1. reflexivity. }
    destruct (F x2) as [[f2|] d2] eqn:E2.
    2:{ cbn [fst snd good]. split; [exact Logic.I|]. split; [exact P|]. split; [cbn; lia|]. intros T. exfalso. apply (T x2). rewrite E2. reflexivity. }
    destruct (_ || _)%bool eqn:Sg.
    { cbn [fst snd good]. split; [exact Logic.I|]. split; [exact P|]. split; [cbn; lia|]. intros _ T. exfalso. specialize (T f1 f2 eq_refl eq_refl). rb. destruct Sg as [Sg|Sg]; rb; nra. }
    assert (B1 : between x1 x2 x1) by apply between_left.
    destruct (Req_b f1 0) eqn:Z1.
    { assert (f1 = 0) by (rb; assumption). subst f1. destruct (Req_b f2 0) eqn:Z2; cbn [fst snd good]; (split; [|split; [exact P|split; [cbn; lia|discriminate]]]); (split; [exact R1|split; [exact R2|split]]).
      - apply between_iff. lra.
      - exists 0, f2. rewrite E1, E2. repeat split; [lra|left; reflexivity].
      - exact B1.
      - exists 0, f2. rewrite E1, E2. repeat split; [lra|left; reflexivity]. }
    destruct (Req_b f2 0) eqn:Z2.
    { assert (f2 = 0) by (rb; assumption). subst f2. cbn [fst snd good]. split; [|split; [exact P|split; [cbn; lia|discriminate]]]. split; [exact R2|split; [exact R1|split; [apply between_left|]]].
      exists 0, f1. rewrite E1, E2. repeat split; [lra|left; reflexivity]. }
    destruct (rootLoop F _ MAXITER _ _) as [r0 pts'] eqn:L.
    assert (I : inv F (Rmin x1 x2) (Rmax x1 x2) (swapBC {| sa := x1; sb := x2; sc := x1; fa := f1; fb := f2; fc := f1; da := d1; db := d2; dc := d1; sd := x2 - x1; se := x2 - x1 |})).
    { apply swap_inv; cbn [sb sc fb fc db dc]; try assumption; [rewrite E2|rewrite E1|rewrite E2|rewrite E1| |]; try reflexivity; [rb; assumption|].
      apply Bool.orb_false_iff in Sg. destruct Sg as [S1 S2].
      destruct (Rlt_dec f1 0) as [A|A]; [rewrite (Rlt_b_t f1 0 A) in S1; cbn [andb] in S1; rb; nra|].
      destruct (Rlt_dec 0 f1) as [A'|A']; [rewrite (Rlt_b_t 0 f1 A') in S2; cbn [andb] in S2; rb; nra|]. assert (f1 = 0) by lra. subst. lra. }
    destruct (rootLoop_ok F _ _ _ MAXITER _ _ _ _ I P L) as [G1 [G2 [G3 G4]]]. cbn [fst snd]. split; [exact G1|]. split; [exact G2|]. split; [exact G3|]. intros T _. apply G4, T. }
  destruct G as [G1 [G2 [G3 G4]]]. split; [exact G2|]. split; [exact G3|]. split.
  - intros x A. unfold answer in A. destruct (fst r) as [[[[x' why] b] c]|]; [|discriminate]. injection A as ->. destruct G1 as [A1 [A2 [A3 [fb0 [fc0 [A4 [A5 [A6 _]]]]]]]]. exists b, c, fb0, fc0. auto 10.
  - intros T S A. apply (G4 T S). unfold answer in A. destruct (fst r) as [[[[x' why] b] c]|]; [discriminate|reflexivity].
Qed.

(** For a continuous function with a sign change: the final pair contains a root; how close the answer is depends on the stopping rule:
    bracketing: within the requested tolerance; exact: function value zero at the answer or within one ulp-like distance; Newton: the last correction is smaller than the tolerance *)
Theorem C34_continuous_root (g : R -> R) der (x1 x2 reltol : R) : (forall x, continuous g x) -> g x1 * g x2 < 0 ->
  exists x why b c, fst (findRoot (fun x => (Some (g x), der x)) x1 x2 reltol) = Some (x, why, b, c) /\
   exists z, Rmin b c <= z <= Rmax b c /\ Rmin x1 x2 <= z <= Rmax x1 x2 /\ g z = 0 /\
   match why with
   | Exact => g x = 0 \/ Rabs (x - z) <= / 2 ^ 52 * Rabs x
   | Bracket => Rabs (x - z) <= reltol * Rabs (x1 - x2)
   | Newton => Rabs (x - b) < reltol * Rabs (x1 - x2) /\ exists d, der b = DFin d /\ g b + d * (x - b) = 0
   | MaxIter => length (evaluations (findRoot (fun x => (Some (g x), der x)) x1 x2 reltol)) = 66%nat
   end.
Proof.
  intros C S. set (F := fun x => (Some (g x), der x)).
  assert (R1 : Rmin x1 x2 <= x1 <= Rmax x1 x2) by (unfold Rmin, Rmax; destruct (Rle_dec x1 x2); lra).
  assert (R2 : Rmin x1 x2 <= x2 <= Rmax x1 x2) by (unfold Rmin, Rmax; destruct (Rle_dec x1 x2); lra).
  assert (P : forall x, In x (x2 :: x1 :: nil) -> Rmin x1 x2 <= x <= Rmax x1 x2) by (intros x [<-|[<-|[]]]; assumption).
  assert (N1 : g x1 <> 0) by (intros E; rewrite E in S; lra). assert (N2 : g x2 <> 0) by (intros E; rewrite E in S; lra).
  unfold findRoot. unfold F. cbv beta iota.
  replace ((Rlt_b (g x1) 0 && Rlt_b (g x2) 0 || Rlt_b 0 (g x1) && Rlt_b 0 (g x2))%bool) with false.
  2:{ symmetry. apply Bool.orb_false_iff. destruct (Rlt_dec (g x1) 0); [rewrite (Rlt_b_f (g x2) 0) by nra; rewrite (Rlt_b_f 0 (g x1)) by lra|rewrite (Rlt_b_f (g x1) 0) by lra; rewrite (Rlt_b_f 0 (g x2)) by nra]; split; try reflexivity; apply Bool.andb_false_r. }
  rewrite (Req_b_f _ _ N1), (Req_b_f _ _ N2). fold F.
  set (s0 := swapBC _). destruct (rootLoop F (Rabs (x1 - x2) * reltol) MAXITER s0 (x2 :: x1 :: nil)) as [r pts] eqn:L.
  assert (I : inv F (Rmin x1 x2) (Rmax x1 x2) s0).
  { unfold s0. apply swap_inv; cbn [sb sc fb fc db dc]; try assumption; try reflexivity. lra. }
  destruct (rootLoop_ok F _ _ _ MAXITER _ _ _ _ I P L) as [G1 [G2 [G3 G4]]].
  destruct r as [[[[x why] b] c]|]; [|exfalso; apply G4; [discriminate|reflexivity]].
  exists x, why, b, c. split; [reflexivity|]. destruct G1 as [A1 [A2 [A3 [fb0 [fc0 [A4 [A5 [A6 A7]]]]]]]].
  unfold F in A4, A5. cbn [fst] in A4, A5. injection A4 as <-. injection A5 as <-.
  (* intermediate value theorem between b and c *)
  assert (IV : exists z, Rmin b c <= z <= Rmax b c /\ g z = 0).
  { destruct (Req_dec (g b) 0) as [E|E]; [exists b; split; [apply between_left|exact E]|]. destruct (Req_dec (g c) 0) as [E'|E']; [exists c; split; [apply between_sym, between_left|exact E']|].
    assert (Cg : continuity g) by (intros y; apply continuity_pt_filterlim, C).
    assert (Lt : forall u v, u < v -> g u * g v < 0 -> exists z, u <= z <= v /\ g z = 0).
    { intros u v U V. destruct (Rlt_dec (g u) 0) as [H|H].
      - destruct (IVT g u v Cg U H ltac:(nra)) as [z [Z1 Z2]]. eauto.
      - destruct (IVT (fun t => - g t) u v (continuity_opp g Cg) U) as [z [Z1 Z2]]; [|nra|]; [assert (g u <> 0) by (intros E0; rewrite E0 in V; lra); lra|]. exists z. split; [exact Z1|lra]. }
    assert (Sb : g b * g c < 0) by (destruct A6 as [A6|A6]; [exact A6|apply Rmult_integral in A6; tauto]).
    destruct (Rtotal_order b c) as [H|[H|H]].
    - destruct (Lt b c H Sb) as [z [Z1 Z2]]. exists z. split; [|exact Z2]. rewrite Rmin_left, Rmax_right by lra. exact Z1.
    - subst. nra.
    - destruct (Lt c b H ltac:(lra)) as [z [Z1 Z2]]. exists z. split; [|exact Z2]. rewrite Rmin_right, Rmax_left by lra. exact Z1. }
  destruct IV as [z [Z1 Z2]].
  assert (Dist : Rabs (x - z) <= Rabs (c - b)). { apply between_iff in A3. change (between b c z) in Z1. apply between_iff in Z1. unfold Rabs. destruct (Rcase_abs (x - z)), (Rcase_abs (c - b)); lra. }
  destruct why.
  - destruct A7 as [A7|[A7 A8]].
    + (* value zero at b: the answer is b itself *)
      exists z. split; [exact Z1|]. split; [apply (between_within _ _ _ _ _ A1 A2 Z1)|]. split; [exact Z2|].
      assert (X : x = b \/ Rabs (c - b) <= 0). { clear - L. revert L. generalize (x2 :: x1 :: nil). generalize s0. generalize MAXITER.
        induction n as [|n IH]; intros s l L; cbn [rootLoop] in L; cbv zeta in L; [injection L as <- ; left; congruence|].
        destruct (_ || _)%bool in L; [injection L as <- <- <- <-; left; reflexivity|]. destruct (chooseStep _ _ _) in L. destruct (F _) as [[fbn|] dbn] in L; [|discriminate].
        destruct (Rle_b _ _) in L; [discriminate|]. destruct (match db _ with DNan | _ => _ end) in L; [discriminate|]. apply (IH _ _ L). }
      destruct X as [->|X]; [left; exact A7|right]. pose proof (Rabs_pos x). pose proof (Rinv_0_lt_compat (2 ^ 52) ltac:(apply pow_lt; lra)). pose proof (Rabs_pos (x - z)). nra.
    + exists z. split; [exact Z1|]. split; [apply (between_within _ _ _ _ _ A1 A2 Z1)|]. split; [exact Z2|]. right. rewrite A7 in *. unfold DBL_EPSILON in A8. lra.
  - exists z. split; [exact Z1|]. split; [apply (between_within _ _ _ _ _ A1 A2 Z1)|]. split; [exact Z2|]. rewrite (Rmult_comm reltol). rewrite (Rabs_minus_sym c b) in Dist. lra.
  - exists z. split; [exact Z1|]. split; [apply (between_within _ _ _ _ _ A1 A2 Z1)|]. split; [exact Z2|]. destruct A7 as [A7 [d [A8 A9]]]. split; [rewrite Rmult_comm; exact A7|]. exists d. split; [exact A8|exact A9].
  - exists z. split; [exact Z1|]. split; [apply (between_within _ _ _ _ _ A1 A2 Z1)|]. split; [exact Z2|]. unfold evaluations. cbn [snd].
    (* the iteration limit: exactly one evaluation per iteration *)
    assert (K : forall n s l, rootLoop F (Rabs (x1 - x2) * reltol) n s l = (Some (x, MaxIter, b, c), pts) -> length pts = (n + length l)%nat).
    { clear. induction n as [|n IH]; intros s l L; cbn [rootLoop] in L; cbv zeta in L; [injection L; intros; subst; reflexivity|].
      destruct (_ || _)%bool in L; [discriminate|]. destruct (chooseStep _ _ _) in L. destruct (F _) as [[fbn|] dbn] in L; [|discriminate].
      destruct (Rle_b _ _) in L; [discriminate|]. destruct (match db _ with DNan | _ => _ end) in L; [discriminate|]. apply IH in L. rewrite L. cbn [length]. lia. }
    apply (K _ _ _ L).
Qed.

(** when both endpoints are roots the midpoint is returned, which need not be a root *)
Theorem C34_both_endpoints_zero_refuted : exists g : R -> R, (forall x, continuous g x) /\ answer (findRoot (fun x => (Some (g x), DNan)) 0 1 (1 / 1000)) = Some (1 / 2 * (0 + 1)) /\ g (1 / 2 * (0 + 1)) <> 0.
Proof.
  exists (fun x => x * (1 - x)). split; [intros x; apply (ex_derive_continuous (fun x => x * (1 - x))); auto_derive; exact Logic.I|]. split; [|lra].
  unfold findRoot. replace (0 * (1 - 0)) with 0 by ring. replace (1 * (1 - 1)) with 0 by ring. rewrite (Rlt_b_f 0 0), (Req_b_t 0 0) by lra. reflexivity.
Qed.
(** a concrete run: f(x)=x on [-1,3] *)
Example C34_case : (forall x, continuous (fun x : R => x) x) /\ (-1) * 3 < 0.
Proof. split; [intros; apply continuous_id|lra]. Qed.

Print Assumptions C34_no_bracket_is_reported. Print Assumptions C34_answer_is_bracketed. Print Assumptions C34_continuous_root. Print Assumptions C34_both_endpoints_zero_refuted.
