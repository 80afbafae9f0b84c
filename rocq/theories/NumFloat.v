(** Round trip of binary64 numbers through strings with at least 17 significant digits. *)
From Verif Require Import FloatBase.
From Verif Require Import NumFmtModel NumFmtProofs.
From Coq Require Import Qreals.
Local Open Scope Z_scope.
Local Open Scope R_scope.

(** the exact rational value of a finite double *)
Definition B2Q (x : double) : Q :=
  match x with
  | B754_finite s m e _ => (inject_Z (if s then Zneg m else Zpos m) * Qpower (2 # 1) e)%Q
  | _ => 0%Q
  end.

Lemma Q2R_pow2 e : Q2R (Qpower (2 # 1) e) = bpow radix2 e.
Proof.
  assert (K : forall p, Q2R (Qpower (2 # 1) (Zpos p)) = IZR (2 ^ Zpos p)).
  { intros p. rewrite <- (Qeq_eqR (inject_Z (2 ^ Zpos p)) (Qpower (2 # 1) (Zpos p)) (Zpower_Qpower 2 (Zpos p) ltac:(lia))). unfold Q2R, inject_Z. cbn [Qnum Qden].
    rewrite Rinv_1, Rmult_1_r. reflexivity. }
  destruct e as [|p|p].
  - cbn. unfold Q2R. cbn. lra.
  - rewrite K. reflexivity.
  - change (Qpower (2 # 1) (Zneg p)) with (/ Qpower (2 # 1) (Zpos p))%Q. rewrite Q2R_inv.
    + rewrite K. reflexivity.
    + apply Qpower_not_0_positive. discriminate.
Qed.
Lemma Q2R_inject z : Q2R (inject_Z z) = IZR z.
Proof. unfold Q2R, inject_Z. cbn [Qnum Qden]. rewrite Rinv_1, Rmult_1_r. reflexivity. Qed.
Lemma B2Q_R (x : double) : Q2R (B2Q x) = B2R x.
Proof.
  destruct x as [s|s| |s m e H]; try (cbn; unfold Q2R; cbn; lra).
  cbn [B2Q B2R]. rewrite Q2R_mult, Q2R_pow2, Q2R_inject. unfold F2R. cbn [Fnum Fexp]. destruct s; reflexivity.
Qed.
Lemma Q2R_abs q : Q2R (Qabs q) = Rabs (Q2R q).
Proof.
  destruct (Qlt_le_dec q 0) as [H|H].
  - rewrite (Qeq_eqR _ _ (Qabs_neg q (Qlt_le_weak _ _ H))), Q2R_opp. apply Qlt_Rlt in H. rewrite RMicromega.Q2R_0 in H.
    rewrite Rabs_left; lra.
  - rewrite (Qeq_eqR _ _ (Qabs_pos q H)). apply Qle_Rle in H. rewrite RMicromega.Q2R_0 in H. rewrite Rabs_pos_eq; lra.
Qed.
Lemma p10_m324 : Q2R (p10 (-324)) <= bpow radix2 (-1074).
Proof.
  rewrite <- Q2R_pow2. apply Qle_Rle. apply Qle_bool_iff. vm_compute. reflexivity.
Qed.
Lemma p10_309 : bpow radix2 1024 <= Q2R (p10 309).
Proof. rewrite <- Q2R_pow2. apply Qle_Rle. apply Qle_bool_iff. vm_compute. reflexivity. Qed.
Lemma B2Q_range (x : double) : in_double_range (B2Q x).
Proof.
  destruct (is_finite_strict x) eqn:F.
  - right. split.
    + apply Rle_Qle. rewrite Q2R_abs, B2Q_R. eapply Rle_trans; [apply p10_m324|]. exact (abs_B2R_ge_emin fprec femax x F).
    + apply Rlt_Qlt. rewrite Q2R_abs, B2Q_R. eapply Rlt_le_trans; [|apply p10_309]. apply abs_B2R_lt_emax.
  - left. destruct x; try reflexivity. discriminate.
Qed.

(** a real closer to the double x than 2^-54 |x| rounds to x *)
Lemma rnd_close_pos x y : generic_format radix2 fexp x -> 0 < x -> Rabs (y - x) < bpow radix2 (-54) * x -> rnd y = x.
Proof.
  intros F Hx H. assert (B : forall z, bpow radix2 (-54) * z = bpow radix2 (-53) * z / 2).
  { intros z. change (-54)%Z with (-53 + -1)%Z. rewrite bpow_plus. change (bpow radix2 (-1)) with (/ 2). field. }
  rewrite B in H. apply Rabs_lt_inv in H.
  assert (UL : forall z, z <> 0 -> bpow radix2 (mag radix2 z - 53) <= ulp radix2 fexp z).
  { intros z Hz. rewrite ulp_neq_0 by exact Hz. apply bpow_le. unfold cexp. rewrite fexp_is_FLT. unfold FLT_exp. lia. }
  apply Rle_antisym.
  - apply round_N_le_midp; try typeclasses eauto; [exact F|].
    rewrite succ_eq_pos by lra.
    assert (bpow radix2 (-53) * x <= ulp radix2 fexp x).
    { eapply Rle_trans; [|apply UL; lra]. unfold Zminus. rewrite bpow_plus, Rmult_comm. apply Rmult_le_compat_r; [apply bpow_ge_0|].
      pose proof (bpow_mag_gt radix2 x) as M. rewrite Rabs_pos_eq in M by lra. lra. }
    lra.
  - apply round_N_ge_midp; try typeclasses eauto; [exact F|].
    assert (P0 : 0 <= pred radix2 fexp x) by (apply pred_ge_0; [typeclasses eauto|exact Hx|exact F]).
    assert (G : bpow radix2 (-53) * x <= x - pred radix2 fexp x).
    { pose proof (pred_plus_ulp radix2 fexp x Hx F) as E.
      destruct (Rle_lt_or_eq_dec _ _ P0) as [P1|P1].
      - replace (x - pred radix2 fexp x) with (ulp radix2 fexp (pred radix2 fexp x)) by lra.
        eapply Rle_trans; [|apply UL; lra]. unfold Zminus. rewrite bpow_plus, Rmult_comm. apply Rmult_le_compat_r; [apply bpow_ge_0|].
        rewrite <- E at 1. apply id_p_ulp_le_bpow; try typeclasses eauto; [exact P1|apply generic_format_pred; [typeclasses eauto|exact F]|].
        pose proof (bpow_mag_gt radix2 (pred radix2 fexp x)) as M. rewrite Rabs_pos_eq in M by lra. exact M.
      - rewrite <- P1. rewrite Rminus_0_r. rewrite <- (Rmult_1_l x) at 2. apply Rmult_le_compat_r; [lra|].
        change 1 with (bpow radix2 0). apply bpow_le. lia. }
    lra.
Qed.
Lemma rnd_close c x y : generic_format radix2 fexp x -> c < bpow radix2 (-54) -> Rabs (y - x) <= c * Rabs x -> rnd y = x.
Proof.
  intros F C H. destruct (Rtotal_order x 0) as [L|[E|G]].
  - rewrite (Rabs_left x) in H by exact L.
    assert (K : rnd (- y) = - x).
    { apply rnd_close_pos; [apply generic_format_opp; exact F|lra|]. replace (- y - - x) with (- (y - x)) by ring. rewrite Rabs_Ropp.
      eapply Rle_lt_trans; [exact H|]. apply Rmult_lt_compat_r; lra. }
    rewrite round_NE_opp in K. lra.
  - subst. rewrite Rabs_R0, Rmult_0_r, Rminus_0_r in H. assert (y = 0). { destruct (Req_dec y 0) as [|N]; [assumption|]. apply Rabs_pos_lt in N. lra. }
    subst. apply rnd_0.
  - rewrite (Rabs_pos_eq x) in H by lra. apply rnd_close_pos; [assumption|assumption|]. eapply Rle_lt_trans; [exact H|]. apply Rmult_lt_compat_r; lra.
Qed.

Lemma double_string_roundtrip (w : Z) (x : double) : (17 <= w <= 92)%Z -> exists q,
  toDouble (toString_double w (B2Q x)) = Ok q /\ rnd (Q2R q) = B2R x.
Proof.
  intros Hw. destruct (toString_toDouble w (B2Q x) ltac:(lia) (B2Q_range x)) as (q & A & B & _).
  exists q. split; [exact A|].
  apply Qle_Rle in B. rewrite Q2R_abs, !Q2R_mult, Q2R_abs, Q2R_minus, B2Q_R in B.
  eapply rnd_close; [apply generic_format_B2R| |exact B].
  rewrite <- Q2R_pow2, <- Q2R_mult. apply Qlt_Rlt.
  apply Qle_lt_trans with ((1 # 2) * p10 (-16))%Q; [|vm_compute; reflexivity].
  rewrite !(Qmult_comm (1 # 2)). apply Qmult_le_compat_r; [|discriminate]. apply p10_le.
  unfold prec. destruct (Z.eqb_spec w 0); lia.
Qed.
