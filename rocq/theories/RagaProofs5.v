From Coq Require Import Reals Lra Lia Bool List Arith Psatz.
From Verif Require Import RandReal PolyModel PolyProofs CoordModel DiskModel RagaModel RagaSpec RagaProofs OdeModel.
Import ListNotations.
Local Open Scope R_scope.

Lemma kick_spec v u dpar dper : dot3 v v <> 0 -> dot3 u u = 1 -> dot3 u v = 0 ->
  dot3 (kick v u dpar dper) v / sqrt (dot3 v v) = sqrt (dot3 v v) + dpar /\
  dot3 (kick v u dpar dper) u = dper /\
  dot3 (kick v u dpar dper) (kick v u dpar dper) = (sqrt (dot3 v v) + dpar) ^ 2 + dper ^ 2.
Proof.
  destruct v as [[v1 v2] v3]. destruct u as [[u1 u2] u3]. unfold kick, dot3, pow_2. intros Hv Hu Huv.
  assert (P : 0 < v1 * v1 + v2 * v2 + v3 * v3) by nra. set (s := sqrt (v1 * v1 + v2 * v2 + v3 * v3)).
  assert (Hs : 0 < s) by (apply sqrt_lt_R0; exact P). assert (Ss : v1 * v1 + v2 * v2 + v3 * v3 = s * s) by (symmetry; apply sqrt_sqrt; lra). clearbody s.
  split; [|split].
  - replace ((v1 + (v1 / s * dpar + u1 * dper)) * v1 + (v2 + (v2 / s * dpar + u2 * dper)) * v2 + (v3 + (v3 / s * dpar + u3 * dper)) * v3)
      with ((v1 * v1 + v2 * v2 + v3 * v3) * (1 + dpar / s) + dper * (u1 * v1 + u2 * v2 + u3 * v3)) by (field; lra).
    rewrite Huv, Ss. field. lra.
  - replace ((v1 + (v1 / s * dpar + u1 * dper)) * u1 + (v2 + (v2 / s * dpar + u2 * dper)) * u2 + (v3 + (v3 / s * dpar + u3 * dper)) * u3)
      with ((u1 * v1 + u2 * v2 + u3 * v3) * (1 + dpar / s) + dper * (u1 * u1 + u2 * u2 + u3 * u3)) by (field; lra).
    rewrite Huv, Hu. ring.
  - match goal with |- ?l = _ => replace l with ((v1 * v1 + v2 * v2 + v3 * v3) * (1 + dpar / s) ^ 2 + 2 * (1 + dpar / s) * dper * (u1 * v1 + u2 * v2 + u3 * v3) + dper ^ 2 * (u1 * u1 + u2 * u2 + u3 * u3)) by (field; lra) end.
    rewrite Huv, Hu, Ss. field. lra.
Qed.

Lemma energies_spec bh phi0 parts :
  let '(Ekin, Epot) := energies bh phi0 parts in
  Ekin = sumR (map (fun p => let '(m, v, e) := p in m * dot3 v v / 2) parts) /\
  Epot = (if Rlt_b 0 (bmass bh) then bmass bh * phi0 / 2 else 0) +
    (if Rlt_b 0 (bsma bh) then binaryEnergy (bmass bh) (bq bh) (1 / bsma bh) else 0) + sumR (map (fun p => let '(m, v, e) := p in m * e / 2) parts).
Proof.
  unfold energies. cbv zeta. assert (H05 : 0.5 = 1 / 2) by lra. rewrite H05.
  assert (A : forall k : R * vec3 * R -> R, sumR (map (fun p => fst (fst p) * (k p + snd p * (1 / 2))) parts) = sumR (map (fun p => fst (fst p) * k p) parts) + sumR (map (fun p => fst (fst p) * snd p) parts) / 2).
  { intros k. unfold sumR. induction parts as [|p parts IH]; cbn; [lra|]. rewrite IH. lra. }
  assert (B : forall k : R * vec3 * R -> R, sumR (map (fun p => fst (fst p) * (k p + snd p)) parts) = sumR (map (fun p => fst (fst p) * k p) parts) + sumR (map (fun p => fst (fst p) * snd p) parts)).
  { intros k. unfold sumR. clear. induction parts as [|p parts IH]; cbn; [ring|]. rewrite IH. ring. }
  rewrite A, B.
  assert (C : sumR (map (fun p : R * vec3 * R => let '(m, v, e) := p in m * e / 2) parts) = sumR (map (fun p => fst (fst p) * snd p) parts) / 2).
  { unfold sumR. clear. induction parts as [|[[m v] e] parts IH]; cbn; [field|]. rewrite IH. field. }
  assert (D : sumR (map (fun p : R * vec3 * R => let '(m, v, e) := p in m * dot3 v v / 2) parts) =
    sumR (map (fun p : R * vec3 * R => fst (fst p) * (let '(m, (vx, vy, vz), e) := p in (pow_2 vx + pow_2 vy + pow_2 vz) * (1 / 2))) parts)).
  { f_equal. apply map_ext. intros [[m [[x y] z]] e]. unfold dot3, pow_2. cbn. field. }
  rewrite C, D. split; [field|].
  assert (E : (if Rlt_b 0 (bsma bh) then binaryEnergy (bmass bh) (bq bh) (1 / bsma bh) else 0) = - (if Rlt_b 0 (bsma bh) then 1 / 2 * pow_2 (bmass bh) / bsma bh * bq bh / pow_2 (1 + bq bh) else 0)).
  { destruct (Rlt_b 0 (bsma bh)); [|ring]. unfold binaryEnergy, mass1, mass2, pow_2, Rdiv. rewrite Rinv_mult. ring. }
  rewrite E. destruct (Rlt_b 0 (bmass bh)); field.
Qed.

(** the state of the orbit after the capture (raga_losscone.cpp:98): the solver is re-initialized in the middle of the step, and its solution is
    evaluated at the end of the step (orbit.cpp:73) *)
Lemma captured_position N rhs accAbs pw s captured tperi i : (i < N)%nat -> d_timePrev s < tperi < d_time s ->
  dopGetSol N (dop_init N rhs accAbs pw captured (Some tperi) s) (d_time s) i =
  dopGetSol N s (d_timePrev s + (d_time s - d_timePrev s) ^ 2 / (tperi - d_timePrev s)) i.
Proof.
  intros Hi Ht. unfold dop_init, dopGetSol. cbv zeta. cbn [d_time d_timePrev d_x d_rc1 d_rc2 d_rc3 d_rc4 d_rc5 d_rc6 d_rc7 d_rc8].
  assert (E : Nat.leb N i = false) by (apply Nat.leb_gt; exact Hi). rewrite E. set (t0 := d_timePrev s) in *. set (t1 := d_time s) in *.
  rewrite (Req_b_f t1 tperi) by lra. rewrite (Req_b_f t1 t0) by lra.
  assert (P : t1 - t0 < (t1 - t0) ^ 2 / (tperi - t0)).
  { apply Rmult_lt_reg_r with (tperi - t0); [lra|]. unfold Rdiv. rewrite Rmult_assoc, Rinv_l by lra. nra. }
  rewrite !Req_b_f by lra.
  replace ((t0 + (t1 - t0) ^ 2 / (tperi - t0) - t0) / (t1 - t0)) with ((t1 - t0) / (tperi - t0)) by (field; lra). reflexivity.
Qed.
(** a star moving uniformly along the first axis: x = t in the timestep from 0 to 1 *)
Definition uniformState : dop := mkDop 1 0 1 (fun _ => 1) zerov zerov (fun _ => 1) zerov zerov zerov zerov zerov zerov.
Lemma uniformState_sol t : dopGetSol 6 uniformState t 0 = Some t.
Proof.
  unfold dopGetSol, uniformState. cbn [Nat.leb d_time d_timePrev d_x d_rc1 d_rc2 d_rc3 d_rc4 d_rc5 d_rc6 d_rc7 d_rc8]. unfold zerov.
  destruct (Req_EM_T t 1) as [->|N1]; [rewrite Req_b_t by reflexivity; reflexivity|]. rewrite Req_b_f by exact N1.
  destruct (Req_EM_T t 0) as [->|N0]; [rewrite Req_b_t by reflexivity; reflexivity|]. rewrite Req_b_f by exact N0.
  f_equal. field.
Qed.
