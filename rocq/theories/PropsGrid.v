(** Property C56: generation of grids. *)
From Coq Require Import Reals Lra Lia ZArith List Psatz.
From Flocq Require Import Core.
From Verif Require Import Arr PolyProofs RootModel RootProofs GridModel GridProofs GridProofs2 PropsRoot GridSpec SplineSpec.
Local Open Scope R_scope.

(** ---- uniform and logarithmic grids ---- *)
Theorem C56_uniform_grid : forall n a b,
  ((2 <= n)%Z -> a < b -> exists g, createUniformGrid n a b = Ok g /\ spans g n a b /\ equal_steps g) /\
  ((n < 2)%Z \/ b <= a -> createUniformGrid n a b = Throw).
Proof.
  intros n a b. split.
  - intros Hn Hab. destruct (uniform_ok n a b Hn Hab) as (g & E & L & V). assert (P : 0 < IZR (n - 1)) by (apply IZR_lt; lia). exists g. split; [exact E|]. split.
    + split; [exact L|]. rewrite !V by lia. split; [field; lra|]. split; [field; lra|]. apply inc_steps. intros i Hi. rewrite L in Hi. rewrite !V by lia. rewrite plus_IZR.
      replace (a + (b - a) * (IZR i + 1) / IZR (n - 1)) with (a + (b - a) * IZR i / IZR (n - 1) + (b - a) / IZR (n - 1)) by (field; lra). assert (0 < (b - a) / IZR (n - 1)) by (apply Rdiv_lt_0_compat; lra). lra.
    + intros i Hi. rewrite L in Hi. rewrite !V by lia. replace (i - 1)%Z with (i + -1)%Z by lia. rewrite !plus_IZR. field. lra.
  - intros [H|H]; unfold createUniformGrid; [rewrite (proj2 (Z.ltb_lt n 2) H); reflexivity|rewrite (Rle_b_t b a H), Bool.orb_true_r; reflexivity].
Qed.
Theorem C56_exp_grid : forall n a b,
  ((2 <= n)%Z -> 0 < a -> a < b -> exists g, createExpGrid n a b = Ok g /\ spans g n a b /\ equal_ratios g) /\
  ((n < 2)%Z \/ a <= 0 \/ b <= a -> createExpGrid n a b = Throw).
Proof.
  intros n a b. split.
  - intros Hn Ha Hab. destruct (exp_ok n a b Hn Ha Hab) as (g & E & L & G0 & G1 & V). assert (P : 0 < IZR (n - 1)) by (apply IZR_lt; lia). assert (LL : ln a < ln b) by (apply ln_increasing; lra). exists g. split; [exact E|]. split.
    + split; [exact L|]. split; [exact G0|]. split; [exact G1|]. apply inc_steps. intros i Hi. rewrite L in Hi. rewrite !V by lia. apply exp_increasing. rewrite plus_IZR.
      replace (ln a + (IZR i + 1) * (ln b - ln a) / IZR (n - 1)) with (ln a + IZR i * (ln b - ln a) / IZR (n - 1) + (ln b - ln a) / IZR (n - 1)) by (field; lra). assert (0 < (ln b - ln a) / IZR (n - 1)) by (apply Rdiv_lt_0_compat; lra). lra.
    + intros i Hi. rewrite L in Hi. rewrite !V by lia. assert (ED : forall x y, exp x / exp y = exp (x - y)) by (intros x y; unfold Rdiv, Rminus; rewrite exp_plus, exp_Ropp; reflexivity). rewrite !ED. f_equal. replace (i - 1)%Z with (i + -1)%Z by lia. rewrite !plus_IZR. field. lra.
  - intros H; unfold createExpGrid. destruct H as [H|[H|H]]; [rewrite (proj2 (Z.ltb_lt n 2) H); reflexivity|rewrite (Rle_b_t a 0 H), Bool.orb_true_r; reflexivity|rewrite (Rle_b_t b a H), !Bool.orb_true_r; reflexivity].
Qed.

(** ---- grid with growing steps ---- *)
(** The number of nonzero nodes is n; the last node is at least n times larger than the first one, as required by the documentation (the case of equality is the next
    theorem; here there is a gap of 0.1%), and the number of nodes is not too large.  Unless the root finder reaches the limit on the number of function evaluations,
    the grid spans the requested interval, is strictly increasing, its steps but the last one grow by the same factor q, and with this last step included the
    grid would end within xmax/n from xmax. *)
Theorem C56_nonuniform_grid_partial : forall nnodes a b (zeroelem : bool), let n := (if zeroelem then nnodes - 1 else nnodes)%Z in
  (3 <= n)%Z -> 0 < a -> 1001 / 1000 * IZR n * a <= b -> IZR n * (ln (b / a) + 3) <= 100000 -> length (evaluations (spacingFinder a b n)) <> 66%nat ->
  exists g h q, createNonuniformGrid nnodes a b zeroelem = Ok g /\ holds g h /\ spans h nnodes (if zeroelem then 0 else a) b /\ afn h (nnodes - n)%Z = a /\
    1 < q /\ growing_steps h (nnodes - 2) q /\
    Rabs (afn h (nnodes - 2)%Z + q * (afn h (nnodes - 2)%Z - afn h (nnodes - 3)%Z) - b) <= b / IZR n.
Proof.
  intros nnodes a b zeroelem n Hn Ha Hb Hlim Hev. set (r := b / a). set (m := Z.to_nat n). assert (Em : INR m = IZR n) by (unfold m; rewrite INR_IZR_INZ, Z2Nat.id by lia; reflexivity).
  assert (H3 : (3 <= m)%nat) by (unfold m; lia). assert (N3 : 3 <= IZR n) by (apply IZR_le; lia). assert (Er : b = r * a) by (unfold r; field; lra).
  assert (Hr : 1001 / 1000 * INR m <= r). { rewrite Em. apply Rmult_le_reg_r with a; [exact Ha|]. rewrite <- Er. exact Hb. }
  assert (HL : INR m * (ln r + 3) <= 100000) by (rewrite Em; exact Hlim). pose proof (nu_r m r H3 Hr) as R3. assert (M2 : INR m <= 25000) by (apply (nu_m2 m r H3 Hr HL)).
  assert (Nmax : (n <= 25000)%Z) by (apply le_IZR; rewrite <- Em; exact M2). assert (Hab : a < b) by nra.
  (* the root finder *)
  assert (EH : IZR ((n - 2) mod 2 ^ 32) = INR m - 2). { rewrite Z.mod_small by lia. rewrite minus_IZR, Em. reflexivity. }
  assert (LH : ln (1 - 1 / r) < ln r / (INR m - 2)). { pose proof (nu_lo m r H3 Hr). pose proof (nu_hi m r H3 Hr HL). assert (0 < 1 / r) by (apply Rdiv_lt_0_compat; lra). lra. }
  destruct (find_bracket (spacing r (INR m)) _ _ (1 / 10 ^ 6) LH (nu_neg m r H3 Hr) (nu_pos m r H3 Hr HL) ltac:(lra)) as (A & why & b' & c' & EF & _ & [K|(u & v & _ & _ & Hu & Hv & HA & Hd)]).
  { exfalso. apply Hev. unfold spacingFinder, evaluations. fold r. rewrite EH, <- Em. exact K. }
  change (Rabs (u - v) <= eps m r) in Hd. pose proof (nu_Apos m r H3 Hr HL A u v Hv HA Hd) as AP. pose proof (nu_below m r H3 Hr HL A u v Hu Hv HA Hd) as BL. pose proof (nu_close m r H3 Hr HL A u v Hu Hv HA Hd) as CL.
  assert (EA : 1 < exp A) by (rewrite <- exp_0; apply exp_increasing; exact AP).
  (* the function *)
  unfold createNonuniformGrid. set (is := (if zeroelem then 1 else 0)%Z). assert (In : (nnodes - is = n)%Z) by (unfold is, n; destruct zeroelem; lia). assert (Is : (is = 0 \/ is = 1)%Z) by (unfold is; destruct zeroelem; lia). rewrite In.
  rewrite Zlt_f, !Rle_b_f by (lia || lra). cbn [orb].
  assert (FC : fcmp0 (IZR n) (b / a) (1 / 10 ^ 12) = false).
  { rewrite Em in Hr. unfold fcmp0. fold r. apply Rle_b_f. rewrite (Rabs_left1 (IZR n - r)), (Rabs_right (IZR n)), (Rabs_right r), Rmax_right by lra. destruct (mag radix2 r) as [e He]. cbn. specialize (He ltac:(lra)). rewrite Rabs_right in He by lra.
    assert (bpow radix2 e <= 2 * r). { replace e with ((e - 1) + 1)%Z by lia. rewrite bpow_plus. cbn [bpow]. change (IZR (Z.pow_pos radix2 1)) with 2. lra. } lra. }
  rewrite FC. rewrite (proj2 (Z.eqb_neq n 2)) by lia. unfold spacingFinder. fold r. rewrite EH, <- Em, EF. rewrite (Req_b_f (exp A) 1) by lra.
  set (x := fun i => a / (exp A - 1) * (exp (A * IZR (i + 1)) - 1)).
  assert (XG : forall k : nat, a / (exp A - 1) * (exp (A * INR k) - 1) = a * GS k A) by (intros k; rewrite <- GS_formula; field; lra).
  assert (Eg : exists g0, (if zeroelem then aset (anew nnodes (Some 0)) 0 (Some 0) else Ok (anew nnodes (Some 0))) = Ok g0 /\ alen g0 = nnodes /\ afn g0 0%Z = Some 0).
  { destruct zeroelem; [rewrite aset_ok by (cbn; unfold is in In; lia)|]; eexists; (split; [reflexivity|]); split; reflexivity. }
  destruct Eg as (g0 & -> & L0 & Z0). cbn [bind].
  destruct (fill 0 n is (fun i => Some (x i)) g0) as (g & EG & LG & VG & OG); [lia..|]. unfold x in EG. rewrite EG. cbn [bind]. rewrite aset_ok by lia.
  set (h := mkArr nnodes (fun i => if (i =? nnodes - 1)%Z then b else a * GS (Z.to_nat (i + 1 - is)) A)).
  assert (EX : forall i, (0 <= i)%Z -> x i = a * GS (Z.to_nat (i + 1)) A). { intros i Hi. rewrite <- XG. unfold x. rewrite INR_IZR_INZ, Z2Nat.id by lia. reflexivity. }
  exists (mkArr (alen g) (upd (afn g) (n - 1 + is) (Some b))), h, (exp A). split; [reflexivity|].
  assert (HH : forall i, (0 <= i < nnodes - 1)%Z -> afn h i = a * GS (Z.to_nat (i + 1 - is)) A) by (intros i Hi; unfold h; cbn [afn]; rewrite (proj2 (Z.eqb_neq i (nnodes - 1))) by lia; reflexivity).
  assert (HN : afn h (nnodes - 1)%Z = b) by (unfold h; cbn [afn]; rewrite Z.eqb_refl; reflexivity).
  assert (STEP : forall i, (0 <= i)%Z -> (i + 1 - is >= 0)%Z -> a * GS (Z.to_nat (i + 1 + 1 - is)) A = a * GS (Z.to_nat (i + 1 - is)) A + a * exp (A * IZR (i + 1 - is))).
  { intros i Hi Hi2. replace (Z.to_nat (i + 1 + 1 - is)) with (S (Z.to_nat (i + 1 - is))) by lia. cbn [GS]. rewrite INR_IZR_INZ, Z2Nat.id by lia. ring. }
  split; [|split; [|split; [|split; [exact EA|split]]]].
  - split; [cbn; lia|]. cbn [alen afn]. intros i Hi. destruct (Z.eq_dec i (n - 1 + is)) as [-> | Ne]; [rewrite upd_same; replace (n - 1 + is)%Z with (nnodes - 1)%Z by lia; rewrite HN; reflexivity|]. rewrite upd_other by exact Ne. rewrite HH by lia.
    destruct (Z.eq_dec (i + 1) is) as [E1|E1]; [rewrite OG by lia; replace i with 0%Z by lia; rewrite Z0; replace (Z.to_nat (0 + 1 - is)) with 0%nat by lia; cbn [GS]; rewrite Rmult_0_r; reflexivity|].
    replace i with (i - is + is)%Z by lia. rewrite VG by lia. rewrite EX by lia. do 4 f_equal. lia.
  - split; [reflexivity|]. split; [|split; [exact HN|]].
    + rewrite HH by lia. unfold is. destruct zeroelem; [change (Z.to_nat (0 + 1 - 1)) with 0%nat|change (Z.to_nat (0 + 1 - 0)) with 1%nat]; cbn [GS INR]; [ring|]. rewrite Rmult_0_r, exp_0. ring.
    + apply inc_steps. change (alen h) with nnodes. intros i Hi. destruct (Z.eq_dec (i + 1) (nnodes - 1)) as [E1|E1].
      * rewrite E1, HN, HH by lia. rewrite Er. replace (Z.to_nat (i + 1 - is)) with (m - 1)%nat by (unfold m; lia). rewrite (Rmult_comm r). apply Rmult_lt_compat_l; assumption.
      * rewrite !HH by lia. rewrite STEP by lia. pose proof (exp_pos (A * IZR (i + 1 - is))). nra.
  - replace (nnodes - n)%Z with is by lia. rewrite HH by lia. replace (Z.to_nat (is + 1 - is)) with 1%nat by lia. cbn [GS INR]. rewrite Rmult_0_r, exp_0. ring.
  - intros i Hi. rewrite !HH by lia. rewrite STEP by lia. replace (a * GS (Z.to_nat (i + 1 - is)) A) with (a * GS (Z.to_nat (i - 1 + 1 + 1 - is)) A) by (do 3 f_equal; lia). rewrite STEP by lia. replace (i + 1 - is)%Z with (i - 1 + 1 - is + 1)%Z by lia. rewrite plus_IZR, Rmult_plus_distr_l, exp_plus, Rmult_1_r. ring.
  - rewrite !HH by lia. replace (Z.to_nat (nnodes - 2 + 1 - is)) with (Z.to_nat (nnodes - 3 + 1 + 1 - is)) by lia. rewrite STEP by lia. replace (exp A * _) with (a * (exp (A * IZR (nnodes - 3 + 1 - is)) * exp A)) by ring. rewrite <- exp_plus.
    replace (_ - b) with (a * (GS m A - r)).
    + rewrite Rabs_mult, (Rabs_right a) by lra. rewrite Er. replace (r * a / INR m) with (a * (r / INR m)) by (field; rewrite Em; lra). apply Rmult_le_compat_l; [lra|exact CL].
    + rewrite Er. replace m with (S (S (Z.to_nat (nnodes - 3 + 1 - is)))) by (unfold m; lia). cbn [GS]. rewrite S_INR, INR_IZR_INZ, Z2Nat.id by lia. rewrite Rmult_plus_distr_l, Rmult_1_r. ring.
Qed.
(** The equality case: the steps are equal. *)
Theorem C56_nonuniform_grid_equal : forall nnodes a (zeroelem : bool), let n := (if zeroelem then nnodes - 1 else nnodes)%Z in (2 <= n)%Z -> 0 < a ->
  exists g h, createNonuniformGrid nnodes a (IZR n * a) zeroelem = Ok g /\ holds g h /\ spans h nnodes (if zeroelem then 0 else a) (IZR n * a) /\ equal_steps h.
Proof.
  intros nnodes a zeroelem n Hn Ha. assert (N2 : 2 <= IZR n) by (apply IZR_le; lia). unfold createNonuniformGrid. set (is := (if zeroelem then 1 else 0)%Z). assert (In : (nnodes - is = n)%Z) by (unfold is, n; destruct zeroelem; lia). assert (Is : (is = 0 \/ is = 1)%Z) by (unfold is; destruct zeroelem; lia). rewrite In.
  rewrite Zlt_f, !Rle_b_f by (lia || nra). cbn [orb].
  assert (FC : fcmp0 (IZR n) (IZR n * a / a) (1 / 10 ^ 12) = true).
  { unfold fcmp0. replace (IZR n * a / a) with (IZR n) by (field; lra). replace (IZR n - IZR n) with 0 by ring. rewrite Rabs_R0. apply Rle_b_t. apply Rmult_le_pos; [lra|apply bpow_ge_0]. }
  rewrite FC. rewrite (proj2 (Z.eqb_neq n 1)) by lia.
  assert (Eg : exists g0, (if zeroelem then aset (anew nnodes (Some 0)) 0 (Some 0) else Ok (anew nnodes (Some 0))) = Ok g0 /\ alen g0 = nnodes /\ afn g0 0%Z = Some 0).
  { destruct zeroelem; [rewrite aset_ok by (cbn; unfold is in In; lia)|]; eexists; (split; [reflexivity|]); split; reflexivity. }
  destruct Eg as (g0 & -> & L0 & Z0). cbn [bind].
  destruct (fill 0 n is (fun i => Some (a + (IZR n * a - a) * IZR i / IZR (n - 1))) g0) as (g & EG & LG & VG & OG); [lia..|]. rewrite EG.
  assert (P : 0 < IZR (n - 1)) by (apply IZR_lt; lia). assert (VV : forall i, a + (IZR n * a - a) * IZR i / IZR (n - 1) = a * IZR (i + 1)) by (intros i; rewrite plus_IZR, minus_IZR in *; field; lra).
  exists g, (mkArr nnodes (fun i => a * IZR (i + 1 - is))). split; [reflexivity|]. split; [|split].
  - split; [cbn; lia|]. cbn [afn]. intros i Hi. destruct (Z.eq_dec (i + 1) is) as [E1|E1]; [rewrite OG by lia; replace i with 0%Z by lia; rewrite Z0; replace (0 + 1 - is)%Z with 0%Z by lia; rewrite Rmult_0_r; reflexivity|].
    replace i with (i - is + is)%Z at 1 by lia. rewrite VG, VV by lia. do 3 f_equal. lia.
  - split; [reflexivity|]. cbn [afn]. split; [unfold is; destruct zeroelem; cbn; ring|]. split; [replace (nnodes - 1 + 1 - is)%Z with n by lia; ring|]. apply inc_steps. cbn [afn]. intros i Hi. apply Rmult_lt_compat_l; [exact Ha|apply IZR_lt; lia].
  - intros i Hi. cbn [afn]. replace (i + 1 + 1 - is)%Z with (i + 1 - is + 1)%Z by lia. replace (i - 1 + 1 - is)%Z with (i + 1 - is + -1)%Z by lia. rewrite (plus_IZR (i + 1 - is) 1), (plus_IZR (i + 1 - is) (-1)). ring.
Qed.
Theorem C56_nonuniform_grid_rejects : forall nnodes a b zeroelem, (nnodes < 2)%Z \/ a <= 0 \/ b <= a -> createNonuniformGrid nnodes a b zeroelem = Throw.
Proof.
  intros nnodes a b zeroelem H; unfold createNonuniformGrid. destruct H as [H|[H|H]]; [rewrite (proj2 (Z.ltb_lt nnodes 2) H); reflexivity|rewrite (Rle_b_t a 0 H), Bool.orb_true_r; reflexivity|rewrite (Rle_b_t b a H), !Bool.orb_true_r; reflexivity].
Qed.
(** Two nonzero nodes cannot be requested (unless the second is twice the first), although the documentation allows any number of nodes >= 2; consequently,
    symmetric grids with 5 nodes cannot be created. *)
Theorem C56_two_nodes_refuted : forall a b, 0 < a -> 3 * a <= b ->
  createNonuniformGrid 2 a b false = Throw /\ createNonuniformGrid 3 a b true = Throw /\ createSymmetricGrid 5 a (Some b) = Throw.
Proof.
  intros a b Ha Hb.
  assert (FC : fcmp0 2 (b / a) (1 / 10 ^ 12) = false).
  { assert (R3 : 3 <= b / a). { apply Rmult_le_reg_r with a; [lra|]. replace (b / a * a) with b by (field; lra). lra. } set (r := b / a) in *.
    unfold fcmp0. apply Rle_b_f. rewrite (Rabs_left1 (2 - r)), (Rabs_right 2), (Rabs_right r), Rmax_right by lra. destruct (mag radix2 r) as [e He]. cbn. specialize (He ltac:(lra)). rewrite Rabs_right in He by lra.
    assert (bpow radix2 e <= 2 * r). { replace e with ((e - 1) + 1)%Z by lia. rewrite bpow_plus. cbn [bpow]. change (IZR (Z.pow_pos radix2 1)) with 2. lra. } lra. }
  assert (E3 : createNonuniformGrid 3 a b true = Throw).
  { unfold createNonuniformGrid. rewrite !Rle_b_f by lra. cbn [Z.ltb Z.compare orb]. change (3 - 1)%Z with 2%Z. rewrite FC. reflexivity. }
  split; [|split; [exact E3|]].
  - unfold createNonuniformGrid. rewrite !Rle_b_f by lra. cbn [Z.ltb Z.compare orb]. change (2 - 0)%Z with 2%Z. rewrite FC. reflexivity.
  - unfold createSymmetricGrid. change (5 mod 2 =? 1)%Z with true. cbv iota. change (5 / 2 + 1)%Z with 3%Z. rewrite E3. reflexivity.
Qed.

(** ---- symmetric grids ---- *)
Lemma mirror_ok g h : holds g h -> (1 <= alen h)%Z -> afn h 0%Z = 0 -> increasing h ->
  exists g' h', mirrorGrid g = Ok g' /\ holds g' h' /\ spans h' (2 * alen h - 1) (- afn h (alen h - 1)%Z) (afn h (alen h - 1)%Z) /\ symmetric h' /\
    forall i, (0 <= i < alen h)%Z -> afn h' (alen h - 1 + i)%Z = afn h i.
Proof.
  intros (L & V) Hn H0 Hi. set (n := alen h) in *. unfold mirrorGrid. rewrite L. rewrite (proj2 (Z.eqb_neq n 0)) by lia. rewrite aget_ok by lia. cbn [bind]. rewrite V by lia. rewrite H0, (Req_b_t 0 0 eq_refl). cbn [negb]. rewrite aset_ok by (cbn; lia). cbn [bind].
  set (h' := mkArr (2 * n - 1) (fun i => if (i <? n - 1)%Z then - afn h (n - 1 - i)%Z else afn h (i - (n - 1))%Z)).
  match goal with |- context [for_ 1 n ?f ?s] => destruct (for_total (fun k (o : arr (option R)) => alen o = (2 * n - 1)%Z /\ forall i, (n - 1 - k < i < n - 1 + k)%Z -> afn o i = Some (afn h' i)) 1 n f s) as (g' & -> & L' & V') end.
  - lia.
  - cbn [alen afn anew]. split; [lia|]. intros i Hk. replace i with (n - 1)%Z by lia. rewrite upd_same. unfold h'. cbn [afn]. rewrite Zlt_f by lia. rewrite Z.sub_diag, H0. reflexivity.
  - intros k o Hk (Lo & Vo). rewrite !aget_ok by lia. cbn [bind]. rewrite !V by lia. unfold nan_le. rewrite Rle_b_f by (pose proof (Hi (k - 1)%Z k ltac:(lia) ltac:(lia)); lra). rewrite aset_ok by lia. cbn [bind]. rewrite aset_ok by (cbn [alen]; lia). eexists. split; [reflexivity|]. cbn [alen afn]. split; [exact Lo|].
    intros i Hi2. destruct (Z.eq_dec i (n - 1 + k)) as [-> | N1]; [rewrite upd_same; unfold h'; cbn [afn]; rewrite Zlt_f by lia; do 2 f_equal; lia|]. rewrite upd_other by exact N1.
    destruct (Z.eq_dec i (n - 1 - k)) as [-> | N2]; [rewrite upd_same; unfold h', nan_opp; cbn [afn]; rewrite (proj2 (Z.ltb_lt _ _)) by lia; do 3 f_equal; lia|]. rewrite upd_other by exact N2. apply Vo. lia.
  - exists g', h'. split; [reflexivity|]. split; [split; [exact L'|intros i Hk; rewrite L' in Hk; apply V'; lia]|].
    assert (HP : forall i, (0 <= i < n)%Z -> afn h' (n - 1 + i)%Z = afn h i) by (intros i Hk; unfold h'; cbn [afn]; rewrite Zlt_f by lia; f_equal; lia).
    assert (HM : forall i, (0 <= i < n)%Z -> afn h' (n - 1 - i)%Z = - afn h i). { intros i Hk. destruct (Z.eq_dec i 0) as [-> | N]; [rewrite H0; replace (n - 1 - 0)%Z with (n - 1 + 0)%Z by lia; rewrite HP by lia; rewrite H0; ring|]. unfold h'. cbn [afn]. rewrite (proj2 (Z.ltb_lt _ _)) by lia. do 2 f_equal. lia. }
    split; [|split; [|exact HP]].
    + split; [reflexivity|]. split; [replace 0%Z with (n - 1 - (n - 1))%Z at 1 by lia; apply HM; lia|]. split; [replace (2 * n - 1 - 1)%Z with (n - 1 + (n - 1))%Z by lia; apply HP; lia|].
      apply inc_steps. change (alen h') with (2 * n - 1)%Z. intros i Hk. destruct (Z_lt_le_dec i (n - 1)) as [C|C].
      * replace i with (n - 1 - (n - 1 - i))%Z at 1 by lia. replace (i + 1)%Z with (n - 1 - (n - 2 - i))%Z by lia. rewrite !HM by lia. pose proof (Hi (n - 2 - i)%Z (n - 1 - i)%Z ltac:(lia) ltac:(lia)). lra.
      * replace i with (n - 1 + (i - n + 1))%Z at 1 by lia. replace (i + 1)%Z with (n - 1 + (i - n + 2))%Z by lia. rewrite !HP by lia. apply Hi; lia.
    + intros i Hk. change (alen h') with (2 * n - 1)%Z in Hk |- *. destruct (Z_lt_le_dec i (n - 1)) as [C|C].
      * replace i with (n - 1 - (n - 1 - i))%Z at 2 by lia. replace (2 * n - 1 - 1 - i)%Z with (n - 1 + (n - 1 - i))%Z by lia. rewrite HM, HP by lia. ring.
      * replace i with (n - 1 + (i - n + 1))%Z at 2 by lia. replace (2 * n - 1 - 1 - i)%Z with (n - 1 - (i - n + 1))%Z by lia. rewrite HM, HP by lia. ring.
Qed.
Theorem C56_mirror_grid : forall g h, holds g h -> (1 <= alen h)%Z ->
  (afn h 0%Z = 0 -> increasing h -> exists g' h', mirrorGrid g = Ok g' /\ holds g' h' /\ spans h' (2 * alen h - 1) (- afn h (alen h - 1)%Z) (afn h (alen h - 1)%Z) /\ symmetric h' /\
     forall i, (0 <= i < alen h)%Z -> afn h' (alen h - 1 + i)%Z = afn h i) /\
  (afn h 0%Z <> 0 \/ ~ increasing h -> mirrorGrid g = Throw).
Proof.
  intros g h Hh Hn. split; [intros; apply (mirror_ok g h); assumption|]. intros HB. destruct Hh as (L & V). set (n := alen h) in *. unfold mirrorGrid. rewrite L. rewrite (proj2 (Z.eqb_neq n 0)) by lia. rewrite aget_ok by lia. cbn [bind]. rewrite V by lia.
  destruct (Req_b (afn h 0%Z) 0) eqn:E0; [|reflexivity]. cbn [negb]. assert (H0 : afn h 0%Z = 0). { destruct (Req_dec (afn h 0%Z) 0); [assumption|]. rewrite Req_b_f in E0 by assumption. discriminate. }
  assert (HI : ~ increasing h) by (destruct HB; [contradiction|assumption]). rewrite aset_ok by (cbn; lia). cbn [bind].
  (* the first violation *)
  assert (G : forall k s, alen s = (2 * n - 1)%Z -> forall i, (1 <= i)%Z -> (i + Z.of_nat k = n)%Z -> (exists j, (i <= j < n)%Z /\ afn h j <= afn h (j - 1)%Z) ->
    forn k i (fun i output => xi <- aget g i ;; xp <- aget g (i - 1) ;; (if nan_le xi xp then Throw else output <- aset output (n - 1 - i) (nan_opp xi) ;; aset output (n - 1 + i) xi)) s = Throw).
  { induction k as [|k IH]; intros s Ls i Hi Hk (j & Hj & V2); [lia|]. cbn [forn]. rewrite !aget_ok by lia. cbn [bind]. rewrite !V by lia. unfold nan_le at 1. unfold Rle_b. destruct (Rle_dec (afn h i) (afn h (i - 1)%Z)) as [Le|Le]; [reflexivity|]. rewrite aset_ok by lia. cbn [bind]. rewrite aset_ok by (cbn [alen]; lia). cbn [bind].
    apply IH; [exact Ls|lia|lia|]. exists j. split; [|exact V2]. destruct (Z.eq_dec i j) as [-> |]; [contradiction|lia]. }
  unfold for_. apply G; [cbn [alen anew]; lia|lia|lia|].
  destruct (Classical_Prop.classic (exists j, (1 <= j < n)%Z /\ afn h j <= afn h (j - 1)%Z)) as [X|X]; [exact X|exfalso]. apply HI. apply inc_steps. fold n. intros i Hi. destruct (Rlt_dec (afn h i) (afn h (i + 1)%Z)) as [Lt|Lt]; [exact Lt|]. exfalso. apply X. exists (i + 1)%Z. split; [lia|]. replace (i + 1 - 1)%Z with i by lia. lra.
Qed.
(** A symmetric grid is built from the grid with growing steps: with an odd number of nodes, mirrored; with an even number, from every second of its nodes. *)
Theorem C56_symmetric_grid : forall n a b,
  (forall g h, (n mod 2 = 1)%Z -> createNonuniformGrid (n / 2 + 1) a b true = Ok g -> holds g h -> spans h (n / 2 + 1) 0 b ->
     exists g' h', createSymmetricGrid n a (Some b) = Ok g' /\ holds g' h' /\ spans h' n (- b) b /\ symmetric h' /\ forall i, (0 <= i <= n / 2)%Z -> afn h' (n / 2 + i)%Z = afn h i) /\
  (forall g h, (n mod 2 = 0)%Z -> createNonuniformGrid n (a / 2) b true = Ok g -> holds g h -> spans h n 0 b ->
     exists g' h', createSymmetricGrid n a (Some b) = Ok g' /\ holds g' h' /\ spans h' n (- b) b /\ symmetric h' /\ forall i, (0 <= i < n / 2)%Z -> afn h' (n / 2 + i)%Z = afn h (2 * i + 1)%Z) /\
  ((2 <= n)%Z -> 0 < a -> exists g' h', createSymmetricGrid n a None = Ok g' /\ holds g' h' /\ spans h' n (- (a * IZR (n - 1) / 2)) (a * IZR (n - 1) / 2) /\ symmetric h' /\
     forall i, (0 <= i < n - 1)%Z -> afn h' (i + 1)%Z - afn h' i = a).
Proof.
  intros n a b. split; [|split].
  - intros g h Hn Eg Hh (L & H0 & HL & HI). assert (n = 2 * (n / 2) + 1)%Z by (pose proof (Z.div_mod n 2 ltac:(lia)); lia). unfold createSymmetricGrid. rewrite (proj2 (Z.eqb_eq _ _) Hn), Eg. cbn [bind].
    assert (1 <= alen h)%Z. { rewrite L. destruct (Z_lt_le_dec (n / 2) 0) as [C|C]; [|lia]. exfalso. rewrite C56_nonuniform_grid_rejects in Eg by lia. discriminate. }
    destruct (mirror_ok g h Hh ltac:(assumption) H0 HI) as (g' & h' & E' & Hh' & Sp & Sy & V). rewrite L in *. replace (2 * (n / 2 + 1) - 1)%Z with n in Sp by lia. rewrite HL in Sp. replace (n / 2 + 1 - 1)%Z with (n / 2)%Z in V by lia.
    exists g', h'. split; [exact E'|]. split; [exact Hh'|]. split; [exact Sp|]. split; [exact Sy|]. intros i Hi. apply V. lia.
  - intros g h Hn Eg (Lg & Vg) (L & H0 & HL & HI). assert (En : n = (2 * (n / 2))%Z) by (pose proof (Z.div_mod n 2 ltac:(lia)); lia). set (m := (n / 2)%Z) in *. unfold createSymmetricGrid. fold m. rewrite Hn. change (0 =? 1)%Z with false. cbv iota. replace (a * (1 / 2)) with (a / 2) by lra. rewrite Eg. cbn [bind].
    assert (Hm : (1 <= m)%Z). { destruct (Z_lt_le_dec n 2) as [C|C]; [exfalso; rewrite C56_nonuniform_grid_rejects in Eg by lia; discriminate|lia]. }
    rewrite L in Lg.
    match goal with |- context [for_ 0 m ?f g] => destruct (for_total (fun k (o : arr (option R)) => alen o = n /\ (forall i, (n - k <= i < n)%Z -> afn o i = Some (afn h (n - 1 - 2 * (n - 1 - i))%Z)) /\ (forall i, (0 <= i < n - k)%Z -> afn o i = Some (afn h i))) 0 m f g) as (g1 & -> & L1 & V1 & _) end.
    { lia. } { split; [exact Lg|]. split; [intros; lia|intros; apply Vg; lia]. }
    { intros k o Hk (Lo & Vo & Wo). rewrite aget_ok by lia. cbn [bind]. rewrite aset_ok by lia. eexists. split; [reflexivity|]. cbn [alen afn]. split; [exact Lo|]. split.
      - intros i Hi. destruct (Z.eq_dec i (n - 1 - k)) as [-> | N]; [rewrite upd_same, Wo by lia; do 2 f_equal; lia|]. rewrite upd_other by exact N. apply Vo. lia.
      - intros i Hi. rewrite upd_other by lia. apply Wo. lia. }
    cbn [bind]. set (h' := mkArr n (fun i => if (i <? m)%Z then - afn h (2 * (m - 1 - i) + 1)%Z else afn h (2 * (i - m) + 1)%Z)).
    match goal with |- context [for_ 0 m ?f g1] => destruct (for_total (fun k (o : arr (option R)) => alen o = n /\ (forall i, (m <= i < n)%Z -> afn o i = Some (afn h' i)) /\ (forall i, (0 <= i < k)%Z -> afn o i = Some (afn h' i))) 0 m f g1) as (g2 & -> & L2 & V2 & W2) end.
    { lia. } { split; [exact L1|]. split; [|intros; lia]. intros i Hi. rewrite V1 by lia. unfold h'. cbn [afn]. rewrite Zlt_f by lia. do 2 f_equal. lia. }
    { intros k o Hk (Lo & Vo & Wo). rewrite aget_ok by lia. cbn [bind]. rewrite Vo by lia. rewrite aset_ok by lia. eexists. split; [reflexivity|]. cbn [alen afn]. split; [exact Lo|]. split.
      - intros i Hi. rewrite upd_other by lia. apply Vo. lia.
      - intros i Hi. destruct (Z.eq_dec i k) as [-> | N]; [|rewrite upd_other by exact N; apply Wo; lia]. rewrite upd_same. unfold h', nan_opp. cbn [afn]. rewrite Zlt_f, (proj2 (Z.ltb_lt k m)) by lia. do 3 f_equal. lia. }
    assert (HP : forall i, (0 <= i < m)%Z -> afn h' (m + i)%Z = afn h (2 * i + 1)%Z) by (intros i Hk; unfold h'; cbn [afn]; rewrite Zlt_f by lia; f_equal; lia).
    assert (HM : forall i, (0 <= i < m)%Z -> afn h' (m - 1 - i)%Z = - afn h (2 * i + 1)%Z) by (intros i Hk; unfold h'; cbn [afn]; rewrite (proj2 (Z.ltb_lt _ _)) by lia; do 2 f_equal; lia).
    assert (P1 : forall i, (0 <= i < m)%Z -> 0 < afn h (2 * i + 1)%Z) by (intros i Hk; rewrite <- H0; apply HI; lia).
    exists g2, h'. split; [reflexivity|]. split; [split; [exact L2|intros i Hk; rewrite L2 in Hk; destruct (Z_lt_le_dec i m); [apply W2|apply V2]; lia]|]. split; [|split; [|exact HP]].
    + split; [reflexivity|]. split; [replace 0%Z with (m - 1 - (m - 1))%Z at 1 by lia; rewrite HM by lia; rewrite <- HL; do 2 f_equal; lia|]. split; [replace (n - 1)%Z with (m + (m - 1))%Z by lia; rewrite HP by lia; rewrite <- HL; f_equal; lia|].
      apply inc_steps. change (alen h') with n. intros i Hk. destruct (Z_lt_le_dec i m) as [C|C].
      * destruct (Z.eq_dec i (m - 1)) as [-> | N]; [replace (m - 1 + 1)%Z with (m + 0)%Z by lia; replace (m - 1)%Z with (m - 1 - 0)%Z at 1 by lia; rewrite HM, HP by lia; pose proof (P1 0%Z ltac:(lia)); lra|].
        replace i with (m - 1 - (m - 1 - i))%Z at 1 by lia. replace (i + 1)%Z with (m - 1 - (m - 2 - i))%Z by lia. rewrite !HM by lia. pose proof (HI (2 * (m - 2 - i) + 1)%Z (2 * (m - 1 - i) + 1)%Z ltac:(lia) ltac:(lia)). lra.
      * replace i with (m + (i - m))%Z at 1 by lia. replace (i + 1)%Z with (m + (i - m + 1))%Z by lia. rewrite !HP by lia. apply HI; lia.
    + intros i Hk. change (alen h') with n in Hk |- *. destruct (Z_lt_le_dec i m) as [C|C].
      * replace i with (m - 1 - (m - 1 - i))%Z at 2 by lia. replace (n - 1 - i)%Z with (m + (m - 1 - i))%Z by lia. rewrite HM, HP by lia. ring.
      * replace i with (m + (i - m))%Z at 2 by lia. replace (n - 1 - i)%Z with (m - 1 - (i - m))%Z by lia. rewrite HM, HP by lia. ring.
  - intros Hn Ha. assert (P : 0 < IZR (n - 1)) by (apply IZR_lt; lia). unfold createSymmetricGrid.
    replace (- a * (1 / 2) * IZR (n - 1)) with (- (a * IZR (n - 1) / 2)) by field. replace (a * (1 / 2) * IZR (n - 1)) with (a * IZR (n - 1) / 2) by field. assert (0 < a * IZR (n - 1)) by (apply Rmult_lt_0_compat; lra).
    destruct (uniform_ok n (- (a * IZR (n - 1) / 2)) (a * IZR (n - 1) / 2) Hn ltac:(lra)) as (h' & E & L & V). rewrite E. cbn [bind].
    destruct (proj1 (C56_uniform_grid n (- (a * IZR (n - 1) / 2)) (a * IZR (n - 1) / 2)) Hn ltac:(lra)) as (h2 & E2 & Sp & _). rewrite E in E2. injection E2 as <-.
    eexists. exists h'. split; [reflexivity|]. split; [split; [reflexivity|intros; reflexivity]|]. split; [exact Sp|]. split.
    + intros i Hi. rewrite L in *. rewrite !V by lia. rewrite (minus_IZR (n - 1) i). field. lra.
    + intros i Hi. rewrite !V by lia. rewrite plus_IZR. field. lra.
Qed.

(** ---- concrete cases ---- *)
Example nonuniform_case : exists g h, createNonuniformGrid 5 1 4 true = Ok g /\ holds g h /\ spans h 5 0 4 /\ equal_steps h.
Proof. destruct (C56_nonuniform_grid_equal 5 1 true ltac:(lia) ltac:(lra)) as (g & h & E & H1 & H2 & H3). exists g, h. change (5 - 1)%Z with 4%Z in *. rewrite Rmult_1_r in *. auto. Qed.
Example symmetric_case : exists g h, createSymmetricGrid 9 1 (Some 4) = Ok g /\ holds g h /\ spans h 9 (-4) 4 /\ symmetric h.
Proof.
  destruct nonuniform_case as (g & h & E & H1 & H2 & _). destruct (proj1 (C56_symmetric_grid 9 1 4) g h eq_refl E H1 H2) as (g' & h' & E' & H1' & H2' & H3' & _). exists g', h'. auto.
Qed.
(** the hypotheses of the theorem about growing steps on the number of nodes and the range *)
Example growing_hyps : let n := 20%Z in (3 <= n)%Z /\ 1001 / 1000 * IZR n * 1 <= 1000 /\ IZR n * (ln (1000 / 1) + 3) <= 100000.
Proof.
  split; [lia|]. split; [lra|]. assert (ln (1000 / 1) <= 10); [|lra]. rewrite <- (ln_exp 10). left. apply ln_increasing; [lra|]. pose proof (pow2_exp 10) as T. replace (INR 10) with 10 in T by (cbn; ring). lra.
Qed.

Print Assumptions C56_uniform_grid.
Print Assumptions C56_exp_grid.
Print Assumptions C56_nonuniform_grid_partial.
Print Assumptions C56_nonuniform_grid_equal.
Print Assumptions C56_nonuniform_grid_rejects.
Print Assumptions C56_two_nodes_refuted.
Print Assumptions C56_mirror_grid.
Print Assumptions C56_symmetric_grid.
