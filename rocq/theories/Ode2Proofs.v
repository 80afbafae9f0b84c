From Coq Require Import Reals Lra Lia List Arith Bool.
From Coquelicot Require Import Coquelicot.
From Verif Require Import RandReal PolyModel PolyProofs OdeModel OdeProofs Ode2Model Ode2Spec.
Local Open Scope R_scope.

Lemma fsum_vsum : forall n f, fsum n f = vsum n f.
Proof. induction n; intros; simpl; [reflexivity|now rewrite IHn]. Qed.

(** ** the layout *)
Lemma blk_index : forall nb N v k d, (0 < N)%nat -> (k < nb)%nat -> (d < N)%nat ->
  ((v * (nb * N) + k * N + d) / (nb * N) = v)%nat /\ ((v * (nb * N) + k * N + d) mod (nb * N) = k * N + d)%nat /\
  ((k * N + d) / N = k)%nat /\ ((k * N + d) mod N = d)%nat.
Proof.
  intros nb N v k d HN Hk Hd.
  assert (Hlt : (k * N + d < nb * N)%nat) by nia.
  assert (E : (v * (nb * N) + k * N + d = (k * N + d) + v * (nb * N))%nat) by lia.
  rewrite E. repeat split.
  - rewrite Nat.div_add by lia. rewrite Nat.div_small; lia.
  - rewrite Nat.mod_add by lia. now apply Nat.mod_small.
  - replace (k * N + d)%nat with (d + k * N)%nat by lia. rewrite Nat.div_add by lia. rewrite Nat.div_small; lia.
  - replace (k * N + d)%nat with (d + k * N)%nat by lia. rewrite Nat.mod_add by lia. now apply Nat.mod_small.
Qed.

Lemma blk_store2 : forall nb N nv st res v k d, (v < nv)%nat -> (k < nb)%nat -> (d < N)%nat ->
  blk nb N (store2 nb N nv st res) v k d = res v k d.
Proof.
  intros nb N nv st res v k d Hv Hk Hd. unfold blk, store2.
  destruct (blk_index nb N v k d ltac:(lia) Hk Hd) as (E1 & E2 & E3 & E4). cbv zeta. rewrite E1, E2, E3, E4.
  assert (L : Nat.ltb v nv = true) by now apply Nat.ltb_lt. now rewrite L.
Qed.
Lemma blk_init2 : forall nb N nv st t s v k d, (v < nv)%nat -> (k < nb)%nat -> (d < N)%nat ->
  blk nb N (s_state (init2 nb N nv st t s)) v k d = if Nat.ltb k 2 then st (v * (2 * N) + k * N + d)%nat else 0.
Proof.
  intros nb N nv st t s v k d Hv Hk Hd. unfold blk, init2. cbn [s_state].
  destruct (blk_index nb N v k d ltac:(lia) Hk Hd) as (E1 & E2 & E3 & E4). cbv zeta. rewrite E1, E2.
  assert (L : Nat.ltb v nv = true) by now apply Nat.ltb_lt. rewrite L. cbn [andb].
  destruct (Nat.ltb k 2) eqn:Ek.
  - apply Nat.ltb_lt in Ek. assert (L2 : Nat.ltb (k * N + d) (2 * N) = true) by (apply Nat.ltb_lt; nia). rewrite L2. f_equal. lia.
  - apply Nat.ltb_ge in Ek. assert (L2 : Nat.ltb (k * N + d) (2 * N) = false) by (apply Nat.ltb_ge; nia). now rewrite L2.
Qed.

(** the index of an element of the solution *)
Lemma sol_index : forall N v j, (j < 2 * N)%nat -> ((v * (2 * N) + j) / (2 * N) = v)%nat /\ ((v * (2 * N) + j) - v * (2 * N) = j)%nat.
Proof.
  intros N v j Hj. split; [|lia]. replace (v * (2 * N) + j)%nat with (j + v * (2 * N))%nat by lia. rewrite Nat.div_add by lia. rewrite Nat.div_small; lia.
Qed.

Lemma getSol3_pos : forall N nv s t v d, (v < nv)%nat -> (d < N)%nat ->
  getSol3 N nv s t (v * (2 * N) + d) =
  Some (let T := t - s_time s in let b k := blk 5 N (s_state s) v k d in b 0%nat + T * (b 1%nat + T * (b 2%nat + T * (b 3%nat + T * b 4%nat)))).
Proof.
  intros N nv s t v d Hv Hd. unfold getSol3. destruct (sol_index N v d ltac:(lia)) as (E1 & E2). cbv zeta. rewrite E1, E2.
  assert (L : Nat.leb nv v = false) by (apply Nat.leb_gt; lia). rewrite L.
  rewrite (Nat.mod_small d N) by lia. rewrite Nat.eqb_refl.
  destruct (Req_b (t - s_time s) 0) eqn:E; [|reflexivity].
  apply Req_b_ti in E. rewrite E. f_equal. unfold blk. replace (v * (5 * N) + d)%nat with (v * (5 * N) + 0 * N + d)%nat by lia. ring.
Qed.
Lemma getSol3_vel : forall N nv s t v d, (v < nv)%nat -> (d < N)%nat ->
  getSol3 N nv s t (v * (2 * N) + (N + d)) =
  Some (let T := t - s_time s in let b k := blk 5 N (s_state s) v k d in b 1%nat + T * (2 * b 2%nat + T * (3 * b 3%nat + T * 4 * b 4%nat))).
Proof.
  intros N nv s t v d Hv Hd. unfold getSol3. destruct (sol_index N v (N + d) ltac:(lia)) as (E1 & E2). cbv zeta. rewrite E1, E2.
  assert (L : Nat.leb nv v = false) by (apply Nat.leb_gt; lia). rewrite L.
  assert (Em : ((N + d) mod N = d)%nat). { replace (N + d)%nat with (d + 1 * N)%nat by lia. rewrite Nat.mod_add by lia. apply Nat.mod_small; lia. }
  rewrite Em. assert (L2 : Nat.eqb (N + d) d = false) by (apply Nat.eqb_neq; lia). rewrite L2.
  destruct (Req_b (t - s_time s) 0) eqn:E; [|reflexivity].
  apply Req_b_ti in E. rewrite E. f_equal. unfold blk. replace (v * (5 * N) + (N + d))%nat with (v * (5 * N) + 1 * N + d)%nat by lia. ring.
Qed.
Lemma getSol4_pos : forall N nv s t v d, (v < nv)%nat -> (d < N)%nat ->
  getSol4 N nv s t (v * (2 * N) + d) =
  Some (let T := t - s_time s in let b k := blk 6 N (s_state s) v k d in b 0%nat + T * (b 1%nat + T * (b 2%nat + T * (b 3%nat + T * (b 4%nat + T * b 5%nat))))).
Proof.
  intros N nv s t v d Hv Hd. unfold getSol4. destruct (sol_index N v d ltac:(lia)) as (E1 & E2). cbv zeta. rewrite E1, E2.
  assert (L : Nat.leb nv v = false) by (apply Nat.leb_gt; lia). rewrite L.
  rewrite (Nat.mod_small d N) by lia. rewrite Nat.eqb_refl.
  destruct (Req_b (t - s_time s) 0) eqn:E; [|reflexivity].
  apply Req_b_ti in E. rewrite E. f_equal. unfold blk. replace (v * (6 * N) + d)%nat with (v * (6 * N) + 0 * N + d)%nat by lia. ring.
Qed.
Lemma getSol4_vel : forall N nv s t v d, (v < nv)%nat -> (d < N)%nat ->
  getSol4 N nv s t (v * (2 * N) + (N + d)) =
  Some (let T := t - s_time s in let b k := blk 6 N (s_state s) v k d in b 1%nat + T * (2 * b 2%nat + T * (3 * b 3%nat + T * 4 * (b 4%nat + T * 5 * b 5%nat)))).
Proof.
  intros N nv s t v d Hv Hd. unfold getSol4. destruct (sol_index N v (N + d) ltac:(lia)) as (E1 & E2). cbv zeta. rewrite E1, E2.
  assert (L : Nat.leb nv v = false) by (apply Nat.leb_gt; lia). rewrite L.
  assert (Em : ((N + d) mod N = d)%nat). { replace (N + d)%nat with (d + 1 * N)%nat by lia. rewrite Nat.mod_add by lia. apply Nat.mod_small; lia. }
  rewrite Em. assert (L2 : Nat.eqb (N + d) d = false) by (apply Nat.eqb_neq; lia). rewrite L2.
  destruct (Req_b (t - s_time s) 0) eqn:E; [|reflexivity].
  apply Req_b_ti in E. rewrite E. f_equal. unfold blk. replace (v * (6 * N) + (N + d))%nat with (v * (6 * N) + 1 * N + d)%nat by lia. ring.
Qed.
Lemma getSol_out : forall nv N s t i, (0 < N)%nat -> (nv * (2 * N) <= i)%nat -> getSol3 N nv s t i = None /\ getSol4 N nv s t i = None.
Proof.
  intros nv N s t i HN Hi. unfold getSol3, getSol4.
  assert (L : Nat.leb nv (i / (2 * N)) = true). { apply Nat.leb_le. apply Nat.div_le_lower_bound; lia. } cbv zeta. rewrite L. auto.
Qed.
Lemma getSol_in : forall nv N s t i, (0 < N)%nat -> (i < nv * (2 * N))%nat ->
  (exists v, getSol3 N nv s t i = Some v) /\ (exists v, getSol4 N nv s t i = Some v).
Proof.
  intros nv N s t i HN Hi. unfold getSol3, getSol4. cbv zeta.
  assert (L : Nat.leb nv (i / (2 * N)) = false). { apply Nat.leb_gt. apply Nat.div_lt_upper_bound; lia. } rewrite L.
  split; repeat match goal with |- context [if ?b then _ else _] => destruct b end; eauto.
Qed.

(** ** differences of the right-hand side *)
Lemma rhs2_diff : forall N a b xh dh xh' dh' al be X Y d, (d < N)%nat ->
  rows_le N a al -> rows_le N b be -> 0 <= X -> 0 <= Y ->
  (forall j, (j < N)%nat -> Rabs (xh j - xh' j) <= X) -> (forall j, (j < N)%nat -> Rabs (dh j - dh' j) <= Y) ->
  Rabs (rhs2 N a b xh dh d - rhs2 N a b xh' dh' d) <= al * X + be * Y.
Proof.
  intros N a b xh dh xh' dh' al be X Y d Hd Ha Hb HX HY Hx Hy.
  specialize (Ha d Hd). specialize (Hb d Hd). rewrite fsum_vsum in Ha, Hb. unfold rhs2.
  assert (G : forall n, (n <= N)%nat ->
    Rabs (vsum n (fun j => a (d * N + j)%nat * xh j + b (d * N + j)%nat * dh j) - vsum n (fun j => a (d * N + j)%nat * xh' j + b (d * N + j)%nat * dh' j)) <=
    vsum n (fun j => Rabs (a (d * N + j)%nat)) * X + vsum n (fun j => Rabs (b (d * N + j)%nat)) * Y).
  { induction n; intros Hn; simpl.
    - rewrite Rminus_0_r, Rabs_R0. lra.
    - specialize (IHn ltac:(lia)). specialize (Hx n ltac:(lia)). specialize (Hy n ltac:(lia)).
      set (A := vsum n (fun j => a (d * N + j)%nat * xh j + b (d * N + j)%nat * dh j)) in *.
      set (B := vsum n (fun j => a (d * N + j)%nat * xh' j + b (d * N + j)%nat * dh' j)) in *.
      replace (A + (a (d * N + n)%nat * xh n + b (d * N + n)%nat * dh n) - (B + (a (d * N + n)%nat * xh' n + b (d * N + n)%nat * dh' n)))
        with ((A - B) + (a (d * N + n)%nat * (xh n - xh' n) + b (d * N + n)%nat * (dh n - dh' n))) by ring.
      eapply Rle_trans; [apply Rabs_triang|].
      assert (Rabs (a (d * N + n)%nat * (xh n - xh' n) + b (d * N + n)%nat * (dh n - dh' n)) <= Rabs (a (d * N + n)%nat) * X + Rabs (b (d * N + n)%nat) * Y).
      { eapply Rle_trans; [apply Rabs_triang|]. rewrite !Rabs_mult. apply Rplus_le_compat; apply Rmult_le_compat_l; auto using Rabs_pos. }
      lra. }
  specialize (G N (le_n _)). eapply Rle_trans; [exact G|].
  apply Rplus_le_compat; apply Rmult_le_compat_r; auto.
Qed.
Lemma rhs2_ext : forall N a b xh dh xh' dh' d, (forall j, (j < N)%nat -> xh j = xh' j) -> (forall j, (j < N)%nat -> dh j = dh' j) ->
  rhs2 N a b xh dh d = rhs2 N a b xh' dh' d.
Proof.
  intros N a b xh dh xh' dh' d Hx Hy. unfold rhs2.
  assert (G : forall n, (n <= N)%nat -> vsum n (fun j => a (d * N + j)%nat * xh j + b (d * N + j)%nat * dh j) = vsum n (fun j => a (d * N + j)%nat * xh' j + b (d * N + j)%nat * dh' j)).
  { induction n; intros Hn; simpl; [reflexivity|]. rewrite IHn by lia. rewrite Hx, Hy by lia. reflexivity. }
  apply G; lia.
Qed.
Lemma rhs2_lin : forall N a b xh dh xh' dh' l m d,
  rhs2 N a b (fun j => l * xh j + m * xh' j) (fun j => l * dh j + m * dh' j) d = l * rhs2 N a b xh dh d + m * rhs2 N a b xh' dh' d.
Proof.
  intros. unfold rhs2.
  assert (G : forall n, vsum n (fun j => a (d * N + j)%nat * (l * xh j + m * xh' j) + b (d * N + j)%nat * (l * dh j + m * dh' j)) =
    l * vsum n (fun j => a (d * N + j)%nat * xh j + b (d * N + j)%nat * dh j) + m * vsum n (fun j => a (d * N + j)%nat * xh' j + b (d * N + j)%nat * dh' j)).
  { induction n; simpl; [ring|]. rewrite IHn. ring. }
  apply G.
Qed.
