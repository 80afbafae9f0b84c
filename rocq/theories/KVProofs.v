From Verif Require Import StrModel StrProofs KVModel KVSpec.

Lemma same_key_matches (it : item) k : same_key (fst it) k = matches k it.
Proof.
  unfold same_key, matches. destruct (fst it) as [|c s] eqn:E; [reflexivity|].
  destruct (list_eq_dec ascii_dec (lower (c :: s)) (lower k)) as [Heq|Hne].
  - symmetry. apply stringsEqual_spec. exact Heq.
  - symmetry. apply not_true_iff_false. rewrite stringsEqual_spec. exact Hne.
Qed.
Lemma same_key_se k' k : k' <> [] -> same_key k' k = stringsEqual k' k.
Proof. intros H. rewrite (same_key_matches (k', @nil ascii) k : same_key k' k = _). unfold matches; cbn. destruct k'; congruence. Qed.

Lemma matches_trans it k k' : matches k it = true -> k <> [] -> same_key k k' = matches k' it.
Proof.
  intros H Hk. rewrite same_key_se by exact Hk. unfold matches in *.
  destruct (fst it) eqn:E; [discriminate|]. rewrite stringsEqual_sym in H. apply stringsEqual_cong; exact H.
Qed.
Lemma matches_nonempty it k : matches k it = true -> k <> [].
Proof.
  unfold matches. destruct (fst it) eqn:E; [discriminate|]. intros H ->.
  apply stringsEqual_spec in H. cbn in H. discriminate.
Qed.

(** uniqueness invariant *)
Fixpoint uniq (l : list item) : Prop :=
  match l with
  | [] => True
  | it :: l' => (fst it <> [] -> existsb (matches (fst it)) l' = false) /\ uniq l'
  end.

Lemma existsb_app' {A} (f : A -> bool) a b : existsb f (a ++ b) = existsb f a || existsb f b.
Proof. induction a; cbn; [reflexivity|]. rewrite IHa. apply orb_assoc. Qed.

Lemma matches_sym (a b : item) : fst a <> [] -> fst b <> [] -> matches (fst a) b = matches (fst b) a.
Proof.
  intros Ha Hb. unfold matches. destruct (fst a) eqn:Ea, (fst b) eqn:Eb; try congruence.
  apply stringsEqual_sym.
Qed.
Lemma matches_key_nonempty k it : matches k it = true -> fst it <> [].
Proof. unfold matches. destruct (fst it); congruence. Qed.

Lemma uniq_snoc (l : list item) (it : item) : uniq (l ++ [it]) <-> uniq l /\ (fst it <> [] -> existsb (matches (fst it)) l = false).
Proof.
  induction l as [|a l IH]; cbn.
  - rewrite ?existsb_app'; cbn. tauto.
  - rewrite IH, existsb_app'. cbn. rewrite orb_false_r. split.
    + intros [H1 [H2 H3]]. repeat split; auto.
      * intros Ha. apply H1 in Ha. apply orb_false_iff in Ha. tauto.
      * intros Hi. rewrite (H3 Hi), orb_false_r. destruct (fst a) as [|c s] eqn:Ea.
        { unfold matches. rewrite Ea. reflexivity. }
        assert (Ha : fst a <> []) by congruence. rewrite <- Ea in H1.
        specialize (H1 Ha). apply orb_false_iff in H1. rewrite matches_sym; tauto.
    + intros [[H1 H2] H3]. repeat split; auto.
      * intros Ha. rewrite (H1 Ha). cbn. destruct (fst it) as [|c s] eqn:Ei.
        { unfold matches. rewrite Ei. reflexivity. }
        assert (Hi : fst it <> []) by congruence. rewrite <- Ei in H3.
        specialize (H3 Hi). apply orb_false_iff in H3. rewrite matches_sym; tauto.
      * intros Hi. specialize (H3 Hi). apply orb_false_iff in H3. tauto.
Qed.

(** set *)
Lemma set_items_notin l k v : existsb (matches k) l = false -> set_items l k v = l ++ [(k, v)].
Proof.
  induction l as [|a l IH]; cbn; [reflexivity|]. intros H. apply orb_false_iff in H as [-> H].
  rewrite IH; auto.
Qed.
Lemma map_fst_set_in l k v : existsb (matches k) l = true -> map fst (set_items l k v) = map fst l.
Proof.
  induction l as [|a l IH]; cbn; [discriminate|]. destruct (matches k a); cbn; [reflexivity|].
  intros H. f_equal; auto.
Qed.
Lemma matches_fst k (a b : item) : fst a = fst b -> matches k a = matches k b.
Proof. unfold matches. intros ->. reflexivity. Qed.
Lemma existsb_matches_map k (l1 l2 : list item) : map fst l1 = map fst l2 -> existsb (matches k) l1 = existsb (matches k) l2.
Proof.
  revert l2. induction l1 as [|a l1 IH]; intros [|b l2]; cbn; try discriminate; [reflexivity|].
  intros H. injection H as H1 H2. rewrite (matches_fst k a b H1), (IH l2 H2). reflexivity.
Qed.
Lemma uniq_map (l1 l2 : list item) : map fst l1 = map fst l2 -> uniq l1 -> uniq l2.
Proof.
  revert l2. induction l1 as [|a l1 IH]; intros [|b l2]; cbn; try discriminate; [auto|].
  intros H. injection H as H1 H2. intros [U1 U2]. split; [|eapply IH; eauto].
  rewrite <- H1. rewrite <- (existsb_matches_map _ l1 l2 H2). exact U1.
Qed.

Lemma uniq_set l k v : uniq l -> uniq (set_items l k v).
Proof.
  intros U. destruct (existsb (matches k) l) eqn:E.
  - eapply uniq_map; [|exact U]. symmetry. apply map_fst_set_in; exact E.
  - rewrite set_items_notin by exact E. apply uniq_snoc. auto.
Qed.

Lemma lookup_set_in l k v k' : existsb (matches k) l = true -> uniq l ->
  lookup_items (set_items l k v) k' = if same_key k k' then Some v else lookup_items l k'.
Proof.
  induction l as [|a l IH]; cbn; [discriminate|]. destruct (matches k a) eqn:M.
  - intros _ _. cbn. rewrite (matches_fst k' (fst a, v) a) by reflexivity.
    rewrite <- (matches_trans a k k') by (auto; eapply matches_nonempty; eauto).
    destruct (same_key k k'); reflexivity.
  - intros H [U1 U2]. cbn in H. cbn. rewrite IH by auto.
    destruct (matches k' a) eqn:M'; [|reflexivity].
    destruct (same_key k k') eqn:SK; [|reflexivity]. exfalso.
    (* then k matches a *)
    destruct k as [|c k]; [discriminate|]. rewrite same_key_se in SK by discriminate.
    assert (matches (c :: k) a = true); [|congruence].
    unfold matches in *. destruct (fst a); [discriminate|].
    rewrite stringsEqual_sym in SK. eapply stringsEqual_trans; eauto.
Qed.

Lemma lookup_app l l' k : lookup_items (l ++ l') k =
  match lookup_items l k with Some v => Some v | None => lookup_items l' k end.
Proof. induction l as [|a l IH]; cbn; [reflexivity|]. destruct (matches k a); auto. Qed.
Lemma lookup_None l k : lookup_items l k = None <-> existsb (matches k) l = false.
Proof.
  induction l as [|a l IH]; cbn; [tauto|]. destruct (matches k a); cbn; [split; discriminate|exact IH].
Qed.

Lemma existsb_matches_same l k k' : same_key k k' = true -> existsb (matches k) l = existsb (matches k') l.
Proof.
  intros H. destruct k as [|c k]; [discriminate|]. rewrite same_key_se in H by discriminate.
  induction l as [|a l IH]; cbn; [reflexivity|]. rewrite IH. f_equal.
  unfold matches. destruct (fst a); [reflexivity|].
  rewrite (stringsEqual_sym _ (c :: k)), (stringsEqual_sym _ k'). apply stringsEqual_cong; exact H.
Qed.

Lemma lookup_set l k v k' : uniq l ->
  lookup_items (set_items l k v) k' = if same_key k k' then Some v else lookup_items l k'.
Proof.
  intros U. destruct (existsb (matches k) l) eqn:E.
  - apply lookup_set_in; assumption.
  - rewrite set_items_notin by exact E. rewrite lookup_app. cbn.
    rewrite <- (same_key_matches (k, v) k'). cbn.
    destruct (same_key k k') eqn:SK.
    + rewrite (existsb_matches_same l k k' SK) in E. apply lookup_None in E. rewrite E. reflexivity.
    + destruct (lookup_items l k'); reflexivity.
Qed.

Lemma forallb_filter_id {A} (p : A -> bool) l : forallb p l = true -> filter p l = l.
Proof. induction l as [|a l IH]; cbn; [reflexivity|]. intros H. apply andb_true_iff in H as [-> H]. f_equal; auto. Qed.

(** unset *)
Lemma unset_notin l k : existsb (matches k) l = false -> unset_items l k = (l, false).
Proof.
  induction l as [|a l IH]; cbn; [reflexivity|]. intros H. apply orb_false_iff in H as [-> H].
  rewrite IH; auto.
Qed.
Lemma unset_filter l k : uniq l ->
  unset_items l k = (filter (fun it => negb (matches k it)) l, existsb (matches k) l).
Proof.
  induction l as [|a l IH]; cbn; [reflexivity|]. intros [U1 U2]. destruct (matches k a) eqn:M; cbn.
  - f_equal. symmetry. apply forallb_filter_id. apply forallb_forall. intros x Hx.
    assert (N : fst a <> []) by (eapply matches_key_nonempty; eauto).
    specialize (U1 N).
    destruct (matches k x) eqn:Mx; [|reflexivity]. exfalso.
    assert (X : existsb (matches (fst a)) l = true).
    { apply existsb_exists. exists x. split; auto. unfold matches in *.
      destruct (fst x) eqn:Ex; [discriminate|]. destruct (fst a) eqn:Ea; [congruence|].
      rewrite stringsEqual_sym in M. eapply stringsEqual_trans; eauto. }
    congruence.
  - rewrite IH by exact U2. reflexivity.
Qed.
Lemma uniq_filter p l : uniq l -> uniq (filter p l).
Proof.
  induction l as [|a l IH]; cbn; [auto|]. intros [U1 U2]. destruct (p a); cbn; auto. split; auto.
  intros N. specialize (U1 N). apply not_true_iff_false. intros H. apply existsb_exists in H as (x & Hx & Hm).
  apply filter_In in Hx as [Hx _]. apply not_true_iff_false in U1. apply U1. apply existsb_exists; eauto.
Qed.
Lemma lookup_filter l k k' :
  lookup_items (filter (fun it => negb (matches k it)) l) k' = if same_key k k' then None else lookup_items l k'.
Proof.
  induction l as [|a l IH]; cbn; [destruct (same_key k k'); reflexivity|].
  destruct (matches k a) eqn:M; cbn.
  - rewrite IH. rewrite <- (matches_trans a k k') by (auto; eapply matches_nonempty; eauto).
    destruct (same_key k k'); reflexivity.
  - rewrite IH. destruct (same_key k k') eqn:SK; [|reflexivity].
    destruct (matches k' a) eqn:M'; [|reflexivity]. exfalso.
    destruct k as [|c k]; [discriminate|]. rewrite same_key_se in SK by discriminate.
    assert (matches (c :: k) a = true); [|congruence].
    unfold matches in *. destruct (fst a); [discriminate|].
    rewrite stringsEqual_sym in SK. eapply stringsEqual_trans; eauto.
Qed.

(** parse_line never yields an empty key *)
Lemma trim_left_first s c i : find_first (fun c => negb (isWS c)) s = Some i -> nth_error s i = Some c ->
  trim_left s = c :: skipn (S i) s.
Proof. intros F N. unfold trim_left. rewrite F. apply nth_error_skipn_cons; exact N. Qed.

Lemma trim_right_cons c s : isWS c = false -> exists r, trim_right (c :: s) = c :: r.
Proof.
  intros H. unfold trim_right. destruct (find_last (fun c0 => negb (isWS c0)) (c :: s)) as [i|]; [|eauto].
  destruct (i + 1 <? length (c :: s)); [|eauto].
  replace (i + 1) with (S i) by lia. cbn. eauto.
Qed.

Lemma parse_line_key line k v : parse_line line = inl (k, v) -> k <> [].
Proof.
  unfold parse_line. set (b := trim_left (c_str line)).
  destruct (find_first (fun c => ceqb c "=") b) as [i|] eqn:F; [|discriminate].
  destruct ((0 <? i) && _) eqn:C; [|discriminate]. intros H. injection H as H1 _.
  apply andb_true_iff in C as [C _]. apply Nat.ltb_lt in C.
  unfold b in *. clear b.
  destruct (find_first (fun c => negb (isWS c)) (c_str line)) as [j|] eqn:FJ.
  - destruct (find_first_Some _ _ _ FJ) as (c & Hc & Hw & _ & _).
    rewrite (trim_left_first _ _ _ FJ Hc) in *. apply negb_true_iff in Hw.
    destruct i as [|i]; [lia|]. cbn [firstn] in H1.
    destruct (trim_right_cons c (firstn i (skipn (S j) (c_str line))) Hw) as (r & Hr).
    rewrite Hr in H1. rewrite <- H1. discriminate.
  - exfalso. unfold trim_left in F. rewrite FJ in F. apply find_first_None in FJ.
    apply find_first_Some in F as (c & Hc & He & _ & _). apply ceqb_eq in He. subst c.
    apply nth_error_In in Hc. rewrite forallb_forall in FJ. apply FJ in Hc. discriminate.
Qed.

Lemma uniq_exec m o : uniq (items m) -> uniq (items (exec m o)).
Proof.
  intros U. destruct o as [k v|k|l]; cbn [exec].
  - apply uniq_set; exact U.
  - unfold unset. rewrite unset_filter by exact U. cbn. apply uniq_filter; exact U.
  - unfold add. destruct (parse_line l) as [[k v]|x] eqn:P; cbn.
    + destruct (contains m k) eqn:C; [exact U|]. cbn. apply uniq_snoc. split; auto.
    + apply uniq_snoc. split; auto. cbn. congruence.
Qed.
Lemma run_snoc ops o : run (ops ++ [o]) = exec (run ops) o.
Proof. unfold run. rewrite fold_left_app. reflexivity. Qed.
Lemma uniq_run ops : uniq (items (run ops)).
Proof.
  induction ops as [|o ops IH] using rev_ind; [exact I|]. rewrite run_snoc. apply uniq_exec; exact IH.
Qed.

Lemma lookup_run ops k : lookup_items (items (run ops)) k = hist (rev ops) k.
Proof.
  induction ops as [|o ops IH] using rev_ind; [reflexivity|].
  rewrite run_snoc, rev_app_distr. cbn [rev app].
  pose proof (uniq_run ops) as U. destruct o as [k' v|k'|l]; cbn [exec hist].
  - cbn. rewrite lookup_set by exact U. rewrite IH. reflexivity.
  - unfold unset. rewrite unset_filter by exact U. cbn. rewrite lookup_filter, IH. reflexivity.
  - unfold add. destruct (parse_line l) as [[k' v]|x] eqn:P; cbn.
    + unfold contains. destruct (existsb (matches k') (items (run ops))) eqn:C.
      * destruct (same_key k' k) eqn:SK; [|exact IH].
        destruct (hist (rev ops) k) eqn:Hh; [exact IH|]. exfalso.
        rename IH into Hh2. apply lookup_None in Hh2. rewrite (existsb_matches_same _ _ _ SK) in C. congruence.
      * cbn. rewrite lookup_app, IH. cbn. rewrite <- (same_key_matches (k', v) k). cbn.
        destruct (same_key k' k) eqn:SK; destruct (hist (rev ops) k) eqn:Hh; reflexivity.
    + rewrite lookup_app, IH. cbn. destruct (hist (rev ops) k); reflexivity.
Qed.

Lemma getString_run ops k d :
  getString (run ops) k d = match hist (rev ops) k with Some v => v | None => d end.
Proof. unfold getString. rewrite lookup_run. reflexivity. Qed.

Lemma contains_run ops k : contains (run ops) k = match hist (rev ops) k with Some _ => true | None => false end.
Proof.
  unfold contains. rewrite <- lookup_run. destruct (lookup_items (items (run ops)) k) eqn:E.
  - destruct (existsb (matches k) (items (run ops))) eqn:X; [reflexivity|]. apply lookup_None in X. congruence.
  - apply lookup_None in E. exact E.
Qed.

(** keys *)
Lemma keys_of_map (l1 l2 : list item) : map fst l1 = map fst l2 ->
  map fst (filter has_key l1) = map fst (filter has_key l2).
Proof.
  revert l2. induction l1 as [|a l1 IH]; intros [|b l2]; cbn; try discriminate; [reflexivity|].
  intros H. injection H as H1 H2.
  assert (HH : has_key a = has_key b) by (unfold has_key; rewrite H1; reflexivity).
  rewrite HH. destruct (has_key b); cbn; [rewrite H1; f_equal; auto|auto].
Qed.
Lemma has_key_false (a : item) k : has_key a = false -> matches k a = false.
Proof. unfold has_key, matches. destruct (fst a); [reflexivity|discriminate]. Qed.
Lemma has_key_ne (a : item) : has_key a = true -> fst a <> [].
Proof. unfold has_key. destruct (fst a); congruence. Qed.
Lemma has_key_matches (a : item) k : matches k a = true -> has_key a = true.
Proof. unfold has_key, matches. destruct (fst a); congruence. Qed.
Lemma existsb_keys (l : list item) k : existsb (fun k' => same_key k' k) (map fst (filter has_key l)) = existsb (matches k) l.
Proof.
  induction l as [|a l IH]; cbn; [reflexivity|]. destruct (has_key a) eqn:E; cbn.
  - rewrite IH. f_equal. apply same_key_matches.
  - rewrite IH, (has_key_false a k E). reflexivity.
Qed.
Lemma filter_keys (l : list item) k : map fst (filter has_key (filter (fun it => negb (matches k it)) l)) =
  filter (fun k' => negb (same_key k' k)) (map fst (filter has_key l)).
Proof.
  induction l as [|a l IH]; cbn; [reflexivity|].
  destruct (matches k a) eqn:M; cbn.
  - rewrite IH, (has_key_matches a k M). cbn. rewrite same_key_matches, M. reflexivity.
  - destruct (has_key a) eqn:E; cbn; [|exact IH].
    rewrite same_key_matches, M. cbn. f_equal. exact IH.
Qed.

Lemma keys_run ops : keys (run ops) = spec_keys ops.
Proof.
  induction ops as [|o ops IH] using rev_ind; [reflexivity|].
  rewrite run_snoc. unfold spec_keys in *. rewrite fold_left_app. cbn [fold_left]. rewrite <- IH. clear IH.
  pose proof (uniq_run ops) as U. set (m := run ops) in *. unfold keys in *.
  destruct o as [k v|k|l]; cbn [exec keys_step].
  - cbn. destruct (existsb (matches k) (items m)) eqn:E.
    + rewrite (keys_of_map (set_items (items m) k v) (items m)) by (apply map_fst_set_in; exact E).
      destruct k; [reflexivity|]. rewrite existsb_keys, E. reflexivity.
    + rewrite set_items_notin by exact E. rewrite filter_app, map_app. cbn.
      destruct k; cbn; [apply app_nil_r|]. rewrite existsb_keys, E. reflexivity.
  - unfold unset. rewrite unset_filter by exact U. cbn. apply filter_keys.
  - unfold add. destruct (parse_line l) as [[k v]|x] eqn:P; cbn.
    + rewrite existsb_keys. unfold contains. destruct (existsb (matches k) (items m)); [reflexivity|].
      cbn. rewrite filter_app, map_app. cbn. apply parse_line_key in P. destruct k; [congruence|]. reflexivity.
    + rewrite filter_app, map_app. cbn. apply app_nil_r.
Qed.

Lemma keys_distinct_items (l : list item) : uniq l <-> distinct (map fst (filter has_key l)) = true.
Proof.
  induction l as [|a l IH]; cbn [uniq filter map distinct]; [tauto|].
  destruct (has_key a) eqn:E.
  - cbn [map distinct]. rewrite andb_true_iff, negb_true_iff, <- IH.
    assert (Q : existsb (fun y => if list_eq_dec ascii_dec (lower (fst a)) (lower y) then true else false)
                  (map fst (filter has_key l)) = existsb (matches (fst a)) l).
    { rewrite <- existsb_keys. clear - E. induction l as [|b l IH]; cbn; [reflexivity|].
      destruct (has_key b) eqn:Eb; cbn; [|exact IH]. rewrite IH. f_equal.
      unfold has_key in Eb. unfold same_key. destruct (fst b) as [|c s] eqn:Fb; [discriminate|].
      destruct (list_eq_dec ascii_dec (lower (fst a)) (lower (c :: s))),
               (list_eq_dec ascii_dec (lower (c :: s)) (lower (fst a))); congruence. }
    rewrite Q. apply has_key_ne in E. tauto.
  - rewrite <- IH. split; [tauto|]. intros H. split; auto. intros N. unfold has_key in E. destruct (fst a); congruence.
Qed.
Lemma keys_distinct ops : distinct (keys (run ops)) = true.
Proof. apply keys_distinct_items. apply uniq_run. Qed.

(** verbatim lines are never touched by set/unset of a key *)
Definition verbatim (m : kvmap) : list str := map snd (filter (fun it => negb (has_key it)) (items m)).
Lemma verbatim_set m k v : k <> [] -> verbatim (set m k v) = verbatim m.
Proof.
  intros Hk. unfold verbatim. cbn. f_equal. induction (items m) as [|a l IH]; cbn.
  - unfold has_key; cbn. destruct k; [congruence|reflexivity].
  - destruct (matches k a) eqn:M; cbn [filter].
    + pose proof (has_key_matches a k M) as HK. rewrite HK.
      assert (HK2 : has_key (fst a, v) = true) by exact HK. rewrite HK2. reflexivity.
    + rewrite IH. reflexivity.
Qed.
Lemma verbatim_unset m k : verbatim (fst (unset m k)) = verbatim m.
Proof.
  unfold verbatim, unset. destruct (unset_items (items m) k) as [r b] eqn:E. cbn. f_equal.
  revert r b E. induction (items m) as [|a l IH]; cbn; intros r b E; [injection E as <- <-; reflexivity|].
  destruct (matches k a) eqn:M.
  - injection E as <- <-. rewrite (has_key_matches a k M). reflexivity.
  - destruct (unset_items l k) as [r' b'] eqn:E'. injection E as <- <-. cbn. rewrite (IH r' b' eq_refl). reflexivity.
Qed.
