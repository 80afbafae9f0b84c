(** C10, C11: object lifetimes and interrupt handlers. *)
From Verif Require Import Base SharedPtrModel SharedPtrSpec SharedPtrProofs CtrlBreakModel CtrlBreakSpec CtrlBreakProofs.

(** ---- C10 ---- *)
(** every history of legal uses of shared pointers runs without access to deallocated memory or double deletion; at its
    end each object was disposed at most once, and exactly those objects are disposed that no live pointer owns *)
Theorem C10_disposed_exactly_once : forall l, legal_history heap0 l ->
  exists h, run heap0 l = Ok h /\ NoDup (log h) /\ (forall o, In o (log h) -> In o (given h)) /\
    forall o, In o (given h) -> (In o (log h) <-> ~ owned h o).
Proof.
  intros l H. destruct (run_ok l heap0 Inv0 H) as (h & E & I). exists h. split; [exact E|]. split; [apply (i_lognd _ _ I)|].
  split; [intros o Ho; apply (i_disp _ _ I o Ho)|]. exact (exactly_when h I).
Qed.
(** each operation has its documented effect on every variable (stored pointer and owned object), disposed objects stay
    disposed, and no variable other than members of disposed objects vanishes *)
Theorem C10_operation_effect : forall l h o, legal_history heap0 (l ++ [o]) -> run heap0 l = Ok h ->
  exists h', step h o = Ok h' /\ (forall u, state_of h' u = purge (log h') (intended h o u)) /\
    (exists d, log h' = d ++ log h) /\ (forall p, In p (given h') <-> In p (given h) \/ In p (given h') /\ In p (given_of o)).
Proof.
  intros l h o H E. assert (G : Inv h [] /\ legal h o).
  { assert (forall h0, Inv h0 [] -> legal_history h0 (l ++ [o]) -> run h0 l = Ok h -> Inv h [] /\ legal h o) as K; [|exact (K heap0 Inv0 H E)].
    clear. induction l as [|o' l IH]; intros h0 I0 H E; cbn [app run] in *.
    - injection E as <-. inversion H; subst. auto.
    - inversion H; subst. destruct (step_ok h0 o' I0 H3) as (h1 & E1 & G). rewrite E1 in E. cbn [bind] in E. apply (IH h1); [apply G|auto|exact E]. }
  destruct G as [I L]. destruct (step_ok h o I L) as (h' & E' & G1 & G2 & G3 & G4 & G5). exists h'. split; [exact E'|]. split; [exact G2|]. split; [exact G3|].
  intros p. split; [intros Hp; destruct (G4 p Hp); auto|]. intros [Hp|[Hp _]]; auto.
Qed.
(** reset() does nothing for a pointer created by the aliasing constructor with a null pointer: it keeps the object alive *)
Theorem C10_reset_releases_refuted : exists l h h' v, legal_history heap0 (l ++ [Reset v 0%Z false]) /\ run heap0 l = Ok h /\
  step h (Reset v 0%Z false) = Ok h' /\ exists x, find_var h' v = Some x /\ owner h' x <> 0%Z /\ owned h' 7%Z.
Proof.
  exists [New 1 None 7%Z false; Alias 2 None 1 0%Z; Destroy 1]. do 2 eexists. exists 2.
  split; [|split; [vm_compute; reflexivity|split; [vm_compute; reflexivity|]]].
  - cbn [app]. constructor; [cbn; repeat split; auto; right; cbn; tauto|intros ? E; vm_compute in E; injection E as <-].
    constructor; [cbn; repeat split; auto|intros ? E; vm_compute in E; injection E as <-].
    constructor; [cbn; repeat split; auto|intros ? E; vm_compute in E; injection E as <-].
    constructor; [cbn; split; [reflexivity|left; left; reflexivity]|intros ? E; vm_compute in E; injection E as <-].
    constructor.
  - eexists. split; [reflexivity|]. split; [vm_compute; discriminate|]. eexists. split; [left; reflexivity|reflexivity].
Qed.
(** non-vacuity: two nodes of a linked list (object 5 has member 10 pointing to object 6), p = p->next, then p = p *)
Definition ex_hist : list op :=
  [New 1 None 5%Z false; New 10 (Some 5%Z) 6%Z false; Assign 1 10; Assign 1 1; Copy 2 None 1; Reset 1 8%Z false; Swap 1 2; Destroy 2].
Example C10_ex : legal_history heap0 ex_hist /\ exists h, run heap0 ex_hist = Ok h /\ log h = [8%Z; 5%Z].
Proof.
  split; [|eexists; split; vm_compute; reflexivity].
  unfold ex_hist.
  constructor; [cbn; repeat split; auto; right; cbn; tauto|intros ? E; vm_compute in E; injection E as <-].
  constructor; [cbn; repeat split; try lia; auto; right; cbn; lia|intros ? E; vm_compute in E; injection E as <-].
  constructor; [cbn; split; auto; eexists; split; [right; left; reflexivity|split; reflexivity]|intros ? E; vm_compute in E; injection E as <-].
  constructor; [cbn; split; auto; eexists; split; [left; reflexivity|split; reflexivity]|intros ? E; vm_compute in E; injection E as <-].
  constructor; [cbn; repeat split; auto|intros ? E; vm_compute in E; injection E as <-].
  constructor; [cbn; repeat split; auto; left; right; cbn; lia|intros ? E; vm_compute in E; injection E as <-].
  constructor; [cbn; repeat split; auto|intros ? E; vm_compute in E; injection E as <-].
  constructor; [cbn; repeat split; auto|intros ? E; vm_compute in E; injection E as <-].
  constructor.
Qed.

(** ---- C11 ---- *)
(** for every history allowed by the scoping rules, with interrupts at arbitrary moments (also in the middle of
    constructors and destructors): nothing undefined happens; while at least one object exists triggered() tells exactly
    whether an interrupt arrived since the outermost object came into force; all other interrupts are delivered, in order,
    to the handler installed outside; and when no object exists that handler is installed *)
Theorem C11_nested_handlers : forall f h l v, history (mkView 0 Idle h false []) l v ->
  exists s, cb_run (cb_init f h) l = Ok s /\
    (0 < depth v -> triggered s = seen v) /\
    delivered s = outside v /\
    (depth v = 0 -> handler s = Some (outer v)).
Proof.
  intros f h l v H. destruct (run_matches (cb_init f h) (mkView 0 Idle h false []) l v) as (s & E & A & B & C & D); [|exact H|].
  { unfold matches. cbn. repeat split; auto. intros [G|G]; [lia|discriminate]. }
  exists s. split; [exact E|]. split; [intros G; apply C; left; exact G|]. split; [exact D|]. intros G. rewrite B. unfold top_handler. rewrite G. reflexivity.
Qed.
(** an interrupt received while an object is in force remains visible until the outermost object is destroyed, whatever
    nested objects are created and destroyed meanwhile *)
Theorem C11_interrupt_persists : forall f h l v, history (mkView 0 Idle h false []) l v -> seen v = true -> 0 < depth v ->
  forall l' v', history v l' v' -> (forall k v1, history v (firstn k l') v1 -> 0 < depth v1) ->
  exists s, cb_run (cb_init f h) (l ++ l') = Ok s /\ triggered s = true.
Proof.
  intros f h l v H Hs Hd l' v' H' Hk.
  assert (HA : forall a x b c y, history x a b -> history b c y -> history x (a ++ c) y).
  { clear. induction a as [|e a IH]; intros x b c y H1 H2; inversion H1; subst; [exact H2|]. cbn. econstructor; [eassumption|eapply IH; eassumption]. }
  destruct (C11_nested_handlers f h (l ++ l') v') as (s & E & T & _ & _). { eapply HA; eassumption. }
  exists s. split; [exact E|].
  assert (S : seen v' = true /\ 0 < depth v').
  { clear -H' Hs Hd Hk. revert Hs Hd Hk. induction H' as [v|v e v1 l v2 A H IH]; intros Hs Hd Hk; [auto|].
    assert (Hd1 : 0 < depth v1). { apply (Hk 1). cbn. econstructor; [exact A|constructor]. }
    apply IH; [|exact Hd1|].
    - inversion A; subst; cbn in *; auto; try lia.
      + destruct d; [lia|]. cbn. exact Hs.
      + destruct (match d with 0 => false | S O => match p with InDtor => false | _ => true end | _ => true end); cbn; auto.
    - intros k v3 Hk3. apply (Hk (S k)). cbn. econstructor; eassumption. }
  rewrite T by apply S. apply S.
Qed.
Example C11_ex : exists v, history (mkView 0 Idle 3 false [])
  [Interrupt; CtorClear; Interrupt; CtorInstall; CtorClear; CtorInstall; Interrupt; DtorRestore; DtorPop] v /\ seen v = true /\ depth v = 1 /\ outside v = [3; 3].
Proof. eexists. split; [repeat econstructor|cbn; auto]. Qed.
Print Assumptions C10_disposed_exactly_once.
Print Assumptions C11_nested_handlers.
