(** Ferrers potential: derivatives of the coefficients by lambda *)
From Coq Require Import Reals Lra Psatz Bool.
From Coquelicot Require Import Coquelicot.
From Verif Require Import RandReal RandRealProofs PolyModel PolyProofs CoordModel CoordSpec CoordCalc RootProofs DiskModel DfProofs DfProofs2 FerrersModel FerrersSpec.
Local Open Scope R_scope.

Lemma asin_derive (x : R) : -1 < x < 1 -> is_derive asin x (1 / sqrt (1 - x ^ 2)).
Proof.
  intros K. apply is_derive_Reals. replace (1 / sqrt (1 - x ^ 2)) with (derive_pt asin x (derivable_pt_asin x K)); [apply derive_pt_eq_1 with (derivable_pt_asin x K); reflexivity|].
  rewrite derive_pt_asin. unfold Rsqr. replace (1 - x ^ 2) with (1 - x * x) by ring. reflexivity.
Qed.
Section Ell.
Variable k : R.
Hypothesis K : 0 <= k < 1.
Lemma ell_dom t : 0 < 1 - (k * sin t) ^ 2.
Proof. pose proof (SIN_bound t). assert (k * sin t < 1) by nra. assert (-1 < k * sin t) by nra. nra. Qed.
Lemma ellF_derive (phi : R) : is_derive (fun p => ellintF p k) phi (1 / sqrt (1 - (k * sin phi) ^ 2)).
Proof.
  unfold ellintF. assert (C : forall t, continuous (fun t => 1 / sqrt (1 - (k * sin t) ^ 2)) t).
  { intros t. apply (ex_derive_continuous (fun t => 1 / sqrt (1 - (k * sin t) ^ 2)) t). pose proof (ell_dom t) as D. pose proof (sqrt_lt_R0 _ D). auto_derive. cbn in D, H |- *. unfold Rminus in *. repeat split; lra. }
  apply (is_derive_RInt (fun t => 1 / sqrt (1 - (k * sin t) ^ 2)) (fun p => RInt (fun t => 1 / sqrt (1 - (k * sin t) ^ 2)) 0 p) 0 phi); [|apply C].
  apply filter_forall. intros p. apply (RInt_correct (V := R_CompleteNormedModule)). apply (ex_RInt_continuous (V := R_CompleteNormedModule)). intros z _. apply C.
Qed.
Lemma ellE_derive (phi : R) : is_derive (fun p => ellintE p k) phi (sqrt (1 - (k * sin phi) ^ 2)).
Proof.
  unfold ellintE. assert (C : forall t, continuous (fun t => sqrt (1 - (k * sin t) ^ 2)) t).
  { intros t. apply (ex_derive_continuous (fun t => sqrt (1 - (k * sin t) ^ 2)) t). pose proof (ell_dom t) as D. auto_derive. cbn in D |- *. unfold Rminus in *. repeat split; lra. }
  apply (is_derive_RInt (fun t => sqrt (1 - (k * sin t) ^ 2)) (fun p => RInt (fun t => sqrt (1 - (k * sin t) ^ 2)) 0 p) 0 phi); [|apply C].
  apply filter_forall. intros p. apply (RInt_correct (V := R_CompleteNormedModule)). apply (ex_RInt_continuous (V := R_CompleteNormedModule)). intros z _. apply C.
Qed.
End Ell.

Definition fvalid (P : ferrers) : Prop := 0 < fc P /\ fc P < fb P /\ fb P < fa P.
Section W.
Variable P : ferrers.
Hypothesis V : fvalid P.
Let a := fa P. Let b := fb P. Let c := fc P.
Let ab2 := a * a - b * b. Let ac2 := a * a - c * c. Let bc2 := b * b - c * c.
Let ab := sqrt ab2. Let ac := sqrt ac2.
Lemma ord : 0 < c /\ 0 < b /\ 0 < a /\ 0 < ab2 /\ 0 < ac2 /\ 0 < bc2 /\ ab2 < ac2.
Proof. destruct V as (V1 & V2 & V3). unfold ab2, ac2, bc2, a, b, c. repeat split; nra. Qed.
Lemma ac_pos : 0 < ac /\ ac * ac = ac2. Proof. destruct ord as (_ & _ & _ & _ & K & _). split; [apply sqrt_lt_R0, K|apply sqrt_sqrt; unfold ac2 in *; lra]. Qed.
Lemma ab_pos : 0 < ab /\ ab * ab = ab2. Proof. destruct ord as (_ & _ & _ & K & _). split; [apply sqrt_lt_R0, K|apply sqrt_sqrt; lra]. Qed.
Lemma k_ok : 0 <= ab / ac < 1.
Proof. destruct ac_pos as (A1 & A2). destruct ab_pos as (B1 & B2). destruct ord as (_ & _ & _ & _ & _ & _ & L). split; [left; apply Rdiv_lt_0_compat; assumption|]. apply (Rmult_lt_reg_r ac); [exact A1|]. unfold Rdiv. rewrite Rmult_assoc, Rinv_l, Rmult_1_r, Rmult_1_l by lra. clear - A1 A2 B1 B2 L. clearbody ab ac ab2 ac2. nra. Qed.
(** the domain: lambda > -c^2 *)
Definition dn (l : R) := sqrt ((l + a * a) * (l + b * b) * (l + c * c)).
Lemma abc_pos l : - (c * c) < l -> 0 < l + a * a /\ 0 < l + b * b /\ 0 < l + c * c.
Proof. intros K. destruct V as (V1 & V2 & V3). unfold a, b, c in *. repeat split; nra. Qed.
Lemma dn_pos l : - (c * c) < l -> 0 < dn l /\ dn l * dn l = (l + a * a) * (l + b * b) * (l + c * c).
Proof. intros K. destruct (abc_pos l K) as (A & B & C). assert (0 < (l + a * a) * (l + b * b) * (l + c * c)) by (repeat apply Rmult_lt_0_compat; assumption). split; [apply sqrt_lt_R0; assumption|apply sqrt_sqrt; lra]. Qed.
Lemma dn_derive l : - (c * c) < l -> is_derive dn l (dn l / 2 * (/ (l + a * a) + / (l + b * b) + / (l + c * c))).
Proof.
  intros K. destruct (abc_pos l K) as (A & B & C). destruct (dn_pos l K) as (D1 & D2). unfold dn. assert (0 < (l + a * a) * (l + b * b) * (l + c * c)) by (repeat apply Rmult_lt_0_compat; assumption).
  auto_derive; [repeat split; assumption|]. fold (dn l). apply (Rmult_eq_reg_l (2 * dn l)); [|lra]. clear - A B C D1 D2. set (d := dn l) in *. clearbody d.
  set (p1 := l + a * a) in *. set (p2 := l + b * b) in *. set (p3 := l + c * c) in *. clearbody p1 p2 p3.
  replace (2 * d * (d / 2 * (/ p1 + / p2 + / p3))) with (d * d * (/ p1 + / p2 + / p3)) by (field; repeat split; lra). rewrite D2. field. repeat split; lra.
Qed.
(** amplitude *)
Lemma amp l : - (c * c) < l -> 0 < sqrt (ac2 / (a * a + l)) < 1 /\ sqrt (ac2 / (a * a + l)) ^ 2 = ac2 / (l + a * a).
Proof.
  intros K. destruct (abc_pos l K) as (A & B & C). destruct ord as (_ & _ & _ & _ & O & _). assert (0 < ac2 / (a * a + l)) by (apply Rdiv_lt_0_compat; lra).
  assert (ac2 / (a * a + l) < 1) by (apply (Rmult_lt_reg_r (a * a + l)); [lra|unfold Rdiv; rewrite Rmult_assoc, Rinv_l by lra; unfold ac2; lra]).
  split; [split; [apply sqrt_lt_R0; assumption|rewrite <- sqrt_1; apply sqrt_lt_1; lra]|]. replace (l + a * a) with (a * a + l) by ring. cbn. rewrite Rmult_1_r. apply sqrt_sqrt. lra.
Qed.
Lemma phi_derive l : - (c * c) < l -> is_derive (fun x => asin (sqrt (ac2 / (a * a + x)))) l (- (ac * sqrt (l + c * c)) / (2 * (l + a * a) * (l + c * c))).
Proof.
  intros K. destruct (abc_pos l K) as (A & B & C). destruct (amp l K) as ((S1 & S2) & S3). destruct ac_pos as (A1 & A2). assert (A' : 0 < ac2 / (a * a + l)) by (destruct ord as (_ & _ & _ & _ & O & _); apply Rdiv_lt_0_compat; lra).
  assert (D1 : is_derive (fun x => sqrt (ac2 / (a * a + x))) l (- ac2 / (a * a + l) ^ 2 / (2 * sqrt (ac2 / (a * a + l))))).
  { auto_derive; [repeat split; [lra|exact A']|]. clear - S1 A. unfold Rdiv in *. set (sq := sqrt _) in *. clearbody sq. assert (a * a + l <> 0) by lra. set (p1 := a * a + l) in *. clearbody p1. set (u := ac2) in *; clearbody u. field. split; lra. }
  pose proof (comp_derive asin (fun x => sqrt (ac2 / (a * a + x))) l _ _ (asin_derive (sqrt (ac2 / (a * a + l))) ltac:(lra)) D1) as D. cbv beta in D.
  rewrite S3 in D. assert (E1 : 1 - ac2 / (l + a * a) = (l + c * c) / (l + a * a)) by (unfold ac2; field; lra). rewrite E1 in D.
  assert (Es : sqrt (ac2 / (a * a + l)) = ac / sqrt (l + a * a)) by (replace (a * a + l) with (l + a * a) by ring; apply sqrt_div; [destruct ord as (_ & _ & _ & _ & O & _); clear - O; lra|exact A]). rewrite Es in D. rewrite sqrt_div in D by lra.
  pose proof (sqrt_lt_R0 _ A) as Q1. pose proof (sqrt_sqrt (l + a * a) ltac:(lra)) as Q2. pose proof (sqrt_lt_R0 _ C) as Q3. pose proof (sqrt_sqrt (l + c * c) ltac:(lra)) as Q4.
  match type of D with is_derive _ _ ?x => replace (- (ac * sqrt (l + c * c)) / (2 * (l + a * a) * (l + c * c))) with x; [exact D|] end.
  rewrite <- A2. replace (a * a + l) with (l + a * a) by ring. rewrite <- Q2, <- Q4. clear - Q1 Q3 A1. set (s := sqrt (l + a * a)) in *. set (t := sqrt (l + c * c)) in *. clearbody s t ac.
  rewrite (sqrt_square s), (sqrt_square t) by lra. field. repeat split; lra.
Qed.
Definition Ff (l : R) := ellintF (asin (sqrt (ac2 / (a * a + l)))) (ab / ac).
Definition Ef (l : R) := ellintE (asin (sqrt (ac2 / (a * a + l)))) (ab / ac).
Lemma arg_sqrt l : - (c * c) < l -> sqrt (1 - (ab / ac * sin (asin (sqrt (ac2 / (a * a + l))))) ^ 2) = sqrt (l + b * b) / sqrt (l + a * a).
Proof.
  intros K. destruct (abc_pos l K) as (A & B & C). destruct (amp l K) as ((S1 & S2) & S3). destruct ac_pos as (A1 & A2). destruct ab_pos as (B1 & B2). rewrite sin_asin by lra. rewrite Rpow_mult_distr, S3. rewrite <- sqrt_div by lra. f_equal.
  unfold Rdiv at 1. rewrite Rpow_mult_distr. replace (ab ^ 2) with ab2 by (cbn; lra). replace ((/ ac) ^ 2) with (/ ac2) by (rewrite <- A2; field; lra). destruct ord as (_ & _ & _ & _ & O & _). replace (ab2) with ((l + a * a) - (l + b * b)) by (unfold ab2; ring). clear - A O. set (s := l + a * a) in *. set (t := l + b * b). set (u := ac2) in *. clearbody s t u. field. lra.
Qed.
Lemma F_derive l : - (c * c) < l -> is_derive Ff l (- ac / (2 * dn l)).
Proof.
  intros K. destruct (abc_pos l K) as (A & B & C). pose proof (comp_derive (fun p => ellintF p (ab / ac)) (fun x => asin (sqrt (ac2 / (a * a + x)))) l _ _ (ellF_derive (ab / ac) k_ok _) (phi_derive l K)) as D. cbv beta in D. rewrite (arg_sqrt l K) in D.
  pose proof (sqrt_lt_R0 _ A) as Q1. pose proof (sqrt_sqrt (l + a * a) ltac:(lra)) as Q2. pose proof (sqrt_lt_R0 _ C) as Q3. pose proof (sqrt_sqrt (l + c * c) ltac:(lra)) as Q4. pose proof (sqrt_lt_R0 _ B) as Q5.
  assert (E : dn l = sqrt (l + a * a) * sqrt (l + b * b) * sqrt (l + c * c)) by (unfold dn; rewrite !sqrt_mult by (try apply Rmult_le_pos; lra); reflexivity). rewrite E.
  match type of D with is_derive _ _ ?x => replace (- ac / (2 * (sqrt (l + a * a) * sqrt (l + b * b) * sqrt (l + c * c)))) with x; [exact D|] end.
  set (s := sqrt (l + a * a)) in *. set (t := sqrt (l + c * c)) in *. set (u := sqrt (l + b * b)) in *. clear - Q1 Q2 Q3 Q4 Q5. rewrite <- Q2, <- Q4. clearbody s t u ac. field. repeat split; lra.
Qed.
Lemma E_derive l : - (c * c) < l -> is_derive Ef l (- ac * (l + b * b) / (2 * dn l * (l + a * a))).
Proof.
  intros K. destruct (abc_pos l K) as (A & B & C). pose proof (comp_derive (fun p => ellintE p (ab / ac)) (fun x => asin (sqrt (ac2 / (a * a + x)))) l _ _ (ellE_derive (ab / ac) k_ok _) (phi_derive l K)) as D. cbv beta in D. rewrite (arg_sqrt l K) in D.
  pose proof (sqrt_lt_R0 _ A) as Q1. pose proof (sqrt_sqrt (l + a * a) ltac:(lra)) as Q2. pose proof (sqrt_lt_R0 _ C) as Q3. pose proof (sqrt_sqrt (l + c * c) ltac:(lra)) as Q4. pose proof (sqrt_lt_R0 _ B) as Q5. pose proof (sqrt_sqrt (l + b * b) ltac:(lra)) as Q6.
  assert (E : dn l = sqrt (l + a * a) * sqrt (l + b * b) * sqrt (l + c * c)) by (unfold dn; rewrite !sqrt_mult by (try apply Rmult_le_pos; lra); reflexivity). rewrite E.
  match type of D with is_derive _ _ ?x => replace (- ac * (l + b * b) / (2 * (sqrt (l + a * a) * sqrt (l + b * b) * sqrt (l + c * c)) * (l + a * a))) with x; [exact D|] end.
  set (s := sqrt (l + a * a)) in *. set (t := sqrt (l + c * c)) in *. set (u := sqrt (l + b * b)) in *. clear - Q1 Q2 Q3 Q4 Q5 Q6. rewrite <- Q2, <- Q4, <- Q6. clearbody s t u ac. field. repeat split; lra.
Qed.
Lemma d2 (f g : R -> R) (k l df dg : R) : is_derive f l df -> is_derive g l dg -> is_derive (fun x => (f x - g x) / k) l ((df - dg) / k).
Proof. intros A B. unfold Rdiv. auto_derive; [repeat split; eexists; eassumption|]. der f A. der g B. ring. Qed.
Lemma d2n (f g : R -> R) (k l df dg : R) : is_derive f l df -> is_derive g l dg -> is_derive (fun x => - (f x - g x) / k) l (- (df - dg) / k).
Proof. intros A B. unfold Rdiv. auto_derive; [repeat split; eexists; eassumption|]. der f A. der g B. ring. Qed.
Lemma d3 (f g h : R -> R) (k l df dg dh : R) : is_derive f l df -> is_derive g l dg -> is_derive h l dh -> is_derive (fun x => (f x - g x - h x) / k) l ((df - dg - dh) / k).
Proof. intros A B C. unfold Rdiv. auto_derive; [repeat split; eexists; eassumption|]. der f A. der g B. der h C. ring. Qed.
Lemma eqd (f : R -> R) (l d e : R) : is_derive f l d -> d = e -> is_derive f l e. Proof. intros A <-. exact A. Qed.

(** each coefficient W_ijk has the derivative -1/(denom (a^2+l)^i (b^2+l)^j (c^2+l)^k) *)
Definition q (l : R) (i j k : nat) : R := - (1 / (dn l * (l + a * a) ^ i * (l + b * b) ^ j * (l + c * c) ^ k)).
Definition dtab (W W' : R -> wtab) (l : R) : Prop :=
  is_derive (fun x => w0 (W x)) l (w0 (W' l)) /\ is_derive (fun x => w1 (W x)) l (w1 (W' l)) /\ is_derive (fun x => w2 (W x)) l (w2 (W' l)) /\ is_derive (fun x => w3 (W x)) l (w3 (W' l)) /\
  is_derive (fun x => w4 (W x)) l (w4 (W' l)) /\ is_derive (fun x => w5 (W x)) l (w5 (W' l)) /\ is_derive (fun x => w6 (W x)) l (w6 (W' l)) /\ is_derive (fun x => w7 (W x)) l (w7 (W' l)) /\
  is_derive (fun x => w8 (W x)) l (w8 (W' l)) /\ is_derive (fun x => w9 (W x)) l (w9 (W' l)) /\ is_derive (fun x => w10 (W x)) l (w10 (W' l)) /\ is_derive (fun x => w11 (W x)) l (w11 (W' l)) /\
  is_derive (fun x => w12 (W x)) l (w12 (W' l)) /\ is_derive (fun x => w13 (W x)) l (w13 (W' l)) /\ is_derive (fun x => w14 (W x)) l (w14 (W' l)) /\ is_derive (fun x => w15 (W x)) l (w15 (W' l)) /\
  is_derive (fun x => w16 (W x)) l (w16 (W' l)) /\ is_derive (fun x => w17 (W x)) l (w17 (W' l)) /\ is_derive (fun x => w18 (W x)) l (w18 (W' l)) /\ is_derive (fun x => w19 (W x)) l (w19 (W' l)).
Definition Wq (l : R) : wtab := mkW (q l 0 0 0) (q l 1 0 0) (q l 0 1 0) (q l 0 0 1) (q l 1 1 0) (q l 0 1 1) (q l 1 0 1) (q l 2 0 0) (q l 0 2 0) (q l 0 0 2) (q l 1 1 1) (q l 1 2 0) (q l 0 1 2) (q l 2 0 1) (q l 2 1 0) (q l 0 2 1) (q l 1 0 2) (q l 3 0 0) (q l 0 3 0) (q l 0 0 3).
Lemma W_derive l : - (c * c) < l -> dtab (computeW P) Wq l.
Proof.
  intros K. destruct (abc_pos l K) as (A & B & C). destruct (dn_pos l K) as (D1 & D2). pose proof (dn_derive l K) as DD. pose proof (F_derive l K) as DF. pose proof (E_derive l K) as DE.
  destruct ac_pos as (A1 & A2). destruct ord as (_ & _ & _ & O1 & O2 & O3 & _).
  assert (EA : ab2 = (l + a * a) - (l + b * b)) by (unfold ab2; ring). assert (EB : bc2 = (l + b * b) - (l + c * c)) by (unfold bc2; ring). assert (EC : ac2 = (l + a * a) - (l + c * c)) by (unfold ac2; ring).
  assert (NA : l + a * a - (l + b * b) <> 0) by lra. assert (NB : l + b * b - (l + c * c) <> 0) by lra. assert (NC : l + a * a - (l + c * c) <> 0) by lra.
  Ltac fin := unfold q; cbn [w0 w1 w2 w3 w4 w5 w6 w7 w8 w9 w10 w11 w12 w13 w14 w15 w16 w17 w18 w19 Wq]; unfold q.
  (* inverse powers *)
  assert (I0 : is_derive (fun x => 2 / dn x) l (- (/ (l + a * a) + / (l + b * b) + / (l + c * c)) / dn l)).
  { clear - DD D1 A B C. auto_derive; [split; [eexists; exact DD|split; [lra|exact Logic.I]]|]. der dn DD. set (d := dn l) in *. clearbody d. field. repeat split; lra. }
  assert (IX : forall (m : R), 0 < l + m -> is_derive (fun x => 2 / dn x / (m + x)) l (- (/ (l + a * a) + / (l + b * b) + / (l + c * c)) / dn l / (l + m) - 2 / dn l / (l + m) ^ 2)).
  { intros m M. clear - DD D1 A B C M. auto_derive; [repeat split; [eexists; exact DD|lra|lra]|]. der dn DD. set (d := dn l) in *. clearbody d. field. repeat split; lra. }
  assert (IX2 : forall (m : R), 0 < l + m -> is_derive (fun x => 2 / dn x / pow_2 (m + x)) l (- (/ (l + a * a) + / (l + b * b) + / (l + c * c)) / dn l / (l + m) ^ 2 - 4 / dn l / (l + m) ^ 3)).
  { intros m M. clear - DD D1 A B C M. unfold pow_2. auto_derive; [repeat split; [eexists; exact DD|lra|nra]|]. der dn DD. set (d := dn l) in *. clearbody d. field. repeat split; lra. }
  set (S0 := fun x => computeW P x).
  assert (W0d : is_derive (fun x => w0 (S0 x)) l (q l 0 0 0)).
  { eapply eqd; [apply (is_derive_ext (fun x => 2 / ac * Ff x)); [intros x; change (@eq R (2 / ac * Ff x) (2 * Ff x / ac)); unfold Rdiv; ring|apply (is_derive_scal Ff l _ _ DF)]|]. unfold q. cbn [pow]. clear - A1 D1. set (d := dn l) in *. clearbody d ac. field. split; lra. }
  assert (W1d : is_derive (fun x => w1 (S0 x)) l (q l 1 0 0)).
  { eapply eqd; [apply (is_derive_ext (fun x => (Ff x - Ef x) / (ab2 * ac / 2))); [intros x; change (@eq R ((Ff x - Ef x) / (ab2 * ac / 2)) (2 * (Ff x - Ef x) / (ab2 * ac))); clear - A1 O1; field; split; lra|apply (d2 Ff Ef _ l _ _ DF DE)]|]. unfold q. cbn [pow]. rewrite EA. clear - A1 D1 A NA. set (d := dn l) in *. set (s := l + a * a) in *. set (t := l + b * b) in *. clearbody d ac s t. field. repeat split; lra. }
  assert (W3d : is_derive (fun x => w3 (S0 x)) l (q l 0 0 1)).
  { assert (T : is_derive (fun x => 2 / bc2 * (b * b + x) / dn x) l (2 / bc2 * (1 / dn l - (l + b * b) / (2 * dn l) * (/ (l + a * a) + / (l + b * b) + / (l + c * c))))).
    { clear - DD D1 A B C O3. auto_derive; [repeat split; [eexists; exact DD|lra]|]. der dn DD. set (d := dn l) in *. clearbody d bc2. field. repeat split; lra. }
    assert (T2 : is_derive (fun x => 2 * Ef x / bc2 / ac) l (2 * (- ac * (l + b * b) / (2 * dn l * (l + a * a))) / bc2 / ac)).
    { clear - DE. unfold Rdiv in *. auto_derive; [eexists; exact DE|]. der Ef DE. ring. }
    eapply eqd; [apply (is_derive_minus _ _ l _ _ T T2)|]. unfold q, minus, plus, opp. cbn. rewrite EB. clear - A1 D1 A B C NB. set (d := dn l) in *. set (s := l + a * a) in *. set (t := l + b * b) in *. set (u := l + c * c) in *. clearbody d ac s t u. field. repeat split; lra. }
  assert (W2d : is_derive (fun x => w2 (S0 x)) l (q l 0 1 0)).
  { eapply eqd; [apply (is_derive_ext (fun x => (2 / dn x - w1 (S0 x) - w3 (S0 x)) / 1)); [intros x; change (@eq R ((2 / dn x - w1 (S0 x) - w3 (S0 x)) / 1) (2 / dn x - w1 (S0 x) - w3 (S0 x))); unfold Rdiv at 1; rewrite Rinv_1; apply Rmult_1_r|apply (d3 _ _ _ 1 l _ _ _ I0 W1d W3d)]|]. unfold q. cbn [pow]. match goal with |- ?x = ?y => change (@eq R x y) end. clear - D1 A B C. set (d := dn l) in *. set (s := l + a * a) in *. set (t := l + b * b) in *. set (u := l + c * c) in *. clearbody d s t u. field. repeat split; lra. }
  Ltac go D1 A B C NA NB NC := unfold q; cbn [pow]; match goal with |- ?x = ?y => change (@eq R x y) end; clear - D1 A B C NA NB NC; set (d := dn _) in *; set (s := _ + a * a) in *; set (t := _ + b * b) in *; set (u := _ + c * c) in *; clearbody d s t u; field; repeat split; lra.
  assert (W4d : is_derive (fun x => w4 (S0 x)) l (q l 1 1 0)) by (eapply eqd; [apply (d2 _ _ ab2 l _ _ W2d W1d)|rewrite EA; go D1 A B C NA NB NC]).
  assert (W5d : is_derive (fun x => w5 (S0 x)) l (q l 0 1 1)) by (eapply eqd; [apply (d2 _ _ bc2 l _ _ W3d W2d)|rewrite EB; go D1 A B C NA NB NC]).
  assert (W6d : is_derive (fun x => w6 (S0 x)) l (q l 1 0 1)) by (eapply eqd; [apply (d2n _ _ ac2 l _ _ W1d W3d)|rewrite EC; go D1 A B C NA NB NC]).
  assert (W7d : is_derive (fun x => w7 (S0 x)) l (q l 2 0 0)) by (eapply eqd; [apply (d3 _ _ _ 3 l _ _ _ (IX (a * a) A) W4d W6d)|go D1 A B C NA NB NC]).
  assert (W8d : is_derive (fun x => w8 (S0 x)) l (q l 0 2 0)) by (eapply eqd; [apply (d3 _ _ _ 3 l _ _ _ (IX (b * b) B) W5d W4d)|go D1 A B C NA NB NC]).
  assert (W9d : is_derive (fun x => w9 (S0 x)) l (q l 0 0 2)) by (eapply eqd; [apply (d3 _ _ _ 3 l _ _ _ (IX (c * c) C) W6d W5d)|go D1 A B C NA NB NC]).
  assert (W10d : is_derive (fun x => w10 (S0 x)) l (q l 1 1 1)) by (eapply eqd; [apply (d2n _ _ ac2 l _ _ W4d W5d)|rewrite EC; go D1 A B C NA NB NC]).
  assert (W11d : is_derive (fun x => w11 (S0 x)) l (q l 1 2 0)) by (eapply eqd; [apply (d2 _ _ ab2 l _ _ W8d W4d)|rewrite EA; go D1 A B C NA NB NC]).
  assert (W12d : is_derive (fun x => w12 (S0 x)) l (q l 0 1 2)) by (eapply eqd; [apply (d2 _ _ bc2 l _ _ W9d W5d)|rewrite EB; go D1 A B C NA NB NC]).
  assert (W13d : is_derive (fun x => w13 (S0 x)) l (q l 2 0 1)) by (eapply eqd; [apply (d2n _ _ ac2 l _ _ W7d W6d)|rewrite EC; go D1 A B C NA NB NC]).
  assert (W14d : is_derive (fun x => w14 (S0 x)) l (q l 2 1 0)) by (eapply eqd; [apply (d2 _ _ ab2 l _ _ W4d W7d)|rewrite EA; go D1 A B C NA NB NC]).
  assert (W15d : is_derive (fun x => w15 (S0 x)) l (q l 0 2 1)) by (eapply eqd; [apply (d2 _ _ bc2 l _ _ W5d W8d)|rewrite EB; go D1 A B C NA NB NC]).
  assert (W16d : is_derive (fun x => w16 (S0 x)) l (q l 1 0 2)) by (eapply eqd; [apply (d2n _ _ ac2 l _ _ W6d W9d)|rewrite EC; go D1 A B C NA NB NC]).
  assert (W17d : is_derive (fun x => w17 (S0 x)) l (q l 3 0 0)) by (eapply eqd; [apply (d3 _ _ _ 5 l _ _ _ (IX2 (a * a) A) W14d W13d)|go D1 A B C NA NB NC]).
  assert (W18d : is_derive (fun x => w18 (S0 x)) l (q l 0 3 0)) by (eapply eqd; [apply (d3 _ _ _ 5 l _ _ _ (IX2 (b * b) B) W15d W11d)|go D1 A B C NA NB NC]).
  assert (W19d : is_derive (fun x => w19 (S0 x)) l (q l 0 0 3)) by (eapply eqd; [apply (d3 _ _ _ 5 l _ _ _ (IX2 (c * c) C) W16d W12d)|go D1 A B C NA NB NC]).
  unfold dtab. cbn [Wq w0 w1 w2 w3 w4 w5 w6 w7 w8 w9 w10 w11 w12 w13 w14 w15 w16 w17 w18 w19]. repeat (split; [assumption|]). assumption.
Qed.
End W.
