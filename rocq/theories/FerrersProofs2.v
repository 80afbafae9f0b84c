(** Ferrers potential: derivatives of the polynomial by position and by lambda; Laplacian *)
From Coq Require Import Reals Lra Psatz Bool.
From Coquelicot Require Import Coquelicot.
From Verif Require Import RandReal RandRealProofs PolyModel PolyProofs CoordModel CoordSpec CoordCalc CoordMaps RootProofs PotModel PotSpec DiskModel DfProofs DfProofs2 FerrersModel FerrersSpec FerrersProofs.
Local Open Scope R_scope.

Definition nval (P : ferrers) (W : wtab) (p : vec3) : R := fst (fst (ferNear P W p)).
Definition ngrad (P : ferrers) (W : wtab) (p : vec3) : vec3 := snd (fst (ferNear P W p)).
Definition nhess (P : ferrers) (W : wtab) (p : vec3) : hess6 := snd (ferNear P W p).
Ltac nopen := unfold nval, ngrad, nhess, ferNear, pow_2, CoordModel.v1, v2, v3 in *; cbn [fst snd h11 h12 h13 h22 h23 h33] in *.
(** for constant coefficients *)
Lemma near_grad P W p : is_grad (nval P W) p (ngrad P W p).
Proof. destruct p as [[x y] z]. gcurve. nopen. auto_derive; [gside|]. gfin. field. Qed.
Lemma near_h1 P W p : is_grad (fun q => v1 (ngrad P W q)) p (h11 (nhess P W p), h12 (nhess P W p), h13 (nhess P W p)).
Proof. destruct p as [[x y] z]. gcurve. nopen. auto_derive; [gside|]. gfin. ring. Qed.
Lemma near_h2 P W p : is_grad (fun q => v2 (ngrad P W q)) p (h12 (nhess P W p), h22 (nhess P W p), h23 (nhess P W p)).
Proof. destruct p as [[x y] z]. gcurve. nopen. auto_derive; [gside|]. gfin. ring. Qed.
Lemma near_h3 P W p : is_grad (fun q => v3 (ngrad P W q)) p (h13 (nhess P W p), h23 (nhess P W p), h33 (nhess P W p)).
Proof. destruct p as [[x y] z]. gcurve. nopen. auto_derive; [gside|]. gfin. ring. Qed.

Section L.
Variable P : ferrers.
Hypothesis V : fvalid P.
Let K0 := PI * frho0 P * fa P * fb P * fc P.
Lemma dom_c l : - (fc P * fc P) < l -> 0 < fa P ^ 2 + l /\ 0 < fb P ^ 2 + l /\ 0 < fc P ^ 2 + l.
Proof. intros H. destruct (abc_pos P V l H) as (A & B & C). repeat split; lra. Qed.
Lemma comb (f : R -> R) (l d : R) : is_derive f l d -> forall k, is_derive (fun x => k * f x) l (k * d).
Proof. intros D k. apply (is_derive_scal f l k d D). Qed.
Lemma add2 (f g : R -> R) (l d e : R) : is_derive f l d -> is_derive g l e -> is_derive (fun x => f x + g x) l (d + e).
Proof. intros D E. apply (is_derive_plus f g l d e D E). Qed.
Opaque computeW.
Lemma qi l i j k : - (fc P * fc P) < l -> q P l i j k = - (/ dn P l * (/ (l + fa P * fa P)) ^ i * (/ (l + fb P * fb P)) ^ j * (/ (l + fc P * fc P)) ^ k).
Proof. intros H. destruct (abc_pos P V l H) as (A & B & C). destruct (dn_pos P V l H) as (N & _). unfold q. rewrite !pow_inv. field. repeat split; try apply pow_nonzero; lra. Qed.
Lemma nval_l x y z l : - (fc P * fc P) < l -> is_derive (fun s => nval P (computeW P s) (x, y, z)) l (K0 / 3 * ((1 - ell P (x, y, z) l) ^ 3 / dn P l)).
Proof.
  intros H. destruct (W_derive P V l H) as (D0 & D1 & D2 & D3 & D4 & D5 & D6 & D7 & D8 & D9 & D10 & D11 & D12 & D13 & D14 & D15 & D16 & D17 & D18 & D19).
  destruct (abc_pos P V l H) as (A & B & C). destruct (dn_pos P V l H) as (N & _). set (k := - K0 / 3).
  eapply eqd.
  { apply (is_derive_ext (fun s => k * 1 * w0 (computeW P s) + (k * (- 3 * x ^ 2) * w1 (computeW P s) + (k * (- 3 * y ^ 2) * w2 (computeW P s) + (k * (- 3 * z ^ 2) * w3 (computeW P s) + (k * (6 * x ^ 2 * y ^ 2) * w4 (computeW P s) + (k * (6 * y ^ 2 * z ^ 2) * w5 (computeW P s) + (k * (6 * z ^ 2 * x ^ 2) * w6 (computeW P s) + (k * (3 * x ^ 4) * w7 (computeW P s) + (k * (3 * y ^ 4) * w8 (computeW P s) + (k * (3 * z ^ 4) * w9 (computeW P s) + (k * (- 6 * x ^ 2 * y ^ 2 * z ^ 2) * w10 (computeW P s) + (k * (- 3 * x ^ 2 * y ^ 4) * w11 (computeW P s) + (k * (- 3 * y ^ 2 * z ^ 4) * w12 (computeW P s) + (k * (- 3 * z ^ 2 * x ^ 4) * w13 (computeW P s) + (k * (- 3 * x ^ 4 * y ^ 2) * w14 (computeW P s) + (k * (- 3 * y ^ 4 * z ^ 2) * w15 (computeW P s) + (k * (- 3 * z ^ 4 * x ^ 2) * w16 (computeW P s) + (k * (- x ^ 6) * w17 (computeW P s) + (k * (- y ^ 6) * w18 (computeW P s) + (k * (- z ^ 6) * w19 (computeW P s))))))))))))))))))))));
      [intros s; match goal with |- ?u = ?v => change (@eq R u v) end; nopen; unfold k, K0; field|].
    exact (add2 _ _ l _ _ (comb _ l _ D0 _) (add2 _ _ l _ _ (comb _ l _ D1 _) (add2 _ _ l _ _ (comb _ l _ D2 _) (add2 _ _ l _ _ (comb _ l _ D3 _) (add2 _ _ l _ _ (comb _ l _ D4 _) (add2 _ _ l _ _ (comb _ l _ D5 _) (add2 _ _ l _ _ (comb _ l _ D6 _) (add2 _ _ l _ _ (comb _ l _ D7 _) (add2 _ _ l _ _ (comb _ l _ D8 _) (add2 _ _ l _ _ (comb _ l _ D9 _) (add2 _ _ l _ _ (comb _ l _ D10 _) (add2 _ _ l _ _ (comb _ l _ D11 _) (add2 _ _ l _ _ (comb _ l _ D12 _) (add2 _ _ l _ _ (comb _ l _ D13 _) (add2 _ _ l _ _ (comb _ l _ D14 _) (add2 _ _ l _ _ (comb _ l _ D15 _) (add2 _ _ l _ _ (comb _ l _ D16 _) (add2 _ _ l _ _ (comb _ l _ D17 _) (add2 _ _ l _ _ (comb _ l _ D18 _) (comb _ l _ D19 _)))))))))))))))))))). }
  cbn [Wq w0 w1 w2 w3 w4 w5 w6 w7 w8 w9 w10 w11 w12 w13 w14 w15 w16 w17 w18 w19]. rewrite !qi by exact H. unfold ell, v1, v2, v3, k. cbn [fst snd].
  replace (fa P ^ 2 + l) with (l + fa P * fa P) by ring. replace (fb P ^ 2 + l) with (l + fb P * fb P) by ring. replace (fc P ^ 2 + l) with (l + fc P * fc P) by ring.
  unfold Rdiv. rewrite ?Rinv_mult. set (d := / dn P l). set (s := / (l + fa P * fa P)). set (t := / (l + fb P * fb P)). set (u := / (l + fc P * fc P)). clear. clearbody d s t u K0. unfold Rdiv; ring.
Qed.
Lemma ngrad1_l x y z l : - (fc P * fc P) < l -> is_derive (fun s => v1 (ngrad P (computeW P s) (x, y, z))) l (- 2 * K0 * x * ((1 - ell P (x, y, z) l) ^ 2 / (dn P l * (l + fa P * fa P)))).
Proof.
  intros H. destruct (W_derive P V l H) as (D0 & D1 & D2 & D3 & D4 & D5 & D6 & D7 & D8 & D9 & D10 & D11 & D12 & D13 & D14 & D15 & D16 & D17 & D18 & D19).
  destruct (abc_pos P V l H) as (A & B & C). destruct (dn_pos P V l H) as (N & _). set (k := 2 * K0 * x).
  eapply eqd.
  { apply (is_derive_ext (fun s => k * 1 * w1 (computeW P s) + (k * (- 2 * x ^ 2) * w7 (computeW P s) + (k * (- 2 * y ^ 2) * w4 (computeW P s) + (k * (- 2 * z ^ 2) * w6 (computeW P s) + (k * (x ^ 4) * w17 (computeW P s) + (k * (2 * x ^ 2 * y ^ 2) * w14 (computeW P s) + (k * (y ^ 4) * w11 (computeW P s) + (k * (2 * y ^ 2 * z ^ 2) * w10 (computeW P s) + (k * (z ^ 4) * w16 (computeW P s) + (k * (2 * z ^ 2 * x ^ 2) * w13 (computeW P s))))))))))));
      [intros s; match goal with |- ?u = ?v => change (@eq R u v) end; nopen; unfold k, K0; ring|].
    exact (add2 _ _ l _ _ (comb _ l _ D1 _) (add2 _ _ l _ _ (comb _ l _ D7 _) (add2 _ _ l _ _ (comb _ l _ D4 _) (add2 _ _ l _ _ (comb _ l _ D6 _) (add2 _ _ l _ _ (comb _ l _ D17 _) (add2 _ _ l _ _ (comb _ l _ D14 _) (add2 _ _ l _ _ (comb _ l _ D11 _) (add2 _ _ l _ _ (comb _ l _ D10 _) (add2 _ _ l _ _ (comb _ l _ D16 _) (comb _ l _ D13 _)))))))))). }
  cbn [Wq w0 w1 w2 w3 w4 w5 w6 w7 w8 w9 w10 w11 w12 w13 w14 w15 w16 w17 w18 w19]. rewrite !qi by exact H. unfold ell, v1, v2, v3, k. cbn [fst snd].
  replace (fa P ^ 2 + l) with (l + fa P * fa P) by ring. replace (fb P ^ 2 + l) with (l + fb P * fb P) by ring. replace (fc P ^ 2 + l) with (l + fc P * fc P) by ring.
  unfold Rdiv. rewrite ?Rinv_mult. set (d := / dn P l). set (s := / (l + fa P * fa P)). set (t := / (l + fb P * fb P)). set (u := / (l + fc P * fc P)). clear. clearbody d s t u K0. ring.
Qed.
Lemma ngrad2_l x y z l : - (fc P * fc P) < l -> is_derive (fun s => v2 (ngrad P (computeW P s) (x, y, z))) l (- 2 * K0 * y * ((1 - ell P (x, y, z) l) ^ 2 / (dn P l * (l + fb P * fb P)))).
Proof.
  intros H. destruct (W_derive P V l H) as (D0 & D1 & D2 & D3 & D4 & D5 & D6 & D7 & D8 & D9 & D10 & D11 & D12 & D13 & D14 & D15 & D16 & D17 & D18 & D19).
  destruct (abc_pos P V l H) as (A & B & C). destruct (dn_pos P V l H) as (N & _). set (k := 2 * K0 * y).
  eapply eqd.
  { apply (is_derive_ext (fun s => k * 1 * w2 (computeW P s) + (k * (- 2 * x ^ 2) * w4 (computeW P s) + (k * (- 2 * y ^ 2) * w8 (computeW P s) + (k * (- 2 * z ^ 2) * w5 (computeW P s) + (k * (x ^ 4) * w14 (computeW P s) + (k * (2 * x ^ 2 * y ^ 2) * w11 (computeW P s) + (k * (y ^ 4) * w18 (computeW P s) + (k * (2 * y ^ 2 * z ^ 2) * w15 (computeW P s) + (k * (z ^ 4) * w12 (computeW P s) + (k * (2 * z ^ 2 * x ^ 2) * w10 (computeW P s))))))))))));
      [intros s; match goal with |- ?u = ?v => change (@eq R u v) end; nopen; unfold k, K0; ring|].
    exact (add2 _ _ l _ _ (comb _ l _ D2 _) (add2 _ _ l _ _ (comb _ l _ D4 _) (add2 _ _ l _ _ (comb _ l _ D8 _) (add2 _ _ l _ _ (comb _ l _ D5 _) (add2 _ _ l _ _ (comb _ l _ D14 _) (add2 _ _ l _ _ (comb _ l _ D11 _) (add2 _ _ l _ _ (comb _ l _ D18 _) (add2 _ _ l _ _ (comb _ l _ D15 _) (add2 _ _ l _ _ (comb _ l _ D12 _) (comb _ l _ D10 _)))))))))). }
  cbn [Wq w0 w1 w2 w3 w4 w5 w6 w7 w8 w9 w10 w11 w12 w13 w14 w15 w16 w17 w18 w19]. rewrite !qi by exact H. unfold ell, v1, v2, v3, k. cbn [fst snd].
  replace (fa P ^ 2 + l) with (l + fa P * fa P) by ring. replace (fb P ^ 2 + l) with (l + fb P * fb P) by ring. replace (fc P ^ 2 + l) with (l + fc P * fc P) by ring.
  unfold Rdiv. rewrite ?Rinv_mult. set (d := / dn P l). set (s := / (l + fa P * fa P)). set (t := / (l + fb P * fb P)). set (u := / (l + fc P * fc P)). clear. clearbody d s t u K0. ring.
Qed.
Lemma ngrad3_l x y z l : - (fc P * fc P) < l -> is_derive (fun s => v3 (ngrad P (computeW P s) (x, y, z))) l (- 2 * K0 * z * ((1 - ell P (x, y, z) l) ^ 2 / (dn P l * (l + fc P * fc P)))).
Proof.
  intros H. destruct (W_derive P V l H) as (D0 & D1 & D2 & D3 & D4 & D5 & D6 & D7 & D8 & D9 & D10 & D11 & D12 & D13 & D14 & D15 & D16 & D17 & D18 & D19).
  destruct (abc_pos P V l H) as (A & B & C). destruct (dn_pos P V l H) as (N & _). set (k := 2 * K0 * z).
  eapply eqd.
  { apply (is_derive_ext (fun s => k * 1 * w3 (computeW P s) + (k * (- 2 * x ^ 2) * w6 (computeW P s) + (k * (- 2 * y ^ 2) * w5 (computeW P s) + (k * (- 2 * z ^ 2) * w9 (computeW P s) + (k * (x ^ 4) * w13 (computeW P s) + (k * (2 * x ^ 2 * y ^ 2) * w10 (computeW P s) + (k * (y ^ 4) * w15 (computeW P s) + (k * (2 * y ^ 2 * z ^ 2) * w12 (computeW P s) + (k * (z ^ 4) * w19 (computeW P s) + (k * (2 * z ^ 2 * x ^ 2) * w16 (computeW P s))))))))))));
      [intros s; match goal with |- ?u = ?v => change (@eq R u v) end; nopen; unfold k, K0; ring|].
    exact (add2 _ _ l _ _ (comb _ l _ D3 _) (add2 _ _ l _ _ (comb _ l _ D6 _) (add2 _ _ l _ _ (comb _ l _ D5 _) (add2 _ _ l _ _ (comb _ l _ D9 _) (add2 _ _ l _ _ (comb _ l _ D13 _) (add2 _ _ l _ _ (comb _ l _ D10 _) (add2 _ _ l _ _ (comb _ l _ D15 _) (add2 _ _ l _ _ (comb _ l _ D12 _) (add2 _ _ l _ _ (comb _ l _ D19 _) (comb _ l _ D16 _)))))))))). }
  cbn [Wq w0 w1 w2 w3 w4 w5 w6 w7 w8 w9 w10 w11 w12 w13 w14 w15 w16 w17 w18 w19]. rewrite !qi by exact H. unfold ell, v1, v2, v3, k. cbn [fst snd].
  replace (fa P ^ 2 + l) with (l + fa P * fa P) by ring. replace (fb P ^ 2 + l) with (l + fb P * fb P) by ring. replace (fc P ^ 2 + l) with (l + fc P * fc P) by ring.
  unfold Rdiv. rewrite ?Rinv_mult. set (d := / dn P l). set (s := / (l + fa P * fa P)). set (t := / (l + fb P * fb P)). set (u := / (l + fc P * fc P)). clear. clearbody d s t u K0. ring.
Qed.
Transparent computeW.
(** Laplacian: the recurrences between the coefficients *)
Lemma near_trace p l : - (fc P * fc P) < l -> trace (nhess P (computeW P l) p) = 4 * K0 * ((1 - ell P p l) ^ 2 / dn P l).
Proof.
  intros H. destruct p as [[x y] z]. destruct (abc_pos P V l H) as (A & B & C). destruct (dn_pos P V l H) as (N & _). destruct (ord P V) as (_ & _ & _ & O1 & O2 & O3 & _).
  set (W := computeW P l).
  assert (R0 : w1 W + w2 W + w3 W = 2 * / dn P l /\ 3 * w7 W + w4 W + w6 W = 2 * / dn P l * / (l + fa P * fa P) /\ 3 * w8 W + w4 W + w5 W = 2 * / dn P l * / (l + fb P * fb P) /\ 3 * w9 W + w5 W + w6 W = 2 * / dn P l * / (l + fc P * fc P)
    /\ 5 * w17 W + w14 W + w13 W = 2 * / dn P l * / (l + fa P * fa P) ^ 2 /\ 5 * w18 W + w15 W + w11 W = 2 * / dn P l * / (l + fb P * fb P) ^ 2 /\ 5 * w19 W + w16 W + w12 W = 2 * / dn P l * / (l + fc P * fc P) ^ 2
    /\ 3 * w14 W + 3 * w11 W + w10 W = 2 * / dn P l * / (l + fa P * fa P) * / (l + fb P * fb P) /\ 3 * w15 W + 3 * w12 W + w10 W = 2 * / dn P l * / (l + fb P * fb P) * / (l + fc P * fc P) /\ 3 * w16 W + 3 * w13 W + w10 W = 2 * / dn P l * / (l + fa P * fa P) * / (l + fc P * fc P)).
  { unfold W, computeW. cbv zeta. change (sqrt ((l + fa P * fa P) * (l + fb P * fb P) * (l + fc P * fc P))) with (dn P l).
    set (W1 := 2 * (_ - _) / _). set (W3 := _ - 2 * ellintE _ _ / _ / _). clearbody W1 W3. unfold pow_2. cbn [w0 w1 w2 w3 w4 w5 w6 w7 w8 w9 w10 w11 w12 w13 w14 w15 w16 w17 w18 w19].
    replace (fa P * fa P + l) with (l + fa P * fa P) by ring. replace (fb P * fb P + l) with (l + fb P * fb P) by ring. replace (fc P * fc P + l) with (l + fc P * fc P) by ring.
    set (d := dn P l) in *.
    replace (fa P * fa P - fb P * fb P) with ((l + fa P * fa P) - (l + fb P * fb P)) in * by ring. replace (fa P * fa P - fc P * fc P) with ((l + fa P * fa P) - (l + fc P * fc P)) in * by ring. replace (fb P * fb P - fc P * fc P) with ((l + fb P * fb P) - (l + fc P * fc P)) in * by ring.
    set (s := l + fa P * fa P) in *. set (t := l + fb P * fb P) in *. set (u := l + fc P * fc P) in *. clear - A B C N O1 O2 O3. clearbody d s t u.
    repeat split; field; repeat split; lra. }
  destruct R0 as (Q0 & Q1 & Q2 & Q3 & Q4 & Q5 & Q6 & Q7 & Q8 & Q9). clearbody W. unfold trace. nopen. unfold ell, v1, v2, v3. cbn [fst snd].
  replace (fa P ^ 2 + l) with (l + fa P * fa P) by ring. replace (fb P ^ 2 + l) with (l + fb P * fb P) by ring. replace (fc P ^ 2 + l) with (l + fc P * fc P) by ring.
  rewrite <- !pow_inv in *. unfold Rdiv. set (d := / dn P l) in *. set (s := / (l + fa P * fa P)) in *. set (t := / (l + fb P * fb P)) in *. set (u := / (l + fc P * fc P)) in *. clear - Q0 Q1 Q2 Q3 Q4 Q5 Q6 Q7 Q8 Q9. clearbody d s t u.
  destruct W as [W0 W1 W2 W3 W4 W5 W6 W7 W8 W9 W10 W11 W12 W13 W14 W15 W16 W17 W18 W19]. cbn [w0 w1 w2 w3 w4 w5 w6 w7 w8 w9 w10 w11 w12 w13 w14 w15 w16 w17 w18 w19] in *.
  assert (E : W1 + W2 + W3 - 2 * (x * x) * (3 * W7 + W4 + W6) - 2 * (y * y) * (3 * W8 + W4 + W5) - 2 * (z * z) * (3 * W9 + W5 + W6) + (x * x) * (x * x) * (5 * W17 + W14 + W13) + (y * y) * (y * y) * (5 * W18 + W15 + W11) + (z * z) * (z * z) * (5 * W19 + W16 + W12)
    + 2 * (x * x) * (y * y) * (3 * W14 + 3 * W11 + W10) + 2 * (y * y) * (z * z) * (3 * W15 + 3 * W12 + W10) + 2 * (z * z) * (x * x) * (3 * W16 + 3 * W13 + W10) = 2 * ((1 - (x ^ 2 * s + y ^ 2 * t + z ^ 2 * u)) ^ 2 * d)).
  { rewrite Q0, Q1, Q2, Q3, Q4, Q5, Q6, Q7, Q8, Q9. ring. }
  unfold K0. transitivity (2 * (PI * frho0 P * fa P * fb P * fc P) * (2 * ((1 - (x ^ 2 * s + y ^ 2 * t + z ^ 2 * u)) ^ 2 * d))); [rewrite <- E|]; ring.
Qed.
End L.
