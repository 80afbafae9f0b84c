(** C54: B-splines. *)
From Coquelicot Require Import Coquelicot.
From Verif Require Import Arr BinSearchModel SplineModel SplineGlue SplineCons SplineProofs SplineProofs2 SplIntModel PolyProofs RootProofs SplIntProofs SplIntProofs2 SplIntProofs4 SplIntProofs5 GLModel GLProofs GLProofs2 BsplModel SplineSpec SplIntSpec BsplSpec BsplProofs BsplProofs2 BsplProofs3 BsplProofs4 BsplProofs5.
Local Open Scope R_scope.

Lemma classic_inc a : increasing a \/ ~ increasing a.
Proof. destruct (checkMonotonic a) as [[]| | |] eqn:E; [left; apply monotonic_inc; exact E| | |]; right; intros H; rewrite (inc_monotonic a H) in E; discriminate. Qed.
(** Both constructors accept exactly the strictly increasing grids with at least two nodes (and the right number of amplitudes), and throw otherwise. *)
Theorem C54_construct : forall N x A,
  (grid_ok x -> alen A = nbasis N x -> bsplNew N x A = Ok (mkBW x A)) /\
  (~ grid_ok x \/ alen A <> nbasis N x -> bsplNew N x A = Throw) /\
  (grid_ok x -> bi1New x = Ok x) /\ (~ grid_ok x -> bi1New x = Throw).
Proof.
  intros N x A. unfold grid_ok, bsplNew, bi1New, nbasis. repeat split.
  - intros (Hx & Hn) ->. rewrite (inc_monotonic x Hx). cbn [bind]. rewrite (proj2 (Z.ltb_ge _ 2)) by lia. rewrite Z.eqb_refl. reflexivity.
  - intros H. destruct (classic_inc x) as [Hx|Hx].
    + rewrite (inc_monotonic x Hx). cbn [bind]. destruct (Z.ltb_spec (alen x) 2); [reflexivity|]. rewrite (proj2 (Z.eqb_neq _ _)); [reflexivity|]. intros E; destruct H as [H|H]; [apply H; split; [exact Hx|lia]|auto].
    + rewrite (not_inc_throw x Hx). reflexivity.
  - intros (Hx & Hn). rewrite (inc_monotonic x Hx). rewrite (proj2 (Z.ltb_ge _ 2)) by lia. reflexivity.
  - intros H. destruct (Z.ltb_spec (alen x) 2); [reflexivity|]. rewrite (not_inc_throw x); [reflexivity|]. intros Hx. apply H. split; [exact Hx|lia].
Qed.

(** nonzeroComponents(x, 0) returns the index of the first of N+1 basis functions and their values: these are the textbook B-splines (given by the
    Cox-de Boor recursion with the end nodes repeated), all other basis functions are zero at x, and all of them are non-negative and add up to one. *)
Theorem C54_basis : forall N x t, grid_ok x -> within x t -> exists m B, nonzeroComponents N x t 0 = Ok (m, B) /\
  alen B = (Z.of_nat N + 1)%Z /\ (0 <= m)%Z /\ (m + Z.of_nat N < nbasis N x)%Z /\
  (forall k, (0 <= k < nbasis N x)%Z -> basis N x k t = if (m <=? k)%Z && (k <=? m + Z.of_nat N)%Z then afn B (k - m)%Z else 0) /\
  (forall i, (0 <= i <= Z.of_nat N)%Z -> 0 <= afn B i) /\ zsum 0 (Z.of_nat N + 1) (afn B) = 1.
Proof.
  intros N x t (Hx & Hn) Ht. destruct (nonzero_in x Hx Hn N t 0 Ht ltac:(lia) ltac:(lia)) as (m & B & E & EB & LB & Hm & T1 & T2 & VB). exists m, B.
  pose proof (nonzero_basis x Hx N t m B E Ht EB Hm T1 T2 VB) as NB. unfold nbasis in *.
  split; [exact EB|]. split; [exact LB|]. split; [lia|]. split; [lia|]. split; [exact NB|]. split.
  - intros i Hi. pose proof (basis_nonneg x N Hx Hn (m + i) t Ht) as P. rewrite NB in P by lia. rewrite (proj2 (Z.leb_le m _)), (proj2 (Z.leb_le _ (m + Z.of_nat N))) in P by lia. cbn [andb] in P. replace (m + i - m)%Z with i in P by lia. exact P.
  - rewrite <- (basis_sum x N Hx Hn t Ht). unfold nbasis.
    transitivity (zsum (0 + m) (Z.of_nat N + 1 + m) (fun k => basis N x k t)).
    + rewrite <- (zsum_shift 0 (Z.of_nat N + 1) m (fun k => basis N x k t)). apply zsum_ext. intros i Hi. rewrite NB by lia. rewrite (proj2 (Z.leb_le m _)), (proj2 (Z.leb_le _ (m + Z.of_nat N))) by lia. cbn [andb]. f_equal. lia.
    + symmetry. apply zsum_extend; try lia; intros k Hk; rewrite NB by lia; (destruct (Z.leb_spec m k); cbn [andb]; [|reflexivity]; destruct (Z.leb_spec k (m + Z.of_nat N)); [lia|reflexivity]).
Qed.
(** Each basis function is non-zero only between N+2 adjacent nodes. *)
Theorem C54_support : forall N x k t, grid_ok x -> within x t -> t < knot x (k - Z.of_nat N) \/ knot x (k + 1) < t -> basis N x k t = 0.
Proof. intros N x k t (Hx & Hn) Ht. exact (basis_support x N Hx Hn k t Ht). Qed.
(** Outside of the grid all components are zero. *)
Theorem C54_basis_outside : forall N x t d, grid_ok x -> ~ within x t -> exists m, nonzeroComponents N x t d = Ok (m, anew (Z.of_nat N + 1) 0).
Proof. intros N x t d (Hx & Hn) Ht. destruct (nonzero_out x Hx Hn N t d Ht) as (m & E & _). exists m. exact E. Qed.

(** A B-spline curve: within the grid it evaluates to the combination of basis functions with the given amplitudes, which lies between the smallest and the
    largest amplitude; the derivatives are true ones and the curve has N-1 continuous derivatives; outside of the grid the result is NaN. *)
Theorem C54_wrapper : forall N x A, grid_ok x -> alen A = nbasis N x -> exists F : nat -> R -> R,
  (forall t, within x t -> bsplEval N (mkBW x A) t = Ok (Some (F 0%nat t, F 1%nat t, F 2%nat t, F 3%nat t)) /\ F 0%nat t = combination N x A t) /\
  (forall t, ~ within x t -> bsplEval N (mkBW x A) t = Ok None) /\
  (forall lo hi t, within x t -> (forall k, (0 <= k < nbasis N x)%Z -> lo <= afn A k <= hi) -> lo <= F 0%nat t <= hi) /\
  (forall d t, (S d < N)%nat \/ ~ is_node x t -> is_derive (F d) t (F (S d) t)) /\
  (forall d t, (d < N)%nat -> continuity_pt (F d) t).
Proof.
  intros N x A (Hx & Hn) LA. exists (Fo x A N). split; [|split; [|split; [|split]]].
  - intros t Ht. split; [apply (eval_in x A N Hx Hn LA); auto|apply (Fo_comb x A N Hx Hn t Ht)].
  - intros t Ht. apply (eval_out x N Hx Hn); auto.
  - intros lo hi t Ht H. rewrite (Fo_comb x A N Hx Hn t Ht). apply (comb_bounds x N Hx Hn); assumption.
  - intros d t H. apply (Fo_derive x A N Hx Hn); assumption.
  - intros d t H. apply (Fo_cont x A N Hx Hn); auto.
Qed.
(** interpolate(x, amplitudes, derivOrder) returns the same values and derivatives, and zero outside of the grid; it throws if the number of amplitudes is wrong. *)
Theorem C54_interpolate : forall N x A t, grid_ok x ->
  (alen A <> nbasis N x -> forall d, bi1Interpolate N x t A d = Throw) /\
  (alen A = nbasis N x ->
    (~ within x t -> forall d, bi1Interpolate N x t A d = Ok 0) /\
    (within x t -> bi1Interpolate N x t A 0 = Ok (combination N x A t) /\
       exists v1 v2 v3, bsplEval N (mkBW x A) t = Ok (Some (combination N x A t, v1, v2, v3)) /\
         bi1Interpolate N x t A 1 = Ok v1 /\ bi1Interpolate N x t A 2 = Ok v2 /\ bi1Interpolate N x t A 3 = Ok v3)).
Proof.
  intros N x A t (Hx & Hn). split.
  - intros H d. unfold bi1Interpolate, numComp. unfold nbasis in H. rewrite (proj2 (Z.eqb_neq _ _) H). reflexivity.
  - intros LA. split; [intros Ht d; apply (interpolate_out x Hx Hn); assumption|]. intros Ht.
    assert (J : forall d, (d <= 3)%nat -> bi1Interpolate N x t A d = Ok (Fo x A N d t)) by (intros d Hd; apply (interpolate_in x Hx Hn); assumption).
    rewrite <- (Fo_comb x A N Hx Hn t Ht). split; [apply J; lia|]. exists (Fo x A N 1 t), (Fo x A N 2 t), (Fo x A N 3 t). rewrite !J by lia. split; [|auto]. apply (eval_in x A N Hx Hn LA); auto.
Qed.
(** addPoint(x, mult, values) adds mult times the value of each basis function, or nothing if x is outside of the grid. *)
Theorem C54_addPoint : forall N x t mult V, grid_ok x -> alen V = nbasis N x ->
  (within x t -> exists W, bi1AddPoint N x t mult V = Ok W /\ alen W = alen V /\ forall k, (0 <= k < nbasis N x)%Z -> afn W k = afn V k + mult * basis N x k t) /\
  (~ within x t -> bi1AddPoint N x t mult V = Ok V).
Proof. intros N x t mult V (Hx & Hn) LV. split; intros Ht; [apply (addPoint_in x Hx Hn); assumption|apply (addPoint_out x Hx Hn); assumption]. Qed.

(** deriv(amplitudes): the B-spline of degree N-1 with the returned amplitudes is the derivative of the original curve. *)
Theorem C54_deriv : forall p x A, grid_ok x -> alen A = nbasis (S p) x -> exists A', bi1Deriv (S p) x A = Ok A' /\ alen A' = nbasis p x /\
  (forall t d, within x t -> (d < 3)%nat -> exists v, bi1Interpolate p x t A' d = Ok v /\ bi1Interpolate (S p) x t A (S d) = Ok v) /\
  (forall t, inside x t -> (1 <= p)%nat \/ ~ is_node x t -> is_derive (combination (S p) x A) t (combination p x A' t)).
Proof.
  intros p x A (Hx & Hn) LA. destruct (deriv_ok x Hx Hn p A LA) as (A' & E & LA' & V). exists A'. split; [exact E|]. split; [exact LA'|].
  assert (D : forall o t, Fo x A (S p) (S o) t = Fo x A' p o t) by (intros; apply (deriv_Fo x Hn); assumption). split.
  - intros t d Ht Hd. exists (Fo x A' p d t). split; [apply (interpolate_in x Hx Hn); try assumption; lia|]. rewrite <- D. apply (interpolate_in x Hx Hn); try assumption; lia.
  - intros t (T1 & T2) H. rewrite <- (Fo_comb x A' p Hx Hn t) by (unfold within; lra). rewrite <- D.
    apply (is_derive_ext_loc (Fo x A (S p) 0)); [|apply (Fo_derive x A (S p) Hx Hn); destruct H; [left; lia|right; assumption]].
    assert (P : 0 < Rmin (t - x_first x) (x_last x - t)) by (apply Rmin_glb_lt; lra).
    exists (mkposreal _ P). intros y Hy. change (Rabs (y - t) < Rmin (t - x_first x) (x_last x - t)) in Hy. apply (Fo_comb x A (S p) Hx Hn).
    pose proof (Rmin_l (t - x_first x) (x_last x - t)). pose proof (Rmin_r (t - x_first x) (x_last x - t)). apply Rabs_def2 in Hy. unfold within. lra.
Qed.
(** antideriv(amplitudes): the B-spline of degree N+1 with the returned amplitudes is the integral of the original curve from the first node,
    and deriv is the inverse operation. *)
Theorem C54_antideriv : forall N x A, grid_ok x -> alen A = nbasis N x -> exists A', bi1Antideriv N x A = Ok A' /\ alen A' = nbasis (S N) x /\
  (forall t, within x t -> is_RInt (combination N x A) (x_first x) t (combination (S N) x A' t)) /\
  (exists A2, bi1Deriv (S N) x A' = Ok A2 /\ alen A2 = alen A /\ forall k, (0 <= k < alen A)%Z -> afn A2 k = afn A k).
Proof.
  intros N x A (Hx & Hn) LA. destruct (antideriv_ok x Hx Hn N A LA) as (A' & E & LA' & V0 & V). exists A'. split; [exact E|]. split; [exact LA'|]. split.
  - intros t Ht. apply (antideriv_RInt x Hx Hn N A A'); assumption.
  - destruct (deriv_ok x Hx Hn N A' LA') as (A2 & E2 & L2 & V2). exists A2. split; [exact E2|]. split; [congruence|]. intros k Hk. rewrite LA in Hk. rewrite V2, V by assumption.
    pose proof (knot_gap x Hx Hn N k Hk). pose proof (lt_0_INR (S N) ltac:(lia)). field. split; lra.
Qed.

(** integrate(x1, x2, amplitudes, n) is the integral of the curve (zero outside of the grid) times t^n, up to 2.5e-16 in relative terms (c_i are the
    coefficients of the integrand on the part [u_i, v_i] of the i-th segment as a polynomial of the scaled coordinate), or an exception if N+n is too large. *)
Theorem C54_integrate : forall N x A n a b, grid_ok x -> alen A = nbasis N x -> (0 <= n)%Z ->
  ((20 <= (Z.of_nat N + n) / 2 + 1)%Z -> bi1Integrate glTab N x a b A n = Throw) /\
  (((Z.of_nat N + n) / 2 + 1 < 20)%Z ->
   exists r I c, bi1Integrate glTab N x a b A n = Ok r /\ is_RInt (fun t => cut x (combination N x A) t * t ^ Z.to_nat n) a b I /\
    (let K := (N + Z.to_nat n)%nat in let u i := Rmax (afn x i) (Rmin a b) in let v i := Rmin (afn x (i + 1)%Z) (Rmax a b) in
     (forall i, (0 <= i < alen x - 1)%Z -> u i < v i -> forall t, 0 < t < 1 ->
        combination N x A (u i + t * (v i - u i)) * (u i + t * (v i - u i)) ^ Z.to_nat n = poly K (c i) t) /\
     Rabs (r - I) <= 25 / 10 ^ 17 * zsum 0 (alen x - 1) (fun i => Rmax 0 (v i - u i) * sum_f_R0 (fun k => Rabs (c i k)) K))).
Proof.
  intros N x A n a b (Hx & Hn) LA Hnn. unfold bi1Integrate, numComp. unfold nbasis in LA. rewrite LA, Z.eqb_refl. cbn [negb]. split.
  - intros H. unfold integrateBspline. cbv zeta. unfold MAX_GL_TABLE. rewrite (proj2 (Z.leb_le 20 _)) by assumption. reflexivity.
  - intros Ho. assert (O1 : (1 <= (Z.of_nat N + n) / 2 + 1)%Z) by (pose proof (Z.div_pos (Z.of_nat N + n) 2 ltac:(lia) ltac:(lia)); lia).
    destruct (nextRule_ok ((Z.of_nat N + n) / 2 + 1) ltac:(lia)) as (_ & I & _). unfold order_of in I. rewrite (proj2 (Z.leb_le _ 20)) in I by lia.
    destruct (rule_facts _ I) as (_ & _ & W). rewrite Z2Nat.id in W by lia.
    exact (integrateBspline_bound glTab x A N n _ Hx Hn LA Hnn Ho W a b).
Qed.
(** With an exact Gauss-Legendre rule the result would be exact. *)
Theorem C54_integrate_exact_rule : forall T N x A n a b, grid_ok x -> alen A = nbasis N x -> (0 <= n)%Z -> ((Z.of_nat N + n) / 2 + 1 < 20)%Z ->
  rule_exact T ((Z.of_nat N + n) / 2 + 1) ->
  exists r, bi1Integrate T N x a b A n = Ok r /\ integrateBspline T N x A a b n = Ok r /\ is_RInt (fun t => cut x (combination N x A) t * t ^ Z.to_nat n) a b r.
Proof.
  intros T N x A n a b (Hx & Hn) LA Hnn Ho HT. unfold nbasis in LA. destruct (integrateBspline_bound T x A N n 0 Hx Hn LA Hnn Ho HT a b) as (r & I & c & E & HI & _ & He). exists r.
  unfold bi1Integrate, numComp. rewrite LA, Z.eqb_refl. cbn [negb]. split; [exact E|]. split; [exact E|]. cbv zeta in He. rewrite Rmult_0_l in He. pose proof (Rabs_pos (r - I)).
  assert (Q : Rabs (r - I) = 0) by lra. destruct (Req_dec (r - I) 0) as [Z0|Z0]; [|apply Rabs_no_R0 in Z0; lra]. replace r with I by lra. exact HI.
Qed.

(** The integral of the curve times a function f, and the convolution with f.  Missing: degree 0; intervals whose lower end (clipped to the grid) is not in the
    first segment, for which the call has undefined behaviour, as stated below; segments skipped by the code when f changes sign. *)
Lemma bspl_computes N x A : grid_ok x -> alen A = nbasis N x -> (1 <= N)%nat -> computes (bsplI N (mkBW x A)) (combination N x A) /\ piecewise_poly N x (combination N x A).
Proof.
  intros (Hx & Hn) LA HN. split.
  - intros t Ht. cbn [bsplI i_x i_ev b_x] in *. rewrite (eval_in x A N Hx Hn LA (mkBW x A) t eq_refl eq_refl Ht). cbn. f_equal. apply (Fo_comb x A N Hx Hn t Ht).
  - intros i Hi. destruct (sp_poly x A N i Hx Hn ltac:(lia)) as (c & Hc). exists c. intros t Ht. rewrite <- Hc.
    assert (W : within x t). { unfold within, x_first, x_last. pose proof (inc_le x Hx 0 i ltac:(lia) ltac:(lia) ltac:(lia)). pose proof (inc_le x Hx (i + 1) (alen x - 1) ltac:(lia) ltac:(lia) ltac:(lia)). lra. }
    rewrite <- (Fo_comb x A N Hx Hn t W). rewrite (pieced_at x Hx _ (piece x A N 0) i t (Fo_pieced x A N Hx Hn 0) (piece_match x A N Hx Hn 0 t ltac:(lia))); [unfold piece, clampseg; f_equal; lia|].
    split; [lia|]. split; intros; lra.
Qed.
Theorem C54_integrate_fnc_partial : forall N x A f fi a b, grid_ok x -> alen A = nbasis N x -> (1 <= N)%nat -> integrates f fi ->
  Rmax (Rmin a b) (x_first x) < afn x 1%Z ->
  exists r I, integrateProduct (Z.of_nat N) (bsplI N (mkBW x A)) fi a b = Ok r /\ is_RInt (fun t => cut x (combination N x A) t * f t) a b I /\
    (let lo := Rmax (Rmin a b) (x_first x) in let hi := Rmin (Rmax a b) (x_last x) in
     ((forall i, (0 <= i < alen x - 1)%Z -> let u := Rmax lo (afn x i) in let v := Rmin hi (afn x (i + 1)%Z) in
        u < v -> Rabs (fi lo hi 0%Z) * deps <= Rabs (fi u v 0%Z)) -> r = I) /\
     (forall M, lo < hi -> (forall y, x_first x <= y <= x_last x -> Rabs (combination N x A y) <= M) -> (forall t, 0 <= f t) ->
        Rabs (r - I) <= IZR (alen x - 1) * M * deps * fi lo hi 0%Z)).
Proof.
  intros N x A f fi a b G LA HN HI L. destruct (bspl_computes N x A G LA HN) as (C & P). destruct G as (Hx & Hn).
  exact (integrateProduct_spec N (bsplI N (mkBW x A)) _ f fi Hx Hn C P HI a b L).
Qed.
Theorem C54_integrate_fnc_refuted : forall N x A f fi a b, grid_ok x -> alen A = nbasis N x -> (1 <= N)%nat -> integrates f fi ->
  afn x 1%Z <= Rmin a b -> Rmin a b < Rmin (Rmax a b) (x_last x) -> integrateProduct (Z.of_nat N) (bsplI N (mkBW x A)) fi a b = UB.
Proof.
  intros N x A f fi a b G LA HN HI L1 L2. destruct (bspl_computes N x A G LA HN) as (C & P). destruct G as (Hx & Hn).
  pose proof (inc_lt x Hx 0 1 ltac:(lia) ltac:(lia) ltac:(lia)) as L0.
  apply integrateProduct_UB; try assumption; cbn [bsplI i_x b_x]; unfold x_first in *; rewrite Rmax_left by lra; assumption.
Qed.
Theorem C54_convolve : forall N x A f fi xc, grid_ok x -> alen A = nbasis N x -> (1 <= N)%nat -> integrates f fi ->
  exists r I, convolve (Z.of_nat N) (bsplI N (mkBW x A)) fi xc = Ok r /\ is_RInt (fun y => combination N x A y * f (xc - y)) (x_first x) (x_last x) I /\
    ((forall i, (0 <= i < alen x - 1)%Z -> Rabs (fi (xc - x_last x) (xc - x_first x) 0%Z) * deps <= Rabs (fi (xc - afn x (i + 1)%Z) (xc - afn x i) 0%Z)) -> r = I) /\
    (forall M, (forall y, x_first x <= y <= x_last x -> Rabs (combination N x A y) <= M) -> (forall t, 0 <= f t) ->
        Rabs (r - I) <= IZR (alen x - 1) * M * deps * fi (xc - x_last x) (xc - x_first x) 0%Z).
Proof.
  intros N x A f fi xc G LA HN HI. destruct (bspl_computes N x A G LA HN) as (C & P). destruct G as (Hx & Hn).
  exact (convolve_spec N (bsplI N (mkBW x A)) _ f fi Hx Hn C P HI xc).
Qed.

(** eval(x, values) is documented to fill the array with the values of all basis functions.  Instead it leaves zeros in it if x is in the first segment of the
    grid, and writes beyond the end of a local array if x is in any other segment. *)
Theorem C54_eval_refuted : forall N x t, grid_ok x -> within x t ->
  zsum 0 (nbasis N x) (fun k => basis N x k t) = 1 /\
  (t < afn x 1%Z -> bi1Eval N x t = Ok (anew (nbasis N x) 0)) /\
  (afn x 1%Z <= t -> (3 <= alen x)%Z -> bi1Eval N x t = UB).
Proof.
  intros N x t (Hx & Hn) Ht. split; [apply (basis_sum x N Hx Hn t Ht)|].
  destruct (seg_of x Hx Hn t Ht) as (m & E & Hm & T1 & T2). unfold bi1Eval. rewrite E. cbn [bind].
  rewrite (proj2 (Z.ltb_ge m 0)), (proj2 (Z.leb_gt (alen x - 1) m)) by lia. cbn [orb]. rewrite !knot_in in * by lia. split.
  - intros L. assert (m = 0)%Z as ->. { destruct (Z.eq_dec m 0); [assumption|]. pose proof (inc_le x Hx 1 m ltac:(lia) ltac:(lia) ltac:(lia)). lra. }
    cbn [Z.eqb negb]. destruct (values_ok x Hx Hn 0 ltac:(lia) N t) as (B & -> & _). reflexivity.
  - intros L L3. rewrite (proj2 (Z.eqb_neq m 0)); [reflexivity|]. intros ->. destruct T2 as [T2|[T2 _]]; [cbn in T2; lra|lia].
Qed.

(** ---- a concrete case: a quadratic B-spline on the grid {-1,1,2} ---- *)
Definition xb : arr R := mkArr 3 (fun i => if (i =? 0)%Z then -1 else if (i =? 1)%Z then 1 else 2).
Example xb_ok : grid_ok xb.
Proof. split; [|cbn; lia]. intros i j Hi Hj. cbn [alen xb] in Hj. assert (i = 0 /\ j = 1 \/ i = 0 /\ j = 2 \/ i = 1 /\ j = 2)%Z as [(-> & ->)|[(-> & ->)|(-> & ->)]] by lia; cbn; lra. Qed.
Definition ab : arr R := mkArr 4 (fun i => if (i =? 1)%Z then 3 else 0).
Example xb_len : alen ab = nbasis 2 xb /\ within xb 0 /\ inside xb 1.
Proof. unfold within, inside, x_first, x_last, nbasis. cbn. split; [reflexivity|lra]. Qed.
Example xb_value : basis 2 xb 1 0 = 7 / 12 /\ bi1Interpolate 2 xb 0 ab 0 = Ok (7 / 4).
Proof.
  assert (V : basis 2 xb 1 0 = 7 / 12).
  { unfold basis. cbn [bspline]. unfold ratio, indicator, knot. cbn.
    repeat match goal with |- context [Req_EM_T ?a ?b] => destruct (Req_EM_T a b); try (exfalso; lra) | |- context [Rle_dec ?a ?b] => destruct (Rle_dec a b); try (exfalso; lra) | |- context [Rlt_dec ?a ?b] => destruct (Rlt_dec a b); try (exfalso; lra) end; field. }
  split; [exact V|]. destruct xb_len as (L & W & _). rewrite (proj1 (proj2 (proj2 (C54_interpolate 2 xb ab 0 xb_ok) L) W)).
  f_equal. unfold combination. change (nbasis 2 xb) with 4%Z. unfold zsum. change (Z.to_nat (4 - 0)) with 4%nat. cbn -[basis]. rewrite V. field.
Qed.
Example xb_UB : bi1Eval 2 xb 1 = UB.
Proof. apply (C54_eval_refuted 2 xb 1 xb_ok); [unfold within, x_first, x_last; cbn; lra|cbn; lra|cbn; lia]. Qed.

Print Assumptions C54_construct.
Print Assumptions C54_basis.
Print Assumptions C54_support.
Print Assumptions C54_basis_outside.
Print Assumptions C54_wrapper.
Print Assumptions C54_interpolate.
Print Assumptions C54_addPoint.
Print Assumptions C54_deriv.
Print Assumptions C54_antideriv.
Print Assumptions C54_integrate.
Print Assumptions C54_integrate_exact_rule.
Print Assumptions C54_integrate_fnc_partial.
Print Assumptions C54_integrate_fnc_refuted.
Print Assumptions C54_convolve.
Print Assumptions C54_eval_refuted.
