(** C53: fixed-order Gauss-Legendre quadrature. *)
From Coquelicot Require Import Coquelicot.
From Verif Require Import Arr PolyModel PolyProofs RootProofs SplIntModel SplIntProofs SplIntProofs2 GLModel GLProofs GLProofs2 GLProofs3 SplIntSpec.
Local Open Scope R_scope.

(** integrateGL(f, x1, x2, N) for any N=1..40 integrates polynomials of degree up to 2N-1 over any interval (also with x1>=x2), up to a relative error 2.5e-16;
    [c] are the coefficients of the polynomial in the coordinate scaled to [0,1].  The function is never evaluated at the ends of the interval. *)
Theorem C53_polynomials : forall fnc f x1 x2 N K c, (1 <= N <= 40)%Z ->
  (forall x, Rmin x1 x2 < x < Rmax x1 x2 -> fnc x = Ok (f x)) ->
  (Z.of_nat K <= 2 * N - 1)%Z -> (forall t, 0 <= t <= 1 -> f (x1 + t * (x2 - x1)) = poly K c t) ->
  exists r I, integrateGL fnc x1 x2 N = Ok r /\ is_RInt f x1 x2 I /\
    Rabs (r - I) <= 25 / 10 ^ 17 * (Rabs (x2 - x1) * sum_f_R0 (fun k => Rabs (c k)) K).
Proof. exact integrateGL_poly. Qed.
(** For a function that can be evaluated in the interior of the interval, the call succeeds, and the result is bounded by the length of the interval times
    the bound of the function. *)
Theorem C53_bounded : forall fnc f M x1 x2 N, (1 <= N <= 40)%Z ->
  (forall x, Rmin x1 x2 < x < Rmax x1 x2 -> fnc x = Ok (f x) /\ Rabs (f x) <= M) ->
  exists r, integrateGL fnc x1 x2 N = Ok r /\ Rabs r <= (1 + 25 / 10 ^ 17) * Rabs M * Rabs (x2 - x1).
Proof. exact integrateGL_bound. Qed.
(** The quadrature respects the order of functions: in particular the integral of a non-negative function is non-negative. *)
Theorem C53_monotone : forall fnc f fnc' g x1 x2 N, (1 <= N <= 40)%Z -> x1 <= x2 ->
  (forall x, x1 < x < x2 -> fnc x = Ok (f x) /\ fnc' x = Ok (g x) /\ f x <= g x) ->
  exists r s, integrateGL fnc x1 x2 N = Ok r /\ integrateGL fnc' x1 x2 N = Ok s /\ r <= s.
Proof. exact integrateGL_mono. Qed.
Theorem C53_nonneg : forall fnc f x1 x2 N, (1 <= N <= 40)%Z -> x1 <= x2 -> (forall x, x1 < x < x2 -> fnc x = Ok (f x) /\ 0 <= f x) ->
  exists r, integrateGL fnc x1 x2 N = Ok r /\ 0 <= r.
Proof.
  intros fnc f x1 x2 N HN Hx H. destruct (integrateGL_mono (fun _ => Ok 0) (fun _ => 0) fnc f x1 x2 N HN Hx) as (z & r & Ez & Er & L).
  { intros x Q. destruct (H x Q). repeat split; auto. }
  exists r. split; [exact Er|]. destruct (integrateGL_bound (fun _ => Ok 0) (fun _ => 0) 0 x1 x2 N HN) as (z' & Ez' & B); [intros; split; [reflexivity|rewrite Rabs_R0; lra]|].
  rewrite Ez in Ez'. injection Ez' as <-. rewrite Rabs_R0, Rmult_0_r, Rmult_0_l in B. apply Rabs_le_between in B. lra.
Qed.
(** An order outside of 1..40 is an error. *)
Theorem C53_bad_order : forall fnc M F x1 x2 N res, (N < 1 \/ 40 < N)%Z -> integrateGL fnc x1 x2 N = Throw /\ integrateGLmany M F x1 x2 N res = Throw.
Proof.
  intros fnc M F x1 x2 N res H. unfold integrateGL, integrateGLmany, MAX_GL_ORDER. destruct (Z.ltb_spec N 1); [split; reflexivity|]. rewrite (proj2 (Z.ltb_lt 40 N)) by lia. split; reflexivity.
Qed.
(** Integrating several functions at once gives the same as integrating each of them separately. *)
Theorem C53_many : forall M fnc x1 x2 N result, (1 <= N <= 40)%Z -> (forall x, alen (fnc x) = M) -> alen result = M ->
  exists r, integrateGLmany M fnc x1 x2 N result = Ok r /\ alen r = M /\
    forall k, (0 <= k < M)%Z -> integrateGL (fun x => Ok (afn (fnc x) k)) x1 x2 N = Ok (afn r k).
Proof. exact integrateGLmany_ok. Qed.

(** prepareIntegrationTableGL for the orders with a pre-computed rule: every element of both arrays is written, none outside of them; the points increase and
    lie inside of the interval, the weights are positive, and the rule is exact for polynomials of degree up to 2N-1 to within 2.5e-16.
    Missing: other orders, for which the rule is found by an iterative method. *)
Theorem C53_table_partial : forall newton x1 x2 n nodes weights,
  In n [1;2;3;4;5;6;7;8;9;10;11;12;13;14;15;16;17;18;19;20;25;32;40]%nat -> alen nodes = Z.of_nat n -> alen weights = Z.of_nat n ->
  exists xs ws, prepareTable newton x1 x2 (Z.of_nat n) nodes weights = Ok (xs, ws) /\ alen xs = Z.of_nat n /\ alen ws = Z.of_nat n /\
    (x1 < x2 -> (forall j, (0 <= j < Z.of_nat n)%Z -> x1 < afn xs j < x2 /\ 0 < afn ws j) /\
                (forall i j, (0 <= i < j)%Z -> (j < Z.of_nat n)%Z -> afn xs i < afn xs j)) /\
    (forall f K c, (K <= 2 * n - 1)%nat -> (forall t, 0 <= t <= 1 -> f (x1 + t * (x2 - x1)) = poly K c t) ->
       exists I, is_RInt f x1 x2 I /\ Rabs (zsum 0 (Z.of_nat n) (fun j => afn ws j * f (afn xs j)) - I) <= 25 / 10 ^ 17 * (Rabs (x2 - x1) * sum_f_R0 (fun k => Rabs (c k)) K)).
Proof.
  intros newton x1 x2 n nodes weights H Ln Lw. destruct (prepare_ok newton x1 x2 n nodes weights H Ln Lw) as (xs & ws & E & Lx & Lv & V). destruct (sym_facts n H) as (G & S & W).
  assert (N1 : (1 <= n)%nat). { cbn in H. repeat (destruct H as [<-|H]; [lia|]). destruct H. }
  exists xs, ws. split; [exact E|]. split; [exact Lx|]. split; [exact Lv|]. split.
  - intros L. split.
    + intros j Hj. destruct (V j Hj) as (-> & ->). destruct (G j Hj) as (P & Q). split; [nra|]. apply Rmult_lt_0_compat; lra.
    + intros i j Hi Hj. destruct (V i ltac:(lia)) as (-> & _), (V j ltac:(lia)) as (-> & _). pose proof (S i j Hi Hj). nra.
  - intros f K c HK Hc. exists ((x2 - x1) * sum_f_R0 (fun k => c k / INR (k + 1)) K). split.
    + destruct (Req_EM_T x1 x2) as [<-|Ne]; [|apply (RI_affine' f (poly K c)); [exact Ne|exact Hc|apply RI_poly01]]. eapply RI_val; [apply RI_point|]. ring.
    + rewrite (zsum_ext 0 (Z.of_nat n) _ (fun j => (x2 - x1) * (glw (symTab n) (Z.of_nat n) j * poly K c (glp (symTab n) (Z.of_nat n) j)))).
      2:{ intros j Hj. destruct (V j Hj) as (-> & ->). destruct (G j Hj) as (P & _). rewrite Hc by lra. ring. }
      rewrite zsum_scal, <- Rmult_minus_distr_l, Rabs_mult. change (25 / 10 ^ 17) with eps_gl. rewrite <- (Rmult_assoc eps_gl), (Rmult_comm eps_gl), Rmult_assoc.
      apply Rmult_le_compat_l; [apply Rabs_pos|]. apply gl_seg; [lia|exact W|lia].
Qed.
(** A negative order reads outside of the list of tables. *)
Theorem C53_table_negative_refuted : forall newton x1 x2 N nodes weights, (N < 0)%Z -> prepareTable newton x1 x2 N nodes weights = UB.
Proof. intros. unfold prepareTable, MAX_GL_ORDER. rewrite (proj2 (Z.leb_le N 40)), (proj2 (Z.ltb_lt N 0)) by lia. reflexivity. Qed.

(** ---- examples ---- *)
(** the integral of x^2 from 3 to 1 with two points *)
Example gl_square : exists r, integrateGL (fun x => Ok (x * x)) 3 1 2 = Ok r /\ Rabs (r - - 26 / 3) <= 25 / 10 ^ 17 * 50.
Proof.
  destruct (C53_polynomials (fun x => Ok (x * x)) (fun x => x * x) 3 1 2 2 (fun k => match k with O => 9 | S O => -12 | _ => 4 end)) as (r & I & E & HI & B); [lia|reflexivity|cbn; lia|intros; unfold poly; cbn; ring|].
  exists r. split; [exact E|]. assert (I = - 26 / 3).
  { rewrite <- (is_RInt_unique _ _ _ _ HI). apply is_RInt_unique. replace (- 26 / 3) with (minus (1 ^ 3 / 3) (3 ^ 3 / 3)) by (unfold minus, plus, opp; cbn; field).
    apply (is_RInt_derive (fun x => x ^ 3 / 3) (fun x => x * x)); intros x _; [auto_derive; [exact Logic.I|field]|]. apply (ex_derive_continuous (fun x => x * x)). auto_derive. exact Logic.I. }
  subst I. eapply Rle_trans; [exact B|]. apply Rmult_le_compat_l; [pose proof eps_pos; unfold eps_gl in *; lra|]. cbn. rewrite (Rabs_left (1 - 3)), (Rabs_left (-12)), (Rabs_pos_eq 9), (Rabs_pos_eq 4) by lra. lra.
Qed.
(** 21 points are requested, 25 are used *)
Example gl_25 : nextRule 41 21 = Ok 25%Z. Proof. exact (proj1 (nextRule_ok 21 ltac:(lia))). Qed.
Example table_4 : exists xs ws, prepareTable (fun _ _ => UB) (-1) 1 4 (anew 4 0) (anew 4 0) = Ok (xs, ws) /\ -1 < afn xs 0%Z < afn xs 1%Z.
Proof.
  destruct (C53_table_partial (fun _ _ => UB) (-1) 1 4 (anew 4 0) (anew 4 0)) as (xs & ws & E & _ & _ & A & _); [cbn; tauto|reflexivity|reflexivity|].
  exists xs, ws. split; [exact E|]. destruct (A ltac:(lra)) as (B & C). split; [apply B; lia|apply C; lia].
Qed.

Print Assumptions C53_polynomials.
Print Assumptions C53_bounded.
Print Assumptions C53_monotone.
Print Assumptions C53_nonneg.
Print Assumptions C53_bad_order.
Print Assumptions C53_many.
Print Assumptions C53_table_partial.
Print Assumptions C53_table_negative_refuted.
