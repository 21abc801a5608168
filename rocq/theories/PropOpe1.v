(** C75: an orthogonal expansion evaluates to the sum of its coefficients times the
    polynomials of its family, on its domain. *)
From Coq Require Import Reals Lra Lia List.
From Verif Require Import Base BaseFacts FOps RIntLib FFTCheb QuadFacts OpeModel OpeSpec LegFacts HermFacts OpeBasis OpeFacts OpeGrad.
Import ListNotations.
Local Open Scope R_scope.

(** ** The families are the classical ones *)
(** Legendre: degree k, positive leading coefficient, orthogonal over [-1,1] with norm 2. *)
Theorem C75_legendre_family :
  (forall k, exists l, length l = S k /\ 0 < nth k l 0 /\ forall x, phi LEGENDRE k x = pe l x) /\
  (forall i j, is_RInt (fun x => phi LEGENDRE i x * phi LEGENDRE j x) (-1) 1 (if (i =? j)%nat then 2 else 0)).
Proof.
  split; [|apply phi_leg_orth]. intros k. exists (phil LEGENDRE k). split; [apply phil_length|]. split; [apply phil_lead|apply phil_pe].
Qed.
Print Assumptions C75_legendre_family.
(** Chebyshev: the polynomial that takes cos t to cos (k t). *)
Theorem C75_chebyshev_family k :
  (exists l, length l = S k /\ 0 < nth k l 0 /\ forall x, phi CHEBYSHEV k x = pe l x) /\
  (forall t, phi CHEBYSHEV k (cos t) = cos (INR k * t)).
Proof.
  split; [exists (phil CHEBYSHEV k); split; [apply phil_length|]; split; [apply phil_lead|apply phil_pe]|]. apply chebT_cos.
Qed.
Print Assumptions C75_chebyshev_family.
(** Hermite: degree k, positive leading coefficient, orthonormal for the standard normal
    distribution ([gauss_mean] is the limit of weighted averages over [-M,M]). *)
Theorem C75_hermite_family :
  (forall k, exists l, length l = S k /\ 0 < nth k l 0 /\ forall x, phi HERMITE k x = pe l x) /\
  (forall i j, gauss_mean (fun x => phi HERMITE i x * phi HERMITE j x) (if (i =? j)%nat then 1 else 0)).
Proof.
  split; [|apply phi_her_orth]. intros k. exists (phil HERMITE k). split; [apply phil_length|]. split; [apply phil_lead|apply phil_pe].
Qed.
Print Assumptions C75_hermite_family.

(** ** The domain is mapped to the reference domain *)
Theorem C75_domain t n lb ub : lb < ub -> t <> HERMITE ->
  let m := o_map (ope_init t n lb ub) in
  map_to m lb = -1 /\ map_to m ub = 1 /\ (forall x, lb <= x <= ub -> -1 <= map_to m x <= 1) /\
  (forall x, map_from m (map_to m x) = x) /\ (forall x, map_to m (map_from m x) = x).
Proof.
  intros L Ht m. assert (M : m = let s := (1 - -1) / (ub - lb) in mksm s (1 - s * ub) (1 / s) (- (1 - s * ub) / s)) by (destruct t; [reflexivity|reflexivity|congruence]).
  rewrite M. cbv zeta. unfold map_to, map_from. cbn [sm_slope sm_off sm_islope sm_ioff].
  assert (ub - lb <> 0) by lra. repeat split; intros; try (field; lra).
  - replace ((1 - -1) / (ub - lb) * x + (1 - (1 - -1) / (ub - lb) * ub)) with (-1 + 2 * ((x - lb) * / (ub - lb))) by (field; lra).
    assert (0 <= (x - lb) * / (ub - lb)) by (apply Rmult_le_pos; [lra|apply Rlt_le, Rinv_0_lt_compat; lra]). lra.
  - replace ((1 - -1) / (ub - lb) * x + (1 - (1 - -1) / (ub - lb) * ub)) with (1 - 2 * ((ub - x) * / (ub - lb))) by (field; lra).
    assert (0 <= (ub - x) * / (ub - lb)) by (apply Rmult_le_pos; [lra|apply Rlt_le, Rinv_0_lt_compat; lra]). lra.
Qed.
Print Assumptions C75_domain.
(** A Hermite expansion made from options is centred at the mean and scaled by the deviation. *)
Theorem C75_hermite_domain o n x : op_t o = HERMITE -> op_std o <> 0 ->
  map_to (o_map (ope_init_opts o n)) x = (x - op_mean o) / op_std o /\ map_from (o_map (ope_init_opts o n)) ((x - op_mean o) / op_std o) = x.
Proof. intros Ht Hs. unfold ope_init_opts. rewrite Ht. unfold map_to, map_from. cbn [o_map sm_slope sm_off sm_islope sm_ioff]. split; field; auto. Qed.
Print Assumptions C75_hermite_domain.

(** ** Evaluation *)
Theorem C75_eval p x : (1 <= o_n p <= length (o_c p))%nat -> o_kr p = false ->
  ope_eval p x = Ok (rs (o_n p) (fun k => nth k (o_c p) 0 * phi (o_t p) k (map_to (o_map p) x))).
Proof. intros. now apply ope_eval_ok. Qed.
Print Assumptions C75_eval.
(** With Kristoffel weights the value is divided by the weight that the library reports. *)
Theorem C75_eval_kristoffel p x : (1 <= o_n p <= length (o_c p))%nat -> o_kr p = true -> o_t p <> CHEBYSHEV ->
  exists w, ope_kristoffel_weight p x = Ok w /\ 0 < w /\ w ^ 2 * INR (o_n p) = rs (o_n p) (fun k => phi (o_t p) k (map_to (o_map p) x) ^ 2) /\
    ope_eval p x = Ok (rs (o_n p) (fun k => nth k (o_c p) 0 * phi (o_t p) k (map_to (o_map p) x)) / w).
Proof.
  intros Hp Hk Hc. eexists. split; [now apply ope_weight_ok|]. 
  set (s := rs (o_n p) (fun k => phi (o_t p) k (map_to (o_map p) x) ^ 2)).
  assert (Hn : 0 < INR (o_n p)) by (apply lt_0_INR; lia).
  assert (Hs : 0 < s).
  { unfold s. destruct (o_n p) as [|n] eqn:E; [lia|]. rewrite rs_S_l, phi_0.
    assert (0 <= rs n (fun i => phi (o_t p) (S i) (map_to (o_map p) x) ^ 2)); [|lra].
    clear. induction n as [|n IH]; cbn [rs]; [lra|]. assert (0 <= phi (o_t p) (S n) (map_to (o_map p) x) ^ 2) by apply pow2_ge_0. lra. }
  split; [apply sqrt_lt_R0, Rdiv_lt_0_compat; auto|]. split.
  - rewrite <- Rsqr_pow2, Rsqr_sqrt; [field; lra|]. apply Rlt_le, Rdiv_lt_0_compat; auto.
  - now apply ope_eval_kr.
Qed.
Print Assumptions C75_eval_kristoffel.
Theorem C75_evalN p N x incx y incy : (1 <= o_n p <= length (o_c p))%nat -> o_kr p = false -> (1 <= incy)%nat ->
  (forall i, (i < N)%nat -> (i * incx < length x)%nat) -> (forall i, (i < N)%nat -> (i * incy < length y)%nat) ->
  exists y', ope_evalN p N x incx y incy = Ok y' /\ length y' = length y /\
    (forall i, (i < N)%nat -> Ok (nth (i * incy) y' 0) = ope_eval p (nth (i * incx) x 0)) /\
    (forall k, (forall i, (i < N)%nat -> k <> (i * incy)%nat) -> nth k y' 0 = nth k y 0).
Proof.
  intros Hp Hk Hi Hx Hy. destruct (evalN_ok p N x incx y incy Hp Hk Hi Hx Hy) as (y' & E & L & A & B).
  exists y'. repeat split; auto. intros i Hi'. rewrite ope_eval_ok, A by auto. reflexivity.
Qed.
Print Assumptions C75_evalN.
(** Evaluation of an array of expansions gives for each what it gives alone, if expansions
    of one family have one mapping. *)
Theorem C75_arr_eval n parr x out : (1 <= n <= length parr)%nat -> (n <= length out)%nat ->
  (forall p, In p (firstn n parr) -> (1 <= o_n p <= length (o_c p))%nat /\ o_kr p = false) ->
  (forall p q, In p (firstn n parr) -> In q (firstn n parr) -> o_t p = o_t q -> o_map p = o_map q) ->
  exists out', ope_arr_eval n parr x out = Ok out' /\ length out' = length out /\
    (forall i p, (i < n)%nat -> nth_error parr i = Some p -> ope_eval p x = Ok (nth i out' 0)) /\
    (forall k, (n <= k)%nat -> nth k out' 0 = nth k out 0).
Proof.
  intros Hn Ho Hok Hm. destruct (arr_eval_same n parr x out Hn Ho Hok Hm) as (o' & E & L & A & B). exists o'. repeat split; auto.
  intros i p Hi Hp. rewrite (A i p Hi Hp). apply ope_eval_ok; apply Hok; apply nth_error_In with i;
    (rewrite <- (firstn_skipn n parr) in Hp; rewrite nth_error_app1 in Hp; auto; rewrite firstn_length; lia).
Qed.
Print Assumptions C75_arr_eval.
(** Without that condition the mapping of the first is used for all. *)
Theorem C75_arr_eval_refuted : exists p q v, (1 <= o_n p <= length (o_c p))%nat /\ (1 <= o_n q <= length (o_c q))%nat /\
  ope_arr_eval 2 [p; q] 0 [0; 0] = Ok [sqrt 3; v] /\ ope_eval q 0 <> Ok v.
Proof.
  set (p := ope_init LEGENDRE 2 (-1) 0). set (q := ope_init LEGENDRE 2 (-1) 1).
  set (p1 := with_c p 2 (upd (o_c p) 1 1)). set (q1 := with_c q 2 (upd (o_c q) 1 1)).
  assert (Hp : (1 <= o_n p1 <= length (o_c p1))%nat) by (cbn; lia). assert (Hq : (1 <= o_n q1 <= length (o_c q1))%nat) by (cbn; lia).
  exists p1, q1, (sqrt 3). split; auto. split; auto. split.
  - unfold ope_arr_eval. cbn -[sqrt p_lin p_linc map_to init_map]. 
    assert (M : map_to (init_map LEGENDRE (-1) 0) 0 = 1) by (unfold map_to, init_map, p_upper, p_lower; cbn [sm_slope sm_off]; field).
    rewrite M. unfold p_linc, p_lin, p_const. do 2 f_equal; [ring|]. f_equal. ring.
  - rewrite C75_eval by auto. cbn [o_n q1 with_c rs o_t q ope_init]. rewrite phi_0, phi_1.
    assert (M : map_to (o_map q1) 0 = 0) by (unfold map_to; cbn; unfold p_upper, p_lower; field). rewrite M.
    intros E. apply (f_equal (fun o => match o with Ok a => a | _ => 0 end)) in E.
    cbn [o_c q1 with_c q ope_init Nat.add opecalloc repeat upd nth] in E. unfold p_linc, p_lin in E.
    assert (0 < sqrt 3) by (apply sqrt_lt_R0; lra). lra.
Qed.
Print Assumptions C75_arr_eval_refuted.

(** ** Derivatives at a point *)
Theorem C75_deriv_eval p x : (1 <= o_n p <= length (o_c p))%nat -> o_kr p = false ->
  exists d, ope_deriv_eval p x = Ok d /\ derivable_pt_lim (fun z => rs (o_n p) (fun k => nth k (o_c p) 0 * phi (o_t p) k (map_to (o_map p) z))) x d /\
    (o_t p = CHEBYSHEV -> cheb_deriv_eval p x = Ok d).
Proof.
  intros Hp Hk. exists (ope_funD p x). split; [now apply deriv_eval_ok|]. split; [apply ope_fun_deriv|]. intros Ht. now apply cheb_deriv_eval_ok.
Qed.
Print Assumptions C75_deriv_eval.
Theorem C75_cheb_dderiv_eval p x : o_t p = CHEBYSHEV -> (1 <= o_n p <= length (o_c p))%nat -> o_kr p = false -> o_n p <> 3%nat ->
  exists d d', cheb_deriv_eval p x = Ok (d x) /\ cheb_dderiv_eval p x = Ok d' /\
    (forall z, derivable_pt_lim (fun z => rs (o_n p) (fun k => nth k (o_c p) 0 * phi CHEBYSHEV k (map_to (o_map p) z))) z (d z)) /\ derivable_pt_lim d x d'.
Proof.
  intros Ht Hp Hk H3. exists (ope_funD p), (ope_funDD p x). split; [now apply cheb_deriv_eval_ok|]. split; [apply cheb_dderiv_eval_ok; auto|].
  split; [|now apply ope_funD_deriv]. intros z. pose proof (ope_fun_deriv p z) as D. unfold ope_fun in D. rewrite Ht in D. exact D.
Qed.
Print Assumptions C75_cheb_dderiv_eval.
(** With three coefficients the second derivative lacks the factor of the mapping: x^2 on
    [0,2], in the form 3/2 + 2 T1 + 1/2 T2, is right, but on [0,1] it is not. *)
Theorem C75_cheb_dderiv_eval_refuted : exists p, o_t p = CHEBYSHEV /\ (1 <= o_n p <= length (o_c p))%nat /\ o_kr p = false /\
  (forall x, ope_eval p x = Ok (x ^ 2)) /\ cheb_dderiv_eval p 0 = Ok (/ 2).
Proof.
  set (q := ope_init CHEBYSHEV 3 0 1). exists (with_c q 3 ([3 / 8; 1 / 2; 1 / 8] ++ skipn 3 (o_c q))).
  split; [reflexivity|]. split; [cbn; lia|]. split; [reflexivity|]. split.
  - intros x. rewrite C75_eval by (auto; cbn; lia). f_equal. cbn [o_n with_c rs o_t q ope_init o_c o_map init_map phi chebT app nth]. unfold map_to, p_upper, p_lower. cbn [sm_slope sm_off]. field.
  - unfold cheb_dderiv_eval. cbn. f_equal. field.
Qed.
Print Assumptions C75_cheb_dderiv_eval_refuted.

(** ** Gradient with respect to the coefficients *)
Theorem C75_param_grad p nx x grad : (1 <= o_n p <= length (o_c p))%nat -> (o_kr p = true -> o_t p <> CHEBYSHEV) ->
  (nx <= length x)%nat -> (nx * o_n p <= length grad)%nat ->
  exists grad' val, ope_param_grad_eval p nx x grad = Ok grad' /\ length grad' = length grad /\
    (forall c z, length c = length (o_c p) -> ope_eval (with_c p (o_n p) c) z = Ok (val c z)) /\
    (forall i j, (i < nx)%nat -> (j < o_n p)%nat ->
       derivable_pt_lim (fun u => val (upd (o_c p) j u) (nth i x 0)) (nth j (o_c p) 0) (nth (i * o_n p + j) grad' 0)) /\
    (forall k, (nx * o_n p <= k)%nat -> nth k grad' 0 = nth k grad 0).
Proof.
  intros Hp Hc Hx Hg. destruct (param_grad_ok p nx x grad Hp Hx Hg) as (g & E & L & A & B).
  exists g, (fun c z => ope_val (with_c p (o_n p) c) z). split; auto. split; auto. split.
  - intros c z Lc. apply ope_eval_val; auto. unfold ope_ok. cbn [o_n o_c with_c]. lia.
  - split; auto. intros i j Hi Hj. rewrite A by auto. apply ope_val_grad; lia.
Qed.
Print Assumptions C75_param_grad.
Theorem C75_param_grad2 p x grad : (1 <= o_n p <= length (o_c p))%nat -> o_kr p = false -> (o_n p <= length grad)%nat ->
  exists v grad', ope_param_grad_eval2 p x grad = Ok (v, grad') /\ ope_eval p x = Ok v /\ length grad' = length grad /\
    (exists g0, ope_param_grad_eval p 1 [x] grad = Ok g0 /\ forall j, nth j grad' 0 = nth j g0 0).
Proof.
  intros Hp Hk Hg. destruct (param_grad2_ok p x grad Hp Hg) as (g & E & L & A & B).
  destruct (param_grad_ok p 1 [x] grad Hp) as (g0 & E0 & L0 & A0 & B0); [cbn; lia|lia|].
  exists (ope_fun p x), g. split; auto. split; [now apply ope_eval_ok|]. split; auto. exists g0. split; auto.
  intros j. destruct (Nat.lt_ge_cases j (o_n p)) as [Lj|Lj].
  - rewrite A by auto. specialize (A0 0%nat j ltac:(lia) Lj). cbn [Nat.mul Nat.add nth] in A0. now rewrite A0.
  - rewrite B, B0 by lia. reflexivity.
Qed.
Print Assumptions C75_param_grad2.
(** With Kristoffel weights the value returned beside the gradient is not the value of the
    expansion. *)
Theorem C75_param_grad2_refuted : exists p v w g g', (1 <= o_n p <= length (o_c p))%nat /\ o_kr p = true /\
  ope_param_grad_eval2 p 1 g = Ok (v, g') /\ ope_eval p 1 = Ok w /\ v <> w.
Proof.
  set (q := ope_init LEGENDRE 2 (-1) 1). set (p := mkope LEGENDRE 2 52 (1 :: skipn 1 (o_c q)) (-1) 1 (o_map q) true).
  assert (Hp : (1 <= o_n p <= length (o_c p))%nat) by (cbn; lia).
  destruct (param_grad2_ok p 1 [0; 0] Hp) as (g' & E & _); [cbn; lia|].
  destruct (C75_eval_kristoffel p 1 Hp eq_refl) as (w & _ & W0 & W & Ew); [discriminate|].
  exists p, (ope_fun p 1), (ope_fun p 1 / w), [0; 0], g'. split; auto. split; [reflexivity|]. split; auto. split; [exact Ew|].
  assert (F : ope_fun p 1 = 1).
  { unfold ope_fun, co. cbn [o_n p rs o_c nth o_t]. rewrite phi_0. cbn [skipn o_c q ope_init Nat.add opecalloc repeat nth]. ring. }
  rewrite F. cbn [o_n p rs o_t INR] in W. rewrite phi_0, phi_1 in W.
  assert (M : map_to (o_map p) 1 = 1) by (unfold map_to; cbn; unfold p_upper, p_lower; field). rewrite M in W. unfold p_linc, p_lin in W.
  assert (S3 : sqrt 3 * sqrt 3 = 3) by (apply sqrt_sqrt; lra).
  assert (W2 : w ^ 2 = 2) by nra. intros E1. assert (w = 1) by (apply Rmult_eq_reg_l with (/ w); [rewrite Rinv_l by lra; unfold Rdiv in E1; lra|apply Rinv_neq_0_compat; lra]). subst. lra.
Qed.
Print Assumptions C75_param_grad2_refuted.

(** ** The evaluation of a single polynomial of a family *)
(** orth_poly_eval is right for Chebyshev polynomials and for orders up to two *)
Theorem C75_orth_poly_eval_partial t n x : t = CHEBYSHEV \/ (n <= 2)%nat -> orth_poly_eval t n x = Ok (phi t n x).
Proof.
  intros H. destruct n as [|[|n]].
  - cbn [orth_poly_eval]. now rewrite phi_0.
  - cbn [orth_poly_eval]. rewrite phi_1. f_equal. ring.
  - unfold orth_poly_eval. assert (C : forall j, (j < S n)%nat -> eval_wp t (phi t j x) (phi t (S j) x) (S (S n)) x = phi t (S (S j)) x).
    { intros j Hj. destruct H as [->|H]; [rewrite <- (phi_rec CHEBYSHEV j x); reflexivity|]. assert (n = 0%nat) by lia. assert (j = 0%nat) by lia. subst. apply phi_rec. }
    replace (S (S n) + 1 - 2)%nat with (S n) by lia.
    pose (st := fun k => (phi t (k - 1) x, phi t (k - 2) x, if (k <=? 2)%nat then 0 else phi t (k - 1) x)).
    assert (S2 : (p_lin t * x + p_linc t, p_const t, 0) = st 2%nat) by (unfold st; cbn [Nat.sub Nat.leb]; rewrite phi_0, phi_1; unfold p_const; repeat match goal with |- (_, _) = (_, _) => apply f_equal2 end; ring).
    rewrite S2, (for_from_det st).
    + cbn [obind]. unfold st. replace (2 + S n)%nat with (S (S (S n))) by lia. cbn [Nat.leb]. cbn [Nat.sub]. reflexivity.
    + intros i Hi. unfold st at 1. destruct i as [|[|j]]; try lia. specialize (C j ltac:(lia)). unfold eval_wp in C.
      replace (S (S j) - 1)%nat with (S j) by lia. replace (S (S j) - 2)%nat with j by lia. cbv beta iota. rewrite C.
      unfold st. replace (S (S (S j)) - 1)%nat with (S (S j)) by lia. replace (S (S (S j)) - 2)%nat with (S j) by lia. reflexivity.
Qed.
Print Assumptions C75_orth_poly_eval_partial.
(** but from order three on it uses the last coefficient of the recurrence throughout *)
Theorem C75_orth_poly_eval_refuted : exists n x v, orth_poly_eval HERMITE n x = Ok v /\ v <> phi HERMITE n x.
Proof.
  exists 3%nat, (sqrt 3). eexists. split.
  - unfold orth_poly_eval. cbn [for_from Nat.add Nat.sub obind p_lin p_linc p_const p_an p_bn p_cn]. reflexivity.
  - cbn [phi herP]. assert (S3 : sqrt 3 * sqrt 3 = 3) by (apply sqrt_sqrt; lra). assert (0 < sqrt 3) by (apply sqrt_lt_R0; lra).
    replace (INR 3) with 3 by (cbn; ring).
    replace ((sqrt 3 * (sqrt 3 * sqrt 3 - INR (0 + 1) * 1) - INR (1 + 1) * sqrt 3) / sqrt (INR (fact 3))) with 0.
    2:{ rewrite S3. cbn [Nat.add INR]. unfold Rdiv. ring. }
    set (c := sqrt ((3 - 1) / 3)). assert (C : c * c = 2 / 3) by (unfold c; rewrite sqrt_sqrt; lra). assert (C0 : 0 <= c) by apply sqrt_pos.
    replace (1 / sqrt 3 * sqrt 3) with 1 by (field; lra).
    unfold p_bn, p_linc, p_const. intros E. assert (E2 : c * (1 + sqrt 3) = sqrt 3) by lra.
    assert (E3 : c * (1 + sqrt 3) * (c * (1 + sqrt 3)) = 3) by (now rewrite E2).
    assert (E4 : c * c * (1 + 2 * sqrt 3 + sqrt 3 * sqrt 3) = 3) by (transitivity (c * (1 + sqrt 3) * (c * (1 + sqrt 3))); [ring|exact E3]). rewrite C, S3 in E4.
    assert (sqrt 3 = 1 / 4) by lra. nra.
Qed.
Print Assumptions C75_orth_poly_eval_refuted.

(** ** A concrete case: 1 + 2 x on [0,4] as a Legendre expansion *)
Example C75_example :
  let p := with_c (ope_init LEGENDRE 2 0 4) 2 ([5; 4 / sqrt 3] ++ repeat 0 50) in
  (1 <= o_n p <= length (o_c p))%nat /\ forall x, ope_eval p x = Ok (1 + 2 * x).
Proof.
  intros p. split; [cbn; lia|]. intros x. rewrite C75_eval by (auto; cbn; lia). f_equal.
  cbn [o_n p with_c rs o_t ope_init o_c app nth]. rewrite phi_0, phi_1. unfold map_to, p_lin, p_linc. unfold p; cbn [o_map with_c ope_init init_map sm_slope sm_off]. unfold p_upper, p_lower.
  assert (0 < sqrt 3) by (apply sqrt_lt_R0; lra). field. lra.
Qed.
