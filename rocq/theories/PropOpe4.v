(** C78: derivatives of expansions, as expansions, are those of the functions up to the
    threshold below which coefficients are set to zero. *)
From Coq Require Import Reals Lra Lia List.
From Verif Require Import Base BaseFacts FOps RIntLib FFTCheb QuadModel QuadFacts QuadCC OpeModel OpeSpec LegFacts HermFacts OpeBasis OpeFacts OpeLin OpeLin2 OpeInt OpeApprox OpeDer OpeDer2.
Import ListNotations.
Local Open Scope R_scope.

(** [rounded zt q n b]: the coefficients of [q] are those of [b], where those smaller than
    zt max(1, n max |b|) may be zero instead.  [sharp zt n b]: none of [b] is that small,
    unless it is zero.  *)
Lemma mapping_inverse p : dom_ok p -> maps_ok p.
Proof.
  intros (T & L & E) z. rewrite E. unfold map_to, map_from, init_map, p_upper, p_lower. destruct (o_t p); try congruence; cbn [sm_slope sm_off sm_islope sm_ioff]; field; lra.
Qed.

Definition derivative_of zt p q : Prop :=
  exists p1 n b, (* the argument, rounded *)
    same_shape p p1 /\ rounded zt p1 (o_n p) (co p) /\
    (* its derivative *)
    (forall x, derivable_pt_lim (ope_fun p1) x (rs n (fun k => b k * phi (o_t p) k (map_to (o_map p) x)))) /\ (n <= Nat.max 1 (o_n p - 1))%nat /\
    (* rounded *)
    same_shape p q /\ (1 <= o_n q <= length (o_c q))%nat /\ rounded zt q n b.

Theorem C78_deriv_legendre zt quad p : 0 < zt -> ope_wf p -> o_kr p = false -> o_t p = LEGENDRE ->
  exists q, ope_deriv zt quad p = Ok q /\ derivative_of zt p q.
Proof.
  intros Z W K T. destruct (deriv_ok zt Z quad p W K) as (p1 & q & b & E & S1 & N1 & R1 & S2 & W2 & N2 & D & R2); [congruence|].
  exists q. split; [exact E|]. exists p1, (Nat.max 1 (o_n p1 - 1)), b. repeat (split; [assumption|]). split; [lia|]. split; [assumption|]. split; [apply ope_wf_ok in W2; exact W2|assumption].
Qed.
Print Assumptions C78_deriv_legendre.
(** with the Gauss-Chebyshev rule of the library *)
Theorem C78_deriv_chebyshev zt tol gl gh p : 0 < zt -> ope_wf p -> o_kr p = false -> o_t p = CHEBYSHEV -> dom_ok p ->
  exists q, ope_deriv zt (lib_quad tol gl gh) p = Ok q /\ derivative_of zt p q.
Proof.
  intros Z W K T Dm. destruct (deriv_ok zt Z (lib_quad tol gl gh) p W K) as (p1 & q & b & E & S1 & N1 & R1 & S2 & W2 & N2 & D & R2).
  { intros _. split; [now apply mapping_inverse|]. rewrite T. intros n Hn. apply cheb_gauss_exact. lia. }
  exists q. split; [exact E|]. exists p1, (Nat.max 1 (o_n p1 - 1)), b. repeat (split; [assumption|]). split; [lia|]. split; [assumption|]. split; [apply ope_wf_ok in W2; exact W2|assumption].
Qed.
Print Assumptions C78_deriv_chebyshev.
(** Hermite, provided that the Gauss-Hermite rules with n+1 nodes are exact up to degree 2n-1;
    those rules are computed by an eigenvalue routine that is not modelled. *)
Theorem C78_deriv_hermite_partial zt quad p : 0 < zt -> ope_wf p -> o_kr p = false -> o_t p = HERMITE -> (forall z, map_to (o_map p) (map_from (o_map p) z) = z) ->
  (forall n, (1 <= n < o_n p)%nat -> qexact HERMITE n (quad HERMITE n)) ->
  exists q, ope_deriv zt quad p = Ok q /\ derivative_of zt p q.
Proof.
  intros Z W K T M Q. destruct (deriv_ok zt Z quad p W K) as (p1 & q & b & E & S1 & N1 & R1 & S2 & W2 & N2 & D & R2).
  { intros _. split; [exact M|]. rewrite T. exact Q. }
  exists q. split; [exact E|]. exists p1, (Nat.max 1 (o_n p1 - 1)), b. repeat (split; [assumption|]). split; [lia|]. split; [assumption|]. split; [apply ope_wf_ok in W2; exact W2|assumption].
Qed.
Print Assumptions C78_deriv_hermite_partial.
(** Without small coefficients the values are exactly those of the derivative. *)
Theorem C78_deriv_exact zt p q : ope_wf p -> o_kr p = false -> derivative_of zt p q -> sharp zt (o_n p) (co p) ->
  exists n b, (n <= Nat.max 1 (o_n p - 1))%nat /\ (forall x, derivable_pt_lim (ope_fun p) x (rs n (fun k => b k * phi (o_t p) k (map_to (o_map p) x)))) /\
    (sharp zt n b -> forall x, ope_eval q x = Ok (rs n (fun k => b k * phi (o_t p) k (map_to (o_map p) x)))).
Proof.
  intros W K (p1 & n & b & S1 & R1 & D & Hn & S2 & Hq & R2) Sh. exists n, b. split; [exact Hn|]. split.
  - intros x. apply (derivable_pt_lim_ext (ope_fun p1)); [|apply D]. intros y.
    rewrite (ope_fun_coz p1 (o_n p1 + o_n p)), (ope_fun_coz p (o_n p1 + o_n p)) by lia. destruct S1 as (T & _ & _ & M & _). rewrite <- T, <- M. apply rs_ext. intros k _.
    rewrite (rounded_sharp zt p1 _ _ R1 Sh). unfold coz, co. reflexivity.
  - intros Sb x. assert (o_kr q = false) by (rewrite <- K; symmetry; apply S2). destruct S2 as (T & _ & _ & M & _). rewrite T, M. now apply (rounded_fun zt q n b x).
Qed.
Print Assumptions C78_deriv_exact.

(** Second derivatives, Chebyshev: right unless three coefficients are left on a domain whose
    length is not two. *)
Theorem C78_dderiv_chebyshev zt tol gl gh p : 0 < zt -> ope_wf p -> o_kr p = false -> o_t p = CHEBYSHEV -> dom_ok p ->
  exists p1, same_shape p p1 /\ rounded zt p1 (o_n p) (co p) /\
    (o_n p1 <> 3%nat \/ o_ub p - o_lb p = 2 ->
     exists q n b f', ope_dderiv zt (lib_quad tol gl gh) p = Ok q /\ same_shape p q /\ (1 <= o_n q <= length (o_c q))%nat /\
       (forall x, derivable_pt_lim (ope_fun p1) x (f' x)) /\
       (forall x, derivable_pt_lim f' x (rs n (fun k => b k * phi CHEBYSHEV k (map_to (o_map p) x)))) /\
       rounded zt q n b).
Proof.
  intros Z W K T Dm. destruct (dderiv_cheb_ok zt Z (lib_quad tol gl gh) p T W K (mapping_inverse p Dm)) as (p1 & S1 & N1 & R1 & H).
  { intros n Hn. apply cheb_gauss_exact. lia. }
  { apply lib_quad_0. }
  exists p1. split; [exact S1|]. split; [exact R1|]. intros H3. destruct H as (q & b & E & Sq & Wq & Rq0 & F).
  { destruct H3 as [H3|H3]; [now left|]. right. destruct (dom_map p Dm) as [-> _]. rewrite H3. lra. }
  exists q, (Nat.max 1 (o_n p1 - 2)), b, (ope_funD p1). split; [exact E|]. split; [exact Sq|]. split; [apply ope_wf_ok in Wq; exact Wq|].
  split; [intros; apply ope_fun_deriv|]. split; [|exact Rq0]. intros x. rewrite <- F. apply ope_funD_deriv. rewrite <- T. symmetry. apply S1.
Qed.
Print Assumptions C78_dderiv_chebyshev.

(** Legendre and Hermite: the derivative twice, of the rounded argument *)
Theorem C78_dderiv_legendre zt quad p : 0 < zt -> ope_wf p -> o_kr p = false -> o_t p = LEGENDRE ->
  exists p1 q, ope_dderiv zt quad p = Ok q /\ same_shape p p1 /\ rounded zt p1 (o_n p) (co p) /\ same_shape p q /\
    (o_n p1 = 1%nat /\ (forall x, ope_eval q x = Ok 0) \/
     exists r s, derivative_of zt p1 r /\ derivative_of zt r s /\ rounded zt q (o_n s) (co s)).
Proof.
  intros Z W K T. unfold ope_dderiv. rewrite K. cbn [negb cassert obind].
  destruct (copy_ok p W) as (p0 & E0 & S0 & N0 & W0 & A0 & C0 & _). rewrite E0. cbn [obind].
  destruct (round_rounded zt Z p0 (ope_wf_ok _ W0)) as (p1 & E1 & S1 & N1 & A1 & L1 & R1). rewrite E1. cbn [obind].
  assert (W1 : ope_wf p1) by (apply (round_wf p0 p1); auto).
  assert (S01 : same_shape p p1) by (eapply same_shape_trans; eauto).
  destruct (zero_copy p1 W1) as (out & c & E2 & E3 & S2 & N2 & A2 & L2 & Zc). rewrite E2. cbn [obind]. rewrite E3. cbn [obind].
  assert (RP : rounded zt p1 (o_n p) (co p)).
  { rewrite N0 in R1. apply (rounded_ext zt p1 (o_n p) (fun k => nth k (o_c p0) 0)); [|exact R1]. intros k Hk. specialize (C0 k). unfold coz in C0. rewrite N0 in C0. destruct (Nat.ltb_spec k (o_n p)); [exact C0|lia]. }
  assert (S02 : same_shape p out) by (eapply same_shape_trans; eauto).
  assert (Tp : o_t p1 = LEGENDRE) by (rewrite <- T; symmetry; apply S01). assert (Kp : o_kr p1 = false) by (rewrite <- K; symmetry; apply S01).
  exists p1. destruct W1 as [Wn Wa]. destruct (Nat.ltb_spec (o_n p1) 2) as [N2'|N2'].
  - eexists. split; [reflexivity|]. split; [exact S01|]. split; [exact RP|]. split; [exact S02|]. left. split; [lia|]. intros x.
    rewrite ope_eval_ok; [|unfold ope_ok; cbn [o_n o_c with_c]; lia|rewrite <- K; symmetry; apply S02]. f_equal. unfold ope_fun. apply rs_zero. intros k _. unfold co. cbn [o_c with_c]. rewrite Zc. ring.
  - rewrite Tp. destruct (C78_deriv_legendre zt quad p1 Z) as (r & Er & Dr); auto; [split; auto|]. rewrite Er. cbn [obind].
    destruct (deriv_ok zt Z quad p1) as (? & r' & ? & Er' & _ & _ & _ & Sr & Wr & _); [split; auto|auto|congruence|]. assert (r' = r) by congruence. subst r'.
    assert (Tr : o_t r = LEGENDRE) by (rewrite <- Tp; symmetry; apply Sr). assert (Kr : o_kr r = false) by (rewrite <- Kp; symmetry; apply Sr).
    destruct (C78_deriv_legendre zt quad r Z Wr Kr Tr) as (s & Es & Ds). rewrite Es. cbn [obind].
    destruct (deriv_ok zt Z quad r) as (? & s' & ? & Es' & _ & _ & _ & Ss & Ws & _); [auto|auto|congruence|]. assert (s' = s) by congruence. subst s'.
    destruct (round_rounded zt Z s (ope_wf_ok _ Ws)) as (q & Eq & Sq & _ & _ & _ & Rq0).
    exists q. split; [exact Eq|]. split; [exact S01|]. split; [exact RP|]. split.
    + eapply same_shape_trans; [exact S01|]. eapply same_shape_trans; [exact Sr|]. eapply same_shape_trans; [exact Ss|exact Sq].
    + right. exists r, s. split; [exact Dr|]. split; [exact Ds|]. exact Rq0.
Qed.
Print Assumptions C78_dderiv_legendre.

(** x^2 on [0,1] has the second derivative 2; the expansion returned is 1/2. *)
Theorem C78_dderiv_refuted zt tol gl gh : 0 < zt <= / 100 -> exists p q, ope_wf p /\ o_kr p = false /\ o_t p = CHEBYSHEV /\ dom_ok p /\
  (forall x, ope_eval p x = Ok (x ^ 2)) /\ ope_dderiv zt (lib_quad tol gl gh) p = Ok q /\ forall x, ope_eval q x = Ok (/ 2).
Proof.
  intros Hz. set (i := ope_init CHEBYSHEV 3 0 1). set (p := with_c i 3 ([3 / 8; 1 / 2; 1 / 8] ++ skipn 3 (o_c i))).
  assert (W : ope_wf p) by (split; [split; apply Nat.leb_le; reflexivity|reflexivity]). assert (Z : 0 < zt) by lra.
  assert (Sh : sharp zt 3 (co p)).
  { intros j k Hj Hk. right. unfold thrN. cbn [INR].
    assert (B : Rabs (co p j) <= 1 / 2) by (destruct j as [|[|[|]]]; [..|lia]; cbn; rewrite Rabs_pos_eq; lra).
    assert (C : 1 / 8 <= Rabs (co p k)) by (destruct k as [|[|[|]]]; [..|lia]; cbn; rewrite Rabs_pos_eq; lra).
    apply Rle_trans with (1 / 8); [|exact C]. apply Rle_trans with (zt * 2); [|lra]. apply Rmult_le_compat_l; [lra|]. apply Rmax_lub; lra. }
  destruct (dderiv_cheb_run zt Z (lib_quad tol gl gh) p eq_refl W eq_refl) as (p1 & S1 & N1 & W1 & R1 & H).
  { intros n Hn. apply cheb_gauss_exact. lia. }
  assert (Cz := rounded_sharp zt p1 3 (co p) R1 Sh).
  assert (N3 : o_n p1 = 3%nat). { change (o_n p) with 3%nat in N1. specialize (Cz 2%nat). unfold coz in Cz. destruct (Nat.ltb_spec 2 (o_n p1)) as [L|L]; [lia|]. cbn in Cz. lra. }
  destruct (H (fun _ => / 2) (fun _ => / 2)) as (q & E & Sq & Wq & Rq0).
  - lia.
  - intros x. unfold cheb_dderiv_eval. assert (K1 : o_kr p1 = false) by (symmetry; apply S1). rewrite K1, N3. cbn [negb cassert obind].
    rewrite aget_nth by (apply ope_wf_ok in W1; unfold ope_ok in W1; lia). cbn [obind]. specialize (Cz 2%nat). unfold coz in Cz. rewrite N3 in Cz. cbn in Cz. rewrite Cz. f_equal. field.
  - intros z. rewrite N3. cbn [Nat.sub rs]. cbn. ring.
  - exists p, q. split; [exact W|]. split; [reflexivity|]. split; [reflexivity|]. split; [split; [discriminate|]; split; [cbn; lra|reflexivity]|]. split; [|split; [exact E|]].
    + intros x. rewrite ope_eval_ok; [|apply ope_wf_ok, W|reflexivity]. f_equal. unfold ope_fun, co, p. cbn [o_n with_c rs o_t i ope_init o_c o_map init_map phi chebT app nth]. unfold map_to, p_upper, p_lower. cbn [sm_slope sm_off]. field.
    + intros x. rewrite N3 in Rq0. assert (K1 : o_kr q = false) by (symmetry; apply Sq). rewrite (rounded_fun zt q 1 (fun _ => / 2) x); auto using ope_wf_ok.
      * f_equal. cbn [rs]. rewrite phi_0. ring.
      * intros j k _ _. right. unfold thrN. cbn [INR]. rewrite Rabs_pos_eq by lra. apply Rle_trans with (zt * 1); [|lra]. apply Rmult_le_compat_l; [lra|]. apply Rmax_lub; lra.
Qed.
Print Assumptions C78_dderiv_refuted.

(** ** A concrete case: the derivative of 1 + 2 x on [0,4] is 2 *)
Example C78_example zt quad : 0 < zt <= / 100 ->
  let p := with_c (ope_init LEGENDRE 2 0 4) 2 ([5; 4 / sqrt 3] ++ repeat 0 50) in
  ope_wf p /\ (forall x, ope_eval p x = Ok (1 + 2 * x)) /\ exists q, ope_deriv zt quad p = Ok q /\ forall x, ope_eval q x = Ok 2.
Proof.
  intros Hz p. assert (W : ope_wf p) by (split; [split; apply Nat.leb_le; reflexivity|reflexivity]). split; [exact W|].
  assert (S3 : 1 < sqrt 3 < 2). { assert (0 < sqrt 3) by (apply sqrt_lt_R0; lra). assert (sqrt 3 * sqrt 3 = 3) by (apply sqrt_sqrt; lra). split; nra. }
  assert (EV : forall x, ope_eval p x = Ok (1 + 2 * x)).
  { intros x. rewrite ope_eval_ok; [|apply ope_wf_ok, W|reflexivity]. f_equal. unfold ope_fun, co.
    cbn [o_n p with_c rs o_t ope_init o_c app nth]. rewrite phi_0, phi_1. unfold map_to, p_lin, p_linc. unfold p; cbn [o_map with_c ope_init init_map sm_slope sm_off]. unfold p_upper, p_lower. field. lra. }
  split; [exact EV|]. destruct (C78_deriv_legendre zt quad p) as (q & E & D); [lra|exact W|reflexivity|reflexivity|]. exists q. split; [exact E|].
  assert (V : 2 <= 4 / sqrt 3 <= 4).
  { split; apply (Rmult_le_reg_r (sqrt 3)); try lra; unfold Rdiv; rewrite Rmult_assoc, Rinv_l by lra; lra. }
  assert (Sh : sharp zt (o_n p) (co p)).
  { intros j k Hj Hk. right. unfold thrN. cbn [o_n p with_c INR].
    assert (B : Rabs (co p j) <= 5) by (destruct j as [|[|]]; [..|cbn in Hj; lia]; cbn; rewrite Rabs_pos_eq; lra).
    assert (C : 2 <= Rabs (co p k)) by (destruct k as [|[|]]; [..|cbn in Hk; lia]; cbn; rewrite Rabs_pos_eq; lra).
    apply Rle_trans with 2; [|exact C]. apply Rle_trans with (zt * 10); [|lra]. apply Rmult_le_compat_l; [lra|]. apply Rmax_lub; lra. }
  assert (Sq : same_shape p q) by (destruct D as (? & ? & ? & D); apply D).
  destruct (C78_deriv_exact zt p q W eq_refl D Sh) as (n & b & Hn & HD & HE).
  assert (Eb : forall x, rs n (fun k => b k * phi (o_t p) k (map_to (o_map p) x)) = 2).
  { intros x. apply (uniqueness_limite (ope_fun p) x); [apply HD|]. apply (derivable_pt_lim_ext (fun y => 1 + 2 * y)).
    - intros y. specialize (EV y). rewrite ope_eval_ok in EV by (try apply ope_wf_ok; auto). now injection EV.
    - assert (P := derivable_pt_lim_plus (fct_cte 1) (mult_real_fct 2 id) x 0 (2 * 1) (derivable_pt_lim_const 1 x) (derivable_pt_lim_scal id 2 x 1 (derivable_pt_lim_id x))).
      replace (0 + 2 * 1) with 2 in P by ring. exact P. }
  intros x. rewrite HE, Eb; [reflexivity|]. intros j k Hj Hk. cbn in Hn. assert (n = 1)%nat by lia. subst n. replace j with 0%nat by lia. replace k with 0%nat by lia. right.
  specialize (Eb 0). cbn [rs] in Eb. rewrite phi_0 in Eb. assert (B : b 0%nat = 2) by lra. rewrite B. unfold thrN. cbn [INR]. rewrite Rabs_pos_eq by lra.
  apply Rle_trans with (zt * 2); [|lra]. apply Rmult_le_compat_l; [lra|]. apply Rmax_lub; lra.
Qed.
