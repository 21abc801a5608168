(** C77: integrals, weighted integrals, inner products and norms of expansions, and their
    gradients, are those of the functions. *)
From Coq Require Import Reals Lra Lia List.
From Verif Require Import Base BaseFacts FOps RIntLib FFTCheb QuadFacts QuadMore OpeModel OpeSpec LegFacts HermFacts OpeBasis OpeFacts OpeLin OpeInt OpeDer.
Import ListNotations.
Local Open Scope R_scope.

(** [dom_ok p]: Legendre or Chebyshev on a proper interval. *)
Theorem C77_integrate p : ope_ok p -> dom_ok p -> exists v, ope_integrate p = Ok v /\ is_RInt (ope_fun p) (o_lb p) (o_ub p) v.
Proof. apply integrate_ok. Qed.
Print Assumptions C77_integrate.
(** Hermite: the mean for the normal distribution the expansion is mapped from *)
Theorem C77_integrate_hermite p : ope_ok p -> o_t p = HERMITE -> (forall z, map_to (o_map p) (map_from (o_map p) z) = z) ->
  exists v, ope_integrate p = Ok v /\ gauss_mean (fun z => ope_fun p (map_from (o_map p) z)) v.
Proof.
  intros H T M. assert (H' := H). destruct H' as [P1 P2]. unfold ope_integrate. rewrite T, aget_nth by lia. eexists. split; [reflexivity|].
  pose proof (int_ref p H) as G. rewrite T in G. cbn [refI p_norm] in G. unfold co in G. rewrite Rmult_1_r in G.
  eapply gm_ext; [|exact G]. intros z. cbn beta. now rewrite ope_fun_ref, M.
Qed.
Print Assumptions C77_integrate_hermite.

(** With a weight: the mean over the domain; the mean of f(cos t) over half a period; the mean
    for the normal distribution. *)
Theorem C77_integrate_weighted p : ope_ok p -> exists v, ope_integrate_weighted p = Ok v /\
  (o_t p = LEGENDRE -> dom_ok p -> is_RInt (ope_fun p) (o_lb p) (o_ub p) (v * (o_ub p - o_lb p))) /\
  ((forall z, map_to (o_map p) (map_from (o_map p) z) = z) ->
    (o_t p = CHEBYSHEV -> is_RInt (fun th => ope_fun p (map_from (o_map p) (cos th))) 0 PI (v * PI)) /\
    (o_t p = HERMITE -> gauss_mean (fun z => ope_fun p (map_from (o_map p) z)) v)).
Proof.
  intros H. pose proof (int_ref p H) as G. destruct H as [P1 P2]. unfold ope_integrate_weighted. rewrite aget_nth by lia. fold (co p 0).
  exists (co p 0). split; [reflexivity|]. split; [|intros M; split].
  - intros T D. rewrite T in G. cbn [p_norm] in G. rewrite Rmult_1_r in G. apply (refI_leg_dom p (ref_fun p)); auto using ref_polyf.
  - intros T. rewrite T in G. cbn in G. eapply is_RInt_ext_all; [|exact G]. intros th. cbn beta. now rewrite ope_fun_ref, M.
  - intros T. rewrite T in G. cbn in G. rewrite Rmult_1_r in G. eapply gm_ext; [|exact G]. intros z. cbn beta. now rewrite ope_fun_ref, M.
Qed.
Print Assumptions C77_integrate_weighted.

(** Weighted inner products *)
Theorem C77_inner_w p q : ope_ok p -> ope_ok q -> o_t p = o_t q -> o_map p = o_map q -> exists v, ope_inner_w p q = Ok v /\
  (o_t p = LEGENDRE -> dom_ok p -> is_RInt (fun x => ope_fun p x * ope_fun q x) (o_lb p) (o_ub p) (v * (o_ub p - o_lb p))) /\
  ((forall z, map_to (o_map p) (map_from (o_map p) z) = z) ->
    (o_t p = CHEBYSHEV -> is_RInt (fun th => ope_fun p (map_from (o_map p) (cos th)) * ope_fun q (map_from (o_map p) (cos th))) 0 PI v) /\
    (o_t p = HERMITE -> gauss_mean (fun z => ope_fun p (map_from (o_map p) z) * ope_fun q (map_from (o_map p) z)) v)).
Proof.
  intros Hp Hq T EM. rewrite inner_w_val by auto. eexists. split; [reflexivity|]. pose proof (inner_ref p q T) as G.
  set (v := rs _ _) in *. clearbody v. split; [|intros M; split].
  - intros TL D. rewrite TL in G. apply (is_RInt_ext_all (fun x => (fun z => ref_fun p z * ref_fun q z) (map_to (o_map p) x))).
    + intros x. cbn beta. rewrite !ope_fun_ref, EM. reflexivity.
    + apply (refI_leg_dom p (fun z => ref_fun p z * ref_fun q z)); auto. apply polyf_mult; apply ref_polyf.
  - intros TC. rewrite TC in G. cbn in G. eapply is_RInt_ext_all; [|exact G]. intros th. cbn beta. now rewrite !ope_fun_ref, <- EM, M.
  - intros TH. rewrite TH in G. cbn in G. eapply gm_ext; [|exact G]. intros z. cbn beta. now rewrite !ope_fun_ref, <- EM, M.
Qed.
Print Assumptions C77_inner_w.
(** families are not mixed *)
Theorem C77_inner_w_rejects p q : o_t p <> o_t q -> ope_inner_w p q = Abort.
Proof. intros H. unfold ope_inner_w. destruct (ptype_eqb (o_t p) (o_t q)) eqn:E; [|reflexivity]. now apply ptype_eqb_eq in E. Qed.
Print Assumptions C77_inner_w_rejects.

(** Inner products and norms without weight; Legendre (integral over the domain) and Hermite
    (normal distribution) here. *)
Theorem C77_inner_legendre zt eps quad lt ht p q : ope_ok p -> ope_ok q -> o_t p = LEGENDRE -> o_t q = LEGENDRE -> dom_ok p -> o_map p = o_map q ->
  exists v, ope_inner zt eps quad lt ht p q = Ok v /\ is_RInt (fun x => ope_fun p x * ope_fun q x) (o_lb p) (o_ub p) v.
Proof.
  intros Hp Hq Tp Tq D EM. destruct (C77_inner_w p q) as (v & E & H & _); auto; [congruence|].
  unfold ope_inner. rewrite Tp, Tq, E. cbn [obind]. eauto.
Qed.
Print Assumptions C77_inner_legendre.
Theorem C77_inner_hermite zt eps quad lt ht p q : ope_ok p -> ope_ok q -> o_t p = HERMITE -> o_t q = HERMITE -> o_map p = o_map q ->
  (forall z, map_to (o_map p) (map_from (o_map p) z) = z) ->
  exists v, ope_inner zt eps quad lt ht p q = Ok v /\ gauss_mean (fun z => ope_fun p (map_from (o_map p) z) * ope_fun q (map_from (o_map p) z)) v.
Proof.
  intros Hp Hq Tp Tq EM M. destruct (C77_inner_w p q) as (v & E & _ & H); auto; [congruence|].
  unfold ope_inner. rewrite Tp, Tq, E. exists v. split; [reflexivity|]. now apply H.
Qed.
Print Assumptions C77_inner_hermite.
Theorem C77_norm_legendre zt eps quad lt ht p : ope_ok p -> o_t p = LEGENDRE -> dom_ok p ->
  exists v, ope_norm zt eps quad lt ht p = Ok v /\ 0 <= v /\ is_RInt (fun x => ope_fun p x * ope_fun p x) (o_lb p) (o_ub p) (v * v).
Proof.
  intros Hp T D. unfold ope_norm, ope_inner. rewrite T, inner_w_val by auto. cbn [obind]. eexists. split; [reflexivity|]. split; [apply sqrt_pos|].
  destruct (C77_inner_w p p) as (v & E & H & _); auto. rewrite inner_w_val in E by auto. injection E as <-. rewrite sqrt_sqrt; [now apply H|].
  destruct D as (_ & L & _). apply Rmult_le_pos; [|lra]. rewrite T.
  apply Rle_trans with (rs (Nat.min (o_n p) (o_n p)) (fun _ => 0)); [right; symmetry; apply rs_zero; auto|]. apply rs_le. intros k _. cbn. nra.
Qed.
Print Assumptions C77_norm_legendre.
(** the weighted norm is the square root of the norm *)
Theorem C77_norm_w_refuted : exists p, ope_ok p /\ ope_inner_w p p = Ok 16 /\ ope_norm_w p = Ok 2.
Proof.
  set (p := mkope LEGENDRE 1 1 [4] (-1) 1 (mksm 1 0 1 0) false). assert (K : ope_ok p) by (unfold ope_ok; cbn; lia).
  exists p. split; [exact K|]. assert (E : ope_inner_w p p = Ok 16). { rewrite inner_w_val by auto. cbn. f_equal. unfold co. cbn. ring. }
  split; [exact E|]. unfold ope_norm_w. rewrite E. cbn [obind]. f_equal. replace 16 with (4 * 4) by ring. rewrite sqrt_square by lra.
  replace 4 with (2 * 2) by ring. apply sqrt_square. lra.
Qed.
Print Assumptions C77_norm_w_refuted.

(** ** Gradients of inner product and squared norm with respect to the coefficients *)
Definition set_co (p : ope) (i : nat) (v : R) : ope := with_c p (o_n p) (upd (o_c p) i v).
Lemma set_co_same p i : (i < length (o_c p))%nat -> set_co p i (co p i) = p.
Proof. intros H. unfold set_co, co. rewrite upd_self by auto. now destruct p. Qed.
Lemma set_co_co p i v k : (i < length (o_c p))%nat -> co (set_co p i v) k = if (k =? i)%nat then v else co p k.
Proof. intros H. unfold set_co, co. cbn [o_c with_c]. now apply nth_upd. Qed.
Lemma set_co_ok p i v : ope_ok p -> ope_ok (set_co p i v).
Proof. unfold ope_ok, set_co. cbn [o_n o_c with_c]. now rewrite upd_length. Qed.

Lemma rs_upd n i (a b : nat -> R) v : (i < n)%nat -> rs n (fun k => (if (k =? i)%nat then v else a k) * b k) = rs n (fun k => a k * b k) + (v - a i) * b i.
Proof.
  intros H. rewrite (rs_ext n _ (fun k => a k * b k + (if (k =? i)%nat then (v - a i) * b i else 0))).
  - rewrite rs_add. f_equal. rewrite (rs_single n i); [now rewrite Nat.eqb_refl|auto|]. intros k _ Hk. destruct (Nat.eqb_spec k i); [congruence|reflexivity].
  - intros k _. destruct (Nat.eqb_spec k i) as [->|]; ring.
Qed.

(** param_grad_inner writes the coefficients of the other expansion, so it is the gradient of
    the inner product for Hermite, and for Legendre on domains of length one *)
Theorem C77_param_grad_inner_partial p q vals : ope_ok p -> ope_ok q -> o_t p = o_t q -> o_t p <> CHEBYSHEV -> (o_n p <= length vals)%nat ->
  exists vals', ope_param_grad_inner p q vals = Ok (o_n p, vals') /\ length vals' = length vals /\
  (forall k, (o_n p <= k)%nat -> nth k vals' 0 = nth k vals 0) /\
  forall i t, (i < o_n p)%nat -> exists v0 v1, ope_inner_w p q = Ok v0 /\ ope_inner_w (set_co p i (co p i + t)) q = Ok v1 /\ v1 = v0 + t * nth i vals' 0.
Proof.
  intros Hp Hq T NC HL. assert (Hp' := Hp). destruct Hp' as [P1 P2]. assert (Hq' := Hq). destruct Hq' as [Q1 Q2]. unfold ope_param_grad_inner.
  rewrite T, ptype_eqb_refl. cbn [cassert obind]. set (n := if (o_n q <? o_n p)%nat then o_n q else o_n p).
  assert (Hn : n = Nat.min (o_n p) (o_n q)) by (unfold n; destruct (Nat.ltb_spec (o_n q) (o_n p)); lia).
  unfold for_.
  destruct (upd_loop 0 n (fun k _ => nth k (o_c q) 0) (fun ii v => do c <- aget (o_c q) ii; aset v ii c) vals) as (v1 & E1 & L1 & A1).
  { intros i c' Hi Lc _. rewrite aget_nth by lia. reflexivity. } { lia. }
  rewrite E1. cbn [obind].
  destruct (upd_loop n (o_n p - n) (fun _ _ => 0) (fun ii v => aset v ii 0) v1) as (v2 & E2 & L2 & A2); [reflexivity|lia|].
  rewrite E2. cbn [obind]. exists v2. split; [reflexivity|]. split; [lia|]. split.
  { intros k Hk. rewrite A2, A1. destruct (Nat.ltb_spec k (n + (o_n p - n))), (Nat.ltb_spec k (0 + n)); try lia. now rewrite !Bool.andb_false_r. }
  intros i t Hi. rewrite !inner_w_val by (auto using set_co_ok; cbn; auto). do 2 eexists. split; [reflexivity|]. split; [reflexivity|].
  cbn [o_n o_t set_co with_c]. assert (N1 : forall k, p_norm (o_t p) k = 1) by (intros; destruct (o_t p); try congruence; reflexivity).
  rewrite (rs_ext _ (fun k => co (set_co p i (co p i + t)) k * co q k * p_norm (o_t p) k) (fun k => (if (k =? i)%nat then co p i + t else co p k) * co q k)).
  2:{ intros k _. rewrite set_co_co, N1 by lia. ring. }
  rewrite (rs_ext _ (fun k => co p k * co q k * p_norm (o_t p) k) (fun k => co p k * co q k)) by (intros k _; rewrite N1; ring).
  rewrite A2, A1. destruct (Nat.ltb_spec i n) as [Li|Li].
  - rewrite rs_upd by lia. destruct (Nat.leb_spec n i), (Nat.ltb_spec i (0 + n)); try lia. cbn [andb Nat.leb]. unfold co. ring.
  - destruct (Nat.leb_spec n i), (Nat.ltb_spec i (n + (o_n p - n))); try lia. cbn [andb].
    rewrite (rs_ext _ _ (fun k => co p k * co q k)); [ring|]. intros k Hk. destruct (Nat.eqb_spec k i); [lia|reflexivity].
Qed.
Print Assumptions C77_param_grad_inner_partial.

Definition legu (c : list R) : ope := mkope LEGENDRE (length c) (length c) c (-1) 1 (init_map LEGENDRE (-1) 1) false.
Lemma legu_dom c : dom_ok (legu c). Proof. split; [discriminate|]. cbn. split; [lra|reflexivity]. Qed.
(** on [-1,1] the inner product grows twice as fast as the gradient says *)
Theorem C77_param_grad_inner_refuted zt eps quad lt ht : exists p q vals, ope_ok p /\ ope_ok q /\ ope_param_grad_inner p q [0] = Ok (1%nat, vals) /\ vals = [1] /\
  forall t, exists v0 v1, ope_inner zt eps quad lt ht p q = Ok v0 /\ ope_inner zt eps quad lt ht (set_co p 0 (co p 0 + t)) q = Ok v1 /\ v1 = v0 + 2 * t.
Proof.
  exists (legu [1]), (legu [1]), [1]. assert (K : ope_ok (legu [1])) by (unfold ope_ok; cbn; lia). split; [exact K|]. split; [exact K|]. split; [reflexivity|]. split; [reflexivity|].
  intros t. unfold ope_inner. cbn [o_t legu set_co with_c]. rewrite !inner_w_val by (auto using set_co_ok; reflexivity). cbn [obind]. do 2 eexists. split; [reflexivity|]. split; [reflexivity|].
  cbn. unfold co, set_co. cbn. ring.
Qed.
Print Assumptions C77_param_grad_inner_refuted.

(** squared_norm_param_grad adds scale times the gradient of the squared norm: Legendre *)
Theorem C77_sqnorm_param_grad_partial zt eps quad lt ht p scale grad : ope_ok p -> o_t p = LEGENDRE -> o_kr p = false -> (o_n p <= length grad)%nat ->
  exists g, ope_sqnorm_param_grad p scale grad = Ok g /\ length g = length grad /\
  (forall k, (o_n p <= k)%nat -> nth k g 0 = nth k grad 0) /\
  forall i t, (i < o_n p)%nat -> exists v0 v1, ope_inner zt eps quad lt ht p p = Ok v0 /\
    (let p1 := set_co p i (co p i + t) in ope_inner zt eps quad lt ht p1 p1 = Ok v1) /\
    scale * v1 = scale * v0 + t * (nth i g 0 - nth i grad 0) + scale * (t * t) * (o_ub p - o_lb p).
Proof.
  intros Hp T K HL. assert (Hp' := Hp). destruct Hp' as [P1 P2]. unfold ope_sqnorm_param_grad. rewrite K, T. cbn [negb cassert obind]. unfold for_.
  destruct (upd_loop 0 (o_n p) (fun k v => v + 2 * scale * nth k (o_c p) 0 * p_norm LEGENDRE k * (o_ub p - o_lb p))
    (fun ii g => do c <- aget (o_c p) ii; do v <- aget g ii; aset g ii (v + 2 * scale * c * p_norm LEGENDRE ii * (o_ub p - o_lb p))) grad) as (g & E & L & A).
  { intros i c' Hi Lc _. rewrite !aget_nth by lia. reflexivity. } { lia. }
  exists g. split; [exact E|]. split; [exact L|]. split.
  { intros k Hk. rewrite A. destruct (Nat.ltb_spec k (0 + o_n p)); [lia|]. now rewrite Bool.andb_false_r. }
  intros i t Hi. cbv zeta. unfold ope_inner. cbn [o_t set_co with_c]. rewrite T. fold (set_co p i (co p i + t)).
  rewrite !inner_w_val by (auto using set_co_ok). cbn [obind]. do 2 eexists. split; [reflexivity|]. split; [reflexivity|].
  cbn [o_n o_t o_ub o_lb set_co with_c]. rewrite T. cbn [p_norm]. rewrite Nat.min_id.
  rewrite (rs_ext _ (fun k => co (set_co p i (co p i + t)) k * co (set_co p i (co p i + t)) k * 1) (fun k => (if (k =? i)%nat then (co p i + t) * (co p i + t) else co p k * co p k) * 1)).
  2:{ intros k _. rewrite set_co_co by lia. destruct (k =? i)%nat; ring. }
  rewrite (rs_upd (o_n p) i (fun k => co p k * co p k) (fun _ => 1)) by auto.
  rewrite A. destruct (Nat.ltb_spec i (0 + o_n p)); [|lia]. cbn [Nat.leb andb]. unfold co. cbn [p_norm]. ring.
Qed.
Print Assumptions C77_sqnorm_param_grad_partial.
(** Chebyshev: the gradient does not depend on the coefficients; it is not zero for the zero
    function *)
Theorem C77_sqnorm_param_grad_refuted : exists p g, ope_wf p /\ o_t p = CHEBYSHEV /\ (forall k, coz p k = 0) /\ ope_sqnorm_param_grad p 1 [0] = Ok g /\ nth 0 g 0 = 8.
Proof.
  exists (mkope CHEBYSHEV 1 1 [0] (-1) 1 (mksm 1 0 1 0) false). eexists. split; [unfold ope_wf; cbn; lia|]. split; [reflexivity|].
  split; [intros [|k]; reflexivity|]. split; [cbn; reflexivity|]. cbn. field.
Qed.
Print Assumptions C77_sqnorm_param_grad_refuted.

(** Hermite: the gradient is that of the squared norm times the slope of the change of
    variables, so it is exact only if the slope is one *)
Theorem C77_sqnorm_param_grad_hermite zt eps quad lt ht p scale grad : ope_ok p -> o_t p = HERMITE -> o_kr p = false -> (o_n p <= length grad)%nat ->
  exists g, ope_sqnorm_param_grad p scale grad = Ok g /\ length g = length grad /\
  (forall k, (o_n p <= k)%nat -> nth k g 0 = nth k grad 0) /\
  forall i t, (i < o_n p)%nat -> exists v0 v1, ope_inner zt eps quad lt ht p p = Ok v0 /\
    (let p1 := set_co p i (co p i + t) in ope_inner zt eps quad lt ht p1 p1 = Ok v1) /\
    sm_slope (o_map p) * scale * (v1 - v0 - t * t * p_norm HERMITE i) = t * (nth i g 0 - nth i grad 0).
Proof.
  intros Hp T K HL. assert (Hp' := Hp). destruct Hp' as [P1 P2]. unfold ope_sqnorm_param_grad. rewrite K, T. cbn [negb cassert obind]. unfold for_.
  destruct (upd_loop 0 (o_n p) (fun k v => v + 2 * scale * nth k (o_c p) 0 * p_norm HERMITE k * sm_slope (o_map p))
    (fun ii g => do c <- aget (o_c p) ii; do v <- aget g ii; aset g ii (v + 2 * scale * c * p_norm HERMITE ii * sm_slope (o_map p))) grad) as (g & E & L & A).
  { intros i c' Hi Lc _. rewrite !aget_nth by lia. reflexivity. } { lia. }
  exists g. split; [exact E|]. split; [exact L|]. split.
  { intros k Hk. rewrite A. destruct (Nat.ltb_spec k (0 + o_n p)); [lia|]. now rewrite Bool.andb_false_r. }
  intros i t Hi. cbv zeta. unfold ope_inner. cbn [o_t set_co with_c]. rewrite T. fold (set_co p i (co p i + t)).
  rewrite !inner_w_val by (auto using set_co_ok). do 2 eexists. split; [reflexivity|]. split; [reflexivity|].
  cbn [o_n o_t set_co with_c]. rewrite T. rewrite Nat.min_id.
  rewrite (rs_ext _ (fun k => co (set_co p i (co p i + t)) k * co (set_co p i (co p i + t)) k * p_norm HERMITE k)
    (fun k => (if (k =? i)%nat then (co p i + t) * (co p i + t) else co p k * co p k) * p_norm HERMITE k)).
  2:{ intros k _. rewrite set_co_co by lia. destruct (k =? i)%nat; ring. }
  rewrite (rs_upd (o_n p) i (fun k => co p k * co p k) (fun k => p_norm HERMITE k)) by auto.
  rewrite A. destruct (Nat.ltb_spec i (0 + o_n p)); [|lia]. cbn [Nat.leb andb]. unfold co. ring.
Qed.
Print Assumptions C77_sqnorm_param_grad_hermite.

(** Chebyshev: what is added is the same for all coefficients: with the integral of the
    Chebyshev polynomial of degree n over [-1,1], the sum over all j of those of degrees
    i + j and |i - j| *)
Definition cheb_int (n : nat) : R := if Nat.even n then 2 / (1 - INR n * INR n) else 0.
Theorem C77_sqnorm_param_grad_chebyshev p scale grad : ope_ok p -> o_t p = CHEBYSHEV -> o_kr p = false -> (o_n p <= length grad)%nat ->
  exists g, ope_sqnorm_param_grad p scale grad = Ok g /\ length g = length grad /\
  forall i, nth i g 0 = if (i <? o_n p)%nat then nth i grad 0 + 2 * scale * sm_slope (o_map p) * rs (o_n p) (fun j => cheb_int (i + j) + cheb_int (if (j <? i)%nat then i - j else j - i)) else nth i grad 0.
Proof.
  intros [P1 P2] T K HL. unfold ope_sqnorm_param_grad. rewrite K, T. cbn [negb cassert obind].
  set (temp := tab (o_n p) _). set (dt := sm_slope (o_map p)). unfold for_ at 1.
  assert (HT : forall n, Nat.even n = true -> (n / 2 < o_n p)%nat -> aget temp (n / 2) = Ok (cheb_int n)).
  { intros n He Hn. apply aget_ok. unfold temp. rewrite nth_error_tab by auto. unfold cheb_int. rewrite He. do 3 f_equal.
    apply Nat.even_spec in He. destruct He as [m ->]. rewrite (Nat.mul_comm 2 m), Nat.div_mul by lia. rewrite <- mult_INR. f_equal. lia. }
  assert (ME : forall n, (n mod 2 =? 0)%nat = Nat.even n).
  { intros n. destruct (Nat.even n) eqn:E.
    - apply Nat.even_spec in E. destruct E as [m ->]. apply Nat.eqb_eq. rewrite Nat.mul_comm. apply Nat.mod_mul. lia.
    - apply Nat.eqb_neq. intros H0. apply Nat.mod_divides in H0; [|lia]. destruct H0 as [m ->]. rewrite Nat.even_mul in E. discriminate. }
  assert (ST : forall i n g, (i < length g)%nat -> (n / 2 < o_n p)%nat ->
    (if (n mod 2 =? 0)%nat then do t <- aget temp (n / 2); do v <- aget g i; aset g i (v + 2 * scale * t * dt) else Ok g) = Ok (upd g i (nth i g 0 + 2 * scale * dt * cheb_int n))).
  { intros i n g Hi Hn. rewrite ME. destruct (Nat.even n) eqn:E.
    - rewrite HT by auto. cbn [obind]. rewrite aget_nth by auto. cbn [obind]. rewrite aset_ok by auto. do 2 f_equal. ring.
    - unfold cheb_int. rewrite E, Rmult_0_r, Rplus_0_r. now rewrite upd_self. }
  destruct (upd_loop 0 (o_n p) (fun i v => v + 2 * scale * dt * rs (o_n p) (fun j => cheb_int (i + j) + cheb_int (if (j <? i)%nat then i - j else j - i)))
    (fun ii g => for_ (o_n p) (fun jj g =>
          let n1 := (ii + jj)%nat in
          let n2 := if (jj <? ii)%nat then (ii - jj)%nat else (jj - ii)%nat in
          do g <- (if (n1 mod 2 =? 0)%nat then do t <- aget temp (n1 / 2); do v <- aget g ii; aset g ii (v + 2 * scale * t * dt) else Ok g);
          if (n2 mod 2 =? 0)%nat then do t <- aget temp (n2 / 2); do v <- aget g ii; aset g ii (v + 2 * scale * t * dt) else Ok g) g) grad) as (g & E & L & A).
  { intros i c Hi Lc _.
    set (Fj := fun j => cheb_int (i + j) + cheb_int (if (j <? i)%nat then i - j else j - i)).
    set (st := fun m => upd c i (nth i c 0 + 2 * scale * dt * rs m Fj)).
    transitivity (Ok (st (o_n p))); [|rewrite aset_ok by lia; reflexivity].
    replace c with (st 0%nat) at 1 by (unfold st; cbn [rs]; rewrite Rmult_0_r, Rplus_0_r; apply upd_self; lia).
    apply (for_det st). intros j Hj. cbv zeta.
    assert (Ls : length (st j) = length c) by (unfold st; apply upd_length).
    rewrite ST; [|lia|apply Nat.div_lt_upper_bound; lia]. cbn [obind].
    rewrite ST; [|rewrite upd_length; lia|apply Nat.div_lt_upper_bound; destruct (Nat.ltb_spec j i); lia].
    rewrite upd_upd, nth_upd, Nat.eqb_refl by lia. unfold st at 1 2. rewrite upd_upd, nth_upd, Nat.eqb_refl by lia.
    unfold st. cbn [rs]. do 2 f_equal. unfold Fj. ring. }
  { lia. }
  exists g. split; [exact E|]. split; [exact L|]. intros i. rewrite A. reflexivity.
Qed.
Print Assumptions C77_sqnorm_param_grad_chebyshev.
Example C77_sqnorm_hyps : let p := mkope CHEBYSHEV 3 3 [1; 2; 3] (-1) 1 (mksm 1 0 1 0) false in ope_ok p /\ o_kr p = false /\ cheb_int 0 = 2 /\ cheb_int 1 = 0 /\ cheb_int 2 = - (2 / 3).
Proof. cbv zeta. split; [unfold ope_ok; cbn; lia|]. unfold cheb_int. cbn. repeat split; field. Qed.

(** in general the fourth power of the weighted norm is the inner product *)
Theorem C77_norm_w p v : ope_inner_w p p = Ok v -> 0 <= v -> exists w, ope_norm_w p = Ok w /\ 0 <= w /\ w * w * (w * w) = v.
Proof.
  intros E H. unfold ope_norm_w. rewrite E. cbn [obind]. eexists. split; [reflexivity|]. split; [apply sqrt_pos|]. rewrite sqrt_sqrt by apply sqrt_pos. now apply sqrt_sqrt.
Qed.
Print Assumptions C77_norm_w.

(** ** A concrete case: 3 + 2 sqrt 3 z on [0,4] *)
Example C77_example : let p := mkope LEGENDRE 2 2 [3; 2] 0 4 (init_map LEGENDRE 0 4) false in
  ope_ok p /\ dom_ok p /\ ope_integrate p = Ok 12 /\ ope_inner_w p p = Ok 13 /\ is_RInt (ope_fun p) 0 4 12 /\ is_RInt (fun x => ope_fun p x * ope_fun p x) 0 4 52.
Proof.
  intros p. assert (K : ope_ok p) by (unfold ope_ok; cbn; lia). assert (D : dom_ok p) by (split; [discriminate|]; cbn; split; [lra|reflexivity]).
  assert (E1 : ope_integrate p = Ok 12) by (cbn; f_equal; unfold p_upper, p_lower; field).
  assert (E2 : ope_inner_w p p = Ok 13) by (rewrite inner_w_val by auto; cbn; f_equal; unfold co; cbn; ring).
  split; [exact K|]. split; [exact D|]. split; [exact E1|]. split; [exact E2|]. split.
  - destruct (C77_integrate p K D) as (v & E & H). rewrite E1 in E. injection E as <-. exact H.
  - destruct (C77_inner_w p p K K eq_refl eq_refl) as (v & E & H & _). rewrite E2 in E. injection E as <-. specialize (H eq_refl D). cbn [o_lb o_ub p] in H.
    replace 52 with (13 * (4 - 0)) by ring. exact H.
Qed.
