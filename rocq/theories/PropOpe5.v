(** C79: projection reproduces polynomials; products of expansions, and inner products and
    norms that rest on them, are those of the functions up to the threshold. *)
From Coq Require Import Reals Lra Lia List.
From Verif Require Import Base BaseFacts FOps RIntLib FFTCheb QuadModel QuadFacts QuadMore QuadCC OpeModel OpeSpec LegFacts HermFacts OpeBasis OpeFacts OpeLin OpeLin2 OpeInt OpeApprox OpeDer OpeDer2 OpeProd PropOpe4.
Import ListNotations.
Local Open Scope R_scope.

(** ** Projection *)
(** What projection computes, for every function: the discrete inner products with the
    family.  The old coefficients are part of the sum. *)
Theorem C79_project quad A (g : R -> R) p pt wt : (1 <= o_n p <= length (o_c p))%nat -> quad (o_t p) (o_n p) = Ok (pt, wt) ->
  length pt = (o_n p + 1)%nat -> length wt = (o_n p + 1)%nat -> (forall x, A x = Ok (g x)) ->
  exists c, ope_approx quad A p = Ok (with_c p (o_n p) c) /\ length c = length (o_c p) /\
    forall k, (k < o_n p)%nat -> nth k c 0 = (nth k (o_c p) 0 + rs (o_n p + 1) (fun i => g (map_from (o_map p) (nth i pt 0)) * nth i wt 0 * phi (o_t p) k (nth i pt 0))) / p_norm (o_t p) k.
Proof. intros H. apply approx_sums. exact H. Qed.
Print Assumptions C79_project.
(** Polynomials of degree below the number of coefficients are found exactly, from zero
    coefficients.  [l] lists the coefficients of the function in powers of the reference
    variable. *)
Lemma project_exact quad A (l : list R) p : ope_ok p -> o_kr p = false -> (forall z, map_from (o_map p) (map_to (o_map p) z) = z) ->
  qexact (o_t p) (o_n p) (quad (o_t p) (o_n p)) -> (forall k, nth k (o_c p) 0 = 0) -> (length l <= o_n p)%nat ->
  (forall x, A x = Ok (pe l (map_to (o_map p) x))) -> (forall z, map_to (o_map p) (map_from (o_map p) z) = z) ->
  exists c, ope_approx quad A p = Ok (with_c p (o_n p) c) /\ (o_n p <= length c)%nat /\ forall x, ope_eval (with_c p (o_n p) c) x = Ok (pe l (map_to (o_map p) x)).
Proof.
  intros Hp K M' Q Z L HA M. destruct (inspan (o_t p) (o_n p) l L) as (b & Hb).
  destruct (approx_exact quad A (fun x => pe l (map_to (o_map p) x)) p b) as (c & Ec & Lc & Hc); auto.
  { intros z. cbn beta. rewrite M. apply Hb. }
  exists c. split; [exact Ec|]. destruct Hp as [P1 P2]. split; [lia|]. intros x. rewrite ope_eval_ok; [|unfold ope_ok; cbn [o_n o_c with_c]; lia|exact K].
  f_equal. rewrite Hb. unfold ope_fun. cbn [o_n o_t o_map with_c]. apply rs_ext. intros k Hk. unfold co. cbn [o_c with_c]. rewrite Hc by auto. reflexivity.
Qed.
Lemma dom_inv p : dom_ok p -> forall z, map_from (o_map p) (map_to (o_map p) z) = z.
Proof.
  intros (T & L & E) z. rewrite E. unfold map_to, map_from, init_map, p_upper, p_lower. destruct (o_t p); try congruence; cbn [sm_slope sm_off sm_islope sm_ioff]; field; lra.
Qed.
Theorem C79_project_chebyshev tol gl gh A l n lb ub : (1 <= n)%nat -> lb < ub -> (length l <= n)%nat ->
  let p := ope_init CHEBYSHEV n lb ub in (forall x, A x = Ok (pe l (map_to (o_map p) x))) ->
  exists q, ope_approx (lib_quad tol gl gh) A p = Ok q /\ (1 <= o_n q <= length (o_c q))%nat /\ forall x, ope_eval q x = A x.
Proof.
  intros Hn Hd Hl p HA. assert (D : dom_ok p) by (split; [discriminate|]; split; [exact Hd|reflexivity]).
  destruct (project_exact (lib_quad tol gl gh) A l p) as (c & E & L & V); auto.
  - unfold ope_ok. cbn [p o_n o_c ope_init]. rewrite repeat_length. lia.
  - apply dom_inv, D.
  - apply cheb_gauss_exact. exact Hn.
  - intros k. cbn [p o_c ope_init]. apply nth_repeat.
  - apply mapping_inverse, D.
  - exists (with_c p (o_n p) c). split; [exact E|]. split; [cbn [o_n o_c with_c]; split; [exact Hn|exact L]|]. intros x. now rewrite V, HA.
Qed.
Print Assumptions C79_project_chebyshev.
(** the other families, for rules with n+1 nodes that are exact up to degree 2n-1 *)
Theorem C79_project_partial quad A l p : (1 <= o_n p <= length (o_c p))%nat -> o_kr p = false -> (forall k, nth k (o_c p) 0 = 0) ->
  (forall z, map_from (o_map p) (map_to (o_map p) z) = z) -> (forall z, map_to (o_map p) (map_from (o_map p) z) = z) ->
  qexact (o_t p) (o_n p) (quad (o_t p) (o_n p)) -> (length l <= o_n p)%nat -> (forall x, A x = Ok (pe l (map_to (o_map p) x))) ->
  exists q, ope_approx quad A p = Ok q /\ forall x, ope_eval q x = A x.
Proof.
  intros Hp K Z M1 M2 Q L HA. destruct (project_exact quad A l p) as (c & E & _ & V); auto. exists (with_c p (o_n p) c). split; [exact E|]. intros x. now rewrite V, HA.
Qed.
Print Assumptions C79_project_partial.
(** Projecting again into the same expansion adds: the constant 1 becomes 1 + 1/pi. *)
Theorem C79_project_again_refuted tol gl gh : exists p p', ope_approx (lib_quad tol gl gh) (fun _ => Ok 1) (ope_init CHEBYSHEV 1 (-1) 1) = Ok p /\ (forall x, ope_eval p x = Ok 1) /\
  ope_approx (lib_quad tol gl gh) (fun _ => Ok 1) p = Ok p' /\ (forall x, ope_eval p' x = Ok (1 + / PI)).
Proof.
  set (i := ope_init CHEBYSHEV 1 (-1) 1). pose proof (cheb_gauss_exact tol 1 ltac:(lia)) as Q.
  destruct (approx_exact (lib_quad tol gl gh) (fun _ => Ok 1) (fun _ => 1) i (fun _ => 1)) as (c & E & L & H).
  - unfold ope_ok. cbn. lia.
  - exact Q.
  - intros k _. apply nth_repeat.
  - reflexivity.
  - intros z. cbn. ring.
  - assert (P := PI_RGT_0).
    assert (EV : forall p v, o_t p = CHEBYSHEV -> o_n p = 1%nat -> (1 <= length (o_c p))%nat -> o_kr p = false -> nth 0 (o_c p) 0 = v -> forall x, ope_eval p x = Ok v).
    { intros p v T N L' K V x. rewrite ope_eval_ok by (auto; unfold ope_ok; lia). f_equal. unfold ope_fun, co. rewrite N. cbn [rs]. rewrite phi_0, V. ring. }
    assert (Lc : (1 <= length c)%nat) by (rewrite L; cbn; lia).
    destruct Q as (pt & wt & Eq & L1 & L2 & Ex).
    destruct (approx_sums (lib_quad tol gl gh) (fun _ => Ok 1) (fun _ => 1) (with_c i (o_n i) c) pt wt) as (c2 & E2 & LL & H2); auto.
    { unfold ope_ok. cbn [o_n o_c with_c i ope_init]. lia. }
    exists (with_c i (o_n i) c), (with_c (with_c i (o_n i) c) 1 c2). split; [exact E|]. split.
    { apply EV; auto. }
    split; [exact E2|]. apply EV; auto.
    { cbn [o_c with_c] in LL |- *. lia. }
    cbn [o_c with_c]. rewrite H2 by (cbn; lia). cbn [o_c with_c]. rewrite (H 0%nat) by (cbn; lia).
    assert (S1 : rs (1 + 1) (fun j => nth j wt 0 * pe [1] (nth j pt 0)) = PI).
    { assert (I1 := Ex [1] ltac:(cbn; lia)). cbn [refI] in I1. eapply is_RInt_unique; [exact I1|].
      replace PI with (1 * (PI - 0)) at 2 by ring. eapply is_RInt_ext_all; [|apply is_RInt_const]. intros th. cbn. ring. }
    cbn [rs Nat.add pe o_n o_t o_map with_c i ope_init] in S1 |- *. rewrite !phi_0. cbn [p_norm Nat.eqb]. 
    transitivity ((1 + PI) / PI); [f_equal; f_equal; rewrite <- S1 at 1; ring|field; lra].
Qed.
Print Assumptions C79_project_again_refuted.

(** ** Products *)
(** [q] is the product of [x] and [y], where small coefficients may be zero *)
Definition product_of zt x y q : Prop :=
  same_shape x q /\ (1 <= o_n q <= length (o_c q))%nat /\ exists n b, (n <= o_n x + o_n y + 5)%nat /\ rounded zt q n b /\
    forall v, ope_fun x v * ope_fun y v = rs n (fun k => b k * phi (o_t x) k (map_to (o_map x) v)).
Lemma is_product_of zt x y q n : o_map x = o_map y -> o_kr x = false -> o_t q = o_t x -> o_lb q = o_lb x -> o_ub q = o_ub x -> o_kr q = false -> ope_wf q -> (n <= o_n x + o_n y + 5)%nat ->
  is_product zt x y q (o_map x) n -> product_of zt x y q.
Proof.
  intros EM Kx Tq Lq Uq Kq Wq Hn (b & H & Rd & Mq). split; [unfold same_shape; rewrite Tq, Lq, Uq, Mq, Kq; auto|]. split; [apply ope_wf_ok in Wq; exact Wq|].
  exists n, b. split; [exact Hn|]. split; [exact Rd|]. intros v. rewrite !ope_fun_ref, <- EM. apply H.
Qed.
(** without small coefficients the values are exactly the products *)
Theorem C79_product_exact zt x y q : o_kr x = false -> product_of zt x y q ->
  exists n b, (n <= o_n x + o_n y + 5)%nat /\ (forall v, ope_fun x v * ope_fun y v = rs n (fun k => b k * phi (o_t x) k (map_to (o_map x) v))) /\
    (sharp zt n b -> forall v, ope_eval q v = Ok (ope_fun x v * ope_fun y v)).
Proof.
  intros K (Sh & Hq & n & b & Hn & Rd & H). exists n, b. split; [exact Hn|]. split; [exact H|]. intros Sb v. rewrite H. assert (Kq : o_kr q = false) by (rewrite <- K; symmetry; apply Sh).
  destruct Sh as (T & _ & _ & M & _). rewrite T, M. now apply (rounded_fun zt q n b v).
Qed.
Print Assumptions C79_product_exact.

(** Chebyshev, with the rule of the library, unless the squared coefficients of a factor sum
    to less than the threshold *)
Theorem C79_product_chebyshev zt eps tol gl gh ltab htab x y : 0 < zt -> 0 < eps -> o_t x = CHEBYSHEV -> o_t y = CHEBYSHEV -> dom_ok x -> dom_ok y ->
  o_lb x = o_lb y -> o_ub x = o_ub y -> (1 <= o_n x <= length (o_c x))%nat -> (1 <= o_n y <= length (o_c y))%nat -> o_kr x = false -> o_kr y = false ->
  zt <= rs (o_n x) (fun k => nth k (o_c x) 0 * nth k (o_c x) 0) -> zt <= rs (o_n y) (fun k => nth k (o_c y) 0 * nth k (o_c y) 0) ->
  exists q, ope_prod zt eps (lib_quad tol gl gh) ltab htab x y = Ok q /\ product_of zt x y q.
Proof.
  intros Z Ep Tx Ty Dx Dy El Eu Hx Hy Kx Ky Zx Zy.
  assert (EM : o_map x = o_map y) by (destruct Dx as (_ & _ & ->); destruct Dy as (_ & _ & ->); rewrite Tx, Ty, El, Eu; reflexivity).
  destruct (prod_quad_ok zt eps Z Ep (lib_quad tol gl gh) ltab htab x y) as (q & E & H1 & H2 & H3 & H4 & H5 & H6); auto; [congruence|apply mapping_inverse, Dx| |].
  { cbv zeta. rewrite Tx. apply cheb_gauss_exact. lia. }
  exists q. split; [exact E|]. eapply is_product_of; [..|exact H6]; eauto; try congruence; lia.
Qed.
Print Assumptions C79_product_chebyshev.
(** Otherwise the product is zero: a small factor times a large one. *)
Theorem C79_product_small_refuted zt eps quad ltab htab : 0 < zt -> 0 < eps -> exists x y q, o_t x = CHEBYSHEV /\ o_t y = CHEBYSHEV /\ dom_ok x /\ dom_ok y /\
  o_lb x = o_lb y /\ o_ub x = o_ub y /\ (forall v, ope_eval x v = Ok (sqrt zt / 2)) /\ (forall v, ope_eval y v = Ok (2 / sqrt zt)) /\
  ope_prod zt eps quad ltab htab x y = Ok q /\ (forall v, ope_eval q v = Ok 0).
Proof.
  intros Z Ep. set (mk := fun v => with_c (ope_init CHEBYSHEV 1 (-1) 1) 1 (v :: repeat 0 50)).
  assert (EV : forall v z, ope_eval (mk v) z = Ok v).
  { intros v z. rewrite ope_eval_ok; [|unfold ope_ok; cbn; lia|reflexivity]. f_equal. unfold ope_fun, co. cbn [mk o_n with_c rs o_c nth]. rewrite phi_0. ring. }
  assert (D : forall v, dom_ok (mk v)) by (intros v; split; [discriminate|]; split; [cbn; lra|reflexivity]).
  exists (mk (sqrt zt / 2)), (mk (2 / sqrt zt)), (mk 0). do 2 (split; [reflexivity|]). do 2 (split; [apply D|]). do 2 (split; [reflexivity|]). do 2 (split; [apply EV|]). split; [|apply EV].
  assert (SS : forall v, sumsq (mk v) = Ok (0 + v * v)) by reflexivity.
  unfold ope_prod. destruct (same_dom eps Ep (mk (sqrt zt / 2)) (mk (2 / sqrt zt)) eq_refl eq_refl) as [-> ->].
  rewrite !SS. cbn [cassert obind mk o_t with_c ope_init ptype_eqb andb].
  assert (S : sqrt zt * sqrt zt = zt) by (apply sqrt_sqrt; lra).
  rewrite (Rltb_t (0 + sqrt zt / 2 * (sqrt zt / 2)) zt) by nra. cbn [orb]. reflexivity.
Qed.
Print Assumptions C79_product_small_refuted.

(** Legendre with fewer than fifty coefficients: by a table whose entry i + 50 (j + 50 k) is
    coefficient k of the product of members i and j.  The table is a generated file that the
    repository does not contain. *)
Theorem C79_product_legendre zt eps quad ltab htab x y : 0 < zt -> 0 < eps -> tab_ok LEGENDRE ltab -> o_t x = LEGENDRE -> o_t y = LEGENDRE -> dom_ok x -> dom_ok y ->
  o_lb x = o_lb y -> o_ub x = o_ub y -> (1 <= o_n x <= length (o_c x))%nat -> (1 <= o_n y <= length (o_c y))%nat -> (o_n x < 50)%nat -> (o_n y < 50)%nat -> o_kr x = false -> o_kr y = false ->
  exists q, ope_prod zt eps quad ltab htab x y = Ok q /\ product_of zt x y q.
Proof.
  intros Z Ep HT Tx Ty Dx Dy El Eu Hx Hy X50 Y50 Kx Ky.
  assert (EM : o_map x = o_map y) by (destruct Dx as (_ & _ & ->); destruct Dy as (_ & _ & ->); rewrite Tx, Ty, El, Eu; reflexivity).
  destruct (prod_small_ok zt eps Z Ep quad ltab htab x y ltab) as (q & E & H1 & H2 & H3 & H4 & H5 & H6); auto; [congruence|rewrite Tx; exact HT|].
  exists q. split; [exact E|]. assert (Mx := proj2 (proj2 Dx)). rewrite <- Mx in H6. eapply is_product_of; [..|exact H6]; eauto; try congruence; lia.
Qed.
Print Assumptions C79_product_legendre.
(** such tables exist *)
Theorem C79_table : exists ltab htab, tab_ok LEGENDRE ltab /\ tab_ok HERMITE htab.
Proof. exists (ideal_tab LEGENDRE), (ideal_tab HERMITE). split; apply ideal_tab_ok. Qed.
Print Assumptions C79_table.
(** fifty or more coefficients, for Gauss-Legendre rules that are exact *)
Theorem C79_product_long_partial zt eps quad ltab htab x y : 0 < zt -> 0 < eps -> o_t x = LEGENDRE -> o_t y = LEGENDRE -> dom_ok x -> dom_ok y ->
  o_lb x = o_lb y -> o_ub x = o_ub y -> (1 <= o_n x <= length (o_c x))%nat -> (1 <= o_n y <= length (o_c y))%nat -> (50 <= o_n x)%nat \/ (50 <= o_n y)%nat -> o_kr x = false -> o_kr y = false ->
  zt <= rs (o_n x) (fun k => nth k (o_c x) 0 * nth k (o_c x) 0) -> zt <= rs (o_n y) (fun k => nth k (o_c y) 0 * nth k (o_c y) 0) ->
  (let n := (o_n x + o_n y + 5)%nat in qexact LEGENDRE n (quad LEGENDRE n)) ->
  exists q, ope_prod zt eps quad ltab htab x y = Ok q /\ product_of zt x y q.
Proof.
  intros Z Ep Tx Ty Dx Dy El Eu Hx Hy B Kx Ky Zx Zy Q.
  assert (EM : o_map x = o_map y) by (destruct Dx as (_ & _ & ->); destruct Dy as (_ & _ & ->); rewrite Tx, Ty, El, Eu; reflexivity).
  destruct (prod_quad_ok zt eps Z Ep quad ltab htab x y) as (q & E & H1 & H2 & H3 & H4 & H5 & H6); auto; [congruence|apply mapping_inverse, Dx| |].
  { cbv zeta in *. rewrite Tx. exact Q. }
  exists q. split; [exact E|]. eapply is_product_of; [..|exact H6]; eauto; try congruence; lia.
Qed.
Print Assumptions C79_product_long_partial.

(** Hermite: the product by the table has the standard mapping whatever that of the factors is *)
Theorem C79_product_hermite zt eps quad ltab htab x y : 0 < zt -> 0 < eps -> tab_ok HERMITE htab -> o_t x = HERMITE -> o_t y = HERMITE ->
  o_map x = mksm 1 0 1 0 -> o_map y = mksm 1 0 1 0 ->
  o_lb x = o_lb y -> o_ub x = o_ub y -> (1 <= o_n x <= length (o_c x))%nat -> (1 <= o_n y <= length (o_c y))%nat -> (o_n x < 50)%nat -> (o_n y < 50)%nat -> o_kr x = false -> o_kr y = false ->
  exists q, ope_prod zt eps quad ltab htab x y = Ok q /\ product_of zt x y q.
Proof.
  intros Z Ep HT Tx Ty Mx My El Eu Hx Hy X50 Y50 Kx Ky.
  destruct (prod_small_ok zt eps Z Ep quad ltab htab x y htab) as (q & E & H1 & H2 & H3 & H4 & H5 & H6); auto; [congruence|rewrite Tx; exact HT|].
  exists q. split; [exact E|]. rewrite Tx in H6. cbn [init_map] in H6. rewrite <- Mx in H6. eapply is_product_of; [..|exact H6]; eauto; try congruence; lia.
Qed.
Print Assumptions C79_product_hermite.
(** (x / 2) * 1 with standard deviation 2 comes out as x: the square of the error grows with x *)
Theorem C79_product_hermite_refuted zt eps quad ltab htab : 0 < zt <= / 100 -> 0 < eps -> tab_ok HERMITE htab -> exists o x y q, op_t o = HERMITE /\ op_std o = 2 /\
  ope_linear 1 0 o = Ok x /\ ope_wf y /\ o_map x = o_map y /\
  (forall v, ope_eval x v = Ok v) /\ (forall v, ope_eval y v = Ok 1) /\ ope_prod zt eps quad ltab htab x y = Ok q /\ (forall v, ope_eval q v = Ok (2 * v)).
Proof.
  intros Hz Ep HT. set (o := mkopts HERMITE 1 (-1) 1 0 2 false).
  set (y := with_c (ope_init_opts o 1) 1 (1 :: repeat 0 50)).
  assert (Lx : exists x, ope_linear 1 0 o = Ok x /\ o_t x = HERMITE /\ o_n x = 2%nat /\ (2 <= length (o_c x))%nat /\ o_kr x = false /\ o_lb x = -1 /\ o_ub x = 1 /\ o_map x = mksm (1 / 2) (- 0 / 2) 2 0 /\ nth 0 (o_c x) 0 = 0 /\ nth 1 (o_c x) 0 = 2).
  { unfold ope_linear, ope_linear_update. rewrite aset_ok by (cbn; lia). cbn [obind]. rewrite aget_nth by (rewrite upd_length; cbn; lia). cbn [obind]. rewrite aset_ok by (rewrite upd_length; cbn; lia). cbn [obind].
    eexists. split; [reflexivity|]. cbn [o_t o_n o_c o_kr o_lb o_ub o_map with_c ope_init_opts o op_t op_kr op_std op_mean op_lb op_ub ope_init]. repeat (split; [first [reflexivity|rewrite !upd_length; cbn; lia]|]).
    split; rewrite !nth_upd by (rewrite ?upd_length; cbn; lia); cbn [Nat.eqb]; cbn [sm_slope sm_off o_t ope_init p_lin p_linc p_const o_map]; unfold p_linc, p_const; field; lra. }
  destruct Lx as (x & Ex & Tx & Nx & Lx & Kx & Lb & Ub & Mx & C0 & C1). exists o, x, y.
  assert (Fx : forall v, ope_fun x v = v).
  { intros v. unfold ope_fun, co. rewrite Nx, Tx, Mx. cbn [rs]. rewrite C0, C1, phi_1. unfold map_to, p_lin, p_linc. cbn [sm_slope sm_off]. field. }
  assert (Fy : forall v, ope_fun y v = 1).
  { intros v. unfold ope_fun, co. cbn [y o_n with_c rs o_c nth]. rewrite phi_0. ring. }
  destruct (prod_small_ok zt eps ltac:(lra) Ep quad ltab htab x y htab) as (q & E & H1 & H2 & H3 & H4 & H5 & (b & HB & Rd & Mq)).
  - rewrite Tx. reflexivity.
  - rewrite Lb. reflexivity.
  - rewrite Ub. reflexivity.
  - unfold ope_ok. lia.
  - unfold ope_ok. cbn. lia.
  - lia.
  - cbn. lia.
  - right. auto.
  - rewrite Tx. exact HT.
  - exists q. split; [reflexivity|]. split; [reflexivity|]. split; [exact Ex|]. split; [split; [split; apply Nat.leb_le; reflexivity|reflexivity]|]. split; [rewrite Mx; reflexivity|].
    split; [intros v; rewrite ope_eval_ok by (auto; unfold ope_ok; lia); now rewrite Fx|]. split; [intros v; rewrite ope_eval_ok; [now rewrite Fy|unfold ope_ok; cbn; lia|reflexivity]|].
    split; [exact E|].
    (* the coefficients of the product are 0, 2, 0, 0 *)
    rewrite Tx, Nx in *. change (2 + o_n y + 1)%nat with 4%nat in *.
    assert (RX : forall z, ref_fun x z * ref_fun y z = 2 * z).
    { intros z. unfold ref_fun. rewrite Nx, Tx. unfold co. cbn [rs y o_n with_c o_c nth]. rewrite C0, C1, phi_1, !phi_0. unfold p_lin, p_linc. ring. }
    assert (Sb : forall k, (k < 4)%nat -> b k = if (k =? 1)%nat then 2 else 0).
    { apply (phi_unique HERMITE). intros z. rewrite <- HB, RX. cbn [rs Nat.eqb]. rewrite phi_1. unfold p_lin, p_linc. ring. }
    intros v. rewrite (rounded_fun zt q 4 b v); auto using ope_wf_ok.
    + rewrite H1, Mq. f_equal. rewrite <- HB, RX. unfold map_to. cbn [init_map sm_slope sm_off]. ring.
    + intros j k Hj Hk. rewrite !Sb by auto. destruct (Nat.eqb_spec k 1); [|now left]. right. unfold thrN. rewrite (Rabs_pos_eq 2) by lra.
      apply Rle_trans with (zt * 8); [|lra]. apply Rmult_le_compat_l; [lra|]. replace (INR 4) with 4 by (cbn; lra). apply Rmax_lub; [lra|]. destruct (_ =? _)%nat; rewrite Rabs_pos_eq; lra.
Qed.
Print Assumptions C79_product_hermite_refuted.

(** ** Inner product and norm, Chebyshev: the integral of the product of [x] and [y] where
    small coefficients are zero *)
Theorem C79_inner_chebyshev zt eps tol gl gh ltab htab x y : 0 < zt -> 0 < eps -> o_t x = CHEBYSHEV -> o_t y = CHEBYSHEV -> dom_ok x -> dom_ok y ->
  o_lb x = o_lb y -> o_ub x = o_ub y -> (1 <= o_n x <= length (o_c x))%nat -> (1 <= o_n y <= length (o_c y))%nat -> o_kr x = false -> o_kr y = false ->
  zt <= rs (o_n x) (fun k => nth k (o_c x) 0 * nth k (o_c x) 0) -> zt <= rs (o_n y) (fun k => nth k (o_c y) 0 * nth k (o_c y) 0) ->
  exists q v, product_of zt x y q /\ ope_inner zt eps (lib_quad tol gl gh) ltab htab x y = Ok v /\ is_RInt (ope_fun q) (o_lb x) (o_ub x) v.
Proof.
  intros Z Ep Tx Ty Dx Dy El Eu Hx Hy Kx Ky Zx Zy.
  destruct (C79_product_chebyshev zt eps tol gl gh ltab htab x y) as (q & E & P); auto. assert (P' := P). destruct P' as ((T & L & U & M & K) & Hq & _).
  destruct (integrate_ok q) as (v & Ev & Iv); [exact Hq| |].
  { destruct Dx as (D1 & D2 & D3). split; [congruence|]. rewrite <- T, <- L, <- U, <- M. auto. }
  exists q, v. split; [exact P|]. split; [|rewrite L, U; exact Iv]. unfold ope_inner. rewrite Tx, Ty, E. exact Ev.
Qed.
Print Assumptions C79_inner_chebyshev.

(** ** A concrete case: x times x on [-1,1] is x^2 *)
Example C79_example zt eps tol gl gh ltab htab : 0 < zt <= / 100 -> 0 < eps ->
  let x := with_c (ope_init CHEBYSHEV 2 (-1) 1) 2 ([0; 1] ++ repeat 0 50) in
  (forall v, ope_eval x v = Ok v) /\ exists q, ope_prod zt eps (lib_quad tol gl gh) ltab htab x x = Ok q /\ forall v, ope_eval q v = Ok (v * v).
Proof.
  intros Hz Ep x. assert (D : dom_ok x) by (split; [discriminate|]; split; [cbn; lra|reflexivity]).
  assert (F : forall v, ope_fun x v = v).
  { intros v. unfold ope_fun, co. cbn [x o_n with_c rs o_t ope_init o_c app nth]. rewrite phi_0, phi_1. unfold map_to, p_lin, p_linc. unfold x; cbn [o_map with_c ope_init init_map sm_slope sm_off]. unfold p_upper, p_lower. field. }
  assert (X : ope_ok x) by (unfold ope_ok; cbn; lia).
  split; [intros v; rewrite ope_eval_ok by auto; now rewrite F|].
  assert (S2 : rs (o_n x) (fun k => nth k (o_c x) 0 * nth k (o_c x) 0) = 1) by (cbn [x o_n with_c o_c rs app nth]; ring).
  destruct (C79_product_chebyshev zt eps tol gl gh ltab htab x x) as (q & E & P); auto; [lra|rewrite S2; lra|rewrite S2; lra|]. exists q. split; [exact E|].
  destruct (C79_product_exact zt x x q eq_refl P) as (n & b & Hn & Hb & He). change (o_n x + o_n x + 5)%nat with 9%nat in Hn.
  assert (Hv : forall k, (k < n)%nat -> b k = match k with 0%nat | 2%nat => / 2 | _ => 0 end).
  { intros k Hk. enough (Q : (if (k <? n)%nat then b k else 0) = match k with 0%nat | 2%nat => / 2 | _ => 0 end) by (destruct (Nat.ltb_spec k n); [exact Q|lia]).
    apply (phi_unique CHEBYSHEV 9 (fun k => if (k <? n)%nat then b k else 0) (fun k => match k with 0%nat | 2%nat => / 2 | _ => 0 end)); [|lia]. intros z.
    rewrite (rs_ext 9 (fun k0 => (if (k0 <? n)%nat then b k0 else 0) * phi CHEBYSHEV k0 z) (fun k0 => if (k0 <? n)%nat then b k0 * phi CHEBYSHEV k0 z else 0)) by (intros i _; destruct (i <? n)%nat; ring).
    rewrite <- (rs_pad n 9 (fun k0 => b k0 * phi CHEBYSHEV k0 z)) by lia.
    pose proof (Hb z) as Q. rewrite !F in Q. assert (Mz : map_to (o_map x) z = z) by (unfold map_to, x; cbn [o_map with_c ope_init init_map sm_slope sm_off]; unfold p_upper, p_lower; field). rewrite Mz in Q.
    change (o_t x) with CHEBYSHEV in Q. rewrite <- Q. cbn [rs phi chebT]. field. }
  intros v. rewrite He; [now rewrite F|]. intros j k Hj Hk. rewrite !Hv by auto.
  assert (B : Rabs (match j with 0%nat | 2%nat => / 2 | _ => 0 end) <= / 2) by (destruct j as [|[|[|]]]; rewrite Rabs_pos_eq; lra).
  assert (C : match k with 0%nat | 2%nat => / 2 | _ => 0 end = 0 \/ match k with 0%nat | 2%nat => / 2 | _ => 0 end = / 2) by (destruct k as [|[|[|]]]; auto).
  destruct C as [->| ->]; [now left|]. right. rewrite (Rabs_pos_eq (/ 2)) by lra. unfold thrN.
  assert (Hn9 : INR n <= 9) by (apply le_INR in Hn; replace 9 with (INR 9) by (cbn; lra); exact Hn). assert (Hn0 := pos_INR n).
  apply Rle_trans with (zt * 5); [|lra]. apply Rmult_le_compat_l; [lra|]. apply Rmax_lub; [lra|].
  apply Rle_trans with (9 * / 2); [|lra]. apply Rmult_le_compat; auto; try lra. apply Rabs_pos.
Qed.
