(** C79 continued: inner products of a Legendre with a Chebyshev expansion; products with a
    factor below the threshold. *)
From Coq Require Import Reals Lra Lia List.
From Verif Require Import Base BaseFacts FOps RIntLib FFTCheb QuadModel QuadFacts QuadMore QuadCC OpeModel OpeSpec LegFacts HermFacts OpeBasis OpeFacts OpeLin OpeLin2 OpeInt OpeApprox OpeDer OpeDer2 OpeProd PropOpe3 PropOpe4 PropOpe5.
Import ListNotations.
Local Open Scope R_scope.

(** a factor whose squared coefficients sum to less than the threshold makes the product the
    zero function, in the family and on the domain of the first factor *)
Theorem C79_product_small zt eps quad ltab htab x y : 0 < eps -> o_lb x = o_lb y -> o_ub x = o_ub y -> ope_ok x -> ope_ok y ->
  (o_t x = CHEBYSHEV \/ (50 <= o_n x)%nat \/ (50 <= o_n y)%nat) ->
  rs (o_n x) (fun k => nth k (o_c x) 0 * nth k (o_c x) 0) < zt \/ rs (o_n y) (fun k => nth k (o_c y) 0 * nth k (o_c y) 0) < zt ->
  exists q, ope_prod zt eps quad ltab htab x y = Ok q /\ o_t q = o_t x /\ o_lb q = o_lb x /\ o_ub q = o_ub x /\ o_map q = o_map x /\
    forall v, ope_eval q v = Ok 0.
Proof.
  intros Ep El Eu Hx Hy Big Sm. unfold ope_prod. destruct (same_dom eps Ep x y El Eu) as [-> ->]. cbn [cassert obind].
  assert (Nl : (ptype_eqb (o_t x) LEGENDRE && ((o_n x <? 50) && (o_n y <? 50))%nat)%bool = false).
  { destruct Big as [->|[B|B]]; [reflexivity| |]; rewrite ?(proj2 (Nat.ltb_ge _ _) B); now rewrite ?Bool.andb_false_r. }
  assert (Nh : (ptype_eqb (o_t x) HERMITE && ((o_n x <? 50) && (o_n y <? 50))%nat)%bool = false).
  { destruct Big as [->|[B|B]]; [reflexivity| |]; rewrite ?(proj2 (Nat.ltb_ge _ _) B); now rewrite ?Bool.andb_false_r. }
  rewrite Nl, Nh, !sumsq_ok by auto. cbn [obind].
  assert (Rb : (Rltb (rs (o_n x) (fun k => co x k * co x k)) zt || Rltb (rs (o_n y) (fun k => co y k * co y k)) zt)%bool = true).
  { apply Bool.orb_true_iff. destruct Sm as [S|S]; [left|right]; now apply Rltb_t. }
  rewrite Rb. cbv zeta. rewrite aset_ok by (cbn; lia). cbn [obind]. eexists. split; [reflexivity|]. do 4 (split; [reflexivity|]).
  intros v. rewrite ope_eval_ok; [|unfold ope_ok; cbn; lia|reflexivity]. f_equal. unfold ope_fun, co. cbn [o_n with_c rs o_c with_map ope_init Nat.add repeat upd nth]. ring.
Qed.
Print Assumptions C79_product_small.

(** [t] is the Legendre expansion of the function of [q], where small coefficients may be zero *)
Definition legendre_of zt q t (b : nat -> R) : Prop :=
  o_t t = LEGENDRE /\ o_lb t = o_lb q /\ o_ub t = o_ub q /\ ope_ok t /\ dom_ok t /\ rounded zt t (o_n q) b /\
  forall v, ope_fun q v = rs (o_n q) (fun k => b k * phi LEGENDRE k (map_to (o_map t) v)).
Lemma to_legendre_ok zt quad q : 0 < zt -> o_t q = CHEBYSHEV -> dom_ok q -> ope_ok q -> o_kr q = false ->
  qexact LEGENDRE (o_n q) (quad LEGENDRE (o_n q)) -> exists t b, to_legendre zt quad q = Ok t /\ legendre_of zt q t b.
Proof.
  intros Z T D Hq Kq Q. unfold to_legendre. set (r := ope_init LEGENDRE (o_n q) (o_lb q) (o_ub q)).
  assert (Dr : dom_ok r) by (split; [discriminate|]; split; [apply D|reflexivity]).
  assert (EM : o_map r = o_map q) by (destruct D as (_ & _ & ->); rewrite T; reflexivity).
  destruct (rs_list (o_t q) (o_n q) (co q)) as (lq & Lq & Eq). destruct (inspan LEGENDRE (o_n q) lq) as (b & Hb); [lia|].
  assert (HP : forall z, ref_fun q z = rs (o_n q) (fun k => b k * phi LEGENDRE k z)) by (intros z; unfold ref_fun; rewrite Eq; apply Hb).
  assert (Nr : o_n r = o_n q) by reflexivity. assert (Lr : length (o_c r) = (o_n q + 50)%nat) by (unfold r; cbn [o_c ope_init]; apply repeat_length).
  destruct (approx_exact quad (ope_eval q) (ope_fun q) r b) as (c & Ec & Lc & Hc).
  - unfold ope_ok. rewrite Lr, Nr. destruct Hq. lia.
  - exact Q.
  - intros k _. unfold r. cbn [o_c ope_init]. apply nth_repeat.
  - intros v. now rewrite ope_eval_ok by auto.
  - intros z. rewrite ope_fun_ref, <- EM, (mapping_inverse r Dr). apply HP.
  - rewrite Ec. cbn [obind]. destruct (round_rounded zt Z (with_c r (o_n r) c)) as (t & Et & (S1 & S2 & S3 & S4 & S5) & Nt & At & Lt & Rt).
    { unfold ope_ok. cbn [o_n o_c with_c]. rewrite Lc, Lr, Nr. destruct Hq. lia. }
    cbn [o_n o_c o_t o_lb o_ub o_map o_kr with_c] in *. exists t, b. split; [exact Et|].
    split; [symmetry; exact S1|]. split; [symmetry; exact S2|]. split; [symmetry; exact S3|].
    split; [unfold ope_ok; lia|]. split; [split; [rewrite <- S1; discriminate|]; rewrite <- S1, <- S2, <- S3, <- S4; apply Dr|].
    split; [apply (rounded_ext zt t (o_n q) (fun k => nth k c 0)); auto|].
    intros v. rewrite ope_fun_ref, <- S4, EM. apply HP.
Qed.

(** without small coefficients it is the same function *)
Lemma legendre_same zt q t b : legendre_of zt q t b -> sharp zt (o_n q) b -> forall v, ope_fun t v = ope_fun q v.
Proof.
  intros (T & _ & _ & Ht & _ & Rd & H) Sh v. rewrite H, (ope_fun_coz t (o_n t + o_n q)) by lia. rewrite (rs_pad (o_n q) (o_n t + o_n q)) by lia. apply rs_ext. intros k _.
  rewrite (rounded_sharp zt t (o_n q) b Rd Sh), T. destruct (k <? o_n q)%nat; ring.
Qed.

(** The inner product of a Legendre and a Chebyshev expansion on one domain, for rules that
    are exact: the integral of the first times the Legendre form of the second; the
    integral of the product of both functions if that form has no small coefficients. *)
Theorem C79_inner_mixed zt eps quad ltab htab p q : 0 < zt -> o_t p = LEGENDRE -> o_t q = CHEBYSHEV -> dom_ok p -> dom_ok q ->
  o_lb p = o_lb q -> o_ub p = o_ub q -> ope_ok p -> ope_ok q -> o_kr q = false -> qexact LEGENDRE (o_n q) (quad LEGENDRE (o_n q)) ->
  exists t b v, legendre_of zt q t b /\ ope_inner zt eps quad ltab htab p q = Ok v /\ ope_inner zt eps quad ltab htab q p = Ok v /\
    is_RInt (fun x => ope_fun p x * ope_fun t x) (o_lb p) (o_ub p) v /\
    (sharp zt (o_n q) b -> is_RInt (fun x => ope_fun p x * ope_fun q x) (o_lb p) (o_ub p) v).
Proof.
  intros Z Tp Tq Dp Dq El Eu Hp Hq Kq Q. destruct (to_legendre_ok zt quad q Z Tq Dq Hq Kq Q) as (t & b & Et & Lt).
  assert (Lt' := Lt). destruct Lt' as (Tt & Bl & Bu & Ht & Dt & _).
  assert (EM : o_map p = o_map t) by (destruct Dp as (_ & _ & ->); destruct Dt as (_ & _ & ->); rewrite Tp, Tt, Bl, Bu, El, Eu; reflexivity).
  destruct (C77_inner_w p t) as (w & Ew & Hw & _); auto; [congruence|]. specialize (Hw Tp Dp).
  exists t, b, (w * (o_ub p - o_lb p)). split; [exact Lt|]. unfold ope_inner. rewrite Tp, Tq, Et. cbn [obind].
  split; [now rewrite Ew|]. split; [|split; [exact Hw|]].
  - rewrite inner_w_val in Ew |- * by (auto; congruence). cbn [obind]. injection Ew as <-. do 2 f_equal. rewrite Nat.min_comm, Tp, Tt. apply rs_ext. intros k _. ring.
  - intros Sh. eapply is_RInt_ext_all; [|exact Hw]. intros x. cbn beta. now rewrite (legendre_same zt q t b Lt Sh).
Qed.
Print Assumptions C79_inner_mixed.
(** other mixtures are rejected *)
Theorem C79_inner_rejects zt eps quad ltab htab p q : o_t p <> o_t q -> o_t p = HERMITE \/ o_t q = HERMITE -> ope_inner zt eps quad ltab htab p q = Abort.
Proof. intros H [E|E]; unfold ope_inner; rewrite E in *; [destruct (o_t q)|destruct (o_t p)]; auto; congruence. Qed.
Print Assumptions C79_inner_rejects.

Example C79_small_example zt eps quad ltab htab : 0 < zt -> 0 < eps ->
  let x := with_c (ope_init CHEBYSHEV 2 (-1) 1) 2 ([0; 0] ++ repeat 0 50) in
  let y := with_c (ope_init CHEBYSHEV 2 (-1) 1) 2 ([5; 7] ++ repeat 0 50) in
  exists q, ope_prod zt eps quad ltab htab x y = Ok q /\ forall v, ope_eval q v = Ok 0.
Proof.
  intros Z Ep x y. destruct (C79_product_small zt eps quad ltab htab x y) as (q & E & _ & _ & _ & _ & H); auto; try (unfold ope_ok; cbn; lia).
  - left. cbn. lra.
  - eauto.
Qed.

(** a rule that is exact enough for two coefficients: Simpson's *)
Definition simpson (t : ptype) (n : nat) : outcome (list R * list R) := Ok ([-1; 0; 1], [/ 6; 4 / 6; / 6]).
Lemma simpson_exact : qexact LEGENDRE 2 (simpson LEGENDRE 2).
Proof.
  exists [-1; 0; 1], [/ 6; 4 / 6; / 6]. do 3 (split; [reflexivity|]). intros l Hl. cbn [refI].
  pose proof (pe_RInt l (-1) 1) as H. replace (2 * _) with (pprim 0 l 1 - pprim 0 l (-1)); [exact H|].
  destruct l as [|a [|b [|c [|d [|e l]]]]]; cbn in Hl; try lia; cbn; field.
Qed.
(** x in both families on [-1,1] *)
Example C79_mixed_example zt eps ltab htab : 0 < zt <= / 100 ->
  let p := with_c (ope_init LEGENDRE 2 (-1) 1) 2 ([0; / sqrt 3] ++ repeat 0 50) in
  let q := with_c (ope_init CHEBYSHEV 2 (-1) 1) 2 ([0; 1] ++ repeat 0 50) in
  exists v t b, ope_inner zt eps simpson ltab htab p q = Ok v /\ ope_inner zt eps simpson ltab htab q p = Ok v /\
    legendre_of zt q t b /\ is_RInt (fun x => ope_fun p x * ope_fun t x) (-1) 1 v.
Proof.
  intros Hz p q. destruct (C79_inner_mixed zt eps simpson ltab htab p q) as (t & b & v & L & E1 & E2 & I & _); try reflexivity; try lra.
  - split; [discriminate|]. split; [cbn; lra|reflexivity].
  - split; [discriminate|]. split; [cbn; lra|reflexivity].
  - unfold ope_ok; cbn; lia.
  - unfold ope_ok; cbn; lia.
  - exact simpson_exact.
  - exists v, t, b. auto.
Qed.
