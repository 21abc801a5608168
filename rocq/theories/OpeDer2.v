(** Second derivatives as expansions. *)
From Coq Require Import Reals Lra Lia List.
From Verif Require Import Base BaseFacts FOps RIntLib FFTCheb QuadModel QuadFacts QuadCC OpeModel OpeSpec LegFacts HermFacts OpeBasis OpeFacts OpeLin OpeLin2 OpeInt OpeApprox OpeDer.
Import ListNotations.
Local Open Scope R_scope.

Lemma chebDD_list k x : chebDD k x = pe (pder (pder (phil CHEBYSHEV k))) x.
Proof.
  apply (uniqueness_limite (phiD CHEBYSHEV k) x); [apply chebDD_deriv|]. apply (derivable_pt_lim_ext (pe (pder (phil CHEBYSHEV k)))); [intros; symmetry; apply phiD_list|apply pder_deriv].
Qed.
Lemma rsDD_list n (c : nat -> R) : exists l, (length l <= n - 2)%nat /\ forall x, rs n (fun k => c k * chebDD k x) = pe l x.
Proof.
  induction n as [|n (l & L & E)]; [exists []; auto|].
  exists (padd l (map (Rmult (c n)) (pder (pder (phil CHEBYSHEV n))))). rewrite padd_length, map_length, !pder_length, phil_length. split; [lia|].
  intros x. cbn [rs]. rewrite E, pe_padd, pe_scal, chebDD_list. reflexivity.
Qed.

Lemma refI_coef t n (c : nat -> R) k : refI t (fun z => rs n (fun j => c j * phi t j z) * phi t k z) (if (k <? n)%nat then c k * p_norm t k else 0).
Proof.
  induction n as [|n IH].
  - apply (refI_ext t (fun _ => 0)); [intros; cbn; ring|apply refI_0].
  - apply (refI_ext t (fun z => rs n (fun j => c j * phi t j z) * phi t k z + c n * (phi t n z * phi t k z))); [intros; cbn [rs]; ring|].
    pose proof (refI_comb t _ _ (c n) _ _ IH (refI_orth t n k)) as H.
    replace (if (k <? S n)%nat then c k * p_norm t k else 0) with ((if (k <? n)%nat then c k * p_norm t k else 0) + c n * (if (n =? k)%nat then p_norm t n else 0)); [exact H|].
    destruct (Nat.ltb_spec k n), (Nat.ltb_spec k (S n)), (Nat.eqb_spec n k); try lia; subst; ring.
Qed.
Lemma phi_unique t n (a b : nat -> R) : (forall z, rs n (fun k => a k * phi t k z) = rs n (fun k => b k * phi t k z)) -> forall k, (k < n)%nat -> a k = b k.
Proof.
  intros H k Hk. pose proof (refI_coef t n a k) as A. pose proof (refI_coef t n b k) as B. apply Nat.ltb_lt in Hk. rewrite Hk in A, B.
  assert (E : a k * p_norm t k = b k * p_norm t k).
  { eapply refI_unique; [exact A|]. eapply refI_ext; [|exact B]. intros z. cbn beta. now rewrite H. }
  pose proof (p_norm_pos t k). apply Rmult_eq_reg_r in E; auto; lra.
Qed.

Section Der2.
  Context (zt eps : R) (Hzt : 0 < zt) (Heps : 0 < eps).
  Context (quad : ptype -> nat -> outcome (list R * list R)).

  Lemma round_0 p : o_n p = 0%nat -> (1 <= length (o_c p))%nat -> ope_round zt p = Ok (with_c p 1 (o_c p)).
  Proof. intros N L. unfold ope_round. rewrite N. rewrite aget_nth by lia. reflexivity. Qed.

  (** projection to no polynomial at all leaves the first coefficient alone if the function
      is zero *)
  Lemma approx_0 A p : o_n p = 0%nat -> (1 <= length (o_c p))%nat -> nth 0 (o_c p) 0 = 0 -> (forall x, A x = Ok 0) ->
    (exists pt wt, quad (o_t p) 0 = Ok (pt, wt) /\ length pt = 1%nat /\ length wt = 1%nat) ->
    exists c, ope_approx quad A p = Ok (with_c p 0 c) /\ length c = length (o_c p) /\ forall k, nth k c 0 = nth k (o_c p) 0.
  Proof.
    intros N L Z HA (pt & wt & E & L1 & L2). unfold ope_approx. rewrite N. cbn [Nat.add]. rewrite E. cbn [obind for_ for_from].
    rewrite (aget_nth pt 0) by lia. cbn [obind]. rewrite HA. cbn [obind]. rewrite (aget_nth wt 0) by lia. cbn [obind repeat]. rewrite aset_ok by (cbn; lia). cbn [obind upd].
    rewrite aget_nth by (cbn; lia). cbn [obind nth]. unfold poly_loop. cbn [Nat.ltb Nat.leb]. rewrite aget_nth by lia. cbn [obind]. rewrite aset_ok by lia. cbn [obind].
    rewrite aget_nth by (rewrite upd_length; lia). cbn [obind]. rewrite aset_ok by (rewrite upd_length; lia). cbn [obind]. eexists. split; [reflexivity|]. rewrite !upd_length. split; [reflexivity|].
    intros k. rewrite upd_upd, !nth_upd by lia. rewrite Nat.eqb_refl. destruct (Nat.eqb_spec k 0) as [->|]; [|reflexivity]. rewrite Z. unfold Rdiv. ring.
  Qed.

  Lemma dderiv_cheb_ok p : o_t p = CHEBYSHEV -> ope_wf p -> o_kr p = false -> maps_ok p -> (forall n, (1 <= n < o_n p)%nat -> qexact CHEBYSHEV n (quad CHEBYSHEV n)) ->
    (exists pt wt, quad CHEBYSHEV 0 = Ok (pt, wt) /\ length pt = 1%nat /\ length wt = 1%nat) ->
    exists p1, same_shape p p1 /\ (o_n p1 <= o_n p)%nat /\ rounded zt p1 (o_n p) (co p) /\
      (o_n p1 <> 3%nat \/ sm_slope (o_map p) = 1 ->
       exists q b, ope_dderiv zt quad p = Ok q /\ same_shape p q /\ ope_wf q /\ rounded zt q (Nat.max 1 (o_n p1 - 2)) b /\
         forall x, ope_funDD p1 x = rs (Nat.max 1 (o_n p1 - 2)) (fun k => b k * phi CHEBYSHEV k (map_to (o_map p) x))).
  Proof.
    intros T W K MP HQ Q0. unfold ope_dderiv. rewrite K. cbn [negb cassert obind].
    destruct (copy_ok p W) as (p0 & E0 & S0 & N0 & W0 & A0 & C0 & _). rewrite E0. cbn [obind].
    destruct (round_rounded zt Hzt p0 (ope_wf_ok _ W0)) as (p1 & E1 & S1 & N1 & A1 & L1 & R1). rewrite E1. cbn [obind].
    assert (W1 : ope_wf p1) by (apply (round_wf p0 p1); auto).
    assert (S01 : same_shape p p1) by (eapply same_shape_trans; eauto).
    destruct (zero_copy p1 W1) as (out & c & E2 & E3 & S2 & N2 & A2 & L2 & Z). rewrite E2. cbn [obind]. rewrite E3. cbn [obind].
    assert (RP : rounded zt p1 (o_n p) (co p)).
    { rewrite N0 in R1. apply (rounded_ext zt p1 (o_n p) (fun k => nth k (o_c p0) 0)); [|exact R1]. intros k Hk. specialize (C0 k). unfold coz in C0. rewrite N0 in C0. destruct (Nat.ltb_spec k (o_n p)); [exact C0|lia]. }
    assert (S02 : same_shape p out) by (eapply same_shape_trans; eauto).
    assert (Wn := W1). destruct Wn as [Wn Wa]. assert (Tp : o_t p1 = CHEBYSHEV) by (rewrite <- T; symmetry; apply S01). assert (Mp : o_map p1 = o_map p) by (symmetry; apply S01).
    exists p1. split; [exact S01|]. split; [lia|]. split; [exact RP|]. intros H3.
    assert (K1 : o_kr p1 = false) by (rewrite <- K; symmetry; apply S01). rewrite Tp.
    assert (RZ : forall q, (forall k, coz q k = 0) -> rounded zt q 1 (fun _ => 0)).
    { intros q Hq. exists 0. split; [exists 0%nat; split; [lia|]; now rewrite Rabs_R0|]. split; [intros; rewrite Rabs_R0; lra|]. split; intros; auto. }
    assert (ZF : (o_n p1 <= 2)%nat -> forall x, ope_funDD p1 x = rs (Nat.max 1 (o_n p1 - 2)) (fun k => 0 * phi CHEBYSHEV k (map_to (o_map p) x))).
    { intros H x. replace (Nat.max 1 (o_n p1 - 2)) with 1%nat by lia. unfold ope_funDD. rewrite rs_zero; [cbn; ring|]. intros k Hk. destruct k as [|[|]]; [cbn; ring|cbn; ring|lia]. }
    destruct (Nat.ltb_spec (o_n p1) 2) as [N2'|N2'].
    - eexists. exists (fun _ => 0). split; [reflexivity|]. split; [exact S02|]. split; [unfold ope_wf; cbn [o_n o_c o_alloc with_c]; lia|]. split; [|apply ZF; lia].
      replace (Nat.max 1 (o_n p1 - 2)) with 1%nat by lia. apply RZ. intros k. unfold coz. cbn [o_n o_c with_c]. destruct (_ <? _)%nat; auto.
    - set (o2 := with_c out (o_n out - 2) c).
      assert (T2 : o_t o2 = CHEBYSHEV) by (rewrite <- T; symmetry; apply S02). assert (M2 : o_map o2 = o_map p) by (symmetry; apply S02).
      destruct (Nat.eq_dec (o_n p1) 2) as [E12|E12].
      + destruct (approx_0 (cheb_dderiv_eval p1) o2) as (c' & Ec & Lc & Hc).
        * unfold o2. cbn [o_n with_c]. lia.
        * unfold o2. cbn [o_c with_c]. lia.
        * apply Z.
        * intros x. rewrite cheb_dderiv_eval_ok by (auto using ope_wf_ok; rewrite Mp; auto). f_equal. rewrite ZF by lia. apply rs_zero. intros; ring.
        * rewrite T2. exact Q0.
        * rewrite Ec. cbn [obind]. rewrite round_0; [|reflexivity|cbn [o_c with_c]; rewrite Lc; unfold o2; cbn [o_c with_c]; lia].
          eexists. exists (fun _ => 0). split; [reflexivity|]. split; [exact S02|]. unfold o2 in Lc, Hc |- *. cbn [o_c with_c] in Lc, Hc. split; [unfold ope_wf; cbn [o_n o_c o_alloc with_c]; lia|]. split; [|apply ZF; lia].
          replace (Nat.max 1 (o_n p1 - 2)) with 1%nat by lia. apply RZ. intros k. unfold coz. cbn [o_n o_c with_c]. destruct (_ <? _)%nat; auto. rewrite Hc. apply Z.
      + destruct (rsDD_list (o_n p1) (co p1)) as (l & Ll & El). destruct (inspan CHEBYSHEV (o_n p1 - 2) l Ll) as (b & Hb).
        destruct (approx_exact quad (cheb_dderiv_eval p1) (ope_funDD p1) o2 (fun k => b k * (sm_slope (o_map p) * sm_slope (o_map p)))) as (c' & Ec & Lc & Hc).
        * unfold ope_ok, o2. cbn [o_n o_c with_c]. lia.
        * rewrite T2. apply HQ. unfold o2. cbn [o_n with_c]. lia.
        * intros; apply Z.
        * intros x. apply cheb_dderiv_eval_ok; auto using ope_wf_ok. rewrite Mp. exact H3.
        * intros z. unfold ope_funDD. rewrite Mp, M2, MP, T2. unfold o2. cbn [o_n with_c]. rewrite N2, El, Hb, Rmult_comm, <- rs_scal. apply rs_ext. intros; ring.
        * rewrite Ec. cbn [obind]. unfold o2 in Ec, Lc, Hc |- *. cbn [o_n o_c with_c] in Lc, Hc |- *.
          destruct (round_rounded zt Hzt (with_c (with_c out (o_n out - 2) c) (o_n out - 2) c')) as (q & Eq & Sq & Nq & Aq & Lq & Rq0).
          { unfold ope_ok. cbn [o_n o_c with_c]. lia. }
          cbn [o_n o_c o_alloc with_c] in *. exists q, (fun k => b k * (sm_slope (o_map p) * sm_slope (o_map p))). split; [exact Eq|]. split; [eapply same_shape_trans; [exact S02|exact Sq]|].
          split; [unfold ope_wf; lia|]. replace (Nat.max 1 (o_n p1 - 2)) with (o_n out - 2)%nat by lia. split.
          -- apply (rounded_ext zt q _ (fun k => nth k c' 0)); auto.
          -- intros x. unfold ope_funDD. rewrite Mp, El, N2, Hb, Rmult_comm, <- rs_scal. apply rs_ext. intros; ring.
  Qed.
  (** what three or more polynomials lead to, whatever the pointwise second derivative is *)
  Lemma dderiv_cheb_run p : o_t p = CHEBYSHEV -> ope_wf p -> o_kr p = false -> (forall n, (1 <= n < o_n p)%nat -> qexact CHEBYSHEV n (quad CHEBYSHEV n)) ->
    exists p1, same_shape p p1 /\ (o_n p1 <= o_n p)%nat /\ ope_wf p1 /\ rounded zt p1 (o_n p) (co p) /\
      forall g b, (3 <= o_n p1)%nat -> (forall x, cheb_dderiv_eval p1 x = Ok (g x)) -> (forall z, g (map_from (o_map p) z) = rs (o_n p1 - 2) (fun k => b k * phi CHEBYSHEV k z)) ->
       exists q, ope_dderiv zt quad p = Ok q /\ same_shape p q /\ ope_wf q /\ rounded zt q (o_n p1 - 2) b.
  Proof.
    intros T W K HQ. unfold ope_dderiv. rewrite K. cbn [negb cassert obind].
    destruct (copy_ok p W) as (p0 & E0 & S0 & N0 & W0 & A0 & C0 & _). rewrite E0. cbn [obind].
    destruct (round_rounded zt Hzt p0 (ope_wf_ok _ W0)) as (p1 & E1 & S1 & N1 & A1 & L1 & R1). rewrite E1. cbn [obind].
    assert (W1 : ope_wf p1) by (apply (round_wf p0 p1); auto).
    assert (S01 : same_shape p p1) by (eapply same_shape_trans; eauto).
    destruct (zero_copy p1 W1) as (out & c & E2 & E3 & S2 & N2 & A2 & L2 & Z). rewrite E2. cbn [obind]. rewrite E3. cbn [obind].
    assert (RP : rounded zt p1 (o_n p) (co p)).
    { rewrite N0 in R1. apply (rounded_ext zt p1 (o_n p) (fun k => nth k (o_c p0) 0)); [|exact R1]. intros k Hk. specialize (C0 k). unfold coz in C0. rewrite N0 in C0. destruct (Nat.ltb_spec k (o_n p)); [exact C0|lia]. }
    assert (S02 : same_shape p out) by (eapply same_shape_trans; eauto).
    assert (Wn := W1). destruct Wn as [Wn Wa]. assert (Tp : o_t p1 = CHEBYSHEV) by (rewrite <- T; symmetry; apply S01).
    exists p1. split; [exact S01|]. split; [lia|]. split; [exact W1|]. split; [exact RP|]. intros g b H3 HA Hg. rewrite Tp.
    destruct (Nat.ltb_spec (o_n p1) 2) as [N2'|N2']; [lia|].
    set (o2 := with_c out (o_n out - 2) c).
    assert (T2 : o_t o2 = CHEBYSHEV) by (rewrite <- T; symmetry; apply S02). assert (M2 : o_map o2 = o_map p) by (symmetry; apply S02).
    destruct (approx_exact quad (cheb_dderiv_eval p1) g o2 b) as (c' & Ec & Lc & Hc).
    - unfold ope_ok, o2. cbn [o_n o_c with_c]. lia.
    - rewrite T2. apply HQ. unfold o2. cbn [o_n with_c]. lia.
    - intros; apply Z.
    - exact HA.
    - intros z. rewrite M2, T2. unfold o2. cbn [o_n with_c]. rewrite N2. apply Hg.
    - rewrite Ec. cbn [obind]. unfold o2 in Ec, Lc, Hc |- *. cbn [o_n o_c with_c] in Lc, Hc |- *.
      destruct (round_rounded zt Hzt (with_c (with_c out (o_n out - 2) c) (o_n out - 2) c')) as (q & Eq & Sq & Nq & Aq & Lq & Rq0).
      { unfold ope_ok. cbn [o_n o_c with_c]. lia. }
      cbn [o_n o_c o_alloc with_c] in *. exists q. split; [exact Eq|]. split; [eapply same_shape_trans; [exact S02|exact Sq]|].
      split; [unfold ope_wf; lia|]. rewrite N2 in *. apply (rounded_ext zt q _ (fun k => nth k c' 0)); auto.
  Qed.

  (** no coefficient is small *)
  Definition sharp (n : nat) (b : nat -> R) : Prop := forall j k, (j < n)%nat -> (k < n)%nat -> b k = 0 \/ thrN zt n (Rabs (b j)) <= Rabs (b k).
  Lemma rounded_sharp q n b : rounded zt q n b -> sharp n b -> forall k, coz q k = if (k <? n)%nat then b k else 0.
  Proof.
    intros (M & (k0 & Hk0 & ->) & A & B & C) H k. destruct (Nat.ltb_spec k n) as [Hk|Hk]; [|apply C; lia]. destruct (B k Hk) as [E|[E L]]; [exact E|].
    destruct (H k0 k Hk0 Hk) as [Z|Z]; [congruence|lra].
  Qed.
  Lemma rounded_fun q n b x : ope_ok q -> o_kr q = false -> rounded zt q n b -> sharp n b -> ope_eval q x = Ok (rs n (fun k => b k * phi (o_t q) k (map_to (o_map q) x))).
  Proof.
    intros Ok K Rd Sh. rewrite ope_eval_ok by auto. f_equal. rewrite (ope_fun_coz q (o_n q + n)) by lia. rewrite (rs_pad n (o_n q + n)) by lia. apply rs_ext. intros k _.
    rewrite (rounded_sharp q n b Rd Sh). destruct (k <? n)%nat; ring.
  Qed.
End Der2.

(** The library's choice of rules; those of Legendre and Hermite come from elsewhere. *)
Definition lib_quad (tol : R) (gl gh : nat -> outcome (list R * list R)) (t : ptype) (n : nat) : outcome (list R * list R) :=
  match t with
  | CHEBYSHEV => cheb_gauss (K := Rq tol) n (repeat 0 (n + 1)) (repeat 0 (n + 1))
  | LEGENDRE => gl n
  | HERMITE => gh n
  end.
Lemma lib_quad_0 tol gl gh : exists pt wt, lib_quad tol gl gh CHEBYSHEV 0 = Ok (pt, wt) /\ length pt = 1%nat /\ length wt = 1%nat.
Proof. exists [0], [0]. split; [reflexivity|split; reflexivity]. Qed.
