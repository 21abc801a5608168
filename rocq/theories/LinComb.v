(** Linear combinations and sums of products of univariate functions. *)
From Verif Require Export FTFacts.

Section LinComb.
  Context {R : CRing} {U : uops R}.
  Open Scope cr_scope.
  Add Ring Rr4 : (rth R).

  Lemma scan_poly_ok n ii (f : list U) off ld :
    (forall k, ii <= k < ii + n -> exists u, nth_error f (off + k * ld) = Some u) ->
    exists b, scan_poly n ii f off ld = Ok b /\
      (b = true -> forall k u, ii <= k < ii + n -> nth_error f (off + k * ld) = Some u -> uispoly u = true).
  Proof.
    revert ii; induction n as [|n IH]; intros ii H; cbn [scan_poly]; [eexists; split; [reflexivity|intros; lia]|].
    destruct (H ii) as [u Hu]; [lia|]. rewrite (aget_ok _ _ _ Hu). cbn [obind].
    destruct (uispoly u) eqn:Pu; [|eexists; split; [reflexivity|discriminate]].
    destruct (IH (S ii)) as (b & E & Hb). { intros k Hk; apply H; lia. }
    exists b. split; [exact E|]. intros B k v Hk Ev. destruct (Nat.eq_dec k ii) as [->|]; [congruence|].
    apply (Hb B k v); auto; lia.
  Qed.

  (** The collecting loop used in the all-polynomial branches. *)
  Lemma collect_ok {A B} n (a : list A) (b : list B) (ia ib : nat -> nat) (fa : nat -> A) (fb : nat -> B) :
    (forall i, i < n -> nth_error a (ia i) = Some (fa i)) ->
    (forall i, i < n -> nth_error b (ib i) = Some (fb i)) ->
    for_ n (fun ii l => do x <- aget a (ia ii); do y <- aget b (ib ii); Ok (l ++ [(x, y)])) []
    = Ok (tab n (fun i => (fa i, fb i))).
  Proof.
    intros Ha Hb.
    apply (for_det (fun i => tab i (fun i => (fa i, fb i)))).
    intros i Hi. rewrite (aget_ok _ _ _ (Ha i Hi)). cbn [obind].
    rewrite (aget_ok _ _ _ (Hb i Hi)). cbn [obind]. now rewrite tab_S.
  Qed.

  (** The alternating loop shared by lin_comb and lin_comb2. *)
  Lemma alt_loop n (cf : nat -> R) (ff : nat -> U) (body : nat -> option U * option U -> outcome (option U * option U)) t0 :
    2 <= n ->
    (forall ii t, 2 <= ii < n ->
      body ii t = if ii mod 2 =? 0
                  then Ok (None, Some (uaxpby (cf ii) (ff ii) r1 (fst t)))
                  else Ok (Some (uaxpby (cf ii) (ff ii) r1 (snd t)), None)) ->
    (forall phi, linfun phi -> phi t0 = cf 0 *! phi (ff 0) +! cf 1 *! phi (ff 1)) ->
    exists t1 t2 u, for_from 2 (n - 2) body (Some t0, None) = Ok (t1, t2) /\
      pick t1 t2 = Ok u /\
      forall phi, linfun phi -> phi u = sum n (fun i => cf i *! phi (ff i)).
  Proof.
    intros Hn Hb Ht0.
    destruct (for_from_inv (fun ii (t : option U * option U) =>
       exists u, t = (if ii mod 2 =? 0 then (Some u, None) else (None, Some u)) /\
         forall phi, linfun phi -> phi u = sum ii (fun i => cf i *! phi (ff i))) body 2 (n - 2) (Some t0, None))
      as [[t1 t2] [E [u [Et Hu]]]].
    - exists t0. split; [reflexivity|]. intros phi Hphi. rewrite Ht0 by auto. simpl. ring.
    - intros ii t Hii [u [-> Hu]]. rewrite Hb by lia.
      destruct (ii mod 2 =? 0) eqn:Ee.
      + eexists; split; [reflexivity|].
        exists (uaxpby (cf ii) (ff ii) r1 (Some u)). rewrite even_S, Ee. split; [reflexivity|].
        intros phi Hphi. destruct Hphi as (H1 & H2 & H3). rewrite H2.
        rewrite Hu by (repeat split; auto). simpl. ring.
      + eexists; split; [reflexivity|].
        exists (uaxpby (cf ii) (ff ii) r1 (Some u)). rewrite even_S, Ee. split; [reflexivity|].
        intros phi Hphi. destruct Hphi as (H1 & H2 & H3). rewrite H2.
        rewrite Hu by (repeat split; auto). simpl. ring.
    - replace (2 + (n - 2)) with n in Hu, Et by lia.
      exists t1, t2, u. split; [exact E|]. split; [|exact Hu].
      destruct (n mod 2 =? 0); inversion Et; reflexivity.
  Qed.

  Lemma lin_comb2_ok n ldgf (gfa : list U) og ldc (c : list R) oc (cf : nat -> R) (ff : nat -> U) :
    0 < n ->
    (forall i, i < n -> nth_error c (oc + i * ldc) = Some (cf i)) ->
    (forall i, i < n -> nth_error gfa (og + i * ldgf) = Some (ff i)) ->
    exists u, lin_comb2 n ldgf gfa og ldc c oc = Ok u /\
      forall phi, linfun phi -> phi u = sum n (fun i => cf i *! phi (ff i)).
  Proof.
    intros Hn Hc Hf. unfold lin_comb2.
    destruct (Nat.eqb_spec n 0); [lia|].
    assert (C0 : aget c oc = Ok (cf 0)).
    { apply aget_ok. rewrite <- (Hc 0) by auto. f_equal; lia. }
    assert (F0 : aget gfa og = Ok (ff 0)).
    { apply aget_ok. rewrite <- (Hf 0) by auto. f_equal; lia. }
    destruct (Nat.eqb_spec n 1) as [->|Hn1].
    - rewrite C0, F0. cbn [obind]. eexists; split; [reflexivity|].
      intros phi (H1 & _ & _). rewrite H1. simpl. ring.
    - destruct (scan_poly_ok n 0 gfa og ldgf) as (b & Eb & Hb).
      { intros k Hk. exists (ff k). apply Hf; lia. }
      rewrite Eb. cbn [obind]. destruct b.
      + rewrite (for_ext _ (fun ii l => do x <- aget c (oc + ii * ldc); do y <- aget gfa (og + ii * ldgf); Ok (l ++ [(x, y)]))).
        2:{ intros k l Hk. rewrite (aget_ok _ _ _ (Hc k Hk)), (aget_ok _ _ _ (Hf k Hk)). cbn [obind].
            unfold as_poly. rewrite (Hb eq_refl k (ff k)) by (auto; lia). reflexivity. }
        rewrite (collect_ok n c gfa (fun ii => oc + ii * ldc) (fun ii => og + ii * ldgf) cf ff) by auto.
        cbn [obind]. eexists; split; [reflexivity|].
        intros phi (_ & _ & H3). rewrite H3, map_tab, lsum_tab. reflexivity.
      + rewrite C0, F0. cbn [obind].
        assert (C1 : aget c (oc + ldc) = Ok (cf 1)).
        { apply aget_ok. rewrite <- (Hc 1) by lia. f_equal; lia. }
        assert (F1 : aget gfa (og + ldgf) = Ok (ff 1)).
        { apply aget_ok. rewrite <- (Hf 1) by lia. f_equal; lia. }
        rewrite C1, F1. cbn [obind].
        match goal with |- context [for_from 2 (n - 2) ?bd (Some ?t, None)] =>
          destruct (alt_loop n cf ff bd t) as (t1 & t2 & u & E & P & Hu) end.
        * lia.
        * intros ii t Hii. cbv beta.
          rewrite (aget_ok _ _ _ (Hc ii ltac:(lia))), (aget_ok _ _ _ (Hf ii ltac:(lia))). reflexivity.
        * intros phi (_ & H2 & _). now rewrite H2.
        * rewrite E. cbn [obind]. exists u. auto.
  Qed.

  Lemma lin_comb_ok n (gfa : list U) (c : list R) (cf : nat -> R) (ff : nat -> U) :
    0 < n ->
    (forall i, i < n -> nth_error c i = Some (cf i)) ->
    (forall i, i < n -> nth_error gfa i = Some (ff i)) ->
    exists u, lin_comb n gfa c = Ok u /\
      forall phi, linfun phi -> phi u = sum n (fun i => cf i *! phi (ff i)).
  Proof.
    intros Hn Hc Hf. unfold lin_comb.
    destruct (Nat.eqb_spec n 1) as [->|Hn1].
    - rewrite (aget_ok _ _ _ (Hc 0 ltac:(lia))), (aget_ok _ _ _ (Hf 0 ltac:(lia))). cbn [obind].
      eexists; split; [reflexivity|].
      intros phi (H1 & _ & _). rewrite H1. simpl. ring.
    - rewrite (aget_ok _ _ _ (Hc 0 ltac:(lia))), (aget_ok _ _ _ (Hf 0 ltac:(lia))). cbn [obind].
      rewrite (aget_ok _ _ _ (Hc 1 ltac:(lia))), (aget_ok _ _ _ (Hf 1 ltac:(lia))). cbn [obind].
      match goal with |- context [for_from 2 (n - 2) ?bd (Some ?t, None)] =>
        destruct (alt_loop n cf ff bd t) as (t1 & t2 & u & E & P & Hu) end.
      + lia.
      + intros ii t Hii. cbv beta.
        rewrite (aget_ok _ _ _ (Hc ii ltac:(lia))), (aget_ok _ _ _ (Hf ii ltac:(lia))). reflexivity.
      + intros phi (_ & H2 & _). now rewrite H2.
      + rewrite E. cbn [obind]. exists u. auto.
  Qed.

  (** Value of a linear combination. *)
  Lemma lin_comb2_ev n ldgf (gfa : list U) og ldc (c : list R) oc (cf : nat -> R) (ff : nat -> U) :
    law_ev_lin U -> 0 < n ->
    (forall i, i < n -> nth_error c (oc + i * ldc) = Some (cf i)) ->
    (forall i, i < n -> nth_error gfa (og + i * ldgf) = Some (ff i)) ->
    exists u, lin_comb2 n ldgf gfa og ldc c oc = Ok u /\
      forall x, uev u x = sum n (fun i => cf i *! uev (ff i) x).
  Proof.
    intros HL Hn Hc Hf. destruct (lin_comb2_ok n ldgf gfa og ldc c oc cf ff Hn Hc Hf) as [u [E Hu]].
    exists u; split; auto. intros x. apply (Hu (fun f => uev f x)). apply HL.
  Qed.

  Lemma scan_poly2_ok n ii (a : list U) oa lda (b : list U) ob ldb :
    (forall k, ii <= k < ii + n -> exists u, nth_error a (oa + k * lda) = Some u) ->
    (forall k, ii <= k < ii + n -> exists u, nth_error b (ob + k * ldb) = Some u) ->
    exists r, scan_poly2 n ii a oa lda b ob ldb = Ok r /\
      (r = true -> forall k u v, ii <= k < ii + n -> nth_error a (oa + k * lda) = Some u ->
         nth_error b (ob + k * ldb) = Some v -> uispoly u = true /\ uispoly v = true).
  Proof.
    revert ii; induction n as [|n IH]; intros ii H1 H2; cbn [scan_poly2]; [eexists; split; [reflexivity|intros; lia]|].
    destruct (H1 ii) as [u Hu]; [lia|]. rewrite (aget_ok _ _ _ Hu). cbn [obind].
    destruct (uispoly u) eqn:Pu; [|eexists; split; [reflexivity|discriminate]].
    destruct (H2 ii) as [v Hv]; [lia|]. rewrite (aget_ok _ _ _ Hv). cbn [obind].
    destruct (uispoly v) eqn:Pv; [|eexists; split; [reflexivity|discriminate]].
    destruct (IH (S ii)) as (r & E & Hr). { intros k Hk; apply H1; lia. } { intros k Hk; apply H2; lia. }
    exists r. split; [exact E|]. intros B k u' v' Hk Eu Ev. destruct (Nat.eq_dec k ii) as [->|]; [split; congruence|].
    apply (Hr B k u' v'); auto; lia.
  Qed.

  (** Sum of products: value. *)
  Lemma sum_prod_ok n lda (a : list U) oa ldb (b : list U) ob (fa fb : nat -> U) :
    law_ev_lin U -> law_ev_prod U -> law_ev_sumprod U -> 0 < n ->
    (forall i, i < n -> nth_error a (oa + i * lda) = Some (fa i)) ->
    (forall i, i < n -> nth_error b (ob + i * ldb) = Some (fb i)) ->
    exists u, sum_prod n lda a oa ldb b ob = Ok u /\
      forall x, uev u x = sum n (fun i => uev (fa i) x *! uev (fb i) x).
  Proof.
    intros HL HP HSP Hn Ha Hb. unfold sum_prod.
    destruct (Nat.eqb_spec n 0); [lia|].
    destruct (scan_poly2_ok n 0 a oa lda b ob ldb) as (r & Er & Hr).
    { intros k Hk. exists (fa k). apply Ha; lia. }
    { intros k Hk. exists (fb k). apply Hb; lia. }
    rewrite Er. cbn [obind]. destruct r.
    - rewrite (for_ext _ (fun ii l => do x <- aget a (oa + ii * lda); do y <- aget b (ob + ii * ldb); Ok (l ++ [(x, y)]))).
      2:{ intros k l Hk. rewrite (aget_ok _ _ _ (Ha k Hk)), (aget_ok _ _ _ (Hb k Hk)). cbn [obind].
          destruct (Hr eq_refl k (fa k) (fb k)) as [P1 P2]; auto; [lia|]. unfold as_poly. rewrite P1, P2. reflexivity. }
      rewrite (collect_ok n a b (fun ii => oa + ii * lda) (fun ii => ob + ii * ldb) fa fb) by auto.
      cbn [obind]. eexists; split; [reflexivity|].
      intros x. rewrite HSP, map_tab, lsum_tab. reflexivity.
    - assert (A0 : aget a oa = Ok (fa 0)).
      { apply aget_ok. rewrite <- (Ha 0) by auto. f_equal; lia. }
      assert (B0 : aget b ob = Ok (fb 0)).
      { apply aget_ok. rewrite <- (Hb 0) by auto. f_equal; lia. }
      rewrite A0, B0. cbn [obind].
      match goal with |- context [for_from 1 (n - 1) ?bd ?s] =>
        destruct (for_from_inv (fun ii (t : option U * option U) =>
          exists u, (t = (Some u, None) \/ t = (None, Some u)) /\
            forall x, uev u x = sum ii (fun i => uev (fa i) x *! uev (fb i) x)) bd 1 (n - 1) s)
          as [[t1 t2] [E [u [Et Hu]]]] end.
      + exists (uprod (fa 0) (fb 0)). split; [auto|]. intros x. rewrite HP. simpl. ring.
      + intros ii t Hii [u [Ht Hu]].
        rewrite (aget_ok _ _ _ (Ha ii ltac:(lia))), (aget_ok _ _ _ (Hb ii ltac:(lia))). cbn [obind].
        assert (Hax : forall x, uev (uaxpby r1 u r1 (Some (uprod (fa ii) (fb ii)))) x
           = sum (S ii) (fun i => uev (fa i) x *! uev (fb i) x)).
        { intros x. destruct (HL x) as (_ & H2 & _). rewrite H2, HP, Hu. simpl. ring. }
        destruct Ht as [-> | ->]; eexists; (split; [reflexivity|]); eexists; split; eauto.
      + rewrite E. cbn [obind]. replace (1 + (n - 1)) with n in Hu by lia.
        exists u. split; auto. destruct Et as [Et|Et]; inversion Et; reflexivity.
  Qed.

  Lemma inner_sum_ok n lda (a : list U) oa ldb (b : list U) ob (fa fb : nat -> U) :
    (forall i, i < n -> nth_error a (oa + i * lda) = Some (fa i)) ->
    (forall i, i < n -> nth_error b (ob + i * ldb) = Some (fb i)) ->
    inner_sum n lda a oa ldb b ob = Ok (sum n (fun i => uinner (fa i) (fb i))).
  Proof.
    intros Ha Hb. unfold inner_sum.
    apply (for_det (fun i => sum i (fun i => uinner (fa i) (fb i)))).
    intros i Hi. rewrite (aget_ok _ _ _ (Ha i Hi)), (aget_ok _ _ _ (Hb i Hi)). reflexivity.
  Qed.
End LinComb.
