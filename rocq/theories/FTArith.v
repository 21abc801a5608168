(** Sum, product, scaling and copying of function trains. *)
From Verif Require Export FTEval LinComb.

Section Wf.
  Context {U : Type}.

  Lemma chain_nth (cs : list (qma U)) r r' k :
    chain r cs r' -> k < length cs ->
    exists c, nth_error cs k = Some c /\ qwf c /\ 0 < nr c /\ 0 < nc c /\
      nth_error (r :: map nc cs) k = Some (nr c) /\
      nth_error (r :: map nc cs) (S k) = Some (nc c).
  Proof.
    revert r k; induction cs as [|c cs IH]; intros r k H Hk; simpl in Hk; [lia|].
    destruct H as (H1 & H2 & H3 & H4 & H5). destruct k as [|k].
    - exists c. simpl. subst r. repeat split; auto.
    - destruct (IH _ k H5) as (c' & E & W & P1 & P2 & R1 & R2); [lia|].
      exists c'. repeat split; auto.
  Qed.

  Lemma chain_last (cs : list (qma U)) r r' :
    chain r cs r' -> nth_error (r :: map nc cs) (length cs) = Some r'.
  Proof.
    revert r; induction cs as [|c cs IH]; intros r H; simpl in *.
    - now subst.
    - destruct H as (H1 & H2 & H3 & H4 & H5). apply IH in H5. exact H5.
  Qed.

  Lemma wf_core (f : ftrain U) k :
    ft_wf f -> k < ft_dim f ->
    exists c, nth_error (ft_cores f) k = Some c /\ qwf c /\ 0 < nr c /\ 0 < nc c /\
      nth_error (ft_ranks f) k = Some (nr c) /\ nth_error (ft_ranks f) (S k) = Some (nc c).
  Proof.
    intros (Hd & Hp & Hr & Hc) Hk. rewrite Hr. apply (chain_nth _ _ 1); auto. lia.
  Qed.

  Lemma wf_rank0 (f : ftrain U) : ft_wf f -> nth_error (ft_ranks f) 0 = Some 1.
  Proof. intros (Hd & Hp & Hr & Hc). now rewrite Hr. Qed.

  Lemma wf_rankd (f : ftrain U) : ft_wf f -> nth_error (ft_ranks f) (ft_dim f) = Some 1.
  Proof. intros (Hd & Hp & Hr & Hc). rewrite Hr, Hd. eapply chain_last; eauto. Qed.

  Lemma wf_lens (f : ftrain U) :
    ft_wf f -> length (ft_cores f) = ft_dim f /\ length (ft_ranks f) = ft_dim f + 1.
  Proof.
    intros (Hd & Hp & Hr & Hc). rewrite Hr. simpl. rewrite map_length. lia.
  Qed.

  Lemma chain_intro (cs : list (qma U)) r r' (rk : nat -> nat) :
    rk 0 = r -> rk (length cs) = r' ->
    (forall k c, nth_error cs k = Some c ->
       qwf c /\ 0 < nr c /\ 0 < nc c /\ nr c = rk k /\ nc c = rk (S k)) ->
    chain r cs r'.
  Proof.
    revert r rk; induction cs as [|c cs IH]; intros r rk H0 H1 H; simpl in *.
    - congruence.
    - destruct (H 0 c eq_refl) as (W & P1 & P2 & E1 & E2).
      repeat split; auto; try congruence.
      apply (IH (nc c) (fun k => rk (S k))); auto.
  Qed.

  Lemma ft_wf_intro (d : nat) (rk : list nat) (cs : list (qma U)) (r : nat -> nat) :
    0 < d -> length rk = d + 1 -> length cs = d ->
    (forall k, k <= d -> nth_error rk k = Some (r k)) ->
    r 0 = 1 -> r d = 1 ->
    (forall k c, nth_error cs k = Some c ->
       qwf c /\ 0 < nr c /\ 0 < nc c /\ nr c = r k /\ nc c = r (S k)) ->
    ft_wf (mkft d rk cs).
  Proof.
    intros Hd Lr Lc Hr R0 Rd H. unfold ft_wf; simpl. repeat split; auto.
    - apply nth_error_ext.
      + simpl. rewrite map_length. lia.
      + intros i Hi. rewrite Hr by lia. destruct i as [|i]; [simpl; now rewrite R0|].
        simpl. rewrite nth_error_map.
        destruct (nth_error cs i) as [c|] eqn:E.
        * simpl. destruct (H i c E) as (_ & _ & _ & _ & E2). now rewrite E2.
        * apply nth_error_None in E. lia.
    - apply (chain_intro _ _ _ r); auto. now rewrite Lc.
  Qed.
End Wf.

Section ValStep.
  Context {R : CRing} {U : Type}.
  Open Scope cr_scope.

  (** Value of the suffix starting at core [k]. *)
  Definition sval (hs : list (U -> R)) (cs : list (qma U)) (k i : nat) : R :=
    val (skipn k hs) (skipn k cs) i.

  Lemma sval_step hs cs k i h c :
    nth_error hs k = Some h -> nth_error cs k = Some c ->
    sval hs cs k i = sum (nc c) (fun j => ent h c i j *! sval hs cs (S k) j).
  Proof.
    intros Hh Hc. unfold sval. rewrite (skipn_nth hs k h Hh), (skipn_nth cs k c Hc). reflexivity.
  Qed.

  Lemma sval_end hs cs k i : length cs <= k -> sval hs cs k i = r1.
  Proof. intros H. unfold sval. rewrite (skipn_all2 cs) by auto. apply val_nil. Qed.

  Lemma sval_0 hs cs i : sval hs cs 0 i = val hs cs i.
  Proof. reflexivity. Qed.
End ValStep.

Section Arith.
  Context {R : CRing} {U : uops R}.
  Open Scope cr_scope.
  Add Ring Rr5 : (rth R).

  (** * Sum *)
  Definition is_sum (a b c : ftrain U) : Prop :=
    forall (hs : list (U -> R)), length hs = ft_dim a ->
      (forall h, In h hs -> linfun h) ->
      val hs (ft_cores c) 0 = val hs (ft_cores a) 0 +! val hs (ft_cores b) 0.

  Lemma ft_sum_ok (a b : ftrain U) :
    ft_wf a -> ft_wf b -> ft_dim a = ft_dim b -> 2 <= ft_dim a ->
    exists c, ft_sum a b = Ok c /\ ft_wf c /\ ft_dim c = ft_dim a /\ is_sum a b c.
  Proof.
    intros Wa Wb Hdd H2. unfold ft_sum.
    set (d := ft_dim a) in *.
    assert (CA : forall k, k < d -> exists c, nth_error (ft_cores a) k = Some c /\ qwf c /\ 0 < nr c /\ 0 < nc c /\
      nth_error (ft_ranks a) k = Some (nr c) /\ nth_error (ft_ranks a) (S k) = Some (nc c))
      by (intros k Hk; apply wf_core; auto).
    assert (CB : forall k, k < d -> exists c, nth_error (ft_cores b) k = Some c /\ qwf c /\ 0 < nr c /\ 0 < nc c /\
      nth_error (ft_ranks b) k = Some (nr c) /\ nth_error (ft_ranks b) (S k) = Some (nc c))
      by (intros k Hk; apply wf_core; auto; rewrite <- Hdd; auto).
    destruct (CA 0) as (a0 & Ea0 & Wa0 & Pa0 & Qa0 & Ra0 & Sa0); [lia|].
    destruct (CB 0) as (b0 & Eb0 & Wb0 & Pb0 & Qb0 & Rb0 & Sb0); [lia|].
    assert (Na0 : nr a0 = 1) by (rewrite (wf_rank0 a Wa) in Ra0; congruence).
    assert (Nb0 : nr b0 = 1) by (rewrite (wf_rank0 b Wb) in Rb0; congruence).
    destruct (CA (d - 1)) as (al & Eal & Wal & Pal & Qal & Ral & Sal); [lia|].
    destruct (CB (d - 1)) as (bl & Ebl & Wbl & Pbl & Qbl & Rbl & Sbl); [lia|].
    replace (S (d - 1)) with d in Sal, Sbl by lia.
    assert (Ncal : nc al = 1) by (pose proof (wf_rankd a Wa) as HH; fold d in HH; congruence).
    assert (Ncbl : nc bl = 1) by (pose proof (wf_rankd b Wb) as HH; rewrite <- Hdd in HH; congruence).
    rewrite (aget_ok _ _ _ Ea0), (aget_ok _ _ _ Eb0). cbn [obind].
    rewrite qmarray_stackh_ok by (auto; congruence). cbn [obind].
    set (c0 := mkq (nr a0) (nc a0 + nc b0) (fs a0 ++ fs b0)).
    rewrite aset_ok by (rewrite repeat_length; lia). cbn [obind].
    rewrite (aget_ok _ _ _ Ra0). cbn [obind].
    rewrite aset_ok by (rewrite repeat_length; lia). cbn [obind].
    (* the rank function of the result *)
    set (rr := fun k => match nth_error (ft_ranks a) k, nth_error (ft_ranks b) k with
                        | Some x, Some y => if (k =? 0) || (k =? d) then 1 else x + y
                        | _, _ => 0 end).
    set (BD := fun k (c : qma U) => exists ak bk z, nth_error (ft_cores a) k = Some ak /\
         nth_error (ft_cores b) k = Some bk /\ qwf c /\
         nr c = nr ak + nr bk /\ nc c = nc ak + nc bk /\
         forall i j, i < nr ak + nr bk -> j < nc ak + nc bk ->
           entry c i j = if j <? nc ak then (if i <? nr ak then entry ak i j else Some (uaxpby r0 z r0 None))
        else (if i <? nr ak then Some (uaxpby r0 z r0 None) else entry bk (i - nr ak) (j - nc ak))).
    match goal with |- context [for_from 1 (d - 1 - 1) ?bd ?s] =>
      destruct (for_from_inv (fun ii (t : list nat * list (option (qma U))) =>
         length (fst t) = d + 1 /\ length (snd t) = d /\
         nth_error (fst t) 0 = Some 1 /\ nth_error (snd t) 0 = Some (Some c0) /\
         forall k, 1 <= k < ii -> nth_error (fst t) k = Some (rr k) /\
            exists c, nth_error (snd t) k = Some (Some c) /\ BD k c) bd 1 (d - 1 - 1) s)
        as [[rk cs] [E (Lr & Lc & R0 & C0 & HI)]] end.
    - cbn [fst snd]. rewrite !upd_length, !repeat_length. repeat split; auto; try lia.
      + rewrite nth_error_upd_same by (rewrite repeat_length; lia). now rewrite Na0.
      + apply nth_error_upd_same. rewrite repeat_length; lia.
    - intros ii [rk cs] Hii (Lr & Lc & R0 & C0 & HI). cbn [fst snd] in *.
      destruct (CA ii) as (ak & Eak & Wak & Pak & Qak & Rak & Sak); [lia|].
      destruct (CB ii) as (bk & Ebk & Wbk & Pbk & Qbk & Rbk & Sbk); [lia|].
      rewrite (aget_ok _ _ _ Eak), (aget_ok _ _ _ Ebk). cbn [obind].
      destruct (qmarray_blockdiag_ok ak bk Wak Wbk Pak Qak) as (c & z & Ec & Nrc & Ncc & Wc & Hz & Hent).
      rewrite Ec. cbn [obind]. rewrite aset_ok by lia. cbn [obind].
      rewrite (aget_ok _ _ _ Rak), (aget_ok _ _ _ Rbk). cbn [obind].
      rewrite aset_ok by lia. cbn [obind]. eexists; split; [reflexivity|].
      cbn [fst snd]. rewrite !upd_length. repeat split; auto.
      + rewrite nth_error_upd_other by lia. auto.
      + rewrite nth_error_upd_other by lia. auto.
      + destruct (Nat.eq_dec k ii) as [->|Hne].
        * rewrite nth_error_upd_same by lia. unfold rr. rewrite Rak, Rbk.
          destruct (Nat.eqb_spec ii 0); [lia|]. destruct (Nat.eqb_spec ii d); [lia|]. reflexivity.
        * rewrite nth_error_upd_other by lia. apply HI; lia.
      + destruct (Nat.eq_dec k ii) as [->|Hne].
        * rewrite nth_error_upd_same by lia. exists c. split; auto.
          exists ak, bk, z. repeat split; auto.
        * rewrite nth_error_upd_other by lia. apply HI; lia.
    - rewrite E. cbn [obind fst snd] in *.
      replace (1 + (d - 1 - 1)) with (d - 1) in HI by lia.
      rewrite (aget_ok _ _ _ Ral). cbn [obind]. rewrite <- Hdd.
      rewrite (aget_ok _ _ _ Rbl). cbn [obind].
      rewrite aset_ok by lia. cbn [obind].
      rewrite (aget_ok _ _ _ Eal), (aget_ok _ _ _ Ebl). cbn [obind].
      destruct (qmarray_stackv_ok al bl Wal Wbl) as (cl & Ecl & Nrl & Nrc & Wcl & Hentl); [congruence|].
      rewrite Ecl. cbn [obind]. rewrite aset_ok by lia. cbn [obind].
      rewrite (aget_ok _ _ _ Sal). cbn [obind].
      rewrite aset_ok by (rewrite upd_length; lia). cbn [obind].
      (* freeze *)
      set (cs2 := upd cs (d - 1) (Some cl)).
      set (rk2 := upd (upd rk (d - 1) (nr al + nr bl)) d (nc al)).
      assert (Hall : forall k, k < d -> exists c, nth_error cs2 k = Some (Some c)).
      { intros k Hk. unfold cs2. destruct (Nat.eq_dec k (d - 1)) as [->|Hne].
        - rewrite nth_error_upd_same by lia. eauto.
        - rewrite nth_error_upd_other by lia. destruct (Nat.eq_dec k 0) as [->|]; [eauto|].
          destruct (HI k) as [_ [c [Hc _]]]; [lia|]. eauto. }
      assert (Lcs2 : length cs2 = d) by (unfold cs2; now rewrite upd_length).
      destruct (freeze_target d (fun k => nth k cs2 None)) as [fr [Efr [Lfr Hfr]]].
      { intros k Hk. destruct (Hall k Hk) as [c Hc]. exists c. apply nth_error_nth with (d := None) in Hc. auto. }
      assert (Ecs2 : cs2 = tab d (fun k => nth k cs2 None)).
      { rewrite (list_eq_tab_nth None cs2) at 1. now rewrite Lcs2. }
      rewrite <- Ecs2 in Efr. rewrite Efr. cbn [obind].
      assert (Hfr' : forall k c, nth_error cs2 k = Some (Some c) -> nth_error fr k = Some c).
      { intros k c Hc. rewrite Hfr.
        - now apply nth_error_nth.
        - rewrite <- Lcs2. apply nth_error_Some. congruence. }
      assert (F0 : nth_error fr 0 = Some c0).
      { apply Hfr'. unfold cs2. rewrite nth_error_upd_other by lia. auto. }
      assert (Fl : nth_error fr (d - 1) = Some cl).
      { apply Hfr'. unfold cs2. rewrite nth_error_upd_same by lia. auto. }
      assert (Fm : forall k, 1 <= k < d - 1 -> exists c, nth_error fr k = Some c /\ BD k c).
      { intros k Hk. destruct (HI k Hk) as [_ [c [Hc HB]]]. exists c; split; auto.
        apply Hfr'. unfold cs2. rewrite nth_error_upd_other by lia. auto. }
      eexists; split; [reflexivity|].
      assert (Hrr : forall k x y, nth_error (ft_ranks a) k = Some x -> nth_error (ft_ranks b) k = Some y ->
          0 < k < d -> rr k = x + y).
      { intros k x y Hx Hy Hk. unfold rr. rewrite Hx, Hy.
        destruct (Nat.eqb_spec k 0); [lia|]. destruct (Nat.eqb_spec k d); [lia|]. reflexivity. }
      assert (Hr0 : rr 0 = 1). { unfold rr. now rewrite Ra0, Rb0. }
      assert (Hrd : rr d = 1).
      { unfold rr. rewrite Sal, Sbl, Nat.eqb_refl, orb_true_r. auto. }
      split; [|split; [reflexivity|]].
      + apply (ft_wf_intro d rk2 fr rr); auto; try lia.
        * unfold rk2. rewrite !upd_length. auto.
        * intros k Hk. unfold rk2. destruct (Nat.eq_dec k d) as [->|Hne].
          -- rewrite nth_error_upd_same by (rewrite upd_length; lia). rewrite Hrd, Ncal. auto.
          -- rewrite nth_error_upd_other by lia. destruct (Nat.eq_dec k (d - 1)) as [->|Hne2].
             ++ rewrite nth_error_upd_same by lia. f_equal. symmetry. apply Hrr; auto; lia.
             ++ rewrite nth_error_upd_other by lia. destruct (Nat.eq_dec k 0) as [->|].
                ** now rewrite Hr0.
                ** apply HI; lia.
        * intros k c Hc.
          assert (Hk : k < d). { rewrite <- Lfr. apply nth_error_Some. congruence. }
          destruct (Nat.eq_dec k 0) as [->|Hk0]; [|destruct (Nat.eq_dec k (d - 1)) as [->|Hkl]].
          -- assert (c = c0) as -> by congruence. simpl. rewrite Hr0.
             rewrite (Hrr 1 (nc a0) (nc b0)) by (auto; lia).
             repeat split; auto; try lia. unfold qwf in *. simpl. rewrite app_length. rewrite Wa0, Wb0. nia.
          -- assert (c = cl) as -> by congruence.
             replace (S (d - 1)) with d by lia. rewrite Hrd.
             rewrite (Hrr (d - 1) (nr al) (nr bl)) by (auto; lia).
             repeat split; auto; lia.
          -- destruct (Fm k) as (c' & Ec' & (ak & bk & z & Eak & Ebk & Wc' & N1 & N2 & _)); [lia|].
             assert (c = c') as -> by congruence.
             destruct (CA k Hk) as (ak' & Eak' & Wak & Pak & Qak & Rak & Sak).
             destruct (CB k Hk) as (bk' & Ebk' & Wbk & Pbk & Qbk & Rbk & Sbk).
             assert (ak' = ak) as -> by congruence. assert (bk' = bk) as -> by congruence.
             rewrite (Hrr k (nr ak) (nr bk)) by (auto; lia).
             rewrite (Hrr (S k) (nc ak) (nc bk)) by (auto; lia).
             repeat split; auto; lia.
      + intros hs Lhs Hlin. simpl.
        assert (HH : forall k, k < d -> exists h, nth_error hs k = Some h /\ linfun h).
        { intros k Hk. destruct (nth_error hs k) as [h|] eqn:Eh.
          - exists h; split; auto. apply Hlin. eapply nth_error_In; eauto.
          - apply nth_error_None in Eh. lia. }
        destruct (wf_lens a Wa) as [Lca _]. destruct (wf_lens b Wb) as [Lcb _].
        fold d in Lca. rewrite <- Hdd in Lcb.
        assert (Suf : forall n k, k + S n = d -> 1 <= k ->
          forall ak bk, nth_error (ft_cores a) k = Some ak -> nth_error (ft_cores b) k = Some bk ->
          (forall i, i < nr ak -> sval hs fr k i = sval hs (ft_cores a) k i) /\
          (forall i, i < nr bk -> sval hs fr k (nr ak + i) = sval hs (ft_cores b) k i)).
        { induction n as [|n IH]; intros k Hk H1k ak bk Eak Ebk.
          - assert (k = d - 1) as -> by lia.
            assert (ak = al) as -> by congruence. assert (bk = bl) as -> by congruence.
            destruct (HH (d - 1)) as (h & Eh & Lh); [lia|].
            split; intros i Hi.
            + rewrite (sval_step _ _ _ _ _ _ Eh Fl), (sval_step _ _ _ _ _ _ Eh Eal).
              rewrite Nrc. apply sum_ext. intros j Hj.
              rewrite !sval_end by lia. unfold ent. rewrite Hentl by lia.
              destruct (Nat.ltb_spec i (nr al)); [auto|lia].
            + rewrite (sval_step _ _ _ _ _ _ Eh Fl), (sval_step _ _ _ _ _ _ Eh Ebl).
              rewrite Nrc, Ncal, Ncbl. apply sum_ext. intros j Hj.
              rewrite !sval_end by lia. unfold ent. rewrite Hentl by lia.
              destruct (Nat.ltb_spec (nr al + i) (nr al)); [lia|].
              replace (nr al + i - nr al) with i by lia. auto.
          - destruct (HH k) as (h & Eh & Lh); [lia|].
            destruct (Fm k) as (c & Ec & (ak' & bk' & z & Eak' & Ebk' & Wc' & N1 & N2 & Hent)); [lia|].
            assert (ak' = ak) as -> by congruence. assert (bk' = bk) as -> by congruence.
            destruct (CA (S k)) as (an & Ean & Wan & Pan & Qan & Ran & San); [lia|].
            destruct (CB (S k)) as (bn & Ebn & Wbn & Pbn & Qbn & Rbn & Sbn); [lia|].
            destruct (CA k) as (ak' & Eak'' & Wak & Pak & Qak & Rak & Sak); [lia|].
            destruct (CB k) as (bk' & Ebk'' & Wbk & Pbk & Qbk & Rbk & Sbk); [lia|].
            assert (ak' = ak) as -> by congruence. assert (bk' = bk) as -> by congruence.
            assert (Enc : nc ak = nr an) by congruence.
            assert (Emc : nc bk = nr bn) by congruence.
            destruct (IH (S k) ltac:(lia) ltac:(lia) an bn Ean Ebn) as [IHa IHb].
            assert (Hz : h (uaxpby r0 z r0 None) = r0).
            { destruct Lh as (L1 & _). rewrite L1. ring. }
            split; intros i Hi.
            + rewrite (sval_step _ _ _ _ _ _ Eh Ec), (sval_step _ _ _ _ _ _ Eh Eak), N2.
              rewrite sum_app.
              rewrite (sum_zero_ext R (nc bk)).
              * transitivity (sum (nc ak) (fun j => ent h ak i j *! sval hs (ft_cores a) (S k) j) +! r0); [|ring].
                f_equal. apply sum_ext. intros j Hj. rewrite IHa by lia. f_equal.
                unfold ent. rewrite Hent by lia.
                destruct (Nat.ltb_spec j (nc ak)); [|lia]. destruct (Nat.ltb_spec i (nr ak)); [auto|lia].
              * intros j Hj. unfold ent. rewrite Hent by lia.
                destruct (Nat.ltb_spec (nc ak + j) (nc ak)); [lia|]. destruct (Nat.ltb_spec i (nr ak)); [|lia].
                rewrite Hz. ring.
            + rewrite (sval_step _ _ _ _ _ _ Eh Ec), (sval_step _ _ _ _ _ _ Eh Ebk), N2.
              rewrite sum_app.
              rewrite (sum_zero_ext R (nc ak)).
              * transitivity (r0 +! sum (nc bk) (fun j => ent h bk i j *! sval hs (ft_cores b) (S k) j)); [|ring].
                f_equal. apply sum_ext. intros j Hj. rewrite Enc, IHb by lia. f_equal.
                unfold ent. rewrite Hent by lia.
                destruct (Nat.ltb_spec (nr an + j) (nc ak)); [lia|].
                destruct (Nat.ltb_spec (nr ak + i) (nr ak)); [lia|].
                replace (nr ak + i - nr ak) with i by lia.
                replace (nr an + j - nc ak) with j by lia. auto.
              * intros j Hj. unfold ent. rewrite Hent by lia.
                destruct (Nat.ltb_spec j (nc ak)); [|lia]. destruct (Nat.ltb_spec (nr ak + i) (nr ak)); [lia|].
                rewrite Hz. ring. }
        destruct (HH 0) as (h & Eh & Lh); [lia|].
        destruct (CA 1) as (an & Ean & Wan & Pan & Qan & Ran & San); [lia|].
        destruct (CB 1) as (bn & Ebn & Wbn & Pbn & Qbn & Rbn & Sbn); [lia|].
        assert (Enc : nc a0 = nr an) by congruence.
        assert (Emc : nc b0 = nr bn) by congruence.
        destruct (Suf (d - 2) 1 ltac:(lia) ltac:(lia) an bn Ean Ebn) as [Sa Sb].
        rewrite <- !sval_0.
        rewrite (sval_step _ _ _ _ _ _ Eh F0), (sval_step _ _ _ _ _ _ Eh Ea0), (sval_step _ _ _ _ _ _ Eh Eb0).
        unfold c0 at 1. cbn [nc]. rewrite sum_app. f_equal; apply sum_ext; intros j Hj.
        * rewrite Sa by lia. f_equal. unfold ent, c0. rewrite stackh_entry by (auto; lia).
          destruct (Nat.ltb_spec j (nc a0)); [auto|lia].
        * rewrite Enc, Sb by lia. f_equal. unfold ent, c0. rewrite stackh_entry by (auto; lia).
          destruct (Nat.ltb_spec (nr an + j) (nc a0)); [lia|].
          replace (nr an + j - nc a0) with j by lia. auto.
  Qed.
End Arith.
