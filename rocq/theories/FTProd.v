(** Product, copy, scaling, integration and inner products of function trains. *)
From Verif Require Export QmaFacts.

Section FTProd.
  Context {R : CRing} {U : uops R}.
  Open Scope cr_scope.
  Add Ring Rr7 : (rth R).

  (** Double sum over pairs of rank paths. *)
  Fixpoint val2 (ks : list (U -> U -> R)) (cs ds : list (qma U)) (i l : nat) : R :=
    match ks, cs, ds with
    | k :: ks', c :: cs', d :: ds' =>
        sum (nc c) (fun j => sum (nc d) (fun m => ent2 k c i j d l m *! val2 ks' cs' ds' j m))
    | _, _, _ => r1
    end.

  Definition sval2 ks cs ds k i l : R := val2 (skipn k ks) (skipn k cs) (skipn k ds) i l.

  Lemma sval2_step ks cs ds k i l q c d :
    nth_error ks k = Some q -> nth_error cs k = Some c -> nth_error ds k = Some d ->
    sval2 ks cs ds k i l
    = sum (nc c) (fun j => sum (nc d) (fun m => ent2 q c i j d l m *! sval2 ks cs ds (S k) j m)).
  Proof.
    intros Hk Hc Hd. unfold sval2.
    rewrite (skipn_nth ks k q Hk), (skipn_nth cs k c Hc), (skipn_nth ds k d Hd). reflexivity.
  Qed.

  Lemma sval2_end ks cs ds k i l : length ks <= k -> sval2 ks cs ds k i l = r1.
  Proof. intros H. unfold sval2. rewrite (skipn_all2 ks) by auto. reflexivity. Qed.

  Lemma val2_prod (hs gs : list (U -> R)) ks cs ds i l :
    length ks = length cs -> length ks = length ds -> length ks = length hs -> length ks = length gs ->
    (forall n k h g, nth_error ks n = Some k -> nth_error hs n = Some h -> nth_error gs n = Some g ->
       forall u v, k u v = h u *! g v) ->
    val2 ks cs ds i l = val hs cs i *! val gs ds l.
  Proof.
    revert hs gs cs ds i l; induction ks as [|k ks IH]; intros hs gs cs ds i l L1 L2 L3 L4 H;
      destruct cs as [|q cs], ds as [|q0 ds], hs as [|h0 hs], gs as [|g0 gs]; simpl in L1, L2, L3, L4; try lia.
    - simpl. ring.
    - cbn [val2 val]. rewrite sum_mul. apply sum_ext. intros j Hj. apply sum_ext. intros m Hm.
      rewrite (IH hs gs); try lia.
      + assert (E : ent2 k q i j q0 l m = ent h0 q i j *! ent g0 q0 l m).
        { unfold ent2, ent. destruct (entry q i j); [|ring]. destruct (entry q0 l m); [|ring].
          apply (H 0); reflexivity. }
        rewrite E. ring.
      + intros n k' h g E1 E2 E3. apply (H (S n)); auto.
  Qed.

  (** train_inner as a double sum *)
  Lemma inner_val2 (cs ds : list (qma U)) i l :
    length cs = length ds ->
    lsum (map (fun s => tsum (map (fun u v => uinner u v) s) (terms ds l)) (terms cs i))
    = val2 (map (fun _ => uinner) cs) cs ds i l.
  Proof.
    revert ds i l; induction cs as [|c cs IH]; intros [|d ds] i l HLn; simpl in HLn; try lia.
    - simpl. unfold tsum. simpl. ring.
    - cbn [terms map val2].
      rewrite map_flat_map, lsum_flat_map.
      fold (tab (nc c) (fun a => lsum (map (fun s =>
         tsum (map (fun u v => uinner u v) s)
           (flat_map (fun j : nat => match entry d l j with
                 | Some f => map (cons f) (terms ds j) | None => [] end) (seq 0 (nc d))))
         match entry c i a with Some f => map (cons f) (terms cs a) | None => [] end))).
      rewrite lsum_tab. apply sum_ext. intros j Hj.
      unfold ent2. destruct (entry c i j) as [f|].
      + rewrite map_map. cbn [map].
        transitivity (lsum (map (fun s => sum (nc d) (fun m =>
            match entry d l m with
            | Some g => uinner f g *! tsum (map (fun u v => uinner u v) s) (terms ds m)
            | None => r0 end)) (terms cs j))).
        * f_equal. apply map_ext. intros s. unfold tsum.
          rewrite map_flat_map, lsum_flat_map.
          fold (tab (nc d) (fun a => lsum (map (tprod ((fun v => uinner f v) :: map (fun u v => uinner u v) s))
             match entry d l a with Some f => map (cons f) (terms ds a) | None => [] end))).
          rewrite lsum_tab. apply sum_ext. intros m Hm.
          destruct (entry d l m) as [g|]; [|reflexivity].
          rewrite map_map. cbn [tprod]. now rewrite lsum_map_scal.
        * transitivity (sum (nc d) (fun m => lsum (map (fun s =>
              match entry d l m with
              | Some g => uinner f g *! tsum (map (fun u v => uinner u v) s) (terms ds m)
              | None => r0 end) (terms cs j)))).
          { apply (lsum_sum R (nc d) (fun s m => match entry d l m with
              | Some g => uinner f g *! tsum (map (fun u v => uinner u v) s) (terms ds m)
              | None => r0 end)). }
          apply sum_ext. intros m Hm. destruct (entry d l m) as [g|].
          -- rewrite lsum_map_scal. f_equal. apply IH. lia.
          -- rewrite lsum_zero. ring.
      + simpl. symmetry. apply sum_zero_ext. intros m Hm. ring.
  Qed.

  Lemma val2_swap (k : U -> U -> R) (cs ds : list (qma U)) i l n :
    length cs = n -> length ds = n ->
    val2 (repeat k n) cs ds i l = val2 (repeat (fun f g => k g f) n) ds cs l i.
  Proof.
    revert cs ds i l; induction n as [|n IH]; intros [|c cs] [|d ds] i l H1 H2; simpl in H1, H2; try lia.
    - reflexivity.
    - cbn [repeat val2]. rewrite sum_swap. apply sum_ext. intros m Hm. apply sum_ext. intros j Hj.
      rewrite (IH cs ds) by lia. f_equal. unfold ent2.
      destruct (entry c i j), (entry d l m); reflexivity.
  Qed.

  Lemma val2_ext ks ks' (cs ds : list (qma U)) i l :
    (forall n k k', nth_error ks n = Some k -> nth_error ks' n = Some k' -> forall f g, k f g = k' f g) ->
    length ks = length ks' ->
    val2 ks cs ds i l = val2 ks' cs ds i l.
  Proof.
    revert ks' cs ds i l; induction ks as [|k ks IH]; intros [|k' ks'] cs ds i l H HLn; simpl in HLn; try lia.
    - reflexivity.
    - destruct cs as [|c cs]; [reflexivity|]. destruct ds as [|d ds]; [reflexivity|].
      cbn [val2]. apply sum_ext. intros j Hj. apply sum_ext. intros m Hm.
      rewrite (IH ks'); [|intros n; apply (H (S n))|lia]. f_equal.
      unfold ent2. destruct (entry c i j), (entry d l m); auto. apply (H 0); reflexivity.
  Qed.

  (** * Product *)
  Definition is_prod (a b c : ftrain U) : Prop :=
    forall (hs : list (U -> R)), length hs = ft_dim a ->
      val hs (ft_cores c) 0
      = val2 (map (fun h f g => h (uprod f g)) hs) (ft_cores a) (ft_cores b) 0 0.

  Lemma ft_product_ok (a b : ftrain U) :
    ft_wf a -> ft_wf b -> ft_dim a = ft_dim b ->
    exists c, ft_product a b = Ok c /\ ft_wf c /\ ft_dim c = ft_dim a /\ is_prod a b c.
  Proof.
    intros Wa Wb Hdd. unfold ft_product.
    set (d := ft_dim a) in *.
    assert (CA : forall k, k < d -> exists c, nth_error (ft_cores a) k = Some c /\ qwf c /\ 0 < nr c /\ 0 < nc c /\
      nth_error (ft_ranks a) k = Some (nr c) /\ nth_error (ft_ranks a) (S k) = Some (nc c))
      by (intros k Hk; apply wf_core; auto).
    assert (CB : forall k, k < d -> exists c, nth_error (ft_cores b) k = Some c /\ qwf c /\ 0 < nr c /\ 0 < nc c /\
      nth_error (ft_ranks b) k = Some (nr c) /\ nth_error (ft_ranks b) (S k) = Some (nc c))
      by (intros k Hk; apply wf_core; auto; rewrite <- Hdd; auto).
    set (rr := fun k => match nth_error (ft_ranks a) k, nth_error (ft_ranks b) k with
                        | Some x, Some y => x * y | _, _ => 0 end).
    set (KR := fun k (c : qma U) => exists ak bk, nth_error (ft_cores a) k = Some ak /\
         nth_error (ft_cores b) k = Some bk /\ qwf c /\
         nr c = nr ak * nr bk /\ nc c = nc ak * nc bk /\
         forall ia ib ja jb f g, ia < nr ak -> ib < nr bk -> ja < nc ak -> jb < nc bk ->
           entry ak ia ja = Some f -> entry bk ib jb = Some g ->
           entry c (ia * nr bk + ib) (ja * nc bk + jb) = Some (uprod f g)).
    match goal with |- context [for_ d ?bd ?s] =>
      destruct (for_inv (fun ii (t : list nat * list (option (qma U))) =>
         length (fst t) = d + 1 /\ length (snd t) = d /\
         forall k, k < ii -> nth_error (fst t) k = Some (rr k) /\
            exists c, nth_error (snd t) k = Some (Some c) /\ KR k c) bd d s)
        as [[rk cs] [E (Lr & Lc & HI)]] end.
    - cbn [fst snd]. rewrite !repeat_length. repeat split; auto; lia.
    - intros ii [rk cs] Hii (Lr & Lc & HI). cbn [fst snd] in *.
      destruct (CA ii) as (ak & Eak & Wak & Pak & Qak & Rak & Sak); [lia|].
      destruct (CB ii) as (bk & Ebk & Wbk & Pbk & Qbk & Rbk & Sbk); [lia|].
      rewrite (aget_ok _ _ _ Rak), (aget_ok _ _ _ Rbk). cbn [obind].
      rewrite aset_ok by lia. cbn [obind].
      rewrite (aget_ok _ _ _ Eak), (aget_ok _ _ _ Ebk). cbn [obind].
      destruct (qmarray_kron_ok ak bk Wak Wbk) as (c & Ec & Nrc & Ncc & Wc & Hent).
      rewrite Ec. cbn [obind]. rewrite aset_ok by lia. cbn [obind].
      eexists; split; [reflexivity|].
      cbn [fst snd]. rewrite !upd_length. split; [auto|]. split; [auto|].
      intros k Hk. destruct (Nat.eq_dec k ii) as [->|Hne].
      + rewrite !nth_error_upd_same by lia. split.
        * unfold rr. now rewrite Rak, Rbk.
        * exists c. split; auto. exists ak, bk. repeat split; auto.
      + rewrite !nth_error_upd_other by lia. apply HI; lia.
    - rewrite E. cbn [obind fst snd] in *.
      pose proof (wf_rankd a Wa) as Rda. fold d in Rda.
      pose proof (wf_rankd b Wb) as Rdb. rewrite <- Hdd in Rdb.
      rewrite (aget_ok _ _ _ Rda), (aget_ok _ _ _ Rdb). cbn [obind].
      rewrite aset_ok by lia. cbn [obind].
      destruct (freeze_all d cs Lc) as (fr & Efr & Lfr & Hfr).
      { intros k Hk. destruct (HI k Hk) as [_ [c [Hc _]]]. eauto. }
      rewrite Efr. cbn [obind]. eexists; split; [reflexivity|].
      assert (F : forall k, k < d -> exists c, nth_error fr k = Some c /\ KR k c).
      { intros k Hk. destruct (HI k Hk) as [_ [c [Hc HB]]]. exists c; split; auto. }
      assert (Hrr : forall k x y, nth_error (ft_ranks a) k = Some x -> nth_error (ft_ranks b) k = Some y ->
          rr k = x * y).
      { intros k x y Hx Hy. unfold rr. now rewrite Hx, Hy. }
      assert (Hd0 : 0 < d) by apply Wa.
      split; [|split; [reflexivity|]].
      + apply (ft_wf_intro d _ fr rr); auto.
        * now rewrite upd_length.
        * intros k Hk. destruct (Nat.eq_dec k d) as [->|Hne].
          -- rewrite nth_error_upd_same by lia. f_equal. symmetry. apply Hrr; auto.
          -- rewrite nth_error_upd_other by lia. apply HI; lia.
        * apply (Hrr 0 1 1); apply wf_rank0; auto.
        * apply (Hrr d 1 1); auto.
        * intros k c Hc.
          assert (Hk : k < d). { rewrite <- Lfr. apply nth_error_Some. congruence. }
          destruct (F k Hk) as (c' & Ec' & (ak & bk & Eak & Ebk & Wc' & N1 & N2 & _)).
          assert (c = c') as -> by congruence.
          destruct (CA k Hk) as (ak' & Eak' & Wak & Pak & Qak & Rak & Sak).
          destruct (CB k Hk) as (bk' & Ebk' & Wbk & Pbk & Qbk & Rbk & Sbk).
          assert (ak' = ak) as -> by congruence. assert (bk' = bk) as -> by congruence.
          rewrite (Hrr k _ _ Rak Rbk), (Hrr (S k) _ _ Sak Sbk).
          repeat split; auto; nia.
      + intros hs Lhs. cbn [ft_cores].
        set (ks := map (fun (h : U -> R) f g => h (uprod f g)) hs).
        destruct (wf_lens a Wa) as [Lca _]. destruct (wf_lens b Wb) as [Lcb _].
        fold d in Lca. rewrite <- Hdd in Lcb.
        assert (Suf : forall n k, k + n = d ->
          forall ia ib ra rb, nth_error (ft_ranks a) k = Some ra -> nth_error (ft_ranks b) k = Some rb ->
          ia < ra -> ib < rb ->
          sval hs fr k (ia * rb + ib) = sval2 ks (ft_cores a) (ft_cores b) k ia ib).
        { induction n as [|n IH]; intros k Hk ia ib ra rb Era Erb Hia Hib.
          - rewrite sval_end by lia. rewrite sval2_end; auto. unfold ks. rewrite map_length. lia.
          - destruct (nth_error hs k) as [h|] eqn:Eh; [|apply nth_error_None in Eh; lia].
            destruct (F k) as (c & Ec & (ak & bk & Eak & Ebk & Wc' & N1 & N2 & Hent)); [lia|].
            destruct (CA k) as (ak' & Eak' & Wak & Pak & Qak & Rak & Sak); [lia|].
            destruct (CB k) as (bk' & Ebk' & Wbk & Pbk & Qbk & Rbk & Sbk); [lia|].
            assert (ak' = ak) as -> by congruence. assert (bk' = bk) as -> by congruence.
            assert (ra = nr ak) as -> by congruence. assert (rb = nr bk) as -> by congruence.
            rewrite (sval_step _ _ _ _ _ _ Eh Ec), N2, sum_mul_index.
            assert (Ek : nth_error ks k = Some (fun f g => h (uprod f g))).
            { unfold ks. now rewrite nth_error_map, Eh. }
            rewrite (sval2_step _ _ _ _ _ _ _ _ _ Ek Eak Ebk).
            apply sum_ext. intros ja Hja. apply sum_ext. intros jb Hjb.
            rewrite (IH (S k) ltac:(lia) ja jb _ _ Sak Sbk Hja Hjb). f_equal.
            destruct (entry_some ak ia ja Wak Hia Hja) as [f Hf].
            destruct (entry_some bk ib jb Wbk Hib Hjb) as [g Hg].
            unfold ent, ent2. rewrite (Hent ia ib ja jb f g) by auto. now rewrite Hf, Hg. }
        apply (Suf d 0 ltac:(lia) 0 0 1 1); try lia; apply wf_rank0; auto.
  Qed.

  Theorem product_value (a b : ftrain U) :
    law_ev_prod U -> ft_wf a -> ft_wf b -> ft_dim a = ft_dim b ->
    exists c, ft_product a b = Ok c /\ ft_wf c /\ ft_dim c = ft_dim a /\
      forall x, length x = ft_dim a -> train_value c x = train_value a x *! train_value b x.
  Proof.
    intros HP Wa Wb Hdd. destruct (ft_product_ok a b Wa Wb Hdd) as (c & Ec & Wc & Dc & Hc).
    exists c. repeat split; auto; try apply Wc. intros x Hx.
    destruct (wf_lens a Wa) as [La _]. destruct (wf_lens b Wb) as [Lb _]. destruct (wf_lens c Wc) as [Lc _].
    unfold train_value. rewrite !tsum_val by (rewrite map_length; congruence).
    rewrite Hc by (rewrite map_length; congruence).
    apply val2_prod; rewrite ?map_length; try congruence.
    intros n k h g. rewrite !nth_error_map. destruct (nth_error x n) as [y|]; simpl; [|discriminate].
    intros E1 E2 E3. inversion E1; inversion E2; inversion E3. intros u v. apply HP.
  Qed.

  Theorem sum_value (a b : ftrain U) :
    law_ev_lin U -> ft_wf a -> ft_wf b -> ft_dim a = ft_dim b -> 2 <= ft_dim a ->
    exists c, ft_sum a b = Ok c /\ ft_wf c /\ ft_dim c = ft_dim a /\
      forall x, length x = ft_dim a -> train_value c x = train_value a x +! train_value b x.
  Proof.
    intros HL Wa Wb Hdd H2. destruct (ft_sum_ok a b Wa Wb Hdd H2) as (c & Ec & Wc & Dc & Hc).
    exists c. repeat split; auto; try apply Wc. intros x Hx.
    destruct (wf_lens a Wa) as [La _]. destruct (wf_lens b Wb) as [Lb _]. destruct (wf_lens c Wc) as [Lc _].
    unfold train_value. rewrite !tsum_val by (rewrite map_length; congruence).
    apply Hc; [rewrite map_length; congruence|].
    intros h Hh. apply in_map_iff in Hh. destruct Hh as [y [<- _]]. apply HL.
  Qed.

  (** * Copy *)
  Theorem ft_copy_ok (a : ftrain U) : ft_wf a -> ft_copy a = Ok a.
  Proof.
    intros Wa. unfold ft_copy. set (d := ft_dim a).
    destruct (wf_lens a Wa) as [Lca Lra].
    match goal with |- context [for_ d ?bd ?s] =>
      destruct (for_inv (fun ii (t : list nat * list (option (qma U))) =>
         length (fst t) = d + 1 /\ length (snd t) = d /\
         forall k, k < ii -> nth_error (fst t) k = nth_error (ft_ranks a) k /\
            nth_error (snd t) k = nth_error (map Some (ft_cores a)) k) bd d s)
        as [[rk cs] [E (Lr & Lc & HI)]] end.
    - cbn [fst snd]. rewrite !repeat_length. repeat split; auto; lia.
    - intros ii [rk cs] Hii (Lr & Lc & HI). cbn [fst snd] in *.
      destruct (wf_core a ii Wa Hii) as (ak & Eak & Wak & Pak & Qak & Rak & Sak).
      rewrite (aget_ok _ _ _ Rak). cbn [obind]. rewrite aset_ok by lia. cbn [obind].
      rewrite (aget_ok _ _ _ Eak). cbn [obind]. rewrite qmarray_copy_ok by auto. cbn [obind].
      rewrite aset_ok by lia. cbn [obind]. eexists; split; [reflexivity|].
      cbn [fst snd]. rewrite !upd_length. split; [auto|]. split; [auto|].
      intros k Hk. destruct (Nat.eq_dec k ii) as [->|Hne].
      + rewrite !nth_error_upd_same by lia. rewrite nth_error_map, Eak. auto.
      + rewrite !nth_error_upd_other by lia. apply HI; lia.
    - rewrite E. cbn [obind fst snd] in *.
      pose proof (wf_rankd a Wa) as Rda. fold d in Rda.
      rewrite (aget_ok _ _ _ Rda). cbn [obind]. rewrite aset_ok by lia. cbn [obind].
      assert (cs = map Some (ft_cores a)) as ->.
      { apply nth_error_ext; [rewrite map_length; unfold d in *; congruence|].
        intros i Hi. apply HI; lia. }
      rewrite freeze_map_Some. cbn [obind].
      assert (upd rk d 1 = ft_ranks a) as ->.
      { apply nth_error_ext; [rewrite upd_length; unfold d in *; congruence|].
        rewrite upd_length. intros i Hi. destruct (Nat.eq_dec i d) as [->|Hne].
        - rewrite nth_error_upd_same by lia. auto.
        - rewrite nth_error_upd_other by lia. apply HI; lia. }
      unfold d. destruct a; reflexivity.
  Qed.

  (** * Scale *)
  Lemma upd_0 {A} (c : A) cs v : upd (c :: cs) 0 v = v :: cs.
  Proof. reflexivity. Qed.

  Theorem ft_scale_ok (f : ftrain U) (s : R) :
    ft_wf f -> exists g, ft_scale f s = Ok g /\ ft_wf g /\ ft_dim g = ft_dim f /\
      ft_ranks g = ft_ranks f /\
      forall hs, length hs = ft_dim f -> (forall h, In h hs -> linfun h) ->
        val hs (ft_cores g) 0 = s *! val hs (ft_cores f) 0.
  Proof.
    intros Wf. unfold ft_scale. destruct (wf_core f 0 Wf) as (c0 & E0 & W0 & P0 & Q0 & R0 & S0); [apply Wf|].
    rewrite (aget_ok _ _ _ E0). cbn [obind].
    destruct (qma_fill (nr c0) (nc c0) (fun i j => do h <- aget (fs c0) (j * nr c0 + i); Ok (uaxpby s h r0 None))
      (for_ (nr c0 * nc c0) (fun ii g => do h <- aget (fs c0) ii; aset g ii (Some (uaxpby s h r0 None)))))
      as [r [Er [Wr Hr]]].
    - intros i j Hi Hj. destruct (entry_some c0 i j W0 Hi Hj) as [u Hu].
      rewrite (aget_entry _ _ _ _ Hu). simpl; eauto.
    - intros T HT. exists (fun k => exists i, i < nr c0 * nc c0 /\ i = k). split.
      + apply wrf_for. intros k Hk. rewrite Nat.mul_comm in Hk.
        destruct (idx_split k _ _ Hk) as (j & i & Hj & Hi & ->).
        destruct (entry_some c0 i j W0 Hi Hj) as [u Hu]. apply aget_entry in Hu.
        eapply wrf_get; [exact Hu|]. apply wrf_aset; [nia|]. symmetry. apply HT; auto. now rewrite Hu.
      + intros i j Hi Hj. exists (j * nr c0 + i). split; auto. nia.
    - destruct (for_ (nr c0 * nc c0) _ (slots (nr c0 * nc c0))) as [l| | |]; cbn [obind] in Er |- *; try discriminate.
      destruct (freeze l) as [l'| | |]; cbn [obind] in Er |- *; try discriminate.
      inversion Er; subst l'. 
      destruct Wf as (Hd & Hp & Hrk & Hch).
      destruct (ft_cores f) as [|c1 cs] eqn:Ecs; [discriminate|]. simpl in E0. inversion E0; subst c1.
      cbn [aset length Nat.ltb Nat.leb upd obind]. eexists; split; [reflexivity|].
      destruct Hch as (H1 & H2 & H3 & H4 & H5).
      split; [|split; [reflexivity|split; [reflexivity|]]].
      + unfold ft_wf. cbn [ft_dim ft_ranks ft_cores]. split; [exact Hd|]. split; [exact Hp|].
        split; [exact Hrk|]. cbn [chain nr nc]. repeat split; auto.
      + intros hs Lhs Hlin. cbn [ft_cores].
        destruct hs as [|h hs]; [simpl in *; lia|]. cbn [val nc].
        rewrite <- sum_scal_l. apply sum_ext. intros j Hj.
        assert (E : ent h (mkq (nr c0) (nc c0) r) 0 j = s *! ent h c0 0 j).
        { unfold ent. rewrite Hr by (auto; lia).
          destruct (entry_some c0 0 j W0 ltac:(lia) Hj) as [u Hu].
          rewrite (aget_entry _ _ _ _ Hu), Hu. simpl.
          destruct (Hlin h ltac:(now left)) as (L1 & _). apply L1. }
        rewrite E. ring.
  Qed.

  Theorem scale_value (f : ftrain U) (s : R) :
    law_ev_lin U -> ft_wf f ->
    exists g, ft_scale f s = Ok g /\ ft_wf g /\ ft_dim g = ft_dim f /\
      forall x, length x = ft_dim f -> train_value g x = s *! train_value f x.
  Proof.
    intros HL Wf. destruct (ft_scale_ok f s Wf) as (g & Eg & Wg & Dg & Rg & Hg).
    exists g. repeat split; auto; try apply Wg. intros x Hx.
    destruct (wf_lens f Wf) as [La _]. destruct (wf_lens g Wg) as [Lb _].
    unfold train_value. rewrite !tsum_val by (rewrite map_length; congruence).
    apply Hg; [rewrite map_length; congruence|].
    intros h Hh. apply in_map_iff in Hh. destruct Hh as [y [<- _]]. apply HL.
  Qed.
End FTProd.
