(** Integration and inner products of function trains. *)
From Verif Require Export FTProd.

Section FTInt.
  Context {R : CRing} {U : uops R}.
  Open Scope cr_scope.
  Add Ring Rr8 : (rth R).

  Lemma fwd_step (hs : list (U -> R)) cs k h (c : qma U) (v : nat -> R) V :
    nth_error hs k = Some h -> nth_error cs k = Some c ->
    sum (nr c) (fun i => v i *! sval hs cs k i) = V ->
    sum (nc c) (fun j => sum (nr c) (fun i => v i *! ent h c i j) *! sval hs cs (S k) j) = V.
  Proof.
    intros Hh Hc <-.
    transitivity (sum (nc c) (fun j => sum (nr c) (fun i => v i *! (ent h c i j *! sval hs cs (S k) j)))).
    - apply sum_ext. intros j Hj. rewrite <- sum_scal_r. apply sum_ext. intros; ring.
    - rewrite sum_swap. apply sum_ext. intros i Hi.
      rewrite (sval_step _ _ _ _ _ _ Hh Hc). now rewrite sum_scal_l.
  Qed.

  Lemma fwd_step2 ks cs ds k q (c d : qma U) (v : nat -> nat -> R) V :
    nth_error ks k = Some q -> nth_error cs k = Some c -> nth_error ds k = Some d ->
    sum (nr c) (fun i => sum (nr d) (fun l => v i l *! sval2 ks cs ds k i l)) = V ->
    sum (nc c) (fun j => sum (nc d) (fun m =>
       sum (nr c) (fun i => sum (nr d) (fun l => v i l *! ent2 q c i j d l m))
       *! sval2 ks cs ds (S k) j m)) = V.
  Proof.
    intros Hk Hc Hd <-.
    set (S' := sval2 ks cs ds (S k)).
    transitivity (sum (nr c) (fun i => sum (nr d) (fun l =>
      sum (nc c) (fun j => sum (nc d) (fun m => v i l *! (ent2 q c i j d l m *! S' j m)))))).
    - transitivity (sum (nc c) (fun j => sum (nc d) (fun m =>
         sum (nr c) (fun i => sum (nr d) (fun l => v i l *! (ent2 q c i j d l m *! S' j m)))))).
      + apply sum_ext; intros j Hj. apply sum_ext; intros m Hm.
        rewrite <- sum_scal_r. apply sum_ext; intros i Hi.
        rewrite <- sum_scal_r. apply sum_ext; intros l Hl. ring.
      + transitivity (sum (nc c) (fun j => sum (nr c) (fun i => sum (nr d) (fun l => sum (nc d) (fun m =>
            v i l *! (ent2 q c i j d l m *! S' j m)))))).
        * apply sum_ext; intros j Hj. rewrite sum_swap. apply sum_ext; intros i Hi. apply sum_swap.
        * rewrite sum_swap. apply sum_ext; intros i Hi. apply sum_swap.
    - apply sum_ext; intros i Hi. apply sum_ext; intros l Hl.
      rewrite (sval2_step _ _ _ _ _ _ _ _ _ Hk Hc Hd). rewrite <- sum_scal_l.
      apply sum_ext; intros j Hj. now rewrite sum_scal_l.
  Qed.

  Theorem ft_integrate_ok (f : ftrain U) :
    ft_wf f -> ft_integrate f = Ok (train_integral f).
  Proof.
    intros Wf. pose proof Wf as (Hd & Hpos & _).
    destruct (wf_lens f Wf) as [Lc Lr].
    set (hs := map (fun _ (g : U) => uint g) (ft_cores f)).
    assert (HV : train_integral f = val hs (ft_cores f) 0).
    { unfold train_integral. apply tsum_val. unfold hs; now rewrite map_length. }
    rewrite HV. set (V := val hs (ft_cores f) 0).
    assert (Hh : forall k, k < ft_dim f -> nth_error hs k = Some (fun g : U => uint g)).
    { intros k Hk. unfold hs. rewrite nth_error_map.
      destruct (nth_error (ft_cores f) k) eqn:E; [reflexivity|]. apply nth_error_None in E; lia. }
    unfold ft_integrate.
    destruct (wf_core f 0 Wf Hpos) as (c0 & E0 & W0 & P0 & Q0 & R0 & S0).
    assert (N0 : nr c0 = 1) by (rewrite (wf_rank0 f Wf) in R0; congruence).
    rewrite (aget_ok _ _ _ E0). cbn [obind].
    destruct (qmarray_integrate_ok c0 W0) as (t & Et & Lt & Ht). rewrite Et. cbn [obind].
    match goal with |- context [for_from 1 _ ?bd ?s] =>
      destruct (for_from_inv (fun ii (st : option (list R) * option (list R)) =>
        exists l r v, st = (if ii mod 2 =? 1 then (Some l, None) else (None, Some l)) /\
          nth_error (ft_ranks f) ii = Some r /\ length l = r /\ pre l r v /\
          sum r (fun j => v j *! sval hs (ft_cores f) ii j) = V) bd 1 (ft_dim f - 1) s)
        as [[t1 t3] [EL IL]] end.
    - exists t, (nc c0), (fun j => ent uint c0 0 j). change (1 mod 2 =? 1) with true. cbv iota.
      split; [reflexivity|]. split; [exact S0|]. split; [rewrite Lt, N0; lia|]. split.
      + intros j Hj. rewrite <- Ht by lia. rewrite N0. f_equal. lia.
      + unfold V. rewrite <- sval_0, (sval_step _ _ _ _ _ _ (Hh 0 Hpos) E0). reflexivity.
    - intros ii s Hii (l & r & v & -> & Er & Ll & Pl & HS).
      destruct (wf_core f ii Wf) as (c & Ec & Wc & Pc & Qc & Rc & Sc); [lia|].
      rewrite (aget_ok _ _ _ Ec). cbn [obind].
      destruct (qmarray_integrate_ok c Wc) as (t2 & Et2 & Lt2 & Ht2). rewrite Et2. cbn [obind].
      rewrite (aget_ok _ _ _ Rc). cbn [obind].
      replace (ii + 1) with (S ii) by lia. rewrite (aget_ok _ _ _ Sc). cbn [obind].
      assert (r = nr c) as -> by congruence.
      pose (w := fun j => sum (nr c) (fun i => v i *! ent uint c i j)).
      assert (EG : dgemm_nn 1 (nc c) (nr c) l 1 t2 (nr c) (repeat r0 (nc c)) 1 = Ok (tab (nc c) w)).
      { rewrite (dgemm_nn_ok 1 (nc c) (nr c) l 1 t2 (nr c) _ 1 (fun _ i => v i) (fun i j => ent uint c i j)).
        - rewrite Nat.mul_1_r. f_equal. apply tab_ext. intros q Hq. unfold w.
          apply sum_ext. intros i Hi. now rewrite Nat.div_1_r.
        - intros i i0 Hi Hi0. rewrite <- Pl by auto. f_equal; lia.
        - intros i j Hi Hj. auto.
        - reflexivity.
        - rewrite repeat_length; lia. }
      assert (HS' : sum (nc c) (fun j => w j *! sval hs (ft_cores f) (S ii) j) = V).
      { apply (fwd_step hs (ft_cores f) ii uint c v V); auto. apply (Hh ii); lia. }
      rewrite odd_S. destruct (ii mod 2 =? 1); cbn [fst snd negb]; rewrite EG; cbn [obind];
        (eexists; split; [reflexivity|]); exists (tab (nc c) w), (nc c), w;
        repeat split; auto; try apply tab_length; apply pre_tab.
    - rewrite EL. cbn [obind]. replace (1 + (ft_dim f - 1)) with (ft_dim f) in IL by lia.
      destruct IL as (l & r & v & Es & Er & Ll & Pl & HS).
      rewrite (wf_rankd f Wf) in Er. assert (r = 1) as -> by congruence.
      rewrite sum_1, sval_end in HS by lia.
      assert (Hl0 : aget l 0 = Ok V).
      { apply aget_ok. rewrite Pl by lia. f_equal. rewrite <- HS. ring. }
      destruct (ft_dim f mod 2 =? 1); inversion Es; subst; auto.
  Qed.

  (** Common shape of an inner-product sweep. *)
  Lemma inner_setup (a b : ftrain U) (q : U -> U -> R) :
    ft_wf a -> ft_wf b -> ft_dim a = ft_dim b ->
    let ks := repeat q (ft_dim a) in
    length ks = ft_dim a /\ (forall k, k < ft_dim a -> nth_error ks k = Some q).
  Proof.
    intros Wa Wb Hdd ks. unfold ks. split; [apply repeat_length|].
    intros k Hk. now apply nth_error_repeat.
  Qed.

  Lemma vec_kron_integrate_ok (t : list R) (a b : qma U) (v : nat -> nat -> R) :
    law_inner_lin_r U -> qwf a -> qwf b -> 0 < nr a ->
    (forall ia ib, ia < nr a -> ib < nr b -> nth_error t (ib * nr a + ia) = Some (v ia ib)) ->
    exists r, qmarray_vec_kron_integrate t a b = Ok r /\ length r = nc b * nc a /\
      forall ja jb, ja < nc a -> jb < nc b ->
        nth_error r (jb * nc a + ja)
        = Some (sum (nr a) (fun ia => sum (nr b) (fun ib =>
                   v ia ib *! ent2 (fun f g => uinner g f) a ia ja b ib jb))).
  Proof.
    intros HLr Wa Wb Pa Ht. unfold qmarray_vec_kron_integrate.
    destruct (qmatm_ok a t (nr b) v Wa Pa) as (c & Ec & N1 & N2 & Wc & Hc).
    { intros k i Hk Hi. auto. }
    rewrite Ec. cbn [obind].
    destruct (qmatqmat_integrate_ok b c Wb Wc) as (r & Er & Lr & Hr); [congruence|].
    exists r. split; [exact Er|]. split; [rewrite Lr, N1; reflexivity|].
    intros ja jb Hja Hjb. rewrite N1 in Hr. rewrite Hr by auto. f_equal.
    rewrite sum_swap. apply sum_ext. intros ib Hib.
    destruct (Hc ja ib Hja Hib) as (u & Hu & Hphi).
    destruct (entry_some b ib jb Wb Hib Hjb) as (g & Hg).
    unfold ent2 at 1. rewrite Hg, Hu. rewrite (Hphi _ (HLr g)).
    apply sum_ext. intros ia Hia. f_equal. unfold ent, ent2. rewrite Hg. reflexivity.
  Qed.

  Theorem ft_inner_raw (a b : ftrain U) :
    law_inner_lin_r U -> ft_wf a -> ft_wf b -> ft_dim a = ft_dim b ->
    ft_inner a b = Ok (val2 (repeat (fun f g => uinner g f) (ft_dim a)) (ft_cores a) (ft_cores b) 0 0).
  Proof.
    intros HLr Wa Wb Hdd. unfold ft_inner. rewrite Hdd, Nat.eqb_refl. cbn [cassert obind]. rewrite <- Hdd.
    set (q := fun f g : U => uinner g f).
    destruct (inner_setup a b q Wa Wb Hdd) as [Lks Hks].
    set (ks := repeat q (ft_dim a)) in *.
    set (V := val2 ks (ft_cores a) (ft_cores b) 0 0).
    pose proof Wa as (_ & Hpos & _).
    destruct (wf_core a 0 Wa Hpos) as (a0 & Ea0 & Wa0 & Pa0 & Qa0 & Ra0 & Sa0).
    destruct (wf_core b 0 Wb) as (b0 & Eb0 & Wb0 & Pb0 & Qb0 & Rb0 & Sb0); [lia|].
    assert (Na0 : nr a0 = 1) by (rewrite (wf_rank0 a Wa) in Ra0; congruence).
    assert (Nb0 : nr b0 = 1) by (rewrite (wf_rank0 b Wb) in Rb0; congruence).
    rewrite (aget_ok _ _ _ Ea0), (aget_ok _ _ _ Eb0). cbn [obind].
    destruct (qmarray_kron_integrate_ok b0 a0 Wb0 Wa0) as (t & Et & Lt & Ht). rewrite Et. cbn [obind].
    match goal with |- context [for_from 1 _ ?bd ?s] =>
      destruct (for_from_inv (fun ii (l : list R) =>
        exists ra rb v, nth_error (ft_ranks a) ii = Some ra /\ nth_error (ft_ranks b) ii = Some rb /\
          (forall ia ib, ia < ra -> ib < rb -> nth_error l (ib * ra + ia) = Some (v ia ib)) /\
          sum ra (fun i => sum rb (fun l => v i l *! sval2 ks (ft_cores a) (ft_cores b) ii i l)) = V)
        bd 1 (ft_dim a - 1) s) as [l [EL IL]] end.
    - exists (nc a0), (nc b0), (fun ja jb => ent2 q a0 0 ja b0 0 jb).
      split; [exact Sa0|]. split; [exact Sb0|]. split.
      + intros ja jb Hja Hjb. specialize (Ht 0 0 jb ja ltac:(lia) ltac:(lia) Hjb Hja).
        rewrite Na0, Nb0 in Ht.
        replace (jb * nc a0 + ja) with ((jb * nc a0 + ja) * (1 * 1) + (0 * 1 + 0)) by lia.
        rewrite Ht. f_equal. unfold ent2, q. destruct (entry b0 0 jb), (entry a0 0 ja); reflexivity.
      + unfold V. change (val2 ks (ft_cores a) (ft_cores b) 0 0)
          with (sval2 ks (ft_cores a) (ft_cores b) 0 0 0).
        rewrite (sval2_step _ _ _ _ _ _ _ _ _ (Hks 0 Hpos) Ea0 Eb0). reflexivity.
    - intros ii l Hii (ra & rb & v & Hra & Hrb & Hl & HS).
      destruct (wf_core a ii Wa) as (ca & Eca & Wca & Pca & Qca & Rca & Sca); [lia|].
      destruct (wf_core b ii Wb) as (cb & Ecb & Wcb & Pcb & Qcb & Rcb & Scb); [lia|].
      rewrite (aget_ok _ _ _ Eca), (aget_ok _ _ _ Ecb). cbn [obind].
      assert (ra = nr ca) as -> by congruence. assert (rb = nr cb) as -> by congruence.
      destruct (vec_kron_integrate_ok l ca cb v HLr Wca Wcb Pca Hl) as (r & Er & Lr & Hr).
      rewrite Er. eexists; split; [reflexivity|].
      exists (nc ca), (nc cb), (fun ja jb => sum (nr ca) (fun ia => sum (nr cb) (fun ib =>
                   v ia ib *! ent2 q ca ia ja cb ib jb))).
      repeat split; auto.
      apply (fwd_step2 ks _ _ ii q ca cb v V); auto. apply Hks; lia.
    - rewrite EL. cbn [obind]. replace (1 + (ft_dim a - 1)) with (ft_dim a) in IL by lia.
      destruct IL as (ra & rb & v & Hra & Hrb & Hl & HS).
      rewrite (wf_rankd a Wa) in Hra. rewrite Hdd, (wf_rankd b Wb) in Hrb.
      assert (ra = 1) as -> by congruence. assert (rb = 1) as -> by congruence.
      rewrite !sum_1, sval2_end in HS by lia.
      apply aget_ok. change 0 with (0 * 1 + 0). rewrite Hl by lia. f_equal. rewrite <- HS. ring.
  Qed.

  Lemma inner2_core_ok (t : list R) (a b : qma U) (v : nat -> nat -> R) :
    law_inner_lin_l U -> qwf a -> qwf b -> 0 < nr b ->
    (forall ia ib, ia < nr a -> ib < nr b -> nth_error t (ia * nr b + ib) = Some (v ia ib)) ->
    exists r, (do At <- qmatm b t (nr a); qmaqma_integrate At a) = Ok r /\ length r = nc b * nc a /\
      forall ja jb, ja < nc a -> jb < nc b ->
        nth_error r (ja * nc b + jb)
        = Some (sum (nr a) (fun ia => sum (nr b) (fun ib =>
                   v ia ib *! ent2 (fun f g => uinner g f) a ia ja b ib jb))).
  Proof.
    intros HLl Wa Wb Pb Ht.
    destruct (qmatm_ok b t (nr a) (fun k i => v i k) Wb Pb) as (c & Ec & N1 & N2 & Wc & Hc).
    { intros k i Hk Hi. auto. }
    rewrite Ec. cbn [obind].
    destruct (qmaqma_integrate_ok c a Wc Wa) as (r & Er & Lr & Hr); [congruence|].
    exists r. split; [exact Er|]. split; [rewrite Lr, N1; reflexivity|].
    intros ja jb Hja Hjb. rewrite N1 in Hr. rewrite Hr by auto. f_equal.
    rewrite N2. apply sum_ext. intros ia Hia.
    destruct (Hc jb ia Hjb Hia) as (u & Hu & Hphi).
    destruct (entry_some a ia ja Wa Hia Hja) as (f & Hf).
    unfold ent2 at 1. rewrite Hf, Hu. rewrite (Hphi (fun g => uinner g f) (HLl f)).
    apply sum_ext. intros ib Hib. f_equal. unfold ent, ent2. rewrite Hf.
    destruct (entry b ib jb); reflexivity.
  Qed.

  Theorem ft_inner2_raw (a b : ftrain U) :
    law_inner_lin_l U -> law_inner_sym U -> ft_wf a -> ft_wf b -> ft_dim a = ft_dim b ->
    ft_inner2 a b = Ok (val2 (repeat uinner (ft_dim a)) (ft_cores a) (ft_cores b) 0 0).
  Proof.
    intros HLl HSy Wa Wb Hdd. unfold ft_inner2. rewrite Hdd, Nat.eqb_refl. cbn [cassert obind]. rewrite <- Hdd.
    pose (q := @uinner R U).
    destruct (inner_setup a b q Wa Wb Hdd) as [Lks Hks].
    change (repeat uinner (ft_dim a)) with (repeat q (ft_dim a)).
    set (ks := repeat q (ft_dim a)) in *.
    set (V := val2 ks (ft_cores a) (ft_cores b) 0 0).
    pose proof Wa as (_ & Hpos & _).
    destruct (wf_core a 0 Wa Hpos) as (a0 & Ea0 & Wa0 & Pa0 & Qa0 & Ra0 & Sa0).
    destruct (wf_core b 0 Wb) as (b0 & Eb0 & Wb0 & Pb0 & Qb0 & Rb0 & Sb0); [lia|].
    assert (Na0 : nr a0 = 1) by (rewrite (wf_rank0 a Wa) in Ra0; congruence).
    assert (Nb0 : nr b0 = 1) by (rewrite (wf_rank0 b Wb) in Rb0; congruence).
    rewrite (aget_ok _ _ _ Ea0), (aget_ok _ _ _ Eb0). cbn [obind].
    destruct (qmarray_kron_integrate_ok a0 b0 Wa0 Wb0) as (t & Et & Lt & Ht). rewrite Et. cbn [obind].
    match goal with |- context [for_from 1 _ ?bd ?s] =>
      destruct (for_from_inv (fun ii (l : list R) =>
        exists ra rb v, nth_error (ft_ranks a) ii = Some ra /\ nth_error (ft_ranks b) ii = Some rb /\
          (forall ia ib, ia < ra -> ib < rb -> nth_error l (ia * rb + ib) = Some (v ia ib)) /\
          sum ra (fun i => sum rb (fun l => v i l *! sval2 ks (ft_cores a) (ft_cores b) ii i l)) = V)
        bd 1 (ft_dim a - 1) s) as [l [EL IL]] end.
    - exists (nc a0), (nc b0), (fun ja jb => ent2 q a0 0 ja b0 0 jb).
      split; [exact Sa0|]. split; [exact Sb0|]. split.
      + intros ja jb Hja Hjb. specialize (Ht 0 0 ja jb ltac:(lia) ltac:(lia) Hja Hjb).
        rewrite Na0, Nb0 in Ht.
        replace (ja * nc b0 + jb) with ((ja * nc b0 + jb) * (1 * 1) + (0 * 1 + 0)) by lia.
        rewrite Ht. reflexivity.
      + unfold V. change (val2 ks (ft_cores a) (ft_cores b) 0 0)
          with (sval2 ks (ft_cores a) (ft_cores b) 0 0 0).
        rewrite (sval2_step _ _ _ _ _ _ _ _ _ (Hks 0 Hpos) Ea0 Eb0). reflexivity.
    - intros ii l Hii (ra & rb & v & Hra & Hrb & Hl & HS).
      destruct (wf_core a ii Wa) as (ca & Eca & Wca & Pca & Qca & Rca & Sca); [lia|].
      destruct (wf_core b ii Wb) as (cb & Ecb & Wcb & Pcb & Qcb & Rcb & Scb); [lia|].
      rewrite (aget_ok _ _ _ Eca), (aget_ok _ _ _ Ecb). cbn [obind].
      assert (ra = nr ca) as -> by congruence. assert (rb = nr cb) as -> by congruence.
      destruct (inner2_core_ok l ca cb v HLl Wca Wcb Pcb Hl) as (r & Er & Lr & Hr).
      rewrite Er. eexists; split; [reflexivity|].
      exists (nc ca), (nc cb), (fun ja jb => sum (nr ca) (fun ia => sum (nr cb) (fun ib =>
                   v ia ib *! ent2 q ca ia ja cb ib jb))).
      repeat split; auto.
      + intros ja jb Hja Hjb. rewrite Hr by auto. f_equal. apply sum_ext; intros ia Hia.
        apply sum_ext; intros ib Hib. f_equal. unfold ent2, q.
        destruct (entry ca ia ja), (entry cb ib jb); auto.
      + apply (fwd_step2 ks _ _ ii q ca cb v V); auto. apply Hks; lia.
    - rewrite EL. cbn [obind]. replace (1 + (ft_dim a - 1)) with (ft_dim a) in IL by lia.
      destruct IL as (ra & rb & v & Hra & Hrb & Hl & HS).
      rewrite (wf_rankd a Wa) in Hra. rewrite Hdd, (wf_rankd b Wb) in Hrb.
      assert (ra = 1) as -> by congruence. assert (rb = 1) as -> by congruence.
      rewrite !sum_1, sval2_end in HS by lia.
      apply aget_ok. change 0 with (0 * 1 + 0). rewrite Hl by lia. f_equal. rewrite <- HS. ring.
  Qed.

  Theorem ft_inner_rl_raw (a b : ftrain U) :
    law_inner_lin_l U -> law_inner_sym U -> ft_wf a -> ft_wf b -> ft_dim a = ft_dim b ->
    ft_inner_rl a b = Ok (val2 (repeat uinner (ft_dim a)) (ft_cores a) (ft_cores b) 0 0).
  Proof.
    intros HLl HSy Wa Wb Hdd. unfold ft_inner_rl. rewrite Hdd, Nat.eqb_refl. cbn [cassert obind]. rewrite <- Hdd.
    pose (q := @uinner R U).
    destruct (inner_setup a b q Wa Wb Hdd) as [Lks Hks].
    change (repeat uinner (ft_dim a)) with (repeat q (ft_dim a)).
    set (ks := repeat q (ft_dim a)) in *. set (d := ft_dim a) in *.
    pose proof Wa as (_ & Hpos & _). fold d in Hpos.
    destruct (wf_core a (d - 1) Wa) as (al & Eal & Wal & Pal & Qal & Ral & Sal); [fold d; lia|].
    destruct (wf_core b (d - 1) Wb) as (bl & Ebl & Wbl & Pbl & Qbl & Rbl & Sbl); [lia|].
    replace (S (d - 1)) with d in Sal, Sbl by lia.
    assert (Nal : nc al = 1) by (pose proof (wf_rankd a Wa) as HH; fold d in HH; congruence).
    assert (Nbl : nc bl = 1) by (pose proof (wf_rankd b Wb) as HH; rewrite <- Hdd in HH; congruence).
    rewrite (aget_ok _ _ _ Eal), (aget_ok _ _ _ Ebl). cbn [obind].
    destruct (qmarray_kron_integrate_ok al bl Wal Wbl) as (t & Et & Lt & Ht). rewrite Et. cbn [obind].
    match goal with |- context [for_from 1 _ ?bd ?s] =>
      destruct (for_from_inv (fun ii (l : list R) =>
        exists ra rb, nth_error (ft_ranks a) (d - ii) = Some ra /\ nth_error (ft_ranks b) (d - ii) = Some rb /\
          (forall ia ib, ia < ra -> ib < rb -> nth_error l (ia * rb + ib)
              = Some (sval2 ks (ft_cores a) (ft_cores b) (d - ii) ia ib)))
        bd 1 (d - 1) s) as [l [EL IL]] end.
    - exists (nr al), (nr bl). split; [exact Ral|]. split; [exact Rbl|].
      intros ia ib Hia Hib. specialize (Ht ia ib 0 0 Hia Hib ltac:(lia) ltac:(lia)).
      rewrite Nbl in Ht.
      replace (ia * nr bl + ib) with ((0 * 1 + 0) * (nr al * nr bl) + (ia * nr bl + ib)) by lia.
      rewrite Ht. f_equal.
      rewrite (sval2_step _ _ _ _ _ _ _ _ _ (Hks (d - 1) ltac:(lia)) Eal Ebl).
      rewrite Nal, Nbl, !sum_1, sval2_end by lia. unfold q. ring.
    - intros ii l Hii (ra & rb & Hra & Hrb & Hl).
      destruct (wf_core a (d - 1 - ii) Wa) as (ca & Eca & Wca & Pca & Qca & Rca & Sca); [lia|].
      destruct (wf_core b (d - 1 - ii) Wb) as (cb & Ecb & Wcb & Pcb & Qcb & Rcb & Scb); [lia|].
      replace (S (d - 1 - ii)) with (d - ii) in Sca, Scb by lia.
      rewrite (aget_ok _ _ _ Eca), (aget_ok _ _ _ Ecb). cbn [obind].
      assert (ra = nc ca) as -> by congruence. assert (rb = nc cb) as -> by congruence.
      destruct (qmam_ok cb l (nc ca) (fun k i => sval2 ks (ft_cores a) (ft_cores b) (d - ii) i k) Wcb Qcb)
        as (c & Ec & N1 & N2 & Wc & Hc).
      { intros k i Hk Hi. auto. }
      rewrite Ec. cbn [obind].
      destruct (qmaqmat_integrate_ok c ca Wc Wca) as (r & Er & Lr & Hr); [congruence|].
      rewrite Er. eexists; split; [reflexivity|].
      exists (nr ca), (nr cb). replace (d - S ii) with (d - 1 - ii) by lia.
      split; [exact Rca|]. split; [exact Rcb|].
      intros ia ib Hia Hib. rewrite N1 in Hr. rewrite Hr by auto. f_equal.
      rewrite (sval2_step _ _ _ _ _ _ _ _ _ (Hks (d - 1 - ii) ltac:(lia)) Eca Ecb).
      replace (S (d - 1 - ii)) with (d - ii) by lia.
      rewrite N2. apply sum_ext. intros ja Hja.
      destruct (Hc ib ja Hib Hja) as (u & Hu & Hphi).
      destruct (entry_some ca ia ja Wca Hia Hja) as (f & Hf).
      unfold ent2 at 1. rewrite Hu, Hf. rewrite (Hphi (fun g => uinner g f) (HLl f)).
      apply sum_ext. intros jb Hjb. unfold ent, ent2. rewrite Hf.
      destruct (entry cb ib jb); [|ring]. unfold q. rewrite HSy. ring.
    - rewrite EL. cbn [obind]. replace (d - (1 + (d - 1))) with 0 in IL by lia.
      destruct IL as (ra & rb & Hra & Hrb & Hl).
      rewrite (wf_rank0 a Wa) in Hra. rewrite (wf_rank0 b Wb) in Hrb.
      assert (ra = 1) as -> by congruence. assert (rb = 1) as -> by congruence.
      apply aget_ok. change 0 with (0 * 1 + 0) at 1. rewrite Hl by lia. reflexivity.
  Qed.

  Lemma train_inner_val2 (a b : ftrain U) :
    ft_wf a -> ft_wf b -> ft_dim a = ft_dim b ->
    train_inner a b = val2 (repeat uinner (ft_dim a)) (ft_cores a) (ft_cores b) 0 0.
  Proof.
    intros Wa Wb Hdd. destruct (wf_lens a Wa) as [La _]. destruct (wf_lens b Wb) as [Lb _].
    unfold train_inner. rewrite inner_val2 by congruence. rewrite <- La.
    f_equal. generalize (ft_cores a). intros l. induction l as [|c cs IH]; simpl; auto. now rewrite IH.
  Qed.

  (** The sum over pairs of paths of the three inner-product routines. *)
  Theorem ft_inner_ok (a b : ftrain U) :
    law_inner_lin_r U -> law_inner_sym U -> ft_wf a -> ft_wf b -> ft_dim a = ft_dim b ->
    ft_inner a b = Ok (train_inner a b).
  Proof.
    intros HLr HSy Wa Wb Hdd. rewrite ft_inner_raw by auto. f_equal.
    rewrite train_inner_val2 by auto. apply val2_ext; [|now rewrite !repeat_length].
    intros n k k' E1 E2 f g.
    apply nth_error_In in E1. apply repeat_spec in E1. subst k.
    apply nth_error_In in E2. apply repeat_spec in E2. subst k'. apply HSy.
  Qed.

  Theorem ft_inner2_ok (a b : ftrain U) :
    law_inner_lin_l U -> law_inner_sym U -> ft_wf a -> ft_wf b -> ft_dim a = ft_dim b ->
    ft_inner2 a b = Ok (train_inner a b).
  Proof. intros. rewrite ft_inner2_raw by auto. now rewrite train_inner_val2. Qed.

  Theorem ft_inner_rl_ok (a b : ftrain U) :
    law_inner_lin_l U -> law_inner_sym U -> ft_wf a -> ft_wf b -> ft_dim a = ft_dim b ->
    ft_inner_rl a b = Ok (train_inner a b).
  Proof. intros. rewrite ft_inner_rl_raw by auto. now rewrite train_inner_val2. Qed.

  (** The inner product is the integral of the product train. *)
  Theorem inner_is_integral_of_product (a b : ftrain U) :
    law_int_prod U -> ft_wf a -> ft_wf b -> ft_dim a = ft_dim b ->
    exists c, ft_product a b = Ok c /\ ft_integrate c = Ok (train_inner a b).
  Proof.
    intros HI Wa Wb Hdd. destruct (ft_product_ok a b Wa Wb Hdd) as (c & Ec & Wc & Dc & Hc).
    exists c. split; auto. rewrite ft_integrate_ok by auto. f_equal.
    destruct (wf_lens c Wc) as [Lc _].
    unfold train_integral. rewrite tsum_val by now rewrite map_length.
    rewrite Hc by (rewrite map_length; congruence). rewrite train_inner_val2 by auto.
    apply val2_ext.
    - intros n k k' E1 E2 f g. rewrite !nth_error_map in E1.
      destruct (nth_error (ft_cores c) n); [|discriminate]. simpl in E1. inversion E1; subst k.
      apply nth_error_In in E2. apply repeat_spec in E2. subst k'. apply HI.
    - rewrite !map_length, repeat_length. congruence.
  Qed.

  (** Linearity of the integral over train sums and scalings. *)
  Theorem sum_integral (a b : ftrain U) :
    law_int_lin U -> ft_wf a -> ft_wf b -> ft_dim a = ft_dim b -> 2 <= ft_dim a ->
    exists c, ft_sum a b = Ok c /\
      ft_integrate c = Ok (train_integral a +! train_integral b).
  Proof.
    intros HL Wa Wb Hdd H2. destruct (ft_sum_ok a b Wa Wb Hdd H2) as (c & Ec & Wc & Dc & Hc).
    exists c; split; auto. rewrite ft_integrate_ok by auto. f_equal.
    destruct (wf_lens a Wa) as [La _]. destruct (wf_lens b Wb) as [Lb _]. destruct (wf_lens c Wc) as [Lc _].
    unfold train_integral. rewrite !tsum_val by now rewrite map_length.
    assert (EQ : forall l l' : list (qma U), length l = length l' ->
      map (fun _ (g : U) => uint g) l = map (fun _ (g : U) => uint g) l').
    { induction l as [|x l IH]; intros [|y l'] H; simpl in *; try lia; auto. f_equal. apply IH; lia. }
    rewrite (EQ (ft_cores c) (ft_cores a)), (EQ (ft_cores b) (ft_cores a)) by congruence.
    apply Hc; [now rewrite map_length|].
    intros h Hh. apply in_map_iff in Hh. destruct Hh as [y [<- _]]. apply HL.
  Qed.
End FTInt.
