(** Correctness of the two sweeps of ft_param_gradeval / ft_param_gradeval_lin. *)
From Verif Require Export PGradModel FTGradEval.

Section PGradFacts.
  Context {R : CRing}.
  Open Scope cr_scope.
  Add Ring Rr28 : (rth R).

  Variables (d : nat) (r : nat -> nat) (ranks npu npc : list nat).
  Variable M : nat -> nat -> nat -> R.
  Variable TG : nat -> R.
  Variable GI : nat -> list R -> Prop.
  Variable evf : nat -> nat -> nat -> nat -> list R -> outcome (R * list R).

  Let np q := nth q npu 0.
  Let SO := offs (fun q => r (S q)).
  Let EO := offs (fun q => r q * r (S q)).
  Let PO := offs np.

  Hypothesis Hr0 : r 0 = 1.
  Hypothesis Hrd : r d = 1.
  Hypothesis Hd : 0 < d.
  Hypothesis Hrk : forall k, k <= d -> aget ranks k = Ok (r k).
  Hypothesis Hpos : forall k, k <= d -> 0 < r k.
  Hypothesis Hnpu : EO d <= length npu.
  Hypothesis Hnpc : forall k, k < d -> aget npc k = Ok (PO (EO (S k)) - PO (EO k)).
  Hypothesis Hev : forall k i j ge, k < d -> i < r k -> j < r (S k) ->
    GI (EO k + (j * r k + i)) ge ->
    exists ge', evf k (i + j * r k) (EO k + (j * r k + i)) (PO (EO k + (j * r k + i))) ge = Ok (M k i j, ge') /\
      GI (S (EO k + (j * r k + i))) ge'.
  Hypothesis Hge : forall ge p, GI (EO d) ge -> p < PO (EO d) -> nth_error ge p = Some (TG p).

  (** Weight of univariate function (i,j) of core k. *)
  Definition pgw k i j := fw r M k i *! bw r M (d - 1 - k) (S k) j.

  Lemma pg_npu q : q < EO d -> aget npu q = Ok (np q).
  Proof. intros H. apply aget_ok. apply nth_error_nth'. lia. Qed.

  Lemma pg_EO k i j : k < d -> i < r k -> j < r (S k) -> S (EO k + (j * r k + i)) <= EO (S k) /\ EO (S k) <= EO d.
  Proof.
    intros Hk Hi Hj. split.
    - change (EO (S k)) with (EO k + r k * r (S k)). nia.
    - apply offs_mono. lia.
  Qed.

  (** ** Forward sweep *)
  Definition fwI (mem ev : list R) TL TE k (s : pst (R := R)) :=
    length (p_mem s) = length mem /\ length (p_ev s) = length ev /\ GI (EO k) (p_ge s) /\
    p_uni s = EO k /\ p_par s = PO (EO k) /\ p_ind s = SO (k - 1) /\
    pre (p_mem s) (SO k) TL /\ pre (p_ev s) (EO k) TE.

  Lemma pg_forward_ok mem ev ge TL TE :
    SO d <= length mem -> EO d <= length ev -> GI 0 ge ->
    (forall q j, q < d -> j < r (S q) -> TL (SO q + j) = fw r M (S q) j) ->
    (forall q p, q < d -> p < r q * r (S q) -> TE (EO q + p) = M q (p mod r q) (p / r q)) ->
    exists s, pg_forward d ranks npu evf (mkpst mem ev ge 0 0 0) = Ok s /\ fwI mem ev TL TE d s.
  Proof.
    intros Lm Le HG HTL HTE. unfold pg_forward.
    match goal with |- context [for_ d ?B ?S0] =>
      destruct (for_inv (fwI mem ev TL TE) B d S0) as (s & E & HI); [| |now exists s]
    end.
    { unfold fwI. cbn [p_mem p_ev p_ge p_uni p_par p_ind]. repeat split; auto; intros p Hp; cbn in Hp; lia. }
    intros kk s Hkk (L1 & L2 & G1 & U1 & U2 & U3 & P1 & P2).
    rewrite (Hrk kk), (Hrk (kk + 1)) by lia. cbn [obind]. replace (kk + 1) with (S kk) by lia.
    assert (SS : SO (S kk) = SO kk + r (S kk)) by reflexivity.
    assert (ES : EO (S kk) = EO kk + r kk * r (S kk)) by reflexivity.
    assert (SM : SO (S kk) <= SO d) by (apply offs_mono; lia).
    assert (EM : EO (S kk) <= EO d) by (apply offs_mono; lia).
    match goal with |- context [for_ (r (S kk)) ?B s] =>
      destruct (for_inv (fun col (t : pst (R := R)) =>
        length (p_mem t) = length mem /\ length (p_ev t) = length ev /\ GI (EO kk + col * r kk) (p_ge t) /\
        p_uni t = EO kk + col * r kk /\ p_par t = PO (EO kk + col * r kk) /\ p_ind t = SO (kk - 1) /\
        pre (p_mem t) (SO kk + col) TL /\ pre (p_ev t) (EO kk + col * r kk) TE) B (r (S kk)) s)
        as (t & E & M1 & M2 & M3 & V1 & V2 & V3 & Q1 & Q2)
    end.
    - rewrite Nat.mul_0_l, !Nat.add_0_r. repeat split; auto.
    - clear L1 L2 G1 U1 U2 U3 P1 P2. intros col t Hc (M1 & M2 & M3 & V1 & V2 & V3 & Q1 & Q2).
      destruct (Nat.ltb_spec 0 kk) as [Hk0|Hk0].
      + assert (EK : SO kk = SO (kk - 1) + r kk).
        { destruct kk as [|kk']; [lia|]. replace (S kk' - 1) with kk' by lia. reflexivity. }
        rewrite V3, <- EK. rewrite aset_ok by lia. cbn [obind].
        match goal with |- context [for_ (r kk) ?B ?S0] =>
          destruct (for_inv (fun row (u : pst (R := R)) =>
            length (p_mem u) = length mem /\ length (p_ev u) = length ev /\ GI (EO kk + (col * r kk + row)) (p_ge u) /\
            p_uni u = EO kk + (col * r kk + row) /\ p_par u = PO (EO kk + (col * r kk + row)) /\ p_ind u = SO (kk - 1) /\
            pre (p_mem u) (SO kk + col) TL /\
            nth_error (p_mem u) (SO kk + col) = Some (sum row (fun i => fw r M kk i *! M kk i col)) /\
            pre (p_ev u) (EO kk + (col * r kk + row)) TE) B (r kk) S0)
            as (u & E & O1 & O2 & O3 & W1 & W2 & W3 & X1 & X2 & X3)
        end.
        * cbn [p_mem p_ev p_ge p_uni p_par p_ind]. rewrite upd_length, Nat.add_0_r. repeat split; auto.
          -- now apply pre_upd.
          -- rewrite nth_error_upd_same by lia. reflexivity.
        * clear M1 M2 M3 V1 V2 V3 Q1 Q2. intros row u Hrow (M1 & M2 & M3 & V1 & V2 & V3 & Q1 & Q2 & Q3).
          destruct (pg_EO kk row col Hkk Hrow Hc) as [B1 B2].
          destruct (Hev kk row col _ Hkk Hrow Hc M3) as (ge' & Ee & Ge').
          rewrite V1, V2, Ee. cbn [obind]. rewrite aset_ok by lia. cbn [obind].
          rewrite (aget_ok _ _ _ Q2). cbn [obind].
          assert (Hb : nth_error (p_mem u) (SO (kk - 1) + row) = Some (fw r M kk row)).
          { rewrite Q1 by lia. f_equal. rewrite HTL; try lia.
            - replace (S (kk - 1)) with kk by lia. reflexivity.
            - replace (S (kk - 1)) with kk by lia. auto. }
          rewrite V3, (aget_ok _ _ _ Hb). cbn [obind].
          rewrite (aget_ok (upd (p_ev u) _ _) _ (M kk row col)) by (rewrite nth_error_upd_same by lia; reflexivity).
          cbn [obind]. rewrite aset_ok by lia. cbn [obind]. rewrite pg_npu by lia. cbn [obind].
          eexists. split; [reflexivity|]. cbv beta iota. cbn [p_mem p_ev p_ge p_uni p_par p_ind]. rewrite !upd_length.
          replace (EO kk + (col * r kk + S row)) with (S (EO kk + (col * r kk + row))) by lia.
          repeat split; auto; try lia.
          -- now apply pre_upd.
          -- rewrite nth_error_upd_same by lia. reflexivity.
          -- apply pre_snoc; [now apply pre_upd|]. rewrite nth_error_upd_same by lia. f_equal.
             rewrite HTE by nia. now rewrite idx_mod, idx_div by auto.
        * rewrite E. eexists. split; [reflexivity|]. cbv beta iota.
          replace (S col * r kk) with (col * r kk + r kk) by lia.
          repeat split; auto. replace (SO kk + S col) with (S (SO kk + col)) by lia.
          apply pre_snoc; auto. rewrite X2. f_equal. rewrite HTL by lia. cbn [fw]. apply sum_ext. intros i Hi. ring.
      + assert (kk = 0) by lia. subst kk. clear Hk0.
        destruct (pg_EO 0 0 col Hkk ltac:(lia) Hc) as [B1 B2].
        destruct (Hev 0 0 col (p_ge t) Hkk) as (ge' & Ee & Ge'); [lia|auto| |].
        { replace (col * r 0 + 0) with (col * r 0) by lia. auto. }
        rewrite Hr0 in *. rewrite !Nat.mul_1_r, ?Nat.add_0_r in *.
        change (EO 0) with 0 in *. change (SO 0) with 0 in *. cbn [Nat.add] in *.
        rewrite V1, V2, Ee. cbn [obind]. rewrite aset_ok by lia. cbn [obind].
        rewrite (aget_ok (upd (p_mem t) _ _) _ (M 0 0 col)) by (rewrite nth_error_upd_same by lia; reflexivity).
        cbn [obind]. rewrite aset_ok by lia. cbn [obind]. rewrite pg_npu by lia. cbn [obind].
        eexists. split; [reflexivity|]. cbv beta iota. cbn [p_mem p_ev p_ge p_uni p_par p_ind]. rewrite !upd_length.
        repeat split; auto; try lia.
        * apply pre_snoc; [now apply pre_upd|]. rewrite nth_error_upd_same by lia. f_equal.
          replace col with (SO 0 + col) by reflexivity. rewrite HTL by auto. cbn [fw]. rewrite Hr0, sum_1.
          change (SO 0 + col) with col. ring.
        * apply pre_snoc; [now apply pre_upd|]. rewrite nth_error_upd_same by lia. f_equal.
          replace col with (EO 0 + col) by reflexivity. rewrite HTE by (rewrite ?Hr0; lia).
          change (EO 0 + col) with col. rewrite Hr0, Nat.mod_1_r, Nat.div_1_r. reflexivity.
    - rewrite E. cbn [obind]. eexists. split; [reflexivity|]. cbv beta iota. unfold fwI.
      rewrite ES, SS, (Nat.mul_comm (r kk)). replace (S kk - 1) with kk by lia.
      destruct (Nat.ltb_spec 0 kk) as [Hk0|Hk0]; cbn [p_mem p_ev p_ge p_uni p_par p_ind].
      + repeat split; auto. rewrite V3. destruct kk as [|kk']; [lia|].
        replace (S kk' - 1) with kk' by lia. reflexivity.
      + assert (kk = 0) by lia. subst kk. repeat split; auto.
  Qed.

  (** ** Backward sweep *)
  Definition rng (l : list R) a b (T : nat -> R) := forall p, a <= p -> p < b -> nth_error l p = Some (T p).

  Lemma pg_fill_ok ge (grad : list R) w q T :
    GI (EO d) ge -> q < EO d -> PO (EO d) <= length grad ->
    (forall l, l < np q -> w (TG (PO q + l)) = T (PO q + l)) ->
    exists grad', pg_fill ge w (np q) (grad, PO q) = Ok (grad', PO (S q)) /\
      length grad' = length grad /\
      rng grad' (PO q) (PO (S q)) T /\
      (forall p, p < PO q \/ PO (S q) <= p -> nth_error grad' p = nth_error grad p).
  Proof.
    intros HG Hq HL Hw. assert (PS : PO (S q) = PO q + np q) by reflexivity.
    assert (PM : PO (S q) <= PO (EO d)) by (apply offs_mono; lia).
    unfold pg_fill.
    match goal with |- context [for_ (np q) ?B ?S0] =>
      destruct (for_inv (fun l (s : list R * nat) => let '(g, par) := s in
        par = PO q + l /\ length g = length grad /\ rng g (PO q) (PO q + l) T /\
        (forall p, p < PO q \/ PO q + l <= p -> nth_error g p = nth_error grad p)) B (np q) S0)
        as ([g par] & E & Epar & Lg & H1 & H2)
    end.
    - repeat split; auto. intros p Hp1 Hp2. lia.
    - intros l [g par] Hl (-> & Lg & H1 & H2).
      rewrite (aget_ok _ _ _ (Hge ge (PO q + l) HG ltac:(lia))). cbn [obind].
      rewrite aset_ok by lia. cbn [obind]. eexists. split; [reflexivity|]. cbv beta iota.
      rewrite upd_length. repeat split; auto; try lia.
      + intros p Hp1 Hp2. destruct (Nat.eq_dec p (PO q + l)) as [->|].
        * rewrite nth_error_upd_same by lia. now rewrite Hw by lia.
        * rewrite nth_error_upd_other by lia. apply H1; lia.
      + intros p Hp. rewrite nth_error_upd_other by lia. apply H2. lia.
    - exists g. rewrite E, Epar, PS. auto.
  Qed.

  Lemma rng_cat (l l' : list R) a b c T : rng l a b T -> rng l' b c T ->
    (forall p, p < b \/ c <= p -> nth_error l' p = nth_error l p) -> rng l' a c T.
  Proof.
    intros H1 H2 H3 p Hp1 Hp2. destruct (Nat.lt_ge_cases p b).
    - rewrite H3 by lia. apply H1; lia.
    - apply H2; lia.
  Qed.

  Theorem pg_gradeval_ok grad ge mem ev :
    2 <= d -> SO d <= length mem -> EO d <= length ev -> PO (EO d) <= length grad -> GI 0 ge ->
    exists grad' mem' ev' ge',
      pg_gradeval d ranks npu npc evf grad ge mem ev = Ok (bw r M d 0 0, grad', mem', ev', ge') /\
      length grad' = length grad /\ length mem' = length mem /\ length ev' = length ev /\ GI (EO d) ge' /\
      (forall k i j l, k < d -> i < r k -> j < r (S k) -> l < np (EO k + (j * r k + i)) ->
         nth_error grad' (PO (EO k + (j * r k + i)) + l) =
         Some (pgw k i j *! TG (PO (EO k + (j * r k + i)) + l))) /\
      (forall p, PO (EO d) <= p -> nth_error grad' p = nth_error grad p).
  Proof.
    intros Hd2 Lm Le Lgr HG0.
    destruct (flat_target r0 (fun q => r (S q)) (fun q j => fw r M (S q) j) d) as [TL HTL].
    destruct (flat_target r0 (fun q => r q * r (S q)) (fun q p => M q (p mod r q) (p / r q)) d) as [TE HTE].
    destruct (flat_target r0 (fun q => r q * r (S q)) (fun q p => pgw q (p mod r q) (p / r q)) d) as [LR HLR].
    destruct (flat_target r0 np (fun q l => LR q *! TG (PO q + l)) (EO d)) as [T HT].
    fold SO in HTL. fold EO in HTE, HLR. fold PO in HT.
    unfold pg_gradeval. rewrite (Hrk 0), Hr0 by lia. cbn [obind Nat.eqb cassert].
    destruct (pg_forward_ok mem ev ge TL TE Lm Le HG0 HTL HTE) as (s & Ef & L1 & L2 & HG & U1 & U2 & U3 & P1 & P2).
    rewrite Ef. cbn [obind].
    assert (ESd : SO d = SO (d - 1) + 1).
    { replace d with (S (d - 1)) at 1 by lia. unfold SO. cbn [offs]. replace (S (d - 1)) with d by lia. now rewrite Hrd. }
    assert (Hout : nth_error (p_mem s) (p_ind s) = Some (bw r M d 0 0)).
    { rewrite U3, P1 by lia. f_equal. replace (SO (d - 1)) with (SO (d - 1) + 0) by lia.
      rewrite HTL; try lia.
      - replace (S (d - 1)) with d by lia. now apply fw_total.
      - replace (S (d - 1)) with d by lia. rewrite Hrd. lia. }
    rewrite (aget_ok _ _ _ Hout). cbn [obind].
    rewrite U1, U2, U3. unfold pg_backward.
    assert (HLR' : forall k i j, k < d -> i < r k -> j < r (S k) -> LR (EO k + (j * r k + i)) = pgw k i j).
    { intros k i j Hk Hi Hj. rewrite HLR by nia. now rewrite idx_mod, idx_div by auto. }
    pose (J := fun zz (t : list R * list R * nat * nat * nat) =>
      let '(g, m, uni, par, ind) := t in
      length g = length grad /\ length m = length mem /\ uni = EO (d - zz) /\ par = PO (EO (d - zz)) /\
      ind = SO (d - 1 - zz) /\ pre m (SO (d - 1 - zz)) TL /\
      (0 < zz -> forall j, j < r (d - zz) -> nth_error m (ind + j) = Some (bw r M zz (d - zz) j)) /\
      rng g (PO (EO (d - zz))) (PO (EO d)) T /\
      (forall p, PO (EO d) <= p -> nth_error g p = nth_error grad p)).
    match goal with |- context [for_ (d - 1) ?B ?S0] =>
      destruct (for_inv J B (d - 1) S0) as ([[[[g m] uni] par] ind] & E & HJ)
    end.
    { unfold J. rewrite !Nat.sub_0_r. repeat split; auto; try lia.
      - intros p Hp. apply P1. lia.
      - intros p Hp1 Hp2. lia. }
    { intros zz [[[[g m] uni] par] ind] Hzz (Lg & Lm' & -> & -> & -> & Pm & Hb & Hrng & Hrest).
      set (b := d - 1 - zz) in *. assert (Hb1 : d - zz = S b) by (unfold b; lia). rewrite Hb1 in *.
      assert (Hbd : b < d) by (unfold b; lia). assert (Hb0 : 0 < b) by (unfold b; lia).
      rewrite (Hrk b), (Hrk (b + 1)) by lia. cbn [obind]. replace (b + 1) with (S b) by lia.
      rewrite (Hnpc b Hbd). cbn [obind].
      assert (EK : SO b = SO (b - 1) + r b).
      { destruct b as [|b']; [lia|]. replace (S b' - 1) with b' by lia. reflexivity. }
      assert (ES : EO (S b) = EO b + r b * r (S b)) by reflexivity.
      assert (EM : EO (S b) <= EO d) by (apply offs_mono; lia).
      assert (SM : SO b <= SO (d - 1)) by (apply offs_mono; lia).
      assert (SMb : SO (S b) <= SO d) by (apply offs_mono; lia).
      assert (SSb : SO (S b) = SO b + r (S b)) by reflexivity.
      assert (PM : PO (EO b) <= PO (EO (S b))) by (apply offs_mono; lia).
      assert (PMd : PO (EO (S b)) <= PO (EO d)) by (apply offs_mono; lia).
      replace (SO b - r b) with (SO (b - 1)) by lia.
      replace (EO (S b) - r b * r (S b)) with (EO b) by lia.
      replace (PO (EO (S b)) - (PO (EO (S b)) - PO (EO b))) with (PO (EO b)) by lia.
      assert (Hleft : forall kk, kk < r b -> nth_error m (SO (b - 1) + kk) = Some (fw r M b kk)).
      { intros kk Hkk. rewrite Pm by lia. f_equal. rewrite HTL; try lia.
        - replace (S (b - 1)) with b by lia. reflexivity.
        - replace (S (b - 1)) with b by lia. auto. }
      destruct (Nat.ltb_spec b (d - 1)) as [Hbl|Hbl].
      - assert (Hz0 : 0 < zz) by (unfold b in Hbl; lia). specialize (Hb Hz0).
        match goal with |- context [for_ (r (S b)) ?B ?S0] =>
          destruct (for_inv (fun ii (t : list R * nat * nat) =>
            let '(g', uni, par) := t in
            length g' = length grad /\ uni = EO b + ii * r b /\ par = PO (EO b + ii * r b) /\
            rng g' (PO (EO b)) (PO (EO b + ii * r b)) T /\
            (forall p, PO (EO (S b)) <= p -> nth_error g' p = nth_error g p)) B (r (S b)) S0)
            as ([[g' uni] par] & E1 & Lg' & -> & -> & R1 & R2)
        end.
        + rewrite Nat.mul_0_l, Nat.add_0_r. repeat split; auto. intros p Hp1 Hp2. lia.
        + intros ii [[g1 uni] par] Hii (Lg1 & -> & -> & R1 & R2).
          rewrite (aget_ok m (SO (b - 1) + r b + ii) (bw r M zz (S b) ii))
            by (rewrite <- EK; auto).
          cbn [obind].
          match goal with |- context [for_ (r b) ?B ?S0] =>
            destruct (for_inv (fun kk (t : list R * nat * nat) =>
              let '(g', uni, par) := t in
              length g' = length grad /\ uni = EO b + (ii * r b + kk) /\ par = PO (EO b + (ii * r b + kk)) /\
              rng g' (PO (EO b)) (PO (EO b + (ii * r b + kk))) T /\
              (forall p, PO (EO (S b)) <= p -> nth_error g' p = nth_error g p)) B (r b) S0)
              as ([[g' uni] par] & E2 & Lg' & -> & -> & R3 & R4)
          end.
          * rewrite Nat.add_0_r. repeat split; auto.
          * clear g1 Lg1 R1 R2. intros kk [[g1 uni] par] Hkk (Lg1 & -> & -> & R1 & R2).
            destruct (pg_EO b kk ii Hbd Hkk Hii) as [B1 B2].
            rewrite (aget_ok _ _ _ (Hleft kk Hkk)). cbn [obind].
            rewrite pg_npu by lia. cbn [obind].
            destruct (pg_fill_ok (p_ge s) g1 (fun g0 => fw r M b kk *! g0 *! bw r M zz (S b) ii)
                        (EO b + (ii * r b + kk)) T HG) as (g2 & E2 & Lg2 & F1 & F2).
            { lia. } { lia. }
            { intros l Hl. rewrite HT by (auto; lia). rewrite HLR' by auto. unfold pgw.
              replace (d - 1 - b) with zz by (unfold b; lia). ring. }
            rewrite E2. cbn [obind]. eexists. split; [reflexivity|]. cbv beta iota.
            replace (EO b + (ii * r b + S kk)) with (S (EO b + (ii * r b + kk))) by lia.
            repeat split; try lia.
            -- eapply rng_cat; eauto.
            -- intros p Hp. rewrite F2; auto. right.
               assert (PO (S (EO b + (ii * r b + kk))) <= PO (EO (S b))) by (apply offs_mono; lia). lia.
          * rewrite E2. eexists. split; [reflexivity|]. cbv beta iota.
            replace (EO b + S ii * r b) with (EO b + (ii * r b + r b)) by lia. repeat split; auto.
        + rewrite E1. cbn [obind]. rewrite (Nat.mul_comm (r (S b))) in *. rewrite <- ES in *.
          replace (PO (EO (S b)) - (PO (EO (S b)) - PO (EO b))) with (PO (EO b)) by lia.
          replace (EO (S b) - r b * r (S b)) with (EO b) by lia.
          destruct (dgemv_nx_ok (r b) (r (S b)) (p_ev s) (EO b) (r b) m (SO (b - 1) + r b) m (SO (b - 1))
                      (M b) (fun j => bw r M zz (S b) j)) as (m' & Em & Lm2 & H1 & H2).
          * apply Hpos; lia.
          * apply Hpos; lia.
          * intros i j Hi Hj. rewrite P2 by nia. f_equal.
            replace (EO b + j * r b + i) with (EO b + (j * r b + i)) by lia.
            rewrite HTE by nia. now rewrite idx_mod, idx_div by auto.
          * intros j Hj. rewrite <- EK. auto.
          * lia.
          * rewrite Em. cbn [obind]. eexists. split; [reflexivity|]. cbv beta iota. unfold J.
            replace (d - S zz) with b by (unfold b; lia). replace (d - 1 - S zz) with (b - 1) by (unfold b; lia).
            repeat split; auto; try lia.
            -- intros p Hp. rewrite H2 by lia. apply Pm. lia.
            -- intros p Hp1 Hp2. destruct (Nat.lt_ge_cases p (PO (EO (S b)))); [apply R1; lia|].
               rewrite R2 by lia. apply Hrng; lia.
            -- intros p Hp. rewrite R2 by lia. auto.
      - assert (Hbe : S b = d) by lia. assert (zz = 0) by (unfold b in Hbl; lia). subst zz.
        rewrite Hbe, Hrd in *. rewrite !Nat.mul_1_r in *.
        match goal with |- context [for_ (r b) ?B ?S0] =>
          destruct (for_inv (fun kk (t : list R * list R * nat * nat) =>
            let '(g', m', uni, par) := t in
            length g' = length grad /\ length m' = length mem /\ uni = EO b + kk /\ par = PO (EO b + kk) /\
            pre m' (SO (b - 1)) TL /\
            (forall i, i < kk -> nth_error m' (SO (b - 1) + i) = Some (M b i 0)) /\
            (forall i, kk <= i -> i < r b -> nth_error m' (SO (b - 1) + i) = nth_error m (SO (b - 1) + i)) /\
            rng g' (PO (EO b)) (PO (EO b + kk)) T /\
            (forall p, PO (EO d) <= p -> nth_error g' p = nth_error g p)) B (r b) S0)
            as ([[[g' m'] uni] par] & E1 & Lg' & Lm2 & -> & -> & Pm2 & D1 & D2 & R1 & R2)
        end.
        + rewrite !Nat.add_0_r. repeat split; auto.
          * intros p Hp. apply Pm. lia.
          * intros; lia.
          * intros p Hp1 Hp2. lia.
        + intros kk [[[g1 m1] uni] par] Hkk (Lg1 & Lm1 & -> & -> & Pm1 & D1 & D2 & R1 & R2).
          rewrite (aget_ok m1 (SO (b - 1) + kk) (fw r M b kk)) by (rewrite D2 by lia; auto).
          cbn [obind]. rewrite pg_npu by lia. cbn [obind].
          destruct (pg_fill_ok (p_ge s) g1 (fun g0 => fw r M b kk *! g0) (EO b + kk) T HG) as (g2 & E2 & Lg2 & F1 & F2).
          { lia. } { lia. }
          { intros l Hl. rewrite HT by (auto; lia).
            replace (EO b + kk) with (EO b + (0 * r b + kk)) by lia. rewrite HLR' by (rewrite ?Hbe, ?Hrd; lia).
            unfold pgw. replace (d - 1 - b) with 0 by lia. cbn [bw]. ring. }
          rewrite E2. cbn [obind].
          rewrite (aget_ok (p_ev s) (EO b + kk) (M b kk 0)).
          2:{ rewrite P2 by lia. f_equal. rewrite HTE by (rewrite ?Hbe, ?Hrd; lia).
              now rewrite Nat.mod_small, Nat.div_small by lia. }
          cbn [obind]. rewrite aset_ok by lia. cbn [obind]. eexists. split; [reflexivity|]. cbv beta iota.
          rewrite upd_length. replace (EO b + S kk) with (S (EO b + kk)) by lia. repeat split; try lia.
          * apply pre_upd; auto. lia.
          * intros i Hi. destruct (Nat.eq_dec i kk) as [->|].
            -- rewrite nth_error_upd_same by lia. reflexivity.
            -- rewrite nth_error_upd_other by lia. apply D1. lia.
          * intros i Hi1 Hi2. rewrite nth_error_upd_other by lia. apply D2; lia.
          * eapply rng_cat; eauto.
          * intros p Hp. rewrite F2; auto. right.
            assert (PO (S (EO b + kk)) <= PO (EO d)) by (apply offs_mono; lia). lia.
        + rewrite E1. cbn [obind]. eexists. split; [reflexivity|]. cbv beta iota. unfold J.
          rewrite <- ES in *. replace (EO d - r b) with (EO b) by lia.
          replace (PO (EO d) - (PO (EO d) - PO (EO b))) with (PO (EO b)) by lia.
          replace (d - 1) with b by lia. rewrite Nat.sub_0_r in *.
          repeat split; auto; try lia.
          * intros _ j Hj. rewrite D1 by auto. f_equal. cbn [bw]. rewrite Hbe, Hrd, sum_1. ring.
          * intros p Hp. rewrite R2 by auto. auto. }
    rewrite E. cbn [obind]. destruct HJ as (Lg & Lm' & -> & -> & -> & _ & Hb & Hrng & Hrest).
    replace (d - (d - 1)) with 1 in * by lia. replace (d - 1 - (d - 1)) with 0 in * by lia.
    specialize (Hb ltac:(lia)).
    rewrite (Hrk 0), (Hrk 1), Hr0 by lia. cbn [obind]. rewrite (Hnpc 0) by lia. cbn [obind].
    assert (E1 : EO 1 = r 1) by (unfold EO; cbn [offs]; rewrite Hr0; lia).
    assert (EM : EO 1 <= EO d) by (apply offs_mono; lia).
    assert (PM : PO (EO 1) <= PO (EO d)) by (apply offs_mono; lia).
    replace (EO 1 - 1 * r 1) with 0 by lia. change (EO 0) with 0. change (PO 0) with 0.
    replace (PO (EO 1) - (PO (EO 1) - 0)) with 0 by lia.
    match goal with |- context [for_ (r 1) ?B ?S0] =>
      destruct (for_inv (fun ii (t : list R * nat * nat) =>
        let '(g', uni, par) := t in
        length g' = length grad /\ uni = ii /\ par = PO ii /\
        rng g' 0 (PO ii) T /\
        (forall p, PO (EO 1) <= p -> nth_error g' p = nth_error g p)) B (r 1) S0)
        as ([[g' uni] par] & E2 & Lg' & -> & -> & R1 & R2)
    end.
    { repeat split; auto. intros p Hp1 Hp2. cbn in Hp2. lia. }
    { intros ii [[g1 uni] par] Hii (Lg1 & -> & -> & R1 & R2).
      rewrite (aget_ok _ _ _ (Hb ii Hii)). cbn [obind]. rewrite pg_npu by lia. cbn [obind].
      destruct (pg_fill_ok (p_ge s) g1 (fun g0 => g0 *! bw r M (d - 1) 1 ii) ii T HG) as (g2 & E3 & Lg2 & F1 & F2).
      { lia. } { lia. }
      { intros l Hl. rewrite HT by (auto; lia).
        replace (LR ii) with (LR (EO 0 + (ii * r 0 + 0))) by (f_equal; rewrite Hr0; change (EO 0) with 0; lia).
        rewrite HLR' by (rewrite ?Hr0; lia). unfold pgw. cbn [fw].
        replace (d - 1 - 0) with (d - 1) by lia. ring. }
      rewrite E3. cbn [obind]. eexists. split; [reflexivity|]. cbv beta iota. repeat split; try lia.
      - eapply rng_cat; eauto.
      - intros p Hp. rewrite F2; auto. right.
        assert (PO (S ii) <= PO (EO 1)) by (apply offs_mono; lia). lia. }
    rewrite E2. cbn [obind]. do 4 eexists. split; [reflexivity|]. cbv beta iota. repeat split; auto.
    - intros k i j l Hk Hi Hj Hl. destruct (pg_EO k i j Hk Hi Hj) as [B1 B2].
      set (q := EO k + (j * r k + i)) in *.
      assert (Hp : PO q + l < PO (EO d)).
      { assert (PO (S q) <= PO (EO d)) by (apply offs_mono; lia). unfold PO in *. cbn [offs] in H. lia. }
      assert (HTq : T (PO q + l) = pgw k i j *! TG (PO q + l)).
      { rewrite HT by (auto; lia). unfold q at 1. now rewrite HLR' by auto. }
      rewrite <- HTq. rewrite <- E1 in R1. destruct (Nat.lt_ge_cases (PO q + l) (PO (EO 1))).
      + apply R1; lia.
      + rewrite R2 by lia. apply Hrng; lia.
    - intros p Hp. rewrite R2 by lia. auto.
  Qed.

  (** In one dimension every entry is multiplied by the value. *)
  Theorem pg_gradeval_dim1 grad ge mem ev :
    d = 1 -> SO d <= length mem -> EO d <= length ev -> PO (EO d) <= length grad -> GI 0 ge ->
    exists grad' mem' ev' ge',
      pg_gradeval d ranks npu npc evf grad ge mem ev = Ok (M 0 0 0, grad', mem', ev', ge') /\
      length grad' = length grad /\
      (forall l, l < np 0 -> nth_error grad' l = Some (TG l *! M 0 0 0)) /\
      (forall p, np 0 <= p -> nth_error grad' p = nth_error grad p).
  Proof.
    intros Hd1 Lm Le Lgr HG0.
    destruct (flat_target r0 (fun q => r (S q)) (fun q j => fw r M (S q) j) d) as [TL HTL].
    destruct (flat_target r0 (fun q => r q * r (S q)) (fun q p => M q (p mod r q) (p / r q)) d) as [TE HTE].
    fold SO in HTL. fold EO in HTE.
    unfold pg_gradeval. rewrite (Hrk 0), Hr0 by lia. cbn [obind Nat.eqb cassert].
    destruct (pg_forward_ok mem ev ge TL TE Lm Le HG0 HTL HTE) as (s & Ef & L1 & L2 & HG & U1 & U2 & U3 & P1 & P2).
    assert (Hr1 : r 1 = 1) by (pose proof Hrd as HH; now rewrite Hd1 in HH).
    assert (E1 : EO 1 = 1) by (unfold EO; cbn [offs]; rewrite Hr0, Hr1; reflexivity).
    assert (S1 : SO 1 = 1) by (unfold SO; cbn [offs]; rewrite Hr1; reflexivity).
    assert (P11 : PO 1 = np 0) by reflexivity.
    pose proof (pg_npu 0) as HN.
    destruct (pg_fill_ok (p_ge s) grad (fun g => g *! M 0 0 0) 0 (fun l => TG l *! M 0 0 0)) as (g2 & E2 & Lg2 & F1 & F2).
    { exact HG. } { rewrite Hd1. lia. } { lia. } { reflexivity. }
    rewrite Ef. cbn [obind]. unfold pg_backward. rewrite (Hrk 0), (Hrk 1) by lia. rewrite Hd1 in *.
    assert (Hmem : nth_error (p_mem s) 0 = Some (M 0 0 0)).
    { rewrite P1 by lia. f_equal. change 0 with (SO 0 + 0) at 1. rewrite HTL by lia. cbn [fw]. rewrite Hr0, sum_1. ring. }
    rewrite U3, U1, U2. change (SO (1 - 1)) with 0. rewrite (aget_ok _ _ _ Hmem). cbn [obind].
    unfold for_ at 1. cbn [Nat.sub for_from obind]. rewrite Hr0, Hr1. cbn [obind].
    rewrite (Hnpc 0) by lia. cbn [obind]. rewrite E1. change (EO 0) with 0. change (PO 0) with 0.
    replace (PO 1 - (PO 1 - 0)) with 0 by lia. cbn [Nat.mul Nat.sub].
    rewrite for_S. unfold for_ at 1. cbn [for_from obind Nat.add]. rewrite (aget_ok _ _ _ Hmem). cbn [obind].
    rewrite HN by lia. cbn [obind].
    change (PO 0) with 0 in *. rewrite E2. cbn [obind].
    do 4 eexists. split; [reflexivity|]. split; [auto|]. rewrite P11 in *. split.
    - intros l Hl. apply F1; lia.
    - intros p Hp. apply F2. lia.
  Qed.
End PGradFacts.
