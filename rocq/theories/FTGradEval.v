(** function_train_gradient_eval *)
From Verif Require Export FTDiff.

(** Offsets of consecutive blocks of sizes [sz 0], [sz 1], ... *)
Fixpoint offs (sz : nat -> nat) (q : nat) : nat :=
  match q with 0 => 0 | S q => offs sz q + sz q end.

Lemma offs_mono sz p q : p <= q -> offs sz p <= offs sz q.
Proof. induction 1; cbn [offs]; lia. Qed.

Lemma offs_bound sz m q : (forall k, k < q -> sz k <= m) -> offs sz q <= q * m.
Proof.
  induction q as [|q IH]; intros H; cbn [offs]; [lia|].
  assert (sz q <= m) by (apply H; lia). assert (offs sz q <= q * m) by (apply IH; intros; apply H; lia).
  lia.
Qed.

Lemma flat_target {A} (dflt : A) (sz : nat -> nat) (B : nat -> nat -> A) d :
  exists T : nat -> A, forall q j, q < d -> j < sz q -> T (offs sz q + j) = B q j.
Proof.
  induction d as [|d [T IH]].
  - exists (fun _ => dflt). intros; lia.
  - exists (fun p => if p <? offs sz d then T p else B d (p - offs sz d)).
    intros q j Hq Hj. destruct (Nat.eq_dec q d) as [->|Hne].
    + destruct (Nat.ltb_spec (offs sz d + j) (offs sz d)); [lia|]. f_equal. lia.
    + assert (offs sz (S q) <= offs sz d) by (apply offs_mono; lia). cbn [offs] in H.
      destruct (Nat.ltb_spec (offs sz q + j) (offs sz d)); [|lia]. apply IH; lia.
Qed.

Section GradEval.
  Context {R : CRing} {U : uops R}.
  Open Scope cr_scope.
  Add Ring Rr20 : (rth R).

  Lemma pre_upd (l : list R) n T v k : pre l n T -> n <= k -> pre (upd l k v) n T.
  Proof. intros H Hk i Hi. rewrite nth_error_upd_other by lia. auto. Qed.

  Lemma pre_snoc (l : list R) n T : pre l n T -> nth_error l n = Some (T n) -> pre l (S n) T.
  Proof. intros H E i Hi. destruct (Nat.eq_dec i n) as [->|]; auto. apply H; lia. Qed.

  Lemma dgemv_nx_ok m n (A : list R) oA lda x ox y oy (fA : nat -> nat -> R) (fx : nat -> R) :
    0 < m -> 0 < n ->
    (forall i j, i < m -> j < n -> nth_error A (oA + j * lda + i) = Some (fA i j)) ->
    (forall j, j < n -> nth_error x (ox + j) = Some (fx j)) -> oy + m <= length y ->
    exists y', dgemv_nx m n A oA lda x ox y oy = Ok y' /\ length y' = length y /\
      (forall i, i < m -> nth_error y' (oy + i) = Some (sum n (fun j => fA i j *! fx j))) /\
      (forall k, k < oy \/ oy + m <= k -> nth_error y' k = nth_error y k).
  Proof.
    intros Hm Hn HA Hx Hy. unfold dgemv_nx.
    destruct (Nat.eqb_spec m 0), (Nat.eqb_spec n 0); try lia. cbn [orb].
    destruct (for_inv (fun i y' => length y' = length y /\
        (forall i', i' < i -> nth_error y' (oy + i') = Some (sum n (fun j => fA i' j *! fx j))) /\
        (forall k, k < oy \/ oy + m <= k -> nth_error y' k = nth_error y k))
      (fun i y => do s <- ddot n A (oA + i) lda x ox 1; aset y (oy + i) s) m y)
      as (y' & E & L & H1 & H2).
    - repeat split; auto. intros; lia.
    - intros i s Hi (L & H1 & H2).
      rewrite (ddot_ok n A (oA + i) lda x ox 1 (fun j => fA i j) fx).
      + cbn [obind]. rewrite aset_ok by lia. eexists. split; [reflexivity|].
        rewrite upd_length. split; [auto|]. split.
        * intros i' Hi'. destruct (Nat.eq_dec i' i) as [->|].
          { rewrite nth_error_upd_same by lia. reflexivity. }
          rewrite nth_error_upd_other by lia. apply H1. lia.
        * intros k Hk. rewrite nth_error_upd_other by lia. auto.
      + intros j Hj. rewrite <- (HA i j Hi Hj). f_equal. lia.
      + intros j Hj. rewrite <- (Hx j Hj). f_equal. lia.
    - exists y'. auto.
  Qed.

  Lemma blitr_ok n (src dst : list R) os od :
    os + n <= length src -> od + n <= length dst ->
    exists d', blitr n src os dst od = Ok d' /\ length d' = length dst /\
      (forall i, i < n -> nth_error d' (od + i) = nth_error src (os + i)) /\
      (forall k, k < od \/ od + n <= k -> nth_error d' k = nth_error dst k).
  Proof.
    intros Hs Hd. unfold blitr.
    apply (for_inv (fun i d' => length d' = length dst /\
      (forall i', i' < i -> nth_error d' (od + i') = nth_error src (os + i')) /\
      (forall k, k < od \/ od + n <= k -> nth_error d' k = nth_error dst k))).
    - repeat split; auto. intros; lia.
    - intros i s Hi (L & H1 & H2). destruct (aget_lt src (os + i)) as [v [Ev Av]]; [lia|].
      rewrite Av. cbn [obind]. rewrite aset_ok by lia. eexists. split; [reflexivity|].
      rewrite upd_length. repeat split; auto.
      + intros i' Hi'. destruct (Nat.eq_dec i' i) as [->|].
        { rewrite nth_error_upd_same by lia. now rewrite Ev. }
        rewrite nth_error_upd_other by lia. apply H1. lia.
      + intros k Hk. rewrite nth_error_upd_other by lia. auto.
  Qed.

  Variable f : ftrain U.
  Variable dev : U -> R -> R.
  Variable x : list R.
  Hypothesis Wf : ft_wf f.
  Hypothesis Hx : length x = ft_dim f.
  Let d := ft_dim f.
  Let r := frk f.
  Let M := fM f (fun k g => uev g (nth k x r0)).
  Let D := fM f (fun k g => dev g (nth k x r0)).
  Let SO := offs (fun q => r (S q)).
  Let EO := offs (fun q => r q * r (S q)).
  Let G q j := sum (r q) (fun i => fw r M q i *! D q i j).

  Lemma ge_r0 : r 0 = 1. Proof. now apply frk_0. Qed.
  Lemma ge_rd : r d = 1. Proof. now apply frk_d. Qed.

  Lemma ge_core k : k < d -> aget (ft_cores f) k = Ok (fco f k).
  Proof. intros H. apply aget_ok. now apply canon_core. Qed.
  Lemma ge_x k : k < d -> aget x k = Ok (nth k x r0).
  Proof. intros H. apply aget_ok. apply nth_error_nth'. unfold d in H; lia. Qed.
  Lemma ge_rank k : k <= d -> aget (ft_ranks f) k = Ok (r k).
  Proof.
    intros H. apply aget_ok. destruct (Nat.eq_dec k d) as [->|].
    - rewrite ge_rd. now apply wf_rankd.
    - apply canon_core; auto. unfold d in *; lia.
  Qed.
  Lemma ge_pos k : k <= d -> 0 < r k.
  Proof.
    intros H. destruct (Nat.eq_dec k d) as [->|]; [rewrite ge_rd; lia|].
    apply canon_core; auto. unfold d in *; lia.
  Qed.

  Lemma partial_G k : k < d ->
    train_partial dev f k x = sum (r (S k)) (fun j => G k j *! bw r M (d - 1 - k) (S k) j).
  Proof.
    intros Hk. unfold train_partial. rewrite path_value_bw by auto.
    rewrite (bw_ext _ _ (repl M k (D k))); [|fold r; rewrite ge_r0; lia|].
    - fold r d. rewrite (bw_repl r M k (D k) d ge_r0 Hk).
      unfold G. rewrite (sum_ext R (r (S k)) _ (fun j => sum (r k) (fun i =>
        fw r M k i *! D k i j *! bw r M (d - 1 - k) (S k) j))).
      2:{ intros j Hj. now rewrite <- sum_scal_r. }
      rewrite sum_swap. apply sum_ext. intros i Hi. rewrite <- sum_scal_l. apply sum_ext. intros j Hj. ring.
    - intros k' i' j' _ _ _. unfold repl, M, D, fM. now destruct (Nat.eqb_spec k' k) as [->|].
  Qed.

  Theorem gradient_eval_correct (out : list R) :
    2 <= d -> d <= length out ->
    exists out', ft_gradient_eval dev f x out = Ok out' /\ length out' = length out /\
      (forall k, k < d -> nth_error out' k = Some (train_partial dev f k x)) /\
      (forall k, d <= k -> nth_error out' k = nth_error out k).
  Proof.
    intros Hd2 Ho. unfold ft_gradient_eval. fold d.
    destruct (get_maxrank_ok f) as (mr & Emr & Hmr1 & Hmr). { apply wf_lens; auto. }
    rewrite Emr. cbn [obind].
    assert (Hrm : forall k, k <= d -> r k <= mr).
    { intros k Hk. apply Hmr. apply (nth_error_In _ k). pose proof (ge_rank k Hk) as E.
      unfold aget in E. destruct (nth_error (ft_ranks f) k); congruence. }
    assert (BSO : forall q, q <= d -> SO q <= q * mr).
    { intros q Hq. unfold SO. apply offs_bound. intros k Hk. apply Hrm. lia. }
    assert (BEO : forall q, q <= d -> EO q <= q * (mr * mr)).
    { intros q Hq. unfold EO. apply offs_bound. intros k Hk.
      apply Nat.mul_le_mono; apply Hrm; lia. }
    destruct (flat_target r0 (fun q => r (S q)) (fun q j => fw r M (S q) j) d) as [TL HTL].
    destruct (flat_target r0 (fun q => r (S q)) G d) as [TG HTG].
    destruct (flat_target r0 (fun q => r q * r (S q))
                (fun q p => if q =? 0 then r0 else M q (p mod r q) (p / r q)) d) as [TE HTE].
    fold SO in HTL, HTG. fold EO in HTE.
    set (NB := mr * d + mr). set (NE := mr * mr * d).
    rewrite (ge_rank 1) by lia. cbn [obind].
    pose (Inv := fun (kk : nat) (s : gstate R) =>
      length (g_evlr s) = NB /\ length (g_grlr s) = NB /\ length (g_ev s) = NE /\ length (g_gr s) = NE /\
      g_onuni s = EO kk /\ g_indmem s = SO (kk - 1) /\
      pre (g_evlr s) (SO kk) TL /\ pre (g_grlr s) (SO kk) TG /\ pre (g_ev s) (EO kk) TE).
    (* first core *)
    assert (S1 : SO 1 = r 1) by (unfold SO; cbn [offs]; lia).
    assert (E1 : EO 1 = r 1) by (unfold EO; cbn [offs]; rewrite ge_r0; lia).
    match goal with |- context [for_ (r 1) ?b00 ?s00] =>
      destruct (for_inv (fun col (s : gstate R) =>
        length (g_evlr s) = NB /\ length (g_grlr s) = NB /\ g_ev s = repeat r0 NE /\ g_gr s = repeat r0 NE /\
        g_onuni s = col /\ g_indmem s = 0 /\
        pre (g_evlr s) col TL /\ pre (g_grlr s) col TG) b00 (r 1) s00) as (s1 & F1 & I1)
    end.
    { cbn [g_evlr g_grlr g_ev g_gr g_onuni g_indmem]. rewrite !repeat_length. repeat split; auto; intros i Hi; lia. }
    { intros col s Hc (L1 & L2 & L3 & L4 & U1 & U2 & P1 & P2).
      rewrite (ge_core 0) by lia. cbn [obind].
      destruct (fM_entry f (fun k g => uev g (nth k x r0)) 0 0 col Wf) as (g & Eg & Vg); fold d r; try lia.
      { rewrite ge_r0. lia. }
      destruct (fM_entry f (fun k g => dev g (nth k x r0)) 0 0 col Wf) as (g' & Eg' & Vg'); fold d r; try lia.
      { rewrite ge_r0. lia. }
      fold r in Eg, Eg'. rewrite ge_r0 in Eg, Eg'. replace (col * 1 + 0) with col in Eg, Eg' by lia.
      assert (g' = g) by congruence. subst g'.
      rewrite (aget_ok _ _ _ Eg). cbn [obind]. rewrite (ge_x 0) by lia. cbn [obind].
      assert (Hcb : col < NB). { specialize (Hrm 1 ltac:(lia)). unfold NB. nia. }
      rewrite !aset_ok by lia. cbn [obind].
      eexists. split; [reflexivity|]. cbn [g_evlr g_grlr g_ev g_gr g_onuni g_indmem].
      rewrite !upd_length. repeat split; auto; try lia.
      - apply pre_snoc; [now apply pre_upd|]. rewrite nth_error_upd_same by lia. f_equal.
        replace col with (SO 0 + col) by reflexivity. rewrite (HTL 0 col) by lia.
        cbn [fw]. rewrite ge_r0, sum_1. rewrite <- Vg. unfold M. ring.
      - apply pre_snoc; [now apply pre_upd|]. rewrite nth_error_upd_same by lia. f_equal.
        replace col with (SO 0 + col) by reflexivity. rewrite (HTG 0 col) by lia.
        unfold G. cbn [fw]. rewrite ge_r0, sum_1. rewrite <- Vg'. unfold D. ring. }
    rewrite F1. cbn [obind]. destruct I1 as (L1 & L2 & L3 & L4 & U1 & U2 & P1 & P2).
    (* the other cores *)
    match goal with |- context [for_from 1 (d - 1) ?b s1] =>
      destruct (for_from_inv Inv b 1 (d - 1) s1) as (s2 & F2 & I2)
    end.
    { unfold Inv. rewrite L3, L4, !repeat_length, S1, E1. repeat split; auto.
      intros p Hp. rewrite nth_error_repeat.
      - f_equal. replace p with (EO 0 + p) by reflexivity. rewrite (HTE 0 p); auto; [lia|].
        rewrite ge_r0. lia.
      - specialize (Hrm 1 ltac:(lia)). unfold NE. nia. }
    { intros kk s Hkk (M1 & M2 & M3 & M4 & V1 & V2 & Q1 & Q2 & Q3).
      rewrite (ge_rank kk), (ge_rank (kk + 1)) by lia. cbn [obind].
      replace (kk + 1) with (S kk) by lia.
      assert (ESO : SO kk = SO (kk - 1) + r kk).
      { destruct kk as [|kk]; [lia|]. replace (S kk - 1) with kk by lia. reflexivity. }
      assert (ESO1 : SO (S kk) = SO kk + r (S kk)) by reflexivity.
      assert (EEO1 : EO (S kk) = EO kk + r kk * r (S kk)) by reflexivity.
      assert (BS : SO (S kk) <= S kk * mr) by (apply BSO; lia).
      assert (BE : EO (S kk) <= S kk * (mr * mr)) by (apply BEO; lia).
      assert (BNB : SO (S kk) <= NB) by (unfold NB; nia).
      assert (BNE : EO (S kk) <= NE).
      { unfold NE. rewrite (Nat.mul_comm (mr * mr) d).
        eapply Nat.le_trans; [exact BE|]. apply Nat.mul_le_mono_r. lia. }
      match goal with |- context [for_ (r (S kk)) ?b00 s] =>
        destruct (for_inv (fun col (s : gstate R) =>
          length (g_evlr s) = NB /\ length (g_grlr s) = NB /\ length (g_ev s) = NE /\ length (g_gr s) = NE /\
          g_onuni s = EO kk + col * r kk /\ g_indmem s = SO (kk - 1) /\
          pre (g_evlr s) (SO kk + col) TL /\ pre (g_grlr s) (SO kk + col) TG /\
          pre (g_ev s) (EO kk + col * r kk) TE) b00 (r (S kk)) s) as (s' & F' & N1 & N2 & N3 & N4 & W1 & W2 & R1 & R2 & R3)
      end.
      - rewrite Nat.mul_0_l, !Nat.add_0_r. repeat split; auto.
      - clear M1 M2 M3 M4 V1 V2 Q1 Q2 Q3. intros col t Hcol (M1 & M2 & M3 & M4 & V1 & V2 & Q1 & Q2 & Q3).
        rewrite V2, <- ESO. set (p := SO kk + col) in *.
        rewrite aset_ok by (unfold p; lia). cbn [obind]. rewrite aset_ok by (unfold p; lia). cbn [obind].
        match goal with |- context [for_ (r kk) ?b00 ?s00] =>
          destruct (for_inv (fun row (s : gstate R) =>
            length (g_evlr s) = NB /\ length (g_grlr s) = NB /\ length (g_ev s) = NE /\ length (g_gr s) = NE /\
            g_onuni s = EO kk + col * r kk + row /\ g_indmem s = SO (kk - 1) /\
            pre (g_evlr s) p TL /\ pre (g_grlr s) p TG /\
            nth_error (g_evlr s) p = Some (sum row (fun i => fw r M kk i *! M kk i col)) /\
            nth_error (g_grlr s) p = Some (sum row (fun i => fw r M kk i *! D kk i col)) /\
            pre (g_ev s) (EO kk + col * r kk + row) TE) b00 (r kk) s00)
            as (t' & Ft & O1 & O2 & O3 & O4 & X1 & X2 & Y1 & Y2 & Y3 & Y4 & Y5)
        end.
        + cbn [g_evlr g_grlr g_ev g_gr g_onuni g_indmem]. rewrite !upd_length, !Nat.add_0_r.
          repeat split; auto; try (apply pre_upd; auto); rewrite nth_error_upd_same by (unfold p; lia); reflexivity.
        + clear M1 M2 M3 M4 V1 V2 Q1 Q2 Q3.
          intros row u Hrow (M1 & M2 & M3 & M4 & V1 & V2 & Q1 & Q2 & Q3 & Q4 & Q5).
          rewrite (ge_core kk) by lia. cbn [obind].
          destruct (fM_entry f (fun k g => uev g (nth k x r0)) kk row col Wf) as (g & Eg & Vg); fold d r; try lia.
          destruct (fM_entry f (fun k g => dev g (nth k x r0)) kk row col Wf) as (g' & Eg' & Vg'); fold d r; try lia.
          fold r in Eg, Eg'. assert (g' = g) by congruence. subst g'.
          replace (row + col * r kk) with (col * r kk + row) by lia.
          rewrite (aget_ok _ _ _ Eg). cbn [obind]. rewrite (ge_x kk) by lia. cbn [obind].
          assert (Hun : EO kk + col * r kk + row < NE) by nia.
          rewrite !aset_ok by lia. cbn [obind].
          rewrite (aget_ok _ _ _ Q3). cbn [obind].
          assert (Hb : nth_error (g_evlr u) (SO (kk - 1) + row) = Some (fw r M kk row)).
          { rewrite Q1 by (unfold p; lia). f_equal. rewrite (HTL (kk - 1) row) by (try lia; replace (S (kk - 1)) with kk by lia; lia).
            replace (S (kk - 1)) with kk by lia. reflexivity. }
          rewrite V2. rewrite (aget_ok _ _ _ Hb). cbn [obind].
          rewrite (aget_ok (upd (g_ev u) (g_onuni u) _) (g_onuni u) (uev g (nth kk x r0)))
            by (rewrite nth_error_upd_same by lia; reflexivity).
          cbn [obind]. rewrite aset_ok by (unfold p; lia). cbn [obind].
          rewrite (aget_ok _ _ _ Q4). cbn [obind].
          rewrite (aget_ok (upd (g_evlr u) p _) (SO (kk - 1) + row) (fw r M kk row))
            by (rewrite nth_error_upd_other by (unfold p; lia); exact Hb).
          cbn [obind].
          rewrite (aget_ok (upd (g_gr u) (g_onuni u) _) (g_onuni u) (dev g (nth kk x r0)))
            by (rewrite nth_error_upd_same by lia; reflexivity).
          cbn [obind]. rewrite aset_ok by (unfold p; lia). cbn [obind].
          eexists. split; [reflexivity|]. cbn [g_evlr g_grlr g_ev g_gr g_onuni g_indmem].
          rewrite !upd_length. repeat split; auto; try lia.
          * now apply pre_upd.
          * now apply pre_upd.
          * rewrite nth_error_upd_same by (unfold p; lia). rewrite sum_S_r || cbn [sum]. do 2 f_equal.
            f_equal. exact (eq_sym Vg).
          * rewrite nth_error_upd_same by (unfold p; lia). rewrite sum_S_r || cbn [sum]. do 2 f_equal.
            f_equal. exact (eq_sym Vg').
          * replace (EO kk + col * r kk + S row) with (S (EO kk + col * r kk + row)) by lia.
            apply pre_snoc; [apply pre_upd; auto; lia|]. rewrite V1, nth_error_upd_same by lia. f_equal.
            replace (EO kk + col * r kk + row) with (EO kk + (col * r kk + row)) by lia.
            rewrite (HTE kk) by nia. destruct (Nat.eqb_spec kk 0); [lia|].
            rewrite idx_mod, idx_div by auto. symmetry. exact Vg.
        + rewrite Ft. eexists. split; [reflexivity|].
          assert (Hr' : EO kk + S col * r kk = EO kk + col * r kk + r kk) by lia.
          rewrite Hr'. replace (SO kk + S col) with (S p) by (unfold p; lia).
          repeat split; auto.
          * apply pre_snoc; auto. rewrite Y3. f_equal. unfold p. rewrite (HTL kk col) by lia.
            cbn [fw]. apply sum_ext. intros i Hi. ring.
          * apply pre_snoc; auto. rewrite Y4. f_equal. unfold p. rewrite (HTG kk col) by lia. reflexivity.
      - rewrite F'. cbn [obind]. eexists. split; [reflexivity|]. unfold Inv.
        cbn [g_evlr g_grlr g_ev g_gr g_onuni g_indmem].
        replace (S kk - 1) with kk by lia. rewrite ESO1, EEO1, (Nat.mul_comm (r kk)).
        repeat split; auto. lia. }
    replace (1 + (d - 1)) with d in I2 by lia.
    rewrite F2. cbn [obind]. clear F1 L1 L2 L3 L4 U1 U2 P1 P2 F2 s1.
    destruct I2 as (L1 & L2 & L3 & L4 & U1 & U2 & P1 & P2 & P3).
    (* out[dim-1] *)
    assert (ESd : SO d = SO (d - 1) + r d) by (replace d with (S (d - 1)) at 1 3 by lia; reflexivity).
    assert (EEd : EO d = EO (d - 1) + r (d - 1)).
    { replace d with (S (d - 1)) at 1 by lia. unfold EO. cbn [offs].
      replace (S (d - 1)) with d by lia. rewrite ge_rd. lia. }
    rewrite U2. rewrite (aget_ok _ _ (TG (SO (d - 1)))) by (apply P2; rewrite ESd, ge_rd; lia).
    cbn [obind]. rewrite aset_ok by lia. cbn [obind].
    rewrite (ge_rank (d - 1)) by lia. cbn [obind]. rewrite U1.
    replace (EO d - r (d - 1)) with (EO (d - 1)) by lia.
    assert (Brl : r (d - 1) <= mr) by (apply Hrm; lia).
    assert (BEd : EO d <= NE) by (unfold NE; rewrite Nat.mul_comm; apply BEO; lia).
    destruct (blitr_ok (r (d - 1)) (g_ev s2) (repeat r0 NB) (EO (d - 1)) 0) as (rl & Erl & Lrl & Hrl & _).
    { lia. } { rewrite repeat_length. unfold NB. lia. }
    rewrite repeat_length in Lrl. rewrite Erl. cbn [obind].
    assert (Gd : TG (SO (d - 1)) = train_partial dev f (d - 1) x).
    { rewrite partial_G by lia. replace (S (d - 1)) with d by lia. rewrite ge_rd, sum_1.
      replace (d - 1 - (d - 1)) with 0 by lia. cbn [bw].
      replace (SO (d - 1)) with (SO (d - 1) + 0) by lia. rewrite HTG.
      - ring.
      - lia.
      - replace (S (d - 1)) with d by lia. rewrite ge_rd. lia. }
    rewrite Gd.
    pose (J := fun zz (t : list R * list R * nat * nat * nat) =>
      let '(o, e, im, ie, ir) := t in
      length o = length out /\ length e = NB /\ im = SO (d - zz) /\ ie = EO (d - zz) /\
      ir <= (zz - 1) * mr /\
      (forall j, j < r (d - zz) -> nth_error e (ir + j) = Some (bw r M zz (d - zz) j)) /\
      (forall k, d - zz <= k -> k < d -> nth_error o k = Some (train_partial dev f k x)) /\
      (forall k, d <= k -> nth_error o k = nth_error out k)).
    match goal with |- context [for_from 1 (d - 2) ?b00 ?s00] =>
      destruct (for_from_inv J b00 1 (d - 2) s00) as ([[[[o e] im] ie] ir] & F3 & I3)
    end.
    { unfold J. rewrite upd_length. repeat split; auto; try lia.
      - intros j Hj. rewrite Hrl by auto. rewrite P3 by lia. f_equal.
        rewrite (HTE (d - 1)) by (try lia; replace (S (d - 1)) with d by lia; rewrite ge_rd; lia).
        destruct (Nat.eqb_spec (d - 1) 0); [lia|].
        rewrite Nat.mod_small, Nat.div_small by auto. cbn [bw]. replace (S (d - 1)) with d by lia.
        rewrite ge_rd, sum_1. ring.
      - intros k Hk1 Hk2. assert (k = d - 1) by lia. subst k. rewrite nth_error_upd_same by lia. reflexivity.
      - intros k Hk. rewrite nth_error_upd_other by lia. reflexivity. }
    { intros zz [[[[o e] im] ie] ir] Hz (J1 & J2 & -> & -> & J5 & J6 & J7 & J8).
      set (b := d - 1 - zz). assert (Hb1 : d - zz = S b) by (unfold b; lia).
      assert (Hb2 : b < d) by (unfold b; lia). assert (Hb3 : 0 < b) by (unfold b; lia).
      rewrite Hb1 in *.
      rewrite (ge_rank b), (ge_rank (b + 1)) by lia. cbn [obind]. replace (b + 1) with (S b) by lia.
      assert (ES : SO (S b) = SO b + r (S b)) by reflexivity.
      assert (EE : EO (S b) = EO b + r b * r (S b)) by reflexivity.
      replace (SO (S b) - r (S b)) with (SO b) by lia.
      replace (EO (S b) - r b * r (S b)) with (EO b) by lia.
      assert (Hrb : r b <= mr) by (apply Hrm; lia). assert (Hrb1 : r (S b) <= mr) by (apply Hrm; lia).
      rewrite (ddot_ok _ _ _ _ _ _ _ (fun j => G b j) (fun j => bw r M zz (S b) j)).
      2:{ intros j Hj. rewrite Nat.mul_1_r. rewrite P2.
          - f_equal. apply HTG; auto.
          - assert (SO (S b) <= SO d) by (apply offs_mono; lia). lia. }
      2:{ intros j Hj. rewrite Nat.mul_1_r. auto. }
      cbn [obind]. rewrite aset_ok by lia. cbn [obind].
      destruct (dgemv_nx_ok (r b) (r (S b)) (g_ev s2) (EO b) (r b) e ir e (ir + r (S b)) (M b) (fun j => bw r M zz (S b) j))
        as (e' & Ee & Le & He1 & He2).
      - apply ge_pos. lia.
      - apply ge_pos. lia.
      - intros i j Hi Hj. assert (EO (S b) <= EO d) by (apply offs_mono; lia).
        rewrite P3 by nia. f_equal. replace (EO b + j * r b + i) with (EO b + (j * r b + i)) by lia.
        rewrite (HTE b) by nia. destruct (Nat.eqb_spec b 0); [lia|]. now rewrite idx_mod, idx_div by auto.
      - auto.
      - rewrite J2. unfold NB. nia.
      - rewrite Ee. cbn [obind]. eexists. split; [reflexivity|]. unfold J.
        replace (d - S zz) with b by (unfold b; lia). replace (S zz - 1) with zz by lia.
        rewrite upd_length. repeat split; auto; try lia.
        + nia.
        + intros k Hk1 Hk2. destruct (Nat.eq_dec k b) as [->|Hkb].
          * rewrite nth_error_upd_same by lia. f_equal. rewrite partial_G by lia.
            replace (d - 1 - b) with zz by (unfold b; lia). reflexivity.
          * rewrite nth_error_upd_other by lia. apply J7; lia.
        + intros k Hk. rewrite nth_error_upd_other by lia. auto. }
    rewrite F3. cbn [obind]. replace (1 + (d - 2)) with (d - 1) in I3 by lia.
    destruct I3 as (J1 & J2 & -> & -> & J5 & J6 & J7 & J8).
    replace (d - (d - 1)) with 1 in * by lia.
    rewrite (ddot_ok _ _ _ _ _ _ _ (fun j => G 0 j) (fun j => bw r M (d - 1) 1 j)).
    - cbn [obind]. rewrite aset_ok by lia. eexists. split; [reflexivity|]. rewrite upd_length.
      repeat split; auto.
      + intros k Hk. destruct (Nat.eq_dec k 0) as [->|].
        * rewrite nth_error_upd_same by lia. f_equal. rewrite partial_G by lia.
          replace (d - 1 - 0) with (d - 1) by lia. reflexivity.
        * rewrite nth_error_upd_other by lia. apply J7; lia.
      + intros k Hk. rewrite nth_error_upd_other by lia. auto.
    - intros j Hj. rewrite Nat.mul_1_r. cbn [Nat.add].
      assert (SO 1 <= SO d) by (apply offs_mono; lia). rewrite P2 by lia. f_equal.
      exact (HTG 0 j ltac:(lia) Hj).
    - intros j Hj. rewrite Nat.mul_1_r. auto.
  Qed.

  (** In one dimension the derivative is overwritten by zero. *)
  Theorem gradient_eval_dim1 (out : list R) :
    d = 1 -> 1 <= length out -> ft_gradient_eval dev f x out = Ok (upd out 0 r0).
  Proof.
    intros Hd1 Ho. unfold ft_gradient_eval. fold d.
    destruct (get_maxrank_ok f) as (mr & Emr & Hmr1 & Hmr). { apply wf_lens; auto. }
    rewrite Emr. cbn [obind]. rewrite Hd1.
    assert (Rd : r 1 = 1) by (pose proof ge_rd as H; now rewrite Hd1 in H).
    rewrite (ge_rank 1), Rd by lia. cbn [obind].
    destruct mr as [|mr]; [lia|].
    assert (E1 : S mr * 1 + S mr = S (S mr + mr)) by lia. rewrite E1.
    assert (E2 : S mr * S mr * 1 = S (mr + mr * S mr)) by lia. rewrite E2.
    cbn [repeat]. rewrite for_S. unfold for_ at 1. cbn [for_from obind].
    rewrite (ge_core 0) by lia. cbn [obind].
    destruct (fM_entry f (fun k g => uev g (nth k x r0)) 0 0 0 Wf) as (g & Eg & Vg); fold d r; try lia.
    { rewrite ge_r0. lia. }
    cbn [Nat.mul Nat.add] in Eg. rewrite (aget_ok _ _ _ Eg). cbn [obind].
    rewrite (ge_x 0) by lia. cbn [obind g_evlr g_grlr g_ev g_gr g_onuni g_indmem].
    rewrite !aset_ok by (simpl; lia). cbn [obind upd].
    cbn [Nat.sub for_from obind g_evlr g_grlr g_ev g_gr g_onuni g_indmem].
    change (aget (dev g (nth 0 x r0) :: repeat r0 (S mr + mr)) 0) with (Ok (dev g (nth 0 x r0))). cbn [obind].
    rewrite aset_ok by lia. cbn [obind]. rewrite (ge_rank 0), ge_r0 by lia. cbn [obind Nat.sub Nat.add].
    unfold blitr. rewrite for_S. unfold for_ at 1. cbn [for_from obind Nat.add].
    change (aget (r0 :: repeat r0 (mr + mr * S mr)) 0) with (Ok (@r0 R)). cbn [obind].
    rewrite !aset_ok by (simpl; lia). cbn [obind upd].
    unfold ddot. rewrite for_S. unfold for_ at 1. cbn [for_from obind Nat.add Nat.mul].
    cbn [aget nth_error obind].
    rewrite aset_ok by (rewrite upd_length; lia). f_equal.
    destruct out as [|o out]; [simpl in Ho; lia|]. cbn [upd]. f_equal. ring.
  Qed.
End GradEval.
