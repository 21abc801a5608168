(** Proofs about tensor trains. *)
From Verif Require Export TensorFacts Chain.

Section TTFacts.
  Context {R : CRing}.
  Open Scope cr_scope.
  Add Ring Rr15 : (rth R).

  (** * Canonical trains *)
  Definition ttt (d : nat) (n r : nat -> nat) (E : nat -> nat -> nat -> nat -> R) : ttrain R :=
    mktt d (tab d n) (tab (d + 1) r) (tab d (fun k => mk3 (r k) (n k) (r (S k)) (E k))).

  Lemma tt_canon t : tt_wf t ->
    exists E, t = ttt (tt_dim t) (nv t) (rk t) E.
  Proof.
    intros (Hd & Hn & Hr & Hc & R0 & Rd & H).
    exists (fun k => tent (nth k (tt_cores t) (mktn 0 [] []))).
    destruct t as [d ns rs cs]. unfold rk, nv in *. simpl in *. unfold ttt. f_equal.
    - rewrite <- Hn. apply list_eq_tab_nth.
    - rewrite <- Hr. apply list_eq_tab_nth.
    - rewrite (list_eq_tab_nth (mktn 0 [] []) cs) at 1. rewrite Hc. apply tab_ext. intros k Hk.
      destruct (H k Hk) as (_ & c & Hck & H3 & Hnv & Hl).
      rewrite (nth_error_nth _ _ _ Hck). now apply mk3_canon.
  Qed.

  Lemma ttt_wf d n r E : 0 < d -> r 0 = 1 -> r d = 1 -> (forall k, k < d -> 0 < r k) -> tt_wf (ttt d n r E).
  Proof.
    intros Hd R0 Rd Hp. unfold tt_wf, rk, nv. simpl. rewrite !tab_length.
    rewrite !nth_tab by lia. repeat split; auto. { rewrite nth_tab by lia. auto. }
    eexists. split; [now apply nth_error_tab|]. rewrite !nth_tab by lia.
    repeat split. simpl. apply v3_length.
  Qed.

  Lemma ttt_ext d n r E n' r' E' :
    (forall k, k < d -> n k = n' k) -> (forall k, k <= d -> r k = r' k) ->
    (forall k i e j, k < d -> i < r k -> e < n k -> j < r (S k) -> E k i e j = E' k i e j) ->
    ttt d n r E = ttt d n' r' E'.
  Proof.
    intros Hn Hr HE. unfold ttt. f_equal.
    - now apply tab_ext.
    - apply tab_ext. intros; apply Hr; lia.
    - apply tab_ext. intros k Hk. unfold mk3. rewrite <- Hn, <- !Hr by lia. f_equal.
      apply v3_ext. auto.
  Qed.

  Lemma alloc_ranks_tab d : tt_alloc_ranks d = tab (d + 1) (fun k => if k =? 0 then 1 else 0).
  Proof. unfold tt_alloc_ranks. now rewrite Nat.add_1_r, tab_cons, repeat_tab. Qed.

  Lemma alloc_cores_tab d : tt_alloc_cores d = tab d (fun _ => @None (tensor R)).
  Proof. apply repeat_tab. Qed.

  Lemma tt_fin d n (r : nat -> nat) (c : nat -> option (tensor R)) (r' : nat -> nat) E :
    (forall k, k <= d -> r k = r' k) ->
    (forall k, k < d -> c k = Some (mk3 (r' k) (n k) (r' (S k)) (E k))) ->
    (do cs' <- freeze (tab d c); Ok (mktt d (tab d n) (tab (d + 1) r) cs')) = Ok (ttt d n r' E).
  Proof.
    intros Hr Hc. rewrite (tab_ext d c _ Hc), freeze_tab. cbn [obind]. unfold ttt. do 2 f_equal.
    apply tab_ext. intros; apply Hr; lia.
  Qed.

  (** * Path sums of canonical trains *)
  Definition ps n r (E : nat -> nat -> nat -> nat -> R) m k idx i : R :=
    path_sum (map (fun k => mk3 (r k) (n k) (r (S k)) (E k)) (seq k m)) idx i.

  Lemma ttt_value d n r E idx : tt_value (ttt d n r E) idx = ps n r E d 0 idx 0.
  Proof. reflexivity. Qed.

  Lemma ps_step n r E m k e idx i :
    i < r k -> e < n k ->
    ps n r E (S m) k (e :: idx) i
    = sum (r (S k)) (fun j => E k i e j *! ps n r E m (S k) idx j).
  Proof.
    intros Hi He. unfold ps. cbn [seq map path_sum]. change (nth 2 (t_nvals (mk3 (r k) (n k) (r (S k)) (E k))) 0) with (r (S k)).
    apply sum_ext. intros j Hj. now rewrite tent_mk3 by auto.
  Qed.

  Definition vld (n : nat -> nat) k m idx := valid_idx (map n (seq k m)) idx.

  Lemma vld_inv n k m idx : vld n k (S m) idx -> exists e idx', idx = e :: idx' /\ e < n k /\ vld n (S k) m idx'.
  Proof.
    unfold vld, valid_idx. cbn [seq map]. intros H. inversion H; subst; eauto.
  Qed.

  Lemma vld_nil n k idx : vld n k 0 idx -> idx = [].
  Proof. unfold vld, valid_idx. simpl. intros H. now inversion H. Qed.

  Lemma vld_length n k m idx : vld n k m idx -> length idx = m.
  Proof.
    revert k idx. induction m as [|m IH]; intros k idx H.
    - now rewrite (vld_nil _ _ _ H).
    - destruct (vld_inv _ _ _ _ H) as (e & idx' & -> & _ & H'). simpl. f_equal. eauto.
  Qed.

  Lemma vld_nth n m idx : vld n 0 m idx -> forall k, k < m -> nth k idx 0 < n k /\ nth_error idx k = Some (nth k idx 0).
  Proof.
    intros H k Hk. assert (HL := vld_length _ _ _ _ H).
    assert (G : forall m k0 idx, vld n k0 m idx -> forall k, k < m -> nth k idx 0 < n (k0 + k)).
    { clear. induction m as [|m IH]; intros k0 idx H k Hk; [lia|].
      destruct (vld_inv _ _ _ _ H) as (e & idx' & -> & He & H'). destruct k as [|k]; simpl.
      - now rewrite Nat.add_0_r.
      - rewrite <- Nat.add_succ_comm. apply IH; auto. lia. }
    split; [apply (G m 0 idx H k Hk)|]. apply nth_error_nth'. lia.
  Qed.

  (** Elements as matrix chains. *)
  Lemma ps_bw n r E idx m k i :
    (forall k, 0 < r k) -> i < r k -> vld n k m (skipn k idx) ->
    ps n r E m k (skipn k idx) i = bw r (fun k i j => E k i (nth k idx 0) j) m k i.
  Proof.
    intros Hr. revert k i. induction m as [|m IH]; intros k i Hi H; [reflexivity|].
    destruct (vld_inv _ _ _ _ H) as (e & idx' & Hs & He & H').
    assert (E1 : nth k idx 0 = e /\ skipn (S k) idx = idx').
    { clear - Hs. revert idx Hs. induction k as [|k IH]; intros [|x idx] Hs; simpl in *; try discriminate.
      - split; congruence.
      - now apply IH. }
    destruct E1 as [E1 E2]. rewrite Hs, ps_step by auto. cbn [bw]. rewrite E1.
    apply sum_ext. intros j Hj. f_equal. rewrite <- E2. apply IH; auto. now rewrite E2.
  Qed.

  (** * Scaling, sums, products of canonical trains *)
  Lemma ps_ext n r E E' m k idx i :
    i < r k -> vld n k m idx ->
    (forall k' i' e j, k <= k' < k + m -> i' < r k' -> e < n k' -> j < r (S k') -> E k' i' e j = E' k' i' e j) ->
    ps n r E m k idx i = ps n r E' m k idx i.
  Proof.
    revert k idx i. induction m as [|m IH]; intros k idx i Hi H HE; [reflexivity|].
    destruct (vld_inv _ _ _ _ H) as (e & idx' & -> & He & H'). rewrite !ps_step by auto.
    apply sum_ext. intros j Hj. rewrite HE by (auto; lia). f_equal. apply IH; auto.
    intros. apply HE; auto. lia.
  Qed.

  Lemma ttscal_ok d n r E s :
    0 < d ->
    ttscal (ttt d n r E) s
    = Ok (ttt d n r (fun k i e j => if k =? 0 then s *! E k i e j else E k i e j)).
  Proof.
    intros Hd. unfold ttscal. unfold ttt at 1. simpl tt_cores. rewrite aget_tab by auto. cbn [obind].
    rewrite dims3_mk3. cbn [obind]. simpl t_vals. unfold v3 at 1.
    rewrite (upd1 _ _ (fun _ c => s *! c)). cbn [obind]. rewrite aset_tab by auto. cbn [obind].
    f_equal. unfold ttt. simpl. f_equal. apply tab_ext. intros k Hk.
    destruct (Nat.eqb_spec k 0); [subst|reflexivity]. reflexivity.
  Qed.

  Lemma ps_shift_scale n r E E' s m k idx i :
    i < r k -> vld n k (S m) idx ->
    (forall i e j, E' k i e j = s *! E k i e j) ->
    (forall k' i e j, k < k' -> E' k' i e j = E k' i e j) ->
    ps n r E' (S m) k idx i = s *! ps n r E (S m) k idx i.
  Proof.
    intros Hi H H1 H2. destruct (vld_inv _ _ _ _ H) as (e & idx' & -> & He & H').
    rewrite !ps_step by auto. rewrite <- sum_scal_l. apply sum_ext. intros j Hj.
    rewrite H1. rewrite (ps_ext n r E' E m (S k) idx' j); auto; [ring|].
    intros. apply H2. lia.
  Qed.

  Lemma ttmult_ok d n ra Ea rb Eb :
    0 < d ->
    ttmult (ttt d n ra Ea) (ttt d n rb Eb)
    = Ok (ttt d n (fun k => ra k * rb k)
           (fun k i e j => Ea k (i / rb k) e (j / rb (S k)) *! Eb k (i mod rb k) e (j mod rb (S k)))).
  Proof.
    intros Hd. unfold ttmult. simpl tt_dim. simpl tt_ranks. simpl tt_cores. simpl tt_nvals.
    rewrite alloc_ranks_tab, alloc_cores_tab.
    unfold for_. rewrite (loop_tab2 (d + 1) d _ _ (fun k => ra k * rb k)
      (fun k => Some (mk3 (ra k * rb k) (n k) (ra (S k) * rb (S k)) (fun i e j =>
         Ea k (i / rb k) e (j / rb (S k)) *! Eb k (i mod rb k) e (j mod rb (S k)))))).
    - cbn [obind]. rewrite !aget_tab by lia. cbn [obind]. rewrite aset_tab by lia. cbn [obind].
      apply tt_fin; intros k Hk; natcase; subst; auto.
    - intros k r c Hk. cbn [fst snd]. rewrite !aget_tab by lia. cbn [obind].
      rewrite aset_tab by lia. cbn [obind]. rewrite kron3_ok. cbn [obind].
      rewrite aset_tab by lia. reflexivity.
  Qed.

  Lemma ps_mult n ra Ea rb Eb m k idx i l :
    (forall k, 0 < ra k) -> (forall k, 0 < rb k) ->
    i < ra k -> l < rb k -> vld n k m idx ->
    ps n (fun k => ra k * rb k)
       (fun k i e j => Ea k (i / rb k) e (j / rb (S k)) *! Eb k (i mod rb k) e (j mod rb (S k))) m k idx (i * rb k + l)
    = ps n ra Ea m k idx i *! ps n rb Eb m k idx l.
  Proof.
    intros Pa Pb. revert k idx i l. induction m as [|m IH]; intros k idx i l Hi Hl H.
    - unfold ps. simpl. ring.
    - destruct (vld_inv _ _ _ _ H) as (e & idx' & -> & He & H').
      rewrite !ps_step by (auto; now apply idx_lt).
      rewrite sum_mul_index, sum_mul. apply sum_ext. intros j Hj. apply sum_ext. intros q Hq.
      rewrite IH by auto. rewrite !idx_div, !idx_mod by auto. ring.
  Qed.

  Definition radd (d : nat) (ra rb : nat -> nat) (k : nat) :=
    if (k =? 0) || (k =? d) then 1 else ra k + rb k.

  Definition eadd (d : nat) (ra rb : nat -> nat) (Ea Eb : nat -> nat -> nat -> nat -> R) (k i e j : nat) : R :=
    if k =? 0 then (if j <? ra 1 then Ea 0 i e j else Eb 0 i e (j - ra 1))
    else if k =? d - 1 then (if i <? ra k then Ea k i e j else Eb k (i - ra k) e j)
    else if i <? ra k then (if j <? ra (S k) then Ea k i e j else r0)
         else (if j <? ra (S k) then r0 else Eb k (i - ra k) e (j - ra (S k))).

  Lemma ttadd_ok d n ra Ea rb Eb :
    2 <= d -> ra 0 = 1 -> rb 0 = 1 -> ra d = 1 -> rb d = 1 ->
    ttadd (ttt d n ra Ea) (ttt d n rb Eb) = Ok (ttt d n (radd d ra rb) (eadd d ra rb Ea Eb)).
  Proof.
    intros Hd A0 B0 Ad Bd. unfold ttadd. simpl tt_dim. simpl tt_ranks. simpl tt_cores. simpl tt_nvals.
    rewrite alloc_ranks_tab, alloc_cores_tab.
    rewrite !aget_tab by lia. cbn [obind]. rewrite A0, B0, stack2h_ok. cbn [obind].
    rewrite !aset_tab by lia. cbn [obind].
    rewrite (loop_tab2 (d + 1) d _ _ (fun k => ra k + rb k)
      (fun k => Some (mk3 (ra k + rb k) (n k) (ra (S k) + rb (S k)) (fun i e j =>
        if i <? ra k then (if j <? ra (S k) then Ea k i e j else r0)
        else (if j <? ra (S k) then r0 else Eb k (i - ra k) e (j - ra (S k))))))).
    - cbn [obind]. rewrite aset_tab by lia. cbn [obind].
      replace (S (d - 1)) with d by lia. rewrite Ad, Bd, stack2v_ok. cbn [obind].
      rewrite !aset_tab by lia. cbn [obind].
      apply tt_fin.
      + intros k Hk. unfold radd. natcase; auto.
      + intros k Hk. unfold radd, eadd. natcase; subst; try reflexivity.
    - intros k r c Hk. cbn [fst snd]. rewrite !aget_tab by lia. cbn [obind].
      rewrite blockdiag3_ok. cbn [obind]. rewrite aset_tab by lia. cbn [obind].
      rewrite aset_tab by lia. reflexivity.
  Qed.

  Lemma ps_add d n ra Ea rb Eb m k idx i :
    2 <= d -> ra d = 1 -> rb d = 1 -> k + m = d -> 0 < k -> vld n k m idx -> 0 < m ->
    (i < ra k -> ps n (radd d ra rb) (eadd d ra rb Ea Eb) m k idx i = ps n ra Ea m k idx i) /\
    (i < rb k -> ps n (radd d ra rb) (eadd d ra rb Ea Eb) m k idx (ra k + i) = ps n rb Eb m k idx i).
  Proof.
    intros Hd Ad Bd. revert k idx i. induction m as [|m IH]; intros k idx i Hk K0 H Hm; [lia|].
    destruct (vld_inv _ _ _ _ H) as (e & idx' & -> & He & H').
    assert (Rk : radd d ra rb k = ra k + rb k) by (unfold radd; natcase; auto).
    destruct (Nat.eq_dec m 0) as [->|Hm0].
    - (* last core *)
      assert (RS : radd d ra rb (S k) = 1) by (unfold radd; natcase; auto).
      assert (SK : S k = d) by lia.
      split; intros Hi; rewrite !ps_step by (rewrite ?Rk; auto; lia); rewrite RS, SK, ?Ad, ?Bd, !sum_1;
        unfold ps at 1 2; simpl; f_equal; unfold eadd; natcase; auto;
        now replace (ra k + i - ra k) with i by lia.
    - assert (RS : radd d ra rb (S k) = ra (S k) + rb (S k)) by (unfold radd; natcase; auto).
      split; intros Hi; rewrite !ps_step by (rewrite ?Rk; auto; lia); rewrite RS, sum_app.
      + rewrite (sum_zero_ext R (rb (S k))).
        2:{ intros j Hj. unfold eadd. natcase; ring. }
        rewrite (sum_ext R (ra (S k)) _ (fun j => Ea k i e j *! ps n ra Ea m (S k) idx' j)); [ring|].
        intros j Hj. f_equal; [unfold eadd; natcase; reflexivity|]. apply (IH (S k) idx' j); auto; lia.
      + rewrite (sum_zero_ext R (ra (S k))).
        2:{ intros j Hj. unfold eadd. natcase; ring. }
        rewrite (sum_ext R (rb (S k)) _ (fun j => Eb k i e j *! ps n rb Eb m (S k) idx' j)); [ring|].
        intros j Hj. f_equal.
        * unfold eadd. replace (ra k + i - ra k) with i by lia. replace (ra (S k) + j - ra (S k)) with j by lia.
          natcase; reflexivity.
        * apply (IH (S k) idx' j); auto; lia.
  Qed.

  Lemma ps_add_0 d n ra Ea rb Eb idx :
    2 <= d -> ra 0 = 1 -> rb 0 = 1 -> ra d = 1 -> rb d = 1 -> vld n 0 d idx ->
    ps n (radd d ra rb) (eadd d ra rb Ea Eb) d 0 idx 0 = ps n ra Ea d 0 idx 0 +! ps n rb Eb d 0 idx 0.
  Proof.
    intros Hd A0 B0 Ad Bd H. destruct d as [|m]; [lia|].
    destruct (vld_inv _ _ _ _ H) as (e & idx' & -> & He & H').
    rewrite !ps_step by (auto; rewrite ?A0, ?B0; unfold radd; natcase; lia).
    assert (RS : radd (S m) ra rb 1 = ra 1 + rb 1) by (unfold radd; natcase; auto).
    rewrite RS, sum_app. f_equal; apply sum_ext; intros j Hj; (f_equal; [unfold eadd; natcase; auto|]).
    - apply (ps_add (S m) n ra Ea rb Eb m 1 idx' j); auto; lia.
    - now replace (ra 1 + j - ra 1) with j by lia.
    - apply (ps_add (S m) n ra Ea rb Eb m 1 idx' j); auto; lia.
  Qed.

  (** * Element access *)
  Lemma ttelem_ok d n r E idx :
    2 <= d -> r 0 = 1 -> r d = 1 -> (forall k, 0 < r k) -> vld n 0 d idx ->
    (forall k, 2 <= k -> k < d - 1 -> n k = n 1) ->
    ttelem (ttt d n r E) idx = Ok (ps n r E d 0 idx 0).
  Proof.
    intros Hd R0 Rd Hr H Hn. assert (HI := vld_nth _ _ _ H).
    unfold ttelem. simpl tt_dim. simpl tt_ranks. simpl tt_cores. simpl tt_nvals.
    rewrite !aget_tab by lia. cbn [obind].
    rewrite (aget_ok _ _ _ (proj2 (HI 0 ltac:(lia)))), (aget_ok _ _ _ (proj2 (HI 1 ltac:(lia)))). cbn [obind].
    simpl t_vals.
    set (M := fun k i j => E k i (nth k idx 0) j).
    destruct (HI 0 ltac:(lia)) as [N0 _]. destruct (HI 1 ltac:(lia)) as [N1 _].
    rewrite (dgemv_tx_ok _ _ _ _ _ _ _ _ (M 1) (fw r M 1)); auto; [|nia|nia|..].
    2:{ intros i j Hi Hj. replace (nth 1 idx 0 * r 1 + (j * (r 1 * n 1) + i))
          with (i + nth 1 idx 0 * r 1 + j * r 1 * n 1) by lia. now rewrite v3_get by auto. }
    2:{ intros i Hi. replace (nth 0 idx 0 * r 0 + i * (r 0 * n 0))
          with (0 + nth 0 idx 0 * r 0 + i * r 0 * n 0) by lia. rewrite v3_get by (auto; lia).
        cbn [fw]. rewrite R0, sum_1. unfold M. f_equal. ring. }
    cbn [obind].
    change (tab (r 2) (fun j => sum (r 1) (fun i => M 1 i j *! fw r M 1 i))) with (tab (r 2) (fw r M 2)).
    rewrite (for_from_det (fun k => tab (r (1 + k)) (fw r M (1 + k)))) with (lo := 1).
    2:{ intros k Hk. rewrite !aget_tab by lia. cbn [obind].
        rewrite (aget_ok _ _ _ (proj2 (HI (k + 1) ltac:(lia)))). cbn [obind]. simpl t_vals.
        replace (k + 1) with (1 + k) by lia. replace (k + 2) with (2 + k) by lia.
        destruct (HI (1 + k) ltac:(lia)) as [Nk _].
        assert (P1 := Hr (1 + k)).
        assert (LD : r (1 + k) * n 1 = r (1 + k) * n (1 + k) \/ (r (2 + k) = 1 /\ 0 < n 1)).
        { destruct (Nat.eq_dec (2 + k) d) as [e|].
          - right. rewrite e. split; auto. lia.
          - left. rewrite (Hn (1 + k)) by lia. auto. }
        rewrite (dgemv_tx_ok _ _ _ _ _ _ _ _ (M (1 + k)) (fw r M (1 + k))); auto; try nia.
        - intros i j Hi Hj.
          assert (EJ : j * (r (1 + k) * n 1) = j * (r (1 + k) * n (1 + k))).
          { destruct LD as [->|[e _]]; auto. change (S (1 + k)) with (2 + k) in *. rewrite e in Hj.
            assert (j = 0) as -> by lia. reflexivity. }
          rewrite EJ. change (S (1 + k)) with (2 + k).
          replace (nth (1 + k) idx 0 * r (1 + k) + (j * (r (1 + k) * n (1 + k)) + i))
            with (i + nth (1 + k) idx 0 * r (1 + k) + j * r (1 + k) * n (1 + k)) by lia. now rewrite v3_get by auto.
        - intros i Hi. replace (0 + i * 1) with i by lia. apply nth_error_tab. lia. }
    cbn [obind]. replace (1 + (1 + (d - 1 - 1))) with d by lia. rewrite Rd. rewrite aget_tab by lia.
    f_equal. rewrite fw_total by auto. symmetry. apply (ps_bw n r E idx d 0 0); auto.
  Qed.

  Lemma nth_repeat_lt {A} (a d : A) m k : k < m -> nth k (repeat a m) d = a.
  Proof. intros H. rewrite repeat_tab. now rewrite nth_tab. Qed.

  (** * Sums over all multi-indices *)
  Lemma msum_ext ns f g : (forall idx, valid_idx ns idx -> f idx = g idx) -> msum (R := R) ns f = msum ns g.
  Proof.
    revert f g. induction ns as [|n ns IH]; intros f g H; cbn [msum].
    - apply H. constructor.
    - apply sum_ext. intros e He. apply IH. intros idx Hi. apply H. constructor; auto.
  Qed.

  Lemma msum_sum ns m (f : nat -> list nat -> R) :
    msum ns (fun idx => sum m (fun j => f j idx)) = sum m (fun j => msum ns (f j)).
  Proof.
    revert f. induction ns as [|n ns IH]; intros f; cbn [msum]; auto.
    rewrite (sum_ext R n _ (fun e => sum m (fun j => msum ns (fun idx => f j (e :: idx))))).
    2:{ intros e He. apply (IH (fun j idx => f j (e :: idx))). }
    apply sum_swap.
  Qed.

  Lemma msum_scal ns c (f : list nat -> R) : msum ns (fun idx => c *! f idx) = c *! msum ns f.
  Proof.
    revert f. induction ns as [|n ns IH]; intros f; cbn [msum]; auto.
    rewrite <- sum_scal_l. apply sum_ext. intros e He. apply (IH (fun idx => f (e :: idx))).
  Qed.

  Lemma msum_ps n r E (W : nat -> list R) m k i :
    i < r k -> 
    msum (map n (seq k m)) (fun idx => wprod (map W (seq k m)) idx *! ps n r E m k idx i)
    = bw r (fun k i j => sum (n k) (fun e => nth e (W k) r0 *! E k i e j)) m k i.
  Proof.
    revert k i. induction m as [|m IH]; intros k i Hi.
    - cbn [seq map msum wprod bw]. unfold ps. simpl. ring.
    - cbn [seq map msum bw].
      rewrite (sum_ext R (n k) _ (fun e => sum (r (S k)) (fun j => nth e (W k) r0 *! E k i e j *!
        msum (map n (seq (S k) m)) (fun idx => wprod (map W (seq (S k) m)) idx *! ps n r E m (S k) idx j)))).
      2:{ intros e He.
          rewrite (msum_ext _ _ (fun idx => sum (r (S k)) (fun j => nth e (W k) r0 *! E k i e j *!
             (wprod (map W (seq (S k) m)) idx *! ps n r E m (S k) idx j)))).
          - rewrite msum_sum. apply sum_ext. intros j Hj. apply msum_scal.
          - intros idx Hidx. rewrite ps_step by auto. cbn [wprod]. rewrite <- sum_scal_l.
            apply sum_ext. intros j Hj. ring. }
      rewrite sum_swap. apply sum_ext. intros j Hj. rewrite IH by auto. now rewrite sum_scal_r.
  Qed.

  Lemma tt_integrate_ok d n r E (W : nat -> list R) :
    0 < d -> r 0 = 1 -> r d = 1 -> (forall k, 0 < r k) -> (forall k, k < d -> n k <= length (W k)) ->
    tt_integrate (ttt d n r E) (tab d W)
    = Ok (msum (tab d n) (fun idx => wprod (tab d W) idx *! ps n r E d 0 idx 0)).
  Proof.
    intros Hd R0 Rd Hr HW. unfold tt_integrate. simpl tt_dim. simpl tt_ranks. simpl tt_cores.
    set (M := fun k i j => sum (n k) (fun e => nth e (W k) r0 *! E k i e j)).
    rewrite !aget_tab by lia. cbn [obind]. rewrite sum2_ok by auto. cbn [obind].
    rewrite (tab_ext _ _ (fw r M 1)).
    2:{ intros p Hp. rewrite R0 in *. rewrite Nat.mul_1_r in Hp. cbn [fw]. rewrite R0, sum_1.
        rewrite Nat.mod_1_r, Nat.div_1_r. unfold M. ring. }
    rewrite R0, Nat.mul_1_r.
    rewrite (for_from_det (fun k => tab (r k) (fw r M k))) with (lo := 1).
    2:{ intros k Hk. rewrite !aget_tab by lia. cbn [obind]. rewrite sum2_ok by (apply HW; lia). cbn [obind].
        replace (k + 1) with (S k) by lia. assert (Pk := Hr k).
        rewrite (dgemv_tx_ok _ _ _ _ _ _ _ _ (M k) (fw r M k)); auto; try lia.
        - intros i j Hi Hj. rewrite nth_error_tab by (simpl; apply idx_lt; auto). simpl Nat.add.
          now rewrite idx_div, idx_mod by auto.
        - intros i Hi. replace (0 + i * 1) with i by lia. now apply nth_error_tab. }
    cbn [obind]. replace (1 + (d - 1)) with d by lia. rewrite Rd, aget_tab by lia. f_equal.
    rewrite fw_total by auto. symmetry. apply (msum_ps n r E W d 0 0). lia.
  Qed.

  (** * Inner products *)
  Lemma tt_dot_ok d n ra Ea rb Eb :
    0 < d -> ra 0 = 1 -> rb 0 = 1 -> ra d = 1 -> rb d = 1 ->
    (forall k, 0 < ra k) -> (forall k, 0 < rb k) ->
    (forall k, 2 <= k -> k < d -> ra k = rb k) ->
    tt_dot (ttt d n ra Ea) (ttt d n rb Eb)
    = Ok (msum (tab d n) (fun idx => ps n ra Ea d 0 idx 0 *! ps n rb Eb d 0 idx 0)).
  Proof.
    intros Hd A0 B0 Ad Bd Pa Pb Hk. unfold tt_dot. simpl tt_dim. simpl tt_ranks. simpl tt_cores. simpl tt_nvals.
    set (r := fun k => ra k * rb k).
    set (E := fun k i e j => Ea k (i / rb k) e (j / rb (S k)) *! Eb k (i mod rb k) e (j mod rb (S k))).
    set (M := fun k i j => sum (n k) (fun e => E k i e j)).
    rewrite !aget_tab by lia. cbn [obind]. rewrite repeat_tab. simpl t_vals.
    rewrite (for_det (fun e' => tab (ra 1 * rb 1) (fun p => sum e' (fun e => E 0 0 e p)))).
    2:{ intros e He. cbn [sum].
        rewrite (upd_pass (ra 1) (rb 1) _ (fun j i c => Eb 0 0 e i *! Ea 0 0 e j +! c)).
        - f_equal. apply tab_ext. intros p Hp. unfold E. rewrite B0.
          cbn [Nat.div Nat.divmod fst Nat.modulo snd Nat.sub]. ring.
        - intros j i l Hj Hi. rewrite B0, A0.
          replace (e + i * n 0) with (0 + e * 1 + i * 1 * n 0) by lia.
          replace (e + j * n 0) with (0 + e * 1 + j * 1 * n 0) by lia.
          now rewrite !v3_aget by (auto; lia). }
    cbn [obind].
    rewrite (tab_ext _ _ (fw r M 1)).
    2:{ intros p Hp. cbn [fw]. unfold r. rewrite A0, B0. simpl Nat.mul. rewrite sum_1. unfold M. ring. }
    change (ra 1 * rb 1) with (r 1).
    rewrite (for_from_det (fun k => tab (r k) (fw r M k))) with (lo := 1).
    2:{ intros k K. rewrite !aget_tab by lia. cbn [obind]. simpl t_vals.
        replace (k + 1) with (S k) by lia. assert (PA := Pa k). assert (PB := Pb k).
        assert (RS : ra (S k) = rb (S k)).
        { destruct (Nat.eq_dec (S k) d) as [->|]; [congruence|]. apply Hk; lia. }
        rewrite repeat_tab.
        rewrite (for_det (fun e' => tab (ra (S k) * rb (S k)) (fun q => sum e' (fun e =>
            sum (r k) (fun p => E k p e q *! fw r M k p))))).
        - f_equal. unfold r. apply tab_ext. intros q Hq. cbn [fw]. rewrite sum_swap. apply sum_ext.
          intros p Hp. unfold M. now rewrite sum_scal_r.
        - intros e He. cbn [sum].
          rewrite (vec_kron_ok _ _ _ _ _ _ _ _ _ _ _ _ _ (fun i j => Ea k i e j) (fun i j => Eb k i e j)
                    (fun i p => fw r M k (i * rb k + p))); auto; try nia.
          + f_equal. apply tab_ext. intros q Hq.
            replace (sum (r k) (fun p => E k p e q *! fw r M k p))
              with (sum (ra k) (fun i => sum (rb k) (fun p => E k (i * rb k + p) e q *! fw r M k (i * rb k + p))))
              by (symmetry; apply (sum_mul_index R (ra k) (rb k) (fun p => E k p e q *! fw r M k p))).
            rewrite (sum_ext R (ra k) _ (fun i => sum (rb k) (fun p =>
               E k (i * rb k + p) e q *! fw r M k (i * rb k + p)))); [ring|].
            intros i Hi. rewrite <- sum_scal_l. apply sum_ext. intros p Hp. unfold E.
            rewrite idx_div, idx_mod by auto. ring.
          + intros i j Hi Hj. replace (e * ra k + (j * (ra k * n k) + i)) with (i + e * ra k + j * ra k * n k) by lia.
            now rewrite v3_get by auto.
          + intros i j Hi Hj. replace (e * rb k + (j * (rb k * n k) + i)) with (i + e * rb k + j * rb k * n k) by lia.
            now rewrite v3_get by auto.
          + intros i p Hi Hp. apply nth_error_tab. unfold r. now apply idx_lt. }
    cbn [obind]. replace (1 + (d - 1)) with d by lia. unfold r at 1. rewrite Ad, Bd. simpl Nat.mul.
    rewrite aget_tab by lia. f_equal.
    assert (R0 : r 0 = 1) by (unfold r; rewrite A0, B0; reflexivity).
    assert (Rd : r d = 1) by (unfold r; rewrite Ad, Bd; reflexivity).
    rewrite fw_total by auto.
    rewrite (msum_ext _ _ (fun idx => wprod (map (fun k => repeat r1 (n k)) (seq 0 d)) idx *! ps n r E d 0 idx 0)).
    - unfold tab at 1. rewrite msum_ps by lia. apply bw_ext; [lia|].
      intros k' i' j' _ _ _. unfold M. apply sum_ext. intros e He.
      rewrite nth_repeat_lt by auto. ring.
    - intros idx Hidx.
      assert (HW : forall m k idx, vld n k m idx -> wprod (map (fun k => repeat r1 (n k)) (seq k m)) idx = (r1 : R)).
      { clear. induction m as [|m IH]; intros k idx H; [reflexivity|].
        destruct (vld_inv _ _ _ _ H) as (e & idx' & -> & He & H'). cbn [seq map wprod].
        rewrite IH by auto. rewrite nth_repeat_lt by auto. ring. }
      rewrite HW by exact Hidx.
      assert (HM := ps_mult n ra Ea rb Eb d 0 idx 0 0 Pa Pb ltac:(lia) ltac:(lia) Hidx).
      rewrite <- HM. change (0 * rb 0 + 0) with 0. fold r. fold E. ring.
  Qed.

  (** * Copies and constants *)
  Lemma copy_tt_ok d n r E : copy_tt (ttt d n r E) = Ok (ttt d n r E).
  Proof.
    unfold copy_tt. simpl tt_dim. simpl tt_ranks. simpl tt_cores. simpl tt_nvals.
    rewrite alloc_ranks_tab, alloc_cores_tab. unfold blit, for_.
    rewrite (loop_tab1 _ _ r).
    2:{ intros k r' Hk. simpl Nat.add in *. rewrite aget_tab by lia. cbn [obind]. apply aset_tab. lia. }
    cbn [obind].
    rewrite (loop_tab1 _ _ (fun k => Some (mk3 (r k) (n k) (r (S k)) (E k)))).
    2:{ intros k c Hk. rewrite aget_tab by lia. cbn [obind]. rewrite copy3_ok. cbn [obind]. apply aset_tab. lia. }
    cbn [obind]. apply tt_fin; intros k Hk; natcase; reflexivity.
  Qed.

  Lemma tt_ones_ok d n : tt_ones d (tab d n) = Ok (ttt d n (fun _ => 1) (fun _ _ _ _ => r1)).
  Proof.
    unfold tt_ones. rewrite alloc_ranks_tab, alloc_cores_tab. unfold for_.
    rewrite (loop_tab2 (d + 1) d _ _ (fun _ => 1) (fun k => Some (mk3 1 (n k) 1 (fun _ _ _ => r1)))).
    - cbn [obind]. rewrite aset_tab by lia. cbn [obind]. apply tt_fin; intros k Hk; natcase; reflexivity.
    - intros k r c Hk. cbn [fst snd]. rewrite aset_tab by lia. cbn [obind]. rewrite aget_tab by lia. cbn [obind].
      rewrite ones3_ok. cbn [obind]. rewrite aset_tab by lia. reflexivity.
  Qed.

  Lemma ps_ones n m k idx : vld n k m idx -> ps n (fun _ => 1) (fun _ _ _ _ => r1) m k idx 0 = (r1 : R).
  Proof.
    revert k idx. induction m as [|m IH]; intros k idx H; [reflexivity|].
    destruct (vld_inv _ _ _ _ H) as (e & idx' & -> & He & H'). rewrite ps_step by auto.
    rewrite sum_1, IH by auto. ring.
  Qed.

  (** * Matrices and general tensors *)
  Lemma kron_col_ok n m a oa lda k l b ob ldb (out : list R) oo ldc :
    n * k <= ldc ->
    (forall i j, i < n -> j < m -> oa + (j * lda + i) < length a) ->
    (forall i j, i < k -> j < l -> ob + (j * ldb + i) < length b) ->
    (forall i j, i < n * k -> j < m * l -> oo + (j * ldc + i) < length out) ->
    exists out', kron_col n m a oa lda k l b ob ldb out oo ldc = Ok out' /\
      length out' = length out /\
      (forall i j p q, i < n -> j < m -> p < k -> q < l ->
         nth (oo + ((j * l + q) * ldc + (i * k + p))) out' r0
         = nth (oa + (j * lda + i)) a r0 *! nth (ob + (q * ldb + p)) b r0) /\
      (forall z, (forall row col, row < n * k -> col < m * l -> z <> oo + (col * ldc + row)) ->
         nth_error out' z = nth_error out z).
  Proof.
    intros Hld Ha Hb Ho.
    set (T := fun z => let w := z - oo in let col := w / ldc in let row := w mod ldc in
      nth (oa + (col / l * lda + row / k)) a r0 *! nth (ob + (col mod l * ldb + row mod k)) b r0).
    assert (HT : forall i j p q, i < n -> j < m -> p < k -> q < l ->
       oo + ((j * l + q) * ldc + (i * k + p)) < length out /\
       T (oo + ((j * l + q) * ldc + (i * k + p)))
       = nth (oa + (j * lda + i)) a r0 *! nth (ob + (q * ldb + p)) b r0).
    { intros i j p q Hi Hj Hp Hq. assert (i * k + p < n * k) by now apply idx_lt.
      assert (j * l + q < m * l) by now apply idx_lt. split; [now apply Ho|].
      unfold T. cbv zeta. replace (oo + ((j * l + q) * ldc + (i * k + p)) - oo)
        with ((j * l + q) * ldc + (i * k + p)) by lia.
      rewrite (idx_div (j * l + q) ldc), (idx_mod (j * l + q) ldc) by lia.
      now rewrite !idx_div, !idx_mod by auto. }
    destruct (kron_col_wrf T (length out) n m a oa lda k l b ob ldb oo ldc
      (fun i j => nth (oa + (j * lda + i)) a r0) (fun i j => nth (ob + (j * ldb + i)) b r0)) with (l := out)
      as (out' & E & W); auto.
    - intros. apply nth_error_nth'. auto.
    - intros. apply nth_error_nth'. auto.
    - exists out'. split; [exact E|]. destruct W as (W1 & W2 & W3 & W4). split; [exact W1|]. split.
      + intros i j p q Hi Hj Hp Hq. destruct (HT i j p q Hi Hj Hp Hq) as [H1 H2].
        rewrite <- H2. apply nth_error_nth. apply W3. exists i, j, p, q. auto.
      + intros z Hz. apply W4. intros (i & j & p & q & Hi & Hj & Hp & Hq & E'). 
        apply (Hz (i * k + p) (j * l + q)); try now apply idx_lt. auto.
  Qed.

  Lemma vec_kron_spec m n a oa lda k l b ob ldb v scale (out : list R) :
    0 < m -> 0 < k -> 0 < l -> n = l -> m <= lda -> k <= ldb ->
    (forall i j, i < m -> j < n -> oa + (j * lda + i) < length a) ->
    (forall i j, i < k -> j < l -> ob + (j * ldb + i) < length b) ->
    length v = m * k -> length out = n * l ->
    exists out', vec_kron m n a oa lda k l b ob ldb v scale out = Ok out' /\ length out' = n * l /\
      forall j q, j < n -> q < l ->
        nth (j * l + q) out' r0
        = sum m (fun i => sum k (fun p => nth (i * k + p) v r0 *!
                    (nth (oa + (j * lda + i)) a r0 *! nth (ob + (q * ldb + p)) b r0)))
          +! scale *! nth (j * l + q) out r0.
  Proof.
    intros Hm Hk Hl En Hla Hlb Ha Hb Hv Ho.
    assert (EO : out = tab (n * l) (fun p => nth p out r0)) by (rewrite <- Ho; apply list_eq_tab_nth).
    replace (vec_kron m n a oa lda k l b ob ldb v scale out)
      with (vec_kron m n a oa lda k l b ob ldb v scale (tab (n * l) (fun p => nth p out r0))) by (f_equal; auto).
    rewrite (vec_kron_ok m n a oa lda k l b ob ldb v scale _ (fun i j => nth (oa + (j * lda + i)) a r0)
      (fun i j => nth (ob + (j * ldb + i)) b r0) (fun i p => nth (i * k + p) v r0)); auto;
      try (intros; apply nth_error_nth'; auto; rewrite Hv; now apply idx_lt).
    eexists. split; [reflexivity|]. split; [apply tab_length|]. intros j q Hj Hq.
    rewrite nth_tab by now apply idx_lt. rewrite idx_div, idx_mod by auto. f_equal.
    apply sum_ext. intros i Hi. rewrite <- sum_scal_l. apply sum_ext. intros p Hp. ring.
  Qed.

  (** When the column counts differ the second product runs outside the output
      (n > l) or is rejected (n < l). *)
  Lemma vec_kron_bad m n a oa lda k l b ob ldb v scale (out : list R) :
    0 < m -> 0 < k -> 0 < l -> 0 < n -> n <> l -> m <= lda -> k <= ldb ->
    (forall i j, i < m -> j < n -> oa + (j * lda + i) < length a) ->
    (forall i j, i < k -> j < l -> ob + (j * ldb + i) < length b) ->
    length v = m * k -> length out = n * l ->
    vec_kron m n a oa lda k l b ob ldb v scale out = if n <? l then Abort else UB.
  Proof.
    intros Hm Hk Hl Hn0 En Hla Hlb Ha Hb Hv Ho. unfold vec_kron.
    rewrite (Nat.mul_comm m l), repeat_tab.
    rewrite (dgemm_rnt_ok l m k b ob ldb v 0 k r0 (fun _ => r0) (fun j p => nth (ob + (j * ldb + p)) b r0)
               (fun i p => nth (i * k + p) v r0)); auto;
      try (intros; apply nth_error_nth'; auto; rewrite Hv; simpl; now apply idx_lt).
    cbn [obind]. unfold dgemm_rnt.
    destruct (Nat.leb_spec (Nat.max 1 m) lda); [|lia]. cbn [cassert obind].
    destruct (Nat.leb_spec (Nat.max 1 m) m); [|lia]. cbn [cassert obind].
    destruct (Nat.leb_spec (Nat.max 1 l) n) as [Hge|Hlt]; cbn [cassert obind].
    2:{ destruct (Nat.ltb_spec n l); [reflexivity|lia]. }
    destruct (Nat.ltb_spec n l); [lia|].
    match goal with |- for_ n ?f out = UB => set (body := f) end.
    set (D := fun i j => sum m (fun p => nth (oa + (i * lda + p)) a r0 *!
                nth (j * m + p) (tab (l * m) (fun q => sum k (fun p0 =>
                  nth (ob + (q / m * ldb + p0)) b r0 *! nth (q mod m * k + p0) v r0) +! r0 *! r0)) r0)).
    assert (Hstep : forall i j (C : list R), i < n -> j < l ->
      (do s <- for_ m (fun p s =>
                do x <- aget a (oa + (i * lda + p));
                do y <- aget (tab (l * m) (fun q => sum k (fun p0 =>
                  nth (ob + (q / m * ldb + p0)) b r0 *! nth (q mod m * k + p0) v r0) +! r0 *! r0)) (0 + (j * m + p));
                Ok (s +! x *! y)) r0;
      do c <- aget C (i * n + j);
      aset C (i * n + j) (s +! scale *! c))
      = do c <- aget C (i * n + j); aset C (i * n + j) (D i j +! scale *! c)).
    { intros i j C Hi Hj.
      rewrite (dot_loop m a _ (fun p => oa + (i * lda + p)) (fun p => 0 + (j * m + p))
                (fun p => nth (oa + (i * lda + p)) a r0)
                (fun p => nth (j * m + p) (tab (l * m) (fun q => sum k (fun p0 =>
                  nth (ob + (q / m * ldb + p0)) b r0 *! nth (q mod m * k + p0) v r0) +! r0 *! r0)) r0)); auto.
      - intros p Hp. apply nth_error_nth'. auto.
      - intros p Hp. simpl Nat.add. apply nth_error_nth'. rewrite tab_length. now apply idx_lt. }
    assert (Hin : forall i j (C : list R), i < n -> j < l -> length C = n * l ->
      (do c <- aget C (i * n + j); aset C (i * n + j) (D i j +! scale *! c)) = UB \/
      exists C', (do c <- aget C (i * n + j); aset C (i * n + j) (D i j +! scale *! c)) = Ok C' /\ length C' = n * l).
    { intros i j C Hi Hj HC. destruct (aget C (i * n + j)) as [c| | |] eqn:EC.
      - right. cbn [obind]. assert (i * n + j < length C).
        { apply nth_error_Some. apply aget_inv in EC. congruence. }
        rewrite aset_ok by auto. eexists. split; [reflexivity|]. now rewrite upd_length.
      - unfold aget in EC. destruct (nth_error C (i * n + j)); discriminate.
      - now left.
      - unfold aget in EC. destruct (nth_error C (i * n + j)); discriminate. }
    apply (for_ub (fun C => length C = n * l) body n out (n - 1)); auto; try lia.
    - intros i C Hi HC. unfold body.
      erewrite (for_ext _ (fun j C => do c <- aget C (i * n + j); aset C (i * n + j) (D i j +! scale *! c)) l)
        by (intros j C' Hj; apply Hstep; lia).
      assert (G : forall q, q <= l ->
        for_ q (fun j C => do c <- aget C (i * n + j); aset C (i * n + j) (D i j +! scale *! c)) C = UB \/
        exists C', for_ q (fun j C => do c <- aget C (i * n + j); aset C (i * n + j) (D i j +! scale *! c)) C = Ok C'
          /\ length C' = n * l).
      { induction q as [|q IH]; intros Hq; [right; exists C; auto|]. rewrite for_S.
        destruct IH as [->|(C' & -> & HC')]; [lia|now left|]. cbn [obind]. apply Hin; auto. }
      apply G. lia.
    - intros C HC. unfold body.
      erewrite (for_ext _ (fun j C => do c <- aget C ((n - 1) * n + j); aset C ((n - 1) * n + j) (D (n - 1) j +! scale *! c)) l)
        by (intros j C' Hj; apply Hstep; lia).
      apply (for_ub (fun C => length C = n * l) _ l C (l - 1)); auto; try lia.
      + intros j C' Hj HC'. apply Hin; auto. lia.
      + intros C' HC'. unfold aget.
        replace (nth_error C' ((n - 1) * n + (l - 1))) with (@None R); [reflexivity|].
        symmetry. apply nth_error_None. rewrite HC'. nia.
  Qed.

  Lemma kron_ok (a b : mat R) :
    mat_wf a -> mat_wf b ->
    exists c, kron a b = Ok c /\ mat_wf c /\ m_nrows c = m_nrows a * m_nrows b /\
      m_ncols c = m_ncols a * m_ncols b /\
      forall i j p q, i < m_nrows a -> j < m_ncols a -> p < m_nrows b -> q < m_ncols b ->
        ment c (i * m_nrows b + p) (j * m_ncols b + q) = ment a i j *! ment b p q.
  Proof.
    unfold mat_wf, ment. intros Ha Hb. unfold kron.
    set (na := m_nrows a) in *. set (ma := m_ncols a) in *. set (nb := m_nrows b) in *. set (mb := m_ncols b) in *.
    set (N := na * nb * (ma * mb)).
    set (T := fun z => let row := z / (ma * mb) in let col := z mod (ma * mb) in
       nth (row / nb * ma + col / mb) (m_vals a) r0 *! nth (row mod nb * mb + col mod mb) (m_vals b) r0).
    assert (HT : forall i j p q, i < na -> j < ma -> p < nb -> q < mb ->
       (i * nb + p) * (ma * mb) + (j * mb + q) < N /\
       T ((i * nb + p) * (ma * mb) + (j * mb + q)) = nth (i * ma + j) (m_vals a) r0 *! nth (p * mb + q) (m_vals b) r0).
    { intros i j p q Hi Hj Hp Hq. assert (j * mb + q < ma * mb) by now apply idx_lt.
      assert (i * nb + p < na * nb) by now apply idx_lt.
      split; [now apply idx_lt|]. unfold T. cbv zeta.
      rewrite (idx_div (i * nb + p) (ma * mb)), (idx_mod (i * nb + p) (ma * mb)) by auto.
      now rewrite !idx_div, !idx_mod by auto. }
    match goal with |- context [for_ na ?f ?l] => assert (E : for_ na f l = Ok (tab N T)) end.
    { apply (wrf_full T N (fun z => exists i, i < na /\ exists j, j < ma /\ exists p, p < nb /\ exists q, q < mb /\
              (i * nb + p) * (ma * mb) + (j * mb + q) = z)
          (fun l => for_ na _ l)).
      - apply (wrf_for T N (fun i z => exists j, j < ma /\ exists p, p < nb /\ exists q, q < mb /\
              (i * nb + p) * (ma * mb) + (j * mb + q) = z)). intros i Hi.
        apply (wrf_for T N (fun j z => exists p, p < nb /\ exists q, q < mb /\
              (i * nb + p) * (ma * mb) + (j * mb + q) = z)). intros j Hj.
        apply (wrf_for T N (fun p z => exists q, q < mb /\
              (i * nb + p) * (ma * mb) + (j * mb + q) = z)). intros p Hp.
        apply (wrf_for T N (fun q z => (i * nb + p) * (ma * mb) + (j * mb + q) = z)). intros q Hq.
        destruct (HT i j p q Hi Hj Hp Hq) as [H1 H2].
        eapply wrf_get; [apply aget_ok, nth_error_nth'; rewrite Ha; now apply idx_lt|].
        eapply wrf_get; [apply aget_ok, nth_error_nth'; rewrite Hb; now apply idx_lt|].
        apply wrf_aset; [auto|]. symmetry. exact H2.
      - apply repeat_length.
      - intros z Hz. destruct (idx_split z (ma * mb) (na * nb) Hz) as (row & col & Hrow & Hcol & ->).
        destruct (idx_split row nb na Hrow) as (i & p & Hi & Hp & ->).
        destruct (idx_split col mb ma Hcol) as (j & q & Hj & Hq & ->).
        exists i; split; auto. exists j; split; auto. exists p; split; auto. exists q; split; auto. }
    rewrite E. cbn [obind]. eexists. split; [reflexivity|]. simpl. split; [now rewrite tab_length|].
    split; [reflexivity|]. split; [reflexivity|]. intros i j p q Hi Hj Hp Hq.
    destruct (HT i j p q Hi Hj Hp Hq) as [H1 H2]. rewrite nth_tab by auto. exact H2.
  Qed.

  Lemma tensor_elem_ok (t : tensor R) idx :
    0 < t_dim t -> length (t_nvals t) = t_dim t -> length (t_vals t) = iprod (t_nvals t) ->
    valid_idx (t_nvals t) idx ->
    colmajor (t_nvals t) idx < length (t_vals t) /\
    tensor_elem t idx = Ok (nth (colmajor (t_nvals t) idx) (t_vals t) r0).
  Proof.
    intros Hd Hn Hl Hv.
    assert (IP : forall ns a, fold_left Nat.mul ns a = a * iprod ns).
    { unfold iprod. induction ns as [|m ns IH]; intros a; simpl; [lia|]. rewrite IH, (IH (m + 0)). lia. }
    assert (LT : forall ns idx, valid_idx ns idx -> colmajor ns idx < iprod ns).
    { clear - IP. intros ns idx H. induction H as [|e n idx ns He H IH]; simpl; [unfold iprod; simpl; lia|].
      unfold iprod. simpl. rewrite IP. nia. }
    assert (L := LT _ _ Hv). rewrite <- Hl in L. split; auto.
    unfold tensor_elem. destruct t as [d ns vals]. simpl in *.
    destruct Hv as [|e n0 idx ns He Hv]; [simpl in Hn; lia|]. cbn [aget nth_error obind].
    assert (G : forall m k, k + m = d -> 0 < k ->
      forall b mu, (b, mu) = (colmajor (firstn k (n0 :: ns)) (firstn k (e :: idx)), iprod (firstn k (n0 :: ns))) ->
      for_from k m (fun ii (s : nat * nat) =>
        do e' <- aget (e :: idx) ii; do n <- aget (n0 :: ns) ii;
        Ok (fst s + e' * snd s, snd s * n)) (b, mu)
      = Ok (colmajor (n0 :: ns) (e :: idx), iprod (n0 :: ns))).
    { assert (LI : length (e :: idx) = d /\ length (n0 :: ns) = d).
      { split; auto. rewrite <- Hn. simpl. f_equal. clear - Hv. induction Hv; simpl; auto. }
      destruct LI as [LI1 LI2]. generalize dependent (e :: idx). generalize dependent (n0 :: ns).
      intros NS _ _ LI2 IDX _ LI1.
      induction m as [|m IH]; intros k Hk K0 b mu Hb.
      - cbn [for_from]. rewrite Hb. rewrite !firstn_all2 by lia. reflexivity.
      - cbn [for_from].
        destruct (nth_error IDX k) as [ek|] eqn:E1; [|apply nth_error_None in E1; lia].
        destruct (nth_error NS k) as [nk|] eqn:E2; [|apply nth_error_None in E2; lia].
        rewrite (aget_ok _ _ _ E1), (aget_ok _ _ _ E2). cbn [obind fst snd]. apply IH; try lia.
        assert (b = colmajor (firstn k NS) (firstn k IDX)) as -> by congruence.
        assert (mu = iprod (firstn k NS)) as -> by congruence.
        clear - E1 E2 IP. revert NS IDX E1 E2. induction k as [|k IH]; intros [|n NS] [|e IDX] E1 E2; try discriminate.
        + simpl in E1, E2. injection E1 as ->. injection E2 as ->. simpl. unfold iprod. simpl. f_equal; lia.
        + simpl in E1, E2. specialize (IH _ _ E1 E2). pose proof (f_equal fst IH) as I1. pose proof (f_equal snd IH) as I2. cbn [fst snd] in I1, I2.
          change (firstn (S (S k)) (n :: NS)) with (n :: firstn (S k) NS).
          change (firstn (S (S k)) (e :: IDX)) with (e :: firstn (S k) IDX).
          change (firstn (S k) (n :: NS)) with (n :: firstn k NS).
          change (firstn (S k) (e :: IDX)) with (e :: firstn k IDX).
          cbn [colmajor]. unfold iprod. cbn [fold_left]. rewrite !IP. rewrite <- I1, <- I2. f_equal; nia. }
    rewrite (G (d - 1) 1); [|lia|lia|simpl; unfold iprod; simpl; f_equal; lia]. cbn [obind].
    apply aget_ok. apply nth_error_nth'. exact L.
  Qed.
End TTFacts.
