(** The weighted integral over some variables: loop invariants. *)
From Verif Require Export FTSubModel FTSpec FTFacts QmaFacts BlasFacts BaseFacts FTCtor PAllocFacts.

Section FTSub.
  Context {R : CRing} {U : uops R}.
  Open Scope cr_scope.
  Add Ring Rr55 : (rth R).

  (** Row vector of a reversed list of cores. *)
  Fixpoint rw (cs : list (qma U)) (hs : list (U -> R)) (j : nat) : R :=
    match cs, hs with
    | c :: cs, h :: hs => sum (nr c) (fun i => rw cs hs i *! ent h c i j)
    | _, _ => r1
    end.
  Definition rrank (cs : list (qma U)) : nat := match cs with [] => 1 | c :: _ => nc c end.
  Fixpoint rch (cs : list (qma U)) : Prop :=
    match cs with
    | [] => True
    | c :: cs => nr c = rrank cs /\ qwf c /\ 0 < nr c /\ 0 < nc c /\ rch cs
    end.

  Lemma rw_val : forall cs hs hs2 cs2, rch cs -> length hs = length cs ->
    val (rev hs ++ hs2) (rev cs ++ cs2) 0 = sum (rrank cs) (fun j => rw cs hs j *! val hs2 cs2 j).
  Proof.
    induction cs as [|c cs IH]; intros [|h hs] hs2 cs2 Hc Hl; try discriminate.
    - simpl. ring.
    - cbn [rev]. rewrite <- !app_assoc. cbn [app]. destruct Hc as (E & _ & _ & _ & Hc).
      rewrite IH by (auto; simpl in Hl; lia). cbn [rrank rw val]. rewrite <- E.
      rewrite (sum_ext R (nr c) _ (fun i => sum (nc c) (fun j => rw cs hs i *! ent h c i j *! val hs2 cs2 j))).
      + rewrite sum_swap. apply sum_ext. intros j _. rewrite sum_scal_r. reflexivity.
      + intros i _. rewrite <- sum_scal_l. apply sum_ext. intros j _. ring.
  Qed.

  Lemma chain_app : forall (a b : list (qma U)) r r', chain r (a ++ b) r' <-> exists m, chain r a m /\ chain m b r'.
  Proof.
    induction a as [|c a IH]; intros b r r'; simpl.
    - split; [eauto|]. intros (m & -> & H). auto.
    - rewrite IH. split.
      + intros (A & B & C & D & m & E & F). exists m. auto 6.
      + intros (m & (A & B & C & D & E) & F). repeat (split; auto). eauto.
  Qed.

  Lemma chain_end : forall cs m, chain 1 (rev cs) m -> m = rrank cs.
  Proof.
    intros [|c cs] m D; simpl in *; auto. apply chain_app in D as (k & _ & D). simpl in D. now destruct D as (_ & _ & _ & _ & D).
  Qed.

  Lemma rch_chain : forall cs, rch cs <-> chain 1 (rev cs) (rrank cs).
  Proof.
    induction cs as [|c cs IH]; [simpl; tauto|]. cbn [rch rev rrank]. rewrite chain_app, IH. cbn [chain]. split.
    - intros (E & A & B & C & D). exists (rrank cs). tauto.
    - intros (m & D & E & A & B & C & _). pose proof (chain_end _ _ D) as Em. rewrite Em in D, E. tauto.
  Qed.

  Variable f : ftrain U.
  Variable sel : nat -> bool.
  Hypothesis Wf : ft_wf f.
  Let dim := ft_dim f.
  Let nsel := fun k => negb (sel k).
  Let dims := filter sel (seq 0 dim).
  Let nd := length dims.
  Let L ii := rev (firstn ii (ft_cores f)).
  Let H ii (h : nat -> U -> R) := map h (rev (seq 0 ii)).
  Let K ii (h : nat -> U -> R) := map h (rev (filter nsel (seq 0 ii))).
  Let cnt ii := length (filter sel (seq 0 ii)).
  Let good (h : nat -> U -> R) := (forall k, sel k = true -> h k = uint (u := U)) /\ (forall k, sel k = false -> linfun (h k)).
  Hypothesis Hnd : 0 < nd < dim.

  Lemma seq_S' ii : seq 0 (S ii) = seq 0 ii ++ [ii].
  Proof. apply (seq_S ii 0). Qed.

  Lemma cnt_S ii : cnt (S ii) = if sel ii then S (cnt ii) else cnt ii.
  Proof. unfold cnt. rewrite seq_S', filter_app, app_length. simpl. destruct (sel ii); simpl; lia. Qed.
  Lemma nsel_S ii : length (filter nsel (seq 0 (S ii))) = if sel ii then length (filter nsel (seq 0 ii)) else S (length (filter nsel (seq 0 ii))).
  Proof. rewrite seq_S', filter_app, app_length. unfold nsel at 2. simpl. destruct (sel ii); simpl; lia. Qed.
  Lemma cnt_both ii : cnt ii + length (filter nsel (seq 0 ii)) = ii.
  Proof. induction ii as [|ii IH]; [reflexivity|]. rewrite cnt_S, nsel_S. destruct (sel ii); lia. Qed.

  Lemma dims_split ii : ii <= dim -> dims = filter sel (seq 0 ii) ++ filter sel (seq ii (dim - ii)).
  Proof. intros Hi. unfold dims. rewrite <- filter_app. f_equal. rewrite <- seq_app. f_equal. lia. Qed.

  Lemma cnt_le ii : ii <= dim -> cnt ii <= nd.
  Proof. intros Hi. unfold nd. rewrite (dims_split ii Hi), app_length. unfold cnt. lia. Qed.

  Lemma dims_sel ii : ii < dim -> sel ii = true -> nth_error dims (cnt ii) = Some ii /\ cnt ii < nd.
  Proof.
    intros Hi Hs. rewrite (dims_split ii) by lia. unfold nd. rewrite (dims_split ii) by lia.
    replace (dim - ii) with (S (dim - S ii)) by lia. cbn [seq filter]. rewrite Hs. split.
    - rewrite nth_error_app2 by (unfold cnt; lia). unfold cnt. now rewrite Nat.sub_diag.
    - rewrite app_length. unfold cnt. simpl. lia.
  Qed.

  Lemma dims_nsel ii : ii < dim -> sel ii = false -> cnt ii < nd -> exists d, nth_error dims (cnt ii) = Some d /\ d <> ii.
  Proof.
    intros Hi Hs Hc. unfold nd in Hc. rewrite (dims_split ii) in Hc |- * by lia.
    rewrite app_length in Hc. unfold cnt in *.
    destruct (filter sel (seq ii (dim - ii))) as [|d r] eqn:E; [simpl in Hc; lia|].
    exists d. rewrite nth_error_app2, Nat.sub_diag by lia. split; auto. intros ->.
    assert (I : In ii (filter sel (seq ii (dim - ii)))) by (rewrite E; left; auto).
    apply filter_In in I as (_ & I). congruence.
  Qed.

  Lemma core_at ii : ii < dim -> exists c, nth_error (ft_cores f) ii = Some c /\ L (S ii) = c :: L ii /\
    nr c = rrank (L ii) /\ qwf c /\ 0 < nr c /\ 0 < nc c /\ rch (L ii).
  Proof.
    intros Hi. destruct Wf as (Ed & _ & _ & Hc). unfold dim in Hi.
    destruct (nth_error (ft_cores f) ii) as [c|] eqn:E; [|apply nth_error_None in E; lia].
    exists c. assert (EL : L (S ii) = c :: L ii).
    { unfold L. destruct (nth_error_split _ _ E) as (a & b & -> & Ha).
      rewrite <- Ha. rewrite !firstn_app. replace (length a - length a) with 0 by lia.
      replace (S (length a) - length a) with 1 by lia. rewrite (firstn_all2 (n := S (length a)) a), (firstn_all2 (n := length a) a) by lia. cbn [firstn].
      now rewrite app_nil_r, rev_app_distr. }
    split; auto. split; auto.
    assert (HS : rch (L (S ii))).
    { apply rch_chain. rewrite <- (firstn_skipn (S ii) (ft_cores f)) in Hc. apply chain_app in Hc as (m & Hc & _).
      replace (rrank (L (S ii))) with m; [unfold L; now rewrite rev_involutive|].
      rewrite EL. simpl. clear - Hc EL. unfold L in EL. apply (f_equal (@rev _)) in EL. rewrite rev_involutive in EL. rewrite EL in Hc.
      simpl in Hc. apply chain_app in Hc as (k & _ & Hc). simpl in Hc. now destruct Hc as (_ & _ & _ & _ & Hc). }
    rewrite EL in HS. simpl in HS. tauto.
  Qed.

  Lemma H_S ii h : H (S ii) h = h ii :: H ii h.
  Proof. unfold H. now rewrite seq_S', rev_app_distr. Qed.
  Lemma K_S ii h : K (S ii) h = if sel ii then K ii h else h ii :: K ii h.
  Proof. unfold K. rewrite seq_S', filter_app, rev_app_distr. unfold nsel at 1. simpl. destruct (sel ii); reflexivity. Qed.
  Lemma K_lin ii h : good h -> Forall linfun (K ii h).
  Proof.
    intros (_ & G). unfold K. apply Forall_forall. intros u Hu. apply in_map_iff in Hu as (k & <- & Hk).
    apply in_rev in Hk. apply filter_In in Hk as (_ & Hk). apply G. unfold nsel in Hk. now destruct (sel k).
  Qed.
  Lemma H_len ii h : length (H ii h) = ii.
  Proof. unfold H. now rewrite map_length, rev_length, seq_length. Qed.
  Lemma K_len ii h : length (K ii h) = length (filter nsel (seq 0 ii)).
  Proof. unfold K. now rewrite map_length, rev_length. Qed.

  (** The row vector after the leading variables. *)
  Definition lead_ok (ii : nat) (lm : option (list R)) : Prop :=
    match lm with
    | None => ii = 0
    | Some v => forall h, good h -> pre v (rrank (L ii)) (rw (L ii) (H ii h))
    end.

  Lemma cnt_all ii : (forall k, k < ii -> sel k = true) -> cnt ii = ii.
  Proof.
    induction ii as [|ii IH]; intros A; [reflexivity|]. rewrite cnt_S, A by lia. rewrite IH; auto.
  Qed.

  Lemma ws_lead_ok : forall fuel ii lm, nd <= ii + fuel -> ii < nd -> (forall k, k < ii -> sel k = true) -> lead_ok ii lm ->
    exists ii' lm', ws_lead f dims fuel ii ii lm = Ok (ii', ii', lm') /\ ii' <= nd /\ (forall k, k < ii' -> sel k = true) /\
      lead_ok ii' lm' /\ sel ii' = false.
  Proof.
    induction fuel as [|fuel IH]; intros ii lm Hf Hi Hs Hl; [lia|].
    assert (Ec : cnt ii = ii) by now apply cnt_all.
    cbn [ws_lead]. fold nd. destruct (sel ii) eqn:Es.
    - destruct (dims_sel ii ltac:(lia) Es) as (Nd & _). rewrite Ec in Nd. unfold aget at 1. rewrite Nd. cbn [obind].
      rewrite Nat.eqb_refl. destruct (Nat.ltb_spec ii nd); [|lia]. cbn [andb].
      destruct (core_at ii ltac:(lia)) as (c & Nc & EL & Er & Wc & P1 & P2 & Hch).
      unfold aget at 1. rewrite Nc. cbn [obind].
      destruct (qmarray_integrate_ok c Wc) as (mat & -> & Lm & Nm). cbn [obind].
      match goal with |- context [obind (match lm with None => ?a | Some v => @?b v end) _] =>
        assert (X : exists v, match lm with None => a | Some v => b v end = Ok v /\ lead_ok (S ii) (Some v)) end.
      { unfold lead_ok. rewrite EL. cbn [rrank]. destruct lm as [v|]; simpl in Hl.
        - pose (h0 := fun k : nat => if sel k then uint (u := U) else fun _ => r0).
          assert (V : forall h h', good h -> good h' -> forall j, rw (L ii) (H ii h) j = rw (L ii) (H ii h') j).
          { intros h h' G G'. f_equal. intros j. f_equal. unfold H. apply map_ext_in. intros k Hk. apply in_rev, in_seq in Hk.
            rewrite (proj1 G), (proj1 G'); auto; apply Hs; lia. }
          assert (G0 : good h0).
          { split; unfold h0; intros k E; rewrite E; auto. repeat split; intros; simpl; try ring.
            induction l as [|p l IHl]; simpl; [reflexivity|]. rewrite <- IHl. ring. }
          destruct (dgemv_t_ok (nr c) (nc c) mat (nr c) v (repeat r0 (nc c)) (fun i j => ent uint c i j) (rw (L ii) (H ii h0))) as (y & Ey & _ & Py); auto.
          { rewrite Er. apply Hl; auto. }
          { now rewrite repeat_length. }
          exists y. split; auto. intros h G. rewrite H_S. cbn [rw]. rewrite (proj1 G ii Es).
          intros j Hj. rewrite (Py j Hj). f_equal. apply sum_ext. intros i Hi'. now rewrite (V h h0 G G0).
        - subst ii. assert (E1 : nr c = 1) by (rewrite Er; reflexivity).
          destruct (Nat.leb_spec (nc c) (length mat)) as [_|B]; [|rewrite Lm, E1 in B; lia].
          exists (firstn (nc c) mat). split; auto. intros h G. rewrite H_S. cbn [rw]. rewrite (proj1 G 0 Es).
          intros j Hj. rewrite nth_error_firstn by auto. specialize (Nm 0 j ltac:(lia) Hj). rewrite E1 in Nm |- *.
          rewrite Nat.mul_1_r, Nat.add_0_r in Nm. rewrite Nm. simpl. f_equal. ring. }
      destruct X as (v & -> & Hv). cbn [obind].
      assert (Hs' : forall k, k < S ii -> sel k = true) by (intros k Hk; destruct (Nat.eq_dec k ii) as [->|]; auto; apply Hs; lia).
      destruct (Nat.eqb_spec (S ii) nd) as [En|En].
      + exists (S ii), (Some v). repeat (split; auto; try lia).
        destruct (sel (S ii)) eqn:E'; auto. destruct (dims_sel (S ii) ltac:(lia) E') as (_ & B). rewrite cnt_all in B by auto. lia.
      + destruct (IH (S ii) (Some v)) as (ii' & lm' & -> & Q); auto; try lia. eauto.
    - destruct (dims_nsel ii ltac:(lia) Es ltac:(lia)) as (d & Nd & Hd). rewrite Ec in Nd. unfold aget at 1. rewrite Nd. cbn [obind].
      destruct (Nat.eqb_spec d ii); [contradiction|]. cbn [andb]. exists ii, lm. repeat (split; auto; try lia).
  Qed.

  (** The cores of the new train after [ii] cores of the old one. *)
  Definition Q (ii : nat) (ds : list (qma U)) : Prop :=
    rch ds /\ length ds = length (filter nsel (seq 0 ii)) /\ rrank ds = rrank (L ii) /\
    forall h, good h -> forall j, j < rrank (L ii) -> rw ds (K ii h) j = rw (L ii) (H ii h) j.

  Definition Inv (ii : nat) (s : nat * bool * option (list R) * nat * list (option (qma U))) : Prop :=
    let '(on, done, lm, k, cs) := s in
    on = (if cnt ii =? nd then nd - 1 else cnt ii) /\ done = (cnt ii =? nd) /\
    exists ds, k = length ds /\ cs = map Some (rev ds) ++ repeat None (dim - nd - k) /\
      match ds with
      | [] => lead_ok ii lm /\ sel ii = false /\ forall k, k < ii -> sel k = true
      | _ => lm = None /\ Q ii ds
      end.

  Lemma nsel_lt ii : ii < dim -> sel ii = false -> length (filter nsel (seq 0 ii)) < dim - nd.
  Proof.
    intros Hi Hs. pose proof (cnt_both ii). pose proof (cnt_both dim).
    assert (A : dims = filter sel (seq 0 dim)) by reflexivity. assert (cnt dim = nd) by reflexivity.
    assert (length (filter nsel (seq 0 (S ii))) <= length (filter nsel (seq 0 dim))).
    { replace dim with (S ii + (dim - S ii)) by lia. rewrite seq_app, filter_app, app_length. lia. }
    rewrite nsel_S, Hs in *. lia.
  Qed.

  Lemma ws_step_ok ii s : ii < dim -> Inv ii s -> exists s', ws_step f dims ii s = Ok s' /\ Inv (S ii) s'.
  Proof.
    destruct s as ((((on & done) & lm) & k) & cs). intros Hi (Eo & Ed & ds & Ek & Ecs & Hds).
    destruct (core_at ii Hi) as (c & Nc & EL & Er & Wc & P1 & P2 & Hch).
    cbn [ws_step]. fold nd.
    assert (Hle : cnt (S ii) <= nd) by (apply cnt_le; lia). pose proof (cnt_S ii) as CS.
    destruct (sel ii) eqn:Es.
    - destruct (dims_sel ii Hi Es) as (Nd & Hc). destruct (Nat.eqb_spec (cnt ii) nd) as [|_]; [lia|]. subst on done.
      unfold aget at 1. rewrite Nd. cbn [obind]. unfold aget at 1. rewrite Nc. cbn [obind]. rewrite Nat.eqb_refl. cbn [andb negb].
      destruct (qmarray_integrate_ok c Wc) as (mat & -> & Lm & Nm). cbn [obind].
      destruct ds as [|d ds]; [destruct Hds as (_ & B & _); congruence|]. destruct Hds as (-> & (Hr & Hlen & Hrk & HQ)).
      simpl in Ek. subst k. change (S (length ds) =? 0) with false. cbv iota. replace (S (length ds) - 1) with (length ds) by lia.
      assert (Ecs' : cs = map Some (rev ds) ++ Some d :: repeat None (dim - nd - S (length ds))).
      { rewrite Ecs. cbn [rev]. rewrite map_app, <- app_assoc. reflexivity. }
      assert (Lr : length (map (@Some (qma U)) (rev ds)) = length ds) by now rewrite map_length, rev_length.
      assert (Np : nth_error cs (length ds) = Some (Some d)).
      { rewrite Ecs', nth_error_app2 by lia. now rewrite Lr, Nat.sub_diag. }
      rewrite (pget_ok _ _ _ Np). cbn [obind]. cbn [rrank] in Hrk. destruct Hr as (R1 & R2 & R3 & R4 & R5).
      destruct (qmam_ok d mat (nc c) (fun k i => ent uint c k i)) as (c' & -> & C1 & C2 & C3 & C4); auto.
      { intros k i Hk Hi'. rewrite Hrk, <- Er in *. now apply Nm. }
      cbn [obind]. rewrite (qmarray_copy_ok c' C3). cbn [obind].
      rewrite aset_ok by (rewrite Ecs', app_length, Lr; simpl; lia). cbn [obind].
      assert (Inew : forall lm', lm' = None -> exists ds', S (length ds) = length ds' /\
          upd cs (length ds) (Some c') = map Some (rev ds') ++ repeat None (dim - nd - S (length ds)) /\
          match ds' with [] => lead_ok (S ii) lm' /\ sel (S ii) = false /\ forall k, k < S ii -> sel k = true | _ => lm' = None /\ Q (S ii) ds' end).
      { intros lm' ->. exists (c' :: ds). split; auto. split.
        - assert (EU : forall z, upd (map Some (rev ds) ++ Some d :: z) (length ds) (Some c') = map Some (rev ds) ++ Some c' :: z).
          { intros z. replace (length ds) with (length (map (@Some (qma U)) (rev ds)) + 0) by lia. now rewrite upd_app_r. }
          rewrite Ecs', EU. cbn [rev].
          now rewrite map_app, <- app_assoc.
        - split; auto. split; [|split; [|split]].
          + simpl. rewrite C1, C2. auto.
          + rewrite nsel_S, Es, <- Hlen. reflexivity.
          + rewrite EL. exact C2.
          + intros h G j Hj. rewrite EL in Hj |- *. cbn [rrank] in Hj. rewrite K_S, Es, H_S.
            specialize (HQ h G). pose proof (K_lin ii h G) as KL. pose proof (K_len ii h) as KN. rewrite <- Hlen in KN.
            destruct (K ii h) as [|u us]; [discriminate|]. inversion KL as [|? ? Lu _]; subst.
            cbn [rw]. rewrite C1. rewrite (proj1 G ii Es).
            transitivity (sum (nr c) (fun i => rw (d :: ds) (u :: us) i *! ent uint c i j)).
            * cbn [rw]. rewrite Er, <- Hrk.
              rewrite (sum_ext R (nr d) _ (fun i => sum (nc d) (fun k => rw ds us i *! ent u d i k *! ent uint c k j))).
              -- rewrite sum_swap. apply sum_ext. intros k _. now rewrite sum_scal_r.
              -- intros i Hi'. destruct (C4 i j Hi' Hj) as (w & Ew & Hw). unfold ent at 1. rewrite Ew, (Hw u Lu), <- sum_scal_l.
                 apply sum_ext. intros k _. ring.
            * apply sum_ext. intros i Hi'. rewrite HQ; auto. lia. }
      destruct (Nat.eqb_spec (S (cnt ii)) nd) as [En|En]; eexists; (split; [reflexivity|]); cbn [Inv]; rewrite CS.
      + rewrite (proj2 (Nat.eqb_eq _ _) En). split; [lia|]. split; [reflexivity|].
        now apply Inew.
      + rewrite (proj2 (Nat.eqb_neq _ _) En). split; [reflexivity|]. split; [reflexivity|].
        now apply Inew.
    - assert (Dn : exists d, nth_error dims on = Some d /\ (d =? ii) && negb done = false).
      { subst on done. destruct (Nat.eqb_spec (cnt ii) nd) as [E|E].
        - destruct (nth_error dims (nd - 1)) as [d|] eqn:N; [|apply nth_error_None in N; fold nd in N; lia].
          exists d. split; auto. apply andb_false_r.
        - destruct (dims_nsel ii Hi Es ltac:(lia)) as (d & N & B). exists d. split; auto. apply andb_false_iff. left. now apply Nat.eqb_neq. }
      destruct Dn as (d & Nd & Bd). unfold aget at 1. rewrite Nd. cbn [obind]. unfold aget at 1. rewrite Nc. cbn [obind]. rewrite Bd.
      pose proof (nsel_lt ii Hi Es) as Hlt.
      match goal with |- context [obind (match lm with Some v => @?a v | None => ?b end) _] =>
        assert (X : exists c', match lm with Some v => a v | None => b end = Ok c' /\ Q (S ii) (c' :: ds) /\ length ds = length (filter nsel (seq 0 ii))) end.
      { destruct ds as [|d0 ds].
        - destruct Hds as (Hl & _ & Hall).
          assert (N0 : length (filter nsel (seq 0 ii)) = 0) by (pose proof (cnt_both ii); rewrite (cnt_all ii Hall) in *; lia).
          assert (K0 : forall h, K ii h = []) by (intros h; pose proof (K_len ii h); destruct (K ii h); auto; simpl in *; lia).
          destruct lm as [v|]; simpl in Hl.
          + pose (h0 := fun k : nat => if sel k then uint (u := U) else fun _ => r0).
            assert (G0 : good h0).
            { split; unfold h0; intros k' E; rewrite E; auto. repeat split; intros; simpl; try ring.
              induction l as [|p l IHl]; simpl; [reflexivity|]. rewrite <- IHl. ring. }
            destruct (mqma_ok c v 1 (fun _ k => rw (L ii) (H ii h0) k)) as (c' & Ec' & C1 & C2 & C3 & C4); auto.
            { intros i k' Hi' Hk. replace (k' * 1 + i) with k' by lia. apply (Hl h0 G0). lia. }
            exists c'. split; auto. split; [|simpl; lia]. split; [|split; [|split]].
            * simpl. rewrite C1, C2. repeat (split; auto).
            * rewrite nsel_S, Es, N0. reflexivity.
            * rewrite EL. exact C2.
            * intros h G j Hj. rewrite EL in Hj |- *. cbn [rrank] in Hj. rewrite K_S, Es, H_S, K0. cbn [rw]. rewrite C1. cbn [sum rw].
              destruct (C4 0 j ltac:(lia) Hj) as (w & Ew & Hw). unfold ent at 1. rewrite Ew, (Hw _ (proj2 G ii Es)).
              rewrite (sum_ext R (nr c) _ (fun i => rw (L ii) (H ii h) i *! ent (h ii) c i j)); [ring|].
              intros i Hi'. f_equal. f_equal. unfold H. apply map_ext_in. intros q Hq. apply in_rev, in_seq in Hq.
              rewrite (proj1 G), (proj1 G0); auto; apply Hall; lia.
          + subst ii. exists c. split; [now apply qmarray_copy_ok|]. split; [|auto]. split; [|split; [|split]].
            * simpl. rewrite Er. repeat (split; auto).
            * rewrite nsel_S, Es. reflexivity.
            * rewrite EL. reflexivity.
            * intros h G j Hj. rewrite EL, K_S, Es, H_S, K0. reflexivity.
        - destruct Hds as (-> & (Hr & Hlen & Hrk & HQ)). exists c. split; [now apply qmarray_copy_ok|]. split; [|auto]. split; [|split; [|split]].
          + cbn [rch]. rewrite Hrk. auto.
          + rewrite nsel_S, Es, <- Hlen. reflexivity.
          + rewrite EL. reflexivity.
          + intros h G j Hj. rewrite EL, K_S, Es, H_S. cbn [rw]. apply sum_ext. intros i Hi'.
            f_equal. apply HQ; auto. lia. }
      destruct X as (c' & -> & HQ' & Hlen). cbn [obind].
      assert (Lr : length (map (@Some (qma U)) (rev ds)) = length ds) by now rewrite map_length, rev_length.
      replace (dim - nd - k) with (S (dim - nd - S k)) in Ecs by lia. rewrite Ecs, aset_app_repeat' by lia. cbn [obind].
      eexists. split; [reflexivity|]. cbn [Inv]. rewrite CS. split; auto. split; auto.
      exists (c' :: ds). split; [simpl; lia|]. split; [|auto]. cbn [rev]. now rewrite map_app, <- app_assoc.
  Qed.

  Lemma ranks_ok (ds : list (qma U)) init : chain 1 ds 1 -> length init = length ds + 1 -> nth_error init 0 = Some 1 ->
    for_ (length ds) (fun ii rk => do c <- pget (map Some ds) ii; do rk <- aset rk ii (nr c); aset rk (ii + 1) (nc c)) init
    = Ok (1 :: map nc ds).
  Proof.
    intros Hc Hl H0.
    destruct (for_inv (fun i rk => length rk = length ds + 1 /\ forall k, k <= i -> nth_error rk k = nth_error (1 :: map nc ds) k)
       (fun ii rk => do c <- pget (map Some ds) ii; do rk <- aset rk ii (nr c); aset rk (ii + 1) (nc c)) (length ds) init) as (rk & -> & Lk & Nk).
    - split; auto. intros k Hk. replace k with 0 by lia. exact H0.
    - intros i rk Hi (Lk & Nk). destruct (nth_error ds i) as [c|] eqn:E; [|apply nth_error_None in E; lia].
      assert (En : nth_error (1 :: map nc ds) i = Some (nr c) /\ nth_error (1 :: map nc ds) (S i) = Some (nc c)).
      { split; [|simpl; now rewrite nth_error_map, E]. clear - Hc E. revert ds Hc i E. generalize 1 at 1 3.
        intros r ds Hc i; revert r ds Hc; induction i as [|i IH]; intros r [|d ds] Hc E; try discriminate.
        - simpl in *. injection E as ->. f_equal. symmetry. apply Hc.
        - simpl in Hc. cbn [nth_error map] in *. apply (IH (nc d) ds); tauto. }
      rewrite (pget_ok _ _ c) by now rewrite nth_error_map, E. cbn [obind]. rewrite aset_ok by lia. cbn [obind].
      rewrite aset_ok by (rewrite upd_length; lia). eexists. split; [reflexivity|]. split; [now rewrite !upd_length|].
      intros k Hk. rewrite nth_error_upd by (rewrite upd_length; lia). destruct (Nat.eqb_spec (i + 1) k) as [<-|].
      + replace (i + 1) with (S i) by lia. symmetry. apply En.
      + rewrite nth_error_upd by lia. destruct (Nat.eqb_spec i k) as [<-|]; [symmetry; apply En|]. apply Nk. lia.
    - f_equal. apply nth_error_ext; [simpl; rewrite map_length; lia|]. intros k Hk. apply Nk. lia.
  Qed.

  Lemma ft_integrate_subset_ok : exists g, ft_integrate_subset f dims = Ok g /\ ft_dim g = dim - nd /\ ft_wf g /\
    forall h, good h -> tsum (map h (filter nsel (seq 0 dim))) (terms (ft_cores g) 0) = tsum (map h (seq 0 dim)) (terms (ft_cores f) 0).
  Proof.
    unfold ft_integrate_subset. fold nd. fold dim. destruct (Nat.ltb_spec dim nd); [lia|].
    unfold cassert. destruct (Nat.ltb_spec 0 (dim - nd)); [|lia]. cbn [obind].
    destruct (ws_lead_ok nd 0 None) as (i0 & lm & -> & Hi0 & Hall & Hl & Hs0); try lia; [reflexivity|].
    cbn [obind]. pose proof (cnt_all i0 Hall) as C0.
    set (st := (if i0 =? nd then if i0 =? 0 then UB else Ok (i0 - 1, true) else Ok (i0, false))).
    assert (Est : st = Ok (if i0 =? nd then nd - 1 else i0, i0 =? nd)).
    { unfold st. destruct (Nat.eqb_spec i0 nd) as [->|]; auto. destruct (Nat.eqb_spec nd 0); [lia|]. reflexivity. }
    rewrite Est. cbn [obind].
    destruct (for_from_inv Inv (ws_step f dims) i0 (dim - i0) (if i0 =? nd then nd - 1 else i0, i0 =? nd, lm, 0, repeat None (dim - nd))) as (s & -> & Hinv).
    { cbn [Inv]. rewrite C0. split; auto. split; auto. exists []. simpl. rewrite Nat.sub_0_r. auto 6. }
    { intros i s Hi Hv. apply ws_step_ok; [lia|auto]. }
    replace (i0 + (dim - i0)) with dim in Hinv by lia.
    destruct s as ((((on & done) & lm') & k) & cs). destruct Hinv as (_ & _ & ds & Ek & Ecs & Hds). cbn [obind].
    assert (Ln : length (filter nsel (seq 0 dim)) = dim - nd) by (pose proof (cnt_both dim); change (cnt dim) with nd in *; lia).
    destruct ds as [|d ds0].
    { exfalso. destruct Hds as (_ & _ & A). pose proof (cnt_all dim A) as B. change (cnt dim) with nd in B. lia. }
    set (ds := d :: ds0) in *. destruct Hds as (_ & Hr & Hlen & Hrk & HQ).
    assert (Lds : length ds = dim - nd) by lia. subst k. rewrite Lds, Nat.sub_diag in Ecs. cbn [repeat] in Ecs. rewrite app_nil_r in Ecs. subst cs.
    assert (LD : L dim = rev (ft_cores f)) by (unfold L; destruct Wf as (E & _); fold dim in E; now rewrite firstn_all2 by lia).
    assert (RD : rrank (L dim) = 1).
    { assert (Z : rch (L dim)). { destruct (core_at (dim - 1)) as (c & _ & E & A & B & C & D & F); [lia|]. replace (S (dim - 1)) with dim in E by lia. rewrite E. simpl. auto. }
      apply rch_chain in Z. rewrite LD in Z. rewrite rev_involutive in Z. destruct Wf as (_ & _ & _ & Hc).
      rewrite LD. clear - Hc Z. revert Hc Z. generalize (rrank (rev (ft_cores f))). generalize (ft_cores f). generalize 1 at 1 3.
      intros r l; revert r; induction l as [|c l IH]; simpl; intros r n A B; [congruence|]. apply (IH (nc c)); tauto. }
    assert (CH : chain 1 (rev ds) 1). { apply rch_chain in Hr. now rewrite Hrk, RD in Hr. }
    pose proof (ranks_ok (rev ds) (tab (dim - nd + 1) (fun k => if (k =? 0) || (k =? dim - nd) then 1 else 0)) CH) as RK.
    rewrite rev_length, Lds, tab_length in RK. rewrite RK; [|auto|].
    2:{ replace (dim - nd + 1) with (S (dim - nd)) by lia. reflexivity. }
    cbn [obind]. rewrite freeze_map_Some. cbn [obind]. eexists. split; [reflexivity|]. cbn [ft_dim ft_cores]. split; auto. split.
    - unfold ft_wf. cbn [ft_dim ft_cores ft_ranks]. rewrite rev_length. auto.
    - intros h G. destruct Wf as (Ec & _). fold dim in Ec.
      rewrite !tsum_val by (rewrite ?map_length, ?seq_length, ?rev_length; lia).
      specialize (HQ h G 0). rewrite RD in HQ. specialize (HQ ltac:(lia)).
      assert (Z : rch (L dim)). { destruct (core_at (dim - 1)) as (c & _ & E & A & B & C & D & F); [lia|]. replace (S (dim - 1)) with dim in E by lia. rewrite E. simpl. auto. }
      pose proof (rw_val ds (K dim h) [] [] Hr ltac:(rewrite K_len; lia)) as V1.
      pose proof (rw_val (L dim) (H dim h) [] [] Z ltac:(rewrite H_len, LD, rev_length; lia)) as V2.
      rewrite Hrk, RD in V1. rewrite RD in V2. cbn [sum val] in V1, V2. rewrite HQ in V1. rewrite <- V2 in V1.
      rewrite !app_nil_r in V1. rewrite LD, rev_involutive in V1. unfold K, H in V1. rewrite <- !map_rev, !rev_involutive in V1. exact V1.
  Qed.
End FTSub.
