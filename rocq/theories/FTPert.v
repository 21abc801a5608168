(** Evaluation with perturbations of every coordinate, evaluation at grid
    indices and along fibers. *)
From Verif Require Export FTGradEval.

Section Pert.
  Context {R : CRing} {U : uops R}.
  Open Scope cr_scope.
  Add Ring Rr21 : (rth R).

  (** The cached arrays of a train: absent, or as allocated by the first call. *)
  Definition rows_ok (d n : nat) (o : option (list (list R))) : Prop :=
    match o with None => True | Some l => length l = d /\ forall a, In a l -> n <= length a end.

  Definition dd_wf (f : ftrain U) (dd : ddcache R) : Prop :=
    forall mr, get_maxrank f = Ok mr ->
      rows_ok (ft_dim f) (mr * mr) (dd1 dd) /\ rows_ok (ft_dim f) mr (dd3 dd) /\ rows_ok (ft_dim f) mr (dd4 dd).

  Lemma ddot_pre n (a b : list R) u v : pre a n u -> pre b n v ->
    ddot n a 0 1 b 0 1 = Ok (sum n (fun i => u i *! v i)).
  Proof.
    intros Ha Hb. apply ddot_ok; intros i Hi; rewrite Nat.mul_1_r; auto.
  Qed.

  Lemma with_coord_length (x : list R) k t : k < length x -> length (with_coord x k t) = length x.
  Proof.
    intros H. unfold with_coord. rewrite app_length, firstn_length. cbn [length]. rewrite skipn_length. lia.
  Qed.

  Lemma with_coord_nth (x : list R) k t i : k < length x ->
    nth i (with_coord x k t) r0 = if i =? k then t else nth i x r0.
  Proof.
    intros H. unfold with_coord. destruct (Nat.eqb_spec i k) as [->|Hne].
    - rewrite app_nth2; rewrite firstn_length_le by lia; [|lia]. now rewrite Nat.sub_diag.
    - destruct (Nat.lt_ge_cases i k) as [Hlt|Hge].
      + rewrite app_nth1 by (rewrite firstn_length_le; lia).
        rewrite <- (firstn_skipn k x) at 2. rewrite app_nth1 by (rewrite firstn_length_le; lia). reflexivity.
      + rewrite app_nth2; rewrite firstn_length_le by lia; [|lia].
        rewrite <- (firstn_skipn (S k) x) at 2.
        rewrite app_nth2; rewrite firstn_length_le by lia; [|lia].
        replace (i - k) with (S (i - S k)) by lia. reflexivity.
  Qed.

  Lemma rows_get d n (l : list (list R)) k : length l = d -> (forall a, In a l -> n <= length a) -> k < d ->
    exists a, nth_error l k = Some a /\ aget l k = Ok a /\ n <= length a.
  Proof.
    intros L H Hk. destruct (aget_lt l k) as [a [E A]]; [lia|]. exists a. repeat split; auto.
    apply H. eapply nth_error_In; eauto.
  Qed.

  Lemma rows_upd n (l : list (list R)) k a : (forall a, In a l -> n <= length a) -> n <= length a ->
    forall a', In a' (upd l k a) -> n <= length a'.
  Proof.
    intros H Ha a' Hin. apply In_nth_error in Hin. destruct Hin as [q Hq].
    destruct (Nat.lt_ge_cases q (length l)) as [Hlt|Hge].
    - destruct (Nat.eq_dec q k) as [->|].
      + rewrite nth_error_upd_same in Hq by lia. congruence.
      + rewrite nth_error_upd_other in Hq by lia. apply H. eapply nth_error_In; eauto.
    - assert (q < length (upd l k a)) by (apply nth_error_Some; congruence). rewrite upd_length in *. lia.
  Qed.

  Variable f : ftrain U.
  Hypothesis Wf : ft_wf f.
  Let d := ft_dim f.
  Let r := frk f.

  Lemma pt_r0 : r 0 = 1. Proof. now apply frk_0. Qed.
  Lemma pt_rd : r d = 1. Proof. now apply frk_d. Qed.
  Lemma pt_core k : k < d -> aget (ft_cores f) k = Ok (fco f k).
  Proof. intros H. apply aget_ok. now apply canon_core. Qed.
  Lemma pt_rank k : k <= d -> aget (ft_ranks f) k = Ok (r k).
  Proof.
    intros H. apply aget_ok. destruct (Nat.eq_dec k d) as [->|].
    - rewrite pt_rd. now apply wf_rankd.
    - apply canon_core; auto. unfold d in *; lia.
  Qed.
  Lemma pt_pos k : k <= d -> 0 < r k.
  Proof.
    intros H. destruct (Nat.eq_dec k d) as [->|]; [rewrite pt_rd; lia|].
    apply canon_core; auto. unfold d in *; lia.
  Qed.
  Lemma pt_mr mr k : get_maxrank f = Ok mr -> k <= d -> r k <= mr.
  Proof.
    intros Emr Hk. destruct (get_maxrank_ok f) as (mr' & E & _ & H). { apply wf_lens; auto. }
    rewrite Emr in E. injection E as <-. apply H. pose proof (pt_rank k Hk) as Hr.
    apply aget_inv in Hr. eapply nth_error_In; eauto.
  Qed.
  Lemma pt_outer : check_outer f = Ok tt.
  Proof.
    unfold check_outer. rewrite (pt_rank 0), (pt_rank (ft_dim f)) by (unfold d; lia).
    rewrite pt_r0. fold d. rewrite pt_rd. reflexivity.
  Qed.
  Lemma pt_d : 0 < d. Proof. apply Wf. Qed.

  (** a filled buffer holds the entries of the core *)
  Lemma pt_entries (h : U -> R) k (T : list R) : k < d ->
    pre T (nr (fco f k) * nc (fco f k)) (evf h (fco f k)) ->
    forall i j, i < r k -> j < r (S k) -> nth_error T (j * r k + i) = Some (ent h (fco f k) i j).
  Proof.
    intros Hk HP i j Hi Hj. destruct (canon_core f k Wf Hk) as (_ & _ & N & C & _).
    fold r in N, C. rewrite HP by nia. rewrite ent_evf, N. reflexivity.
  Qed.

  Lemma pt_eval2 mr k (xk : R) (T : list R) : ft_small f -> get_maxrank f = Ok mr -> k < d ->
    r k * r (S k) <= length T ->
    exists T', eval2 (nr (fco f k) * nc (fco f k)) (fs (fco f k)) xk T = Ok T' /\ length T' = length T /\
      forall i j, i < r k -> j < r (S k) -> nth_error T' (j * r k + i) = Some (ent (fun g => uev g xk) (fco f k) i j).
  Proof.
    intros Hs Emr Hk HL. destruct (canon_core f k Wf Hk) as (Ec & W & N & C & _). fold r in N, C.
    destruct (eval2_ok (fco f k) xk T W) as (T' & E & L & P).
    - apply Hs. eapply nth_error_In; eauto.
    - now rewrite N, C.
    - exists T'. repeat split; auto. intros i j Hi Hj. now apply pt_entries.
  Qed.

  Section AtPoint.
  Context {X : Type} (hx : U -> X -> R) (x0 : X).
  Variable ev2 : nat -> list U -> X -> list R -> outcome (list R).
  Hypothesis Hev : forall k xk (T : list R), k < d -> r k * r (S k) <= length T ->
    exists T', ev2 (nr (fco f k) * nc (fco f k)) (fs (fco f k)) xk T = Ok T' /\ length T' = length T /\
      forall i j, i < r k -> j < r (S k) -> nth_error T' (j * r k + i) = Some (ent (fun g => hx g xk) (fco f k) i j).
  Variable x : list X.
  Hypothesis Hx : length x = d.
  Let M := fM f (fun k g => hx g (nth k x x0)).
  (** the value at [x], and at [x] with coordinate [k] replaced by [t] *)
  Definition hval : R := path_value f (fun k g => hx g (nth k x x0)).
  Definition hpert (k : nat) (t : X) : R := path_value f (fun q g => hx g (if q =? k then t else nth q x x0)).

  Lemma pt_x k : k < d -> aget x k = Ok (nth k x x0).
  Proof. intros H. apply aget_ok. apply nth_error_nth'. lia. Qed.

  Lemma pt_value : hval = bw r M d 0 0.
  Proof. unfold hval. now rewrite path_value_bw. Qed.

  Lemma pt_with k t : k < d ->
    hpert k t
    = sum (r k) (fun i => fw r M k i *! sum (r (S k)) (fun j => ent (fun g => hx g t) (fco f k) i j *! bw r M (d - 1 - k) (S k) j)).
  Proof.
    intros Hk. unfold hpert. rewrite path_value_bw by auto. fold r d.
    rewrite <- (bw_repl r M k (fun i j => ent (fun g => hx g t) (fco f k) i j) d pt_r0 Hk).
    apply bw_ext; [rewrite pt_r0; lia|]. intros k' i' j' _ _ _. unfold repl, M, fM.
    destruct (Nat.eqb_spec k' k) as [->|Hne]; reflexivity.
  Qed.

  Lemma co_perturb_gen (w : wspace R) (dd : ddcache R) (pert : list X) (vals : list R) :
    ws_wf w -> dd_wf f dd -> 2 <= d -> 2 * d <= length pert -> 2 * d <= length vals ->
    exists vals' dd', ft_co_perturb ev2 f w dd x pert vals = Ok (hval, vals', dd') /\
      length vals' = length vals /\ dd_wf f dd' /\
      (forall k, k < d ->
         nth_error vals' (2 * k) = Some (hpert k (nth (2 * k) pert x0)) /\
         nth_error vals' (2 * k + 1) = Some (hpert k (nth (2 * k + 1) pert x0))) /\
      (forall q, 2 * d <= q -> nth_error vals' q = nth_error vals q).
  Proof.
    intros (Hw1 & Hw2 & Hw3) Hdd Hd2 Hp Hv. unfold ft_co_perturb. rewrite pt_outer. cbn [obind].
    destruct (get_maxrank_ok f) as (mr & Emr & Hmr1 & _). { apply wf_lens; auto. }
    pose proof (pt_mr mr) as Hmr. unfold pre_eval. rewrite Emr. cbn [obind]. fold d.
    destruct (Hdd mr Emr) as (D1 & D3 & D4). fold d in D1, D3, D4.
    set (cc0 := match dd1 dd with Some l => l | None => repeat (repeat r0 (mr * mr)) d end).
    set (bp0 := match dd3 dd with Some l => l | None => repeat (repeat r0 mr) d end).
    set (fp0 := match dd4 dd with Some l => l | None => repeat (repeat r0 mr) d end).
    assert (K : forall n o, rows_ok d n o ->
      let l := match o with Some l => l | None => repeat (repeat r0 n) d end in
      length l = d /\ forall a, In a l -> n <= length a).
    { intros n [l|] H; cbn zeta; [exact H|]. rewrite repeat_length. split; auto. intros a Ha.
      apply repeat_spec in Ha. subst a. rewrite repeat_length. lia. }
    destruct (K _ _ D1) as [C1 C2]. destruct (K _ _ D3) as [B1 B2]. destruct (K _ _ D4) as [F1 F2].
    fold cc0 in C1, C2. fold bp0 in B1, B2. fold fp0 in F1, F2. clear K D1 D3 D4.
    (* first sweep *)
    pose (I := fun (ii : nat) (s : list (list R) * list (list R)) =>
      let '(cc, fp) := s in
      length cc = d /\ (forall a, In a cc -> mr * mr <= length a) /\
      length fp = d /\ (forall a, In a fp -> mr <= length a) /\
      (forall k, k < ii -> exists l, nth_error cc k = Some l /\
         forall i j, i < r k -> j < r (S k) -> nth_error l (j * r k + i) = Some (M k i j)) /\
      (forall k, k < ii -> exists l, nth_error fp k = Some l /\ pre l (r (S k)) (fw r M (S k)))).
    match goal with |- context [for_ d ?b00 (cc0, fp0)] =>
      destruct (for_inv I b00 d (cc0, fp0)) as ([cc fp] & E1 & L1 & L2 & L3 & L4 & HC & HF) end.
    { unfold I. repeat split; auto; intros; lia. }
    { intros ii [cc fp] Hii (L1 & L2 & L3 & L4 & HC & HF).
      rewrite pt_core, pt_x by auto. cbn [obind].
      destruct (rows_get d (mr * mr) cc ii L1 L2 Hii) as (ci & Ec & Ac & Lc).
      destruct (rows_get d mr fp ii L3 L4 Hii) as (fi & Ef & Af & Lf).
      pose proof (Hmr ii Emr ltac:(lia)) as Hr1. pose proof (Hmr (S ii) Emr ltac:(lia)) as Hr2.
      destruct (Nat.eqb_spec ii 0) as [->|Hne].
      - rewrite Af. cbn [obind].
        destruct (Hev 0 (nth 0 x x0) fi Hii) as (f' & Ef' & Lf' & Hf').
        { rewrite pt_r0. lia. }
        rewrite Ef'. cbn [obind]. rewrite aset_ok by lia. cbn [obind].
        rewrite (pt_rank 1) by lia. cbn [obind]. rewrite Ac. cbn [obind].
        destruct (blitr_ok (r 1) f' ci 0 0) as (c' & Ec' & Lc' & Hc1 & Hc2); [lia|nia|].
        rewrite Ec'. cbn [obind]. rewrite aset_ok by lia. cbn [obind].
        eexists. split; [reflexivity|]. rewrite pt_r0 in Hf'.
        unfold I. rewrite !upd_length. repeat split; auto.
        + apply rows_upd; auto. lia.
        + apply rows_upd; auto. lia.
        + intros k Hk. assert (k = 0) by lia. subst k. exists c'. rewrite nth_error_upd_same by lia.
          split; auto. intros i j Hi Hj. rewrite pt_r0 in *. assert (i = 0) by lia. subst i.
          replace (j * 1 + 0) with (0 + j) by lia. rewrite Hc1 by lia.
          replace (0 + j) with (j * 1 + 0) by lia. rewrite Hf' by (lia || auto). reflexivity.
        + intros k Hk. assert (k = 0) by lia. subst k. exists f'. rewrite nth_error_upd_same by lia.
          split; auto. intros j Hj. replace j with (j * 1 + 0) at 1 by lia. rewrite Hf' by (lia || auto).
          cbn [fw]. rewrite pt_r0, sum_1. f_equal. unfold M, fM. ring.
      - rewrite Ac. cbn [obind].
        destruct (Hev ii (nth ii x x0) ci Hii) as (c' & Ec' & Lc' & Hc').
        { nia. }
        rewrite Ec'. cbn [obind]. rewrite aset_ok by lia. cbn [obind].
        rewrite (pt_rank ii), (pt_rank (ii + 1)) by lia. cbn [obind].
        destruct (HF (ii - 1)) as (fprev & Efp & Pfp); [lia|].
        rewrite (aget_ok _ _ _ Efp). cbn [obind]. rewrite Af. cbn [obind].
        replace (ii + 1) with (S ii) by lia. replace (S (ii - 1)) with ii in Pfp by lia.
        destruct (dgemv_t_ok (r ii) (r (S ii)) c' (r ii) fprev fi (M ii) (fw r M ii)) as (f' & Ef' & Lf' & Pf'); auto.
        { apply pt_pos; lia. } { apply pt_pos; lia. } { lia. }
        rewrite Ef'. cbn [obind]. rewrite aset_ok by lia. cbn [obind].
        eexists. split; [reflexivity|]. unfold I. rewrite !upd_length. repeat split; auto.
        + apply rows_upd; auto. lia.
        + apply rows_upd; auto. lia.
        + intros k Hk. destruct (Nat.eq_dec k ii) as [->|].
          * exists c'. rewrite nth_error_upd_same by lia. auto.
          * destruct (HC k) as (l & El & Hl); [lia|]. exists l. rewrite nth_error_upd_other by lia. auto.
        + intros k Hk. destruct (Nat.eq_dec k ii) as [->|].
          * exists f'. rewrite nth_error_upd_same by lia. split; auto.
            intros j Hj. rewrite Pf' by auto. f_equal. cbn [fw]. apply sum_ext. intros i Hi. ring.
          * destruct (HF k) as (l & El & Hl); [lia|]. exists l. rewrite nth_error_upd_other by lia. auto. }
    rewrite E1. cbn [obind]. clear E1 I.
    (* backward sweep *)
    pose (J := fun (k : nat) (bp : list (list R)) =>
      length bp = d /\ (forall a, In a bp -> mr <= length a) /\
      (forall q, d - k <= q -> q < d -> exists l, nth_error bp q = Some l /\ pre l (r q) (bw r M (d - q) q))).
    match goal with |- context [for_ d ?b00 bp0] =>
      destruct (for_inv J b00 d bp0) as (bp & E2 & L5 & L6 & HB) end.
    { unfold J. repeat split; auto; intros; lia. }
    { intros k bp Hk (L5 & L6 & HB). set (ii := d - 1 - k). assert (Hii : ii < d) by (unfold ii; lia).
      destruct (rows_get d mr bp ii L5 L6 Hii) as (bi & Eb & Ab & Lb).
      pose proof (Hmr ii Emr ltac:(lia)) as Hr1. pose proof (Hmr (S ii) Emr ltac:(lia)) as Hr2.
      destruct (Nat.eqb_spec k 0) as [->|Hne].
      - assert (Eii : S ii = d) by (unfold ii; lia).
        rewrite pt_core, pt_x by auto. cbn [obind]. rewrite Ab. cbn [obind].
        assert (R1 : r (S ii) = 1) by (rewrite Eii; apply pt_rd).
        destruct (Hev ii (nth ii x x0) bi Hii) as (b' & Eb' & Lb' & Hb').
        { rewrite R1. lia. }
        rewrite Eb'. cbn [obind]. rewrite aset_ok by lia. eexists. split; [reflexivity|].
        unfold J. rewrite upd_length. repeat split; auto.
        { apply rows_upd; auto. lia. }
        intros q Hq1 Hq2. assert (q = ii) by lia. subst q. exists b'. rewrite nth_error_upd_same by lia.
        split; auto. intros i Hi. replace i with (0 * r ii + i) at 1 by lia. rewrite Hb' by lia.
        replace (d - ii) with 1 by lia. cbn [bw]. rewrite R1, sum_1. f_equal. unfold M, fM. ring.
      - rewrite (pt_rank ii), (pt_rank (ii + 1)) by lia. cbn [obind].
        destruct (HC ii Hii) as (ci & Ec & Hc). rewrite (aget_ok _ _ _ Ec). cbn [obind].
        replace (ii + 1) with (S ii) by lia.
        destruct (HB (S ii)) as (bn & Ebn & Pbn); [unfold ii; lia|unfold ii; lia|].
        rewrite (aget_ok _ _ _ Ebn). cbn [obind]. rewrite Ab. cbn [obind].
        destruct (dgemv_n_ok (r ii) (r (S ii)) ci (r ii) bn bi (M ii) (bw r M (d - S ii) (S ii))) as (b' & Eb' & Lb' & Pb'); auto.
        { apply pt_pos; lia. } { apply pt_pos; lia. } { lia. }
        rewrite Eb'. cbn [obind]. rewrite aset_ok by lia. eexists. split; [reflexivity|].
        unfold J. rewrite upd_length. repeat split; auto.
        { apply rows_upd; auto. lia. }
        intros q Hq1 Hq2. destruct (Nat.eq_dec q ii) as [->|].
        + exists b'. rewrite nth_error_upd_same by lia. split; auto.
          replace (d - ii) with (S (d - S ii)) by lia. cbn [bw]. exact Pb'.
        + destruct (HB q) as (l & El & Hl); [unfold ii in *; lia|lia|]. exists l.
          rewrite nth_error_upd_other by lia. auto. }
    rewrite E2. cbn [obind]. clear E2 J.
    (* perturbed values *)
    destruct (ms_check_ok (ws1 w) (mr * mr) Hw1) as [S1 _].
    destruct (ms_check_ok (ws2 w) (mr * mr) Hw2) as [S2 _].
    destruct (ms_check_ok (ws3 w) (mr * mr) Hw3) as [S3 _].
    set (v1 := ms_vals (ms_check (ws1 w) 1 (mr * mr))) in *.
    set (v2 := ms_vals (ms_check (ws2 w) 1 (mr * mr))) in *.
    set (v3 := ms_vals (ms_check (ws3 w) 1 (mr * mr))) in *.
    pose (tgt := fun k q => Some (hpert k (nth q pert x0))).
    pose (I := fun (ii : nat) (s : list R * list R * list R * list R) =>
      let '(vals', t1, t2, t3) := s in
      length vals' = length vals /\ mr * mr <= length t1 /\ mr * mr <= length t2 /\ mr * mr <= length t3 /\
      (forall k, k < ii -> nth_error vals' (2 * k) = tgt k (2 * k) /\ nth_error vals' (2 * k + 1) = tgt k (2 * k + 1)) /\
      (forall q, 2 * d <= q -> nth_error vals' q = nth_error vals q)).
    match goal with |- context [for_ d ?b00 (vals, v1, v2, v3)] =>
      destruct (for_inv I b00 d (vals, v1, v2, v3)) as ([[[vs t1] t2] t3] & E3 & N1 & N2 & N3 & N4 & N5 & N6) end.
    { unfold I. repeat split; auto; intros; lia. }
    { intros ii [[[vs t1] t2] t3] Hii (N1 & N2 & N3 & N4 & N5 & N6).
      assert (Step : forall a b t1' t2' t3', mr * mr <= length t1' -> mr * mr <= length t2' -> mr * mr <= length t3' ->
        Some a = tgt ii (2 * ii) -> Some b = tgt ii (2 * ii + 1) ->
        I (S ii) (upd (upd vs (2 * ii) a) (2 * ii + 1) b, t1', t2', t3')).
      { intros a b t1' t2' t3' H1 H2 H3 Ha Hb. unfold I. rewrite !upd_length. repeat split; auto.
        - destruct (Nat.eq_dec k ii) as [->|].
          + rewrite nth_error_upd_other, nth_error_upd_same by lia. auto.
          + rewrite !nth_error_upd_other by lia. apply N5; lia.
        - destruct (Nat.eq_dec k ii) as [->|].
          + rewrite nth_error_upd_same by (rewrite upd_length; lia). auto.
          + rewrite !nth_error_upd_other by lia. apply N5; lia.
        - intros q Hq. rewrite !nth_error_upd_other by lia. auto. }
      pose proof (Hmr ii Emr ltac:(lia)) as Hr1. pose proof (Hmr (S ii) Emr ltac:(lia)) as Hr2.
      assert (Hp0 : forall q, q < 2 * d -> aget pert q = Ok (nth q pert x0)).
      { intros q Hq. apply aget_ok, nth_error_nth'. lia. }
      rewrite pt_core by auto. cbn [obind]. rewrite (Hp0 (2 * ii)), (Hp0 (2 * ii + 1)) by lia. cbn [obind].
      destruct (Hev ii (nth (2 * ii) pert x0) t1 Hii) as (t1' & Et1 & Lt1 & Ht1). { nia. }
      destruct (Hev ii (nth (2 * ii + 1) pert x0) t2 Hii) as (t2' & Et2 & Lt2 & Ht2). { nia. }
      rewrite Et1, Et2. cbn [obind].
      destruct (Nat.eqb_spec ii 0) as [->|Hne0].
      - rewrite (pt_rank 1) by lia. cbn [obind].
        destruct (HB 1) as (b1 & Eb1 & Pb1); [lia|lia|]. rewrite (aget_ok _ _ _ Eb1). cbn [obind].
        change (2 * 0) with 0 in *. cbn [Nat.add] in *. rewrite pt_r0 in Ht1, Ht2.
        rewrite (ddot_ok _ _ _ _ _ _ _ (fun j => ent (fun g => hx g (nth 0 pert x0)) (fco f 0) 0 j) (bw r M (d - 1) 1)).
        2:{ intros j Hj. rewrite <- (Ht1 0 j) by lia. f_equal; lia. }
        2:{ intros j Hj. rewrite Nat.mul_1_r. auto. }
        rewrite (ddot_ok _ _ _ _ _ _ _ (fun j => ent (fun g => hx g (nth 1 pert x0)) (fco f 0) 0 j) (bw r M (d - 1) 1)).
        2:{ intros j Hj. rewrite <- (Ht2 0 j) by lia. f_equal; lia. }
        2:{ intros j Hj. rewrite Nat.mul_1_r. auto. }
        cbn [obind]. rewrite aset_ok by lia. cbn [obind]. rewrite aset_ok by (rewrite ?upd_length; lia). cbn [obind].
        eexists. split; [reflexivity|]. apply Step; try lia.
        + unfold tgt. rewrite pt_with by lia. rewrite pt_r0, sum_1. cbn [fw].
          f_equal. replace (d - 1 - 0) with (d - 1) by lia. ring.
        + unfold tgt. rewrite pt_with by lia. rewrite pt_r0, sum_1. cbn [fw].
          f_equal. replace (d - 1 - 0) with (d - 1) by lia. ring.
      - destruct (HF (ii - 1)) as (fl & Efl & Pfl); [lia|]. replace (S (ii - 1)) with ii in Pfl by lia.
        destruct (Nat.eqb_spec ii (d - 1)) as [Eii|Hne1].
        + rewrite (pt_rank ii) by lia. cbn [obind]. replace (d - 2) with (ii - 1) by lia.
          rewrite (aget_ok _ _ _ Efl). cbn [obind].
          rewrite (ddot_ok _ _ _ _ _ _ _ (fun i => ent (fun g => hx g (nth (2 * ii) pert x0)) (fco f ii) i 0) (fw r M ii)).
          2:{ intros j Hj. rewrite <- (Ht1 j 0). f_equal; lia. lia. replace (S ii) with d by lia. rewrite pt_rd; lia. }
          2:{ intros j Hj. rewrite Nat.mul_1_r. auto. }
          rewrite (ddot_ok _ _ _ _ _ _ _ (fun i => ent (fun g => hx g (nth (2 * ii + 1) pert x0)) (fco f ii) i 0) (fw r M ii)).
          2:{ intros j Hj. rewrite <- (Ht2 j 0). f_equal; lia. lia. replace (S ii) with d by lia. rewrite pt_rd; lia. }
          2:{ intros j Hj. rewrite Nat.mul_1_r. auto. }
          cbn [obind]. rewrite aset_ok by lia. cbn [obind]. rewrite aset_ok by (rewrite ?upd_length; lia). cbn [obind].
          eexists. split; [reflexivity|]. apply Step; try lia.
          * unfold tgt. rewrite pt_with by lia. f_equal. apply sum_ext. intros i Hi.
            replace (S ii) with d by lia. rewrite pt_rd, sum_1. replace (d - 1 - ii) with 0 by lia. cbn [bw]. ring.
          * unfold tgt. rewrite pt_with by lia. f_equal. apply sum_ext. intros i Hi.
            replace (S ii) with d by lia. rewrite pt_rd, sum_1. replace (d - 1 - ii) with 0 by lia. cbn [bw]. ring.
        + rewrite (pt_rank ii), (pt_rank (ii + 1)) by lia. cbn [obind].
          replace (ii + 1) with (S ii) by lia.
          destruct (HB (S ii)) as (b1 & Eb1 & Pb1); [lia|lia|]. rewrite (aget_ok _ _ _ Eb1). cbn [obind].
          rewrite (aget_ok _ _ _ Efl). cbn [obind].
          destruct (dgemv_n_ok (r ii) (r (S ii)) t1' (r ii) b1 t3
             (fun i j => ent (fun g => hx g (nth (2 * ii) pert x0)) (fco f ii) i j) (bw r M (d - S ii) (S ii)))
            as (t3' & Et3 & Lt3 & Pt3); auto.
          { apply pt_pos; lia. } { apply pt_pos; lia. } { nia. }
          rewrite Et3. cbn [obind].
          rewrite (ddot_pre _ _ _ _ _ Pt3 Pfl).
          cbn [obind]. rewrite aset_ok by lia. cbn [obind].
          destruct (dgemv_n_ok (r ii) (r (S ii)) t2' (r ii) b1 t3'
             (fun i j => ent (fun g => hx g (nth (2 * ii + 1) pert x0)) (fco f ii) i j) (bw r M (d - S ii) (S ii)))
            as (t3'' & Et3' & Lt3' & Pt3'); auto.
          { apply pt_pos; lia. } { apply pt_pos; lia. } { nia. }
          rewrite Et3'. cbn [obind].
          rewrite (ddot_pre _ _ _ _ _ Pt3' Pfl).
          cbn [obind]. rewrite aset_ok by (rewrite ?upd_length; lia). cbn [obind].
          eexists. split; [reflexivity|]. apply Step; try lia.
          * unfold tgt. rewrite pt_with by lia. f_equal. apply sum_ext. intros i Hi.
            replace (d - 1 - ii) with (d - S ii) by lia. ring.
          * unfold tgt. rewrite pt_with by lia. f_equal. apply sum_ext. intros i Hi.
            replace (d - 1 - ii) with (d - S ii) by lia. ring. }
    rewrite E3. cbn [obind].
    destruct (HF (d - 1)) as (fl & Efl & Pfl); [lia|]. rewrite (aget_ok _ _ _ Efl). cbn [obind].
    replace (S (d - 1)) with d in Pfl by lia.
    rewrite (aget_ok _ _ _ (Pfl 0 ltac:(rewrite pt_rd; lia))). cbn [obind].
    exists vs, (mkdd (Some cc) (Some bp) (Some fp)). split.
    { rewrite pt_value. rewrite (fw_total r M d pt_r0 pt_rd). reflexivity. }
    split; [exact N1|]. split.
    { intros mr' E'. replace mr' with mr by congruence. cbn. auto. }
    split; [exact N5|exact N6].
  Qed.
  End AtPoint.

  Theorem co_perturb_correct (x : list R) (w : wspace R) (dd : ddcache R) (pert vals : list R) :
    length x = d -> ft_small f -> ws_wf w -> dd_wf f dd -> 2 <= d -> 2 * d <= length pert -> 2 * d <= length vals ->
    exists vals' dd', ft_eval_co_perturb f w dd x pert vals = Ok (train_value f x, vals', dd') /\
      length vals' = length vals /\ dd_wf f dd' /\
      (forall k, k < d ->
         nth_error vals' (2 * k) = Some (train_value f (with_coord x k (nth (2 * k) pert r0))) /\
         nth_error vals' (2 * k + 1) = Some (train_value f (with_coord x k (nth (2 * k + 1) pert r0)))) /\
      (forall q, 2 * d <= q -> nth_error vals' q = nth_error vals q).
  Proof.
    intros Hx Hs Hw Hdd Hd Hp Hv. destruct (get_maxrank_ok f) as (mr & Emr & _). { apply wf_lens; auto. }
    assert (HP : forall k t, k < d -> train_value f (with_coord x k t) = hpert (fun g t => uev g t) r0 x k t).
    { intros k t Hk. rewrite train_value_path by (rewrite with_coord_length; fold d; lia).
      unfold hpert. apply path_value_ext. intros q g Hq. now rewrite with_coord_nth by lia. }
    destruct (co_perturb_gen (fun g t => uev g t) r0 eval2
      (fun k xk T Hk HL => pt_eval2 mr k xk T Hs Emr Hk HL) x Hx w dd pert vals Hw Hdd Hd Hp Hv)
      as (vals' & dd' & E & L & W & H1 & H2).
    exists vals', dd'. split.
    { unfold ft_eval_co_perturb. rewrite E. unfold hval. now rewrite train_value_path. }
    split; [auto|]. split; [auto|]. split; [|auto]. intros k Hk. rewrite !HP by auto. auto.
  Qed.
End Pert.
