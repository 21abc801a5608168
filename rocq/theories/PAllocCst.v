(** Updating one core; starting from a constant. *)
From Verif Require Export PAllocUpd.

(** The tests on the ranks, for arrays with one entry per core *)
Definition out_t (rs : list nat) (k i j : nat) : bool :=
  (if 0 <? k then nth (k - 1) rs 0 <=? i else false) || (nth k rs 0 <=? j).
Definition in_t (rs : list nat) (k i j : nat) : bool :=
  (if 0 <? k then i <? nth (k - 1) rs 0 else true) && (j <? nth k rs 0).

Lemma outside_ok rs k i j : k < length rs -> outside rs k i j = Ok (out_t rs k i j).
Proof.
  intros H. unfold outside, out_t. assert (E : forall q, q < length rs -> aget rs q = Ok (nth q rs 0)).
  { intros q Hq. apply aget_ok. now apply nth_error_nth'. }
  destruct (0 <? k); rewrite ?E by lia; cbn [obind orb].
  - destruct (_ <=? i); cbn [orb]; reflexivity.
  - reflexivity.
Qed.
Lemma inside_ok rs k i j : k < length rs -> inside rs k i j = Ok (in_t rs k i j).
Proof.
  intros H. unfold inside, in_t. assert (E : forall q, q < length rs -> aget rs q = Ok (nth q rs 0)).
  { intros q Hq. apply aget_ok. now apply nth_error_nth'. }
  destruct (0 <? k); rewrite ?E by lia; cbn [obind andb].
  - destruct (i <? _); reflexivity.
  - reflexivity.
Qed.
Lemma in_out rs k i j : in_t rs k i j = negb (out_t rs k i j).
Proof.
  unfold in_t, out_t. rewrite negb_orb, (Nat.leb_antisym j), negb_involutive. f_equal.
  destruct (0 <? k); auto. now rewrite Nat.leb_antisym, negb_involutive.
Qed.

Lemma for_1 {A} (B : nat -> A -> outcome A) s : for_ 1 B s = B 0 s.
Proof. rewrite for_S. reflexivity. Qed.

Lemma firstn_app_len {A} n (a b : list A) : n = length a -> firstn n (a ++ b) = a.
Proof. intros ->. rewrite firstn_app, firstn_all, Nat.sub_diag. cbn [firstn]. apply app_nil_r. Qed.
Lemma skipn_app_len {A} n (a b : list A) : n = length a -> skipn n (a ++ b) = b.
Proof. intros ->. rewrite skipn_app, skipn_all, Nat.sub_diag. reflexivity. Qed.

Section Core.
  Context {R : CRing} {F : Type}.
  Open Scope cr_scope.
  Variable bad : R -> bool.
  Notation G := (gfn R F).
  Variable ftp : ftparam R G.
  Hypothesis O : ftp_ok ftp.
  Let f := fp_ft ftp.

  (** Parameters before core [k] *)
  Definition before (k : nat) : nat := length (flat_map (fun c => flat_map gf_params (fs c)) (firstn k (ft_cores f))).

  Lemma core_update_ok k c p : nth_error (ft_cores f) k = Some c ->
    length (flat_map gf_params (fs c)) <= length p ->
    (forall v, In v (firstn (length (flat_map gf_params (fs c))) p) -> bad v = false) ->
    (forall v, In v (fp_params ftp) -> bad v = false) ->
    exists ftp', ftp_update_core bad ftp k p = Ok ftp' /\ ftp_ok ftp' /\ same_structure f (fp_ft ftp') /\
      fp_params ftp' = splice (before k) (firstn (length (flat_map gf_params (fs c))) p) (fp_params ftp).
  Proof.
    intros Ec Lp Hp Ho. set (nk := length (flat_map gf_params (fs c))) in *.
    pose proof O as (W & Of & Ed & _ & Enc & EN & EP). pose proof (ftp_params_length ftp O) as LP.
    assert (Hk : k < length (ft_cores f)) by (apply nth_error_Some; congruence).
    unfold ftp_update_core.
    assert (Er : for_ k (fun ii run => do n <- aget (fp_npc ftp) ii; Ok (run + n)) 0 = Ok (before k)).
    { change 0 with (before 0). apply for_det. intros i Hi. destruct (nth_error (ft_cores f) i) as [ci|] eqn:Ei; [|apply nth_error_None in Ei; lia].
      rewrite Enc, (aget_ok _ _ (length (flat_map gf_params (fs ci)))) by (rewrite nth_error_map'; fold f; now rewrite Ei).
      cbn [obind]. f_equal. unfold before. rewrite (firstn_S_nth _ _ _ Ei), flat_map_app, app_length. cbn [flat_map]. now rewrite app_nil_r. }
    rewrite Er. cbn [obind]. rewrite Enc, (aget_ok _ _ nk) by (rewrite nth_error_map'; fold f; now rewrite Ec). cbn [obind].
    destruct (C10_core bad r0 f k c p Of Ec Lp Hp) as (c' & E1 & N' & C' & S' & P' & W'). fold nk in E1. fold f. rewrite E1. cbn [obind].
    assert (Esp : ft_cores f = firstn k (ft_cores f) ++ c :: skipn (S k) (ft_cores f)).
    { rewrite <- (firstn_skipn k (ft_cores f)) at 1. f_equal. clear -Ec. revert k Ec. generalize (ft_cores f) as l.
      induction l as [|a l IH]; intros [|k] Ec; try discriminate; cbn [nth_error skipn] in *; [congruence|]. now apply IH. }
    assert (Lb : before k + nk <= fp_nparams ftp).
    { rewrite EN. fold f. rewrite Esp, flat_map_app, app_length. cbn [flat_map]. rewrite app_length. unfold before, nk. lia. }
    rewrite blit_ok by (cbn [Nat.add]; lia). cbn [obind skipn].
    set (np := splice (before k) (firstn nk p) (fp_params ftp)).
    assert (Lf : length (firstn nk p) = nk) by (rewrite firstn_length; lia).
    assert (Ln : length np = fp_nparams ftp) by (unfold np; rewrite splice_length; lia).
    assert (Hb : forall v, In v np -> bad v = false).
    { intros v Hv. unfold np, splice in Hv. rewrite !in_app_iff in Hv. destruct Hv as [Hv|[Hv|Hv]]; auto; apply Ho.
      - rewrite <- (firstn_skipn (before k) (fp_params ftp)). apply in_or_app. now left.
      - rewrite <- (firstn_skipn (before k + length (firstn nk p)) (fp_params ftp)). apply in_or_app. now right. }
    destruct (ftp_set bad ftp np O Ln Hb) as (g & _ & Og & Sg & _).
    assert (Eg : mkft (ft_dim f) (ft_ranks f) (upd (ft_cores f) k c') = g).
    { assert (Eup : upd (ft_cores f) k c' = firstn k (ft_cores f) ++ c' :: skipn (S k) (ft_cores f)).
      { rewrite Esp at 1. assert (Lk : k = length (firstn k (ft_cores f)) + 0) by (rewrite firstn_length; lia).
        rewrite Lk at 3. rewrite upd_app_r. reflexivity. }
      apply C10_determined.
      - destruct Of as [D Oc]. fold f in D, Oc. split; [cbn [ft_dim ft_cores]; now rewrite upd_length|]. cbn [ft_cores]. rewrite Eup.
        rewrite Esp in Oc. apply Forall_app in Oc as [Oa Ob]. apply Forall_app. split; auto. apply Forall_cons_iff in Ob as [[Q Wc] Ob'].
        constructor; auto. assert (Lfs : length (fs c') = length (fs c)) by (apply (f_equal (@length _)) in S'; now rewrite !map_length in S').
        split; [unfold qwf in *; congruence|exact W'].
      - destruct Og as (_ & Og & _). exact Og.
      - destruct Sg as (A & B & C). split; [auto|]. split; [auto|]. rewrite C. cbn [ft_cores]. rewrite Eup. fold f. rewrite Esp at 1.
        rewrite !map_app. cbn [map]. rewrite N', C', S'. reflexivity.
      - destruct Og as (_ & _ & _ & _ & _ & _ & EPg). cbn [set_ftp fp_ft fp_params] in EPg. unfold train_params. rewrite <- EPg.
        cbn [ft_cores]. rewrite Eup, flat_map_app. cbn [flat_map]. rewrite P'. fold nk. unfold np, splice. rewrite EP. fold f.
        rewrite Esp at 3 4. rewrite flat_map_app. cbn [flat_map]. f_equal; [|f_equal].
        + symmetry. apply firstn_app_len. reflexivity.
        + rewrite Lf. rewrite <- skipn_add, skipn_app_len by reflexivity. symmetry. apply skipn_app_len. reflexivity. }
    rewrite Eg. eexists. split; [reflexivity|]. cbn [set_ftp fp_ft fp_params]. auto.
  Qed.
End Core.

(** * Starting from a constant *)
Section Const.
  Context {R : CRing} {F : Type}.
  Open Scope cr_scope.
  Add Ring Rr33 : (rth R).
  Variable bad : R -> bool.
  Notation G := (gfn R F).
  Variable z : G.
  Variable ev : G -> R -> R.
  Notation U := (evU z ev).
  Variable ftp : ftparam R G.
  Hypothesis O : ftp_ok ftp.
  Let f := fp_ft ftp.
  Let d := ft_dim f.
  Let r k := nth k (ft_ranks f) 0.
  Let funs := flat_map fs (ft_cores f).
  (** The constant train: ranks one, one function per core *)
  Variable cs : list G.
  Hypothesis Lc : length cs = d.
  Hypothesis Wc : Forall gf_wf cs.
  Definition cft : ftrain G := mkft d (repeat 1 (d + 1)) (map (fun u => mkq 1 1 [u]) cs).

  Let e k := r k * r (S k).
  Let EO := offs e.
  Definition PL q := lnum (firstn q funs).
  Let N := fp_nparams ftp.

  (** The parameters of function [q] of core [k], [i] functions after its first *)
  Definition cvec (l : nat) : R := nth l (flat_map (fun k =>
     let n0 := gf_num (nth (EO k) funs z) in
     firstn n0 (gf_params (nth k cs z) ++ repeat r0 n0) ++ repeat r0 (PL (EO (S k)) - PL (S (EO k)))) (seq 0 d)) r0.

  Lemma cs_W : ft_wf f. Proof. now destruct O. Qed.
  Lemma cs_total : length funs = EO d.
  Proof. exact (funs_total (U := U) f cs_W). Qed.
  Lemma cs_pos k : k <= d -> 0 < r k.
  Proof.
    intros H. pose proof cs_W as W. destruct (Nat.eq_dec k d) as [->|].
    - assert (E : r d = 1) by exact (frk_d (U := U) f W). lia.
    - assert (Hk : k < d) by lia. apply (canon_core (U := U) f k W Hk).
  Qed.
  Lemma PL_S q u : nth_error funs q = Some u -> PL (S q) = PL q + gf_num u.
  Proof. intros E. unfold PL. rewrite (firstn_S_nth _ _ _ E), lnum_app. unfold lnum. cbn [map list_sum fold_right]. lia. Qed.
  Lemma PL_mono a b : a <= b -> PL a <= PL b.
  Proof.
    intros H. unfold PL. replace a with (Nat.min a b) by lia. rewrite <- firstn_firstn. apply lnum_firstn_le.
  Qed.
  Lemma PL_all : PL (EO d) = N.
  Proof. unfold PL, N. rewrite <- cs_total, firstn_all. symmetry. exact (ftp_nparams_eq ftp O). Qed.
  Lemma cs_npu q : q < EO d -> exists u, nth_error funs q = Some u /\ nth q funs z = u /\ aget (fp_npu ftp) q = Ok (gf_num u) /\ PL (S q) = PL q + gf_num u.
  Proof.
    intros H. rewrite <- cs_total in H. destruct (nth_error funs q) as [u|] eqn:E; [|apply nth_error_None in E; lia].
    exists u. split; auto. split; [now apply nth_error_nth|]. split; [|now apply PL_S].
    apply aget_ok. rewrite (ftp_npu_eq ftp O), nth_error_map'. fold f funs. now rewrite E.
  Qed.

  Let blk k := let n0 := gf_num (nth (EO k) funs z) in
     firstn n0 (gf_params (nth k cs z) ++ repeat r0 n0) ++ repeat r0 (PL (EO (S k)) - PL (S (EO k))).
  Lemma EO_first k : k < d -> EO k < EO (S k) /\ EO (S k) <= EO d.
  Proof.
    intros H. split; [|apply offs_mono; lia]. unfold EO. cbn [offs]. unfold e. pose proof (cs_pos k ltac:(lia)). pose proof (cs_pos (S k) ltac:(lia)). nia.
  Qed.
  Lemma blk_length k : k < d -> length (blk k) = PL (EO (S k)) - PL (EO k).
  Proof.
    intros H. destruct (EO_first k H) as [A B]. destruct (cs_npu (EO k)) as (u & Eu & En & _ & ES); [lia|].
    unfold blk. rewrite En, app_length, firstn_length, app_length, !repeat_length.
    assert (PL (S (EO k)) <= PL (EO (S k))) by (apply PL_mono; lia). lia.
  Qed.
  Lemma blks_length k : k <= d -> length (flat_map blk (seq 0 k)) = PL (EO k).
  Proof.
    induction k as [|k IH]; intros H; [reflexivity|]. rewrite seq_S, flat_map_app, app_length, IH by lia. cbn [flat_map Nat.add].
    rewrite app_nil_r, blk_length by lia. assert (PL (EO k) <= PL (EO (S k))) by (apply PL_mono; apply offs_mono; lia). lia.
  Qed.
  Lemma cvec_nth k l : k < d -> l < PL (EO (S k)) - PL (EO k) -> cvec (PL (EO k) + l) = nth l (blk k) r0.
  Proof.
    intros H Hl. unfold cvec. fold blk. change (fun k0 : nat => blk k0) with blk.
    replace d with (k + S (d - S k)) by lia. rewrite seq_app, flat_map_app, app_nth2; rewrite blks_length by lia; [|lia].
    replace (PL (EO k) + l - PL (EO k)) with l by lia. cbn [Nat.add seq flat_map]. rewrite app_nth1; auto. rewrite blk_length by lia. exact Hl.
  Qed.
  Lemma cvec_first k l : k < d -> l < gf_num (nth (EO k) funs z) -> cvec (PL (EO k) + l) = nth l (gf_params (nth k cs z)) r0.
  Proof.
    intros H Hl. destruct (EO_first k H) as [A B]. destruct (cs_npu (EO k)) as (u & Eu & En & _ & ES); [lia|]. rewrite En in Hl.
    assert (PL (S (EO k)) <= PL (EO (S k))) by (apply PL_mono; lia).
    rewrite cvec_nth by lia. unfold blk. rewrite En, app_nth1 by (rewrite firstn_length, app_length, repeat_length; lia).
    rewrite <- (firstn_skipn (gf_num u) (gf_params (nth k cs z) ++ repeat r0 (gf_num u))) at 1.
    set (L := gf_params (nth k cs z)).
    transitivity (nth l (L ++ repeat r0 (gf_num u)) r0).
    - rewrite firstn_skipn. rewrite <- (firstn_skipn (gf_num u) (L ++ repeat r0 (gf_num u))) at 2.
      rewrite app_nth1; auto. rewrite firstn_length, app_length, repeat_length. lia.
    - destruct (Nat.lt_ge_cases l (length L)) as [C|C].
      + now rewrite app_nth1.
      + rewrite app_nth2 by lia. rewrite (nth_overflow L) by lia. apply nth_repeat.
  Qed.
  Lemma cvec_rest k l : k < d -> PL (S (EO k)) <= l -> l < PL (EO (S k)) -> cvec l = r0.
  Proof.
    intros H H1 H2. destruct (EO_first k H) as [A B]. destruct (cs_npu (EO k)) as (u & Eu & En & _ & ES); [lia|].
    replace l with (PL (EO k) + (l - PL (EO k))) by lia. rewrite cvec_nth by lia. unfold blk. rewrite En.
    rewrite app_nth2; rewrite firstn_length, app_length, repeat_length; [|lia]. apply nth_repeat.
  Qed.

  Variables (perturb : R) (rnd : list R).
  Hypothesis Lrnd : N <= length rnd.
  Definition noise (l : nat) : R := perturb *! (nth l rnd r0 *! (r1 +! r1) -! r1).
  Definition cparams : list R := tab N (fun l => noise l +! cvec l).

  Lemma tab_upd {A} n (h h' : nat -> A) q : q < n -> (forall l, l < n -> l <> q -> h' l = h l) -> upd (tab n h) q (h' q) = tab n h'.
  Proof.
    intros Hq H. apply nth_error_ext; [now rewrite upd_length, !tab_length|]. intros l Hl. rewrite upd_length, tab_length in Hl.
    rewrite nth_error_upd by (now rewrite tab_length). rewrite !nth_error_tab by auto.
    destruct (Nat.eqb_spec q l) as [->|]; auto. now rewrite H by auto.
  Qed.

  Let stp m := tab N (fun l => noise l +! (if l <? m then cvec l else r0)).

  Lemma cst_ok : (forall v, In v cparams -> bad v = false) ->
    exists ftp', ftp_create_constant bad ftp cft perturb rnd = Ok ftp' /\ ftp_ok ftp' /\
      same_structure f (fp_ft ftp') /\ fp_params ftp' = cparams /\ fp_ft ftp' = ft_with f cparams.
  Proof.
    intros B. unfold ftp_create_constant. fold f N.
    assert (Ed : fp_dim ftp = d) by (destruct O as (_ & _ & E & _); exact E). rewrite Ed.
    match goal with |- context [for_ N ?B ?S0] => assert (EN : for_ N B S0 = Ok (stp 0)) end.
    { set (st := fun k => map noise (seq 0 k) ++ repeat r0 (N - k)).
      match goal with |- for_ N ?B ?S0 = _ => transitivity (for_ N B (st 0)) end.
      { f_equal. unfold st. cbn [seq map app]. now rewrite Nat.sub_0_r. }
      etransitivity; [apply for_det|]; unfold st.
      - intros k Hk. rewrite (aget_ok _ _ (nth k rnd r0)) by (apply nth_error_nth'; lia). cbn [obind].
        replace (N - k) with (S (N - S k)) by lia.
        rewrite (aset_app_repeat' (map noise (seq 0 k))) by (now rewrite map_length, seq_length).
        rewrite seq_S, map_app, <- app_assoc. reflexivity.
      - rewrite Nat.sub_diag. cbn [repeat]. rewrite app_nil_r. f_equal. unfold stp, tab. apply map_ext. intros l. cbn [Nat.ltb Nat.leb]. ring. }
    rewrite EN. cbn [obind]. clear EN.
    match goal with |- context [for_ d ?B ?S0] => assert (EL : for_ d B S0 = Ok (stp N, N, EO d)) end.
    { set (st := fun k => (stp (PL (EO k)), PL (EO k), EO k)).
      match goal with |- for_ d ?B ?S0 = _ => transitivity (for_ d B (st 0)) end; [reflexivity|].
      etransitivity; [apply for_det|unfold st; now rewrite PL_all]. unfold st.
      intros k Hk. rewrite !(up_rk ftp O) by (fold f d; lia). fold f. fold (r (k + 1)) (r k). replace (k + 1) with (S k) by lia. cbn [obind].
      pose proof (cs_pos k ltac:(lia)) as P1. pose proof (cs_pos (S k) ltac:(lia)) as P2.
      destruct (Nat.ltb_spec (r (S k)) 1); [lia|]. destruct (Nat.ltb_spec (r k) 1); [lia|].
      assert (Euc : nth_error cs k = Some (nth k cs z)) by (apply nth_error_nth'; lia).
      set (uc := nth k cs z) in *.
      assert (Wuc : gf_wf uc) by (rewrite Forall_forall in Wc; apply Wc; eapply nth_error_In; eauto).
      set (c := mkq 1 1 [uc]).
      rewrite (aget_ok _ k c) by (cbn [cft ft_cores]; rewrite nth_error_map', Euc; reflexivity). cbn [obind].
      assert (Qc : qwf c) by reflexivity. assert (Wcc : Forall gf_wf (fs c)) by (constructor; auto).
      destruct (qm_nparams_ok c Qc Wcc) as (mx & Em & _). rewrite Em. cbn [obind].
      rewrite qm_get_ok by (auto; rewrite repeat_length; lia). cbn [obind].
      assert (Lcp : lparams (fs c) = gf_params uc) by (unfold lparams; cbn [c fs flat_map]; apply app_nil_r).
      assert (Lcn : lnum (fs c) = gf_num uc) by (unfold lnum; cbn; lia).
      rewrite splice_full by (rewrite repeat_length, lparams_length; auto). rewrite Lcp.
      destruct (EO_first k Hk) as [A1 A2]. destruct (cs_npu (EO k)) as (u & Eu & En & Eg & ES); [lia|].
      assert (M1 : PL (S (EO k)) <= PL (EO (S k))) by (apply PL_mono; lia).
      assert (M2 : PL (EO (S k)) <= N) by (rewrite <- PL_all; apply PL_mono; lia).
      set (mn := if gf_num u <? gf_num uc then gf_num u else gf_num uc).
      assert (Hmn : mn <= gf_num u /\ mn <= gf_num uc) by (unfold mn; destruct (Nat.ltb_spec (gf_num u) (gf_num uc)); lia).
      (* the first column *)
      match goal with |- obind (for_ 1 ?B ?S0) _ = _ => assert (E1 : for_ 1 B S0 = Ok (stp (PL (EO (S k))), PL (EO k + r k), EO k + r k, mn)) end.
      { rewrite for_1.
        match goal with |- context [for_ 1 ?B ?S0] => assert (E2 : for_ 1 B S0 = Ok (stp (PL (EO (S k))), PL (S (EO k)), S (EO k), mn)) end.
        { rewrite for_1. unfold qm_func_nparams. cbn [c nr fs]. cbn [Nat.mul Nat.add]. rewrite (aget_ok _ 0 uc) by reflexivity. cbn [obind].
          rewrite Eg. cbn [obind]. fold mn.
          match goal with |- context [for_ mn ?B ?S0] => assert (E3 : for_ mn B S0 = Ok (stp (PL (EO k) + mn), PL (EO k) + mn, mn)) end.
          { set (st3 := fun l => (stp (PL (EO k) + l), PL (EO k) + l, l)).
            match goal with |- for_ mn ?B ?S0 = _ => transitivity (for_ mn B (st3 0)) end.
            { f_equal. unfold st3. now rewrite Nat.add_0_r. }
            etransitivity; [apply for_det|reflexivity]. unfold st3. intros l Hl.
            rewrite (aget_ok _ _ (noise (PL (EO k) + l) +! r0)).
            2:{ unfold stp. rewrite nth_error_tab by lia. destruct (Nat.ltb_spec (PL (EO k) + l) (PL (EO k) + l)); [lia|reflexivity]. }
            cbn [obind]. rewrite (aget_ok _ _ (nth l (gf_params uc) r0)) by (apply nth_error_nth'; rewrite gf_params_length by auto; lia).
            cbn [obind]. rewrite aset_ok by (unfold stp; rewrite tab_length; lia). cbn [obind].
            do 2 f_equal; [|lia]. f_equal; [|lia]. unfold stp.
            etransitivity; [|apply (tab_upd N (fun l0 => noise l0 +! (if l0 <? PL (EO k) + l then cvec l0 else r0)) (fun l0 => noise l0 +! (if l0 <? PL (EO k) + S l then cvec l0 else r0)) (PL (EO k) + l))].
            - f_equal. destruct (Nat.ltb_spec (PL (EO k) + l) (PL (EO k) + S l)); [|lia].
              rewrite cvec_first by (auto; rewrite En; lia). fold uc. ring.
            - lia.
            - intros l0 Hl0 Hne. do 2 f_equal. destruct (Nat.ltb_spec l0 (PL (EO k) + l)), (Nat.ltb_spec l0 (PL (EO k) + S l)); auto; lia. }
          rewrite E3. cbn [obind].
          assert (E4 : for_from mn (gf_num u - mn) (fun _ o => Ok (o + 1)) (PL (EO k) + mn) = Ok (PL (EO k) + gf_num u)).
          { rewrite (for_from_det (fun l => PL (EO k) + l)); [f_equal; lia|]. intros i _. f_equal. lia. }
          rewrite E4. cbn [obind]. rewrite ES, Nat.add_1_r. do 4 f_equal.
          unfold stp. apply tab_ext. intros l Hl.
          destruct (Nat.ltb_spec l (PL (EO k) + mn)), (Nat.ltb_spec l (PL (EO (S k)))); auto; try lia.
          destruct (Nat.lt_ge_cases l (PL (S (EO k)))).
          - replace l with (PL (EO k) + (l - PL (EO k))) by lia. rewrite cvec_first by (auto; rewrite En; lia). fold uc.
            rewrite nth_overflow; auto. rewrite gf_params_length by auto. unfold mn in *. destruct (Nat.ltb_spec (gf_num u) (gf_num uc)); lia.
          - now rewrite (cvec_rest k) by lia. }
        rewrite E2. cbn [obind].
        set (st4 := fun i => (stp (PL (EO (S k))), PL (EO k + i), EO k + i, mn)).
        transitivity (for_from 1 (r k - 1) (fun (row : nat) (s : list R * nat * nat * nat) =>
          let '(params, onparam, onfunc, ontemp) := s in do n <- aget (fp_npu ftp) onfunc; Ok (params, onparam + n, onfunc + 1, ontemp)) (st4 1)).
        { f_equal. unfold st4. now rewrite Nat.add_1_r. }
        etransitivity; [apply for_from_det|]; unfold st4.
        - intros i Hi. assert (EO k + i < EO d). { enough (EO k + i < EO (S k)) by lia. unfold EO. cbn [offs]. fold EO. unfold e. nia. }
          destruct (cs_npu (EO k + i)) as (v & _ & _ & Ev & ESv); [lia|]. rewrite Ev. cbn [obind].
          rewrite <- ESv. replace (EO k + i + 1) with (EO k + S i) by lia. replace (S (EO k + i)) with (EO k + S i) by lia. reflexivity.
        - replace (1 + (r k - 1)) with (r k) by lia. reflexivity. }
      rewrite E1. cbn [obind].
      set (st5 := fun j => (stp (PL (EO (S k))), PL (EO k + j * r k), EO k + j * r k)).
      match goal with |- for_from 1 ?n ?B ?S0 = _ => transitivity (for_from 1 n B (st5 1)) end.
      { f_equal. unfold st5. now rewrite Nat.mul_1_l. }
      etransitivity; [apply for_from_det|]; unfold st5.
      - intros j Hj.
        set (st6 := fun i => (stp (PL (EO (S k))), PL (EO k + (j * r k + i)), EO k + (j * r k + i))).
        match goal with |- for_ ?n ?B ?S0 = _ => transitivity (for_ n B (st6 0)) end.
        { f_equal. unfold st6. now rewrite Nat.add_0_r. }
        etransitivity; [apply for_det|]; unfold st6.
        + intros i Hi. assert (EO k + (j * r k + i) < EO d). { enough (EO k + (j * r k + i) < EO (S k)) by lia. unfold EO. cbn [offs]. fold EO. unfold e. nia. }
          destruct (cs_npu (EO k + (j * r k + i))) as (v & _ & _ & Ev & ESv); [lia|]. rewrite Ev. cbn [obind].
          rewrite <- ESv. replace (EO k + (j * r k + i) + 1) with (EO k + (j * r k + S i)) by lia.
          replace (S (EO k + (j * r k + i))) with (EO k + (j * r k + S i)) by lia. reflexivity.
        + replace (S j * r k) with (j * r k + r k) by lia. reflexivity.
      - replace (1 + (r (S k) - 1)) with (r (S k)) by lia. unfold EO at 3 5. cbn [offs]. fold EO. unfold e.
        rewrite (Nat.mul_comm (r (S k))). reflexivity. }
    rewrite EL. cbn [obind].
    assert (Ep : stp N = cparams).
    { unfold stp, cparams. apply tab_ext. intros l Hl. destruct (Nat.ltb_spec l N); [reflexivity|lia]. }
    rewrite Ep. assert (L' : length cparams = fp_nparams ftp) by (unfold cparams; now rewrite tab_length).
    destruct (ftp_set bad ftp _ O L' B) as (g & Eg & Og & Sg & Ew). fold f in Eg. rewrite Eg. cbn [obind].
    eexists. split; [reflexivity|]. cbn [set_ftp fp_ft fp_params]. auto.
  Qed.

  (** Without perturbation the value is that of the constant train. *)
  Hypothesis P0 : perturb = r0.
  Hypothesis Hz : forall u, In u funs -> forall y, ev (gf_with u (repeat r0 (gf_num u))) y = r0.
  Hypothesis Hc : forall k c u uc, nth_error (ft_cores f) k = Some c -> nth_error (fs c) 0 = Some u -> nth_error cs k = Some uc ->
    gf_num uc <= gf_num u /\ forall y, ev (gf_with u (gf_params uc ++ repeat r0 (gf_num u - gf_num uc))) y = ev uc y.

  Lemma cparams0 : cparams = tab N cvec.
  Proof. unfold cparams. apply tab_ext. intros l _. unfold noise. rewrite P0. ring. Qed.

  Lemma lwith_nth (l : list G) p q u : nth_error l q = Some u ->
    nth_error (lwith l p) q = Some (gf_with u (firstn (gf_num u) (skipn (lnum (firstn q l)) p))).
  Proof.
    revert p q. induction l as [|v l IH]; intros p [|q] E; try discriminate; cbn [lwith nth_error firstn] in *.
    - injection E as ->. reflexivity.
    - rewrite (IH _ _ E). do 3 f_equal. change (lnum (v :: firstn q l)) with (gf_num v + lnum (firstn q l)). apply skipn_add.
  Qed.
  Lemma tab_slice {A} n (h : nat -> A) a m : a + m <= n -> firstn m (skipn a (tab n h)) = tab m (fun l => h (a + l)).
  Proof.
    intros H. apply nth_error_ext; [rewrite firstn_length, skipn_length, !tab_length; lia|].
    intros l Hl. rewrite firstn_length, skipn_length, tab_length in Hl.
    rewrite nth_error_firstn by lia. rewrite nth_error_skipn_add, !nth_error_tab by lia. reflexivity.
  Qed.

  Let g : ftrain U := ft_with f cparams.
  Lemma g_wf : ft_wf g. Proof. exact (ft_with_wf f cparams cs_W). Qed.
  Lemma g_entry k i j (x : list R) : k < d -> i < r k -> j < r (S k) ->
    fM g (fun k u => uev u (nth k x r0)) k i j = if (i =? 0) && (j =? 0) then ev (nth k cs z) (nth k x r0) else r0.
  Proof.
    intros Hk Hi Hj. pose proof g_wf as Wg.
    assert (rg : forall k, frk g k = r k) by reflexivity.
    destruct (fM_entry g (fun k u => uev u (nth k x r0)) k i j Wg Hk Hi Hj) as (u & Eu & ->).
    assert (Hlt : j * r k + i < r k * r (S k)) by nia.
    assert (Eu' : nth_error (lwith funs cparams) (EO k + (j * r k + i)) = Some u).
    { etransitivity; [|exact Eu]. etransitivity; [|exact (funs_nth g Wg k _ Hk Hlt)].
      apply (f_equal (fun l => nth_error l _)). symmetry. exact (cfuns_cwith (ft_cores f) cparams). }
    destruct (EO_first k Hk) as [A1 A2].
    assert (ES : EO (S k) = EO k + r k * r (S k)) by reflexivity.
    assert (Hq : EO k + (j * r k + i) < EO (S k)) by nia.
    destruct (cs_npu (EO k + (j * r k + i))) as (v & Ev & En & _ & ESv); [lia|].
    rewrite (lwith_nth _ _ _ _ Ev) in Eu'. injection Eu' as <-.
    change (lnum (firstn (EO k + (j * r k + i)) funs)) with (PL (EO k + (j * r k + i))).
    assert (M : PL (S (EO k + (j * r k + i))) <= PL (EO (S k))) by (apply PL_mono; lia).
    assert (M2 : PL (EO (S k)) <= N) by (rewrite <- PL_all; apply PL_mono; lia).
    rewrite cparams0, tab_slice by lia.
    change (ev (gf_with v (tab (gf_num v) (fun l => cvec (PL (EO k + (j * r k + i)) + l)))) (nth k x r0) = if (i =? 0) && (j =? 0) then ev (nth k cs z) (nth k x r0) else r0).
    destruct (Nat.eq_dec (j * r k + i) 0) as [E0|E0].
    - assert (i = 0 /\ j = 0) as [-> ->] by nia. cbn [Nat.mul Nat.add Nat.eqb andb] in *. rewrite Nat.add_0_r in *.
      destruct (canon_core (U := U) f k cs_W Hk) as (Ec & Qc & Nc & Cc & Pa & Pb & _).
      assert (Eh : nth_error (fs (fco (U := U) f k)) 0 = Some v).
      { rewrite <- Ev. symmetry. rewrite <- (Nat.add_0_r (EO k)). assert (H0 : 0 < r k * r (S k)) by nia. exact (funs_nth (U := U) f cs_W k 0 Hk H0). }
      assert (Euc : nth_error cs k = Some (nth k cs z)) by (apply nth_error_nth'; lia).
      destruct (Hc k _ v _ Ec Eh Euc) as [Hle Hev]. rewrite <- Hev. f_equal. f_equal.
      assert (Wuc : gf_wf (nth k cs z)) by (rewrite Forall_forall in Wc; apply Wc; eapply nth_error_In; eauto).
      apply nth_error_ext; [rewrite tab_length, app_length, repeat_length, gf_params_length by auto; lia|].
      intros l Hl. rewrite tab_length in Hl. rewrite nth_error_tab by auto. rewrite cvec_first by (auto; rewrite En; auto).
      destruct (Nat.lt_ge_cases l (gf_num (nth k cs z))).
      + rewrite nth_error_app1 by (rewrite gf_params_length; auto). symmetry. apply nth_error_nth'. rewrite gf_params_length; auto.
      + rewrite nth_error_app2; rewrite gf_params_length by auto; [|lia]. rewrite nth_overflow by (rewrite gf_params_length; auto).
        symmetry. rewrite (nth_error_nth' _ r0) by (rewrite repeat_length; lia). now rewrite nth_repeat.
    - assert (Ez : (i =? 0) && (j =? 0) = false).
      { destruct (Nat.eqb_spec i 0), (Nat.eqb_spec j 0); auto. subst. cbn in E0. lia. }
      rewrite Ez. etransitivity; [|apply (Hz v (nth_error_In _ _ Ev) (nth k x r0))]. f_equal. f_equal.
      assert (PL (S (EO k)) <= PL (EO k + (j * r k + i))) by (apply PL_mono; lia).
      apply nth_error_ext; [now rewrite tab_length, repeat_length|]. intros l Hl. rewrite tab_length in Hl.
      rewrite nth_error_tab by auto. rewrite (cvec_rest k) by (auto; lia).
      symmetry. rewrite (nth_error_nth' _ r0) by (rewrite repeat_length; lia). now rewrite nth_repeat.
  Qed.

  Lemma cft_wf : ft_wf (cft : ftrain U).
  Proof.
    assert (Hd : 0 < d) by (destruct cs_W as (_ & H & _); exact H).
    split; [cbn; now rewrite map_length|]. split; [exact Hd|]. split.
    - cbn [cft ft_ranks ft_cores]. rewrite map_map. cbn [nc]. rewrite Nat.add_1_r. cbn [repeat]. f_equal. rewrite <- Lc.
      clear. induction cs as [|u l IH]; cbn [length repeat map]; auto. now rewrite IH.
    - cbn [cft ft_cores]. clear. induction cs as [|u l IH]; cbn [map chain nr nc]; auto. repeat split; auto.
  Qed.

  Theorem cst_value x : length x = d -> train_value g x = train_value (cft : ftrain U) x.
  Proof.
    intros Lx. etransitivity; [exact (pt_value z ev g g_wf x Lx)|]. symmetry.
    etransitivity; [exact (pt_value z ev cft cft_wf x Lx)|]. symmetry.
    change (ft_dim g) with d. change (ft_dim (cft : ftrain U)) with d.
    change (frk g) with r.
    set (Mg := fM g (fun k u => uev u (nth k x r0))). set (Mc := fM (cft : ftrain U) (fun k u => uev u (nth k x r0))).
    assert (rc : forall k, k <= d -> frk (cft : ftrain U) k = 1).
    { intros k Hk. unfold frk. cbn [cft ft_ranks]. rewrite (nth_indep _ 0 1) by (rewrite repeat_length; lia). apply nth_repeat. }
    assert (H : forall n k, k + n = d -> bw r Mg n k 0 = bw (frk (cft : ftrain U)) Mc n k 0).
    { induction n as [|n IH]; intros k Hk; [reflexivity|]. cbn [bw].
      rewrite (rc (S k)) by lia. rewrite sum_1. pose proof (cs_pos k ltac:(lia)). pose proof (cs_pos (S k) ltac:(lia)).
      rewrite (sum_single R (r (S k)) _ 0); [|lia|].
      - rewrite IH by lia. f_equal. unfold Mg. rewrite g_entry by lia. cbn [Nat.eqb andb].
        unfold Mc. destruct (fM_entry (cft : ftrain U) (fun k u => uev u (nth k x r0)) k 0 0 cft_wf) as (v & Ev & ->); [cbn; lia|rewrite rc; lia|rewrite rc; lia|].
        destruct (canon_core (cft : ftrain U) k cft_wf) as (Ec & _); [cbn; lia|].
        assert (Euc : nth_error cs k = Some (nth k cs z)) by (apply nth_error_nth'; lia).
        cbn [cft ft_cores] in Ec. assert (Ec2 : nth_error (map (fun u => mkq 1 1 [u]) cs) k = Some (fco (cft : ftrain U) k)) by exact Ec.
        rewrite nth_error_map', Euc in Ec2. injection Ec2 as Ec2. rewrite <- Ec2 in Ev. cbn in Ev. injection Ev as <-. reflexivity.
      - intros j Hj Hne. unfold Mg. rewrite g_entry by lia. destruct (Nat.eqb_spec j 0); [lia|]. cbn [Nat.eqb andb]. ring. }
    now apply H.
  Qed.
End Const.
