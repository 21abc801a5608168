(** Allocation from an existing function train. *)
From Verif Require Export PAllocFacts.

Lemma foldM_stop {A St} (I : nat -> St -> Prop) (stop : nat -> bool) (B : A -> St -> outcome St) l s :
  I 0 s ->
  (forall n a s, nth_error l n = Some a -> I n s ->
     if stop n then B a s = Abort else exists s', B a s = Ok s' /\ I (S n) s') ->
  if existsb stop (seq 0 (length l)) then foldM B l s = Abort else exists s', foldM B l s = Ok s' /\ I (length l) s'.
Proof.
  intros H0 H. enough (G : forall pre, forall l' s, l = pre ++ l' -> I (length pre) s ->
    if existsb stop (seq (length pre) (length l')) then foldM B l' s = Abort
    else exists s', foldM B l' s = Ok s' /\ I (length l) s').
  { exact (G [] l s eq_refl H0). }
  intros pre l'. revert pre. induction l' as [|a l' IH]; intros pre s1 E H1; cbn [length seq existsb foldM].
  - exists s1. split; auto. rewrite E, app_nil_r. exact H1.
  - assert (Ha : nth_error l (length pre) = Some a) by (rewrite E, nth_error_app2, Nat.sub_diag by lia; reflexivity).
    specialize (H _ a s1 Ha H1). destruct (stop (length pre)); cbn [orb].
    + rewrite H. reflexivity.
    + destruct H as (s2 & E2 & H2). rewrite E2. cbn [obind].
      specialize (IH (pre ++ [a]) s2). rewrite app_length in IH. cbn [length] in IH. rewrite Nat.add_1_r in IH.
      apply IH; auto. rewrite <- app_assoc. exact E.
Qed.

Lemma nth_error_map' {A B} (f : A -> B) l n : nth_error (map f l) n = match nth_error l n with Some a => Some (f a) | None => None end.
Proof. revert n. induction l as [|a l IH]; intros [|n]; cbn [map nth_error]; auto. Qed.

Section Pad.
  Context {R : CRing} {F : Type}.
  Open Scope cr_scope.
  Notation G := (gfn R F).
  Notation aopt := (aopt R F).

  (** A function with zero coefficients appended until it has [n] parameters;
      only polynomials can be extended. *)
  Definition padded (u : G) (n : nat) : G :=
    match u with
    | GPoly o num nalloc coeff =>
        if nalloc <? n then GPoly o n n (firstn num coeff ++ repeat r0 (n - num))
        else GPoly o n nalloc (firstn num coeff ++ repeat r0 (n - num) ++ skipn n coeff)
    | _ => u
    end.
  Definition is_poly (u : G) : bool := match u with GPoly _ _ _ _ => true | _ => false end.

  Lemma gf_pad_ok u n : gf_wf u -> gf_num u <= n -> gf_pad u n = Ok (padded u n).
  Proof.
    destruct u as [o num na c|o l m x c|o i m c x|o]; intros W L; cbn [gf_pad padded gf_num gf_wf] in *; auto.
    destruct W as [W1 W2]. destruct (Nat.ltb_spec na n).
    - set (st := fun i => firstn i c ++ repeat (@r0 R) (n - i)).
      assert (E : for_ num (fun ii c0 => do v <- aget c ii; aset c0 ii v) (repeat r0 n) = Ok (st num)).
      { replace (repeat r0 n) with (st 0) by (unfold st; cbn [firstn app]; now rewrite Nat.sub_0_r). apply for_det.
        intros i Hi. destruct (nth_error c i) as [v|] eqn:Ev; [|apply nth_error_None in Ev; lia].
        rewrite (aget_ok _ _ _ Ev). cbn [obind]. unfold st. replace (n - i) with (S (n - S i)) by lia.
        rewrite (aset_app_repeat' (firstn i c)) by (rewrite firstn_length; lia).
        rewrite (firstn_S_nth c i v Ev), <- app_assoc. reflexivity. }
      rewrite E. reflexivity.
    - set (st := fun i => firstn num c ++ repeat (@r0 R) (i - num) ++ skipn i c).
      assert (E : for_from num (n - num) (fun ii c0 => aset c0 ii r0) c = Ok (st n)).
      { replace c with (st num) at 1 by (unfold st; rewrite Nat.sub_diag; apply firstn_skipn).
        etransitivity; [apply (for_from_det st)|]; [|do 2 f_equal; lia].
        intros i Hi. unfold st. destruct (nth_error c i) as [v|] eqn:Ev; [|apply nth_error_None in Ev; lia].
        assert (Es : skipn i c = v :: skipn (S i) c).
        { clear -Ev. revert c Ev. induction i as [|i IH]; intros [|a c] Ev; try discriminate; cbn [nth_error skipn] in *; [congruence|]. now apply IH. }
        rewrite Es. rewrite aset_ok; [f_equal|].
        - rewrite app_assoc. assert (Ei : i = length (firstn num c ++ repeat (@r0 R) (i - num)) + 0)
            by (rewrite app_length, firstn_length, repeat_length; lia).
          rewrite Ei at 3. rewrite upd_app_r. cbn [upd]. rewrite <- app_assoc. f_equal.
          replace (S i - num) with (S (i - num)) by lia. rewrite <- repeat_snoc, <- app_assoc. reflexivity.
        - rewrite !app_length, firstn_length, repeat_length. cbn [length]. lia. }
      rewrite E. reflexivity.
  Qed.

  Lemma padded_spec u n : gf_wf u -> gf_num u <= n -> is_poly u = true ->
    gf_wf (padded u n) /\ gf_num (padded u n) = n /\ gf_params (padded u n) = gf_params u ++ repeat r0 (n - gf_num u).
  Proof.
    destruct u as [o num na c|o l m x c|o i m c x|o]; intros W L P; try discriminate. destruct W as [W1 W2]. cbn [gf_num] in L.
    assert (Lf : length (firstn num c) = num) by (rewrite firstn_length; lia).
    cbn [padded]. destruct (Nat.ltb_spec na n); cbn [gf_wf gf_num gf_params].
    - rewrite app_length, repeat_length, Lf. split; [lia|]. split; [reflexivity|].
      rewrite firstn_all2; auto. rewrite app_length, repeat_length. lia.
    - rewrite !app_length, repeat_length, skipn_length, Lf. split; [lia|]. split; [reflexivity|].
      rewrite app_assoc, firstn_app, firstn_all2; rewrite ?app_length, ?repeat_length, Lf; [|lia].
      replace (n - (num + (n - num))) with 0 by lia. cbn [firstn]. apply app_nil_r.
  Qed.
  Lemma padded_id u : gf_wf u -> padded u (gf_num u) = u.
  Proof.
    destruct u as [o num na c|o l m x c|o i m c x|o]; intros W; auto. destruct W as [W1 W2]. cbn [padded gf_num].
    destruct (Nat.ltb_spec na num); [lia|]. rewrite Nat.sub_diag. cbn [repeat app]. now rewrite firstn_skipn.
  Qed.
  Lemma padded_other u n : is_poly u = false -> padded u n = u.
  Proof. now destruct u. Qed.
  Lemma padded_wf u n : gf_wf u -> gf_num u <= n -> gf_wf (padded u n).
  Proof. intros W L. destruct (is_poly u) eqn:E; [now apply padded_spec|now rewrite padded_other]. Qed.
End Pad.

Lemma flat_upd {A} (cs : list (qma A)) k c p u : nth_error cs k = Some c -> p < length (fs c) ->
  flat_map fs (upd cs k (mkq (nr c) (nc c) (upd (fs c) p u))) = upd (flat_map fs cs) (length (flat_map fs (firstn k cs)) + p) u.
Proof.
  revert k. induction cs as [|c0 cs IH]; intros [|k] E L; try discriminate; cbn [nth_error upd firstn flat_map length Nat.add fs] in *.
  - injection E as ->. symmetry. now apply upd_app_l.
  - rewrite IH by auto. rewrite app_length, <- Nat.add_assoc. symmetry. apply upd_app_r.
Qed.

(** * ft_param_alloc_with_ft *)
Section WithFt.
  Context {R : CRing} {F : Type}.
  Open Scope cr_scope.
  Variable z : gfn R F.
  Variable ev : gfn R F -> R -> R.
  Let U := evU z ev.
  Notation aopt := (aopt R F).
  Variable f : ftrain U.
  Hypothesis Wf : ft_wf f.
  Hypothesis Of : ft_ok (F := F) f.
  Variable aopts : list aopt.
  Let d := ft_dim f.
  Hypothesis La : length aopts = d.
  Variable a0 : aopt.
  Let r := frk f.
  Let op k := nth k aopts a0.
  Let e k := r k * r (S k).
  Let funs : list (gfn R F) := flat_map fs (ft_cores f).
  Let P := positions r d.
  Let N := offs e d.
  (** Number of parameters that the options prescribe, function by function *)
  Let should : list nat := flat_map (fun k => repeat (opt_np (op k)) (e k)) (seq 0 d).

  Lemma wf_rk k : k <= d -> aget (ft_ranks f) k = Ok (r k).
  Proof.
    intros H. apply aget_ok. destruct (Nat.eq_dec k d) as [->|].
    - unfold r, d. rewrite frk_d by auto. now apply wf_rankd.
    - apply canon_core; auto. unfold d in *; lia.
  Qed.
  Lemma wf_rlen : length (ft_ranks f) = d + 1.
  Proof. destruct Wf as (E & _ & -> & _). cbn [length]. rewrite map_length. unfold d. lia. Qed.
  Lemma wf_op k : k < d -> aget aopts k = Ok (op k).
  Proof. intros H. apply aget_ok. apply nth_error_nth'. lia. Qed.

  Lemma should_nth k i j : k < d -> i < r k -> j < r (S k) ->
    nth_error should (offs e k + (j * r k + i)) = Some (opt_np (op k)).
  Proof.
    intros Hk Hi Hj. unfold should. replace d with (k + S (d - S k)) by lia. rewrite seq_app, flat_map_app.
    assert (EL : forall n, length (flat_map (fun k => repeat (opt_np (op k)) (e k)) (seq 0 n)) = offs e n).
    { induction n as [|n IH]; auto. rewrite seq_S, flat_map_app, app_length, IH. cbn [flat_map offs]. now rewrite app_nil_r, repeat_length. }
    rewrite nth_error_app2; rewrite EL; [|lia]. replace (offs e k + (j * r k + i) - offs e k) with (j * r k + i) by lia.
    cbn [Nat.add seq flat_map]. assert (j * r k + i < e k) by (unfold e; nia).
    rewrite nth_error_app1 by (rewrite repeat_length; lia).
    rewrite (nth_error_nth' _ 0) by (rewrite repeat_length; lia). f_equal.
    apply (repeat_spec (e k)). apply nth_In. now rewrite repeat_length.
  Qed.
  Lemma should_length : length should = N.
  Proof.
    unfold should, N. generalize d as n. induction n as [|n IH]; auto. rewrite seq_S, flat_map_app, app_length, IH. cbn [flat_map offs].
    now rewrite app_nil_r, repeat_length.
  Qed.
  Lemma wfuns_length : length funs = N.
  Proof. exact (funs_total f Wf). Qed.

  Definition padq (q : nat) : gfn R F := padded (nth q funs z) (nth q should 0).
  Definition toomany (q : nat) : bool := nth q should 0 <? gf_num (nth q funs z).

  (** State of the loop after [q] functions *)
  Definition PI (q : nat) (s : ftrain (gfn R F) * list nat * nat) : Prop :=
    let '(g, npu, onind) := s in
    onind = q /\ npu = firstn q should ++ repeat 0 (N - q) /\
    ft_dim g = d /\ ft_ranks g = ft_ranks f /\ map (fun c => (nr c, nc c)) (ft_cores g) = map (fun c => (nr c, nc c)) (ft_cores f) /\
    Forall qwf (ft_cores g) /\ flat_map fs (ft_cores g) = map padq (seq 0 q) ++ skipn q funs.

  Lemma shape_wf (g : ftrain (gfn R F)) : ft_dim g = d -> ft_ranks g = ft_ranks f ->
    map (fun c => (nr c, nc c)) (ft_cores g) = map (fun c => (nr c, nc c)) (ft_cores f) -> Forall qwf (ft_cores g) -> ft_wf g.
  Proof.
    intros E1 E2 E3 Q. destruct Wf as (W1 & W2 & W3 & W4).
    assert (El : length (ft_cores g) = length (ft_cores f)).
    { apply (f_equal (@length _)) in E3. now rewrite !map_length in E3. }
    split; [unfold d in *; congruence|]. split; [unfold d in *; lia|]. split.
    - rewrite E2. etransitivity; [exact W3|]. f_equal. apply (f_equal (map snd)) in E3. rewrite !map_map in E3. cbn [snd] in E3. now symmetry.
    - clear -E3 Q W4. revert W4 E3. generalize 1 at 1 3 as a. generalize (ft_cores f) as cs.
      induction Q as [|c' l Qc Ql IH]; intros [|c cs] a W4 E3; try discriminate; auto.
      cbn [map] in E3. injection E3 as Ea Eb Ec. cbn [chain] in *. destruct W4 as (H1 & H2 & H3 & H4 & H5).
      rewrite Ea, Eb. repeat split; auto. exact (IH cs _ H5 Ec).
  Qed.

  Lemma pad_step q k i j s : nth_error P q = Some (k, i, j) -> PI q s ->
    let body := (let '(ft, npu, onind) := s in
            do c <- aget (ft_cores ft) k;
            do n <- qm_func_nparams c i j;
            do ft <- (if opt_np (op k) <? n then Abort
                      else if n <? opt_np (op k) then
                        do c <- qm_uni_pad c i j (opt_np (op k)); set_core ft k c
                      else Ok ft);
            do npu <- aset npu onind (opt_np (op k));
            Ok (ft, npu, onind + 1)) in
    if toomany q then body = Abort else exists s', body = Ok s' /\ PI (S q) s'.
  Proof.
    intros Hq Hs. destruct s as [[g npu] onind]. destruct Hs as (-> & -> & Dg & Rg & Sg & Qg & Fg). cbv beta zeta iota.
    assert (exists p s, positions r d = p ++ (k, i, j) :: s /\ length p = q) as (p0 & s0 & Ep & Lp).
    { apply nth_error_split in Hq as (p & s & E & L). eauto. }
    apply positions_split in Ep as (Hk & Hi & Hj & Eq). fold e in Eq. rewrite Lp in Eq.
    assert (Wg : ft_wf g) by (apply shape_wf; auto).
    assert (Wg' : ft_wf (g : ftrain U)) by exact Wg.
    assert (rkg : forall k, frk (g : ftrain U) k = r k) by (intros k'; exact (f_equal (fun l => nth k' l 0) Rg)).
    assert (Dg' : ft_dim (g : ftrain U) = d) by exact Dg.
    destruct (canon_core (g : ftrain U) k Wg') as (Ec & Qc & Nc & Cc & _); [rewrite Dg'; exact Hk|].
    rewrite rkg in Nc, Cc. set (c := fco (g : ftrain U) k) in *.
    assert (HqN : q < N). { rewrite Eq. apply (Nat.lt_le_trans _ (offs e (S k))); [cbn [offs]; unfold e; nia|]. apply offs_mono. lia. }
    pose proof wfuns_length as LF.
    assert (Eu : nth_error (fs c) (j * r k + i) = Some (nth q funs z)).
    { etransitivity; [symmetry; rewrite <- rkg; apply (funs_nth (g : ftrain U) Wg' k)|].
      - rewrite Dg'; exact Hk. - rewrite !rkg. nia.
      - rewrite (offs_ext _ e) by (intros; now rewrite !rkg). rewrite rkg, <- Eq.
        etransitivity; [exact (f_equal (fun l => nth_error l q) Fg)|].
        rewrite nth_error_app2; rewrite map_length, seq_length; [|lia]. rewrite Nat.sub_diag.
        rewrite <- (firstn_skipn q funs) at 2. rewrite app_nth2; rewrite firstn_length; [|lia].
        replace (q - Nat.min q (length funs)) with 0 by lia.
        assert (length (skipn q funs) = N - q) by (rewrite skipn_length; lia).
        destruct (skipn q funs); [cbn in *; lia|reflexivity]. }
    set (u := nth q funs z) in *.
    assert (Wu : gf_wf u).
    { pose proof (funs_wf _ Of) as W. rewrite Forall_forall in W. apply W. apply nth_In. change (q < length funs). lia. }
    assert (exists c : qma (gfn R F), nth_error (ft_cores g) k = Some c /\ qwf c /\ nr c = r k /\ nc c = r (S k) /\
      nth_error (fs c) (j * r k + i) = Some u) as (c' & Ec' & Qc' & Nc' & Cc' & Eu').
    { exists c. split; [exact Ec|]. split; [exact Qc|]. split; [exact Nc|]. split; [exact Cc|exact Eu]. }
    clear c Ec Qc Nc Cc Eu. rename c' into c, Ec' into Ec, Qc' into Qc, Nc' into Nc, Cc' into Cc, Eu' into Eu.
    rewrite (aget_ok _ _ c) by exact Ec. cbn [obind].
    unfold qm_func_nparams. rewrite Nc. rewrite (Nat.add_comm i), (aget_ok _ _ u) by exact Eu. cbn [obind].
    pose proof (should_nth k i j Hk Hi Hj) as Es. rewrite <- Eq in Es.
    unfold toomany. fold u. rewrite (nth_error_nth _ _ _ Es).
    destruct (Nat.ltb_spec (opt_np (op k)) (gf_num u)) as [|Hle]; [reflexivity|].
    assert (Epad : padq q = padded u (opt_np (op k))) by (unfold padq; fold u; now rewrite (nth_error_nth _ _ _ Es)).
    assert (exists g', (if gf_num u <? opt_np (op k) then do c0 <- qm_uni_pad c i j (opt_np (op k)); set_core g k c0 else Ok g) = Ok g' /\
       ft_dim g' = d /\ ft_ranks g' = ft_ranks f /\ map (fun c => (nr c, nc c)) (ft_cores g') = map (fun c => (nr c, nc c)) (ft_cores f) /\
       Forall qwf (ft_cores g') /\ flat_map fs (ft_cores g') = map padq (seq 0 (S q)) ++ skipn (S q) funs) as (g' & -> & H').
    { assert (Esk : skipn q funs = u :: skipn (S q) funs).
      { unfold u. assert (q < length funs) by lia. clear -H. revert q H. generalize funs as l. induction l as [|a l IH]; intros [|q] H; cbn in *; try lia; auto. apply IH. lia. }
      destruct (Nat.ltb_spec (gf_num u) (opt_np (op k))).
      - assert (Hlt : j * r k + i < length (fs c)) by (apply nth_error_Some; congruence).
        assert (Hp : qm_uni_pad c i j (opt_np (op k)) = Ok (mkq (nr c) (nc c) (upd (fs c) (j * r k + i) (padded u (opt_np (op k)))))).
        { unfold qm_uni_pad. rewrite <- Nc in *. rewrite (aget_ok _ _ u) by exact Eu. cbn [obind]. rewrite gf_pad_ok by auto. cbn [obind].
          rewrite aset_ok by exact Hlt. reflexivity. }
        rewrite Hp. cbn [obind]. unfold set_core.
        rewrite aset_ok by (apply nth_error_Some; congruence). cbn [obind]. eexists. split; [reflexivity|]. cbn [ft_dim ft_ranks ft_cores].
        split; [exact Dg|]. split; [exact Rg|]. rewrite <- Epad. split; [|split].
        + rewrite <- Sg. apply nth_error_ext; [now rewrite !map_length, upd_length|]. intros k' Hk'. rewrite map_length, upd_length in Hk'.
          rewrite !nth_error_map'. rewrite nth_error_upd by (apply nth_error_Some; congruence).
          destruct (Nat.eqb_spec k k') as [<-|]; [|reflexivity]. assert (Ec' : nth_error (ft_cores g) k = Some c) by exact Ec.
          cbn [nr nc]; now rewrite Ec'.
        + apply Forall_forall. intros c' Hc0. apply In_nth_error in Hc0. destruct Hc0 as [k' Hc'].
          assert (Lk : k < length (ft_cores g)) by (apply nth_error_Some; congruence).
          rewrite nth_error_upd in Hc' by exact Lk. revert Hc'. destruct (Nat.eqb_spec k k') as [Ek|]; intros Hc'.
          * injection Hc' as <-. unfold qwf. cbn [fs nr nc]. rewrite upd_length. exact Qc.
          * rewrite Forall_forall in Qg. apply Qg. eapply nth_error_In; eauto.
        + rewrite (flat_upd (ft_cores g) k c) by (auto; exact Ec).
          assert (Lpre : length (flat_map fs (firstn k (ft_cores g))) = offs e k).
          { etransitivity; [apply (funs_len (g : ftrain U) Wg' k); rewrite Dg'; lia|]. apply offs_ext. intros. now rewrite !rkg. }
          rewrite Lpre, <- Eq, Fg, Esk.
          assert (Lm : length (map padq (seq 0 q)) = q) by now rewrite map_length, seq_length.
          replace q with (length (map padq (seq 0 q)) + 0) at 3 by lia. rewrite upd_app_r. cbn [upd].
          rewrite seq_S, map_app, <- app_assoc. reflexivity.
      - exists g. split; [reflexivity|]. split; [exact Dg|]. split; [exact Rg|]. split; [exact Sg|]. split; [exact Qg|].
        rewrite Fg, Esk, seq_S, map_app, <- app_assoc. cbn [map app Nat.add]. do 2 f_equal.
        rewrite Epad. replace (opt_np (op k)) with (gf_num u) by lia. symmetry. now apply padded_id. }
    cbn [obind]. replace (N - q) with (S (N - S q)) by lia.
    rewrite (aset_app_repeat' (firstn q should)) by (rewrite firstn_length, should_length; lia). cbn [obind].
    eexists. split; [reflexivity|]. unfold PI. split; [lia|]. split; [|exact H'].
    rewrite (firstn_S_nth should q _ Es), <- app_assoc. reflexivity.
  Qed.

  Let np k := e k * opt_np (op k).
  Lemma with_count :
    for_ (ft_dim f) (fun jj (s : list nat * nat * nat) =>
        let '(npc, nparams, nuni) := s in
        do o <- aget aopts jj;
        do a <- aget (ft_ranks f) jj;
        do b <- aget (ft_ranks f) (jj + 1);
        do npc <- aset npc jj (a * b * opt_np o);
        do n <- aget npc jj;
        Ok (npc, nparams + n, nuni + a * b)) (repeat 0 (ft_dim f), 0, 0)
    = Ok (map np (seq 0 d), offs np d, N).
  Proof.
    fold d. set (st := fun k => (map np (seq 0 k) ++ repeat 0 (d - k), offs np k, offs e k)).
    match goal with |- for_ d ?B ?S0 = _ => transitivity (for_ d B (st 0)) end.
    { f_equal. unfold st. cbn [seq map app offs]. now rewrite Nat.sub_0_r. }
    etransitivity; [apply for_det|]; unfold st.
    - intros k Hk. cbv beta iota. rewrite wf_op, wf_rk by lia. cbn [obind]. replace (k + 1) with (S k) by lia.
      rewrite wf_rk by lia. cbn [obind]. replace (d - k) with (S (d - S k)) by lia.
      set (L := map _ (seq 0 k)). assert (EL : k = length L) by (unfold L; now rewrite map_length, seq_length).
      rewrite (aset_app_repeat' L) by exact EL. cbn [obind]. rewrite (aget_ok _ k (r k * r (S k) * opt_np (op k))).
      2:{ rewrite nth_error_app2 by lia. rewrite <- EL, Nat.sub_diag. reflexivity. }
      cbn [obind offs]. do 3 f_equal. rewrite seq_S, map_app, <- app_assoc. reflexivity.
    - rewrite Nat.sub_diag. cbn [repeat]. now rewrite app_nil_r.
  Qed.

  Lemma should_sum : list_sum should = offs np d.
  Proof.
    unfold should. generalize d as n. induction n as [|n IH]; auto. rewrite seq_S, flat_map_app, list_sum_app, IH.
    cbn [flat_map offs Nat.add]. rewrite app_nil_r. f_equal. unfold np. generalize (e n) as m. induction m as [|m IHm]; auto.
    cbn [repeat list_sum fold_right Nat.mul]. unfold list_sum in IHm. now rewrite IHm.
  Qed.

  Lemma with_loop :
    let res := for_ (ft_dim f) (fun jj (s : ftrain (gfn R F) * list nat * nat) =>
        do o <- aget aopts jj;
        do b <- aget (ft_ranks f) (jj + 1);
        for_ b (fun col (s : ftrain (gfn R F) * list nat * nat) =>
          do a <- aget (ft_ranks f) jj;
          for_ a (fun row (s : ftrain (gfn R F) * list nat * nat) =>
            let '(ft, npu, onind) := s in
            do c <- aget (ft_cores ft) jj;
            do n <- qm_func_nparams c row col;
            do ft <- (if opt_np o <? n then Abort
                      else if n <? opt_np o then
                        do c <- qm_uni_pad c row col (opt_np o); set_core ft jj c
                      else Ok ft);
            do npu <- aset npu onind (opt_np o);
            Ok (ft, npu, onind + 1)) s) s) ((f : ftrain (gfn R F)), repeat 0 N, 0) in
    if existsb toomany (seq 0 N) then res = Abort else exists s', res = Ok s' /\ PI N s'.
  Proof.
    cbv zeta. fold d.
    match goal with |- context [for_ d ?B ?S0] => set (res := for_ d B S0) end.
    set (body := fun (q : nat * nat * nat) (s : ftrain (gfn R F) * list nat * nat) =>
       let '(k, i, j) := q in
       let '(ft, npu, onind) := s in
            do c <- aget (ft_cores ft) k;
            do n <- qm_func_nparams c i j;
            do ft <- (if opt_np (op k) <? n then Abort
                      else if n <? opt_np (op k) then
                        do c <- qm_uni_pad c i j (opt_np (op k)); set_core ft k c
                      else Ok ft);
            do npu <- aset npu onind (opt_np (op k));
            Ok (ft, npu, onind + 1)).
    assert (E : res = foldM body P ((f : ftrain (gfn R F)), repeat 0 N, 0)).
    { unfold res, P, positions. rewrite for_foldM, foldM_flat_map. apply foldM_ext.
      intros k s1 Hk. apply in_seq in Hk. rewrite wf_op by lia. cbn [obind]. replace (k + 1) with (S k) by lia. rewrite wf_rk by lia. cbn [obind].
      rewrite for_foldM, foldM_flat_map. apply foldM_ext. intros j s2 Hj. rewrite wf_rk by lia. cbn [obind].
      rewrite for_foldM, foldM_map. reflexivity. }
    rewrite E. clear res E.
    pose proof (foldM_stop PI toomany body P ((f : ftrain (gfn R F)), repeat 0 N, 0)) as H.
    assert (LP : length P = N) by apply positions_length. rewrite LP in H. apply H; clear H.
    - unfold PI. split; [reflexivity|]. split; [cbn [firstn app]; now rewrite Nat.sub_0_r|]. split; [reflexivity|].
      split; [reflexivity|]. split; [reflexivity|]. split; [|reflexivity].
      destruct Of as [_ O]. eapply Forall_impl; [|exact O]. intros c [Q _]. exact Q.
    - intros q [[k i] j] s Hq Hs. exact (pad_step q k i j s Hq Hs).
  Qed.

  (** A function with more parameters than its options prescribe *)
  Theorem with_ft_toomany : existsb toomany (seq 0 N) = true -> ftp_alloc_with_ft f aopts = Abort.
  Proof.
    intros H. pose proof with_loop as L. cbv zeta in L. rewrite H in L. unfold ftp_alloc_with_ft.
    etransitivity; [apply f_equal with (f := fun o => obind o _); exact with_count|]. cbn [obind].
    etransitivity; [apply f_equal with (f := fun o => obind o _); exact L|]. reflexivity.
  Qed.

  Lemma padq_num q : q < N -> toomany q = false ->
    gf_wf (padq q) /\ gf_num (padq q) <= nth q should 0 /\
    (is_poly (nth q funs z) = true \/ gf_num (nth q funs z) = nth q should 0 -> gf_num (padq q) = nth q should 0) /\
    (is_poly (nth q funs z) = false -> gf_num (padq q) = gf_num (nth q funs z)).
  Proof.
    intros H T. unfold toomany in T. apply Nat.ltb_ge in T. pose proof wfuns_length as LF.
    assert (Wu : gf_wf (nth q funs z)).
    { pose proof (funs_wf _ Of) as W. rewrite Forall_forall in W. apply W. apply nth_In. change (q < length funs). lia. }
    unfold padq. destruct (is_poly (nth q funs z)) eqn:E.
    - destruct (padded_spec _ _ Wu T E) as (W & Nn & _). rewrite Nn. repeat split; auto; discriminate.
    - rewrite padded_other by auto. repeat split; auto. intros [X|X]; [discriminate|auto].
  Qed.

  Let pfuns := map padq (seq 0 N).

  Lemma list_sum_le (g h : nat -> nat) l : (forall q, In q l -> g q <= h q) -> list_sum (map g l) <= list_sum (map h l).
  Proof.
    induction l as [|a l IH]; intros H; cbn [map list_sum fold_right]; auto.
    pose proof (H a (or_introl eq_refl)). unfold list_sum in IH. assert (forall q, In q l -> g q <= h q) by (intros; apply H; now right).
    specialize (IH H1). lia.
  Qed.
  Lemma list_sum_lt (g h : nat -> nat) l q0 : (forall q, In q l -> g q <= h q) -> In q0 l -> g q0 < h q0 -> list_sum (map g l) < list_sum (map h l).
  Proof.
    induction l as [|a l IH]; intros H I0 L; [destruct I0|]. cbn [map list_sum fold_right].
    assert (Ha := H a (or_introl eq_refl)). assert (Hl : forall q, In q l -> g q <= h q) by (intros; apply H; now right).
    destruct I0 as [->|I0].
    - pose proof (list_sum_le g h l Hl) as X. unfold list_sum in X. lia.
    - specialize (IH Hl I0 L). unfold list_sum in IH. lia.
  Qed.
  Lemma should_tab : should = map (fun q => nth q should 0) (seq 0 N).
  Proof.
    rewrite <- should_length. apply nth_error_ext; [now rewrite map_length, seq_length|]. intros q Hq.
    rewrite nth_error_map', nth_error_seq0 by auto. apply nth_error_nth'. exact Hq.
  Qed.
  Lemma lnum_list_sum (l : list (gfn R F)) : lnum l = list_sum (map gf_num l).
  Proof. reflexivity. Qed.

  Section NotMany.
    Hypothesis NM : forall q, q < N -> toomany q = false.

    Lemma nm_exists : existsb toomany (seq 0 N) = false.
    Proof.
      destruct (existsb toomany (seq 0 N)) eqn:E; auto. apply existsb_exists in E as (q & Hq & T). apply in_seq in Hq.
      rewrite NM in T by lia. discriminate.
    Qed.

    Lemma with_state : exists g : ftrain (gfn R F),
      ft_wf g /\ ft_ok g /\ ft_dim g = d /\ ft_ranks g = ft_ranks f /\
      map (fun c => (nr c, nc c)) (ft_cores g) = map (fun c => (nr c, nc c)) (ft_cores f) /\
      flat_map fs (ft_cores g) = pfuns /\
      ftp_alloc_with_ft f aopts =
        (do (check, params) <- ft_get g (repeat r0 (offs np d));
         if negb (check =? offs np d) then Abort
         else Ok (mkftp g d should (map np (seq 0 d)) (offs np d) params)).
    Proof.
      pose proof with_loop as L. cbv zeta in L. rewrite nm_exists in L. destruct L as ([[g npu] onind] & L & HI).
      destruct HI as (Eo & En & Dg & Rg & Sg & Qg & Fg). pose proof wfuns_length as LF.
      rewrite skipn_all2, app_nil_r in Fg by lia. rewrite firstn_all2, Nat.sub_diag in En by (rewrite should_length; lia).
      cbn [repeat] in En. rewrite app_nil_r in En. subst npu. exists g.
      assert (Wg : ft_wf g) by now apply shape_wf.
      split; [exact Wg|]. split.
      { destruct Wg as (E1 & _). split; [auto|]. apply Forall_forall. intros c Hc. rewrite Forall_forall in Qg. split; [now apply Qg|].
        apply Forall_forall. intros u Hu. assert (Iu : In u pfuns) by (fold pfuns in Fg; rewrite <- Fg; apply in_flat_map; eauto).
        apply in_map_iff in Iu as (q & <- & Hq). apply in_seq in Hq. apply padq_num; [lia|apply NM; lia]. }
      split; [exact Dg|]. split; [exact Rg|]. split; [exact Sg|]. split; [exact Fg|].
      unfold ftp_alloc_with_ft.
      etransitivity; [apply f_equal with (f := fun o => obind o _); exact with_count|]. cbn [obind].
      etransitivity; [apply f_equal with (f := fun o => obind o _); exact L|]. reflexivity.
    Qed.

    Lemma pfuns_num : lnum pfuns <= offs np d.
    Proof.
      rewrite lnum_list_sum, <- should_sum, should_tab. unfold pfuns. rewrite map_map.
      apply list_sum_le. intros q Hq. apply in_seq in Hq. apply padq_num; [lia|apply NM; lia].
    Qed.

    (** A function that cannot be extended *)
    Theorem with_ft_toofew q : q < N -> is_poly (nth q funs z) = false -> gf_num (nth q funs z) <> nth q should 0 ->
      ftp_alloc_with_ft f aopts = Abort.
    Proof.
      intros Hq Hp Hn. destruct with_state as (g & Wg & Og & Dg & Rg & Sg & Fg & ->).
      assert (Lt : lnum pfuns < offs np d).
      { rewrite lnum_list_sum, <- should_sum, should_tab. unfold pfuns. rewrite map_map.
        apply (list_sum_lt _ _ _ q).
        - intros q' Hq'. apply in_seq in Hq'. apply padq_num; [lia|apply NM; lia].
        - apply in_seq. lia.
        - destruct (padq_num q Hq (NM q Hq)) as (_ & Le & _ & E). rewrite (E Hp) in *. lia. }
      assert (EF : lnum (ft_funs g) = lnum pfuns) by (unfold ft_funs, cfuns; now rewrite Fg).
      rewrite ft_get_ok by (auto; rewrite repeat_length; lia). cbn [obind]. rewrite EF.
      destruct (Nat.eqb_spec (lnum pfuns) (offs np d)); [lia|reflexivity].
    Qed.

    Hypothesis Full : forall q, q < N -> is_poly (nth q funs z) = true \/ gf_num (nth q funs z) = nth q should 0.

    Lemma pfuns_should : map gf_num pfuns = should.
    Proof.
      rewrite should_tab. unfold pfuns. rewrite map_map. apply map_ext_in. intros q Hq. apply in_seq in Hq.
      apply padq_num; [lia|apply NM; lia|apply Full; lia].
    Qed.

    Theorem with_ft_ok : exists ftp, ftp_alloc_with_ft f aopts = Ok ftp /\ ftp_ok ftp /\
      ft_ranks (fp_ft ftp) = ft_ranks f /\ map (fun c => (nr c, nc c)) (ft_cores (fp_ft ftp)) = map (fun c => (nr c, nc c)) (ft_cores f) /\
      flat_map fs (ft_cores (fp_ft ftp)) = pfuns.
    Proof.
      destruct with_state as (g & Wg & Og & Dg & Rg & Sg & Fg & ->).
      assert (EF : lnum (ft_funs g) = offs np d).
      { unfold ft_funs, cfuns. rewrite Fg, lnum_list_sum, pfuns_should. apply should_sum. }
      assert (EP : length (lparams (ft_funs g)) = offs np d).
      { rewrite <- (train_params_lparams g), train_params_length by auto. exact EF. }
      rewrite ft_get_ok by (auto; rewrite repeat_length; lia). cbn [obind]. rewrite EF, Nat.eqb_refl. cbn [negb].
      rewrite splice_full by (rewrite repeat_length; lia).
      eexists. split; [reflexivity|]. split; [|cbn [fp_ft]; auto].
      unfold ftp_ok. cbn [fp_ft fp_dim fp_npu fp_npc fp_nparams fp_params].
      split; [exact Wg|]. split; [exact Og|]. split; [now symmetry|]. split; [|split; [|split]].
      - rewrite Fg, <- pfuns_should. apply map_ext_in. intros u Hu. symmetry. apply gf_params_length.
        apply in_map_iff in Hu as (q & <- & Hq). apply in_seq in Hq. apply padq_num; [lia|apply NM; lia].
      - assert (Lc : length (ft_cores g) = d) by (destruct Wg as (E1 & _); congruence).
        apply nth_error_ext; [rewrite !map_length, seq_length; lia|].
        intros k Hk. rewrite map_length, seq_length in Hk. rewrite !nth_error_map', nth_error_seq0 by auto.
        destruct (nth_error (ft_cores g) k) as [c|] eqn:Ec; [|apply nth_error_None in Ec; lia]. f_equal.
        assert (Wg' : ft_wf (g : ftrain U)) by exact Wg.
        assert (rkg : forall k, frk (g : ftrain U) k = r k) by (intros k'; exact (f_equal (fun l => nth k' l 0) Rg)).
        destruct (canon_core (g : ftrain U) k Wg') as (Ec1 & Qc & Nc & Cc & _); [change (k < ft_dim g); lia|].
        assert (Ecc : fco (g : ftrain U) k = c) by (assert (Some (fco (g : ftrain U) k) = Some c) as X by (rewrite <- Ec; symmetry; exact Ec1); now injection X).
        rewrite Ecc in Qc, Nc, Cc. rewrite rkg in Nc, Cc. unfold qwf in Qc.
        assert (Hu : forall u, In u (fs c) -> length (gf_params u) = opt_np (op k)).
        { intros u Iu. apply In_nth_error in Iu as (l & El).
          assert (Hl0 : l < length (fs c)) by (apply nth_error_Some; congruence).
          assert (Hl : l < e k) by (unfold e; rewrite <- Nc, <- Cc, <- Qc; exact Hl0).
          assert (Eg : nth_error pfuns (offs e k + l) = Some u).
          { rewrite <- Fg. rewrite <- (offs_ext (fun q => frk (g : ftrain U) q * frk (g : ftrain U) (S q)) e) by (intros; now rewrite !rkg).
            etransitivity; [apply (funs_nth (g : ftrain U) Wg' k); [change (k < ft_dim g); lia|rewrite !rkg; exact Hl]|].
            rewrite Ecc. exact El. }
          assert (En : nth_error should (offs e k + l) = Some (opt_np (op k))).
          { assert (0 < r k) by (unfold e in Hl; destruct (r k); lia).
            replace l with (l / r k * r k + l mod r k) by (rewrite Nat.mul_comm; symmetry; apply Nat.div_mod; lia).
            apply should_nth; auto; [apply Nat.mod_upper_bound; lia|apply Nat.div_lt_upper_bound; unfold e in Hl; lia]. }
          rewrite <- pfuns_should, nth_error_map', Eg in En. injection En as En. rewrite <- En. apply gf_params_length.
          apply nth_error_In in Eg. apply in_map_iff in Eg as (q & <- & Hq). apply in_seq in Hq. apply padq_num; [lia|apply NM; lia]. }
        rewrite (flat_map_const_length _ _ _ Hu). unfold np, e. rewrite <- Nc, <- Cc. f_equal. symmetry. exact Qc.
      - change (offs np d = length (train_params g)). rewrite train_params_lparams. now symmetry.
      - change (lparams (ft_funs g) = train_params g). now rewrite train_params_lparams.
    Qed.
  End NotMany.
End WithFt.
