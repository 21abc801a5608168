(** Property C67: the parameters of a parameterized function train through its
    life: allocation, updates, copies. *)
From Verif Require Import PAllocCst PropPGrad Instances.
From Coq Require Import ZArith.
Open Scope nat_scope.

Lemma map_fst_combine {A B} (a : list A) (b : list B) : length a = length b -> map fst (combine a b) = a.
Proof. revert b. induction a as [|x a IH]; intros [|y b] H; try discriminate; cbn [combine map fst]; auto. f_equal. apply IH. cbn in H. lia. Qed.

Section C67.
  Context {R : CRing} {F : Type}.
  Open Scope cr_scope.
  Variable bad : R -> bool.
  Add Ring Rr34 : (rth R).
  Notation G := (gfn R F).
  Notation aopt := (aopt R F).

  (** Ranks for [d] cores *)
  Definition good_ranks (d : nat) (ranks : list nat) : Prop :=
    0 < d /\ length ranks = d + 1 /\ (forall k, k <= d -> 0 < nth k ranks 0) /\ nth 0 ranks 0 = 1 /\ nth d ranks 0 = 1.
  (** What the options say about the number of parameters is what the functions
      made from them have. *)
  Definition good_opts (aopts : list aopt) : Prop := Forall (fun a => opt_np a = gf_num (opt_zero a)) aopts.
  (** Core by core, the shape and everything but the parameters *)
  Definition structure_is (g : ftrain G) (aopts : list aopt) (ranks : list nat) : Prop :=
    ft_dim g = length aopts /\ ft_ranks g = ranks /\
    forall k a, nth_error aopts k = Some a -> exists c, nth_error (ft_cores g) k = Some c /\
      nr c = nth k ranks 0 /\ nc c = nth (S k) ranks 0 /\
      map gf_rest (fs c) = repeat (gf_rest (opt_zero a)) (nth k ranks 0 * nth (S k) ranks 0).
  Definition count_is (aopts : list aopt) (ranks : list nat) : nat :=
    offs (fun k => nth k ranks 0 * nth (S k) ranks 0 * nth k (map opt_np aopts) 0) (length aopts).

  Lemma nth_map_np (aopts : list aopt) a0 k : k < length aopts -> nth k (map opt_np aopts) 0 = opt_np (nth k aopts a0).
  Proof. intros H. rewrite (nth_indep _ 0 (opt_np a0)) by now rewrite map_length. apply map_nth. Qed.
  Lemma count_zftp aopts ranks a0 : fp_nparams (zftp aopts ranks a0) = count_is aopts ranks.
  Proof. cbn [zftp fp_nparams]. apply offs_ext. intros k Hk. now rewrite (nth_map_np _ a0). Qed.
  Lemma structure_zft aopts ranks a0 g : good_ranks (length aopts) ranks -> same_structure (zft aopts ranks a0) g -> structure_is g aopts ranks.
  Proof.
    intros _ (A & B & C). split; [exact A|]. split; [exact B|]. intros k a Ha. cbn [zft ft_cores] in C.
    assert (Hk : k < length aopts) by (apply nth_error_Some; congruence).
    apply (f_equal (fun l => nth_error l k)) in C. rewrite !nth_error_map', nth_error_tab in C by auto.
    destruct (nth_error (ft_cores g) k) as [c|]; [|discriminate]. injection C as C1 C2 C3. exists c.
    split; auto. split; auto. split; auto. rewrite C3. cbn [zcore fs]. rewrite map_repeat', (nth_error_nth _ _ a0 Ha). reflexivity.
  Qed.

  Lemma some_fun (f : ftrain G) : ft_wf f -> exists z l, flat_map fs (ft_cores f) = z :: l.
  Proof.
    intros (W1 & W2 & W3 & W4). destruct (flat_map fs (ft_cores f)) as [|z l] eqn:Ez; [exfalso|eauto].
    destruct (ft_cores f) as [|c cs]; [cbn in *; lia|]. cbn [chain] in W4.
    destruct W4 as (_ & Q & A & B & _). cbn [flat_map] in Ez. apply app_eq_nil in Ez as [Ez _]. unfold qwf in Q. rewrite Ez in Q. cbn in Q. nia.
  Qed.

  (** Allocation with given parameters *)
  Theorem C67_alloc : forall (aopts : list aopt) (ranks : list nat) (p : list R),
    good_ranks (length aopts) ranks -> good_opts aopts -> count_is aopts ranks <= length p ->
    (forall v, In v (firstn (count_is aopts ranks) p) -> bad v = false) ->
    exists ftp, ftp_alloc bad (length aopts) aopts (Some p) ranks = Ok ftp /\ ftp_ok ftp /\
      structure_is (fp_ft ftp) aopts ranks /\ fp_params ftp = firstn (count_is aopts ranks) p.
  Proof.
    intros aopts ranks p (H1 & H2 & H3 & H4 & H5) Ho Lp B.
    destruct aopts as [|a0 aopts'] eqn:Ea; [cbn in H1; lia|]. rewrite <- Ea in *. clear Ea aopts'.
    rewrite <- (count_zftp aopts ranks a0) in *.
    destruct (alloc_some bad aopts ranks ltac:(lia) H1 a0 H3 H4 H5) with (p := p) as (ftp & E & O & S1 & P & _ & _); auto.
    { intros a Ha. unfold good_opts in Ho. rewrite Forall_forall in Ho. now apply Ho. }
    exists ftp. split; auto. split; auto. split; [|auto]. eapply structure_zft; eauto. repeat split; auto.
  Qed.

  (** Allocation without parameters: everything is zero. *)
  Theorem C67_alloc_null : forall (aopts : list aopt) (ranks : list nat),
    good_ranks (length aopts) ranks -> good_opts aopts ->
    (forall a, In a aopts -> gf_params (opt_zero a) = repeat r0 (opt_np a)) ->
    exists ftp, ftp_alloc bad (length aopts) aopts None ranks = Ok ftp /\ ftp_ok ftp /\
      structure_is (fp_ft ftp) aopts ranks /\ fp_params ftp = repeat r0 (count_is aopts ranks).
  Proof.
    intros aopts ranks (H1 & H2 & H3 & H4 & H5) Ho Hz.
    destruct aopts as [|a0 aopts'] eqn:Ea; [cbn in H1; lia|]. rewrite <- Ea in *. clear Ea aopts'.
    unfold good_opts in Ho. rewrite Forall_forall in Ho.
    pose proof (zftp_ok aopts ranks ltac:(lia) H1 a0 H3 H4 H5 Ho H2) as O.
    rewrite (alloc_none bad aopts ranks ltac:(lia) H1 a0 H4 H5 H2). eexists. split; [reflexivity|].
    assert (Ez : fp_params (zftp aopts ranks a0) = repeat r0 (fp_nparams (zftp aopts ranks a0))).
    { pose proof (ftp_params_length _ O) as L. rewrite (ftp_params_eq _ O) in *. rewrite <- L.
      apply Forall_eq_repeat. apply Forall_forall. intros v Hv. unfold lparams in Hv. apply in_flat_map in Hv as (u & Hu & Hv).
      unfold ft_funs, cfuns in Hu. cbn [zftp fp_ft] in Hu. rewrite zft_funs in Hu. apply in_flat_map in Hu as (k & Hk & Hu).
      apply in_seq in Hk. apply repeat_spec in Hu. subst u. rewrite Hz in Hv by (apply al_in; lia). symmetry. now apply repeat_spec in Hv. }
    rewrite <- Ez. split; [exact O|]. split.
    - apply (structure_zft _ _ a0); [repeat split; auto|]. repeat split; auto.
    - cbn [fp_params]. rewrite Ez. f_equal. apply count_zftp.
  Qed.

  (** Changing the structure is a fresh allocation in the same dimension. *)
  Theorem C67_update_structure : forall (ftp : ftparam R G) (aopts : list aopt) (ranks : list nat) (p : list R),
    fp_dim ftp = length aopts ->
    good_ranks (length aopts) ranks -> good_opts aopts -> count_is aopts ranks <= length p ->
    (forall v, In v (firstn (count_is aopts ranks) p) -> bad v = false) ->
    exists ftp', ftp_update_structure bad ftp aopts ranks (Some p) = Ok ftp' /\ ftp_ok ftp' /\
      structure_is (fp_ft ftp') aopts ranks /\ fp_params ftp' = firstn (count_is aopts ranks) p.
  Proof. intros ftp aopts ranks p E. unfold ftp_update_structure. rewrite E. apply C67_alloc. Qed.

  (** A copy has the same functions and the same parameters. *)
  Theorem C67_copy : forall (ftp : ftparam R G) (aopts : list aopt) (ranks : list nat),
    good_ranks (length aopts) ranks -> good_opts aopts -> ftp_ok ftp -> structure_is (fp_ft ftp) aopts ranks ->
    (forall v, In v (fp_params ftp) -> bad v = false) ->
    ftp_copy bad aopts ftp = Ok ftp.
  Proof.
    intros ftp aopts ranks Hr Ho O (S1 & S2 & S3) B.
    pose proof O as (W & Of & Ed & Eu & Ec & En & Ep).
    assert (Lc : length (ft_cores (fp_ft ftp)) = length aopts) by (destruct W as (E & _); congruence).
    pose proof Hr as (H1 & H2 & _). destruct aopts as [|a0 aopts'] eqn:Ea; [cbn in H1; lia|]. rewrite <- Ea in *. clear Ea aopts'.
    assert (Hcore : forall k c, nth_error (ft_cores (fp_ft ftp)) k = Some c -> length (flat_map gf_params (fs c)) = nth k ranks 0 * nth (S k) ranks 0 * nth k (map opt_np aopts) 0).
    { intros k c Hc. assert (Hk : k < length aopts) by (rewrite <- Lc; apply nth_error_Some; congruence).
      assert (Ha : nth_error aopts k = Some (nth k aopts a0)) by now apply nth_error_nth'.
      destruct (S3 k _ Ha) as (c' & Hc' & N1 & N2 & N3). assert (c' = c) by congruence. subst c'.
      rewrite (nth_map_np _ a0) by auto.
      rewrite (flat_map_const_length _ _ (opt_np (nth k aopts a0))).
      - apply (f_equal (@length _)) in N3. rewrite map_length, repeat_length in N3. now rewrite N3.
      - intros u Hu. destruct Of as [_ Of]. rewrite Forall_forall in Of. destruct (Of c (nth_error_In _ _ Hc)) as [_ Wu].
        rewrite Forall_forall in Wu. rewrite gf_params_length by auto. unfold good_opts in Ho. rewrite Forall_forall in Ho.
        rewrite (Ho (nth k aopts a0)) by (eapply nth_error_In; eauto). apply rest_num.
        apply (in_map gf_rest) in Hu. rewrite N3 in Hu. now apply repeat_spec in Hu. }
    assert (Cn : fp_nparams ftp = count_is aopts ranks).
    { rewrite En. unfold count_is. rewrite <- Lc.
      assert (X : forall n, n <= length (ft_cores (fp_ft ftp)) -> length (flat_map (fun c => flat_map gf_params (fs c)) (firstn n (ft_cores (fp_ft ftp)))) =
         offs (fun k => nth k ranks 0 * nth (S k) ranks 0 * nth k (map opt_np aopts) 0) n).
      { induction n as [|n IH]; intros Hn; auto. destruct (nth_error (ft_cores (fp_ft ftp)) n) as [c|] eqn:Ecn; [|apply nth_error_None in Ecn; lia].
        rewrite (firstn_S_nth _ _ _ Ecn), flat_map_app, app_length, IH by lia. cbn [flat_map offs]. rewrite app_nil_r, (Hcore n c Ecn). reflexivity. }
      rewrite <- X by auto. now rewrite firstn_all. }
    pose proof (ftp_params_length ftp O) as LP. unfold ftp_copy. rewrite Ed, S1, S2.
    destruct (C67_alloc aopts ranks (fp_params ftp) Hr Ho) as (ftp' & E' & O' & (S1' & S2' & S3') & P').
    { lia. }
    { rewrite firstn_all2 by lia. exact B. }
    rewrite E'. f_equal. rewrite firstn_all2 in P' by lia.
    pose proof O' as (W' & Of' & Ed' & Eu' & Ec' & En' & Ep').
    assert (Lc' : length (ft_cores (fp_ft ftp')) = length aopts) by (destruct W' as (E & _); congruence).
    assert (EF : fp_ft ftp' = fp_ft ftp).
    { apply C10_determined; auto.
      - split; [congruence|]. split; [congruence|]. apply nth_error_ext; [rewrite !map_length; congruence|].
        intros k Hk. rewrite map_length in Hk. assert (Hk' : k < length aopts) by lia. rewrite !nth_error_map'.
        assert (Ha : nth_error aopts k = Some (nth k aopts a0)) by now apply nth_error_nth'.
        destruct (S3 k _ Ha) as (c & -> & N1 & N2 & N3). destruct (S3' k _ Ha) as (c' & -> & N1' & N2' & N3'). congruence.
      - unfold train_params. congruence. }
    destruct ftp as [f1 d1 u1 c1 n1 p1], ftp' as [f2 d2 u2 c2 n2 p2]. cbn [fp_ft fp_dim fp_npu fp_npc fp_nparams fp_params] in *. congruence.
  Qed.

  (** Replacing all parameters *)
  Theorem C67_update : forall (ftp : ftparam R G) (p : list R), ftp_ok ftp -> fp_nparams ftp <= length p ->
    (forall v, In v (firstn (fp_nparams ftp) p) -> bad v = false) ->
    exists ftp', ftp_update bad ftp p = Ok ftp' /\ ftp_ok ftp' /\ same_structure (fp_ft ftp) (fp_ft ftp') /\
      fp_params ftp' = firstn (fp_nparams ftp) p.
  Proof. intros ftp p O L B. destruct (update_ok bad ftp O p L B) as (ftp' & A & C & D & E & _). eauto 6. Qed.
  Theorem C67_update_rejects_nan : forall (ftp : ftparam R G) (p : list R), ftp_ok ftp -> fp_nparams ftp <= length p ->
    (exists v, In v (firstn (fp_nparams ftp) p) /\ bad v = true) -> ftp_update bad ftp p = Abort.
  Proof. intros ftp p O Lp Hb. exact (update_bad bad ftp O p Lp Hb). Qed.
  Theorem C67_self_update : forall ftp : ftparam R G, ftp_ok ftp -> (forall v, In v (fp_params ftp) -> bad v = false) ->
    ftp_self_update bad ftp = Ok ftp.
  Proof. exact (self_update_ok bad). Qed.

  (** Replacing the parameters of one core *)
  Theorem C67_update_core : forall (ftp : ftparam R G) k c (p : list R), ftp_ok ftp -> nth_error (ft_cores (fp_ft ftp)) k = Some c ->
    length (flat_map gf_params (fs c)) <= length p ->
    (forall v, In v (firstn (length (flat_map gf_params (fs c))) p) -> bad v = false) ->
    (forall v, In v (fp_params ftp) -> bad v = false) ->
    exists ftp', ftp_update_core bad ftp k p = Ok ftp' /\ ftp_ok ftp' /\ same_structure (fp_ft ftp) (fp_ft ftp') /\
      fp_params ftp' = flat_map (fun c => flat_map gf_params (fs c)) (firstn k (ft_cores (fp_ft ftp))) ++
                       firstn (length (flat_map gf_params (fs c))) p ++
                       flat_map (fun c => flat_map gf_params (fs c)) (skipn (S k) (ft_cores (fp_ft ftp))).
  Proof.
    intros ftp k c p O Ec L B1 B2. destruct (core_update_ok bad ftp O k c p Ec L B1 B2) as (ftp' & E1 & O' & S' & P').
    exists ftp'. split; auto. split; auto. split; auto. rewrite P'. unfold splice, before.
    assert (Lf : length (firstn (length (flat_map gf_params (fs c))) p) = length (flat_map gf_params (fs c))) by (rewrite firstn_length; lia).
    assert (Esp : ft_cores (fp_ft ftp) = firstn k (ft_cores (fp_ft ftp)) ++ c :: skipn (S k) (ft_cores (fp_ft ftp))).
    { rewrite <- (firstn_skipn k (ft_cores (fp_ft ftp))) at 1. f_equal. clear -Ec. revert k Ec. generalize (ft_cores (fp_ft ftp)) as l.
      induction l as [|a l IH]; intros [|k] Ec; try discriminate; cbn [nth_error skipn] in *; [congruence|]. now apply IH. }
    assert (EP : fp_params ftp = flat_map (fun c => flat_map gf_params (fs c)) (firstn k (ft_cores (fp_ft ftp))) ++ flat_map gf_params (fs c) ++
       flat_map (fun c => flat_map gf_params (fs c)) (skipn (S k) (ft_cores (fp_ft ftp)))).
    { destruct O as (_ & _ & _ & _ & _ & _ & EP). rewrite EP. rewrite Esp at 1. rewrite flat_map_app. reflexivity. }
    rewrite EP, firstn_app_len by reflexivity. rewrite Lf, <- skipn_add, skipn_app_len, skipn_app_len by reflexivity. reflexivity.
  Qed.

  (** Reading *)
  Theorem C67_get_params : forall (ftp : ftparam R G) n (buf : list R), ftp_ok ftp -> 0 < fp_nparams ftp ->
    Nat.min n (fp_nparams ftp) <= length buf ->
    ftp_get_params ftp n buf = Ok (Nat.min n (fp_nparams ftp), firstn n (fp_params ftp) ++ skipn (Nat.min n (fp_nparams ftp)) buf).
  Proof.
    intros ftp n buf O P L. pose proof (ftp_params_length ftp O) as LP. unfold ftp_get_params.
    assert (C : forall m, m <= fp_nparams ftp -> m <= length buf ->
      for_ m (fun i p => do v <- aget (fp_params ftp) i; aset p i v) buf = Ok (firstn m (fp_params ftp) ++ skipn m buf)).
    { intros m H1 H2. set (st := fun i => firstn i (fp_params ftp) ++ skipn i buf).
      match goal with |- for_ m ?B ?S0 = _ => apply (for_det st B m) end. intros i Hi. unfold st.
      destruct (nth_error (fp_params ftp) i) as [v|] eqn:Ev; [|apply nth_error_None in Ev; lia]. rewrite (aget_ok _ _ v Ev). cbn [obind].
      rewrite aset_ok by (rewrite app_length, firstn_length, skipn_length; lia). f_equal.
      destruct (nth_error buf i) as [w|] eqn:Ew; [|apply nth_error_None in Ew; lia].
      assert (Es : skipn i buf = w :: skipn (S i) buf).
      { clear -Ew. revert buf Ew. induction i as [|i IH]; intros [|a l] E; try discriminate; cbn [nth_error skipn] in *; [congruence|]. now apply IH. }
      rewrite Es. assert (Li : i = length (firstn i (fp_params ftp)) + 0) by (rewrite firstn_length; lia). rewrite Li at 3. rewrite upd_app_r.
      cbn [upd]. rewrite (firstn_S_nth _ _ _ Ev), <- app_assoc. reflexivity. }
    destruct (Nat.leb_spec (fp_nparams ftp) 0); [lia|]. destruct (Nat.leb_spec n (fp_nparams ftp)).
    - rewrite Nat.min_l in * by auto. rewrite C by auto. reflexivity.
    - rewrite Nat.min_r in * by lia. rewrite C by auto. cbn [obind]. rewrite !firstn_all2 by lia. reflexivity.
  Qed.
  Theorem C67_get_param : forall (ftp : ftparam R G) i, ftp_ok ftp ->
    ftp_get_param ftp i = match nth_error (fp_params ftp) i with Some v => Ok v | None => Abort end.
  Proof.
    intros ftp i O. pose proof (ftp_params_length ftp O) as LP. unfold ftp_get_param.
    destruct (Nat.ltb_spec 0 (fp_nparams ftp)).
    - destruct (Nat.ltb_spec i (fp_nparams ftp)).
      + destruct (nth_error (fp_params ftp) i) as [v|] eqn:E; [now apply aget_ok|apply nth_error_None in E; lia].
      + now rewrite (proj2 (nth_error_None _ _)) by lia.
    - now rewrite (proj2 (nth_error_None _ _)) by lia.
  Qed.

  (** Replacing the parameters outside, or inside, the first rows and columns:
      [rs] holds, for each core, the number of columns that are kept and, for
      the next core, the number of rows. *)
  Definition outside_blocks (ftp : ftparam R G) rs := blocks ftp (out_t rs).
  Definition inside_blocks (ftp : ftparam R G) rs := blocks ftp (in_t rs).

  Theorem C67_count_restricted : forall (ftp : ftparam R G) rs, ftp_ok ftp -> length rs = ft_dim (fp_ft ftp) ->
    ftp_nparams_restrict ftp rs = Ok (taken (outside_blocks ftp rs)).
  Proof.
    intros ftp rs O L. unfold ftp_nparams_restrict. pose proof O as (W & _ & Ed & _). rewrite Ed.
    destruct (some_fun (fp_ft ftp) W) as (z & lz & Ez).
    rewrite (restrict_count ftp O z (outside rs) (out_t rs)); [reflexivity|].
    intros k i j Hk _ _. apply outside_ok. lia.
  Qed.
  Theorem C67_update_restricted : forall (ftp : ftparam R G) rs new, ftp_ok ftp -> length rs = ft_dim (fp_ft ftp) ->
    taken (outside_blocks ftp rs) <= length new -> (forall v, In v (fp_params ftp) \/ In v new -> bad v = false) ->
    exists ftp', ftp_update_restricted bad ftp new rs = Ok ftp' /\ ftp_ok ftp' /\ same_structure (fp_ft ftp) (fp_ft ftp') /\
      fp_params ftp' = merge (outside_blocks ftp rs) (fp_params ftp) new.
  Proof.
    intros ftp rs new O L Ln B. pose proof O as (W & _ & Ed & _).
    destruct (some_fun (fp_ft ftp) W) as (z & lz & Ez).
    apply (sel_ok bad ftp O z (outside rs) (out_t rs)); auto. intros k i j Hk _ _. apply outside_ok. lia.
  Qed.
  Theorem C67_update_inside : forall (ftp : ftparam R G) rs new, ftp_ok ftp -> length rs = ft_dim (fp_ft ftp) ->
    taken (inside_blocks ftp rs) <= length new -> (forall v, In v (fp_params ftp) \/ In v new -> bad v = false) ->
    exists ftp', ftp_update_inside bad ftp new rs = Ok ftp' /\ ftp_ok ftp' /\ same_structure (fp_ft ftp) (fp_ft ftp') /\
      fp_params ftp' = merge (inside_blocks ftp rs) (fp_params ftp) new.
  Proof.
    intros ftp rs new O L Ln B. pose proof O as (W & _ & Ed & _).
    destruct (some_fun (fp_ft ftp) W) as (z & lz & Ez).
    apply (sel_ok bad ftp O z (inside rs) (in_t rs)); auto. intros k i j Hk _ _. apply inside_ok. lia.
  Qed.

  (** One entry less is not enough: the last core reads past the end. *)
  Theorem C67_restricted_refuted : forall (ftp : ftparam R G) rs, ftp_ok ftp ->
    S (length rs) = ft_dim (fp_ft ftp) -> (forall k, k < length rs -> 0 < nth k rs 0) ->
    ftp_nparams_restrict ftp rs = UB.
  Proof.
    intros ftp rs O L Hp. unfold ftp_nparams_restrict. pose proof O as (W & _ & Ed & _). rewrite Ed.
    enough (H : forall s, s = (0, 0) -> over_funs (ft_dim (fp_ft ftp)) (ft_ranks (fp_ft ftp)) (fun kk ii jj (s : nat * nat) =>
        let '(nparams, ind) := s in
        do t <- outside rs kk ii jj;
        do nparams <- (if t : bool then do n <- aget (fp_npu ftp) ind; Ok (nparams + n) else Ok nparams);
        Ok (nparams, ind + 1)) s = UB) by (now rewrite H).
    intros s Hs.
    destruct (some_fun (fp_ft ftp) W) as (z & lz & Ez).
    rewrite (over_funs_ok _ _ (fun k => nth k (ft_ranks (fp_ft ftp)) 0)) by (apply (up_rk ftp O)).
    set (d := ft_dim (fp_ft ftp)) in *. set (r := fun k => nth k (ft_ranks (fp_ft ftp)) 0).
    assert (rp : forall k, k <= d -> 0 < r k) by (intros k Hk; exact (cs_pos z (fun _ _ => r0) ftp O (repeat z d) (repeat_length _ _) k Hk)).
    assert (rd : r d = 1) by exact (frk_d (U := evU z (fun _ _ => r0)) (fp_ft ftp) W).
    assert (Hd : 0 < d) by apply W.
    pose proof (positions_nth r d (d - 1) 0 0 ltac:(lia) (rp (d - 1) ltac:(lia)) (rp (S (d - 1)) ltac:(lia))) as Hn.
    cbn [Nat.mul Nat.add] in Hn. rewrite Nat.add_0_r in Hn. apply nth_error_split in Hn as (p & q & Ep & Lp).
    rewrite Ep, foldM_app.
    match goal with |- obind (foldM ?B p ?S0) _ = _ => destruct (foldM_inv (fun (l : list (nat * nat * nat)) (s : nat * nat) => snd s = length l) B p [] S0) as (s' & E' & H') end.
    - subst s. reflexivity.
    - intros p1 [[k i] j] q1 s1 E1 H1. cbn [fst snd app]. destruct s1 as [n1 ind]. cbn [snd] in H1. cbn [app] in H1. subst ind.
      assert (E2 : positions r d = p1 ++ (k, i, j) :: (q1 ++ (d - 1, 0, 0) :: q)) by (rewrite Ep, E1, <- app_assoc; reflexivity).
      destruct (positions_split _ _ _ _ _ _ _ E2) as (Hk & Hi & Hj & Lq).
      assert (Hkk : k < d - 1).
      { assert (Hlt : length p1 < length p) by (rewrite E1, app_length; cbn [length]; lia). rewrite Lp, Lq in Hlt.
        destruct (Nat.lt_ge_cases k (d - 1)) as [|C]; auto. assert (k = d - 1) by lia. subst k. lia. }
      rewrite outside_ok by lia. cbn [obind].
      assert (Hnpu : exists n, aget (fp_npu ftp) (length p1) = Ok n).
      { destruct (aget_lt (fp_npu ftp) (length p1)) as (n & _ & En); [|eauto].
        rewrite (npu_len ftp O z). change (length p1 < length (positions r d)). rewrite E2, app_length. cbn [length]. lia. }
      destruct Hnpu as (n & ->). destruct (out_t rs k i j); cbn [obind]; eexists; (split; [reflexivity|]); cbn [snd]; rewrite app_length; cbn [length]; lia.
    - rewrite E'. cbn [obind foldM fst snd]. destruct s' as [n1 ind]. unfold outside.
      assert (Eu : aget rs (d - 1) = UB). { unfold aget. now rewrite (proj2 (nth_error_None _ _)) by lia. }
      destruct (Nat.ltb_spec 0 (d - 1)).
      + rewrite (aget_ok _ _ (nth (d - 1 - 1) rs 0)) by (apply nth_error_nth'; lia). cbn [obind].
        destruct (Nat.leb_spec (nth (d - 1 - 1) rs 0) 0); [specialize (Hp (d - 1 - 1) ltac:(lia)); lia|]. rewrite Eu. reflexivity.
      + rewrite Eu. reflexivity.
  Qed.

  (** The regression code passes the ranks of the previous train followed by 0.
      With that last entry the parameters of the last core are never replaced. *)
  Lemma merge_false {A} bs (old new : list A) : (forall b, In b bs -> fst b = false) -> merge bs old new = old.
  Proof.
    revert old. induction bs as [|[b n] bs IH]; intros old H; auto. cbn [merge].
    assert (b = false) by exact (H (b, n) (or_introl eq_refl)). subst b. rewrite IH by (intros; apply H; now right). apply firstn_skipn.
  Qed.
  Lemma merge_tail {A} bs1 bs2 (old new : list A) : total bs1 <= length old -> taken bs1 <= length new ->
    (forall b, In b bs2 -> fst b = false) -> skipn (total bs1) (merge (bs1 ++ bs2) old new) = skipn (total bs1) old.
  Proof.
    revert old new. induction bs1 as [|[b n] bs1 IH]; intros old new L T H.
    - cbn [app]. now rewrite merge_false.
    - rewrite total_cons in *. cbn [app merge taken] in *. destruct b.
      + rewrite <- skipn_add, skipn_app_len by (rewrite firstn_length; lia). rewrite IH by (rewrite ?skipn_length; auto; lia). apply skipn_add.
      + rewrite <- skipn_add, skipn_app_len by (rewrite firstn_length; lia). rewrite IH by (rewrite ?skipn_length; auto; lia). apply skipn_add.
  Qed.
  Theorem C67_inside_last : forall (ftp : ftparam R G) rs new, ftp_ok ftp -> length rs = ft_dim (fp_ft ftp) ->
    nth (ft_dim (fp_ft ftp) - 1) rs 0 = 0 ->
    taken (inside_blocks ftp rs) <= length new -> (forall v, In v (fp_params ftp) \/ In v new -> bad v = false) ->
    exists ftp', ftp_update_inside bad ftp new rs = Ok ftp' /\
      let n := length (flat_map gf_params (flat_map fs (removelast (ft_cores (fp_ft ftp))))) in
      skipn n (fp_params ftp') = skipn n (fp_params ftp).
  Proof.
    intros ftp rs new O L Z Ln B. destruct (C67_update_inside ftp rs new O L Ln B) as (ftp' & E & _ & _ & P).
    exists ftp'. split; [exact E|]. intros n. rewrite P. pose proof O as (W & Of & Ed & Eu & Ec & En & Ep).
    destruct (some_fun (fp_ft ftp) W) as (z & lz & Ez).
    set (d := ft_dim (fp_ft ftp)) in *. set (r := fun k => nth k (ft_ranks (fp_ft ftp)) 0).
    assert (Hd : 0 < d) by apply W. assert (Lc : length (ft_cores (fp_ft ftp)) = d) by (destruct W as (X & _); unfold d; congruence).
    set (t := in_t rs). set (m := length (positions r (d - 1))).
    assert (Epos : positions r d = positions r (d - 1) ++ flat_map (fun j => map (fun i => (d - 1, i, j)) (seq 0 (r (d - 1)))) (seq 0 (r (S (d - 1))))).
    { unfold positions. replace d with (S (d - 1)) at 1 by lia. rewrite seq_S, flat_map_app. cbn [flat_map Nat.add]. now rewrite app_nil_r. }
    assert (Lb : length (blocks ftp t) = length (positions r d)).
    { unfold blocks. rewrite combine_length, map_length. rewrite (npu_len ftp O z). fold d r. lia. }
    assert (Hf : forall b, In b (skipn m (blocks ftp t)) -> fst b = false).
    { intros b Hb. apply In_nth_error in Hb as (q & Hq). rewrite nth_error_skipn_add in Hq.
      assert (Hlt : m + q < length (positions r d)) by (rewrite <- Lb; apply nth_error_Some; congruence).
      assert (Hn : nth_error (map fst (blocks ftp t)) (m + q) = Some (fst b)) by (now rewrite nth_error_map', Hq).
      unfold blocks in Hn. rewrite map_fst_combine in Hn by (rewrite map_length; symmetry; apply (npu_len ftp O z)). fold d r in Hn.
      rewrite nth_error_map' in Hn. rewrite Epos in Hn. rewrite nth_error_app2 in Hn by (unfold m; lia).
      fold m in Hn. replace (m + q - m) with q in Hn by lia.
      destruct (nth_error (flat_map _ _) q) as [[[k i] j]|] eqn:Ek in Hn; [|discriminate]. injection Hn as <-. apply nth_error_In in Ek.
      apply in_flat_map in Ek as (j' & _ & Ek). apply in_map_iff in Ek as (i' & Ek & _). injection Ek as <- <- <-. cbn [fst snd].
      unfold t, in_t. rewrite Z. now rewrite andb_false_r. }
    assert (Esp : blocks ftp t = firstn m (blocks ftp t) ++ skipn m (blocks ftp t)) by (symmetry; apply firstn_skipn).
    assert (Enn : total (firstn m (blocks ftp t)) = n).
    { unfold total. rewrite <- firstn_map. unfold blocks. rewrite map_snd_combine by (rewrite map_length; symmetry; apply (npu_len ftp O z)).
      rewrite (ftp_npu_eq ftp O), firstn_map.
      assert (Ecs : ft_cores (fp_ft ftp) = removelast (ft_cores (fp_ft ftp)) ++ [last (ft_cores (fp_ft ftp)) (mkq 0 0 [])]).
      { apply app_removelast_last. intros X. rewrite X in Lc. cbn in Lc. lia. }
      assert (Lm : m = length (flat_map fs (removelast (ft_cores (fp_ft ftp))))).
      { unfold m. assert (A : length (flat_map fs (ft_cores (fp_ft ftp))) = length (positions r d)).
        { rewrite <- (npu_len ftp O z : _ = length (positions r d)). rewrite Eu, map_length. reflexivity. }
        rewrite !positions_length in *. replace d with (S (d - 1)) in A at 1 by lia. cbn [offs] in A.
        rewrite Ecs, flat_map_app, !app_length in A. cbn [flat_map] in A. rewrite app_nil_r in A.
        assert (Q : length (fs (last (ft_cores (fp_ft ftp)) (mkq 0 0 []))) = r (d - 1) * r (S (d - 1))).
        { assert (El : last (ft_cores (fp_ft ftp)) (mkq 0 0 []) = fco (U := evU z (fun _ _ => r0)) (fp_ft ftp) (d - 1)).
          { destruct (canon_core (U := evU z (fun _ _ => r0)) (fp_ft ftp) (d - 1) W) as (X & _); [unfold d in *; cbn; lia|].
            assert (X' : nth_error (ft_cores (fp_ft ftp)) (d - 1) = Some (fco (U := evU z (fun _ _ => r0)) (fp_ft ftp) (d - 1))) by exact X.
            rewrite Ecs, nth_error_app2 in X' by (rewrite removelast_firstn_len, firstn_length, Lc; lia).
            rewrite removelast_firstn_len, firstn_length, Lc in X'. replace (d - 1 - Nat.min (pred d) d) with 0 in X' by lia. cbn [nth_error] in X'. congruence. }
          rewrite El. destruct (canon_core (U := evU z (fun _ _ => r0)) (fp_ft ftp) (d - 1) W) as (_ & Q & N1 & N2 & _); [unfold d in *; cbn; lia|].
          unfold qwf in Q. rewrite N1, N2 in Q. exact Q. }
        rewrite Q in A. lia. }
      rewrite Lm. rewrite Ecs at 2. rewrite flat_map_app, firstn_app_len by reflexivity. unfold n.
      pose proof (funs_wf _ Of) as Wf. unfold ft_funs, cfuns in Wf. rewrite Ecs, flat_map_app in Wf. apply Forall_app in Wf as [Wf _].
      revert Wf. generalize (flat_map fs (removelast (ft_cores (fp_ft ftp)))) as l. induction l as [|u l IH]; intros Wf; auto.
      apply Forall_cons_iff in Wf as [Wu Wf]. cbn [map list_sum fold_right flat_map]. rewrite app_length, (gf_params_length u Wu).
      now rewrite <- IH by auto. }
    unfold inside_blocks. fold t. rewrite <- Enn. rewrite Esp at 2. apply merge_tail; auto.
    - pose proof (blocks_total ftp O z t) as Tb. rewrite Esp, total_app in Tb. rewrite (ftp_params_length ftp O). lia.
    - unfold inside_blocks in Ln. fold t in Ln. rewrite Esp, taken_app in Ln. lia.
  Qed.

  (** ** From an existing train *)
  (** Each function with the number of parameters that its options prescribe *)
  Definition prescribed (f : ftrain G) (aopts : list aopt) : list (G * nat) :=
    flat_map (fun ca : qma G * aopt => map (fun u => (u, opt_np (snd ca))) (fs (fst ca))) (combine (ft_cores f) aopts).

  Section With.
    Variable z : G.
    Variable ev : G -> R -> R.
    Notation U := (evU z ev).
    Variable f : ftrain U.
    Hypothesis Wf : ft_wf f.
    Hypothesis Of : ft_ok (F := F) f.
    Variable aopts : list aopt.
    Hypothesis La : length aopts = ft_dim f.
    Variable a0 : aopt.
    Let N := offs (fun k => frk f k * frk f (S k)) (ft_dim f).
    Let should := flat_map (fun k => repeat (opt_np (nth k aopts a0)) (frk f k * frk f (S k))) (seq 0 (ft_dim f)).

    Lemma combine_app {A B} (a a' : list A) (b b' : list B) : length a = length b -> combine (a ++ a') (b ++ b') = combine a b ++ combine a' b'.
    Proof. revert b. induction a as [|x a IH]; intros [|y b] H; try discriminate; cbn [app combine]; auto. f_equal. apply IH. cbn in H. lia. Qed.
    Lemma combine_repeat {A B} (l : list A) (b : B) : combine l (repeat b (length l)) = map (fun u => (u, b)) l.
    Proof. induction l as [|a l IH]; cbn [length repeat combine map]; auto. now rewrite IH. Qed.

    Lemma prescribed_combine : prescribed f aopts = combine (flat_map fs (ft_cores f)) should.
    Proof.
      assert (Ec : combine (ft_cores f) aopts = map (fun k => (fco f k : qma G, nth k aopts a0)) (seq 0 (ft_dim f))).
      { apply nth_error_ext.
        - rewrite combine_length, map_length, seq_length, La. destruct Wf as (E & _). lia.
        - intros k Hk. rewrite combine_length in Hk. assert (Hk' : k < ft_dim f) by (rewrite <- La; lia).
          rewrite nth_error_map', nth_error_seq0 by auto.
          apply nth_error_combine; [exact (proj1 (canon_core f k Wf Hk'))|apply nth_error_nth'; lia]. }
      assert (Ef : ft_cores f = map (fun k => fco f k) (seq 0 (ft_dim f))).
      { assert (Lc : length (ft_cores f) = ft_dim f) by (destruct Wf as (E & _); congruence).
        apply nth_error_ext; [now rewrite map_length, seq_length|].
        intros k Hk. assert (Hk' : k < ft_dim f) by (rewrite <- Lc; exact Hk). rewrite nth_error_map', nth_error_seq0 by auto. exact (proj1 (canon_core f k Wf Hk')). }
      transitivity (flat_map (fun ca : qma G * aopt => map (fun u => (u, opt_np (snd ca))) (fs (fst ca))) (map (fun k => (fco f k : qma G, nth k aopts a0)) (seq 0 (ft_dim f)))).
      { unfold prescribed. apply (f_equal (flat_map _)). exact Ec. }
      assert (X : forall n, n <= ft_dim f ->
        flat_map (fun ca : qma G * aopt => map (fun u => (u, opt_np (snd ca))) (fs (fst ca))) (map (fun k => (fco f k : qma G, nth k aopts a0)) (seq 0 n))
        = combine (flat_map fs (map (fun k => fco f k) (seq 0 n))) (flat_map (fun k => repeat (opt_np (nth k aopts a0)) (frk f k * frk f (S k))) (seq 0 n)) /\
        length (flat_map fs (map (fun k => fco f k) (seq 0 n))) = length (flat_map (fun k => repeat (opt_np (nth k aopts a0)) (frk f k * frk f (S k))) (seq 0 n))).
      { induction n as [|n IH]; intros Hn; [now split|]. destruct IH as [I1 I2]; [lia|].
        destruct (canon_core f n Wf) as (_ & Q & N1 & N2 & _); [lia|]. unfold qwf in Q. rewrite N1, N2 in Q.
        rewrite seq_S, !map_app, !flat_map_app, I1. cbn [map flat_map fst snd Nat.add]. rewrite !app_nil_r. split.
        - rewrite combine_app by exact I2. f_equal. rewrite <- Q. symmetry. apply combine_repeat.
        - rewrite !app_length, repeat_length, Q. now rewrite I2. }
      destruct (X (ft_dim f) (le_n _)) as [X1 _]. etransitivity; [exact X1|]. apply (f_equal (fun l => combine (flat_map fs l) should)). symmetry. exact Ef.
    Qed.

    Lemma presc_nth q : q < N -> nth_error (prescribed f aopts) q = Some (nth q (flat_map fs (ft_cores f)) z, nth q should 0).
    Proof.
      intros H. rewrite prescribed_combine. apply nth_error_combine; apply nth_error_nth'.
      - exact (eq_ind_r (fun n => q < n) H (wfuns_length z ev f Wf)).
      - exact (eq_ind_r (fun n => q < n) H (should_length z ev f aopts a0)).
    Qed.
    Lemma presc_length : length (prescribed f aopts) = N.
    Proof.
      rewrite prescribed_combine, combine_length. assert (A : length (flat_map fs (ft_cores f) : list G) = N) by exact (wfuns_length z ev f Wf).
      assert (B : length should = N) by exact (should_length z ev f aopts a0).
      etransitivity; [exact (f_equal2 Nat.min A B)|apply Nat.min_id].
    Qed.
    Lemma presc_wf q u n : nth_error (prescribed f aopts) q = Some (u, n) -> gf_wf u.
    Proof.
      intros H. assert (Hq : q < N) by (rewrite <- presc_length; apply nth_error_Some; congruence). rewrite presc_nth in H by auto. injection H as <- _.
      pose proof (funs_wf _ Of) as W. rewrite Forall_forall in W. apply W. apply nth_In. exact (eq_ind_r (fun n => q < n) Hq (wfuns_length z ev f Wf)).
    Qed.
    Lemma presc_toomany q u n : nth_error (prescribed f aopts) q = Some (u, n) -> toomany z ev f aopts a0 q = (n <? length (gf_params u)).
    Proof.
      intros H. rewrite gf_params_length by (eapply presc_wf; eauto).
      assert (Hq : q < N) by (rewrite <- presc_length; apply nth_error_Some; congruence).
      rewrite presc_nth in H by auto. injection H as <- <-. reflexivity.
    Qed.
    Lemma presc_pad : map (padq z ev f aopts a0) (seq 0 N) = map (fun un : G * nat => padded (fst un) (snd un)) (prescribed f aopts).
    Proof.
      apply nth_error_ext; [now rewrite !map_length, seq_length, presc_length|]. intros q Hq. rewrite map_length, seq_length in Hq.
      rewrite !nth_error_map', nth_error_seq0, presc_nth by auto. reflexivity.
    Qed.
  End With.

  Theorem C67_alloc_with_ft : forall (z : G) (ev : G -> R -> R) (f : ftrain (evU z ev)) (aopts : list aopt),
    ft_wf f -> ft_ok (F := F) f -> length aopts = ft_dim f ->
    (forall u n, In (u, n) (prescribed f aopts) -> length (gf_params u) <= n /\ (is_poly u = true \/ length (gf_params u) = n)) ->
    exists ftp : ftparam R (evU z ev), ftp_alloc_with_ft f aopts = Ok ftp /\ ftp_ok ftp /\
      ft_ranks (fp_ft ftp) = ft_ranks f /\
      fp_params ftp = flat_map (fun un => gf_params (fst un) ++ repeat r0 (snd un - length (gf_params (fst un)))) (prescribed f aopts) /\
      ((forall u n y, gf_wf u -> length (gf_params u) <= n -> is_poly u = true -> ev (padded u n) y = ev u y) ->
       forall x, length x = ft_dim f -> train_value (fp_ft ftp) x = train_value f x).
  Proof.
    intros z ev f aopts W O La H. destruct aopts as [|a0 aopts'] eqn:Ea.
    { destruct W as (_ & W & _). rewrite <- La in W. cbn in W. lia. }
    rewrite <- Ea in *. clear Ea aopts'.
    destruct (with_ft_ok z ev f W O aopts La a0) as (ftp & E & Ok_ & Rk & _ & Fn).
    - intros q Hq. pose proof (presc_nth z ev f W aopts La a0 q Hq) as Hn. rewrite (presc_toomany z ev f W O aopts La a0 q _ _ Hn).
      apply Nat.ltb_ge. apply H. eapply nth_error_In; eauto.
    - intros q Hq. pose proof (presc_nth z ev f W aopts La a0 q Hq) as Hn. destruct (H _ _ (nth_error_In _ _ Hn)) as [_ [X|X]]; [now left|right].
      rewrite gf_params_length in X by (eapply (presc_wf z ev f W O aopts La a0); eauto). exact X.
    - rewrite (presc_pad z ev f W aopts La a0) in Fn. exists ftp. split; [exact E|]. split; [exact Ok_|]. split; [exact Rk|]. split.
      + etransitivity; [exact (ftp_params_eq ftp Ok_)|]. etransitivity; [exact (f_equal (flat_map gf_params) Fn)|].
        assert (Hw : forall un, In un (prescribed f aopts) -> gf_wf (fst un)).
        { intros un Hun. apply In_nth_error in Hun as (q & Hq). destruct un as [u n]. eapply (presc_wf z ev f W O aopts La a0); eauto. }
        revert H Hw. generalize (prescribed f aopts) as l. induction l as [|[u n] l IH]; intros H Hw; cbn [map flat_map fst snd]; auto.
        rewrite IH by (intros; first [apply H; now right|apply Hw; now right]). f_equal.
        destruct (H u n (or_introl eq_refl)) as [Hle Hc]. assert (Wu : gf_wf u) by exact (Hw (u, n) (or_introl eq_refl)).
        rewrite gf_params_length in * by auto. destruct Hc as [Hp|Hq].
        * apply (padded_spec u n Wu Hle Hp).
        * subst n. rewrite padded_id, Nat.sub_diag by auto. cbn [repeat]. now rewrite app_nil_r.
      + intros Hev x Lx. symmetry. destruct Ok_ as (Wg & _).
        assert (Dg : ft_dim (fp_ft ftp) = ft_dim f).
        { destruct Wg as (G1 & _ & G3 & _), W as (F1 & _ & F3 & _). rewrite G1, F1. apply (f_equal (@length _)) in Rk. rewrite G3, F3 in Rk.
          cbn [length] in Rk. rewrite !map_length in Rk. now injection Rk. }
        apply value_ext; auto. refine (eq_ind_r (fun l => Forall2 _ _ l) _ Fn).
        assert (EF : flat_map fs (ft_cores f) = map fst (prescribed f aopts)).
        { rewrite (prescribed_combine z ev f W aopts La a0). symmetry. apply map_fst_combine.
          etransitivity; [exact (wfuns_length z ev f W)|]. symmetry. exact (should_length z ev f aopts a0). }
        refine (eq_ind_r (fun l => Forall2 _ l _) _ EF).
        assert (Hw : forall un, In un (prescribed f aopts) -> gf_wf (fst un)).
        { intros un Hun. apply In_nth_error in Hun as (q & Hq). destruct un as [u n]. eapply (presc_wf z ev f W O aopts La a0); eauto. }
        revert H Hw. generalize (prescribed f aopts) as l. induction l as [|[u n] l IH]; intros H Hw; cbn [map fst snd]; constructor.
        * intros y. destruct (H u n (or_introl eq_refl)) as [Hle Hc]. assert (Wu : gf_wf u) by exact (Hw (u, n) (or_introl eq_refl)).
          destruct Hc as [Hp|Hq]; [symmetry; now apply Hev|]. rewrite gf_params_length in Hq by auto. subst n. now rewrite padded_id.
        * apply IH; intros; first [apply H; now right|apply Hw; now right].
  Qed.

  (** A function with more parameters than the options prescribe, or one that
      is not a polynomial and has fewer, is refused. *)
  Theorem C67_alloc_with_ft_refuses : forall (z : G) (f : ftrain G) (aopts : list aopt) u n,
    ft_wf f -> ft_ok (F := F) f -> length aopts = ft_dim f -> In (u, n) (prescribed f aopts) ->
    n < length (gf_params u) \/ (length (gf_params u) < n /\ is_poly u = false) ->
    ftp_alloc_with_ft f aopts = Abort.
  Proof.
    intros z f aopts u n W O La Hin Hc. set (ev := fun (_ : G) (_ : R) => @r0 R).
    destruct aopts as [|a0 aopts'] eqn:Ea.
    { destruct W as (_ & W & _). rewrite <- La in W. cbn in W. lia. }
    rewrite <- Ea in *. clear Ea aopts'.
    set (f' := f : ftrain (evU z ev)). assert (W' : ft_wf f') by exact W. assert (O' : ft_ok (F := F) f') by exact O. assert (La' : length aopts = ft_dim f') by exact La.
    change (ftp_alloc_with_ft f' aopts = Abort).
    set (N := offs (fun k => frk f' k * frk f' (S k)) (ft_dim f')).
    destruct (existsb (toomany z ev f' aopts a0) (seq 0 N)) eqn:T; [now apply (with_ft_toomany z ev f' W' O' aopts La' a0)|].
    assert (NM : forall q, q < N -> toomany z ev f' aopts a0 q = false).
    { intros q Hq. destruct (toomany z ev f' aopts a0 q) eqn:X; auto. rewrite <- T. symmetry. apply existsb_exists. exists q. split; [apply in_seq; lia|auto]. }
    apply In_nth_error in Hin as (q & Hq).
    assert (HqN : q < N) by (unfold N; rewrite <- (presc_length z ev f' W' aopts La' a0); apply nth_error_Some; change (prescribed f' aopts) with (prescribed f aopts); congruence).
    pose proof (presc_toomany z ev f' W' O' aopts La' a0 q u n Hq) as Tq. rewrite NM in Tq by auto. symmetry in Tq. apply Nat.ltb_ge in Tq.
    destruct Hc as [Hc|[Hc Hp]]; [lia|].
    pose proof (presc_wf z ev f' W' O' aopts La' a0 q u n Hq) as Wu. rewrite gf_params_length in Hc by auto.
    pose proof (presc_nth z ev f' W' aopts La' a0 q HqN) as Hn. assert (E2 : Some (u, n) = Some (u, n)) by auto. rewrite <- Hq in E2 at 1.
    assert (E3 : nth_error (prescribed f' aopts) q = Some (u, n)) by exact Hq. rewrite Hn in E3. injection E3 as Eu En.
    apply (with_ft_toofew z ev f' W' O' aopts La' a0 NM q HqN); [exact (eq_ind_r (fun w => is_poly w = false) Hp Eu)|].
    intros X. assert (X1 : gf_num u = n) by exact (eq_trans (f_equal gf_num (eq_sym Eu)) (eq_trans X En)). lia.
  Qed.

  (** ** From a constant *)
  (** Without perturbation the new parameters represent the constant train with
      cores [cs], in every train whose functions accept its parameters followed
      by zeros and vanish when all their parameters do. *)
  Theorem C67_create_constant : forall (z : G) (ev : G -> R -> R) (ftp : ftparam R (evU z ev)) (cs : list (evU z ev)) (rnd : list R),
    ftp_ok ftp -> length cs = ft_dim (fp_ft ftp) -> Forall gf_wf cs -> fp_nparams ftp <= length rnd ->
    (forall v, v = r0 \/ In v (flat_map gf_params cs) -> bad v = false) ->
    (forall u y, In u (flat_map fs (ft_cores (fp_ft ftp))) -> ev (gf_with u (repeat r0 (length (gf_params u)))) y = r0) ->
    (forall k c u uc y, nth_error (ft_cores (fp_ft ftp)) k = Some c -> nth_error (fs c) 0 = Some u -> nth_error cs k = Some uc ->
      length (gf_params uc) <= length (gf_params u) /\
      ev (gf_with u (gf_params uc ++ repeat r0 (length (gf_params u) - length (gf_params uc)))) y = ev uc y) ->
    let one := mkft (length cs) (repeat 1 (length cs + 1)) (map (fun u => mkq 1 1 [u]) cs) : ftrain (evU z ev) in
    exists ftp' : ftparam R (evU z ev), ftp_create_constant bad ftp one r0 rnd = Ok ftp' /\ ftp_ok ftp' /\
      same_structure (fp_ft ftp) (fp_ft ftp') /\
      forall x, length x = ft_dim (fp_ft ftp) -> train_value (fp_ft ftp') x = train_value one x.
  Proof.
    intros z ev ftp cs rnd O Lc Wc Lr B Hz Hc one.
    assert (Wu : forall u, In u (flat_map fs (ft_cores (fp_ft ftp))) -> gf_wf u).
    { destruct O as (_ & Of & _). pose proof (funs_wf _ Of) as W. rewrite Forall_forall in W. exact W. }
    assert (E1 : one = cft ftp cs) by (unfold one, cft; rewrite Lc; reflexivity).
    destruct (cst_ok bad z ev ftp O cs Lc Wc r0 rnd Lr) as (ftp' & E & O' & S' & P' & F').
    { intros v Hv. apply B. unfold cparams in Hv. apply in_map_iff in Hv as (l & <- & _).
      assert (N0 : noise r0 rnd l = r0) by (unfold noise; ring). rewrite N0.
      assert (X : cvec z ftp cs l = r0 \/ In (cvec z ftp cs l) (flat_map gf_params cs)).
      { unfold cvec. match goal with |- nth l ?L r0 = r0 \/ _ => set (LL := L) end. destruct (nth_in_or_default l LL r0) as [I| ->]; [|now left].
        apply in_flat_map in I as (k & Hk & I). apply in_seq in Hk. apply in_app_or in I as [I|I]; [|left; eapply repeat_spec; eauto].
        assert (I' : In (nth l LL r0) (gf_params (nth k cs z) ++ repeat r0 (gf_num (nth (offs (fun k => frk (fp_ft ftp : ftrain (evU z ev)) k * frk (fp_ft ftp : ftrain (evU z ev)) (S k)) k) (flat_map fs (ft_cores (fp_ft ftp))) z)))).
        { rewrite <- (firstn_skipn (gf_num (nth (offs (fun k => frk (fp_ft ftp : ftrain (evU z ev)) k * frk (fp_ft ftp : ftrain (evU z ev)) (S k)) k) (flat_map fs (ft_cores (fp_ft ftp))) z))). apply in_or_app. left. exact I. }
        apply in_app_or in I' as [I'|I']; [right|left; eapply repeat_spec; eauto].
        apply in_flat_map. exists (nth k cs z). split; auto. apply nth_In. exact (eq_ind_r (fun n => k < n) (proj2 Hk) Lc). }
      destruct X as [X|X]; [left|right].
      - rewrite X. ring.
      - replace (r0 +! cvec z ftp cs l) with (cvec z ftp cs l) by ring. exact X. }
    exists ftp'. split; [rewrite E1; exact E|]. split; [exact O'|]. split; [exact S'|].
    intros x Lx. rewrite E1. etransitivity; [exact (f_equal (fun g : ftrain (evU z ev) => train_value g x) F')|].
    apply (cst_value z ev ftp O cs Lc Wc r0 rnd Lr eq_refl); auto.
    - intros u Hu y. rewrite <- (gf_params_length u) by auto. now apply Hz.
    - intros k c u uc Ek Eu Euc. assert (Wuc : gf_wf uc) by (rewrite Forall_forall in Wc; apply Wc; eapply nth_error_In; eauto).
      assert (Wu' : gf_wf u) by (apply Wu; apply in_flat_map; exists c; split; eapply nth_error_In; eauto).
      rewrite <- !gf_params_length by auto. split; [apply (Hc k c u uc r0 Ek Eu Euc)|]. intros y. apply (Hc k c u uc y Ek Eu Euc).
  Qed.
End C67.

(** ** Where the full statements fail *)
(** Options for piecewise linear functions without nodes ask for no parameters;
    the functions made from them have two.  Allocation with exactly the
    parameters asked for reads past the end of the parameters. *)
Theorem C67_alloc_nodes_refuted : forall (R : CRing) (F : Type) (bad : R -> bool) (o : F) lin (lb ub : R) (p : list R),
  let aopts := [ANod o lin lb ub []] in
  good_ranks (length aopts) [1; 1] /\ count_is aopts [1; 1] <= length p /\
  ftp_alloc bad 1 aopts (Some p) [1; 1] = UB.
Proof.
  intros R F bad o lin lb ub p aopts. split; [|split].
  - unfold aopts, good_ranks. cbn [length]. repeat split; auto. intros [|[|k]] Hk; cbn [nth]; lia.
  - cbn. lia.
  - reflexivity.
Qed.

(** Kernels whose centers are parameters: allocation without parameters stores
    zeros, the centers of the functions are not zero. *)
Theorem C67_alloc_null_refuted : exists (aopts : list (aopt Zring unit)) ranks ftp,
  good_ranks (length aopts) ranks /\ good_opts aopts /\
  ftp_alloc (R := Zring) (fun _ => false) (length aopts) aopts None ranks = Ok ftp /\
  fp_params ftp <> flat_map gf_params (flat_map fs (ft_cores (fp_ft ftp))).
Proof.
  exists [AKern (R := Zring) tt true 4 [3; 5]%Z]. exists [1; 1]. eexists. split; [|split; [|split; [reflexivity|discriminate]]].
  - unfold good_ranks. cbn [length]. repeat split; auto. intros [|[|k]] Hk; cbn [nth]; lia.
  - repeat constructor.
Qed.

(** The copy of a train made with ft_param_alloc_with_ft is rebuilt from the
    options: the functions (here, their basis) can be others. *)
Theorem C67_copy_refuted : exists (f : ftrain (gfn Zring nat)) (aopts : list (aopt Zring nat)) ftp ftp',
  ft_wf f /\ ft_ok (T := Zring) f /\ good_opts aopts /\
  ftp_alloc_with_ft (R := Zring) f aopts = Ok ftp /\ ftp_ok ftp /\
  ftp_copy (R := Zring) (fun _ => false) aopts ftp = Ok ftp' /\ fp_params ftp' = fp_params ftp /\
  map gf_rest (flat_map fs (ft_cores (fp_ft ftp'))) <> map gf_rest (flat_map fs (ft_cores (fp_ft ftp))).
Proof.
  exists (mkft 1 [1; 1] [mkq 1 1 [GPoly (T := Zring) 7 2 52 ([1; 2]%Z ++ repeat 0%Z 50)]]).
  exists [APoly (R := Zring) 8 2]. eexists. eexists.
  split; [unfold ft_wf, chain, qwf; simpl; repeat split; auto; lia|].
  split; [split; [reflexivity|]; repeat constructor; cbn; lia|].
  split; [repeat constructor|]. split; [reflexivity|].
  split; [|split; [reflexivity|split; [reflexivity|discriminate]]].
  split; [unfold ft_wf, chain, qwf; simpl; repeat split; auto; lia|].
  split; [split; [reflexivity|]; repeat constructor; cbn; lia|]. repeat (split; [reflexivity|]). reflexivity.
Qed.

(** ** Cases *)
Definition exO : list (aopt Zring unit) :=
  [APoly (R := Zring) tt 2; ANod (R := Zring) tt true 0%Z 4%Z [0; 1; 4]%Z; AKern (R := Zring) tt false 1 [9]%Z].
Definition exRk : list nat := [1; 2; 1; 1].
Example C67_ex_opts : good_ranks (length exO) exRk /\ good_opts exO /\ count_is exO exRk = 11 /\
  (forall a, In a exO -> gf_params (opt_zero a) = repeat (r0 (c := Zring)) (opt_np a)).
Proof.
  split; [|split; [repeat constructor|split; [reflexivity|]]].
  - unfold good_ranks. cbn [length exO]. repeat split; auto. intros [|[|[|[|k]]]] Hk; cbn [nth exRk]; lia.
  - intros a [<-|[<-|[<-|[]]]]; reflexivity.
Qed.
Definition exP : list Z := [1; 2; 3; 4; 5; 6; 7; 8; 9; 10; 11; 77]%Z.
Definition nb : Zring -> bool := fun v => Z.eqb v 999.
Example C67_ex_alloc : (do f <- ftp_alloc nb 3 exO (Some exP) exRk; Ok (fp_nparams f, fp_params f, fp_npu f, fp_npc f))
  = Ok (11, firstn 11 exP, [2; 2; 3; 3; 1], [4; 6; 1]).
Proof. vm_compute. reflexivity. Qed.
Example C67_ex_copy : exists f, ftp_alloc nb 3 exO (Some exP) exRk = Ok f /\ ftp_copy nb exO f = Ok f.
Proof. eexists. split; vm_compute; reflexivity. Qed.
Example C67_ex_nan : (do f <- ftp_alloc nb 3 exO (Some exP) exRk; ftp_update nb f [1; 2; 999; 4; 5; 6; 7; 8; 9; 10; 11]%Z) = Abort.
Proof. vm_compute. reflexivity. Qed.
(** The train of C63 with 20 parameters; the first row and column of each core
    are kept, the last core by its first row. *)
Example C67_ex_outside : ftp_ok exGp /\ ftp_nparams_restrict exGp [1; 1; 1] = Ok 13 /\
  taken (outside_blocks exGp [1; 1; 1]) = 13 /\
  (do f <- ftp_update_restricted nb exGp (map Z.of_nat (seq 101 13)) [1; 1; 1]; Ok (fp_params f))
  = Ok [1; 2; 101; 1; 1; 102; 103; 104; 105; 106; 107; 108; 109; 110; 1; 0; 2; 111; 112; 113]%Z.
Proof. split; [apply C63_ex_ok|]. vm_compute. auto. Qed.
Example C67_ex_inside : taken (inside_blocks exGp [1; 1; 0]) = 4 /\
  (do f <- ftp_update_inside nb exGp (map Z.of_nat (seq 101 13)) [1; 1; 0]; Ok (fp_params f))
  = Ok [101; 102; 3; 103; 104; 0; 2; 1; 4; -1; 3; 5; 1; 2; 1; 0; 2; 7; -2; 1]%Z.
Proof. vm_compute. auto. Qed.
Example C67_ex_core :
  (do f <- ftp_update_core nb exGp 2 (map Z.of_nat (seq 101 6)); Ok (fp_params f))
  = Ok [1; 2; 3; 1; 1; 0; 2; 1; 4; -1; 3; 5; 1; 2; 101; 102; 103; 104; 105; 106]%Z.
Proof. vm_compute. reflexivity. Qed.
(** Padding: the first function has spare storage, the others do not. *)
Definition exW : ftrain (gfn Zring unit) :=
  mkft 2 [1; 2; 1] [mkq 1 2 [GPoly tt 2 4 [1; 2; 90; 91]%Z; gp [3]%Z]; mkq 2 1 [gp [1; 5]%Z; GPoly tt 1 6 [4; 90; 91; 92; 93; 94]%Z]].
Definition exWo : list (aopt Zring unit) := [APoly (R := Zring) tt 3; APoly (R := Zring) tt 2].
Example C67_ex_with_hyp : ft_wf exW /\ ft_ok (T := Zring) exW /\ length exWo = ft_dim exW /\
  (forall u n, In (u, n) (prescribed (R := Zring) exW exWo) -> length (gf_params u) <= n /\ (is_poly u = true \/ length (gf_params u) = n)) /\
  (forall (u : gfn Zring unit) n y, gf_wf u -> length (gf_params u) <= n -> is_poly u = true -> pev (padded (R := Zring) u n) y = pev u y).
Proof.
  split; [unfold ft_wf, chain, qwf; simpl; repeat split; auto; lia|].
  split; [split; [reflexivity|]; repeat constructor; cbn; lia|]. split; [reflexivity|]. split.
  - intros u n H. cbn in H. destruct H as [H|[H|[H|[H|[]]]]]; injection H as <- <-; cbn; split; auto; lia.
  - intros u n y W L P. rewrite gf_params_length in L by auto. destruct (padded_spec (R := Zring) u n W L P) as (W' & N' & P').
    unfold pev. rewrite !gf_params_length, N', P' by auto.
    replace n with (gf_num u + (n - gf_num u)) at 1 by lia. rewrite sum_app. rewrite (sum_zero_ext _ (n - gf_num u)).
    + etransitivity; [|apply Z.add_0_r]. apply (f_equal2 Z.add); [|reflexivity]. apply (sum_ext Zring). intros l Hl. f_equal.
      apply app_nth1. now rewrite gf_params_length by auto.
    + intros l Hl. rewrite app_nth2 by (rewrite gf_params_length by auto; lia). rewrite gf_params_length by auto.
      replace (gf_num u + l - gf_num u) with l by lia. rewrite nth_repeat. reflexivity.
Qed.
Example C67_ex_with : (do f <- ftp_alloc_with_ft (R := Zring) exW exWo; Ok (fp_params f, fp_npu f)) = Ok ([1; 2; 0; 3; 0; 0; 1; 5; 4; 0]%Z, [3; 3; 2; 2]) /\
  ftp_alloc_with_ft (R := Zring) exW [APoly (R := Zring) tt 1; APoly (R := Zring) tt 2] = Abort.
Proof. vm_compute. auto. Qed.
(** The constant 6 = 2 * 3 in a train with ranks 1, 2, 1 *)
Example C67_ex_const : forall f, ftp_alloc_with_ft (R := Zring) exW exWo = Ok f ->
  (do g <- ftp_create_constant nb f (mkft 2 [1; 1; 1] [mkq 1 1 [gp [2]%Z]; mkq 1 1 [gp [3]%Z]]) 0%Z (repeat 5%Z 10); Ok (fp_params g))
  = Ok [2; 0; 0; 0; 0; 0; 3; 0; 0; 0]%Z.
Proof. intros f E. vm_compute in E. injection E as <-. vm_compute. reflexivity. Qed.

Print Assumptions C67_alloc. Print Assumptions C67_alloc_null. Print Assumptions C67_update_structure.
Print Assumptions C67_copy. Print Assumptions C67_update. Print Assumptions C67_update_rejects_nan.
Print Assumptions C67_self_update. Print Assumptions C67_update_core. Print Assumptions C67_get_params.
Print Assumptions C67_get_param. Print Assumptions C67_count_restricted. Print Assumptions C67_update_restricted.
Print Assumptions C67_update_inside. Print Assumptions C67_inside_last. Print Assumptions C67_restricted_refuted.
Print Assumptions C67_alloc_with_ft. Print Assumptions C67_alloc_with_ft_refuses. Print Assumptions C67_create_constant.
Print Assumptions C67_alloc_nodes_refuted. Print Assumptions C67_alloc_null_refuted. Print Assumptions C67_copy_refuted.
