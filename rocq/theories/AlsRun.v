(** The work space of alternating least squares: the stored evaluations from the
    left and from the right stay those of the current train. *)
From Verif Require Export AlsFacts AlsSpec.

Lemma list_eq_nth {A} (a b : list A) : (forall n, nth_error a n = nth_error b n) -> a = b.
Proof.
  revert b. induction a as [|x a IH]; intros [|y b] H; auto; try (specialize (H 0); discriminate).
  f_equal; [specialize (H 0); now injection H|]. apply IH. intros n. apply (H (S n)).
Qed.

Lemma nth_upd_other {A} (l : list A) c v k d : k <> c -> nth k (upd l c v) d = nth k l d.
Proof.
  intros H. rewrite <- !nth_default_eq. unfold nth_default. now rewrite nth_error_upd_other by auto.
Qed.

Section Get2.
  Context {A : CRing}.
  Implicit Types arr : list (list (list A)).
  Lemma get2_nth arr k s l : get2 (R := A) arr k s = Ok l <-> exists a, nth_error arr k = Some a /\ nth_error a s = Some l.
  Proof.
    unfold get2. split.
    - destruct (aget arr k) as [a| | |] eqn:E; cbn [obind]; try discriminate. intros H. exists a.
      split; now apply aget_inv.
    - intros (a & E1 & E2). rewrite (aget_ok _ _ _ E1). cbn [obind]. now apply aget_ok.
  Qed.
  Lemma set2_ok arr k s l v : get2 (R := A) arr k s = Ok l ->
    exists arr', set2 (R := A) arr k s v = Ok arr' /\ get2 (R := A) arr' k s = Ok v /\
      forall k' s', k' <> k \/ s' <> s -> get2 (R := A) arr' k' s' = get2 (R := A) arr k' s'.
  Proof.
    intros H. apply get2_nth in H as (a & E1 & E2). unfold set2. rewrite (aget_ok _ _ _ E1). cbn [obind].
    assert (Hs : s < length a) by (apply nth_error_Some; congruence).
    assert (Hk : k < length arr) by (apply nth_error_Some; congruence).
    rewrite aset_ok by auto. cbn [obind]. rewrite aset_ok by auto. eexists. split; [reflexivity|]. split.
    - apply get2_nth. exists (upd a s v). split; apply nth_error_upd_same; auto.
    - intros k' s' H. unfold get2. destruct (Nat.eq_dec k' k) as [->|Hn].
      + rewrite (aget_ok _ _ _ E1), (aget_ok _ _ (upd a s v)) by (apply nth_error_upd_same; auto). cbn [obind].
        unfold aget. rewrite nth_error_upd_other by lia. reflexivity.
      + unfold aget at 1 3. rewrite nth_error_upd_other by lia. reflexivity.
  Qed.
End Get2.

Lemma before_npc {R : CRing} {F} (ftp : ftparam R (gfn R F)) k : ftp_ok ftp -> before ftp k = list_sum (firstn k (fp_npc ftp)).
Proof.
  intros (_ & _ & _ & _ & E & _). rewrite E. unfold before. generalize (ft_cores (fp_ft ftp)) as l. clear.
  induction k as [|k IH]; intros [|c l]; cbn [firstn map flat_map list_sum fold_right length]; auto.
  rewrite app_length. f_equal. apply IH.
Qed.

Section Core1.
  Context {R : CRing} {F : Type}.
  Notation G := (gfn R F).
  Variable bad : R -> bool.
  Hypothesis Hbad : forall v, bad v = false.

  Lemma ftp_fit (ftp : ftparam R G) c : ftp_ok ftp -> c < ft_dim (fp_ft ftp) ->
    list_sum (firstn c (fp_npc ftp)) + nth c (fp_npc ftp) 0 <= fp_nparams ftp.
  Proof.
    intros ((Ed & _) & _ & _ & _ & E1 & E2 & _) Hc. rewrite E2, E1. unfold train_params.
    rewrite Ed in Hc. revert c Hc. generalize (ft_cores (fp_ft ftp)) as l. clear.
    induction l as [|q l IH]; intros [|c] Hc; cbn [firstn map list_sum fold_right nth length flat_map] in *; try lia;
      rewrite app_length; [lia|]. specialize (IH c ltac:(lia)). unfold list_sum in IH. lia.
  Qed.

  (** Updating core [c] *)
  Lemma update_core_with (ftp : ftparam R G) c p th1 : ftp_ok ftp -> c < ft_dim (fp_ft ftp) -> length p = nth c (fp_npc ftp) 0 ->
    th1 = splice (list_sum (firstn c (fp_npc ftp))) p (fp_params ftp) ->
    exists c', ftp_update_core bad ftp c p = Ok (set_ftp ftp (ft_with (fp_ft ftp) th1) th1) /\
      ft_cores (ft_with (fp_ft ftp) th1) = upd (ft_cores (fp_ft ftp)) c c'.
  Proof.
    intros O Hc Lp Eth. pose proof O as ((Ed & _) & _ & _ & _ & Enc & EN & EP).
    destruct (nth_error (ft_cores (fp_ft ftp)) c) as [q|] eqn:Eq; [|apply nth_error_None in Eq; lia].
    assert (Enp : length (flat_map gf_params (fs q)) = nth c (fp_npc ftp) 0).
    { symmetry. apply nth_error_nth. rewrite Enc. exact (map_nth_error (fun c => length (flat_map gf_params (fs c))) c _ Eq). }
    destruct (core_update_ok bad ftp O c q p Eq) as (ftp' & E & O' & S' & P'); auto; [lia|].
    rewrite Enp, (firstn_all2 p), before_npc in P' by (auto; lia). rewrite <- Eth in P'.
    destruct (C10_core bad r0 (fp_ft ftp) c q p) as (c' & E2 & _); auto; [apply O|lia|].
    rewrite Enp in E2.
    assert (L1 : length th1 = fp_nparams ftp).
    { rewrite Eth. pose proof (ftp_fit ftp c O Hc). pose proof (ftp_params_length ftp O). rewrite splice_length; lia. }
    destruct (ftp_set bad ftp th1 O L1) as (g & _ & O1 & S1 & Eg); [intros; apply Hbad|]. subst g.
    assert (Ef : fp_ft ftp' = ft_with (fp_ft ftp) th1).
    { symmetry. apply C10_determined; [apply O1|apply O'| |].
      - destruct S' as (A1 & A2 & A3), S1 as (B1 & B2 & B3). split; [congruence|]. split; congruence.
      - destruct O1 as (_ & _ & _ & _ & _ & _ & Q1), O' as (_ & _ & _ & _ & _ & _ & Q2).
        cbn [set_ftp fp_ft fp_params] in Q1. unfold train_params in *. rewrite <- Q1, <- Q2. now rewrite P'. }
    exists c'. assert (E3 := E). unfold ftp_update_core in E3.
    match type of E3 with (do run <- ?a; _) = _ => destruct a as [run| | |]; cbn [obind] in E3; try discriminate end.
    assert (En : aget (fp_npc ftp) c = Ok (nth c (fp_npc ftp) 0)).
    { apply aget_ok. apply nth_error_nth'. rewrite Enc, map_length. lia. }
    rewrite En in E3. cbn [obind] in E3. rewrite E2 in E3. cbn [obind] in E3.
    match type of E3 with obind ?a _ = _ => destruct a as [pp| | |]; cbn [obind] in E3; try discriminate end.
    injection E3 as E3. rewrite <- E3 in Ef, P'. cbn [set_ftp fp_ft fp_params] in Ef, P'.
    split; [|rewrite <- Ef; reflexivity].
    rewrite E, <- E3. rewrite <- Ef, <- P'. reflexivity.
  Qed.

  Lemma with_with (ftp : ftparam R G) th th1 : ftp_ok ftp -> length th = fp_nparams ftp -> length th1 = fp_nparams ftp ->
    ft_with (ft_with (fp_ft ftp) th) th1 = ft_with (fp_ft ftp) th1.
  Proof.
    intros O L L1.
    destruct (ftp_set bad ftp th O L) as (g & _ & Oa & Sa & Eg); [intros; apply Hbad|]. subst g.
    destruct (ftp_set bad ftp th1 O L1) as (g & _ & Ob & Sb & Eg); [intros; apply Hbad|]. subst g.
    destruct (ftp_set bad _ th1 Oa L1) as (g & _ & Oc & Sc & Eg); [intros; apply Hbad|]. subst g.
    cbn [set_ftp fp_ft] in *. apply C10_determined; [apply Oc|apply Ob| |].
    - destruct Sa as (A1 & A2 & A3), Sb as (B1 & B2 & B3), Sc as (C1 & C2 & C3). split; [congruence|]. split; congruence.
    - destruct Oc as (_ & _ & _ & _ & _ & _ & Q1), Ob as (_ & _ & _ & _ & _ & _ & Q2).
      cbn [set_ftp fp_ft fp_params] in *. unfold train_params in *. congruence.
  Qed.

  Lemma blocks_structure (bas : G -> R -> list R)
    (HB : forall u v y, gf_wf u -> gf_wf v -> gf_rest u = gf_rest v -> bas u y = bas v y) (f g : ftrain G) x :
    same_structure f g -> ft_ok f -> ft_ok g ->
    basis_blocks bas (ft_cores g) x = basis_blocks bas (ft_cores f) x.
  Proof.
    intros (_ & _ & S) [_ W1] [_ W2].
    revert x S W1 W2. generalize (ft_cores g) as a. generalize (ft_cores f) as b. clear - HB.
    intros b a. revert b. induction a as [|c a IH]; intros [|c0 b] x S W1 W2; cbn [map] in S; try discriminate; auto.
    destruct x as [|y x]; cbn [basis_blocks]; auto.
    injection S as _ _ S1 S2. apply Forall_cons_iff in W1 as [[_ W1] W1'], W2 as [[_ W2] W2'].
    f_equal; [|now apply IH].
    revert S1 W1 W2. generalize (fs c) as l. generalize (fs c0) as l0. clear - HB.
    intros l0 l. revert l0. induction l as [|u l IH]; intros [|v l0] S W1 W2; cbn [map] in *; try discriminate; auto.
    injection S as E S. apply Forall_cons_iff in W1 as [W1 W1'], W2 as [W2 W2']. f_equal; auto.
  Qed.
  Lemma core_block (ftp : ftparam R G) c q : ftp_ok ftp -> nth_error (ft_cores (fp_ft ftp)) c = Some q ->
    flat_map gf_params (fs q) = firstn (nth c (fp_npc ftp) 0) (skipn (list_sum (firstn c (fp_npc ftp))) (fp_params ftp)).
  Proof.
    intros (_ & _ & _ & _ & E1 & _ & E2) Eq. rewrite E1, E2. revert c Eq. generalize (ft_cores (fp_ft ftp)) as l. clear.
    induction l as [|b l IH]; intros [|c] Eq; try discriminate; cbn [nth_error] in Eq.
    - injection Eq as ->. cbn [map nth firstn list_sum fold_right skipn flat_map]. rewrite firstn_app, firstn_all, Nat.sub_diag.
      cbn [firstn]. now rewrite app_nil_r.
    - rewrite (IH c Eq). cbn [map nth firstn flat_map]. unfold list_sum. cbn [fold_right].
      rewrite skipn_app. rewrite (skipn_all2 (flat_map gf_params (fs b))) by lia. cbn [app]. f_equal. f_equal. lia.
  Qed.

  Lemma with_self (ftp : ftparam R G) : ftp_ok ftp -> ft_with (fp_ft ftp) (fp_params ftp) = fp_ft ftp.
  Proof.
    intros O. destruct (ftp_set bad ftp (fp_params ftp) O (ftp_params_length ftp O)) as (g & _ & Oa & Sa & Eg); [intros; apply Hbad|]. subst g.
    apply C10_determined; [apply Oa|apply O| |].
    - destruct Sa as (A1 & A2 & A3). split; [|split]; symmetry; assumption.
    - destruct Oa as (_ & _ & _ & _ & _ & _ & Q1), O as (_ & _ & _ & _ & _ & _ & Q2).
      cbn [set_ftp fp_ft fp_params] in *. unfold train_params in *. congruence.
  Qed.
End Core1.

Lemma splice_splice {A} o (C g l : list A) : o + length C + length g <= length l ->
  splice (o + length C) g (splice o C l) = splice o (C ++ g) l.
Proof.
  intros H. apply list_eq_nth. intros n. assert (L : length (splice o C l) = length l) by (apply splice_length; lia).
  rewrite nth_error_splice by lia. rewrite !nth_error_splice by (rewrite ?app_length; lia). rewrite app_length.
  destruct (Nat.leb_spec (o + length C) n), (Nat.ltb_spec n (o + length C + length g)), (Nat.leb_spec o n),
    (Nat.ltb_spec n (o + length C)), (Nat.ltb_spec n (o + (length C + length g))); cbn [andb]; try lia; auto.
  - rewrite nth_error_app2 by lia. f_equal. lia.
  - now rewrite nth_error_app1 by lia.
Qed.

Lemma firstn_skipn_splice {A} o n (p l : list A) : length p = n -> o + n <= length l -> firstn n (skipn o (splice o p l)) = p.
Proof.
  intros L H. unfold splice. rewrite skipn_app, skipn_all2, firstn_length by (rewrite firstn_length; lia).
  replace (o - Nat.min o (length l)) with 0 by lia. cbn [app skipn]. rewrite firstn_app, L, Nat.sub_diag. cbn [firstn]. rewrite app_nil_r. apply firstn_all2. lia.
Qed.

Lemma firstn_skipn_splice_other {A} o o' n (p l : list A) : o + length p <= length l ->
  o' + n <= o \/ o + length p <= o' -> firstn n (skipn o' (splice o p l)) = firstn n (skipn o' l).
Proof.
  intros H Ho. apply list_eq_nth. intros k. destruct (Nat.lt_ge_cases k n) as [Hk|Hk].
  - rewrite !nth_error_firstn by auto. rewrite !nth_error_skipn_add. rewrite nth_error_splice by auto.
    destruct (Nat.leb_spec o (o' + k)), (Nat.ltb_spec (o' + k) (o + length p)); cbn [andb]; auto; lia.
  - transitivity (@None A); [|symmetry]; apply nth_error_None; rewrite firstn_length; lia.
Qed.

Section Basis.
  Context {R : CRing} {F : Type}.
  Open Scope cr_scope.
  Variables (z : gfn R F) (ev : gfn R F -> R -> R) (bas : gfn R F -> R -> list R).
  Notation U := (evU z ev).
  Hypothesis Hb : linear_in_params ev bas.
  Variable ftp : ftparam R U.
  Hypothesis O : ftp_ok ftp.
  Variable x : list R.
  Hypothesis Hx : length x = ft_dim (fp_ft ftp).
  Let B := basis_blocks bas (ft_cores (fp_ft ftp)) x.
  Let r := frk (fp_ft ftp).
  Let EO := offs (fun q => r q * r (S q)).
  Let npf q := nth q (map gf_num (flat_map fs (ft_cores (fp_ft ftp)))) 0.

  Lemma blocks_prefix q : q <= EO (ft_dim (fp_ft ftp)) -> length (concat (firstn q B)) = offs npf q.
  Proof.
    assert (LB : length B = EO (ft_dim (fp_ft ftp))) by exact (PGradApp.blocks_total z ev ftp O x Hx bas).
    induction q as [|q IH]; intros Hq; [reflexivity|].
    destruct (nth_error B q) as [b|] eqn:Eb; [|apply nth_error_None in Eb; lia].
    rewrite (firstn_S_nth _ _ _ Eb), concat_app, app_length, IH by lia. cbn [concat offs]. rewrite app_nil_r. f_equal.
    symmetry. exact (PGradApp.blocks_len z ev ftp O x Hx bas (proj1 Hb) q b Eb ltac:(exact Hq)).
  Qed.

  Lemma fill_sample xs base off vals : (forall k, k < ft_dim (fp_ft ftp) -> aget xs (base + k) = Ok (nth k x r0)) ->
    off + fp_nparams ftp <= length vals ->
    exists a b, for_ (fp_dim ftp) (fun kk (s : list R * nat * nat) =>
            do ra <- aget (ft_ranks (fp_ft ftp)) kk;
            do rb <- aget (ft_ranks (fp_ft ftp)) (kk + 1);
            for_ (ra * rb) (fun jj (s : list R * nat * nat) =>
              let '(vals, onparam, onuni) := s in
              do c <- aget (ft_cores (fp_ft ftp)) kk;
              do u <- aget (fs c) jj;
              do xk <- aget xs (base + kk);
              let g := bas u xk in
              do vals <- blit vals (off + onparam) g 0 (length g);
              do n <- aget (fp_npu ftp) onuni;
              Ok (vals, onparam + n, onuni + 1)) s) (vals, 0, 0)
      = Ok (splice off (concat B) vals, a, b).
  Proof.
    intros Hxs Lv. set (d := ft_dim (fp_ft ftp)) in *.
    assert (LB : length B = EO d) by exact (PGradApp.blocks_total z ev ftp O x Hx bas).
    assert (EPd : offs npf (EO d) = fp_nparams ftp) by exact (pa_POd z ev ftp O).
    assert (Ed : fp_dim ftp = d) by exact (pa_dim z ev ftp O).
    set (st q := (splice off (concat (firstn q B)) vals, offs npf q, q)).
    exists (offs npf (EO d)), (EO d). rewrite Ed.
    assert (E0 : st 0 = (vals, 0, 0)) by (unfold st; cbn [firstn concat offs]; now rewrite splice_nil).
    assert (E1 : st (EO d) = (splice off (concat B) vals, offs npf (EO d), EO d)) by (unfold st; rewrite firstn_all2 by lia; reflexivity).
    rewrite <- E1, <- E0. apply (for_det (fun k => st (EO k))). intros k Hk.
    assert (Ra := pa_rk z ev ftp O x Hx k ltac:(unfold d in Hk; lia)).
    assert (Rb := pa_rk z ev ftp O x Hx (S k) ltac:(unfold d in Hk; lia)). fold r in Ra, Rb.
    rewrite Ra, Nat.add_1_r, Rb. cbn [obind].
    replace (st (EO (S k))) with (st (EO k + r k * r (S k))) by (f_equal; reflexivity).
    rewrite <- (Nat.add_0_r (EO k)) at 1. apply (for_det (fun j => st (EO k + j))). intros j Hj.
    unfold st. cbv iota beta.
    assert (Pa : 0 < r k) by (apply (pa_pos z ev ftp O x Hx k); unfold d in Hk; lia).
    assert (Hi : j mod r k < r k) by (apply Nat.mod_upper_bound; lia).
    assert (Hj' : j / r k < r (S k)) by (apply Nat.div_lt_upper_bound; lia).
    assert (Ej : j / r k * r k + j mod r k = j) by (rewrite (Nat.div_mod j (r k)) at 3 by lia; lia).
    destruct (pa_fun z ev ftp O x Hx k (j mod r k) (j / r k) Hk Hi Hj') as (u & Eu & _ & Wu & En & _ & Hq).
    assert (Eb := lin_block z ev ftp O x Hx bas k _ _ u Hk Hi Hj' Eu).
    fold r in Eu, En, Hq, Eb. fold EO in En, Hq, Eb. rewrite Ej in Eu, En, Hq, Eb. fold B in Eb. fold d in Hq.
    assert (Ec : aget (ft_cores (fp_ft ftp)) k = Ok (fco (fp_ft ftp) k)) by exact (pa_core z ev ftp O k Hk).
    rewrite Ec. cbn [obind]. rewrite (aget_ok _ _ _ Eu). cbn [obind]. rewrite Hxs by auto. cbn [obind]. cbv zeta.
    assert (Lb : npf (EO k + j) = length (bas u (nth k x r0))) by exact (PGradApp.blocks_len z ev ftp O x Hx bas (proj1 Hb) _ _ Eb Hq).
    assert (Lp := blocks_prefix (EO k + j) ltac:(fold d; lia)).
    assert (HS : offs npf (S (EO k + j)) <= offs npf (EO d)) by (apply offs_mono; lia). cbn [offs] in HS.
    rewrite blit_ok.
    - cbn [obind skipn]. rewrite firstn_all. rewrite <- Lp. rewrite splice_splice by lia.
      assert (Enp : aget (fp_npu ftp) (EO k + j) = Ok (npf (EO k + j))).
      { apply aget_ok. etransitivity; [exact (f_equal (fun l => nth_error l (EO k + j)) (pa_npu z ev ftp O))|].
        apply nth_error_nth'. rewrite map_length. exact (eq_ind _ (fun n => EO k + j < n) Hq _ (pa_EOd z ev ftp O)). }
      rewrite Enp. cbn [obind]. rewrite (Nat.add_succ_r (EO k) j), (firstn_S_nth _ _ _ Eb), concat_app. cbn [concat offs].
      rewrite app_nil_r, Lp, (Nat.add_1_r (EO k + j)). reflexivity.
    - lia.
    - rewrite splice_length; lia.
  Qed.

  Lemma blocks_length_np : length (concat B) = fp_nparams ftp.
  Proof.
    assert (LB : length B = EO (ft_dim (fp_ft ftp))) by exact (PGradApp.blocks_total z ev ftp O x Hx bas).
    rewrite <- (firstn_all2 (n := EO (ft_dim (fp_ft ftp))) B) by lia. rewrite blocks_prefix by auto.
    exact (pa_POd z ev ftp O).
  Qed.
End Basis.

Section Loops.
  Context {R : CRing}.
  Open Scope cr_scope.
  Add Ring Rr37 : (rth R).
  Lemma lsum_sum (l : list nat) (g : nat -> R) : lsum l g = sum (length l) (fun k => g (nth k l 0)).
  Proof.
    induction l as [|a l IH] using rev_ind; [reflexivity|].
    assert (E : forall l' : list nat, lsum (l' ++ [a]) g = lsum l' g +! g a).
    { induction l' as [|b l' IH']; cbn [lsum fold_right app] in *; [ring|]. unfold lsum in IH'. rewrite IH'. ring. }
    rewrite E, IH, app_length, Nat.add_1_r. cbn [sum]. f_equal.
    - apply sum_ext. intros k Hk. now rewrite app_nth1.
    - now rewrite app_nth2, Nat.sub_diag by lia.
  Qed.
  Lemma each_loop (h : nat -> R -> R) body n (a0 : list R) : n <= length a0 ->
    (forall j a v, j < n -> length a = length a0 -> nth_error a j = Some v -> body j a = Ok (upd a j (h j v))) ->
    exists a', for_ n body a0 = Ok a' /\ length a' = length a0 /\
      forall j v, j < n -> nth_error a0 j = Some v -> nth_error a' j = Some (h j v).
  Proof.
    intros L H. destruct (for_inv (fun i a => length a = length a0 /\
      (forall j v, j < i -> nth_error a0 j = Some v -> nth_error a j = Some (h j v)) /\
      (forall j, i <= j -> nth_error a j = nth_error a0 j)) body n a0) as (a' & E & La & H1 & _).
    - split; auto. split; auto. intros; lia.
    - intros i a Hi (La & H1 & H2). destruct (nth_error a0 i) as [v|] eqn:Ev; [|apply nth_error_None in Ev; lia].
      rewrite (H i a v) by (auto; now rewrite H2 by lia). eexists. split; [reflexivity|].
      split; [now rewrite upd_length|]. split.
      + intros j w Hj Ej. destruct (Nat.eq_dec j i) as [->|Hn].
        * rewrite nth_error_upd_same by lia. congruence.
        * rewrite nth_error_upd_other by auto. apply H1; auto; lia.
      + intros j Hj. rewrite nth_error_upd_other by lia. apply H2. lia.
    - exists a'. auto.
  Qed.
End Loops.

Section Run.
  Context {R : CRing} {F : Type}.
  Open Scope cr_scope.
  Add Ring Rr36 : (rth R).
  Notation G := (gfn R F).
  Variable bad : R -> bool.
  Hypothesis Hbad : forall v, bad v = false.
  Variables (z : G) (ev : G -> R -> R) (pge : G -> R -> R * list R) (bas : G -> R -> list R).
  Variable rdiv : R -> nat -> R.
  Notation U := (evU z ev).
  Variable lin : bool.
  Hypothesis Hlin : lin = true -> linear_in_params ev bas.
  Hypothesis Hnon : lin = false -> forall u y, gf_wf u -> fst (pge u y) = ev u y /\ length (snd (pge u y)) = length (gf_params u).
  Let D u y := if lin then bas u y else snd (pge u y).

  Variable ftp0 : ftparam R U.
  Hypothesis O0 : ftp_ok ftp0.
  Let f0 : ftrain U := fp_ft ftp0.
  Let dim := ft_dim f0.
  Let r := frk f0.
  Let np := fp_nparams ftp0.
  Hypothesis D2 : 2 <= dim.
  Variable data : sldata (R := R).
  Let N := d_N data.
  Hypothesis Lx : N * dim <= length (d_x data).
  Hypothesis Ly : N <= length (d_y data).
  Variable wts : option (list R).
  Hypothesis Lw : forall w, wts = Some w -> N <= length w.
  Let X := sample z ev f0 data.
  Notation npar := (npar z ev f0).
  Notation first := (first z ev f0).
  Notation value := (value z ev f0 data).

  Lemma lin_cases : lin = true \/ lin = false.
  Proof. clear. destruct lin; auto. Qed.

  (** The parameterized train with parameters [th] *)
  Definition Fp (th : list R) : ftparam R U := set_ftp ftp0 (ft_with f0 th) th.

  Lemma ru_counts : fp_npc ftp0 = counts z ev f0.
  Proof. apply O0. Qed.
  Lemma ru_len : length (ft_cores f0) = dim.
  Proof. destruct O0 as ((H & _) & _). symmetry. exact H. Qed.
  Lemma ru_lc : length (counts z ev f0) = dim.
  Proof. unfold counts. rewrite map_length. apply ru_len. Qed.
  Lemma ru_Fp th : length th = np -> ftp_ok (Fp th) /\ same_structure f0 (ft_with f0 th).
  Proof.
    intros L. destruct (ftp_set bad ftp0 th O0 L) as (g & _ & A & B & ->); [intros; apply Hbad|]. split; auto.
  Qed.
  Lemma ru_before th c : length th = np -> before (Fp th) c = first c.
  Proof. intros L. rewrite before_npc by now apply ru_Fp. change (list_sum (firstn c (fp_npc ftp0)) = first c). now rewrite ru_counts. Qed.
  Lemma ru_cnp th c : cnp z ev (Fp th) c = npar c.
  Proof. change (nth c (fp_npc ftp0) 0 = npar c). now rewrite ru_counts. Qed.
  Lemma ru_X s : s < N -> length (X s) = dim.
  Proof. intros H. unfold X, sample. rewrite firstn_length, skipn_length. fold dim. nia. Qed.
  Lemma ru_Xn s k : s < N -> k < dim -> aget (d_x data) (s * dim + k) = Ok (nth k (X s) r0).
  Proof.
    intros Hs Hk. apply aget_ok. unfold X, sample. fold dim.
    rewrite <- nth_error_skipn_add. rewrite <- (nth_error_firstn _ dim) by auto.
    apply nth_error_nth'. rewrite firstn_length, skipn_length. nia.
  Qed.
  Lemma ru_fit c : c < dim -> first c + npar c <= np.
  Proof.
    intros Hc. unfold AlsSpec.first, AlsSpec.npar. rewrite <- ru_counts. exact (ftp_fit ftp0 c O0 Hc).
  Qed.
  Lemma ru_splice c (p th : list R) : length th = np -> c < dim -> length p = npar c -> length (splice (first c) p th) = np.
  Proof. intros L Hc Lp. rewrite splice_length; auto. pose proof (ru_fit c Hc). lia. Qed.

  (** Updating one core *)
  Lemma ru_update th c (p : list R) : length th = np -> c < dim -> length p = npar c ->
    exists c', ftp_update_core bad (Fp th) c p = Ok (Fp (splice (first c) p th)) /\
      ft_cores (ft_with f0 (splice (first c) p th)) = upd (ft_cores (ft_with f0 th)) c c'.
  Proof.
    intros L Hc Lp. destruct (ru_Fp th L) as [O _]. assert (L1 := ru_splice c p th L Hc Lp).
    assert (Lp' : length p = nth c (fp_npc (Fp th)) 0).
    { change (length p = nth c (fp_npc ftp0) 0). rewrite ru_counts. exact Lp. }
    destruct (update_core_with bad Hbad (Fp th) c p (splice (first c) p th) O Hc Lp') as (c' & E1 & E2).
    { change (splice (first c) p th = splice (list_sum (firstn c (fp_npc ftp0))) p th). now rewrite ru_counts. }
    assert (Ew := with_with bad Hbad ftp0 th _ O0 L L1).
    exists c'. split.
    - etransitivity; [exact E1|]. exact (f_equal (fun g => Ok (set_ftp ftp0 g (splice (first c) p th))) Ew).
    - etransitivity; [exact (f_equal ft_cores (eq_sym Ew))|exact E2].
  Qed.

  Definition Mx (th : list R) (s : nat) : nat -> nat -> nat -> R :=
    fM (ft_with f0 th : ftrain U) (fun k g => uev g (nth k (X s) r0)).

  Lemma ru_Mx th c (p : list R) s k i j : length th = np -> c < dim -> length p = npar c -> k <> c ->
    Mx (splice (first c) p th) s k i j = Mx th s k i j.
  Proof.
    intros L Hc Lp Hk. destruct (ru_update th c p L Hc Lp) as (c' & _ & E).
    assert (Ek : fco (ft_with f0 (splice (first c) p th) : ftrain U) k = fco (ft_with f0 th : ftrain U) k).
    { unfold fco. etransitivity; [exact (f_equal (fun l => nth k l (mkq 0 0 [])) E)|]. apply nth_upd_other. auto. }
    unfold Mx, fM. now rewrite Ek.
  Qed.

  Lemma ru_blocks th x : lin = true -> length th = np ->
    basis_blocks bas (ft_cores (ft_with f0 th)) x = basis_blocks bas (ft_cores f0) x.
  Proof.
    intros El L. destruct (Hlin El) as [_ HB]. destruct (ru_Fp th L) as [O S].
    exact (blocks_structure bas HB f0 (ft_with f0 th) x S (proj1 (proj2 O0)) (proj1 (proj2 O))).
  Qed.

  (** ** The work space *)
  Definition MJ (th : list R) (m : slmem (R := R)) (VL VR : nat -> nat -> Prop) : Prop :=
    N <= length (m_evals m) /\ N * np <= length (m_grad m) /\ np <= length (m_rgrad m) /\
    (forall k, k < dim -> r (S k) * r k <= length (m_ce m)) /\ ws_wf (m_ws m) /\
    (forall k s, k < dim -> s < N -> exists l, get2 (m_lr m) k s = Ok l /\ length l = r (S k) /\
       (VL k s -> pre l (r (S k)) (fw r (Mx th s) (S k)))) /\
    (forall k s, k < dim -> s < N -> exists l, get2 (m_rl m) k s = Ok l /\ length l = r k /\
       (VR k s -> pre l (r k) (bw r (Mx th s) (dim - k) k))) /\
    (lin = true -> forall s, s < N ->
       firstn np (skipn (s * np) (m_lin m)) = concat (basis_blocks bas (ft_cores f0) (X s))).

  (** Valid from the left before core [A], from the right from core [B] on *)
  Definition MI th m A B := MJ th m (fun k _ => k < A) (fun k _ => B <= k).

  Lemma MJ_weak th m (VL VR VL' VR' : nat -> nat -> Prop) :
    (forall k s, k < dim -> s < N -> VL' k s -> VL k s) -> (forall k s, k < dim -> s < N -> VR' k s -> VR k s) ->
    MJ th m VL VR -> MJ th m VL' VR'.
  Proof.
    intros HL HR (A1 & A2 & A3 & A4 & A5 & A6 & A7 & A8). repeat (split; [assumption|]). split; [|split; [|assumption]].
    - intros k s Hk Hs. destruct (A6 k s Hk Hs) as (l & E & L & P). exists l. split; auto.
    - intros k s Hk Hs. destruct (A7 k s Hk Hs) as (l & E & L & P). exists l. split; auto.
  Qed.

  Lemma MI_weak th m A B A' B' : A' <= A -> B <= B' -> MI th m A B -> MI th m A' B'.
  Proof. intros HA HB. apply MJ_weak; intros; lia. Qed.

  Lemma MI_update th m c (p : list R) : length th = np -> c < dim -> length p = npar c ->
    MI th m c (S c) -> MI (splice (first c) p th) m c (S c).
  Proof.
    intros L Hc Lp (A1 & A2 & A3 & A4 & A5 & A6 & A7 & A8). repeat (split; [assumption|]). split; [|split; [|assumption]].
    - intros k s Hk Hs. destruct (A6 k s Hk Hs) as (l & E & Ll & P). exists l. split; auto. split; auto.
      intros HV i Hi. rewrite (P HV i Hi). f_equal. apply fw_ext; auto. intros k' i' j' Hk' _ _. symmetry. apply ru_Mx; auto. lia.
    - intros k s Hk Hs. destruct (A7 k s Hk Hs) as (l & E & Ll & P). exists l. split; auto. split; auto.
      intros HV i Hi. rewrite (P HV i Hi). f_equal. apply bw_ext; auto. intros k' i' j' Hk' _ _. symmetry. apply ru_Mx; auto. lia.
  Qed.

  Lemma ru_ge th m s VL VR : lin = true -> length th = np -> s < N -> MJ th m VL VR ->
    firstn (fp_nparams (Fp th)) (skipn (s * np) (m_lin m)) = concat (basis_blocks bas (ft_cores (fp_ft (Fp th))) (X s)).
  Proof.
    intros El L Hs (_ & _ & _ & _ & _ & _ & _ & A). cbn [Fp set_ftp fp_ft fp_nparams]. rewrite ru_blocks by auto.
    now apply A.
  Qed.

  (** Evaluating core [c] from the left *)
  Lemma upd_lr_ok th m log c B : length th = np -> c < dim -> MI th m c B ->
    exists m', upd_lr bad z ev lin data c (mkals z ev (Fp th) m log) = Ok (mkals z ev (Fp th) m' log) /\ MI th m' (S c) B.
  Proof.
    intros L Hc HM. unfold upd_lr. cbn [a_ftp a_mem a_log]. destruct (ru_Fp th L) as [O _]. fold N.
    match goal with |- context [for_ N ?b m] =>
      destruct (for_inv (fun s m => MJ th m (fun k s' => k < c \/ (k = c /\ s' < s)) (fun k _ => B <= k)) b N m) as (m' & E & HM') end.
    { revert HM. apply MJ_weak; intros; lia. }
    2:{ rewrite E. cbn [obind]. exists m'. split; [reflexivity|]. revert HM'. apply MJ_weak; intros; lia. }
    intros s m1 Hs HM1. pose proof HM1 as (A1 & A2 & A3 & A4 & A5 & A6 & A7 & A8).
    assert (Hprev : exists prev, (if 0 <? c then get2 (m_lr m1) (c - 1) s else Ok []) = Ok prev /\
              (0 < c -> pre prev (r c) (fw r (Mx th s) c))).
    { destruct (Nat.ltb_spec 0 c) as [Hp|Hp].
      - destruct (A6 (c - 1) s ltac:(lia) Hs) as (l & E & _ & P). exists l. split; auto. intros _.
        replace (S (c - 1)) with c in P by lia. apply P. lia.
      - exists []. split; auto. lia. }
    destruct Hprev as (prev & Ep & Pp). rewrite Ep. cbn [obind].
    destruct (A6 c s Hc Hs) as (up & Eu & Lu & _). rewrite Eu. cbn [obind].
    assert (HX : length (X s) = ft_dim (fp_ft (Fp th))) by now apply ru_X.
    assert (FIN : forall up' ce', length up' = r (S c) -> pre up' (r (S c)) (fw r (Mx th s) (S c)) ->
      (forall k, k < dim -> r (S k) * r k <= length ce') ->
      exists lr', set2 (m_lr m1) c s up' = Ok lr' /\
        MJ th (set_ce (set_lr m1 lr') ce') (fun k s' => k < c \/ (k = c /\ s' < S s)) (fun k _ => B <= k)).
    { intros up' ce' Lu' Pu' Lce. destruct (set2_ok (m_lr m1) c s up up' Eu) as (lr' & E1 & E2 & E3).
      exists lr'. split; auto. split; [exact A1|]. split; [exact A2|]. split; [exact A3|]. split; [exact Lce|]. split; [exact A5|].
      split; [|split; [exact A7|exact A8]].
      intros k s' Hk Hs'. cbn [set_ce set_lr m_lr]. destruct (Nat.eq_dec k c) as [->|Hn]; [destruct (Nat.eq_dec s' s) as [->|Hn]|].
      - exists up'. auto.
      - rewrite E3 by auto. destruct (A6 c s' Hc Hs') as (l & El & Ll & Pl). exists l. split; auto. split; auto. intros HV. apply Pl. lia.
      - rewrite E3 by auto. destruct (A6 k s' Hk Hs') as (l & El & Ll & Pl). exists l. split; auto. split; auto. intros HV. apply Pl. lia. }
    destruct lin_cases as [El|El]; rewrite El.
    - assert (Hge := ru_ge th m1 s _ _ El L Hs HM1).
      destruct (sweep_lr_lin_ok z ev (Fp th) O (X s) HX c Hc bas (proj1 (Hlin El)) (skipn (s * np) (m_lin m1)) Hge prev up) as (up' & E & Lu' & Pu').
      + exact Pp.
      + change (r (S c) <= length up). lia.
      + change (fp_nparams (Fp th)) with np. rewrite E. cbn [obind].
        destruct (FIN up' (m_ce m1)) as (lr' & E1 & HM2); auto; [lia|].
        rewrite E1. cbn [obind]. exists (set_lr m1 lr'). split; [reflexivity|]. exact HM2.
    - assert (Ed : fp_dim (Fp th) = dim) by apply O0. rewrite Ed.
      rewrite ru_Xn by auto. cbn [obind].
      destruct (sweep_lr_ok z ev (Fp th) O (X s) HX c Hc bad Hbad (m_ce m1) prev up) as (ce' & up' & E & Lce & Lu' & Pu').
      + exact Pp.
      + now apply A4.
      + change (r (S c) <= length up). lia.
      + rewrite E. cbn [obind]. destruct (FIN up' ce') as (lr' & E1 & HM2); auto; [lia|intros k Hk; rewrite Lce; auto|].
        rewrite E1. cbn [obind]. eexists. split; [reflexivity|]. exact HM2.
  Qed.

  Lemma upd_rl_ok th m log c A : length th = np -> c < dim -> MI th m A (S c) ->
    exists m', upd_rl bad z ev lin data c (mkals z ev (Fp th) m log) = Ok (mkals z ev (Fp th) m' log) /\ MI th m' A c.
  Proof.
    intros L Hc HM. unfold upd_rl. cbn [a_ftp a_mem a_log]. destruct (ru_Fp th L) as [O _]. fold N.
    match goal with |- context [for_ N ?b m] =>
      destruct (for_inv (fun s m => MJ th m (fun k _ => k < A) (fun k s' => S c <= k \/ (k = c /\ s' < s))) b N m) as (m' & E & HM') end.
    { revert HM. apply MJ_weak; intros; lia. }
    2:{ rewrite E. cbn [obind]. exists m'. split; [reflexivity|]. revert HM'. apply MJ_weak; intros; lia. }
    intros s m1 Hs HM1. pose proof HM1 as (A1 & A2 & A3 & A4 & A5 & A6 & A7 & A8).
    assert (Ed : fp_dim (Fp th) = dim) by apply O0. rewrite Ed.
    assert (Hprev : exists prev, (if c <? dim - 1 then get2 (m_rl m1) (c + 1) s else Ok []) = Ok prev /\
              (c < dim - 1 -> pre prev (r (S c)) (bw r (Mx th s) (dim - 1 - c) (S c)))).
    { destruct (Nat.ltb_spec c (dim - 1)) as [Hp|Hp].
      - destruct (A7 (S c) s ltac:(lia) Hs) as (l & E & _ & P). rewrite Nat.add_1_r. exists l. split; auto. intros _.
        replace (dim - S c) with (dim - 1 - c) in P by lia. apply P. lia.
      - exists []. split; auto. lia. }
    destruct Hprev as (prev & Ep & Pp). rewrite Ep. cbn [obind].
    destruct (A7 c s Hc Hs) as (up & Eu & Lu & _). rewrite Eu. cbn [obind].
    assert (HX : length (X s) = ft_dim (fp_ft (Fp th))) by now apply ru_X.
    assert (FIN : forall up' ce', length up' = r c -> pre up' (r c) (bw r (Mx th s) (dim - c) c) ->
      (forall k, k < dim -> r (S k) * r k <= length ce') ->
      exists rl', set2 (m_rl m1) c s up' = Ok rl' /\
        MJ th (set_ce (set_rl m1 rl') ce') (fun k _ => k < A) (fun k s' => S c <= k \/ (k = c /\ s' < S s))).
    { intros up' ce' Lu' Pu' Lce. destruct (set2_ok (m_rl m1) c s up up' Eu) as (rl' & E1 & E2 & E3).
      exists rl'. split; auto. split; [exact A1|]. split; [exact A2|]. split; [exact A3|]. split; [exact Lce|]. split; [exact A5|].
      split; [exact A6|]. split; [|exact A8].
      intros k s' Hk Hs'. cbn [set_ce set_rl m_rl]. destruct (Nat.eq_dec k c) as [->|Hn]; [destruct (Nat.eq_dec s' s) as [->|Hn]|].
      - exists up'. auto.
      - rewrite E3 by auto. destruct (A7 c s' Hc Hs') as (l & El & Ll & Pl). exists l. split; auto. split; auto. intros HV. apply Pl. lia.
      - rewrite E3 by auto. destruct (A7 k s' Hk Hs') as (l & El & Ll & Pl). exists l. split; auto. split; auto. intros HV. apply Pl. lia. }
    destruct lin_cases as [El|El]; rewrite El.
    - assert (Hge := ru_ge th m1 s _ _ El L Hs HM1).
      destruct (sweep_rl_lin_ok z ev (Fp th) O (X s) HX c Hc bas (proj1 (Hlin El)) (skipn (s * np) (m_lin m1)) Hge prev up) as (up' & E & Lu' & Pu').
      + exact Pp.
      + change (r c <= length up). lia.
      + change (fp_nparams (Fp th)) with np. rewrite E. cbn [obind].
        destruct (FIN up' (m_ce m1)) as (rl' & E1 & HM2); auto; [lia|].
        rewrite E1. cbn [obind]. exists (set_rl m1 rl'). split; [reflexivity|]. exact HM2.
    - rewrite ru_Xn by auto. cbn [obind].
      destruct (sweep_rl_ok z ev (Fp th) O (X s) HX c Hc bad Hbad (m_ce m1) prev up) as (ce' & up' & E & Lce & Lu' & Pu').
      + exact Pp.
      + now apply A4.
      + change (r c <= length up). lia.
      + rewrite E. cbn [obind]. destruct (FIN up' ce') as (rl' & E1 & HM2); auto; [lia|intros k Hk; rewrite Lce; auto|].
        rewrite E1. cbn [obind]. eexists. split; [reflexivity|]. exact HM2.
  Qed.

  (** ** The work space at the start *)
  Lemma alloc_arr (rk : nat -> nat) (ranks : list nat) (o : nat) : (forall k, k < dim -> aget ranks (k + o) = Ok (rk k)) ->
    for_ dim (fun ii (l : list (list (list R))) => do q <- aget ranks (ii + o); Ok (l ++ [repeat (repeat r0 q) N])) []
    = Ok (map (fun k => repeat (repeat r0 (rk k)) N) (seq 0 dim)).
  Proof.
    clear - R. intros H. apply (for_det (fun k => map (fun k => repeat (repeat r0 (rk k)) N) (seq 0 k))). intros k Hk.
    rewrite H by auto. cbn [obind]. rewrite seq_S, map_app. reflexivity.
  Qed.
  Lemma get2_alloc (rk : nat -> nat) k s : k < dim -> s < N ->
    get2 (map (fun k => repeat (repeat (r0 : R) (rk k)) N) (seq 0 dim)) k s = Ok (repeat r0 (rk k)).
  Proof.
    clear - R. intros Hk Hs. apply get2_nth. exists (repeat (repeat r0 (rk k)) N). split.
    - rewrite (map_nth_error _ _ _ (nth_error_nth' (seq 0 dim) 0 ltac:(rewrite seq_length; exact Hk))). now rewrite seq_nth by auto.
    - now apply nth_error_repeat.
  Qed.

  Lemma mem_init_ok th lin0 mr : N * np <= length lin0 -> (forall k, k <= dim -> r k <= mr) ->
    exists m, mem_init z ev bas lin ftp0 N (d_x data) lin0 mr = Ok m /\ MI th m 0 dim.
  Proof.
    intros Ll Hmr. unfold mem_init.
    assert (Ed : fp_dim ftp0 = dim) by apply O0.
    assert (RK : forall k, k <= dim -> aget (ft_ranks (fp_ft ftp0)) k = Ok (r k)).
    { intros k Hk. exact (pa_rk z ev ftp0 O0 (repeat r0 dim) (repeat_length _ _) k Hk). }
    match goal with |- exists m, obind ?v _ = Ok m /\ _ =>
      assert (HV : exists vals, v = Ok vals /\ (lin = true -> forall s, s < N ->
          firstn np (skipn (s * np) vals) = concat (basis_blocks bas (ft_cores f0) (X s)))) end.
    { destruct lin_cases as [El|El]; rewrite El; [|exists lin0; split; [reflexivity|discriminate]].
      match goal with |- exists v, for_ N ?b _ = _ /\ _ => destruct (for_inv (fun ii vals => length vals = length lin0 /\
        forall s, s < ii -> firstn np (skipn (s * np) vals) = concat (basis_blocks bas (ft_cores f0) (X s))) b N lin0) as (vals & E & Lv & Hv) end.
      - split; auto. intros; lia.
      - intros ii vals Hii [Lv Hv].
        assert (HB : length (concat (basis_blocks bas (ft_cores f0) (X ii))) = np)
          by exact (blocks_length_np z ev bas (Hlin El) ftp0 O0 (X ii) (ru_X ii Hii)).
        destruct (fill_sample z ev bas (Hlin El) ftp0 O0 (X ii) (ru_X ii Hii) (d_x data) (ii * dim) (ii * np) vals) as (a & b & E).
        + intros k Hk. now apply ru_Xn.
        + fold np. nia.
        + rewrite Ed in *. fold np. match type of E with _ = ?o => match goal with |- exists s', obind ?v _ = Ok s' /\ _ =>
            assert (E' : v = o) by exact E end end. rewrite E'. cbn [obind]. eexists. split; [reflexivity|].
          change (ft_cores (fp_ft ftp0)) with (ft_cores f0). split; [rewrite splice_length; [lia|nia]|].
          intros s Hs. destruct (Nat.eq_dec s ii) as [->|Hn].
          * apply firstn_skipn_splice; [exact HB|nia].
          * rewrite firstn_skipn_splice_other; [apply Hv; lia|nia|left; nia].
      - exists vals. split; auto. }
    destruct HV as (vals & EV & HV). rewrite EV. cbn [obind]. rewrite Ed.
    rewrite (alloc_arr (fun k => r (S k)) (ft_ranks (fp_ft ftp0)) 1)
      by (intros k Hk; rewrite Nat.add_1_r; apply RK; lia). cbn [obind].
    assert (E2 := alloc_arr r (ft_ranks (fp_ft ftp0)) 0 ltac:(intros k Hk; rewrite Nat.add_0_r; apply RK; lia)).
    assert (E3 : for_ dim (fun ii (l : list (list (list R))) => do q <- aget (ft_ranks (fp_ft ftp0)) ii; Ok (l ++ [repeat (repeat r0 q) N])) []
      = Ok (map (fun k => repeat (repeat r0 (r k)) N) (seq 0 dim))).
    { rewrite <- E2. apply for_ext. intros k l Hk. now rewrite Nat.add_0_r. }
    rewrite E3. cbn [obind]. eexists. split; [reflexivity|].
    split; [cbn [m_evals]; rewrite repeat_length; lia|].
    split; [cbn [m_grad]; rewrite repeat_length; fold np; lia|].
    split; [cbn [m_rgrad]; rewrite repeat_length; fold np; lia|].
    split; [cbn [m_ce]; intros k Hk; rewrite repeat_length; pose proof (Hmr k ltac:(lia)); pose proof (Hmr (S k) ltac:(lia)); nia|].
    split; [split; [exact I|split; exact I]|].
    split; [|split; [|exact HV]].
    - intros k s Hk Hs. exists (repeat r0 (r (S k))). cbn [m_lr]. rewrite get2_alloc by auto. split; auto.
      split; [apply repeat_length|lia].
    - intros k s Hk Hs. exists (repeat r0 (r k)). cbn [m_rl]. rewrite get2_alloc by auto. split; auto.
      split; [apply repeat_length|lia].
  Qed.

  (** ** Values and gradients *)

  (** [g] is the derivative, with respect to parameter [n], of the value at [x] in
      terms of the derivatives [D] of the function that the parameter belongs to *)
  Definition dep (th x : list R) (n : nat) (g : R) : Prop :=
    exists y w u l v, gf_wf u /\ nth_error (gf_params u) l = Some v /\ nth_error th n = Some v /\
      g = w *! nth l (D u y) r0 /\
      forall t, train_value (ft_with f0 (upd th n t) : ftrain U) x
                = train_value (ft_with f0 th : ftrain U) x +! w *! (ev (gf_with u (upd (gf_params u) l t)) y -! ev u y).

  Notation chosen := (chosen data).
  Notation target := (target data).
  Notation weight := (weight wts).

  Definition grad_of (th : list R) (ind : option nat) (n : nat) (e : R) : Prop :=
    length th = np /\ n < np /\ (forall s, In s (chosen ind) -> s < N) /\
    exists Ds : nat -> R, (forall s, In s (chosen ind) -> dep th (X s) n (Ds s)) /\
      e = rdiv (lsum (chosen ind) (fun s => weight s *! (ropp ((r1 +! r1) *! (target s -! value th s)) *! Ds s))) (length (chosen ind)).

  Definition nsamp (ind : option nat) : nat := match ind with None => d_N data | Some _ => 1 end.
  Definition indx (ind : option nat) : option (list nat) := match ind with None => None | Some i => Some [i] end.
  Definition ind_ok (ind : option nat) : Prop := match ind with None => True | Some i => i < N end.

  Lemma ch_len ind : length (chosen ind) = nsamp ind.
  Proof. clear. destruct ind; cbn; auto. apply seq_length. Qed.
  Lemma ch_nth ind ii : ii < nsamp ind -> (match indx ind with None => Ok ii | Some ix => aget ix ii end) = Ok (nth ii (chosen ind) 0).
  Proof.
    clear. destruct ind as [i|]; cbn [nsamp indx AlsSpec.chosen]; intros H.
    - assert (ii = 0) by lia. subst ii. reflexivity.
    - now rewrite seq_nth.
  Qed.
  Lemma ch_in ind ii : ii < nsamp ind -> In (nth ii (chosen ind) 0) (chosen ind).
  Proof. intros H. apply nth_In. now rewrite ch_len. Qed.
  Lemma ch_lt ind s : ind_ok ind -> In s (chosen ind) -> s < N.
  Proof.
    clear. destruct ind as [i|]; cbn [ind_ok AlsSpec.chosen]; intros H Hs.
    - destruct Hs as [<-|[]]. auto.
    - apply in_seq in Hs. unfold N. lia.
  Qed.
  Lemma ch_le ind : ind_ok ind -> nsamp ind <= N.
  Proof. clear. destruct ind; cbn [ind_ok nsamp]; unfold N; lia. Qed.

  Lemma subset_ok ind : ind_ok ind -> exists xs, subset dim data (nsamp ind) (indx ind) = Ok xs /\
    (ind = None -> xs = d_x data) /\
    forall ii, ii < nsamp ind -> firstn dim (skipn (ii * dim) xs) = X (nth ii (chosen ind) 0).
  Proof.
    intros Hi. unfold subset. pose proof (ch_le ind Hi). fold N. destruct (Nat.leb_spec (nsamp ind) N); [|lia].
    cbn [cassert obind]. destruct ind as [i|]; cbn [indx nsamp AlsSpec.chosen ind_ok] in *.
    - rewrite for_1.
      match goal with |- context [for_ dim ?bd ?s0] => destruct (for_inv (fun j b => length b = N * dim /\
        forall k, k < j -> nth_error b k = Some (nth k (X i) r0)) bd dim s0) as (xs & E & L & H2) end.
      + split; [apply repeat_length|intros; lia].
      + intros j b Hj [L H2]. cbn [aget nth_error obind]. rewrite Nat.add_comm, ru_Xn by auto. cbn [obind].
        rewrite Nat.mul_0_l, Nat.add_0_r. rewrite aset_ok by nia. eexists. split; [reflexivity|].
        split; [now rewrite upd_length|]. intros k Hk. destruct (Nat.eq_dec k j) as [->|Hn].
        * apply nth_error_upd_same. nia.
        * rewrite nth_error_upd_other by auto. apply H2. lia.
      + exists xs. split; [exact E|]. split; [discriminate|]. intros ii Hii. assert (ii = 0) by lia. subst ii.
        cbn [Nat.mul skipn nth]. apply list_eq_nth. intros k. destruct (Nat.lt_ge_cases k dim) as [Hk|Hk].
        * rewrite nth_error_firstn by auto. rewrite H2 by auto. symmetry. apply nth_error_nth'. now rewrite ru_X.
        * transitivity (@None R); [|symmetry]; apply nth_error_None; [rewrite firstn_length; lia|now rewrite ru_X].
    - exists (d_x data). split; [reflexivity|]. split; auto. intros ii Hii. now rewrite seq_nth by auto.
  Qed.

  (** What the evaluations leave behind *)
  Definition evaluated th c (want : bool) ind ii (m : slmem (R := R)) : Prop :=
    (forall k, k < ii -> nth_error (m_evals m) k = Some (value th (nth k (chosen ind) 0))) /\
    (want = true -> forall k j, k < ii -> j < npar c -> exists g,
       nth_error (m_grad m) (k * npar c + j) = Some g /\ dep th (X (nth k (chosen ind) 0)) (first c + j) g).

  Lemma MJ_out th m VL VR e g rg ws : MJ th m VL VR -> length e = length (m_evals m) -> length g = length (m_grad m) ->
    length rg = length (m_rgrad m) -> ws_wf ws -> MJ th (set_out m e g rg ws) VL VR.
  Proof.
    intros (A1 & A2 & A3 & A4 & A5 & A6) L1 L2 L3 W. unfold MJ. cbn [set_out m_evals m_grad m_rgrad m_ce m_ws m_lr m_rl m_lin].
    rewrite L1, L2, L3. tauto.
  Qed.

  Lemma ru_spec th (x : list R) c g0 goff out grad : length th = np -> length x = dim -> c < dim ->
    core_spec z ev (Fp th) x c D g0 goff out grad ->
    out = train_value (ft_with f0 th : ftrain U) x /\ length grad = length g0 /\
    (forall p, p < goff \/ goff + npar c <= p -> nth_error grad p = nth_error g0 p) /\
    (forall j, j < npar c -> exists g, nth_error grad (goff + j) = Some g /\ dep th x (first c + j) g).
  Proof.
    intros L Lx' Hc (A & B & C & E). rewrite ru_cnp in C, E. rewrite ru_before in E by auto.
    split; [exact A|]. split; [exact B|]. split; [exact C|].
    intros j Hj. destruct (E j Hj) as (w & u & l & v & E1 & E2 & E3 & E4 & E5).
    eexists. split; [exact E4|]. exists (nth c x r0), w, u, l, v. split; [exact E1|]. split; [exact E2|]. split; [exact E3|].
    split; [reflexivity|]. intros t. etransitivity; [|exact (E5 t)].
    assert (Lt : length (upd th (first c + j) t) = np) by now rewrite upd_length.
    exact (f_equal (fun g : ftrain U => train_value g x) (eq_sym (with_with bad Hbad ftp0 th _ O0 L Lt))).
  Qed.

  Lemma ru_Lg th (x : list R) c goff len : length th = np -> length x = dim -> c < dim -> goff + npar c <= len ->
    goff + offs (fun q => nth (offs (fun q0 => frk (fp_ft (Fp th)) q0 * frk (fp_ft (Fp th)) (S q0)) c + q)
        (map gf_num (flat_map fs (ft_cores (fp_ft (Fp th))))) 0) (frk (fp_ft (Fp th)) (S c) * frk (fp_ft (Fp th)) c) <= len.
  Proof.
    intros L Lx' Hc H. assert (E := al_npcE z ev (Fp th) (proj1 (ru_Fp th L)) x Lx' c Hc). cbv zeta in E.
    assert (E2 := ru_cnp th c). unfold cnp in E2. rewrite E2 in E.
    exact (eq_ind_r (fun n => goff + n <= len) H E).
  Qed.

  (** Storing the results of sample [ii] *)
  Lemma ev_step th c ind want ii m v grad rg ws : ii < nsamp ind -> ind_ok ind -> c < dim ->
    MI th m c (S c) -> evaluated th c want ind ii m ->
    v = value th (nth ii (chosen ind) 0) -> length rg = length (m_rgrad m) -> ws_wf ws ->
    length grad = length (m_grad m) ->
    (want = true ->
     (forall p, p < ii * npar c \/ ii * npar c + npar c <= p -> nth_error grad p = nth_error (m_grad m) p) /\
     (forall j, j < npar c -> exists g, nth_error grad (ii * npar c + j) = Some g /\ dep th (X (nth ii (chosen ind) 0)) (first c + j) g)) ->
    exists e, aset (m_evals m) ii v = Ok e /\ MI th (set_out m e grad rg ws) c (S c) /\
      evaluated th c want ind (S ii) (set_out m e grad rg ws).
  Proof.
    intros Hii Hind Hc HM [V1 V2] Ev Lr Ww Lg HG. pose proof HM as (A1 & _). pose proof (ch_le ind Hind).
    rewrite aset_ok by lia. eexists. split; [reflexivity|]. split.
    { apply MJ_out; auto. apply upd_length. }
    split; cbn [set_out m_evals m_grad].
    - intros k Hk. destruct (Nat.eq_dec k ii) as [->|Hn].
      + rewrite nth_error_upd_same by lia. now rewrite Ev.
      + rewrite nth_error_upd_other by auto. apply V1. lia.
    - intros Hw k j Hk Hj. destruct (HG Hw) as [H1 H2]. destruct (Nat.eq_dec k ii) as [->|Hn].
      + now apply H2.
      + rewrite H1; [apply V2; auto; lia|]. left. nia.
  Qed.

  Lemma linparam_ok th c ind want m : lin = true -> length th = np -> c < dim -> ind_ok ind -> MI th m c (S c) ->
    exists m', linparam_eval_grad z ev (Fp th) c (nsamp ind) (indx ind) want m = Ok m' /\
      MI th m' c (S c) /\ evaluated th c want ind (nsamp ind) m'.
  Proof.
    intros El L Hc Hind HM. destruct (ru_Fp th L) as [O _]. unfold linparam_eval_grad.
    assert (Ed : fp_dim (Fp th) = dim) by apply O0.
    assert (En : aget (fp_npc (Fp th)) c = Ok (npar c)).
    { change (aget (fp_npc ftp0) c = Ok (npar c)). rewrite ru_counts. apply aget_ok. apply nth_error_nth'. now rewrite ru_lc. }
    rewrite Ed, En. cbn [obind].
    set (kk := if (0 <? c) && (c <? dim - 1) then (c - 1, c + 1) else if c =? 0 then (c, c + 1) else (c - 1, c - 1)).
    assert (Hkk : exists kl kr, kk = (kl, kr) /\ kl < dim /\ kr < dim /\ (0 < c -> kl = c - 1) /\ (c < dim - 1 -> kr = S c)).
    { unfold kk. destruct (Nat.ltb_spec 0 c), (Nat.ltb_spec c (dim - 1)); cbn [andb]; try destruct (Nat.eqb_spec c 0);
        try lia; do 2 eexists; (split; [reflexivity|]); repeat split; intros; lia. }
    destruct Hkk as (kl & kr & -> & Hkl & Hkr & Ekl & Ekr). cbn [obind].
    match goal with |- context [for_ (nsamp ind) ?b m] =>
      destruct (for_inv (fun ii m => MI th m c (S c) /\ evaluated th c want ind ii m) b (nsamp ind) m) as (m' & E & HM' & HE) end.
    { split; auto. split; intros; lia. }
    2:{ exists m'. auto. }
    intros ii m1 Hii [HM1 HE]. rewrite ch_nth by auto. cbn [obind].
    set (s := nth ii (chosen ind) 0) in *. assert (Hs : s < N) by (apply (ch_lt ind); auto; now apply ch_in).
    pose proof HM1 as (A1 & A2 & A3 & A4 & A5 & A6 & A7 & A8).
    destruct (A6 kl s Hkl Hs) as (lr & Elr & _ & Plr). rewrite Elr. cbn [obind].
    destruct (A7 kr s Hkr Hs) as (rl & Erl & _ & Prl). rewrite Erl. cbn [obind].
    assert (HX : length (X s) = ft_dim (fp_ft (Fp th))) by now apply ru_X.
    assert (Hge := ru_ge th m1 s _ _ El L Hs HM1).
    assert (P1 : 0 < c -> pre lr (r c) (fw r (Mx th s) c)).
    { intros Hp. specialize (Plr ltac:(rewrite Ekl by auto; lia)). rewrite Ekl in Plr by auto.
      replace (S (c - 1)) with c in Plr by lia. exact Plr. }
    assert (P2 : c < dim - 1 -> pre rl (r (S c)) (bw r (Mx th s) (dim - 1 - c) (S c))).
    { intros Hp. specialize (Prl ltac:(rewrite Ekr by auto; lia)). rewrite Ekr in Prl by auto.
      replace (dim - S c) with (dim - 1 - c) in Prl by lia. exact Prl. }
    change (fp_nparams (Fp th)) with np. pose proof (ch_le ind Hind) as Hle. pose proof (ru_fit c Hc) as Hfit.
    destruct want.
    - assert (Hcap : ii * npar c + npar c <= length (m_grad m1)) by nia.
      destruct (core_gradeval_lin_ok z ev (Fp th) O (X s) HX c Hc bas (m_grad m1) (ii * npar c)
                  (ru_Lg th (X s) c (ii * npar c) _ L HX Hc Hcap) (proj1 (Hlin El)) (skipn (s * np) (m_lin m1)) Hge lr rl P1 P2 D2)
        as (out & grad & E & HO).
      rewrite E. cbn [obind]. apply (core_out_spec z ev (Fp th) O (X s) HX c Hc) in HO.
      assert (HO' : core_spec z ev (Fp th) (X s) c D (m_grad m1) (ii * npar c) out grad).
      { unfold D. rewrite El. exact HO. }
      destruct (ru_spec th (X s) c _ _ _ _ L HX Hc HO') as (B1 & B2 & B3 & B4).
      destruct (ev_step th c ind true ii m1 out grad (m_rgrad m1) (m_ws m1) Hii Hind Hc HM1 HE B1) as (e & E1 & E2 & E3); auto.
      rewrite E1. cbn [obind]. eexists. split; [reflexivity|]. auto.
    - rewrite (core_eval_lin_ok z ev (Fp th) O (X s) HX c Hc bas (proj1 (Hlin El)) (skipn (s * np) (m_lin m1)) Hge lr rl P1 P2 D2).
      cbn [obind].
      destruct (ev_step th c ind false ii m1 (train_value (fp_ft (Fp th)) (X s)) (m_grad m1) (m_rgrad m1) (m_ws m1) Hii Hind Hc HM1 HE)
        as (e & E1 & E2 & E3); auto; try discriminate.
      rewrite E1. cbn [obind]. eexists. split; [reflexivity|]. auto.
  Qed.

  Lemma ru_small th : length th = np -> ft_small (ft_with f0 th : ftrain U).
  Proof.
    intros L q Hq. destruct (ru_Fp th L) as [O _]. apply In_nth_error in Hq as (k & Ek).
    assert (Hk : k < dim).
    { assert (H : k < length (ft_cores (ft_with f0 th))) by (apply nth_error_Some; intros HH; pose proof (eq_trans (eq_sym Ek) HH); discriminate).
      destruct O as ((E & _) & _). exact (eq_ind_r (fun n => k < n) H E). }
    destruct (pa_fun z ev (Fp th) O (repeat r0 dim) (repeat_length _ _) k 0 0 Hk) as (u & Eu & _).
    - apply (pa_pos z ev (Fp th) O (repeat r0 dim) (repeat_length _ _) k). exact (Nat.lt_le_incl _ _ Hk).
    - apply (pa_pos z ev (Fp th) O (repeat r0 dim) (repeat_length _ _) (S k)). exact Hk.
    - right. exists 0, u. split; [lia|]. split; [|reflexivity].
      destruct (canon_core (fp_ft (Fp th)) k (pa_wf z ev (Fp th) O) Hk) as (Ec & _).
      assert (Eq : Some q = Some (fco (fp_ft (Fp th)) k)) by exact (eq_trans (eq_sym Ek) Ec). injection Eq as ->. exact Eu.
  Qed.

  Lemma eval_grad_ok th c ind want m xs : lin = false -> length th = np -> c < dim -> ind_ok ind ->
    (want = true -> ind = None) -> (ind = None -> xs = d_x data) ->
    (forall ii, ii < nsamp ind -> firstn dim (skipn (ii * dim) xs) = X (nth ii (chosen ind) 0)) ->
    MI th m c (S c) ->
    exists m', eval_grad z ev pge (Fp th) c (nsamp ind) xs want m = Ok m' /\
      MI th m' c (S c) /\ evaluated th c want ind (nsamp ind) m'.
  Proof.
    intros El L Hc Hind Hwi Hxs Hxx HM. destruct (ru_Fp th L) as [O _]. unfold eval_grad.
    assert (Ed : fp_dim (Fp th) = dim) by apply O0.
    assert (En : aget (fp_npc (Fp th)) c = Ok (npar c)).
    { change (aget (fp_npc ftp0) c = Ok (npar c)). rewrite ru_counts. apply aget_ok. apply nth_error_nth'. now rewrite ru_lc. }
    rewrite Ed, En. cbn [obind]. pose proof (ch_le ind Hind) as Hle. pose proof (ru_fit c Hc) as Hfit.
    destruct want.
    - rewrite (Hxs (Hwi eq_refl)) in *. specialize (Hwi eq_refl). subst ind. cbn [nsamp] in *. fold N in Hle, Hxx |- *.
      match goal with |- context [for_ N ?b m] =>
        destruct (for_inv (fun ii m => MI th m c (S c) /\ evaluated th c true None ii m) b N m) as (m' & E & HM' & HE) end.
      { split; auto. split; intros; lia. }
      2:{ exists m'. auto. }
      intros ii m1 Hii [HM1 HE]. rewrite ru_Xn by auto. cbn [obind].
      pose proof HM1 as (A1 & A2 & A3 & A4 & A5 & A6 & A7 & A8).
      assert (Hlr : exists lr, (if 0 <? c then get2 (m_lr m1) (c - 1) ii else Ok []) = Ok lr /\
                (0 < c -> pre lr (r c) (fw r (Mx th ii) c))).
      { destruct (Nat.ltb_spec 0 c) as [Hp|Hp].
        - destruct (A6 (c - 1) ii ltac:(lia) Hii) as (l & E & _ & P). exists l. split; auto. intros _.
          replace (S (c - 1)) with c in P by lia. apply P. lia.
        - exists []. split; auto. lia. }
      destruct Hlr as (lr & Elr & P1). rewrite Elr. cbn [obind].
      assert (Hrl : exists rl, (if (c =? 0) || (c <? dim - 1) then get2 (m_rl m1) (c + 1) ii else Ok []) = Ok rl /\
                (c < dim - 1 -> pre rl (r (S c)) (bw r (Mx th ii) (dim - 1 - c) (S c)))).
      { destruct (Nat.ltb_spec c (dim - 1)) as [Hp|Hp].
        - rewrite Bool.orb_true_r. destruct (A7 (S c) ii ltac:(lia) Hii) as (l & E & _ & P). rewrite Nat.add_1_r. exists l. split; auto. intros _.
          replace (dim - S c) with (dim - 1 - c) in P by lia. apply P. lia.
        - destruct (Nat.eqb_spec c 0); [lia|]. exists []. split; auto. lia. }
      destruct Hrl as (rl & Erl & P2). rewrite Erl. cbn [obind].
      assert (HX : length (X ii) = ft_dim (fp_ft (Fp th))) by now apply ru_X.
      assert (Hcap : ii * npar c + npar c <= length (m_grad m1)) by nia.
      assert (HD : forall u y, gf_wf u -> length (D u y) = length (gf_params u)).
      { intros u y W. unfold D. rewrite El. now apply (Hnon El). }
      destruct (core_gradeval_ok z ev (Fp th) O (X ii) HX c Hc D HD (m_grad m1) (ii * npar c)
                  (ru_Lg th (X ii) c (ii * npar c) _ L HX Hc Hcap) pge) with (lr := lr) (rl := rl) (ge := m_rgrad m1)
        as (out & grad & ge' & E & Lge & HO); auto.
      { intros u y W. unfold D. rewrite El. split; auto. now apply (Hnon El). }
      rewrite E. cbn [obind]. apply (core_out_spec z ev (Fp th) O (X ii) HX c Hc) in HO.
      destruct (ru_spec th (X ii) c _ _ _ _ L HX Hc HO) as (B1 & B2 & B3 & B4).
      assert (Es : nth ii (chosen None) 0 = ii) by (cbn [AlsSpec.chosen]; now apply seq_nth).
      destruct (ev_step th c None true ii m1 out grad ge' (m_ws m1) Hii Hind Hc HM1 HE) as (e & E1 & E2 & E3); auto.
      + rewrite Es. exact B1.
      + rewrite Es. auto.
      + rewrite E1. cbn [obind]. eexists. split; [reflexivity|]. auto.
    - match goal with |- context [for_ (nsamp ind) ?b m] =>
        destruct (for_inv (fun ii m => MI th m c (S c) /\ evaluated th c false ind ii m) b (nsamp ind) m) as (m' & E & HM' & HE) end.
      { split; auto. split; [intros; lia|discriminate]. }
      2:{ exists m'. auto. }
      intros ii m1 Hii [HM1 HE]. pose proof HM1 as (A1 & A2 & A3 & A4 & A5 & _).
      assert (Hs : nth ii (chosen ind) 0 < N) by (apply (ch_lt ind); auto; now apply ch_in).
      assert (Hd0 : 0 < dim) by lia.
      assert (Ef := ft_eval_firstn (fp_ft (Fp th)) (m_ws m1) (skipn (ii * dim) xs) Hd0).
      change (ft_dim (fp_ft (Fp th))) with dim in Ef. rewrite Ef, Hxx by auto.
      destruct (ft_eval_correct (fp_ft (Fp th)) (m_ws m1) (X (nth ii (chosen ind) 0))) as (w' & E & W).
      + apply O.
      + now apply ru_small.
      + auto.
      + now apply ru_X.
      + rewrite E. cbn [obind].
        destruct (ev_step th c ind false ii m1 (train_value (fp_ft (Fp th)) (X (nth ii (chosen ind) 0))) (m_grad m1) (m_rgrad m1) w' Hii Hind Hc HM1 HE)
          as (e & E1 & E2 & E3); auto; try discriminate.
        rewrite E1. cbn [obind]. eexists. split; [reflexivity|]. auto.
  Qed.

  Lemma interface_ok th c (p : list R) ind want m : length th = np -> c < dim -> length p = npar c -> ind_ok ind ->
    (lin = false -> want = true -> ind = None) -> MI th m c (S c) ->
    let th1 := splice (first c) p th in
    exists m', interface bad z ev pge lin (Fp th) c p (nsamp ind) (indx ind) want data m = Ok (Fp th1, m') /\
      MI th1 m' c (S c) /\ evaluated th1 c want ind (nsamp ind) m'.
  Proof.
    intros L Hc Lp Hind Hw HM th1. assert (L1 : length th1 = np) by now apply ru_splice.
    unfold interface. destruct (ru_update th c p L Hc Lp) as (c' & E & _). fold th1 in E. rewrite E. cbn [obind].
    match goal with |- context [subset ?q] => replace q with dim by (symmetry; apply O0) end.
    destruct (subset_ok ind Hind) as (xs & Ex & H1 & H2). rewrite Ex. cbn [obind].
    assert (HM1 : MI th1 m c (S c)) by now apply MI_update.
    destruct lin_cases as [El|El]; rewrite El.
    - destruct (linparam_ok th1 c ind want m El L1 Hc Hind HM1) as (m' & E1 & E2). rewrite E1. cbn [obind]. eauto.
    - destruct (eval_grad_ok th1 c ind want m xs El L1 Hc Hind (Hw El) H1 H2 HM1) as (m' & E1 & E2). rewrite E1. cbn [obind]. eauto.
  Qed.

  Lemma ls_ok th c p ind want m : length th = np -> c < dim -> length p = npar c -> ind_ok ind ->
    (lin = false -> want = true -> ind = None) -> MI th m c (S c) ->
    let th1 := splice (first c) p th in
    exists v g m', least_squares bad z ev pge rdiv lin (Fp th) c (npar c) p (nsamp ind) (indx ind) want data wts m
        = Ok (v, g, Fp th1, m') /\ MI th1 m' c (S c) /\
      v = objective z ev rdiv f0 data wts th1 ind /\
      (if want then length g = npar c /\
         (forall j, j < npar c -> exists e, nth_error g j = Some e /\ grad_of th1 ind (first c + j) e)
       else g = []).
  Proof.
    intros L Hc Lp Hind Hw HM th1. assert (L1 : length th1 = np) by now apply ru_splice.
    destruct (interface_ok th c p ind want m L Hc Lp Hind Hw HM) as (m' & E & HM' & [V1 V2]). fold th1 in E, HM', V1, V2.
    unfold least_squares. rewrite E. cbn [obind].
    set (n := npar c) in *. set (NN := nsamp ind) in *. set (ch := chosen ind) in *.
    set (dy k := target (nth k ch 0) -! value th1 (nth k ch 0)).
    set (T k := weight (nth k ch 0) *! (dy k *! dy k)).
    set (Dg k j := nth (k * n + j) (m_grad m') r0).
    assert (Hs : forall k, k < NN -> nth k ch 0 < N) by (intros k Hk; apply (ch_lt ind); auto; now apply ch_in).
    assert (HR : forall ii, ii < NN ->
      (do i <- (match indx ind with None => Ok ii | Some ix => aget ix ii end);
       do y <- aget (d_y data) i; do e <- aget (m_evals m') ii; Ok (i, y -! e)) = Ok (nth ii ch 0, dy ii)).
    { intros ii Hii. rewrite ch_nth by auto. cbn [obind]. fold ch. specialize (Hs ii Hii).
      rewrite (aget_ok (d_y data) _ (target (nth ii ch 0))) by (apply nth_error_nth'; lia). cbn [obind].
      rewrite (aget_ok _ _ _ (V1 ii Hii)). reflexivity. }
    assert (HO : forall v, v = sum NN T -> rdiv v NN = objective z ev rdiv f0 data wts th1 ind).
    { intros v ->. unfold objective. rewrite lsum_sum, ch_len. reflexivity. }
    assert (HWt : forall w k, wts = Some w -> k < NN -> aget w (nth k ch 0) = Ok (weight (nth k ch 0))).
    { intros w k Ew Hk. apply aget_ok. unfold AlsSpec.weight. rewrite Ew. apply nth_error_nth'. specialize (Lw w Ew). specialize (Hs k Hk). lia. }
    destruct want.
    - set (Q ii j := sum ii (fun k => weight (nth k ch 0) *! (ropp ((r1 +! r1) *! dy k) *! Dg k j))).
      assert (HD : forall k j, k < NN -> j < n -> aget (m_grad m') (k * n + j) = Ok (Dg k j)).
      { intros k j Hk Hj. destruct (V2 eq_refl k j Hk Hj) as (g & Eg & _). unfold Dg. rewrite (nth_error_nth _ _ _ Eg). now apply aget_ok. }
      match goal with |- context [for_ NN ?b (r0, repeat r0 n)] =>
        destruct (for_inv (fun ii (s : R * list R) => fst s = sum ii T /\ length (snd s) = n /\
          forall j, j < n -> nth_error (snd s) j = Some (Q ii j)) b NN (r0, repeat r0 n)) as ([out grad] & E1 & H1 & H2 & H3) end.
      { cbn [fst snd]. split; [reflexivity|]. split; [apply repeat_length|]. intros j Hj. now apply nth_error_repeat. }
      { intros ii [out grad] Hii (H1 & H2 & H3). cbn [fst snd] in *. rewrite HR by auto. cbn [obind].
        destruct wts as [w|] eqn:Ew.
        - rewrite (HWt w ii eq_refl Hii). cbn [obind].
          match goal with |- context [for_ n ?bd grad] =>
            destruct (each_loop (fun j a => a -! (r1 +! r1) *! dy ii *! Dg ii j *! AlsSpec.weight (Some w) (nth ii ch 0)) bd n grad)
              as (g' & Eg & Lg & Hg) end; [lia| |].
          + intros j a v Hj La Ev. rewrite (aget_ok _ _ _ Ev). cbn [obind]. rewrite HD by auto. cbn [obind]. apply aset_ok. lia.
          + rewrite Eg. cbn [obind]. eexists. split; [reflexivity|]. cbn [fst snd]. split; [|split; [lia|]].
            * cbn [sum]. rewrite <- H1. unfold T. ring.
            * intros j Hj. rewrite (Hg j _ Hj (H3 j Hj)). f_equal. unfold Q. cbn [sum]. ring.
        - match goal with |- context [for_ n ?bd grad] =>
            destruct (each_loop (fun j a => a -! (r1 +! r1) *! dy ii *! Dg ii j) bd n grad) as (g' & Eg & Lg & Hg) end; [lia| |].
          + intros j a v Hj La Ev. rewrite (aget_ok _ _ _ Ev). cbn [obind]. rewrite HD by auto. cbn [obind]. apply aset_ok. lia.
          + rewrite Eg. cbn [obind]. eexists. split; [reflexivity|]. cbn [fst snd]. split; [|split; [lia|]].
            * cbn [sum]. rewrite <- H1. unfold T. cbn [AlsSpec.weight]. ring.
            * intros j Hj. rewrite (Hg j _ Hj (H3 j Hj)). f_equal. unfold Q. cbn [sum AlsSpec.weight]. ring. }
      rewrite E1. cbn [obind]. cbn [fst snd] in H1, H2, H3.
      destruct (each_loop (fun _ a => rdiv a NN) (fun jj grad => do a <- aget grad jj; aset grad jj (rdiv a NN)) n grad)
        as (g' & Eg & Lg & Hg); [lia| |].
      { intros j a v Hj La Ev. rewrite (aget_ok _ _ _ Ev). cbn [obind]. apply aset_ok. lia. }
      rewrite Eg. cbn [obind]. do 3 eexists. split; [reflexivity|]. split; [exact HM'|]. split; [now apply HO|].
      split; [lia|]. intros j Hj. exists (rdiv (Q NN j) NN). split; [now apply Hg, H3|].
      split; [exact L1|]. split; [assert (Hf : first c + n <= np) by exact (ru_fit c Hc); lia|]. split; [intros s Hin; now apply (ch_lt ind)|].
      set (Ds := fun s => match ind with None => Dg s j | Some _ => Dg 0 j end).
      assert (HDs : forall k, k < NN -> Ds (nth k ch 0) = Dg k j).
      { intros k Hk. unfold Ds, ch. unfold NN in Hk. destruct ind as [i|]; cbn [AlsSpec.chosen nsamp] in *.
        - now replace k with 0 by lia.
        - now rewrite seq_nth by auto. }
      exists Ds. split.
      + intros s Hin. apply (In_nth _ _ 0) in Hin as (k & Hk & <-). rewrite ch_len in Hk. fold NN in Hk. fold ch. rewrite HDs by auto.
        destruct (V2 eq_refl k j Hk Hj) as (g & Eg' & Hd). unfold Dg. now rewrite (nth_error_nth _ _ _ Eg').
      + rewrite lsum_sum, ch_len. fold NN ch. f_equal. unfold Q. apply sum_ext. intros k Hk. rewrite HDs by auto. reflexivity.
    - match goal with |- context [for_ NN ?b r0] =>
        destruct (for_inv (fun ii (s : R) => s = sum ii T) b NN r0) as (out & E1 & H1) end.
      { reflexivity. }
      { intros ii out Hii H1. rewrite HR by auto. cbn [obind].
        destruct wts as [w|] eqn:Ew.
        - rewrite (HWt w ii eq_refl Hii). cbn [obind]. eexists. split; [reflexivity|]. cbn [sum]. rewrite <- H1. unfold T. ring.
        - eexists. split; [reflexivity|]. cbn [sum]. rewrite <- H1. unfold T. cbn [AlsSpec.weight]. ring. }
      rewrite E1. cbn [obind]. do 3 eexists. split; [reflexivity|]. split; [exact HM'|]. split; [now apply HO|]. reflexivity.
  Qed.

  Variable opt : list (event (R := R)) -> nat -> list R -> strat (R := R).
  Variable conv : ftrain U -> ftrain U -> bool.
  Hypothesis Hopt : opt_ok z ev opt f0 data lin.
  Notation Follows := (follows z ev rdiv f0 data wts grad_of).
  Notation Steps := (steps z ev rdiv opt f0 data wts grad_of).
  Notation RunS := (run z ev rdiv opt conv f0 data wts grad_of).

  Lemma solve_ok c s : c < dim -> strat_ok data lin (npar c) s -> forall th m log, length th = np -> MI th m c (S c) ->
    exists g th1 m' evs, solve bad z ev pge rdiv lin data wts c (npar c) s (Fp th) m log = Ok (g, Fp th1, m', log ++ evs) /\
      length g = npar c /\ length th1 = np /\ MI th1 m' c (S c) /\
      Follows c s th (evs ++ [EDone c g]) (splice (first c) g th1).
  Proof.
    intros Hc. induction s as [g|p ind want k IH]; intros Hs th m log L HM; cbn [solve strat_ok] in *.
    - exists g, th, m, []. rewrite app_nil_r. split; [reflexivity|]. split; auto. split; auto. split; auto. constructor.
    - destruct Hs as (Lp & Hi & Hw & Hk).
      assert (Hind : ind_ok ind) by (destruct ind; auto; exact I).
      destruct (ls_ok th c p ind want m L Hc Lp Hind Hw HM) as (v & g & m' & E & HM' & Ev & Hg).
      assert (L1 : length (splice (first c) p th) = np) by now apply ru_splice.
      destruct (IH v g (Hk v g) _ m' (log ++ [EAsk c p ind want v g]) L1 HM') as (g1 & th1 & m1 & evs & E1 & A & B & C & HF).
      exists g1, th1, m1, (EAsk c p ind want v g :: evs). split.
      + replace (match ind with None => (d_N data, None) | Some i => (1, Some [i]) end) with (nsamp ind, indx ind) by (destruct ind; reflexivity).
        rewrite E. cbn [obind]. rewrite E1, <- app_assoc. reflexivity.
      + split; auto. split; auto. split; auto. cbn [app]. econstructor; eauto.
  Qed.

  Lemma ru_get th c : length th = np -> c < dim ->
    ft_core_get (fp_ft (Fp th)) c (Some (repeat r0 (npar c))) = Ok (npar c, Some (firstn (npar c) (skipn (first c) th))).
  Proof.
    intros L Hc. destruct (ru_Fp th L) as [O _].
    destruct (nth_error (ft_cores (ft_with f0 th)) c) as [q|] eqn:Eq.
    2:{ exfalso. apply nth_error_None in Eq. destruct O as ((E & _) & _). apply (Nat.lt_irrefl c).
        apply (Nat.lt_le_trans _ _ _ Hc). exact (eq_ind_r (fun n => n <= c) Eq E). }
    assert (Eb := core_block (Fp th) c q O Eq).
    assert (Eb' : flat_map gf_params (fs q) = firstn (npar c) (skipn (first c) th)).
    { etransitivity; [exact Eb|]. unfold AlsSpec.npar, AlsSpec.first. rewrite <- ru_counts. reflexivity. }
    assert (Lb : length (flat_map gf_params (fs q)) = npar c).
    { rewrite Eb', firstn_length, skipn_length. pose proof (ru_fit c Hc). lia. }
    destruct (C10_core_get (ft_with f0 th) c q (repeat r0 (npar c)) (proj1 (proj2 O)) Eq) as [_ E].
    - rewrite repeat_length. lia.
    - rewrite Lb, Eb', (skipn_all2 (repeat r0 (npar c))), app_nil_r in E by (rewrite repeat_length; lia). exact E.
  Qed.

  Lemma subproblem_ok th m log c : length th = np -> c < dim -> MI th m c (S c) ->
    exists th' m' evs, subproblem bad z ev pge rdiv opt lin data wts c (mkals z ev (Fp th) m log) = Ok (mkals z ev (Fp th') m' (log ++ evs)) /\
      length th' = np /\ MI th' m' c (S c) /\ Follows c (opt log c (firstn (npar c) (skipn (first c) th))) th evs th'.
  Proof.
    intros L Hc HM. unfold subproblem. cbn [a_ftp a_mem a_log].
    assert (En : aget (fp_npc (Fp th)) c = Ok (npar c)).
    { change (aget (fp_npc ftp0) c = Ok (npar c)). rewrite ru_counts. apply aget_ok. apply nth_error_nth'. now rewrite ru_lc. }
    rewrite En. cbn [obind]. rewrite ru_get by auto. cbn [obind].
    assert (Lg : length (firstn (npar c) (skipn (first c) th)) = npar c).
    { rewrite firstn_length, skipn_length. pose proof (ru_fit c Hc). lia. }
    destruct (solve_ok c (opt log c (firstn (npar c) (skipn (first c) th))) Hc (Hopt log c _ Hc Lg) th m log L HM)
      as (g & th1 & m' & evs & E & A & B & C & HF).
    rewrite E. cbn [obind]. destruct (ru_update th1 c g B Hc A) as (c' & Eu & _). rewrite Eu. cbn [obind].
    exists (splice (first c) g th1), m', (evs ++ [EDone c g]). split; [now rewrite app_assoc|].
    split; [now apply ru_splice|]. split; [now apply MI_update|exact HF].
  Qed.

  Lemma steps_snoc cs log th log1 th1 c evs th2 : Steps cs log th log1 th1 ->
    Follows c (opt log1 c (firstn (npar c) (skipn (first c) th1))) th1 evs th2 ->
    Steps (cs ++ [c]) log th (log1 ++ evs) th2.
  Proof.
    clear. induction 1; intros HF; cbn [app].
    - econstructor; [exact HF|]. constructor.
    - econstructor; eauto.
  Qed.

  Lemma sweep_ok th m log : length th = np -> MI th m 0 1 ->
    exists th' m' log', sweep bad z ev pge rdiv opt conv lin data wts (mkals z ev (Fp th) m log)
        = Ok (mkals z ev (Fp th') m' log', conv (ft_with f0 th') (ft_with f0 th)) /\
      length th' = np /\ MI th' m' 0 1 /\ Steps (order z ev f0) log th log' th'.
  Proof.
    intros L HM. unfold sweep. cbn [a_ftp].
    match goal with |- context [for_ ?q _ _] => replace q with dim by (symmetry; apply O0) end.
    match goal with |- context [for_ dim ?b ?s0] =>
      destruct (for_inv (fun k st => exists th1 m1 log1, st = mkals z ev (Fp th1) m1 log1 /\ length th1 = np /\
        Steps (seq 0 k) log th log1 th1 /\ MI th1 m1 (Nat.min k (dim - 1)) (Nat.min (S k) dim)) b dim s0)
        as (st & E & th1 & m1 & log1 & -> & L1 & S1 & HM1) end.
    { exists th, m, log. split; auto. split; auto. split; [constructor|]. revert HM. apply MI_weak; lia. }
    { intros k st Hk (th1 & m1 & log1 & -> & L1 & S1 & HM1).
      rewrite Nat.min_l in HM1 by lia. rewrite Nat.min_l in HM1 by lia.
      destruct (subproblem_ok th1 m1 log1 k L1 Hk HM1) as (th2 & m2 & evs & E & L2 & HM2 & HF). rewrite E. cbn [obind].
      assert (S2 : Steps (seq 0 (S k)) log th (log1 ++ evs) th2) by (rewrite seq_S; eapply steps_snoc; eauto).
      destruct (Nat.ltb_spec k (dim - 1)) as [Hd|Hd].
      - rewrite Bool.orb_true_r. destruct (upd_lr_ok th2 m2 (log1 ++ evs) k (S k) L2 Hk HM2) as (m3 & E3 & HM3).
        rewrite E3. eexists. split; [reflexivity|]. exists th2, m3, (log1 ++ evs). split; auto. split; auto. split; auto.
        revert HM3. apply MI_weak; lia.
      - destruct (Nat.eqb_spec k 0); [lia|]. cbn [orb]. eexists. split; [reflexivity|]. exists th2, m2, (log1 ++ evs).
        split; auto. split; auto. split; auto. revert HM2. apply MI_weak; lia. }
    rewrite E. cbn [obind]. rewrite Nat.min_r in HM1 by lia. rewrite Nat.min_r in HM1 by lia.
    destruct (upd_rl_ok th1 m1 log1 (dim - 1) (dim - 1) L1 ltac:(lia)) as (m2 & E2 & HM2).
    { revert HM1. apply MI_weak; lia. }
    rewrite E2. cbn [obind]. set (bk := rev (seq 1 (dim - 2))).
    match goal with |- context [for_from 1 (dim - 2) ?b ?s0] =>
      destruct (for_from_inv (fun jj st => exists th2 m3 log2, st = mkals z ev (Fp th2) m3 log2 /\ length th2 = np /\
        Steps (seq 0 dim ++ firstn (jj - 1) bk) log th log2 th2 /\ MI th2 m3 (dim - jj) (dim - jj)) b 1 (dim - 2) s0)
        as (st & E3 & th2 & m3 & log2 & -> & L2 & S2 & HM3) end.
    { exists th1, m2, log1. split; auto. split; auto. split; [cbn [Nat.sub firstn]; now rewrite app_nil_r|exact HM2]. }
    { intros jj st Hj (th2 & m3 & log2 & -> & L2 & S2 & HM3). set (ii := dim - 1 - jj).
      destruct (subproblem_ok th2 m3 log2 ii L2 ltac:(unfold ii; lia)) as (th3 & m4 & evs & E4 & L3 & HM4 & HF).
      { revert HM3. apply MI_weak; unfold ii; lia. }
      rewrite E4. cbn [obind].
      destruct (upd_rl_ok th3 m4 (log2 ++ evs) ii ii L3 ltac:(unfold ii; lia) HM4) as (m5 & E5 & HM5).
      rewrite E5. eexists. split; [reflexivity|]. exists th3, m5, (log2 ++ evs). split; auto. split; auto. split.
      - assert (Enb : nth_error bk (jj - 1) = Some ii).
        { unfold bk. rewrite (nth_error_nth' _ 0) by (rewrite rev_length, seq_length; lia). f_equal.
          rewrite rev_nth by (rewrite seq_length; lia). rewrite seq_length, seq_nth by lia. unfold ii. lia. }
        replace (S jj - 1) with (S (jj - 1)) by lia. rewrite (firstn_S_nth _ _ _ Enb), app_assoc.
        eapply steps_snoc; eauto.
      - replace (dim - S jj) with ii by (unfold ii; lia). exact HM5. }
    rewrite E3. cbn [obind]. exists th2, m3, log2. split; [reflexivity|]. split; auto. split.
    - revert HM3. apply MI_weak; lia.
    - unfold order. fold dim bk. rewrite firstn_all2 in S2 by (unfold bk; rewrite rev_length, seq_length; lia). exact S2.
  Qed.

  Lemma sweeps_ok max : forall th m log, length th = np -> MI th m 0 1 ->
    exists th' m' log', sweeps bad z ev pge rdiv opt conv lin data wts max (mkals z ev (Fp th) m log) = Ok (mkals z ev (Fp th') m' log') /\
      length th' = np /\ RunS max log th log' th'.
  Proof.
    induction max as [|max IH]; intros th m log L HM; cbn [sweeps].
    - exists th, m, log. split; auto. split; auto. constructor.
    - destruct (sweep_ok th m log L HM) as (th1 & m1 & log1 & E & L1 & HM1 & HS). rewrite E. cbn [obind].
      destruct (conv (ft_with f0 th1) (ft_with f0 th)) eqn:Ec.
      + exists th1, m1, log1. split; auto. split; auto. eapply r_stop; eauto.
      + destruct (IH th1 m1 log1 L1 HM1) as (th2 & m2 & log2 & E2 & L2 & HR). rewrite E2.
        exists th2, m2, log2. split; auto. split; auto. eapply r_go; eauto.
  Qed.

  (** The whole run *)
  Theorem run_als_ok lin0 max : N * np <= length lin0 ->
    exists st th', run_als bad z ev pge bas rdiv opt conv lin ftp0 data wts lin0 max = Ok st /\
      a_ftp z ev st = Fp th' /\ length th' = np /\ RunS max [] (fp_params ftp0) (a_log z ev st) th'.
  Proof.
    intros Ll. unfold run_als. set (th0 := fp_params ftp0).
    assert (L0 : length th0 = np) by now apply ftp_params_length.
    assert (E0 : Fp th0 = ftp0).
    { unfold Fp. transitivity (set_ftp ftp0 f0 (fp_params ftp0)); [|destruct ftp0; reflexivity].
      exact (f_equal (fun g => set_ftp ftp0 g (fp_params ftp0)) (with_self bad Hbad ftp0 O0)). }
    assert (W : ft_wf f0) by apply O0.
    assert (Lrk : length (ft_ranks f0) = dim + 1).
    { destruct W as (Wd & _ & Wr & _). fold dim in Wd. rewrite Wr. cbn [length]. rewrite map_length. lia. }
    destruct (get_maxrank_ok f0) as (mr & Emr & _ & Hmr); [exact Lrk|].
    match goal with |- context [obind ?q _] => match type of Emr with _ = ?o => assert (Emr' : q = o) by exact Emr end end.
    rewrite Emr'. cbn [obind]. fold N.
    destruct (mem_init_ok th0 lin0 mr Ll) as (m & Em & HM).
    { intros k Hk. apply Hmr. unfold r, frk. apply nth_In. lia. }
    rewrite Em. cbn [obind].
    match goal with |- context [upd_rl _ _ _ _ _ (?q - 1)] => replace q with dim by (symmetry; apply O0) end.
    destruct (upd_rl_ok th0 m [] (dim - 1) 0 L0 ltac:(lia)) as (m1 & E1 & HM1).
    { revert HM. apply MI_weak; lia. }
    match goal with |- context [obind ?q _] => match type of E1 with ?l = ?o =>
      assert (E1' : q = o) by (transitivity l; [exact (f_equal (fun g => upd_rl bad z ev lin data (dim - 1) (mkals z ev g m [])) (eq_sym E0))|exact E1]) end end.
    rewrite E1'. cbn [obind]. destruct (Nat.ltb_spec dim 2); [lia|].
    match goal with |- context [for_ (dim - 2) ?b ?s0] =>
      destruct (for_inv (fun i st => exists m2, st = mkals z ev (Fp th0) m2 [] /\ MI th0 m2 0 (dim - 1 - i)) b (dim - 2) s0)
        as (st & E2 & m2 & -> & HM2) end.
    { exists m1. split; auto. rewrite Nat.sub_0_r. exact HM1. }
    { intros i st Hi (m2 & -> & HM2). destruct (upd_rl_ok th0 m2 [] (dim - 2 - i) 0 L0 ltac:(lia)) as (m3 & E3 & HM3).
      - revert HM2. apply MI_weak; lia.
      - rewrite E3. eexists. split; [reflexivity|]. exists m3. split; auto. revert HM3. apply MI_weak; lia. }
    rewrite E2. cbn [obind].
    destruct (sweeps_ok max th0 m2 [] L0) as (th' & m3 & log' & E3 & L3 & HR).
    { revert HM2. apply MI_weak; lia. }
    rewrite E3. exists (mkals z ev (Fp th') m3 log'), th'. split; auto.
  Qed.
End Run.
