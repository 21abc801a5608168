(** All-at-once regression: the work space, the objective and its gradient. *)
From Verif Require Export AlsRun PGradLen AioModel AioSpec.

Section SqNorm.
  Context {R : CRing} {F : Type}.
  Open Scope cr_scope.
  Add Ring Rr47 : (rth R).
  Notation G := (gfn R F).

  (** [b] put at offset [o], zero elsewhere *)
  Definition ext (b : list R) (o n : nat) : R := if n <? o then r0 else nth (n - o) b r0.
  Definition added (o : nat) (b g g' : list R) : Prop :=
    length g' = length g /\ forall n v, nth_error g n = Some v -> nth_error g' n = Some (v +! ext b o n).

  Lemma ext_app b1 b2 o n : ext (b1 ++ b2) o n = ext b1 o n +! ext b2 (o + length b1) n.
  Proof.
    unfold ext. destruct (Nat.ltb_spec n o); destruct (Nat.ltb_spec n (o + length b1)); try lia; try ring.
    - rewrite app_nth1 by lia. ring.
    - rewrite app_nth2 by lia. rewrite (nth_overflow b1) by lia. replace (n - o - length b1) with (n - (o + length b1)) by lia. ring.
  Qed.
  Lemma added_nil o g : added o [] g g.
  Proof.
    split; auto. intros n v E. rewrite E. f_equal. unfold ext. destruct (n <? o); [ring|]. rewrite nth_overflow by (cbn; lia). ring.
  Qed.
  Lemma added_app o b1 b2 g1 g2 g3 : added o b1 g1 g2 -> added (o + length b1) b2 g2 g3 -> added o (b1 ++ b2) g1 g3.
  Proof.
    intros [L1 H1] [L2 H2]. split; [congruence|]. intros n v E. rewrite (H2 _ _ (H1 _ _ E)). f_equal. rewrite ext_app. ring.
  Qed.
  Lemma add_loop b o g : o + length b <= length g ->
    exists g', for_ (length b) (fun l g => do a <- aget g (o + l); do x <- aget b l; aset g (o + l) (a +! x)) g = Ok g' /\ added o b g g'.
  Proof.
    intros L.
    match goal with |- context [for_ _ ?bd g] =>
      destruct (for_inv (fun k g' => length g' = length g /\ forall n v, nth_error g n = Some v ->
        nth_error g' n = Some (v +! if n <? o + k then ext b o n else r0)) bd (length b) g) as (g' & E & L' & H) end.
    - split; auto. intros n v E. rewrite E. f_equal. unfold ext. rewrite Nat.add_0_r. destruct (n <? o); ring.
    - intros k g1 Hk [L1 H1].
      destruct (nth_error g (o + k)) as [v|] eqn:Ev; [|apply nth_error_None in Ev; lia].
      assert (E1 := H1 _ _ Ev). rewrite (aget_ok _ _ _ E1). cbn [obind].
      destruct (nth_error b k) as [x|] eqn:Ex; [|apply nth_error_None in Ex; lia].
      rewrite (aget_ok _ _ _ Ex). cbn [obind]. rewrite aset_ok by lia. eexists. split; [reflexivity|]. split; [now rewrite upd_length|].
      intros n w En. destruct (Nat.eq_dec n (o + k)) as [->|Hn].
      + rewrite nth_error_upd_same by lia. assert (w = v) by congruence. subst w. f_equal.
        destruct (Nat.ltb_spec (o + k) (o + k)); [lia|]. destruct (Nat.ltb_spec (o + k) (o + S k)); [|lia].
        unfold ext. destruct (Nat.ltb_spec (o + k) o); [lia|]. replace (o + k - o) with k by lia. rewrite (nth_error_nth _ _ _ Ex). ring.
      + rewrite nth_error_upd_other by auto. rewrite (H1 _ _ En). do 2 f_equal.
        destruct (Nat.ltb_spec n (o + k)); destruct (Nat.ltb_spec n (o + S k)); auto; lia.
    - exists g'. split; [exact E|]. split; auto. intros n v En. rewrite (H _ _ En). do 2 f_equal.
      unfold ext. destruct (Nat.ltb_spec n (o + length b)); auto. destruct (n <? o); auto. now rewrite nth_overflow by lia.
  Qed.

  Variables (z : G) (ev : G -> R -> R).
  Variables (nsq : G -> R) (nsg : G -> R -> list R).
  Hypothesis Hnsg : forall u s, gf_wf u -> length (nsg u s) = length (gf_params u).

  Definition fsum (l : list G) (h : G -> R) : R := fold_right (fun u a => h u +! a) r0 l.
  Lemma fsum_app l1 l2 h : fsum (l1 ++ l2) h = fsum l1 h +! fsum l2 h.
  Proof. induction l1 as [|u l1 IH]; cbn [app].
    - change (fsum [] h) with (r0 : R). ring.
    - change (h u +! fsum (l1 ++ l2) h = h u +! fsum l1 h +! fsum l2 h). rewrite IH. ring.
  Qed.
  Lemma fsum_upd l q u u' h : nth_error l q = Some u -> fsum (upd l q u') h = fsum l h +! (h u' -! h u).
  Proof.
    revert q. induction l as [|a l IH]; intros [|q] E; try discriminate; cbn [upd].
    - injection E as ->. change (h u' +! fsum l h = h u +! fsum l h +! (h u' -! h u)). ring.
    - change (h a +! fsum (upd l q u') h = h a +! fsum l h +! (h u' -! h u)). rewrite (IH q E). ring.
  Qed.
  Notation blocks l s := (flat_map (fun u : G => nsg u s) l).
  Lemma blocks_len l s : Forall gf_wf l -> length (blocks l s) = lnum l.
  Proof.
    induction 1 as [|u l W _ IH]; [reflexivity|]. cbn [flat_map]. rewrite app_length, IH, Hnsg by auto.
    rewrite gf_params_length by auto. reflexivity.
  Qed.
  Lemma blocks_nth l s q u i : Forall gf_wf l -> nth_error l q = Some u -> i < gf_num u ->
    nth (lnum (firstn q l) + i) (blocks l s) r0 = nth i (nsg u s) r0.
  Proof.
    intros W. revert q. induction W as [|a l Wa W IH]; intros [|q] E Hi; try discriminate.
    - injection E as ->. cbn [firstn flat_map]. change (lnum []) with 0. cbn [Nat.add]. apply app_nth1. rewrite Hnsg, gf_params_length; auto.
    - cbn [nth_error] in E. cbn [firstn flat_map]. change (lnum (a :: firstn q l)) with (gf_num a + lnum (firstn q l)).
      rewrite app_nth2; rewrite Hnsg, gf_params_length by auto; [|lia].
      replace (gf_num a + lnum (firstn q l) + i - gf_num a) with (lnum (firstn q l) + i) by lia. now apply IH.
  Qed.
  Lemma locate (l : list G) n : n < lnum l -> exists q u i, nth_error l q = Some u /\ i < gf_num u /\ n = lnum (firstn q l) + i.
  Proof.
    revert n. induction l as [|a l IH]; intros n Hn; [cbn in Hn; lia|]. change (lnum (a :: l)) with (gf_num a + lnum l) in Hn.
    destruct (Nat.lt_ge_cases n (gf_num a)) as [H|H].
    - exists 0, a, n. repeat split; auto.
    - destruct (IH (n - gf_num a) ltac:(lia)) as (q & u & i & E & Hi & En). exists (S q), u, i. split; [exact E|]. split; auto.
      cbn [firstn]. change (lnum (a :: firstn q l)) with (gf_num a + lnum (firstn q l)). lia.
  Qed.

  Lemma qma_sqnorm_ok (c : qma G) s want g off : length (fs c) = nr c * nc c -> Forall gf_wf (fs c) ->
    (want = true -> off + lnum (fs c) <= length g) ->
    exists g', qma_sqnorm nsq nsg c s want g off = Ok (fsum (fs c) (fun u => s *! nsq u), g') /\
      (if want then added off (blocks (fs c) s) g g' else g' = g).
  Proof.
    intros Lc W Hw. unfold qma_sqnorm. rewrite <- Lc.
    match goal with |- context [for_ _ ?bd _] =>
      destruct (for_inv (fun k st => fst (fst st) = fsum (firstn k (fs c)) (fun u => s *! nsq u) /\ snd st = lnum (firstn k (fs c)) /\
        if want then added off (blocks (firstn k (fs c)) s) g (snd (fst st)) else snd (fst st) = g) bd (length (fs c)) (r0, g, 0))
        as ([[out g'] run] & E & H1 & H2 & H3) end.
    - cbn [fst snd firstn flat_map]. split; [reflexivity|]. split; [reflexivity|]. destruct want; auto. apply added_nil.
    - intros k [[out g1] run] Hk (H1 & H2 & H3). cbn [fst snd] in H1, H2, H3.
      destruct (nth_error (fs c) k) as [u|] eqn:Eu; [|apply nth_error_None in Eu; lia].
      rewrite (aget_ok _ _ _ Eu). cbn [obind].
      assert (Wu : gf_wf u) by (rewrite Forall_forall in W; eapply W, nth_error_In, Eu).
      assert (Wk : Forall gf_wf (firstn k (fs c))) by (pose proof W as W'; rewrite <- (firstn_skipn k (fs c)) in W'; apply Forall_app in W'; tauto).
      assert (EF : firstn (S k) (fs c) = firstn k (fs c) ++ [u]) by now apply firstn_S_nth.
      assert (LF : lnum (firstn (S k) (fs c)) = lnum (firstn k (fs c)) + gf_num u).
      { rewrite EF. unfold lnum. rewrite map_app, list_sum_app. cbn. lia. }
      assert (Hg : exists g2, (if want then for_ (length (nsg u s)) (fun l grad => do a <- aget grad (off + run + l); do b <- aget (nsg u s) l; aset grad (off + run + l) (a +! b)) g1 else Ok g1) = Ok g2 /\
         (if want then added (off + run) (nsg u s) g1 g2 else g2 = g)).
      { destruct want; [|exists g1; auto]. specialize (Hw eq_refl).
        apply add_loop. rewrite Hnsg, gf_params_length by auto. destruct H3 as [L3 _].
        assert (lnum (firstn (S k) (fs c)) <= lnum (fs c)).
        { rewrite <- (firstn_skipn (S k) (fs c)) at 2. unfold lnum. rewrite map_app, list_sum_app. lia. }
        lia. }
      destruct Hg as (g2 & Eg & Hg). rewrite Eg. cbn [obind]. eexists. split; [reflexivity|]. cbn [fst snd].
      split; [rewrite EF, fsum_app, H1; cbn [fsum fold_right]; ring|]. split; [lia|].
      destruct want; auto. rewrite EF, flat_map_app. cbn [flat_map]. rewrite app_nil_r.
      eapply added_app; [exact H3|]. rewrite blocks_len by auto. now rewrite <- H2.
    - rewrite E. cbn [obind]. cbn [fst snd] in *. exists g'. rewrite firstn_all in *. split; [now rewrite H1|]. exact H3.
  Qed.

  Lemma ft_sqnorm_ok (f : ftrain G) hw want g : ft_ok f ->
    (want = true -> lnum (ft_funs f) <= length g) ->
    exists g', ft_sqnorm z ev nsq nsg f (repeat hw (ft_dim f)) want g = Ok (fsum (ft_funs f) (fun u => hw *! nsq u), g') /\
      (if want then added 0 (blocks (ft_funs f) hw) g g' else g' = g).
  Proof.
    intros O Hw. unfold ft_sqnorm. set (cs := ft_cores f : list (qma G)).
    match goal with |- context [for_ _ ?bd _] =>
      destruct (for_inv (fun k st => fst (fst st) = fsum (cfuns (firstn k cs)) (fun u => hw *! nsq u) /\ snd st = lnum (cfuns (firstn k cs)) /\
        if want then added 0 (blocks (cfuns (firstn k cs)) hw) g (snd (fst st)) else snd (fst st) = g) bd (ft_dim f) (r0, g, 0))
        as ([[out g'] run] & E & H1 & H2 & H3) end.
    - cbn [fst snd firstn flat_map cfuns]. split; [reflexivity|]. split; [reflexivity|]. destruct want; auto. apply added_nil.
    - intros k [[out g1] run] Hk (H1 & H2 & H3). cbn [fst snd] in H1, H2, H3.
      destruct (train_nth f O k Hk) as (c & En & Eg & Qc & Wc).
      match goal with |- context [obind (aget ?a k) _] => replace (aget a k) with (Ok c : outcome (qma G)) by (symmetry; exact Eg) end. cbn [obind].
      destruct (qm_nparams_ok c Qc Wc) as (m & Em & _). rewrite Em. cbn [obind].
      rewrite (aget_ok _ _ hw) by now apply nth_error_repeat. cbn [obind].
      assert (EF := cfuns_snoc f O k c En). fold cs in EF.
      assert (LE := cfuns_firstn_le f O (S k)). fold cs in LE. rewrite EF, lnum_app in LE.
      assert (Wk : Forall gf_wf (cfuns (firstn k cs))).
      { assert (F' := funs_wf f O). unfold ft_funs in F'. fold cs in F'. rewrite <- (firstn_skipn k cs), cfuns_app in F'. apply Forall_app in F'. tauto. }
      destruct (qma_sqnorm_ok c hw want g1 run) as (g2 & E2 & H4); auto.
      { intros Ew. specialize (Hw Ew). rewrite Ew in H3. destruct H3 as [L3 _]. lia. }
      match goal with |- context [obind ?q _] => replace q with (Ok (fsum (fs c) (fun u => hw *! nsq u), g2)) by (symmetry; exact E2) end.
      cbn [obind]. eexists. split; [reflexivity|]. cbn [fst snd].
      split; [rewrite EF, fsum_app, H1; reflexivity|]. split; [rewrite EF, lnum_app; lia|].
      destruct want; [|congruence]. rewrite EF, flat_map_app. eapply added_app; [exact H3|]. rewrite blocks_len by auto.
      cbn [Nat.add]. now rewrite <- H2.
    - match goal with |- context [obind ?q _] => match type of E with _ = ?o => replace q with o by (symmetry; exact E) end end.
      cbn [obind]. cbn [fst snd] in *. exists g'.
      assert (EA : cfuns (firstn (ft_dim f) cs) = ft_funs f) by (rewrite firstn_all2; [reflexivity|destruct O; unfold cs; lia]).
      rewrite EA in *. split; [now rewrite H1|]. exact H3.
  Qed.
End SqNorm.

Lemma ftp_eta {R : CRing} {F : Type} (ftp : ftparam R (gfn R F)) : set_ftp ftp (fp_ft ftp) (fp_params ftp) = ftp.
Proof. destruct ftp. reflexivity. Qed.

Section Run.
  Context {R : CRing} {F : Type}.
  Open Scope cr_scope.
  Add Ring Rr48 : (rth R).
  Notation G := (gfn R F).
  Variable bad : R -> bool.
  Hypothesis Hbad : forall v, bad v = false.
  Variables (z : G) (ev : G -> R -> R) (pge : G -> R -> R * list R) (bas : G -> R -> list R).
  Variables (nsq : G -> R) (nsg : G -> R -> list R).
  Hypothesis Hnsg : forall u s, gf_wf u -> length (nsg u s) = length (gf_params u).
  Variable rdiv : R -> nat -> R.
  Notation U := (evU z ev).
  Variable lin : bool.
  Hypothesis Hlin : lin = true -> linear_in_params ev bas.
  Hypothesis Hnon : lin = false -> forall u y, gf_wf u -> fst (pge u y) = ev u y /\ length (snd (pge u y)) = length (gf_params u).

  Variable ftp0 : ftparam R U.
  Hypothesis O0 : ftp_ok ftp0.
  Let f0 : ftrain U := fp_ft ftp0.
  Let dim := ft_dim f0.
  Let np := fp_nparams ftp0.
  Hypothesis D2 : 2 <= dim.
  (** the running buffers have two entries for each parameter, and are used with one
      entry for each function *)
  Let nf := length (flat_map fs (ft_cores f0)).
  Hypothesis Hnf : nf <= 2 * np.
  Variable data : sldata (R := R).
  Let N := d_N data.
  Hypothesis Lx : N * dim <= length (d_x data).
  Hypothesis Ly : N <= length (d_y data).
  Variable wts : option (list R).
  Hypothesis Lw : forall w, wts = Some w -> N <= length w.
  Variable reg : option R.
  Let X := sample z ev f0 data.
  Notation value := (value z ev f0 data).
  Notation chosen := (chosen data).
  Notation target := (target data).
  Notation weight := (weight wts).
  Notation Fp := (Fp z ev ftp0).
  Notation dep := (dep z ev pge bas lin ftp0).
  Notation nsamp := (nsamp data).
  Notation ind_ok := (ind_ok data).
  Notation grad_of := (grad_of z ev pge bas rdiv lin ftp0 data wts).

  Definition OI (o : aiomem (R := R)) : Prop :=
    N <= length (m_evals (o_m o)) /\ N * np <= length (m_grad (o_m o)) /\ nf <= length (m_rgrad (o_m o)) /\ nf <= length (o_re o) /\
    N * np <= length (m_lin (o_m o)) /\ ws_wf (m_ws (o_m o)) /\
    (lin = true -> forall s, s < N -> firstn np (skipn (s * np) (m_lin (o_m o))) = concat (basis_blocks bas (ft_cores f0) (X s))).

  Lemma lin_either : lin = true \/ lin = false.
  Proof. clear. destruct lin; auto. Qed.

  Lemma ar_nf th : length (flat_map fs (ft_cores (fp_ft (Fp th)))) = nf.
  Proof.
    change (length (flat_map fs (ft_cores (ft_with (fp_ft ftp0) th))) = nf).
    transitivity (length (lwith (flat_map fs (ft_cores (fp_ft ftp0))) th)); [|apply lwith_length].
    exact (f_equal (@length _) (cfuns_cwith (ft_cores (fp_ft ftp0)) th)).
  Qed.

  Lemma ar_update th p : length th = np -> length p = np -> ftp_update bad (Fp th) p = Ok (Fp p).
  Proof.
    intros L Lp. destruct (ru_Fp bad Hbad z ev ftp0 O0 th L) as [O S].
    unfold ftp_update. change (fp_nparams (Fp th)) with np. change (fp_params (Fp th)) with th.
    rewrite (blit_ok _ _ p) by lia. cbn [obind skipn].
    rewrite firstn_all2 by lia. rewrite splice_full by congruence.
    destruct (ftp_set bad (Fp th) p O Lp) as (g & Eg & _ & _ & Ew); [intros; apply Hbad|].
    match goal with |- obind ?q _ = _ => replace q with (Ok (fp_nparams (Fp th), g)) by (symmetry; exact Eg) end. cbn [obind].
    unfold AlsRun.Fp. cbn [set_ftp]. f_equal. unfold set_ftp. cbn. f_equal. rewrite Ew.
    exact (with_with bad Hbad ftp0 th p O0 L Lp).
  Qed.

  Lemma ar_dep th x grad0 grad n e : length th = np -> length x = dim ->
    grad_is z ev (Fp th) x grad0 grad (fun u y => if lin then bas u y else snd (pge u y)) ->
    n < np -> nth_error grad n = Some e -> dep th x n e.
  Proof.
    intros L Hx (_ & _ & HG) Hn Ee.
    destruct (nth_error th n) as [v|] eqn:Ev; [|apply nth_error_None in Ev; lia].
    destruct (HG n v Ev) as (w & k & u & l & Hk & Hu & Wu & El & Eg & Ht).
    exists (nth k x r0), w, u, l, v. split; auto. split; auto. split; auto. split; [congruence|].
    intros t. etransitivity; [|exact (Ht t)].
    assert (EW := with_with bad Hbad ftp0 th (upd th n t) O0 L ltac:(rewrite upd_length; exact L)).
    exact (f_equal (fun q : ftrain U => train_value q x) (eq_sym EW)).
  Qed.

  (** The first [ii] values and gradients have been computed *)
  Definition aev th (want : bool) ind ii (o : aiomem (R := R)) : Prop :=
    (forall k, k < ii -> nth_error (m_evals (o_m o)) k = Some (value th (nth k (chosen ind) 0))) /\
    (want = true -> forall k j, k < ii -> j < np -> exists g, nth_error (m_grad (o_m o)) (k * np + j) = Some g /\
       dep th (X (nth k (chosen ind) 0)) j g).

  (** What one more evaluation leaves *)
  Lemma ar_step th want ind ii o v grad re rg ws lv : ii < nsamp ind -> ind_ok ind -> OI o -> aev th want ind ii o ->
    v = value th (nth ii (chosen ind) 0) -> length grad = length (m_grad (o_m o)) - ii * np -> ii * np <= length (m_grad (o_m o)) ->
    length re = length (o_re o) -> length rg = length (m_rgrad (o_m o)) -> ws_wf ws ->
    length lv = length (m_lin (o_m o)) -> (lin = true -> lv = m_lin (o_m o)) ->
    (want = true -> forall j, j < np -> exists g, nth_error grad j = Some g /\ dep th (X (nth ii (chosen ind) 0)) j g) ->
    exists e, aset (m_evals (o_m o)) ii v = Ok e /\
      forall o', o_re o' = re -> m_evals (o_m o') = e -> m_grad (o_m o') = firstn (ii * np) (m_grad (o_m o)) ++ grad -> m_rgrad (o_m o') = rg ->
        m_ws (o_m o') = ws -> m_lin (o_m o') = lv -> OI o' /\ aev th want ind (S ii) o'.
  Proof.
    intros Hii Hind (A1 & A2 & A3 & A4 & A5 & A6 & A7) [V1 V2] Ev Lg Lg' Lre Lrg Hws Llv Hlv Hd.
    pose proof (ch_le data ind Hind) as Hle. fold N in Hle.
    rewrite aset_ok by lia. eexists. split; [reflexivity|]. intros o' E1 E2 E3 E4 E5 E6.
    assert (Lf : length (firstn (ii * np) (m_grad (o_m o))) = ii * np) by (apply firstn_length_le; lia).
    split.
    - unfold OI. rewrite E1, E2, E3, E4, E5, E6. rewrite upd_length, app_length, Lf. repeat split; try lia; try apply Hws.
      intros El. rewrite (Hlv El). now apply A7.
    - split.
      + intros k Hk. rewrite E2. destruct (Nat.eq_dec k ii) as [->|Hn].
        * rewrite nth_error_upd_same by lia. now rewrite Ev.
        * rewrite nth_error_upd_other by auto. apply V1. lia.
      + intros Ew k j Hk Hj. rewrite E3. destruct (Nat.eq_dec k ii) as [->|Hn].
        * rewrite nth_error_app2 by lia. rewrite Lf. replace (ii * np + j - ii * np) with j by lia. now apply Hd.
        * rewrite nth_error_app1 by (rewrite Lf; nia). rewrite nth_error_firstn by nia. apply V2; auto. lia.
  Qed.

  Lemma ar_dim th : fp_dim (Fp th) = dim.
  Proof. apply O0. Qed.

  Lemma ar_eval_grad th ind want o xs : lin = false -> length th = np -> ind_ok ind ->
    (forall ii, ii < nsamp ind -> firstn dim (skipn (ii * dim) xs) = X (nth ii (chosen ind) 0)) ->
    OI o -> exists o', aio_eval_grad z ev pge (Fp th) (nsamp ind) xs want o = Ok o' /\ OI o' /\ aev th want ind (nsamp ind) o'.
  Proof.
    intros El L Hind Hxx HO. destruct (ru_Fp bad Hbad z ev ftp0 O0 th L) as [O _]. unfold aio_eval_grad. rewrite ar_dim.
    pose proof (ch_le data ind Hind) as Hle. fold N in Hle.
    match goal with |- context [for_ (AlsRun.nsamp data ind) ?b o] =>
      destruct (for_inv (fun ii o => OI o /\ aev th want ind ii o) b (nsamp ind) o) as (o' & E & H1 & H2) end.
    { split; auto. split; intros; lia. }
    2:{ exists o'. auto. }
    intros ii o1 Hii [HO1 HE]. pose proof HO1 as (A1 & A2 & A3 & A4 & A5 & A6 & A7).
    assert (Hs : nth ii (chosen ind) 0 < N) by (apply (ch_lt data ind); auto; now apply ch_in).
    set (x := X (nth ii (chosen ind) 0)).
    assert (HX : length x = dim) by exact (ru_X z ev ftp0 D2 data Lx Ly _ Hs).
    rewrite (Hxx ii Hii). fold x. change (fp_nparams (Fp th)) with np.
    destruct want.
    - destruct (gradeval_ok z ev (Fp th) O x HX pge (skipn (ii * np) (m_grad (o_m o1))) (m_lin (o_m o1)) (o_re o1) (m_rgrad (o_m o1)))
        as (g' & ge' & mem' & ev' & E & HG).
      + intros u y W. now apply Hnon.
      + exact D2.
      + change (np <= length (skipn (ii * np) (m_grad (o_m o1)))). rewrite skipn_length. nia.
      + change (np <= length (m_lin (o_m o1))). nia.
      + rewrite ar_nf. exact A4.
      + rewrite ar_nf. exact A3.
      + pose proof (ftp_gradeval_len _ _ _ _ _ _ _ _ _ _ _ _ E) as (L1 & L2 & L3 & L4).
        match goal with |- context [obind ?q _] => match type of E with _ = ?w => replace q with w by (symmetry; exact E) end end. cbn [obind].
        destruct (ar_step th true ind ii o1 (train_value (fp_ft (Fp th)) x) g' mem' ev' (m_ws (o_m o1)) ge' Hii Hind HO1 HE) as (e & Ee & HH);
          auto; try (rewrite El; discriminate).
        * rewrite L1, skipn_length. lia.
        * nia.
        * intros _ j Hj. destruct (nth_error g' j) as [g|] eqn:Eg.
          -- exists g. split; auto. eapply ar_dep; eauto. rewrite El. exact HG.
          -- exfalso. apply nth_error_None in Eg. rewrite L1, skipn_length in Eg. nia.
        * rewrite Ee. cbn [obind]. eexists. split; [reflexivity|]. apply HH; reflexivity.
    - destruct (ft_eval_correct (fp_ft (Fp th)) (m_ws (o_m o1)) x) as (w' & E & W).
      + apply O.
      + now apply (ru_small bad Hbad z ev ftp0 O0 D2 data Lx Ly).
      + exact A6.
      + exact HX.
      + match goal with |- context [obind ?q _] => match type of E with _ = ?w => replace q with w by (symmetry; exact E) end end. cbn [obind].
        destruct (ar_step th false ind ii o1 (train_value (fp_ft (Fp th)) x) (skipn (ii * np) (m_grad (o_m o1))) (o_re o1) (m_rgrad (o_m o1)) w' (m_lin (o_m o1)) Hii Hind HO1 HE)
          as (e & Ee & HH); auto; try discriminate.
        * apply skipn_length.
        * nia.
        * rewrite Ee. cbn [obind]. eexists. split; [reflexivity|]. apply HH; try reflexivity. cbn. now rewrite firstn_skipn.
  Qed.

  Lemma ar_linparam th ind want o : lin = true -> length th = np -> ind_ok ind -> OI o ->
    exists o', aio_linparam_eval_grad z ev (Fp th) (nsamp ind) (indx ind) want o = Ok o' /\ OI o' /\ aev th want ind (nsamp ind) o'.
  Proof.
    intros El L Hind HO. destruct (ru_Fp bad Hbad z ev ftp0 O0 th L) as [O _]. unfold aio_linparam_eval_grad.
    pose proof (ch_le data ind Hind) as Hle. fold N in Hle.
    match goal with |- context [for_ (AlsRun.nsamp data ind) ?b o] =>
      destruct (for_inv (fun ii o => OI o /\ aev th want ind ii o) b (nsamp ind) o) as (o' & E & H1 & H2) end.
    { split; auto. split; intros; lia. }
    2:{ exists o'. auto. }
    intros ii o1 Hii [HO1 HE]. pose proof HO1 as (A1 & A2 & A3 & A4 & A5 & A6 & A7).
    assert (Hs : nth ii (chosen ind) 0 < N) by (apply (ch_lt data ind); auto; now apply ch_in).
    rewrite (ch_nth data) by auto. cbn [obind].
    set (x := X (nth ii (chosen ind) 0)).
    assert (HX : length x = dim) by exact (ru_X z ev ftp0 D2 data Lx Ly _ Hs).
    change (fp_nparams (Fp th)) with np. set (lv := skipn (nth ii (chosen ind) 0 * np) (m_lin (o_m o1))).
    assert (Hlv : firstn (fp_nparams (Fp th)) lv = concat (basis_blocks bas (ft_cores (fp_ft (Fp th))) x)).
    { transitivity (concat (basis_blocks bas (ft_cores f0) x)); [exact (A7 El _ Hs)|].
      pose proof (ru_blocks bad Hbad z ev bas lin Hlin ftp0 O0 th x El L) as EB. exact (f_equal (@concat _) (eq_sym EB)). }
    destruct want.
    - destruct (gradeval_lin_ok z ev (Fp th) O x HX bas (proj1 (Hlin El)) lv Hlv (skipn (ii * np) (m_grad (o_m o1))) (o_re o1) (m_rgrad (o_m o1)))
        as (g' & mem' & ev' & E & HG).
      + exact D2.
      + change (np <= length (skipn (ii * np) (m_grad (o_m o1)))). rewrite skipn_length. nia.
      + rewrite ar_nf. exact A4.
      + rewrite ar_nf. exact A3.
      + pose proof (ftp_gradeval_lin_len _ _ _ _ _ _ _ _ _ _ E) as (L1 & L2 & L3 & L4).
        match goal with |- context [obind ?q _] => match type of E with _ = ?w => replace q with w by (symmetry; exact E) end end. cbn [obind].
        destruct (ar_step th true ind ii o1 (train_value (fp_ft (Fp th)) x) g' mem' ev' (m_ws (o_m o1)) (m_lin (o_m o1)) Hii Hind HO1 HE) as (e & Ee & HH); auto.
        * rewrite L1, skipn_length. lia.
        * nia.
        * intros _ j Hj. destruct (nth_error g' j) as [g|] eqn:Eg.
          -- exists g. split; auto. eapply ar_dep; eauto. rewrite El. exact HG.
          -- exfalso. apply nth_error_None in Eg. rewrite L1, skipn_length in Eg. nia.
        * rewrite Ee. cbn [obind]. eexists. split; [reflexivity|]. apply HH; reflexivity.
    - destruct (eval_lin_ok z ev (Fp th) O x HX bas (proj1 (Hlin El)) lv Hlv (o_re o1)) as (mem' & E & Lm).
      + rewrite ar_nf. exact A4.
      + match goal with |- context [obind ?q _] => match type of E with _ = ?w => replace q with w by (symmetry; exact E) end end. cbn [obind].
        destruct (ar_step th false ind ii o1 (train_value (fp_ft (Fp th)) x) (skipn (ii * np) (m_grad (o_m o1))) mem' (m_rgrad (o_m o1)) (m_ws (o_m o1)) (m_lin (o_m o1)) Hii Hind HO1 HE)
          as (e & Ee & HH); auto; try discriminate.
        * apply skipn_length.
        * nia.
        * rewrite Ee. cbn [obind]. eexists. split; [reflexivity|]. apply HH; try reflexivity. cbn. now rewrite firstn_skipn.
  Qed.

  Lemma ar_interface th p ind want o : length th = np -> length p = np -> ind_ok ind -> OI o ->
    exists o', aio_interface bad z ev pge lin p (nsamp ind) (indx ind) want data (Fp th, o) = Ok (Fp p, o') /\
      OI o' /\ aev p want ind (nsamp ind) o'.
  Proof.
    intros L Lp Hind HO. unfold aio_interface. rewrite ar_update by auto. cbn [obind]. rewrite ar_dim.
    destruct (subset_ok z ev ftp0 D2 data Lx Ly ind Hind) as (xs & Ex & _ & H2).
    match goal with |- context [obind ?q _] => match type of Ex with _ = ?w => replace q with w by (symmetry; exact Ex) end end. cbn [obind].
    destruct lin_either as [El|El]; rewrite El.
    - destruct (ar_linparam p ind want o El Lp Hind HO) as (o' & E1 & E2). rewrite E1. cbn [obind]. eauto.
    - destruct (ar_eval_grad p ind want o xs El Lp Hind H2 HO) as (o' & E1 & E2). rewrite E1. cbn [obind]. eauto.
  Qed.

  Lemma ar_ls th p ind want o : length th = np -> length p = np -> ind_ok ind -> OI o ->
    exists v g o', aio_least_squares bad z ev pge rdiv lin np p (nsamp ind) (indx ind) data wts want (if want then repeat r0 np else []) (Fp th, o)
        = Ok (v, g, (Fp p, o')) /\ OI o' /\
      v = objective z ev rdiv f0 data wts p ind /\
      (if want then length g = np /\ (forall j, j < np -> exists e, nth_error g j = Some e /\ grad_of p ind j e) else g = []).
  Proof.
    intros L Lp Hind HO0. destruct (ar_interface th p ind want o L Lp Hind HO0) as (o' & E & HO' & [V1 V2]).
    unfold aio_least_squares. rewrite E. cbn [obind snd].
    set (n := np) in *. set (NN := nsamp ind) in *. set (ch := chosen ind) in *.
    set (dy k := target (nth k ch 0) -! value p (nth k ch 0)).
    set (T k := weight (nth k ch 0) *! (dy k *! dy k)).
    set (Dg k j := nth (k * n + j) (m_grad (o_m o')) r0).
    assert (Hs : forall k, k < NN -> nth k ch 0 < N) by (intros k Hk; apply (ch_lt data ind); auto; now apply ch_in).
    assert (HR : forall ii, ii < NN ->
      (do i <- (match indx ind with None => Ok ii | Some ix => aget ix ii end);
       do y <- aget (d_y data) i; do e <- aget (m_evals (o_m o')) ii; Ok (i, y -! e)) = Ok (nth ii ch 0, dy ii)).
    { intros ii Hii. rewrite (ch_nth data) by auto. cbn [obind]. fold ch. specialize (Hs ii Hii).
      rewrite (aget_ok (d_y data) _ (target (nth ii ch 0))) by (apply nth_error_nth'; lia). cbn [obind].
      rewrite (aget_ok _ _ _ (V1 ii Hii)). reflexivity. }
    assert (HO : forall v, v = sum NN T -> rdiv v NN = objective z ev rdiv f0 data wts p ind).
    { intros v ->. unfold objective. rewrite AlsRun.lsum_sum, ch_len. reflexivity. }
    assert (HWt : forall w k, wts = Some w -> k < NN -> aget w (nth k ch 0) = Ok (weight (nth k ch 0))).
    { intros w k Ew Hk. apply aget_ok. unfold AlsSpec.weight. rewrite Ew. apply nth_error_nth'. specialize (Lw w Ew). specialize (Hs k Hk). lia. }
    destruct want.
    - set (Q ii j := sum ii (fun k => weight (nth k ch 0) *! (ropp ((r1 +! r1) *! dy k) *! Dg k j))).
      assert (HD : forall k j, k < NN -> j < n -> aget (m_grad (o_m o')) (k * n + j) = Ok (Dg k j)).
      { intros k j Hk Hj. destruct (V2 eq_refl k j Hk Hj) as (g & Eg & _). unfold Dg. rewrite (nth_error_nth _ _ _ Eg). now apply aget_ok. }
      match goal with |- context [for_ NN ?b (r0, repeat r0 n)] =>
        destruct (for_inv (fun ii (s : R * list R) => fst s = sum ii T /\ length (snd s) = n /\
          forall j, j < n -> nth_error (snd s) j = Some (Q ii j)) b NN (r0, repeat r0 n)) as ([out grad] & E1 & H1 & H2 & H3) end.
      { cbn [fst snd]. split; [reflexivity|]. split; [apply repeat_length|]. intros j Hj. now apply nth_error_repeat. }
      { intros ii [out grad] Hii (H1 & H2 & H3). cbn [fst snd] in *. rewrite HR by auto. cbn [obind].
        destruct wts as [w|] eqn:Ew.
        - rewrite (HWt w ii eq_refl Hii). cbn [obind].
          match goal with |- context [for_ n ?bd grad] =>
            destruct (each_loop (fun j a => a -! (r1 +! r1) *! dy ii *! Dg ii j *! AlsSpec.weight (Some w) (nth ii ch 0)) bd n grad)
              as (g' & Eg & Lg & Hg) end; [lia| |].
          + intros j a v Hj La Ev. rewrite (aget_ok _ _ _ Ev). cbn [obind]. rewrite HD by auto. cbn [obind]. apply aset_ok. lia.
          + rewrite Eg. cbn [obind]. eexists. split; [reflexivity|]. cbn [fst snd]. split; [|split; [lia|]].
            * cbn [sum]. rewrite <- H1. unfold T. ring.
            * intros j Hj. rewrite (Hg j _ Hj (H3 j Hj)). f_equal. unfold Q. cbn [sum]. ring.
        - match goal with |- context [for_ n ?bd grad] =>
            destruct (each_loop (fun j a => a -! (r1 +! r1) *! dy ii *! Dg ii j) bd n grad) as (g' & Eg & Lg & Hg) end; [lia| |].
          + intros j a v Hj La Ev. rewrite (aget_ok _ _ _ Ev). cbn [obind]. rewrite HD by auto. cbn [obind]. apply aset_ok. lia.
          + rewrite Eg. cbn [obind]. eexists. split; [reflexivity|]. cbn [fst snd]. split; [|split; [lia|]].
            * cbn [sum]. rewrite <- H1. unfold T. cbn [AlsSpec.weight]. ring.
            * intros j Hj. rewrite (Hg j _ Hj (H3 j Hj)). f_equal. unfold Q. cbn [sum AlsSpec.weight]. ring. }
      rewrite E1. cbn [obind]. cbn [fst snd] in H1, H2, H3.
      destruct (each_loop (fun _ a => rdiv a NN) (fun jj grad => do a <- aget grad jj; aset grad jj (rdiv a NN)) n grad)
        as (g' & Eg & Lg & Hg); [lia| |].
      { intros j a v Hj La Ev. rewrite (aget_ok _ _ _ Ev). cbn [obind]. apply aset_ok. lia. }
      rewrite Eg. cbn [obind]. do 3 eexists. split; [reflexivity|]. split; [exact HO'|]. split; [now apply HO|].
      split; [lia|]. intros j Hj. exists (rdiv (Q NN j) NN). split; [now apply Hg, H3|].
      split; [exact Lp|]. split; [exact Hj|]. split; [intros s Hin; now apply (ch_lt data ind)|].
      set (Ds := fun s => match ind with None => Dg s j | Some _ => Dg 0 j end).
      assert (HDs : forall k, k < NN -> Ds (nth k ch 0) = Dg k j).
      { intros k Hk. unfold Ds, ch. unfold NN in Hk. destruct ind as [i|]; cbn [AlsSpec.chosen nsamp] in *.
        - now replace k with 0 by lia.
        - now rewrite seq_nth by auto. }
      exists Ds. split.
      + intros s Hin. apply (In_nth _ _ 0) in Hin as (k & Hk & <-). rewrite ch_len in Hk. fold NN in Hk. fold ch. rewrite HDs by auto.
        destruct (V2 eq_refl k j Hk Hj) as (g & Eg' & Hd). unfold Dg. now rewrite (nth_error_nth _ _ _ Eg').
      + rewrite AlsRun.lsum_sum, ch_len. fold NN ch. f_equal. unfold Q. apply sum_ext. intros k Hk. rewrite HDs by auto. reflexivity.
    - match goal with |- context [for_ NN ?b (r0, [])] =>
        destruct (for_inv (fun ii (s : R * list R) => s = (sum ii T, [])) b NN (r0, [])) as (out & E1 & H1) end.
      { reflexivity. }
      { intros ii out Hii ->. rewrite HR by auto. cbn [obind].
        destruct wts as [w|] eqn:Ew.
        - rewrite (HWt w ii eq_refl Hii). cbn [obind]. eexists. split; [reflexivity|]. cbn [sum]. f_equal. unfold T. ring.
        - eexists. split; [reflexivity|]. cbn [sum]. f_equal. unfold T. cbn [AlsSpec.weight]. ring. }
      rewrite E1. rewrite H1. cbn [obind]. do 3 eexists. split; [reflexivity|]. split; [exact HO'|]. split; [now apply HO|]. reflexivity.
  Qed.

  Notation penalty := (penalty z ev nsq f0).

  (** [g] is the derivative of the penalty with respect to parameter [n] in terms of
      what is added for the function that the parameter belongs to *)
  Definition pdep (hw : R) (th : list R) (n : nat) (g : R) : Prop :=
    exists u l v, gf_wf u /\ nth_error (gf_params u) l = Some v /\ nth_error th n = Some v /\
      g = nth l (nsg u hw) r0 /\
      forall t, penalty hw (upd th n t) = penalty hw th +! (hw *! nsq (gf_with u (upd (gf_params u) l t)) -! hw *! nsq u).

  Lemma ar_funs th : length th = np -> Forall gf_wf (ft_funs (ft_with (fp_ft ftp0) th)) /\ lnum (ft_funs (ft_with (fp_ft ftp0) th)) = np /\
    lparams (ft_funs (ft_with (fp_ft ftp0) th)) = th.
  Proof.
    intros L. destruct (ru_Fp bad Hbad z ev ftp0 O0 th L) as [O _].
    split; [exact (pa_funswf z ev (Fp th) O)|]. split; [exact (pa_lnum z ev (Fp th) O)|].
    symmetry. exact (pa_params z ev (Fp th) O).
  Qed.

  Lemma ar_pdep hw th n : length th = np -> n < np ->
    pdep hw th n (nth n (flat_map (fun u => nsg u hw) (ft_funs (ft_with (fp_ft ftp0) th))) r0).
  Proof.
    intros L Hn. destruct (ar_funs th L) as (W & Ln & Lp). set (fn := ft_funs (ft_with (fp_ft ftp0) th)) in *.
    destruct (locate fn n ltac:(rewrite Ln; exact Hn)) as (q & u & i & Eq & Hi & En).
    assert (Wu : gf_wf u) by (rewrite Forall_forall in W; eapply W, nth_error_In, Eq).
    destruct (nth_error (gf_params u) i) as [v|] eqn:Ev; [|apply nth_error_None in Ev; rewrite gf_params_length in Ev by auto; lia].
    exists u, i, v. split; auto. split; auto. split.
    { rewrite <- Ev, <- (lparams_nth fn q u i W Eq Hi), Lp, En. reflexivity. }
    split. { rewrite En. now apply blocks_nth. }
    intros t.
    assert (EU : ft_funs (ft_with (fp_ft ftp0) (upd th n t)) = upd fn q (gf_with u (upd (gf_params u) i t))).
    { rewrite <- (lwith_upd fn q u i t W Eq Hi), Lp, <- En.
      transitivity (ft_funs (ft_with (ft_with (fp_ft ftp0) th) (upd th n t))).
      - f_equal. symmetry. apply (with_with bad Hbad ftp0); auto. rewrite upd_length. exact L.
      - unfold fn. exact (cfuns_cwith (ft_cores (ft_with (fp_ft ftp0) th)) (upd th n t)). }
    change (fsum (ft_funs (ft_with (fp_ft ftp0) (upd th n t))) (fun u => hw *! nsq u)
            = fsum fn (fun u => hw *! nsq u) +! (hw *! nsq (gf_with u (upd (gf_params u) i t)) -! hw *! nsq u)).
    rewrite EU. exact (fsum_upd fn q u _ (fun u => hw *! nsq u) Eq).
  Qed.

  Notation total := (total z ev nsq rdiv f0 data wts reg).
  Definition grad_tot (th : list R) (ind : option nat) (n : nat) (e : R) : Prop :=
    exists e1 e2, grad_of th ind n e1 /\ (match reg with None => e2 = r0 | Some hw => pdep hw th n e2 end) /\ e = e1 +! e2.

  Lemma ar_objective th p ind want o : length th = np -> length p = np -> ind_ok ind -> OI o ->
    exists v g o', objective_eval np (build_objective bad z ev pge nsq nsg rdiv lin np p (nsamp ind) (indx ind) data wts reg) want (Fp th, o)
        = Ok (v, g, (Fp p, o')) /\ OI o' /\ v = total p ind /\
      (if want then length g = np /\ (forall j, j < np -> exists e, nth_error g j = Some e /\ grad_tot p ind j e) else g = []).
  Proof.
    intros L Lp Hind HO. destruct (ar_ls th p ind want o L Lp Hind HO) as (v & g & o' & E & HO' & Ev & Hg).
    unfold objective_eval, build_objective. cbn [eval_list]. rewrite E. cbn [obind].
    unfold AioSpec.total, grad_tot. destruct reg as [hw|]; cbn [eval_list].
    - destruct (ru_Fp bad Hbad z ev ftp0 O0 p Lp) as [O _].
      unfold aio_regularizer. cbn [fst].
      destruct (ft_sqnorm_ok z ev nsq nsg Hnsg (ft_with (fp_ft ftp0) p) hw want g) as (g' & E1 & H1).
      { apply O. }
      { intros Ew. rewrite Ew in Hg. destruct (ar_funs p Lp) as (_ & Ln & _). rewrite Ln. lia. }
      assert (E2 : ft_sqnorm z ev nsq nsg (fp_ft (Fp p)) (repeat hw (fp_dim (Fp p))) want g = Ok (fsum (ft_funs (ft_with (fp_ft ftp0) p)) (fun u => hw *! nsq u), g')).
      { rewrite ar_dim. exact E1. }
      rewrite E2. cbn [obind]. do 3 eexists. split; [reflexivity|]. split; [exact HO'|]. split.
      + rewrite Ev. change (AioSpec.penalty z ev nsq f0 hw p) with (fsum (ft_funs (ft_with (fp_ft ftp0) p)) (fun u => hw *! nsq u)). ring.
      + destruct want; [|congruence]. destruct Hg as [Lg Hg]. destruct H1 as [L1 H1]. split; [congruence|].
        intros j Hj. destruct (Hg j Hj) as (e & Ee & He). rewrite (H1 _ _ Ee). eexists. split; [reflexivity|].
        eexists _, _. split; [exact He|]. split; [exact (ar_pdep hw p j Lp Hj)|]. unfold ext. cbn [Nat.ltb Nat.leb]. now rewrite Nat.sub_0_r.
    - do 3 eexists. split; [reflexivity|]. split; [exact HO'|]. split; [rewrite Ev; ring|].
      destruct want; auto. destruct Hg as [Lg Hg]. split; auto. intros j Hj. destruct (Hg j Hj) as (e & Ee & He). exists e. split; auto.
      exists e, r0. split; auto. split; auto. ring.
  Qed.

  Lemma ar_solve s : asks_ok data np s -> forall th o log, length th = np -> OI o ->
    exists g th1 o' evs, aio_solve bad z ev pge nsq nsg rdiv lin data wts reg np s (Fp th, o) log = Ok (g, (Fp th1, o'), log ++ evs) /\
      length g = np /\ length th1 = np /\ answers z ev nsq rdiv f0 data wts reg grad_tot np s (evs ++ [EDone 0 g]) g.
  Proof.
    induction s as [g|p ind want k IH]; intros Hs th o log L HO; cbn [aio_solve asks_ok] in *.
    - exists g, th, o, []. rewrite app_nil_r. split; [reflexivity|]. split; auto. split; auto. constructor.
    - destruct Hs as (Lp & Hi & Hk).
      assert (Hind : ind_ok ind) by (destruct ind; auto; exact I).
      destruct (ar_objective th p ind want o L Lp Hind HO) as (v & g & o' & E & HO' & Ev & Hg).
      destruct (IH v g (Hk v g) p o' (log ++ [EAsk 0 p ind want v g]) Lp HO') as (g1 & th1 & o1 & evs & E1 & A & B & HF).
      exists g1, th1, o1, (EAsk 0 p ind want v g :: evs). split.
      + replace (match ind with None => (d_N data, None) | Some i => (1, Some [i]) end) with (nsamp ind, indx ind) by (destruct ind; reflexivity).
        rewrite E. cbn [obind]. rewrite E1, <- app_assoc. reflexivity.
      + split; auto. split; auto. cbn [app]. econstructor; eauto.
  Qed.

  Lemma ar_init lin0 : N * np <= length lin0 -> exists o, aio_init z ev bas lin ftp0 N (d_x data) lin0 = Ok o /\ OI o.
  Proof.
    intros Ll. set (mr := list_max (ft_ranks (fp_ft ftp0))).
    destruct (mem_init_ok z ev bas lin Hlin ftp0 O0 D2 data Lx Ly [] lin0 mr Ll) as (m & Em & _ & _ & _ & _ & _ & _ & _ & A8).
    { intros k Hk. unfold frk. destruct (Nat.lt_ge_cases k (length (ft_ranks (fp_ft ftp0)))) as [H|H].
      - pose proof (proj1 (list_max_le (ft_ranks (fp_ft ftp0)) mr) (le_n _)) as HF. rewrite Forall_forall in HF. apply HF. now apply nth_In.
      - rewrite nth_overflow by auto. lia. }
    unfold aio_init. unfold mem_init in *.
    match type of Em with obind ?v _ = _ => destruct v as [vals| | |] eqn:E1; try discriminate end. cbn [obind] in *.
    match type of Em with obind ?v _ = _ => destruct v as [lr| | |] eqn:E2; try discriminate end. cbn [obind] in *.
    match type of Em with obind ?v _ = _ => destruct v as [rl| | |] eqn:E3; try discriminate end. cbn [obind] in *.
    fold N in E1. rewrite E1. cbn [obind]. fold N in E2. rewrite E2. cbn [obind]. fold N in E3. rewrite E3. cbn [obind]. eexists. split; [reflexivity|].
    injection Em as Em. rewrite <- Em in A8. cbn [m_lin] in A8.
    assert (Lv : length vals = length lin0).
    { destruct lin_either as [El|El]; rewrite El in E1; [|now injection E1 as ->].
      refine (for_keep (fun t : list R => length t = length lin0) _ N _ _ _ E1 eq_refl).
      intros ii t t' Et L. ok1 Et. destruct a as [[t1 n1] n2]. injection Et as <-.
      refine (for_keep (fun t : list R * nat * nat => length (fst (fst t)) = length lin0) _ _ _ _ _ E L).
      intros kk [[t2 n3] n4] t3 Et2 L2. ok1 Et2. ok1 Et2.
      refine (for_keep (fun t : list R * nat * nat => length (fst (fst t)) = length lin0) _ _ _ _ _ Et2 L2).
      intros jj [[t4 n5] n6] t5 Et3 L3. cbn [fst] in L3. repeat ok1 Et3. injection Et3 as <-. cbn [fst]. lens. congruence. }
    unfold OI. cbn [o_m o_re m_evals m_grad m_rgrad m_lin m_ws]. rewrite !repeat_length. fold np.
    split; [lia|]. split; [lia|]. split; [exact Hnf|]. split; [exact Hnf|]. split; [lia|]. split; [split; [exact I|split; exact I]|].
    intros El s Hs. exact (A8 El s Hs).
  Qed.

  Theorem run_aio_ok opt lin0 : N * np <= length lin0 -> asks_ok data np (opt (fp_params ftp0)) ->
    exists g log, run_aio bad z ev pge bas nsq nsg rdiv opt lin ftp0 data wts reg lin0 = Ok (Fp g, log) /\ length g = np /\
      answers z ev nsq rdiv f0 data wts reg grad_tot np (opt (fp_params ftp0)) log g.
  Proof.
    intros Ll Ho. unfold run_aio. destruct (ar_init lin0 Ll) as (o & Eo & HO).
    match goal with |- context [obind ?q _] => match type of Eo with _ = ?w => replace q with w by (symmetry; exact Eo) end end. cbn [obind].
    assert (L0 : length (fp_params ftp0) = np) by exact (ftp_params_length ftp0 O0).
    rewrite blit_ok by (rewrite ?repeat_length; fold np; lia). cbn [obind skipn].
    rewrite firstn_all2 by (fold np; lia). rewrite splice_full by (rewrite repeat_length; exact L0).
    assert (En : ft_nparams (fp_ft ftp0) = Ok np).
    { rewrite (ft_nparams_ok (fp_ft ftp0) (proj1 (proj2 O0))). f_equal. symmetry. exact (ftp_nparams_eq ftp0 O0). }
    match goal with |- context [obind (ft_nparams ?q) _] => replace (ft_nparams q) with (Ok np : outcome nat) by (symmetry; exact En) end. cbn [obind].
    destruct (ar_solve (opt (fp_params ftp0)) Ho (fp_params ftp0) o [] L0 HO) as (g & th1 & o' & evs & E & Lg & L1 & HA).
    assert (EF : Fp (fp_params ftp0) = ftp0).
    { unfold AlsRun.Fp. transitivity (set_ftp ftp0 (fp_ft ftp0) (fp_params ftp0)); [|exact (ftp_eta ftp0)].
      exact (f_equal (fun g => set_ftp ftp0 g (fp_params ftp0)) (with_self bad Hbad ftp0 O0)). }
    rewrite EF in E. match goal with |- context [obind ?q _] => match type of E with _ = ?w => replace q with w by (symmetry; exact E) end end. cbn [obind fst app].
    rewrite ar_update by auto. cbn [obind]. exists g, (evs ++ [EDone 0 g]). split; [reflexivity|]. split; auto.
  Qed.
End Run.
