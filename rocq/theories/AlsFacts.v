(** One core and one sample of alternating least squares: evaluations from the
    left and from the right, value and gradient. *)
From Verif Require Export AlsModel PGradApp PropPGrad PAllocCst.

Lemma firstn_flat {A B} (g : A -> list B) c l :
  firstn (length (flat_map g (firstn c l))) (flat_map g l) = flat_map g (firstn c l).
Proof.
  rewrite <- (firstn_skipn c l) at 2. rewrite flat_map_app, firstn_app, Nat.sub_diag.
  cbn [firstn]. rewrite app_nil_r. apply firstn_all.
Qed.

Lemma flat_flat {A B C} (g : A -> list B) (h : B -> list C) l :
  flat_map h (flat_map g l) = flat_map (fun a => flat_map h (g a)) l.
Proof. induction l as [|a l IH]; cbn [flat_map]; auto. now rewrite flat_map_app, IH. Qed.

Section Sample.
  Context {R : CRing} {F : Type}.
  Open Scope cr_scope.
  Add Ring Rr35 : (rth R).
  Variable z : gfn R F.
  Variable ev : gfn R F -> R -> R.
  Notation U := (evU z ev).
  Variable ftp : ftparam R U.
  Hypothesis Ok_ : ftp_ok ftp.
  Variable x : list R.
  Let f := fp_ft ftp.
  Hypothesis Hx : length x = ft_dim f.

  Let d := ft_dim f.
  Let r := frk f.
  Let M := fM f (fun k g => uev g (nth k x r0)).
  Let funs := flat_map fs (ft_cores f).
  Let np q := nth q (map gf_num funs) 0.
  Let EO := offs (fun q => r q * r (S q)).
  Let PO := offs np.

  Variable c : nat.
  Hypothesis Hc : c < d.
  Let xc := nth c x r0.
  Let ra := r c.
  Let rb := r (S c).
  Let n q := np (EO c + q).
  Let CO := offs n.
  Let MV q := evf (fun g => uev g xc) (fco f c) q.
  Let L i := fw r M c i.
  Let B j := bw r M (d - 1 - c) (S c) j.
  Let W q := L (q mod ra) *! B (q / ra).

  Lemma al_ra : 0 < ra. Proof. apply (pa_pos z ev ftp Ok_ x Hx). change (c <= d); lia. Qed.
  Lemma al_rb : 0 < rb. Proof. apply (pa_pos z ev ftp Ok_ x Hx). change (S c <= d); lia. Qed.
  Lemma al_r0 : r 0 = 1. Proof. apply frk_0. apply Ok_. Qed.
  Lemma al_rd : r d = 1. Proof. apply frk_d. apply Ok_. Qed.
  Lemma al_rk k : k <= d -> aget (ft_ranks (fp_ft ftp)) k = Ok (r k).
  Proof. intros H. now apply (pa_rk z ev ftp Ok_ x Hx). Qed.

  Lemma al_POq q : PO (EO c + q) = PO (EO c) + CO q.
  Proof.
    induction q as [|q IH]; [rewrite Nat.add_0_r; cbn; lia|].
    rewrite Nat.add_succ_r. unfold CO. cbn [offs]. fold CO.
    change (PO (S (EO c + q))) with (PO (EO c + q) + np (EO c + q)). rewrite IH. unfold n. lia.
  Qed.

  Lemma al_EOS : EO (S c) = EO c + rb * ra.
  Proof. unfold EO. cbn [offs]. unfold ra, rb. lia. Qed.

  Lemma al_npc : aget (fp_npc ftp) c = Ok (CO (rb * ra)).
  Proof.
    assert (E : aget (fp_npc ftp) c = Ok (PO (EO (S c)) - PO (EO c))) by exact (pa_npc z ev ftp Ok_ x Hx c Hc).
    rewrite E, al_EOS, al_POq. f_equal. lia.
  Qed.

  Lemma al_fit : PO (EO c) + CO (rb * ra) <= fp_nparams ftp.
  Proof.
    assert (E : PO (EO d) = fp_nparams ftp) by exact (pa_POd z ev ftp Ok_).
    rewrite <- al_POq, <- al_EOS, <- E. apply offs_mono. apply offs_mono. auto.
  Qed.

  Lemma al_npcE : CO (rb * ra) = nth c (fp_npc ftp) 0.
  Proof. symmetry. apply nth_error_nth. pose proof al_npc as E. now apply aget_inv in E. Qed.

  Lemma al_before : PO (EO c) = before ftp c.
  Proof.
    assert (Wf : ft_wf f) by exact (pa_wf z ev ftp Ok_).
    assert (EL : EO c <= length funs).
    { assert (E : EO d = length funs) by exact (pa_EOd z ev ftp Ok_). rewrite <- E. apply offs_mono. lia. }
    assert (E1 : PO (EO c) = lnum (firstn (EO c) funs)) by (apply (pa_POl z ev ftp); exact EL).
    assert (E2 : firstn (EO c) funs = flat_map fs (firstn c (ft_cores f))).
    { unfold EO, r. rewrite <- (funs_len f Wf c) by (fold d; lia). apply firstn_flat. }
    rewrite E1, E2. unfold before. fold f.
    assert (HW : Forall gf_wf (flat_map fs (firstn c (ft_cores f)))).
    { assert (W1 : Forall gf_wf funs) by exact (pa_funswf z ev ftp Ok_). rewrite <- E2.
      rewrite <- (firstn_skipn (EO c) funs) in W1. apply Forall_app in W1. apply W1. }
    rewrite <- (lparams_length _ HW). f_equal. unfold lparams.
    apply flat_flat.
  Qed.

  Lemma al_fun q : q < rb * ra ->
    exists u, nth_error (fs (fco f c)) q = Some u /\ nth_error funs (EO c + q) = Some u /\ gf_wf u /\
      n q = gf_num u /\ MV q = ev u xc /\ MV q = M c (q mod ra) (q / ra) /\
      q mod ra < ra /\ q / ra < rb /\ q / ra * ra + q mod ra = q.
  Proof.
    intros Hq. pose proof al_ra as Pa.
    assert (Ep : q / ra * ra + q mod ra = q) by (rewrite (Nat.div_mod q ra) at 3 by lia; lia).
    assert (Hi : q mod ra < ra) by (apply Nat.mod_upper_bound; lia).
    assert (Hj : q / ra < rb) by (apply Nat.div_lt_upper_bound; lia).
    destruct (pa_fun z ev ftp Ok_ x Hx c _ _ Hc Hi Hj) as (u & Eu & Eu' & Wu & Enp & EM & _).
    change (nth_error (fs (fco f c)) (q / ra * ra + q mod ra) = Some u) in Eu.
    change (nth_error funs (EO c + (q / ra * ra + q mod ra)) = Some u) in Eu'.
    change (np (EO c + (q / ra * ra + q mod ra)) = gf_num u) in Enp. rewrite Ep in Eu, Eu', Enp.
    assert (EV : MV q = ev u xc). { unfold MV, evf. rewrite Eu. reflexivity. }
    exists u. repeat split; auto. rewrite EV. symmetry. exact EM.
  Qed.

  Lemma al_idx j i : i < ra -> (j * ra + i) mod ra = i /\ (j * ra + i) / ra = j.
  Proof. intros H. split; [now apply idx_mod|now apply idx_div]. Qed.

  Lemma al_value : sum (rb * ra) (fun q => W q *! MV q) = train_value f x.
  Proof.
    etransitivity; [|symmetry; exact (pt_value z ev f (pa_wf z ev ftp Ok_) x Hx)].
    change (sum (rb * ra) (fun q => W q *! MV q) = bw r M d 0 0). rewrite (bw_split r M c d al_r0 Hc).
    rewrite sum_mul_index. rewrite sum_swap. apply sum_ext. intros i Hi. rewrite <- sum_scal_l. apply sum_ext. intros j Hj.
    destruct (al_fun (j * ra + i)) as (u & _ & _ & _ & _ & _ & E & _); [fold ra in Hi; fold rb in Hj; nia|].
    destruct (al_idx j i Hi) as [E1 E2]. unfold W. rewrite E, E1, E2. unfold L, B. ring.
  Qed.

  (** ** Filling a block of the gradient *)
  Lemma fill_core_ok ge eoff goff w k grad on (g : nat -> R) :
    (forall l, l < k -> nth_error ge (eoff + l) = Some (g l)) -> goff + on + k <= length grad ->
    exists grad', fill_core ge eoff goff w k (grad, on) = Ok (grad', on + k) /\ length grad' = length grad /\
      (forall l, l < k -> nth_error grad' (goff + on + l) = Some (w (g l))) /\
      (forall p, p < goff + on \/ goff + on + k <= p -> nth_error grad' p = nth_error grad p).
  Proof.
    intros Hg HL. unfold fill_core.
    destruct (for_inv (fun i (s : list R * nat) => let '(g', o') := s in o' = on + i /\ length g' = length grad /\
        (forall l, l < i -> nth_error g' (goff + on + l) = Some (w (g l))) /\
        (forall p, p < goff + on \/ goff + on + i <= p -> nth_error g' p = nth_error grad p))
      (fun ll (s : list R * nat) => let '(grad, on) := s in
         do g <- aget ge (eoff + ll); do grad <- aset grad (goff + on) (w g); Ok (grad, on + 1)) k (grad, on))
      as ([g' o'] & E & Eo & H1 & H2 & H3).
    - split; [lia|]. split; auto. split; [intros; lia|auto].
    - intros i [g' o'] Hi (-> & H1 & H2 & H3). rewrite (aget_ok _ _ _ (Hg i Hi)). cbn [obind].
      rewrite aset_ok by lia. cbn [obind]. eexists. split; [reflexivity|]. cbn beta iota.
      split; [lia|]. split; [rewrite upd_length; auto|]. split.
      + intros l Hl. destruct (Nat.eq_dec l i) as [->|].
        * replace (goff + on + i) with (goff + (on + i)) by lia. rewrite nth_error_upd_same by lia. reflexivity.
        * rewrite nth_error_upd_other by lia. apply H2. lia.
      + intros p Hp. rewrite nth_error_upd_other by lia. apply H3. lia.
    - subst o'. exists g'. rewrite E. split; auto.
  Qed.

  (** ** Value and gradient, after [q] functions *)
  Variable D : gfn R F -> R -> list R.
  Hypothesis HD : forall u y, gf_wf u -> length (D u y) = length (gf_params u).
  Variables (grad0 : list R) (goff : nat).
  Hypothesis Lg : goff + CO (rb * ra) <= length grad0.

  Definition acc (q : nat) (out : R) (grad : list R) (on : nat) : Prop :=
    on = CO q /\ length grad = length grad0 /\ out = sum q (fun t => W t *! MV t) /\
    (forall t u l, t < q -> nth_error (fs (fco f c)) t = Some u -> l < gf_num u ->
       nth_error grad (goff + CO t + l) = Some (W t *! nth l (D u xc) r0)) /\
    (forall p, p < goff \/ goff + CO q <= p -> nth_error grad p = nth_error grad0 p).

  Lemma acc_0 : acc 0 r0 grad0 0.
  Proof. repeat split; auto. intros; lia. Qed.

  Lemma acc_step q out grad on ge eoff w u : acc q out grad on -> q < rb * ra ->
    nth_error (fs (fco f c)) q = Some u ->
    (forall l, l < gf_num u -> nth_error ge (eoff + l) = Some (nth l (D u xc) r0)) ->
    (forall g, w g = W q *! g) ->
    exists grad', fill_core ge eoff goff w (n q) (grad, on) = Ok (grad', on + n q) /\
      forall out', out' = out +! W q *! MV q -> acc (S q) out' grad' (on + n q).
  Proof.
    intros (-> & Lr & Eo & A1 & A2) Hq Eu Hge Hw.
    destruct (al_fun q Hq) as (u' & Eu' & _ & Wu & En & _). assert (u' = u) by congruence. subst u'.
    assert (CS : CO (S q) = CO q + n q) by reflexivity.
    assert (CM : CO (S q) <= CO (rb * ra)) by (apply offs_mono; lia).
    destruct (fill_core_ok ge eoff goff w (n q) grad (CO q) (fun l => nth l (D u xc) r0)) as (g' & E & L1 & F1 & F2).
    { rewrite En. exact Hge. } { lia. }
    exists g'. split; [exact E|]. intros out' Eout. split; [lia|]. split; [lia|]. split; [rewrite Eout, Eo; reflexivity|]. split.
    - intros t v l Ht Ev Hl. destruct (Nat.eq_dec t q) as [->|].
      + assert (v = u) by congruence. subst v. rewrite F1 by lia. now rewrite Hw.
      + rewrite F2; [apply A1; auto; lia|]. left.
        destruct (al_fun t) as (v' & Ev' & _ & _ & En' & _); [lia|]. assert (v' = v) by congruence. subst v'.
        assert (CO (S t) <= CO q) by (apply offs_mono; lia). change (CO (S t)) with (CO t + n t) in H. lia.
    - intros p Hp. rewrite F2 by lia. apply A2. lia.
  Qed.

  (** What is claimed of the value and the gradient of one sample. *)
  Definition core_out (out : R) (grad : list R) : Prop :=
    out = train_value f x /\ length grad = length grad0 /\
    (forall p, p < goff \/ goff + CO (rb * ra) <= p -> nth_error grad p = nth_error grad0 p) /\
    (forall p, p < CO (rb * ra) -> exists w u l v,
       In u funs /\ gf_wf u /\ nth_error (gf_params u) l = Some v /\
       nth_error (fp_params ftp) (PO (EO c) + p) = Some v /\
       nth_error grad (goff + p) = Some (w *! nth l (D u xc) r0) /\
       forall t, train_value (ft_with f (upd (fp_params ftp) (PO (EO c) + p) t) : ftrain U) x
                 = train_value f x +! w *! (ev (gf_with u (upd (gf_params u) l t)) xc -! ev u xc)).

  Lemma acc_end out grad on : acc (rb * ra) out grad on -> core_out out grad.
  Proof.
    intros (Eon & Lr & Eo & A1 & A2). split; [rewrite Eo; apply al_value|]. split; auto. split; auto.
    intros p Hp. destruct (offs_locate _ _ _ Hp) as (q & l & Hq & Hl & Ep). fold CO in Ep.
    destruct (al_fun q Hq) as (u & Eu & Eu' & Wu & En & _ & _ & Hi & Hj & Eq).
    assert (EPA : fp_params ftp = lparams funs) by exact (pa_params z ev ftp Ok_).
    rewrite En in Hl. assert (Ll : l < length (gf_params u)) by (rewrite gf_params_length; auto).
    destruct (nth_error (gf_params u) l) as [v|] eqn:Ev; [|apply nth_error_None in Ev; lia].
    assert (Hpa : nth_error (fp_params ftp) (PO (EO c) + p) = Some v).
    { rewrite EPA, Ep.
      replace (PO (EO c) + (CO q + l)) with (PO (EO c + q) + l) by (rewrite al_POq; lia).
      assert (Hlt : EO c + q < length funs) by (apply nth_error_Some; rewrite Eu'; discriminate).
      assert (EPO : PO (EO c + q) = lnum (firstn (EO c + q) funs)) by (apply (pa_POl z ev ftp); apply Nat.lt_le_incl, Hlt).
      rewrite EPO, <- Ev. apply lparams_nth; auto. exact (pa_funswf z ev ftp Ok_). }
    exists (W q), u, l, v. repeat split; auto.
    - eapply nth_error_In, Eu'.
    - rewrite <- (A1 q u l Hq Eu Hl). f_equal. lia.
    - intros t. rewrite EPA.
      assert (Hlt : PO (EO c) + p < lnum funs).
      { rewrite <- (lparams_length funs) by exact (pa_funswf z ev ftp Ok_).
        apply nth_error_Some. rewrite <- EPA. rewrite Hpa. discriminate. }
      assert (Q := param_change z ev f (pa_wf z ev ftp Ok_) (pa_ok z ev ftp Ok_) x Hx (PO (EO c) + p) t Hlt c (q mod ra) (q / ra) u l Hc Hi Hj).
      change (nth_error funs (EO c + (q / ra * ra + q mod ra)) = Some u -> l < gf_num u ->
        PO (EO c) + p = PO (EO c + (q / ra * ra + q mod ra)) + l ->
        train_value (ft_with f (upd (lparams funs) (PO (EO c) + p) t) : ftrain U) x
        = train_value f x +! pgw d r M c (q mod ra) (q / ra) *! (ev (gf_with u (upd (gf_params u) l t)) xc -! ev u xc)) in Q.
      rewrite Eq in Q. rewrite (Q Eu' Hl) by (rewrite al_POq; lia). reflexivity.
  Qed.
  (** ** Value and gradient, functions evaluated one by one *)
  Section Nonlinear.
    Variable pge : gfn R F -> R -> R * list R.
    Hypothesis Hpge : forall u y, gf_wf u -> fst (pge u y) = ev u y /\ snd (pge u y) = D u y.

    Lemma one_ok q out grad on ge w idx : acc q out grad on -> q < rb * ra -> idx = q ->
      fp_nparams ftp <= length ge -> (forall g, w g = W q *! g) ->
      exists grad' on' ge', one_gradeval z ev pge ftp c idx xc goff w grad on ge = Ok (MV q, grad', on', ge') /\
        length ge' = length ge /\ forall out', out' = out +! W q *! MV q -> acc (S q) out' grad' on'.
    Proof.
      intros A Hq -> Lge Hw. destruct (al_fun q Hq) as (u & Eu & _ & Wu & En & EM & _).
      unfold one_gradeval.
      assert (Ec : aget (ft_cores (fp_ft ftp)) c = Ok (fco f c)) by exact (pa_core z ev ftp Ok_ c Hc).
      rewrite Ec. cbn [obind]. rewrite (aget_ok _ _ u) by exact Eu. cbn [obind].
      destruct (Hpge u xc Wu) as [E1 E2]. destruct (pge u xc) as [v g] eqn:Ep. cbn [fst snd] in E1, E2. subst v g.
      assert (LD : length (D u xc) = gf_num u) by (rewrite HD by auto; now apply gf_params_length).
      assert (LN : gf_num u <= fp_nparams ftp).
      { pose proof al_fit. assert (CO (S q) <= CO (rb * ra)) by (apply offs_mono; lia).
        change (CO (S q)) with (CO q + n q) in H0. lia. }
      rewrite blit_ok by lia. cbn [obind skipn]. rewrite firstn_all.
      destruct (acc_step q out grad on (splice 0 (D u xc) ge) 0 w u A Hq Eu) as (grad' & Ef & HA); auto.
      { intros l Hl. rewrite nth_error_splice by lia. cbn [Nat.add Nat.leb andb].
        rewrite (proj2 (Nat.ltb_lt l _)) by lia. rewrite Nat.sub_0_r. apply nth_error_nth'. lia. }
      rewrite <- En, Ef. cbn [obind].
      exists grad', (on + n q), (splice 0 (D u xc) ge). split; [rewrite EM; reflexivity|]. split; auto.
      rewrite splice_length; lia.
    Qed.

    Lemma core_gradeval_ok lr rl ge :
      (0 < c -> pre lr ra L) -> (c < d - 1 -> pre rl rb B) -> 2 <= d -> fp_nparams ftp <= length ge ->
      exists out grad ge', core_gradeval z ev pge ftp c xc grad0 goff lr rl ge = Ok (out, grad, ge') /\
        length ge' = length ge /\ core_out out grad.
    Proof.
      intros Hl Hr H2 Lge. unfold core_gradeval.
      assert (Ra : aget (ft_ranks (fp_ft ftp)) c = Ok ra) by (apply al_rk; lia).
      assert (Rb : aget (ft_ranks (fp_ft ftp)) (c + 1) = Ok rb) by (rewrite Nat.add_1_r; apply al_rk; lia).
      rewrite Ra, Rb. cbn [obind]. assert (Ed : fp_dim ftp = d) by exact (pa_dim z ev ftp Ok_). rewrite Ed.
      pose (I := fun q (s : list R * nat * list R * R) =>
        let '(grad, on, ge', out) := s in length ge' = length ge /\ acc q out grad on).
      assert (I0 : I 0 (grad0, 0, ge, r0)) by (split; [reflexivity|apply acc_0]).
      destruct (Nat.eq_dec c 0) as [C0|C0]; [|destruct (Nat.eq_dec c (d - 1)) as [C1|C1]].
      - rewrite (proj2 (Nat.ltb_ge 0 c)) by lia. cbn [andb]. rewrite C0. cbn [Nat.eqb].
        assert (A1 : ra = 1) by (unfold ra; rewrite C0; apply al_r0).
        match goal with |- context [for_ rb ?b ?s] => destruct (for_inv I b rb s I0) as ([[[g' on'] ge'] out'] & E & Lg' & HA) end.
        { intros j [[[g' on'] ge'] out'] Hj [Lg' HA].
          rewrite (aget_ok _ _ (B j)) by (apply Hr; lia). cbn [obind].
          assert (EW : W j = B j). { unfold W. rewrite A1, Nat.mod_1_r, Nat.div_1_r. unfold L. rewrite C0. cbn [fw]. ring. }
          destruct (one_ok j out' g' on' ge' (fun g => g *! B j) j HA) as (g2 & on2 & ge2 & E2 & L2 & A2); auto; try lia.
          { intros g. rewrite EW. ring. }
          rewrite C0 in E2. unfold xc in *. rewrite C0 in E2. rewrite C0. rewrite E2. cbn [obind].
          eexists. split; [reflexivity|]. split; [lia|]. apply A2. rewrite EW. reflexivity. }
        unfold xc in *. rewrite C0 in E. rewrite C0. rewrite E. cbn [obind]. exists out', g', ge'. split; [reflexivity|]. split; auto.
        apply (acc_end out' g' on'). rewrite A1, Nat.mul_1_r. exact HA.
      - rewrite (proj2 (Nat.ltb_ge c (d - 1))) by lia. rewrite andb_false_r. rewrite (proj2 (Nat.eqb_neq c 0)) by auto.
        assert (B1 : rb = 1) by (unfold rb; replace (S c) with d by lia; apply al_rd).
        match goal with |- context [for_ ra ?b ?s] => destruct (for_inv I b ra s I0) as ([[[g' on'] ge'] out'] & E & Lg' & HA) end.
        { intros i [[[g' on'] ge'] out'] Hi [Lg' HA].
          rewrite (aget_ok _ _ (L i)) by (apply Hl; lia). cbn [obind].
          assert (EW : W i = L i).
          { unfold W. rewrite Nat.mod_small, Nat.div_small by auto. unfold B. replace (d - 1 - c) with 0 by lia. cbn [bw]. ring. }
          destruct (one_ok i out' g' on' ge' (fun g => L i *! g) i HA) as (g2 & on2 & ge2 & E2 & L2 & A2); auto; try lia.
          { intros g. rewrite EW. ring. }
          rewrite E2. cbn [obind]. eexists. split; [reflexivity|]. split; [lia|]. apply A2. rewrite EW. reflexivity. }
        rewrite E. cbn [obind]. exists out', g', ge'. split; [reflexivity|]. split; auto.
        apply (acc_end out' g' on'). rewrite B1, Nat.mul_1_l. exact HA.
      - rewrite (proj2 (Nat.ltb_lt 0 c)), (proj2 (Nat.ltb_lt c (d - 1))) by lia. cbn [andb].
        match goal with |- context [for_ rb ?b ?s] =>
          destruct (for_inv (fun j => I (j * ra)) b rb s I0) as ([[[g' on'] ge'] out'] & E & Lg' & HA) end.
        { intros j s Hj HI. rewrite (aget_ok _ _ (B j)) by (apply Hr; lia). cbn [obind].
          match goal with |- context [for_ ra ?b ?s] =>
            destruct (for_inv (fun i => I (j * ra + i)) b ra s) as (s' & E & HI') end.
          { now rewrite Nat.add_0_r. }
          { intros i [[[g' on'] ge'] out'] Hi [Lg' HA].
            rewrite (aget_ok _ _ (L i)) by (apply Hl; lia). cbn [obind].
            destruct (al_idx j i Hi) as [E1 E2].
            assert (EW : W (j * ra + i) = L i *! B j) by (unfold W; rewrite E1, E2; reflexivity).
            destruct (one_ok (j * ra + i) out' g' on' ge' (fun g => L i *! g *! B j) (i + j * ra) HA) as (g2 & on2 & ge2 & E3 & L2 & A2); auto; try lia; try nia.
            { intros g. rewrite EW. ring. }
            rewrite E3. cbn [obind]. eexists. split; [reflexivity|]. rewrite Nat.add_succ_r. split; [lia|]. apply A2. rewrite EW. reflexivity. }
          rewrite E. eexists. split; [reflexivity|]. rewrite Nat.add_comm in HI'. exact HI'. }
        rewrite E. cbn [obind]. exists out', g', ge'. split; [reflexivity|]. split; auto.
        apply (acc_end out' g' on'). exact HA.
    Qed.
  End Nonlinear.

  (** ** Functions linear in their parameters *)
  Section Linear.
    Hypothesis Hbas : forall u y, gf_wf u ->
      length (D u y) = length (gf_params u) /\
      ev u y = sum (length (gf_params u)) (fun l => nth l (gf_params u) r0 *! nth l (D u y) r0).
    Variable ge : list R.
    Hypothesis Hge : firstn (fp_nparams ftp) ge = concat (basis_blocks D (ft_cores f) x).

    Lemma al_linv q on un : q < rb * ra -> un = EO c + q -> on = PO (EO c + q) ->
      lin_value z ev ftp ge un on = Ok (MV q, n q).
    Proof. clear Lg.
      intros Hq -> ->. destruct (al_fun q Hq) as (u & Eu & Eu' & Wu & En & EM & EM2 & Hi & Hj & Eq).
      unfold lin_value. assert (Epu : fp_npu ftp = map gf_num funs) by exact (pa_npu z ev ftp Ok_).
      rewrite (aget_ok _ _ (n q)). 2:{ rewrite Epu, En. now apply map_nth_error. }
      cbn [obind].
      assert (Q : ddot (np (EO c + (q / ra * ra + q mod ra))) ge (PO (EO c + (q / ra * ra + q mod ra))) 1
                   (fp_params ftp) (PO (EO c + (q / ra * ra + q mod ra))) 1 = Ok (M c (q mod ra) (q / ra))).
      { exact (lin_dot z ev ftp Ok_ x Hx D Hbas ge Hge c _ _ Hc Hi Hj). }
      rewrite Eq, <- EM2 in Q. fold (n q) in Q. rewrite Q. reflexivity.
    Qed.

    Lemma al_ge q u l on : q < rb * ra -> nth_error (fs (fco f c)) q = Some u -> l < gf_num u -> on = PO (EO c + q) ->
      nth_error ge (on + l) = Some (nth l (D u xc) r0).
    Proof. clear Lg.
      intros Hq Eu Hl ->. destruct (al_fun q Hq) as (u' & Eu1 & _ & _ & _ & _ & _ & Hi & Hj & Eq).
      rewrite <- Eq in Eu. assert (Q := lin_ge z ev ftp Ok_ x Hx D Hbas ge Hge c _ _ u l Hc Hi Hj Eu Hl).
      change (nth_error ge (PO (EO c + (q / ra * ra + q mod ra)) + l) = Some (nth l (D u xc) r0)) in Q.
      now rewrite Eq in Q.
    Qed.

    Lemma al_offsets : core_offsets z ev ftp c = Ok (PO (EO c), EO c).
    Proof. clear Lg.
      unfold core_offsets. apply (for_det (fun k => (PO (EO k), EO k))). intros k Hk.
      assert (E : aget (fp_npc ftp) k = Ok (PO (EO (S k)) - PO (EO k))).
      { apply (pa_npc z ev ftp Ok_ x Hx). change (k < d). lia. }
      rewrite E. cbn [obind]. rewrite al_rk by lia. cbn [obind]. rewrite Nat.add_1_r, al_rk by lia. cbn [obind].
      assert (PO (EO k) <= PO (EO (S k))). { apply offs_mono, offs_mono. lia. }
      f_equal. f_equal. lia.
    Qed.

    Lemma al_POS q : PO (EO c + S q) = PO (EO c + q) + n q.
    Proof. clear Lg. rewrite Nat.add_succ_r. reflexivity. Qed.

    Lemma sweep_lr_lin_ok lr up : (0 < c -> pre lr ra L) -> rb <= length up ->
      exists up', sweep_lr_lin z ev ftp c ge lr up = Ok up' /\ length up' = length up /\ pre up' rb (fw r M (S c)).
    Proof. clear Lg.
      intros Hl Lu. unfold sweep_lr_lin.
      assert (Ra : aget (ft_ranks (fp_ft ftp)) c = Ok ra) by (apply al_rk; lia).
      assert (Rb : aget (ft_ranks (fp_ft ftp)) (c + 1) = Ok rb) by (rewrite Nat.add_1_r; apply al_rk; lia).
      rewrite Ra, Rb, al_offsets. cbn [obind].
      pose (I := fun q j (s : list R * nat * nat) =>
        let '(up', on, un) := s in on = PO (EO c + q) /\ un = EO c + q /\ length up' = length up /\ pre up' j (fw r M (S c))).
      assert (I0 : I 0 0 (up, PO (EO c), EO c)).
      { repeat split; rewrite ?Nat.add_0_r; auto. intros i Hi. lia. }
      destruct (Nat.ltb_spec 0 c) as [C0|C0].
      - match goal with |- context [for_ rb ?b ?s] =>
          destruct (for_inv (fun j => I (j * ra) j) b rb s I0) as ([[up' on] un] & E & _ & _ & Lu' & P) end.
        { intros j [[up' on] un] Hj (-> & -> & Lu' & P). rewrite aset_ok by lia. cbn [obind].
          match goal with |- context [for_ ra ?b ?s] =>
            destruct (for_inv (fun i (t : list R * nat * nat) => I (j * ra + i) j t /\
              nth_error (fst (fst t)) j = Some (sum i (fun i => M c i j *! L i))) b ra s) as ([[up2 on] un] & E & (-> & -> & Lu2 & P2) & Ej) end.
          { split; [|cbn [fst]; apply nth_error_upd_same; lia].
            rewrite Nat.add_0_r. repeat split; auto; [rewrite upd_length; auto|]. now apply pre_upd. }
          { intros i [[up2 on] un] Hi [(Eon & Eun & Lu2 & P2) Ej]. cbn [fst] in Ej.
            rewrite (al_linv (j * ra + i)) by (auto; nia). cbn [obind].
            rewrite (aget_ok _ _ _ Ej). cbn [obind]. rewrite (aget_ok _ _ (L i)) by (apply Hl; auto). cbn [obind].
            rewrite aset_ok by lia. cbn [obind]. eexists. split; [reflexivity|]. split.
            - red. rewrite Nat.add_succ_r, al_POS, Nat.add_succ_r, Eon, Eun. repeat split; try lia; [rewrite upd_length; auto|]. now apply pre_upd.
            - cbn [fst]. rewrite nth_error_upd_same by lia. f_equal.
              destruct (al_fun (j * ra + i)) as (_ & _ & _ & _ & _ & _ & EM & _); [nia|].
              destruct (al_idx j i Hi) as [E1 E2]. rewrite EM, E1, E2. cbn [sum]. ring. }
          rewrite E. eexists. split; [reflexivity|]. cbn [fst] in Ej. cbn [Nat.mul].
          replace (ra + j * ra) with (j * ra + ra) by lia. repeat split; auto.
          apply pre_snoc; auto. }
        rewrite E. cbn [obind]. exists up'. auto.
      - assert (A1 : ra = 1) by (unfold ra; replace c with 0 by lia; apply al_r0).
        match goal with |- context [for_ rb ?b ?s] =>
          destruct (for_inv (fun j => I j j) b rb s I0) as ([[up' on] un] & E & _ & _ & Lu' & P) end.
        { intros j [[up' on] un] Hj (-> & -> & Lu' & P).
          assert (Hq : j < rb * ra) by lia.
          rewrite (al_linv j) by auto. cbn [obind]. rewrite aset_ok by lia. cbn [obind].
          eexists. split; [reflexivity|]. red. rewrite al_POS, Nat.add_succ_r. repeat split; try lia; [rewrite upd_length; auto|].
          apply pre_snoc; [now apply pre_upd|]. rewrite nth_error_upd_same by lia. f_equal.
          destruct (al_fun j Hq) as (_ & _ & _ & _ & _ & _ & EM & _). rewrite EM, A1, Nat.mod_1_r, Nat.div_1_r.
          cbn [fw]. fold ra. rewrite A1, sum_1. replace c with 0 at 3 by lia. cbn [fw]. ring. }
        rewrite E. cbn [obind]. exists up'. auto.
    Qed.

    Lemma sweep_rl_lin_ok rl up : (c < d - 1 -> pre rl rb B) -> ra <= length up ->
      exists up', sweep_rl_lin z ev ftp c ge rl up = Ok up' /\ length up' = length up /\ pre up' ra (bw r M (d - c) c).
    Proof. clear Lg.
      intros Hr Lu. unfold sweep_rl_lin.
      assert (Ra : aget (ft_ranks (fp_ft ftp)) c = Ok ra) by (apply al_rk; lia).
      assert (Rb : aget (ft_ranks (fp_ft ftp)) (c + 1) = Ok rb) by (rewrite Nat.add_1_r; apply al_rk; lia).
      rewrite Ra, Rb, al_offsets. cbn [obind]. assert (Ed : fp_dim ftp = d) by exact (pa_dim z ev ftp Ok_). rewrite Ed.
      replace (d - c) with (S (d - 1 - c)) by lia.
      pose (I := fun q (T : nat -> R) k (s : list R * nat * nat) =>
        let '(up', on, un) := s in on = PO (EO c + q) /\ un = EO c + q /\ length up' = length up /\ pre up' k T).
      destruct (Nat.ltb_spec c (d - 1)) as [C0|C0].
      - rewrite (fill1 (fun _ => r0) ra up) by auto. cbn [obind].
        pose (T := fun j i => sum j (fun j => M c i j *! B j)).
        match goal with |- context [for_ rb ?b ?s] =>
          destruct (for_inv (fun j => I (j * ra) (T j) ra) b rb s) as ([[up' on] un] & E & _ & _ & Lu' & P) end.
        { repeat split; rewrite ?Nat.add_0_r; auto.
          - rewrite app_length, tab_length, skipn_length. lia.
          - intros i Hi. rewrite nth_error_app1 by (rewrite tab_length; auto). rewrite nth_error_tab by auto. reflexivity. }
        { intros j s Hj HI.
          match goal with |- context [for_ ra ?b ?s] =>
            destruct (for_inv (fun i => I (j * ra + i) (fun k => T (if k <? i then S j else j) k) ra) b ra s) as ([[up2 on] un] & E & (-> & -> & Lu2 & P2)) end.
          { rewrite Nat.add_0_r. destruct s as [[up2 on] un]. destruct HI as (-> & -> & Lu2 & P2). repeat split; auto. }
          { intros i [[up2 on] un] Hi (Eon & Eun & Lu2 & P2).
            rewrite (al_linv (j * ra + i)) by (auto; nia). cbn [obind].
            rewrite (aget_ok _ _ _ (P2 i Hi)). cbn [obind]. rewrite (aget_ok _ _ (B j)) by (apply Hr; auto). cbn [obind].
            rewrite aset_ok by lia. cbn [obind]. eexists. split; [reflexivity|].
            red. rewrite Nat.add_succ_r, al_POS, Nat.add_succ_r, Eon, Eun. repeat split; try lia; [rewrite upd_length; auto|].
            intros k Hk. destruct (Nat.eq_dec k i) as [->|].
            - rewrite nth_error_upd_same by lia. f_equal. rewrite Nat.ltb_irrefl. rewrite (proj2 (Nat.ltb_lt i (S i))) by lia.
              destruct (al_fun (j * ra + i)) as (_ & _ & _ & _ & _ & _ & EM & _); [nia|].
              destruct (al_idx j i Hi) as [E1 E2]. rewrite EM, E1, E2. unfold T. cbn [sum]. ring.
            - rewrite nth_error_upd_other by lia. rewrite (P2 k Hk). f_equal.
              destruct (Nat.ltb_spec k i), (Nat.ltb_spec k (S i)); try lia; reflexivity. }
          rewrite E. eexists. split; [reflexivity|]. cbn [Nat.mul].
          replace (ra + j * ra) with (j * ra + ra) by lia. repeat split; auto.
          intros k Hk. rewrite (P2 k Hk). rewrite (proj2 (Nat.ltb_lt k ra)) by auto. reflexivity. }
        rewrite E. cbn [obind]. exists up'. split; auto.
      - assert (B1 : rb = 1) by (unfold rb; replace (S c) with d by lia; apply al_rd).
        match goal with |- context [for_ ra ?b ?s] =>
          destruct (for_inv (fun i => I i (bw r M (S (d - 1 - c)) c) i) b ra s) as ([[up' on] un] & E & _ & _ & Lu' & P) end.
        { repeat split; rewrite ?Nat.add_0_r; auto. intros i Hi. lia. }
        { intros i [[up' on] un] Hi (-> & -> & Lu' & P).
          assert (Hq : i < rb * ra) by lia.
          rewrite (al_linv i) by auto. cbn [obind]. rewrite aset_ok by lia. cbn [obind].
          eexists. split; [reflexivity|]. red. rewrite al_POS, Nat.add_succ_r. repeat split; try lia; [rewrite upd_length; auto|].
          apply pre_snoc; [now apply pre_upd|]. rewrite nth_error_upd_same by lia. f_equal.
          destruct (al_fun i Hq) as (_ & _ & _ & _ & _ & _ & EM & _). rewrite EM, Nat.mod_small, Nat.div_small by auto.
          cbn [bw]. fold rb. rewrite B1, sum_1. replace (d - 1 - c) with 0 by lia. cbn [bw]. ring. }
        rewrite E. cbn [obind]. exists up'. auto.
    Qed.

    Lemma core_gradeval_lin_ok lr rl : (0 < c -> pre lr ra L) -> (c < d - 1 -> pre rl rb B) -> 2 <= d ->
      exists out grad, core_gradeval_lin z ev ftp c grad0 goff lr rl ge = Ok (out, grad) /\ core_out out grad.
    Proof.
      intros Hl Hr H2. unfold core_gradeval_lin.
      assert (Ra : aget (ft_ranks (fp_ft ftp)) c = Ok ra) by (apply al_rk; lia).
      assert (Rb : aget (ft_ranks (fp_ft ftp)) (c + 1) = Ok rb) by (rewrite Nat.add_1_r; apply al_rk; lia).
      rewrite al_offsets. cbn [obind]. assert (Ed : fp_dim ftp = d) by exact (pa_dim z ev ftp Ok_). rewrite Ed.
      pose (I := fun q (s : R * list R * nat * nat * nat) =>
        let '(out, grad, on, onp, un) := s in onp = PO (EO c + q) /\ un = EO c + q /\ acc q out grad on).
      assert (I0 : I 0 (r0, grad0, 0, PO (EO c), EO c)).
      { split; [now rewrite Nat.add_0_r|]. split; [now rewrite Nat.add_0_r|apply acc_0]. }
      assert (ST : forall q out grad on onp un w, q < rb * ra -> I q (out, grad, on, onp, un) -> (forall g, w g = W q *! g) ->
        exists grad', lin_value z ev ftp ge un onp = Ok (MV q, n q) /\
          fill_core ge onp goff w (n q) (grad, on) = Ok (grad', on + n q) /\
          forall out', out' = out +! W q *! MV q -> I (S q) (out', grad', on + n q, onp + n q, un + 1)).
      { intros q out grad on onp un w Hq (-> & -> & HA) Hw. destruct (al_fun q Hq) as (u & Eu & _).
        destruct (acc_step q out grad on ge (PO (EO c + q)) w u HA Hq Eu) as (g' & E & HA'); auto.
        { intros l Hl'. now apply (al_ge q). }
        exists g'. split; [now apply al_linv|]. split; [exact E|]. intros out' Eo. split; [symmetry; apply al_POS|].
        split; [lia|]. now apply HA'. }
      destruct (Nat.eq_dec c 0) as [C0|C0]; [|destruct (Nat.eq_dec c (d - 1)) as [C1|C1]].
      - rewrite (proj2 (Nat.ltb_ge 0 c)) by lia. cbn [andb]. rewrite (proj2 (Nat.eqb_neq c (d - 1))) by lia.
        assert (R1 : aget (ft_ranks (fp_ft ftp)) 1 = Ok rb) by (rewrite <- Rb, C0; reflexivity).
        rewrite R1. cbn [obind].
        assert (A1 : ra = 1) by (unfold ra; rewrite C0; apply al_r0).
        match goal with |- context [for_ rb ?b ?s] => destruct (for_inv I b rb s I0) as ([[[[out g'] on] onp] un] & E & _ & _ & HA) end.
        { intros j [[[[out g'] on] onp] un] Hj HI.
          assert (EW : W j = B j). { unfold W. rewrite A1, Nat.mod_1_r, Nat.div_1_r. unfold L. rewrite C0. cbn [fw]. ring. }
          destruct (ST j _ _ _ _ _ (fun g => B j *! g) ltac:(lia) HI) as (g2 & E1 & E2 & HI'). { intros g. now rewrite EW. }
          rewrite E1. cbn [obind]. rewrite (aget_ok _ _ (B j)) by (apply Hr; lia). cbn [obind]. rewrite E2. cbn [obind].
          eexists. split; [reflexivity|]. apply HI'. rewrite EW. ring. }
        rewrite E. cbn [obind]. exists out, g'. split; [reflexivity|].
        apply (acc_end out g' on). rewrite A1, Nat.mul_1_r. exact HA.
      - rewrite (proj2 (Nat.ltb_ge c (d - 1))) by lia. rewrite andb_false_r. rewrite (proj2 (Nat.eqb_eq c (d - 1))) by lia.
        rewrite <- C1, Ra. cbn [obind].
        assert (B1 : rb = 1) by (unfold rb; replace (S c) with d by lia; apply al_rd).
        match goal with |- context [for_ ra ?b ?s] => destruct (for_inv I b ra s I0) as ([[[[out g'] on] onp] un] & E & _ & _ & HA) end.
        { intros i [[[[out g'] on] onp] un] Hi HI.
          assert (EW : W i = L i).
          { unfold W. rewrite Nat.mod_small, Nat.div_small by auto. unfold B. replace (d - 1 - c) with 0 by lia. cbn [bw]. ring. }
          destruct (ST i _ _ _ _ _ (fun g => L i *! g) ltac:(lia) HI) as (g2 & E1 & E2 & HI'). { intros g. now rewrite EW. }
          rewrite E1. cbn [obind]. rewrite (aget_ok _ _ (L i)) by (apply Hl; lia). cbn [obind]. rewrite E2. cbn [obind].
          eexists. split; [reflexivity|]. apply HI'. rewrite EW. ring. }
        rewrite E. cbn [obind]. exists out, g'. split; [reflexivity|].
        apply (acc_end out g' on). rewrite B1, Nat.mul_1_l. exact HA.
      - rewrite (proj2 (Nat.ltb_lt 0 c)), (proj2 (Nat.ltb_lt c (d - 1))) by lia. cbn [andb]. rewrite Rb. cbn [obind].
        match goal with |- context [for_ rb ?b ?s] =>
          destruct (for_inv (fun j => I (j * ra)) b rb s I0) as ([[[[out g'] on] onp] un] & E & _ & _ & HA) end.
        { intros j s Hj HI. rewrite Ra. cbn [obind].
          match goal with |- context [for_ ra ?b ?s] =>
            destruct (for_inv (fun i => I (j * ra + i)) b ra s) as (s' & E & HI') end.
          { now rewrite Nat.add_0_r. }
          { intros i [[[[out g'] on] onp] un] Hi HI'.
            destruct (al_idx j i Hi) as [E1 E2].
            assert (EW : W (j * ra + i) = L i *! B j) by (unfold W; rewrite E1, E2; reflexivity).
            destruct (ST (j * ra + i) _ _ _ _ _ (fun g => L i *! B j *! g) ltac:(nia) HI') as (g2 & E3 & E4 & HI2). { intros g. now rewrite EW. }
            rewrite E3. cbn [obind]. rewrite (aget_ok _ _ (L i)) by (apply Hl; lia). cbn [obind].
            rewrite (aget_ok _ _ (B j)) by (apply Hr; lia). cbn [obind]. rewrite E4. cbn [obind].
            eexists. split; [reflexivity|]. rewrite Nat.add_succ_r. apply HI2. rewrite EW. ring. }
          rewrite E. eexists. split; [reflexivity|]. rewrite Nat.add_comm in HI'. exact HI'. }
        rewrite E. cbn [obind]. exists out, g'. split; [reflexivity|].
        apply (acc_end out g' on). exact HA.
    Qed.

    Lemma core_eval_lin_ok lr rl : (0 < c -> pre lr ra L) -> (c < d - 1 -> pre rl rb B) -> 2 <= d ->
      core_eval_lin z ev ftp c lr rl ge = Ok (train_value f x).
    Proof. clear Lg.
      intros Hl Hr H2. unfold core_eval_lin.
      assert (Ra : aget (ft_ranks (fp_ft ftp)) c = Ok ra) by (apply al_rk; lia).
      assert (Rb : aget (ft_ranks (fp_ft ftp)) (c + 1) = Ok rb) by (rewrite Nat.add_1_r; apply al_rk; lia).
      assert (Epu : fp_npu ftp = map gf_num funs) by exact (pa_npu z ev ftp Ok_).
      assert (EOF : EO d = length funs) by exact (pa_EOd z ev ftp Ok_).
      match goal with |- context [for_ c ?b ?s] => assert (E0 : for_ c b s = Ok (PO (EO c), EO c)) end.
      { apply (for_det (fun k => (PO (EO k), EO k))). intros k Hk.
        rewrite al_rk by lia. cbn [obind]. rewrite Nat.add_1_r, al_rk by lia. cbn [obind].
        assert (HE : EO (S k) <= EO d) by (apply offs_mono; lia). change (EO (S k)) with (EO k + r k * r (S k)) in *.
        rewrite <- (Nat.add_0_r (EO k)) at 1 2.
        apply (for_det (fun p => (PO (EO k + p), EO k + p))). intros p Hp.
        rewrite (aget_ok _ _ (np (EO k + p))). 2:{ rewrite Epu. apply nth_error_nth'. rewrite map_length. apply (Nat.lt_le_trans _ (EO d)); [lia|rewrite EOF; apply Nat.le_refl]. }
        cbn [obind]. f_equal. apply f_equal2; [rewrite Nat.add_succ_r; reflexivity|lia]. }
      rewrite E0. cbn [obind]. assert (Ed : fp_dim ftp = d) by exact (pa_dim z ev ftp Ok_). rewrite Ed.
      pose (I := fun q (s : R * nat * nat) =>
        let '(out, onp, un) := s in onp = PO (EO c + q) /\ un = EO c + q /\ out = sum q (fun t => W t *! MV t)).
      assert (I0 : I 0 (r0, PO (EO c), EO c)).
      { split; [now rewrite Nat.add_0_r|]. split; [now rewrite Nat.add_0_r|reflexivity]. }
      assert (ST : forall q out onp un, q < rb * ra -> I q (out, onp, un) ->
        lin_value z ev ftp ge un onp = Ok (MV q, n q) /\
        forall out', out' = out +! W q *! MV q -> I (S q) (out', onp + n q, un + 1)).
      { intros q out onp un Hq (-> & -> & ->). split; [now apply al_linv|]. intros out' ->. split; [symmetry; apply al_POS|].
        split; [lia|]. reflexivity. }
      destruct (Nat.eq_dec c 0) as [C0|C0]; [|destruct (Nat.eq_dec c (d - 1)) as [C1|C1]].
      - rewrite (proj2 (Nat.ltb_ge 0 c)) by lia. cbn [andb]. rewrite (proj2 (Nat.eqb_neq c (d - 1))) by lia.
        assert (R1 : aget (ft_ranks (fp_ft ftp)) 1 = Ok rb) by (rewrite <- Rb, C0; reflexivity).
        rewrite R1. cbn [obind].
        assert (A1 : ra = 1) by (unfold ra; rewrite C0; apply al_r0).
        match goal with |- context [for_ rb ?b ?s] => destruct (for_inv I b rb s I0) as ([[out onp] un] & E & _ & _ & HA) end.
        { intros j [[out onp] un] Hj HI.
          assert (EW : W j = B j). { unfold W. rewrite A1, Nat.mod_1_r, Nat.div_1_r. unfold L. rewrite C0. cbn [fw]. ring. }
          destruct (ST j _ _ _ ltac:(lia) HI) as (E1 & HI').
          rewrite E1. cbn [obind]. rewrite (aget_ok _ _ (B j)) by (apply Hr; lia). cbn [obind].
          eexists. split; [reflexivity|]. apply HI'. rewrite EW. ring. }
        rewrite E. cbn [obind]. f_equal. rewrite HA, <- al_value, A1, Nat.mul_1_r. reflexivity.
      - rewrite (proj2 (Nat.ltb_ge c (d - 1))) by lia. rewrite andb_false_r. rewrite (proj2 (Nat.eqb_eq c (d - 1))) by lia.
        rewrite <- C1, Ra. cbn [obind].
        assert (B1 : rb = 1) by (unfold rb; replace (S c) with d by lia; apply al_rd).
        match goal with |- context [for_ ra ?b ?s] => destruct (for_inv I b ra s I0) as ([[out onp] un] & E & _ & _ & HA) end.
        { intros i [[out onp] un] Hi HI.
          assert (EW : W i = L i).
          { unfold W. rewrite Nat.mod_small, Nat.div_small by auto. unfold B. replace (d - 1 - c) with 0 by lia. cbn [bw]. ring. }
          destruct (ST i _ _ _ ltac:(lia) HI) as (E1 & HI').
          rewrite E1. cbn [obind]. rewrite (aget_ok _ _ (L i)) by (apply Hl; lia). cbn [obind].
          eexists. split; [reflexivity|]. apply HI'. rewrite EW. ring. }
        rewrite E. cbn [obind]. f_equal. rewrite HA, <- al_value, B1, Nat.mul_1_l. reflexivity.
      - rewrite (proj2 (Nat.ltb_lt 0 c)), (proj2 (Nat.ltb_lt c (d - 1))) by lia. cbn [andb]. rewrite Rb. cbn [obind].
        match goal with |- context [for_ rb ?b ?s] =>
          destruct (for_inv (fun j => I (j * ra)) b rb s I0) as ([[out onp] un] & E & _ & _ & HA) end.
        { intros j s Hj HI. rewrite Ra. cbn [obind].
          match goal with |- context [for_ ra ?b ?s] =>
            destruct (for_inv (fun i => I (j * ra + i)) b ra s) as (s' & E & HI') end.
          { now rewrite Nat.add_0_r. }
          { intros i [[out onp] un] Hi HI'.
            destruct (al_idx j i Hi) as [E1 E2].
            assert (EW : W (j * ra + i) = L i *! B j) by (unfold W; rewrite E1, E2; reflexivity).
            destruct (ST (j * ra + i) _ _ _ ltac:(nia) HI') as (E3 & HI2).
            rewrite E3. cbn [obind]. rewrite (aget_ok _ _ (L i)) by (apply Hl; lia). cbn [obind].
            rewrite (aget_ok _ _ (B j)) by (apply Hr; lia). cbn [obind].
            eexists. split; [reflexivity|]. rewrite Nat.add_succ_r. apply HI2. rewrite EW. ring. }
          rewrite E. eexists. split; [reflexivity|]. rewrite Nat.add_comm in HI'. exact HI'. }
        rewrite E. cbn [obind]. f_equal. rewrite HA. apply al_value.
    Qed.
  End Linear.

  (** ** Evaluations of a core, functions evaluated one by one *)
  Variable bad : R -> bool.
  Hypothesis Hbad : forall v, bad v = false.

  Lemma core_evals_ok evals : rb * ra <= length evals ->
    exists e', core_evals bad z ev ftp c xc evals = Ok e' /\ length e' = length evals /\ pre e' (rb * ra) MV.
  Proof. clear Lg.
    intros Le. unfold core_evals.
    assert (Ec : aget (ft_cores (fp_ft ftp)) c = Ok (fco f c)) by exact (pa_core z ev ftp Ok_ c Hc).
    rewrite Ec. cbn [obind].
    destruct (canon_core f c (pa_wf z ev ftp Ok_) Hc) as (_ & Q & N & C & _).
    assert (EN : nr (fco f c) * nc (fco f c) = rb * ra) by (rewrite N, C; unfold ra, rb; apply Nat.mul_comm).
    pose proof al_ra as Pa. pose proof al_rb as Pb.
    destruct (al_fun 0) as (u & Eu & _); [nia|].
    destruct (eval2_ok (U := U) (fco f c) xc evals) as (e' & E & Le' & P).
    - exact Q.
    - right. exists 0, u. split; [lia|]. split; [exact Eu|reflexivity].
    - rewrite EN. exact Le.
    - rewrite E. cbn [obind]. rewrite EN in P |- *.
      rewrite (for_det (fun _ => tt)).
      + cbn [obind]. exists e'. auto.
      + intros i Hi. rewrite (aget_ok _ _ _ (P i Hi)). cbn [obind]. now rewrite Hbad.
  Qed.

  Lemma sweep_lr_ok evals lr up : (0 < c -> pre lr ra L) -> rb * ra <= length evals -> rb <= length up ->
    exists e' up', sweep_lr bad z ev ftp c xc evals lr up = Ok (e', up') /\ length e' = length evals /\
      length up' = length up /\ pre up' rb (fw r M (S c)).
  Proof. clear Lg.
    intros Hl Le Lu. unfold sweep_lr. destruct (core_evals_ok evals Le) as (e' & E & Le' & P). rewrite E. cbn [obind].
    unfold update_running_lr.
    assert (Ra : aget (ft_ranks (fp_ft ftp)) c = Ok ra) by (apply al_rk; lia).
    assert (Rb : aget (ft_ranks (fp_ft ftp)) (c + 1) = Ok rb) by (rewrite Nat.add_1_r; apply al_rk; lia).
    rewrite Ra, Rb. cbn [obind]. pose proof al_ra as Pa. pose proof al_rb as Pb.
    assert (PM : forall i j, i < ra -> j < rb -> nth_error e' (j * ra + i) = Some (M c i j)).
    { intros i j Hi Hj. rewrite P by nia. f_equal. destruct (al_fun (j * ra + i)) as (_ & _ & _ & _ & _ & _ & EM & _); [nia|].
      destruct (al_idx j i Hi) as [E1 E2]. now rewrite EM, E1, E2. }
    destruct (Nat.ltb_spec 0 c) as [C0|C0].
    - destruct (dgemv_t_ok ra rb e' ra lr up (M c) L Pa Pb PM (Hl C0) Lu) as (up' & E2 & Lu' & P').
      rewrite E2. cbn [obind]. exists e', up'. repeat split; auto.
      intros j Hj. rewrite P' by auto. f_equal. cbn [fw]. apply sum_ext. intros i Hi. unfold L. ring.
    - assert (A1 : ra = 1) by (unfold ra; replace c with 0 by lia; apply al_r0).
      assert (R1 : aget (ft_ranks (fp_ft ftp)) 1 = Ok rb) by (rewrite <- Rb; f_equal; lia).
      rewrite R1. cbn [obind]. rewrite blit_ok by nia. cbn [obind skipn].
      eexists e', _. split; [reflexivity|]. split; auto.
      assert (Lf : length (firstn rb e') = rb) by (rewrite firstn_length; nia).
      split; [rewrite splice_length; lia|].
      intros j Hj. rewrite nth_error_splice by lia. cbn [Nat.add Nat.leb andb].
      rewrite (proj2 (Nat.ltb_lt j _)) by lia. rewrite Nat.sub_0_r, nth_error_firstn by auto.
      specialize (PM 0 j ltac:(lia) Hj). rewrite A1 in PM. replace (j * 1 + 0) with j in PM by lia. rewrite PM. f_equal.
      cbn [fw]. fold ra. rewrite A1, sum_1. replace c with 0 at 3 by lia. cbn [fw]. ring.
  Qed.

  Lemma sweep_rl_ok evals rl up : (c < d - 1 -> pre rl rb B) -> rb * ra <= length evals -> ra <= length up ->
    exists e' up', sweep_rl bad z ev ftp c xc evals rl up = Ok (e', up') /\ length e' = length evals /\
      length up' = length up /\ pre up' ra (bw r M (d - c) c).
  Proof. clear Lg.
    intros Hr Le Lu. unfold sweep_rl. destruct (core_evals_ok evals Le) as (e' & E & Le' & P). rewrite E. cbn [obind].
    unfold update_running_rl.
    assert (Ra : aget (ft_ranks (fp_ft ftp)) c = Ok ra) by (apply al_rk; lia).
    assert (Rb : aget (ft_ranks (fp_ft ftp)) (c + 1) = Ok rb) by (rewrite Nat.add_1_r; apply al_rk; lia).
    rewrite Ra, Rb. cbn [obind]. pose proof al_ra as Pa. pose proof al_rb as Pb.
    assert (Ed : fp_dim ftp = d) by exact (pa_dim z ev ftp Ok_). rewrite Ed.
    replace (d - c) with (S (d - 1 - c)) by lia.
    assert (PM : forall i j, i < ra -> j < rb -> nth_error e' (j * ra + i) = Some (M c i j)).
    { intros i j Hi Hj. rewrite P by nia. f_equal. destruct (al_fun (j * ra + i)) as (_ & _ & _ & _ & _ & _ & EM & _); [nia|].
      destruct (al_idx j i Hi) as [E1 E2]. now rewrite EM, E1, E2. }
    destruct (Nat.ltb_spec c (d - 1)) as [C0|C0].
    - destruct (dgemv_n_ok ra rb e' ra rl up (M c) B Pa Pb PM (Hr C0) Lu) as (up' & E2 & Lu' & P').
      rewrite E2. cbn [obind]. exists e', up'. repeat split; auto.
    - assert (B1 : rb = 1) by (unfold rb; replace (S c) with d by lia; apply al_rd).
      replace (d - 1) with c by lia. rewrite Ra. cbn [obind]. rewrite blit_ok by nia. cbn [obind skipn].
      eexists e', _. split; [reflexivity|]. split; auto.
      assert (Lf : length (firstn ra e') = ra) by (rewrite firstn_length; nia).
      split; [rewrite splice_length; lia|].
      intros i Hi. rewrite nth_error_splice by lia. cbn [Nat.add Nat.leb andb].
      rewrite (proj2 (Nat.ltb_lt i _)) by lia. rewrite Nat.sub_0_r, nth_error_firstn by auto.
      specialize (PM i 0 Hi ltac:(lia)). cbn [Nat.mul Nat.add] in PM. rewrite PM. f_equal.
      cbn [bw]. fold rb. rewrite B1, sum_1. replace (c - c) with 0 by lia. cbn [bw]. ring.
  Qed.
End Sample.

(** The same facts in terms of the counts kept by the parameterized train. *)
Section Restate.
  Context {R : CRing} {F : Type}.
  Open Scope cr_scope.
  Variable z : gfn R F.
  Variable ev : gfn R F -> R -> R.
  Notation U := (evU z ev).
  Variable ftp : ftparam R U.
  Hypothesis Ok_ : ftp_ok ftp.
  Variable x : list R.
  Hypothesis Hx : length x = ft_dim (fp_ft ftp).
  Variable c : nat.
  Hypothesis Hc : c < ft_dim (fp_ft ftp).
  Definition cnp := nth c (fp_npc ftp) 0.

  Definition core_spec (D : gfn R F -> R -> list R) (grad0 : list R) (goff : nat) (out : R) (grad : list R) : Prop :=
    out = train_value (fp_ft ftp) x /\ length grad = length grad0 /\
    (forall p, p < goff \/ goff + cnp <= p -> nth_error grad p = nth_error grad0 p) /\
    (forall p, p < cnp -> exists w u l v,
       gf_wf u /\ nth_error (gf_params u) l = Some v /\
       nth_error (fp_params ftp) (before ftp c + p) = Some v /\
       nth_error grad (goff + p) = Some (w *! nth l (D u (nth c x r0)) r0) /\
       forall t, train_value (ft_with (fp_ft ftp) (upd (fp_params ftp) (before ftp c + p) t) : ftrain U) x
                 = train_value (fp_ft ftp) x +! w *! (ev (gf_with u (upd (gf_params u) l t)) (nth c x r0) -! ev u (nth c x r0))).

  Lemma core_out_spec D grad0 goff out grad :
    core_out z ev ftp x c D grad0 goff out grad -> core_spec D grad0 goff out grad.
  Proof.
    intros (H1 & H2 & H3 & H4). unfold core_spec, cnp.
    assert (E1 := al_npcE z ev ftp Ok_ x Hx c Hc). assert (E2 := al_before z ev ftp Ok_ x Hx c Hc). cbv zeta in *.
    split; [exact H1|]. split; [exact H2|]. split.
    - intros p Hp. apply H3. rewrite E1. exact Hp.
    - intros p Hp. destruct (H4 p) as (w & u & l & v & _ & A & B & C & D' & E); [rewrite E1; exact Hp|].
      rewrite E2 in C, E. exists w, u, l, v. repeat split; auto.
  Qed.

  Lemma cnp_fit : before ftp c + cnp <= fp_nparams ftp.
  Proof.
    assert (H := al_fit z ev ftp Ok_ x Hx c Hc).
    assert (E1 := al_npcE z ev ftp Ok_ x Hx c Hc). assert (E2 := al_before z ev ftp Ok_ x Hx c Hc). cbv zeta in *.
    unfold cnp. rewrite <- E1, <- E2. exact H.
  Qed.
End Restate.
