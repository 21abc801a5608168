(** The ways to write parameters into a parameterized function train. *)
From Verif Require Export PAllocPad.

(** Values of two trains of the same shape whose functions agree *)
Section SameValue.
  Context {R : CRing} {F : Type}.
  Open Scope cr_scope.
  Variable z : gfn R F.
  Variable ev : gfn R F -> R -> R.
  Notation U := (evU z ev).

  Lemma value_ext (f g : ftrain U) x : ft_wf f -> ft_wf g -> ft_dim g = ft_dim f -> ft_ranks g = ft_ranks f ->
    length x = ft_dim f ->
    Forall2 (fun u v : gfn R F => forall y, ev u y = ev v y) (flat_map fs (ft_cores f)) (flat_map fs (ft_cores g)) ->
    train_value f x = train_value g x.
  Proof.
    intros Wf Wg Ed Er Lx H. etransitivity; [exact (pt_value z ev f Wf x Lx)|].
    etransitivity; [|symmetry; refine (pt_value z ev g Wg x _); etransitivity; [exact Lx|symmetry; exact Ed]].
    assert (rk : forall k, frk g k = frk f k) by (intros k; unfold frk; now rewrite Er).
    rewrite Ed. transitivity (bw (frk f) (fM g (fun k u => uev u (nth k x r0))) (ft_dim f) 0 0).
    2:{ assert (E : forall n k i, bw (frk f) (fM g (fun k u => uev u (nth k x r0))) n k i = bw (frk g) (fM g (fun k u => uev u (nth k x r0))) n k i).
        { induction n as [|n IH]; intros k i; cbn [bw]; auto. rewrite rk. apply sum_ext. intros j _. now rewrite IH. }
        apply E. }
    apply bw_ext; [rewrite frk_0 by auto; lia|]. intros k i j Hk Hi Hj.
    destruct (fM_entry f (fun k u => uev u (nth k x r0)) k i j Wf ltac:(lia) Hi Hj) as (u & Eu & ->).
    destruct (fM_entry g (fun k u => uev u (nth k x r0)) k i j Wg ltac:(lia) ltac:(rewrite rk; auto) ltac:(rewrite rk; auto)) as (v & Ev & ->).
    change (ev u (nth k x r0) = ev v (nth k x r0)).
    assert (Hl : j * frk f k + i < frk f k * frk f (S k)) by nia.
    rewrite <- (funs_nth f Wf k) in Eu by (auto; lia).
    rewrite <- (funs_nth g Wg k) in Ev by (rewrite ?rk; auto; lia).
    rewrite (offs_ext _ (fun q => frk f q * frk f (S q))), rk in Ev by (intros; now rewrite !rk).
    revert Eu Ev H. generalize (offs (fun q => frk f q * frk f (S q)) k + (j * frk f k + i)) as n. clear.
    intros n Eu Ev H. revert n Eu Ev. induction H as [|a b l l' Hab _ IH]; intros [|n] Eu Ev; try discriminate.
    - injection Eu as <-. injection Ev as <-. apply Hab.
    - exact (IH n Eu Ev).
  Qed.
End SameValue.

(** * Selected blocks *)
(** The old parameters with the selected blocks replaced, in order, by
    successive blocks of the new ones.  A block is a flag and a size. *)
Fixpoint merge {A} (bs : list (bool * nat)) (old new : list A) : list A :=
  match bs with
  | [] => old
  | (true, n) :: bs => firstn n new ++ merge bs (skipn n old) (skipn n new)
  | (false, n) :: bs => firstn n old ++ merge bs (skipn n old) new
  end.
(** Number of new parameters used *)
Fixpoint taken (bs : list (bool * nat)) : nat :=
  match bs with
  | [] => 0
  | (b, n) :: bs => (if b : bool then n else 0) + taken bs
  end.
Definition total (bs : list (bool * nat)) : nat := list_sum (map snd bs).

Lemma total_cons b n bs : total ((b, n) :: bs) = n + total bs. Proof. reflexivity. Qed.
Lemma total_app a b : total (a ++ b) = total a + total b.
Proof. unfold total. rewrite map_app. apply list_sum_app. Qed.
Lemma taken_app a b : taken (a ++ b) = taken a + taken b.
Proof. induction a as [|[s n] a IH]; cbn [app taken]; auto. rewrite IH. lia. Qed.

Section Merge.
  Context {A : Type}.
  Lemma nth_error_skipn_add n (l : list A) i : nth_error (skipn n l) i = nth_error l (n + i).
  Proof. revert l. induction n as [|n IH]; intros [|a l]; cbn [skipn Nat.add nth_error]; auto. now destruct i. Qed.
  Lemma merge_length bs (old new : list A) : total bs <= length old -> taken bs <= length new ->
    length (merge bs old new) = length old.
  Proof.
    revert old new. induction bs as [|[[|] n] bs IH]; intros old new L T; auto; rewrite total_cons in L; cbn [taken merge] in *;
      rewrite app_length, firstn_length, IH; rewrite ?skipn_length; lia.
  Qed.
  Lemma splice_cons_pre off (p l q : list A) : off = length q -> forall o, splice (off + o) p (q ++ l) = q ++ splice o p l.
  Proof.
    intros -> o. unfold splice. rewrite firstn_app, firstn_all2 by lia. rewrite <- app_assoc. f_equal.
    replace (length q + o - length q) with o by lia. f_equal. f_equal.
    rewrite skipn_app, (skipn_all2 q) by lia. cbn [app]. f_equal. lia.
  Qed.
  Lemma merge_snoc bs b n (old new : list A) : total bs + n <= length old -> taken bs + (if b : bool then n else 0) <= length new ->
    merge (bs ++ [(b, n)]) old new
    = if b then splice (total bs) (firstn n (skipn (taken bs) new)) (merge bs old new) else merge bs old new.
  Proof.
    revert old new. induction bs as [|[s m] bs IH]; intros old new L T.
    - cbn [app merge taken total map list_sum fold_right skipn] in *. destruct b.
      + unfold splice. cbn [firstn app Nat.add]. f_equal. rewrite firstn_length. f_equal. lia.
      + apply firstn_skipn.
    - rewrite total_cons in *. cbn [app taken merge] in *. destruct s.
      + rewrite IH by (rewrite skipn_length; lia). destruct b; auto.
        assert (Ef : m = length (firstn m new)) by (rewrite firstn_length; lia).
        rewrite (splice_cons_pre _ _ _ _ Ef), skipn_add. reflexivity.
      + rewrite IH by (rewrite ?skipn_length; lia). destruct b; auto.
        assert (Ef : m = length (firstn m old)) by (rewrite firstn_length; lia).
        rewrite (splice_cons_pre _ _ _ _ Ef). reflexivity.
  Qed.
  Lemma merge_in bs (old new : list A) v : In v (merge bs old new) -> In v old \/ In v new.
  Proof.
    assert (Hf : forall n (l : list A), In v (firstn n l) -> In v l).
    { intros n l H. rewrite <- (firstn_skipn n l). apply in_or_app. now left. }
    assert (Hs : forall n (l : list A), In v (skipn n l) -> In v l).
    { intros n l H. rewrite <- (firstn_skipn n l). apply in_or_app. now right. }
    revert old new. induction bs as [|[[|] n] bs IH]; intros old new H; cbn [merge] in H; auto; apply in_app_or in H as [H|H]; eauto.
    - apply IH in H as [H|H]; eauto.
    - apply IH in H as [H|H]; eauto.
  Qed.
  (** Pointwise *)
  Lemma merge_nth bs1 b n bs2 (old new : list A) l : total (bs1 ++ (b, n) :: bs2) <= length old ->
    taken (bs1 ++ (b, n) :: bs2) <= length new -> l < n ->
    nth_error (merge (bs1 ++ (b, n) :: bs2) old new) (total bs1 + l)
    = if b then nth_error new (taken bs1 + l) else nth_error old (total bs1 + l).
  Proof.
    revert old new. induction bs1 as [|[s m] bs1 IH]; intros old new L T Hl.
    - cbn [app] in *. rewrite total_cons in L. change (total []) with 0. cbn [taken Nat.add] in *. destruct b; cbn [merge];
        (rewrite nth_error_app1 by (rewrite firstn_length; lia)); apply nth_error_firstn; lia.
    - cbn [app] in *. rewrite total_cons in *. cbn [taken merge] in *. destruct s;
        (rewrite nth_error_app2; rewrite firstn_length; [|lia]).
      + replace (m + total bs1 + l - Nat.min m (length new)) with (total bs1 + l) by lia.
        rewrite IH by (rewrite ?skipn_length; lia). destruct b; rewrite nth_error_skipn_add; f_equal; lia.
      + replace (m + total bs1 + l - Nat.min m (length old)) with (total bs1 + l) by lia.
        rewrite IH by (rewrite ?skipn_length; lia). destruct b; rewrite ?nth_error_skipn_add; f_equal; lia.
  Qed.
End Merge.

Lemma map_snd_combine {A B} (a : list A) (b : list B) : length a = length b -> map snd (combine a b) = b.
Proof. revert b. induction a as [|x a IH]; intros [|y b] H; try discriminate; cbn [combine map snd]; auto. f_equal. apply IH. cbn in H. lia. Qed.
Lemma nth_error_combine {A B} (a : list A) (b : list B) n x y : nth_error a n = Some x -> nth_error b n = Some y ->
  nth_error (combine a b) n = Some (x, y).
Proof. revert b n. induction a as [|x' a IH]; intros [|y' b] [|n] Ha Hb; try discriminate; cbn [combine nth_error] in *; [congruence|auto]. Qed.

(** * Updates *)
Section Upd.
  Context {R : CRing} {F : Type}.
  Open Scope cr_scope.
  Variable bad : R -> bool.
  Notation G := (gfn R F).
  Variable ftp : ftparam R G.
  Hypothesis O : ftp_ok ftp.
  Let f := fp_ft ftp.

  Lemma set_self : set_ftp ftp (fp_ft ftp) (fp_params ftp) = ftp.
  Proof. now destruct ftp. Qed.

  Lemma update_ok p : fp_nparams ftp <= length p -> (forall v, In v (firstn (fp_nparams ftp) p) -> bad v = false) ->
    exists ftp', ftp_update bad ftp p = Ok ftp' /\ ftp_ok ftp' /\ same_structure f (fp_ft ftp') /\
      fp_params ftp' = firstn (fp_nparams ftp) p /\ fp_ft ftp' = ft_with f (firstn (fp_nparams ftp) p).
  Proof.
    intros L B. unfold ftp_update. pose proof (ftp_params_length ftp O) as Lp.
    rewrite blit_ok by (cbn [Nat.add]; lia). cbn [obind skipn].
    assert (L' : length (firstn (fp_nparams ftp) p) = fp_nparams ftp) by (rewrite firstn_length; lia).
    rewrite splice_full by lia.
    destruct (ftp_set bad ftp _ O L' B) as (g & E & Og & Sg & Eg). rewrite E. cbn [obind].
    eexists. split; [reflexivity|]. cbn [set_ftp fp_ft fp_params]. auto.
  Qed.

  Lemma update_bad p : fp_nparams ftp <= length p -> (exists v, In v (firstn (fp_nparams ftp) p) /\ bad v = true) ->
    ftp_update bad ftp p = Abort.
  Proof.
    intros L (v & Hv & B). unfold ftp_update. pose proof (ftp_params_length ftp O) as Lp.
    rewrite blit_ok by (cbn [Nat.add]; lia). cbn [obind skipn].
    assert (L' : length (firstn (fp_nparams ftp) p) = fp_nparams ftp) by (rewrite firstn_length; lia).
    rewrite splice_full by lia. destruct O as (_ & Of & _ & _ & _ & EN & _).
    rewrite (C10_rejects_nan bad r0 (fp_ft ftp) _ v); auto.
    - unfold train_params. rewrite <- EN. lia.
    - unfold train_params. rewrite <- EN, firstn_all2 by lia. exact Hv.
  Qed.

  Lemma self_update_ok : (forall v, In v (fp_params ftp) -> bad v = false) -> ftp_self_update bad ftp = Ok ftp.
  Proof.
    intros B. unfold ftp_self_update. pose proof (ftp_params_length ftp O) as Lp.
    destruct (ftp_set bad ftp _ O Lp B) as (g & E & Og & Sg & Eg). rewrite E. cbn [obind]. f_equal.
    assert (g = fp_ft ftp).
    { destruct O as (_ & Of & _ & _ & _ & _ & EP). symmetry. apply C10_determined; auto.
      - destruct Og as (_ & Og & _). exact Og.
      - destruct Og as (_ & _ & _ & _ & _ & _ & EPg). cbn [set_ftp fp_ft fp_params] in EPg. unfold train_params. congruence. }
    rewrite H. apply set_self.
  Qed.

  Variable z : G.
  (** Blocks of the functions, with a test for each position *)
  Let r k := nth k (ft_ranks f) 0.
  Definition blocks (t : nat -> nat -> nat -> bool) : list (bool * nat) :=
    combine (map (fun q => t (fst (fst q)) (snd (fst q)) (snd q)) (positions r (ft_dim f))) (fp_npu ftp).

  Lemma up_rk k : k <= ft_dim f -> aget (ft_ranks f) k = Ok (r k).
  Proof.
    destruct O as (W & _). intros H. apply aget_ok. apply nth_error_nth'. destruct W as (E1 & _ & E2 & _). unfold f in *.
    rewrite E2. cbn [length]. rewrite map_length. lia.
  Qed.
  Lemma npu_len : length (fp_npu ftp) = length (positions r (ft_dim f)).
  Proof.
    destruct O as (W & _ & _ & E & _). rewrite E, map_length, positions_length.
    exact (funs_total (U := evU z (fun _ _ => r0)) f W).
  Qed.
  Lemma blocks_total t : total (blocks t) = fp_nparams ftp.
  Proof.
    unfold blocks, total. rewrite map_snd_combine by (rewrite map_length; symmetry; apply npu_len).
    rewrite (ftp_npu_eq ftp O), (ftp_nparams_eq ftp O). reflexivity.
  Qed.

  Section Sel.
    Variable test : nat -> nat -> nat -> outcome bool.
    Variable t : nat -> nat -> nat -> bool.
    Hypothesis Ht : forall k i j, k < ft_dim f -> i < r k -> j < r (S k) -> test k i j = Ok (t k i j).

    Lemma blocks_split p k i j s : positions r (ft_dim f) = p ++ (k, i, j) :: s ->
      exists n pre post, nth_error (fp_npu ftp) (length p) = Some n /\ length pre = length p /\
        blocks t = pre ++ (t k i j, n) :: post /\ pre = firstn (length p) (blocks t).
    Proof.
      intros E. pose proof npu_len as L. rewrite E, app_length in L. cbn [length] in L.
      destruct (nth_error (fp_npu ftp) (length p)) as [n|] eqn:En; [|apply nth_error_None in En; lia].
      assert (Lb : length (blocks t) = length (positions r (ft_dim f))).
      { unfold blocks. rewrite combine_length, map_length, npu_len. lia. }
      assert (Eb : nth_error (blocks t) (length p) = Some (t k i j, n)).
      { unfold blocks. rewrite E, map_app. cbn [map fst snd].
        apply nth_error_combine; [|exact En]. rewrite nth_error_app2; rewrite map_length; [|lia]. rewrite Nat.sub_diag. reflexivity. }
      exists n, (firstn (length p) (blocks t)), (skipn (S (length p)) (blocks t)).
      assert (length p < length (blocks t)) by (apply nth_error_Some; congruence).
      split; [auto|]. split; [rewrite firstn_length; lia|]. split; auto.
      rewrite <- (firstn_skipn (length p) (blocks t)) at 1. f_equal.
      clear -Eb. revert Eb. generalize (blocks t) as l. generalize (length p) as m.
      induction m as [|m IH]; intros [|a l] Eb; try discriminate; cbn [nth_error skipn] in *; [congruence|]. now apply IH.
    Qed.

    Lemma restrict_count :
      over_funs (ft_dim f) (ft_ranks f) (fun kk ii jj (s : nat * nat) =>
        let '(nparams, ind) := s in
        do t <- test kk ii jj;
        do nparams <- (if t : bool then do n <- aget (fp_npu ftp) ind; Ok (nparams + n) else Ok nparams);
        Ok (nparams, ind + 1)) (0, 0) = Ok (taken (blocks t), length (positions r (ft_dim f))).
    Proof.
      rewrite (over_funs_ok _ _ r) by apply up_rk.
      destruct (foldM_inv (fun (l : list (nat * nat * nat)) (s : nat * nat) => s = (taken (firstn (length l) (blocks t)), length l))
        (fun q (s : nat * nat) => let '(nparams, ind) := s in
        do t <- test (fst (fst q)) (snd (fst q)) (snd q);
        do nparams <- (if t : bool then do n <- aget (fp_npu ftp) ind; Ok (nparams + n) else Ok nparams);
        Ok (nparams, ind + 1)) (positions r (ft_dim f)) [] (0, 0)) as (s' & E & H).
      - reflexivity.
      - intros p [[k i] j] q s E ->. cbn [app fst snd].
        destruct (positions_split _ _ _ _ _ _ _ E) as (Hk & Hi & Hj & _). rewrite Ht by auto. cbn [obind].
        destruct (blocks_split p k i j q E) as (n & pre & post & En & Lp & Eb & Ep).
        assert (E1 : firstn (length (p ++ [(k, i, j)])) (blocks t) = pre ++ [(t k i j, n)]).
        { rewrite Eb, app_length. cbn [length]. rewrite <- Lp, firstn_app, firstn_all2 by lia.
          replace (length pre + 1 - length pre) with 1 by lia. reflexivity. }
        rewrite E1, <- Ep. rewrite (aget_ok _ _ n) by exact En. rewrite taken_app, app_length. cbn [taken length].
        destruct (t k i j); cbn [obind]; eexists; (split; [reflexivity|]); f_equal; lia.
      - cbn [app] in H. rewrite H in E. rewrite firstn_all2 in E by (unfold blocks; rewrite combine_length, map_length; lia). exact E.
    Qed.

    Lemma sel_ok new : taken (blocks t) <= length new -> (forall v, In v (fp_params ftp) \/ In v new -> bad v = false) ->
      exists ftp', ftp_update_sel bad test ftp new = Ok ftp' /\ ftp_ok ftp' /\ same_structure f (fp_ft ftp') /\
        fp_params ftp' = merge (blocks t) (fp_params ftp) new.
    Proof.
      intros Ln B. unfold ftp_update_sel. fold f. assert (Ed : fp_dim ftp = ft_dim f) by (destruct O as (_ & _ & E & _); exact E).
      rewrite Ed, (over_funs_ok _ _ r) by apply up_rk. pose proof (ftp_params_length ftp O) as Lp.
      pose proof (blocks_total t) as Tb.
      match goal with |- context [foldM ?B (positions r (ft_dim f)) ?S0] =>
        destruct (foldM_inv (fun (l : list (nat * nat * nat)) (s : list R * nat * nat * nat) =>
           s = (merge (firstn (length l) (blocks t)) (fp_params ftp) new, taken (firstn (length l) (blocks t)),
                total (firstn (length l) (blocks t)), length l)) B (positions r (ft_dim f)) [] S0) as (s' & E & H) end.
      - reflexivity.
      - intros p [[k i] j] q s E ->. cbn [app fst snd].
        destruct (positions_split _ _ _ _ _ _ _ E) as (Hk & Hi & Hj & _).
        destruct (blocks_split p k i j q E) as (n & pre & post & En & Lpp & Eb & Ep).
        assert (E1 : firstn (length (p ++ [(k, i, j)])) (blocks t) = pre ++ [(t k i j, n)]).
        { rewrite Eb, app_length. cbn [length]. rewrite <- Lpp, firstn_app, firstn_all2 by lia.
          replace (length pre + 1 - length pre) with 1 by lia. reflexivity. }
        rewrite E1, <- Ep. rewrite (aget_ok _ _ n) by exact En. cbn [obind].
        rewrite Eb, total_app, total_cons in Tb. rewrite Eb, taken_app in Ln. cbn [taken] in Ln.
        rewrite merge_snoc by (destruct (t k i j); lia). rewrite taken_app, total_app, total_cons. cbn [taken].
        change (total []) with 0.
        set (st := fun l => (if t k i j then splice (total pre) (firstn l (skipn (taken pre) new)) (merge pre (fp_params ftp) new)
                             else merge pre (fp_params ftp) new, taken pre + (if t k i j then l else 0), total pre + l)).
        assert (Lm : length (merge pre (fp_params ftp) new) = fp_nparams ftp) by (rewrite merge_length; lia).
        match goal with |- context [for_ n ?B ?S0] => assert (EL : for_ n B S0 = Ok (st n)) end.
        { match goal with |- for_ n ?B ?S0 = _ => transitivity (for_ n B (st 0)) end.
          { f_equal. unfold st. cbn [firstn]. rewrite splice_nil, !Nat.add_0_r. destruct (t k i j); now rewrite Nat.add_0_r. }
          apply for_det. intros l Hl. unfold st. rewrite Ht by auto. cbn [obind]. destruct (t k i j).
          - destruct (nth_error new (taken pre + l)) as [v|] eqn:Ev; [|apply nth_error_None in Ev; lia].
            rewrite (aget_ok _ _ v) by exact Ev. cbn [obind].
            assert (Lf : length (firstn l (skipn (taken pre) new)) = l) by (rewrite firstn_length, skipn_length; lia).
            rewrite aset_ok by (rewrite splice_length; lia). cbn [obind].
            assert (Ev' : nth_error (skipn (taken pre) new) l = Some v) by (rewrite nth_error_skipn_add; exact Ev).
            rewrite (firstn_S_nth _ _ _ Ev'), <- splice_snoc by lia. rewrite Lf. do 2 f_equal; [f_equal; lia|lia].
          - cbn [obind]. do 2 f_equal; lia. }
        rewrite EL. unfold st. cbn [obind]. eexists. split; [reflexivity|]. rewrite app_length. cbn [length]. rewrite !Nat.add_0_r. reflexivity.
      - cbn [app] in H. rewrite E, H. cbn [obind].
        assert (Eall : firstn (length (positions r (ft_dim f))) (blocks t) = blocks t).
        { apply firstn_all2. unfold blocks. rewrite combine_length, map_length. lia. }
        rewrite Eall.
        assert (L' : length (merge (blocks t) (fp_params ftp) new) = fp_nparams ftp) by (rewrite merge_length; lia).
        destruct (ftp_set bad ftp _ O L') as (g & Eg & Og & Sg & _).
        { intros v Hv. apply B. now apply merge_in in Hv. }
        fold f in Eg. rewrite Eg. cbn [obind]. eexists. split; [reflexivity|]. cbn [set_ftp fp_ft fp_params]. auto.
    Qed.
  End Sel.
End Upd.
