(** Canonical (matrix chain) form of a function train; gradient, Jacobian and
    Hessian arrays. *)
From Verif Require Export FTDiffSpec FTMore Chain.

Section Canon.
  Context {R : CRing} {U : uops R}.
  Open Scope cr_scope.
  Add Ring Rr19 : (rth R).

  Definition frk (f : ftrain U) k := nth k (ft_ranks f) 0.
  Definition fco (f : ftrain U) k := nth k (ft_cores f) (mkq 0 0 []).
  Definition fM (f : ftrain U) (h : nat -> U -> R) k i j := ent (h k) (fco f k) i j.

  Lemma canon_core f k : ft_wf f -> k < ft_dim f ->
    nth_error (ft_cores f) k = Some (fco f k) /\ qwf (fco f k) /\
    nr (fco f k) = frk f k /\ nc (fco f k) = frk f (S k) /\ 0 < frk f k /\ 0 < frk f (S k) /\
    nth_error (ft_ranks f) k = Some (frk f k) /\ nth_error (ft_ranks f) (S k) = Some (frk f (S k)).
  Proof.
    intros Wf Hk. destruct (wf_core f k Wf Hk) as (c & Ec & W & P & Q & Rk & Rk1).
    unfold fco, frk. rewrite (nth_error_nth _ _ _ Ec), (nth_error_nth _ _ _ Rk).
    rewrite (nth_error_nth _ _ _ Rk1). repeat split; auto.
  Qed.

  Lemma frk_0 f : ft_wf f -> frk f 0 = 1.
  Proof. intros Wf. unfold frk. now rewrite (nth_error_nth _ _ _ (wf_rank0 f Wf)). Qed.

  Lemma frk_d f : ft_wf f -> frk f (ft_dim f) = 1.
  Proof. intros Wf. unfold frk. now rewrite (nth_error_nth _ _ _ (wf_rankd f Wf)). Qed.

  Lemma fM_entry f h k i j : ft_wf f -> k < ft_dim f -> i < frk f k -> j < frk f (S k) ->
    exists g, nth_error (fs (fco f k)) (j * frk f k + i) = Some g /\ fM f h k i j = h k g.
  Proof.
    intros Wf Hk Hi Hj. destruct (canon_core f k Wf Hk) as (_ & W & N & M & _).
    destruct (entry_some (fco f k) i j W) as [g Hg]; [lia|lia|].
    exists g. split.
    - unfold entry in Hg. now rewrite N in Hg.
    - unfold fM. now apply ent_nth.
  Qed.

  Lemma val_bw f h : ft_wf f -> forall n k i, n + k = ft_dim f ->
    val (skipn k (tab (ft_dim f) h)) (skipn k (ft_cores f)) i = bw (frk f) (fM f h) n k i.
  Proof.
    intros Wf. induction n as [|n IH]; intros k i Hk.
    - rewrite (skipn_all2 (ft_cores f)). { apply val_nil. } destruct Wf as (Hd & _); lia.
    - destruct (canon_core f k Wf) as (Ec & _ & _ & Nc & _); [lia|].
      rewrite (skipn_nth _ _ _ Ec).
      rewrite (skipn_nth (tab (ft_dim f) h) k (h k)) by (apply nth_error_tab; lia).
      cbn [val bw]. rewrite Nc. apply sum_ext. intros j Hj. f_equal. apply IH. lia.
  Qed.

  Lemma path_value_bw f h : ft_wf f -> path_value f h = bw (frk f) (fM f h) (ft_dim f) 0 0.
  Proof.
    intros Wf. unfold path_value. rewrite tsum_val.
    - rewrite <- (val_bw f h Wf (ft_dim f) 0 0) by lia. reflexivity.
    - rewrite tab_length. apply Wf.
  Qed.

  Lemma train_value_path (f : ftrain U) (x : list R) : length x = ft_dim f ->
    train_value f x = path_value f (fun k g => uev g (nth k x r0)).
  Proof.
    intros Hx. unfold train_value, path_value. f_equal.
    rewrite (list_eq_tab_nth r0 x) at 1. now rewrite map_tab, Hx.
  Qed.

  (** * Replacing a core *)
  Lemma qmarray_map_ok (op : U -> U) (a : qma U) : qwf a ->
    qmarray_map op a = Ok (mkq (nr a) (nc a) (map op (fs a))).
  Proof.
    intros W. unfold qmarray_map.
    pose (T := fun k => nth_error (map op (fs a)) k).
    rewrite (wrf_full T (nr a * nc a) (fun k => exists i, i < nr a * nc a /\ i = k)
               (for_ (nr a * nc a) (fun ii f => do g <- aget (fs a) ii; aset f ii (Some (op g))))).
    - simpl. replace (tab (nr a * nc a) T) with (map Some (map op (fs a))).
      + now rewrite freeze_map_Some.
      + apply tab_eq_intro; [now rewrite !map_length|].
        intros i Hi. unfold T. rewrite !nth_error_map.
        destruct (nth_error (fs a) i) eqn:E; auto. apply nth_error_None in E. unfold qwf in W. lia.
    - apply wrf_for. intros i Hi.
      destruct (aget_lt (fs a) i) as [g [Eg Ag]]. { unfold qwf in W; lia. }
      eapply wrf_get; [exact Ag|]. apply wrf_aset; auto. unfold T. now rewrite nth_error_map, Eg.
    - apply slots_len.
    - intros k Hk; exists k; auto.
  Qed.

  Definition map_core (op : U -> U) (f : ftrain U) (ii : nat) : ftrain U :=
    mkft (ft_dim f) (ft_ranks f)
      (upd (ft_cores f) ii (mkq (nr (fco f ii)) (nc (fco f ii)) (map op (fs (fco f ii))))).

  Lemma replace_core_ok op f ii : ft_wf f -> ii < ft_dim f ->
    replace_core op f ii = Ok (map_core op f ii).
  Proof.
    intros Wf Hi. destruct (canon_core f ii Wf Hi) as (Ec & W & _).
    unfold replace_core. rewrite ft_copy_ok by auto. cbn [obind].
    rewrite (aget_ok _ _ _ Ec). cbn [obind]. rewrite qmarray_map_ok by auto. cbn [obind].
    rewrite aset_ok; [reflexivity|]. destruct Wf as (Hd & _). lia.
  Qed.

  Lemma map_core_fco op f ii k : ft_wf f -> ii < ft_dim f ->
    fco (map_core op f ii) k
    = if k =? ii then mkq (nr (fco f ii)) (nc (fco f ii)) (map op (fs (fco f ii))) else fco f k.
  Proof.
    intros Wf Hi. unfold map_core, fco at 1. cbn [ft_cores].
    destruct Wf as (Hd & _). destruct (Nat.eqb_spec k ii) as [->|Hne].
    - erewrite nth_error_nth; [reflexivity|]. apply nth_error_upd_same. lia.
    - unfold fco. rewrite !nth_default_eq || idtac.
      destruct (nth_error (ft_cores f) k) as [c|] eqn:E.
      + rewrite (nth_error_nth _ _ _ E). erewrite nth_error_nth; [reflexivity|].
        now rewrite nth_error_upd_other by lia.
      + apply nth_error_None in E. rewrite !nth_overflow; auto. now rewrite upd_length.
  Qed.

  Lemma map_core_wf op f ii : ft_wf f -> ii < ft_dim f -> ft_wf (map_core op f ii).
  Proof.
    intros Wf Hi. pose proof (wf_lens f Wf) as [Lc Lr].
    apply (ft_wf_intro _ _ _ (frk f)); auto.
    - apply Wf.
    - now rewrite upd_length.
    - intros k Hk. destruct (Nat.eq_dec k (ft_dim f)) as [->|].
      + rewrite frk_d by auto. now apply wf_rankd.
      + apply canon_core; auto. lia.
    - now apply frk_0.
    - now apply frk_d.
    - intros k c Hc. assert (Hk : k < ft_dim f).
      { rewrite <- Lc, <- (upd_length (ft_cores f) ii (mkq (nr (fco f ii)) (nc (fco f ii)) (map op (fs (fco f ii))))).
        apply nth_error_Some. congruence. }
      destruct (canon_core f k Wf Hk) as (Ec & W & N & M & P & Q & _).
      destruct (Nat.eq_dec k ii) as [->|Hne].
      + rewrite nth_error_upd_same in Hc by lia. assert (Ecc : c = mkq (nr (fco f ii)) (nc (fco f ii)) (map op (fs (fco f ii)))) by congruence.
        subst c. unfold qwf in *. cbn [nr nc fs]. rewrite map_length. repeat split; auto; lia.
      + rewrite nth_error_upd_other in Hc by lia. assert (Ecc : c = fco f k) by congruence.
        subst c. repeat split; auto; lia.
  Qed.

  Lemma ent_map op (h : U -> R) (a : qma U) i j :
    ent h (mkq (nr a) (nc a) (map op (fs a))) i j = ent (fun g => h (op g)) a i j.
  Proof.
    unfold ent, entry. cbn [nr fs]. rewrite nth_error_map. now destruct (nth_error (fs a) (j * nr a + i)).
  Qed.

  Lemma path_value_ext f (h h' : nat -> U -> R) :
    (forall k g, k < ft_dim f -> h k g = h' k g) -> path_value f h = path_value f h'.
  Proof.
    intros H. unfold path_value. unfold tsum. f_equal. apply map_ext_in. intros t _.
    assert (G : forall n (a : nat -> U -> R) b, (forall k g, k < n -> a k g = b k g) -> forall t,
      tprod (tab n a) t = tprod (tab n b) t).
    { induction n as [|n IH]; intros a b Hab u; [reflexivity|].
      rewrite !tab_cons. destruct u as [|g u]; [reflexivity|]. cbn [tprod].
      rewrite Hab by lia. f_equal. apply (IH (fun i => a (S i)) (fun i => b (S i))).
      intros k g' Hk. apply Hab. lia. }
    now apply G.
  Qed.

  Lemma map_core_path op f ii h : ft_wf f -> ii < ft_dim f ->
    path_value (map_core op f ii) h
    = path_value f (fun k g => if k =? ii then h k (op g) else h k g).
  Proof.
    intros Wf Hi. rewrite !path_value_bw by auto using map_core_wf.
    change (frk (map_core op f ii)) with (frk f). cbn [map_core ft_dim].
    apply bw_ext; [rewrite frk_0 by auto; lia|].
    intros k i j _ _ _. unfold fM. rewrite map_core_fco by auto.
    destruct (Nat.eqb_spec k ii) as [->|].
    - now rewrite ent_map.
    - reflexivity.
  Qed.

  (** * Gradient, Jacobian, Hessian *)
  Lemma fill_list {A} n (g : nat -> A) (E : nat -> outcome A) :
    (forall i, i < n -> E i = Ok (g i)) ->
    (do l <- for_ n (fun i l => do v <- E i; aset l i (Some v)) (repeat None n); freeze l) = Ok (tab n g).
  Proof.
    intros H. rewrite (wrf_full (fun k => Some (g k)) n (fun k => exists i, i < n /\ i = k)).
    - cbn [obind]. apply freeze_tab.
    - apply wrf_for. intros i Hi. eapply wrf_get; [apply H; auto|]. now apply wrf_aset.
    - apply repeat_length.
    - intros k Hk. exists k; auto.
  Qed.

  Lemma ft_gradient_gen_ok op f : ft_wf f ->
    ft_gradient_gen op f = Ok (tab (ft_dim f) (map_core op f)).
  Proof.
    intros Wf. unfold ft_gradient_gen. apply fill_list. intros i Hi. now apply replace_core_ok.
  Qed.

  Lemma jacobian_ok (fta : list (ftrain U)) d :
    0 < length fta -> (forall f, In f fta -> ft_wf f /\ ft_dim f = d) ->
    exists l, ft1d_array_jacobian fta = Ok l /\ length l = length fta * d /\
      forall ii jj f, ii < d -> nth_error fta jj = Some f ->
        nth_error l (ii * length fta + jj) = Some (map_core uderiv f ii).
  Proof.
    intros Hl H. unfold ft1d_array_jacobian.
    destruct fta as [|f0 fta']; [simpl in Hl; lia|]. set (fta := f0 :: fta') in *.
    change (aget fta 0) with (Ok f0). cbn [obind].
    destruct (H f0 (or_introl eq_refl)) as [W0 D0]. rewrite D0.
    set (n := length fta) in *.
    pose (T := fun p => map_core uderiv (nth (p mod n) fta f0) (p / n)).
    rewrite (wrf_full (fun p => Some (T p)) (n * d) (fun k => exists ii, ii < d /\ exists jj, jj < n /\ ii * n + jj = k)).
    - cbn [obind]. rewrite freeze_tab. exists (tab (n * d) T). split; [reflexivity|]. split; [apply tab_length|].
      intros ii jj f Hi Hf. assert (Hj : jj < n). { apply nth_error_Some. congruence. }
      rewrite nth_error_tab by nia. unfold T. rewrite idx_mod, idx_div by auto.
      now rewrite (nth_error_nth _ _ _ Hf).
    - apply wrf_for. intros ii Hi. apply wrf_for. intros jj Hj.
      destruct (nth_error fta jj) as [f|] eqn:Ef; [|apply nth_error_None in Ef; unfold n in Hj; lia].
      destruct (H f (nth_error_In _ _ Ef)) as [Wf Df].
      eapply wrf_get; [apply (aget_ok _ _ _ Ef)|].
      eapply wrf_get; [apply replace_core_ok; auto; lia|]. apply wrf_aset; [nia|].
      unfold T. rewrite idx_mod, idx_div by auto. now rewrite (nth_error_nth _ _ _ Ef).
    - apply repeat_length.
    - intros k Hk. rewrite Nat.mul_comm in Hk. destruct (idx_split k n d Hk) as (j & i & Hj & Hi & ->).
      exists j; split; auto. exists i; auto.
  Qed.

  Theorem gradient_correct (f : ftrain U) : ft_wf f ->
    exists l, ft_gradient f = Ok l /\ length l = ft_dim f /\
      forall i g, nth_error l i = Some g -> ft_wf g /\ ft_dim g = ft_dim f /\
        forall x, length x = ft_dim f ->
          train_value g x = train_partial (fun u t => uev (uderiv u) t) f i x.
  Proof.
    intros Wf. exists (tab (ft_dim f) (map_core uderiv f)).
    split; [now apply ft_gradient_gen_ok|]. split; [apply tab_length|].
    intros i g Hg. assert (Hi : i < ft_dim f).
    { rewrite <- (tab_length (ft_dim f) (map_core uderiv f)). apply nth_error_Some. congruence. }
    rewrite nth_error_tab in Hg by auto. assert (E : g = map_core uderiv f i) by congruence. subst g.
    split; [now apply map_core_wf|]. split; [reflexivity|].
    intros x Hx. rewrite train_value_path by auto. rewrite map_core_path by auto.
    unfold train_partial. apply path_value_ext. intros k g Hk.
    now destruct (k =? i).
  Qed.

  Theorem gradient_gen_correct (op : U -> U) (f : ftrain U) : ft_wf f ->
    exists l, ft_gradient_gen op f = Ok l /\ length l = ft_dim f /\
      forall i g, nth_error l i = Some g -> ft_wf g /\ ft_dim g = ft_dim f /\
        forall x, length x = ft_dim f ->
          train_value g x = train_partial (fun u t => uev (op u) t) f i x.
  Proof.
    intros Wf. exists (tab (ft_dim f) (map_core op f)).
    split; [now apply ft_gradient_gen_ok|]. split; [apply tab_length|].
    intros i g Hg. assert (Hi : i < ft_dim f).
    { rewrite <- (tab_length (ft_dim f) (map_core op f)). apply nth_error_Some. congruence. }
    rewrite nth_error_tab in Hg by auto. assert (E : g = map_core op f i) by congruence. subst g.
    split; [now apply map_core_wf|]. split; [reflexivity|].
    intros x Hx. rewrite train_value_path by auto. rewrite map_core_path by auto.
    unfold train_partial. apply path_value_ext. intros k g Hk.
    now destruct (k =? i).
  Qed.

  Theorem jacobian_correct (fta : list (ftrain U)) d :
    0 < length fta -> (forall f, In f fta -> ft_wf f /\ ft_dim f = d) ->
    exists l, ft1d_array_jacobian fta = Ok l /\ length l = length fta * d /\
      forall i j f, i < d -> nth_error fta j = Some f ->
        exists g, nth_error l (i * length fta + j) = Some g /\ ft_wf g /\ ft_dim g = d /\
          forall x, length x = d ->
            train_value g x = train_partial (fun u t => uev (uderiv u) t) f i x.
  Proof.
    intros Hl H. destruct (jacobian_ok fta d Hl H) as (l & E & L & Hn).
    exists l. repeat split; auto. intros i j f Hi Hf. exists (map_core uderiv f i).
    destruct (H f (nth_error_In _ _ Hf)) as [Wf Df].
    split; [now apply Hn|]. split; [apply map_core_wf; auto; lia|]. split; [exact Df|].
    intros x Hx. rewrite train_value_path by (cbn [map_core ft_dim]; lia).
    rewrite map_core_path by (auto; lia). unfold train_partial. apply path_value_ext. intros k g Hk.
    now destruct (k =? i).
  Qed.

  (** Hessian: entry [i*d+j] differentiates first in direction [j], then in
      direction [i]. *)
  Theorem hessian_correct (f : ftrain U) : ft_wf f ->
    exists l, ft_hessian f = Ok l /\ length l = ft_dim f * ft_dim f /\
      forall i j, i < ft_dim f -> j < ft_dim f ->
        exists g, nth_error l (i * ft_dim f + j) = Some g /\ ft_wf g /\ ft_dim g = ft_dim f /\
          forall x, length x = ft_dim f ->
            train_value g x
            = path_value f (fun k u =>
                uev (if k =? i then (if k =? j then uderiv (uderiv u) else uderiv u)
                     else if k =? j then uderiv u else u) (nth k x r0)).
  Proof.
    intros Wf. unfold ft_hessian, ft_gradient. rewrite ft_gradient_gen_ok by auto. cbn [obind].
    set (gr := tab (ft_dim f) (map_core uderiv f)).
    assert (Lg : length gr = ft_dim f) by apply tab_length.
    destruct (jacobian_ok gr (ft_dim f)) as (l & E & L & Hn).
    - rewrite Lg. apply Wf.
    - intros g Hg. apply In_nth_error in Hg. destruct Hg as [k Hk].
      assert (Hkd : k < ft_dim f). { rewrite <- Lg. apply nth_error_Some. congruence. }
      unfold gr in Hk. rewrite nth_error_tab in Hk by auto.
      assert (Eg : g = map_core uderiv f k) by congruence. subst g. split; [now apply map_core_wf|reflexivity].
    - exists l. rewrite Lg in *. repeat split; auto. intros i j Hi Hj.
      exists (map_core uderiv (map_core uderiv f j) i).
      assert (Wj : ft_wf (map_core uderiv f j)) by now apply map_core_wf.
      split; [apply Hn; auto; unfold gr; now apply nth_error_tab|].
      split; [now apply map_core_wf|]. split; [reflexivity|].
      intros x Hx. rewrite train_value_path by auto. rewrite !map_core_path by auto.
      apply path_value_ext. intros k g Hk.
      now destruct (k =? i), (k =? j).
  Qed.
End Canon.
