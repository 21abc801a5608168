(** NaN and infinite parameters are rejected; updates of one core or one
    function. *)
From Verif Require Export ParamFacts.

Section ParamBad.
  Context {T F : Type}.
  Variable bad : T -> bool.
  Variable zero : T.
  Notation gfn := (gfn T F).

  (** One of the [n] entries of [p] from [off] on is NaN or infinite. *)
  Definition has_bad (p : list T) (off n : nat) : bool := existsb bad (firstn n (skipn off p)).

  Lemma has_bad_false p off n : off + n <= length p -> has_bad p off n = false ->
    forall i v, i < n -> nth_error p (off + i) = Some v -> bad v = false.
  Proof.
    intros L H i v Hi E. rewrite <- (slice_nth p off n i Hi) in E. apply nth_error_In in E.
    destruct (bad v) eqn:B; auto. enough (has_bad p off n = true) by congruence.
    apply existsb_exists. eauto.
  Qed.

  Lemma has_bad_true p off n : has_bad p off n = true ->
    exists i v, i < n /\ nth_error p (off + i) = Some v /\ bad v = true.
  Proof.
    intros H. apply existsb_exists in H as (v & Hv & B). apply In_nth_error in Hv as (i & E).
    assert (i < n).
    { assert (i < length (firstn n (skipn off p))) by (apply nth_error_Some; congruence).
      rewrite firstn_length in H. lia. }
    exists i, v. rewrite slice_nth in E by auto. auto.
  Qed.

  Lemma has_bad_app p off n m : has_bad p off (n + m) = has_bad p off n || has_bad p (off + n) m.
  Proof.
    unfold has_bad. rewrite <- existsb_app. f_equal.
    rewrite <- (firstn_skipn n (skipn off p)) at 1. rewrite firstn_app, firstn_firstn, skipn_add, firstn_length, skipn_length.
    replace (Nat.min (n + m) n) with n by lia. f_equal.
    destruct (le_lt_dec n (length p - off)).
    - f_equal. lia.
    - rewrite !skipn_all2 by lia. now rewrite !firstn_nil.
  Qed.

  Lemma gf_update_cases (f : gfn) p off : gf_wf f -> off + gf_num f <= length p ->
    gf_update bad zero f (gf_num f) p off
    = if has_bad p off (gf_num f) then Abort else Ok (gf_with f (firstn (gf_num f) (skipn off p))).
  Proof.
    intros W L. destruct (has_bad p off (gf_num f)) eqn:E.
    - apply has_bad_true in E as (i & v & Hi & Ev & B). eapply gf_update_bad; eauto.
    - apply gf_update_ok; auto. eapply has_bad_false; eauto.
  Qed.

  Lemma for_cut {St} (st : nat -> St) (stop : nat -> bool) body n :
    stop 0 = false ->
    (forall i, i < n -> stop i = true -> stop (S i) = true) ->
    (forall i, i < n -> stop i = false ->
       body i (st i) = if stop (S i) then Abort else Ok (st (S i))) ->
    for_ n body (st 0) = if stop n then Abort else Ok (st n).
  Proof.
    intros H0 Hm Hb. induction n as [|n IH].
    - now rewrite H0.
    - rewrite for_S, IH by auto. destruct (stop n) eqn:E; cbn [obind].
      + now rewrite (Hm n) by auto.
      + apply Hb; auto.
  Qed.

  Lemma qm_update_cases' (q : qma gfn) n p off : qwf q -> Forall gf_wf (fs q) -> off + lnum (fs q) <= length p ->
    qm_update bad zero q n p off
    = if has_bad p off (lnum (fs q)) || negb (n =? lnum (fs q)) then Abort
      else Ok (mkq (nr q) (nc q) (lwith (fs q) (skipn off p))).
  Proof.
    intros Q W L. destruct (has_bad p off (lnum (fs q))) eqn:E.
    2:{ destruct (Nat.eqb_spec n (lnum (fs q))) as [->|]; cbn [orb negb].
        - apply qm_update_ok; auto. eapply has_bad_false; eauto.
        - apply qm_update_wrong_count; auto. eapply has_bad_false; eauto. }
    cbn [orb].
    unfold qm_update.
    set (st := fun i => (lnum (firstn i (fs q)),
                         lwith (firstn i (fs q)) (skipn off p) ++ skipn i (fs q))).
    change (0, fs q) with (st 0).
    rewrite (for_cut st (fun i => has_bad p off (lnum (firstn i (fs q))))).
    - rewrite (firstn_all2 (fs q)) by (red in Q; lia). now rewrite E.
    - reflexivity.
    - intros i Hi H. destruct (core_nth q Q W i Hi) as (f & En & Eg & Wf).
      destruct (firstn_S_split _ _ _ En) as [Es Ef]. now rewrite Es, lnum_snoc, has_bad_app, H.
    - intros i Hi H. unfold st at 1. destruct (core_nth q Q W i Hi) as (f & En & Eg & Wf).
      destruct (firstn_S_split _ _ _ En) as [Es Ef].
      assert (Li : length (lwith (firstn i (fs q)) (skipn off p)) = i).
      { rewrite lwith_length, firstn_length. red in Q. lia. }
      assert (Esk : skipn i (fs q) = f :: skipn (S i) (fs q)).
      { rewrite Ef at 1. rewrite skipn_app, skipn_all2, firstn_length by (rewrite firstn_length; lia).
        red in Q. replace (i - Nat.min i (length (fs q))) with 0 by lia. reflexivity. }
      rewrite (aget_ok _ i f).
      2:{ rewrite nth_error_app2, Li, Nat.sub_diag by lia. now rewrite Esk. }
      cbn [obind].
      assert (HH : lnum (firstn i (fs q)) + gf_num f <= lnum (fs q)).
      { rewrite <- lnum_snoc, <- Es. apply lnum_firstn_le. }
      rewrite gf_update_cases by (auto; lia). rewrite Es, lnum_snoc, has_bad_app, H. cbn [orb].
      destruct (has_bad p (off + lnum (firstn i (fs q))) (gf_num f)); [reflexivity|].
      cbn [obind]. rewrite aset_ok.
      2:{ rewrite app_length, Li, Esk. cbn [length]. lia. }
      cbn [obind]. unfold st. rewrite Es, lnum_snoc, lwith_app. do 2 f_equal.
      rewrite Esk. set (A := lwith (firstn i (fs q)) (skipn off p)) in *.
      replace (upd (A ++ f :: skipn (S i) (fs q)) i) with (upd (A ++ f :: skipn (S i) (fs q)) (length A + 0))
        by (f_equal; lia).
      rewrite upd_app_r. cbn [upd]. rewrite <- app_assoc. cbn [app lwith].
      rewrite skipn_add. reflexivity.
  Qed.

  Lemma qm_update_cases (q : qma gfn) p off : qwf q -> Forall gf_wf (fs q) -> off + lnum (fs q) <= length p ->
    qm_update bad zero q (lnum (fs q)) p off
    = if has_bad p off (lnum (fs q)) then Abort
      else Ok (mkq (nr q) (nc q) (lwith (fs q) (skipn off p))).
  Proof. intros. rewrite qm_update_cases', Nat.eqb_refl, orb_false_r; auto. Qed.

  (** Function_train_update_params either replaces all parameters or, if one of
      them is NaN or infinite, terminates the program. *)
  Theorem ft_update_cases (f : ftrain gfn) p : ft_ok f -> lnum (ft_funs f) <= length p ->
    ft_update bad zero f p
    = if has_bad p 0 (lnum (ft_funs f)) then Abort else Ok (lnum (ft_funs f), ft_with f p).
  Proof.
    intros O L. destruct (has_bad p 0 (lnum (ft_funs f))) eqn:E.
    2:{ apply ft_update_ok; auto. exact (has_bad_false p 0 _ L E). }
    unfold ft_update. set (cs := ft_cores f).
    set (st := fun i => (lnum (cfuns (firstn i cs)),
                         mkft (ft_dim f) (ft_ranks f) (cwith (firstn i cs) p ++ skipn i cs))).
    replace (0, f) with (st 0) by (unfold st; destruct f; reflexivity).
    rewrite (for_cut st (fun i => has_bad p 0 (lnum (cfuns (firstn i cs))))).
    - rewrite firstn_all2 by (destruct O; subst cs; lia). change (cfuns cs) with (ft_funs f). now rewrite E.
    - reflexivity.
    - intros i Hi H. destruct (train_nth f O i Hi) as (c & En & Eg & Qc & Wc).
      subst cs. now rewrite (cfuns_snoc f O i c En), lnum_app, has_bad_app, H.
    - intros i Hi H. unfold st at 1. destruct (train_nth f O i Hi) as (c & En & Eg & Qc & Wc). fold cs in En.
      destruct (firstn_S_split _ _ _ En) as [Es Ef].
      assert (Ld : ft_dim f = length cs) by (destruct O; auto).
      assert (Li : length (cwith (firstn i cs) p) = i).
      { rewrite cwith_length, firstn_length. lia. }
      assert (Esk : skipn i cs = c :: skipn (S i) cs).
      { rewrite Ef at 1. rewrite skipn_app, skipn_all2, firstn_length by (rewrite firstn_length; lia).
        replace (i - Nat.min i (length cs)) with 0 by lia. reflexivity. }
      cbn [ft_cores]. rewrite (aget_ok _ i c).
      2:{ rewrite nth_error_app2, Li, Nat.sub_diag by lia. now rewrite Esk. }
      cbn [obind]. destruct (qm_nparams_ok c Qc Wc) as (m & Em & _). rewrite Em. cbn [obind].
      assert (Ec : cfuns (firstn (S i) cs) = cfuns (firstn i cs) ++ fs c) by exact (cfuns_snoc f O i c En).
      assert (HH : lnum (cfuns (firstn i cs)) + lnum (fs c) <= lnum (ft_funs f)).
      { rewrite <- lnum_app, <- Ec. apply (cfuns_firstn_le f O). }
      rewrite qm_update_cases by (auto; lia). rewrite Ec, lnum_app, has_bad_app, H. cbn [orb Nat.add].
      destruct (has_bad p (lnum (cfuns (firstn i cs))) (lnum (fs c))); [reflexivity|].
      cbn [obind]. unfold set_core. cbn [ft_cores ft_dim ft_ranks]. rewrite aset_ok.
      2:{ rewrite app_length, Li, Esk. cbn [length]. lia. }
      cbn [obind]. unfold st. rewrite Ec, lnum_app, Es, cwith_app. do 3 f_equal.
      rewrite Esk. set (A := cwith (firstn i cs) p) in *.
      replace (upd (A ++ c :: skipn (S i) cs) i) with (upd (A ++ c :: skipn (S i) cs) (length A + 0))
        by (f_equal; lia).
      rewrite upd_app_r. cbn [upd]. rewrite <- app_assoc. reflexivity.
  Qed.
End ParamBad.
