(** Second differences of the value of a train with respect to two parameters. *)
From Verif Require Export HessLoops LinSlope.

Lemma map_nth_eq {A B} (f : A -> B) l l' q u u' : map f l = map f l' -> nth_error l q = Some u -> nth_error l' q = Some u' -> f u = f u'.
Proof. intros E H H'. assert (A1 := f_equal (fun a => nth_error a q) E). cbn beta in A1. rewrite !nth_error_map, H, H' in A1. cbn in A1. congruence. Qed.

Section Chains2.
  Context {R : CRing}.
  Open Scope cr_scope.
  Add Ring Rr42 : (rth R).
  Variables (r : nat -> nat) (d : nat).
  Hypothesis Hr0 : r 0 = 1.

  (** The product is linear in each matrix *)
  Lemma bw_lin (M : nat -> nat -> nat -> R) k A B s : k < d ->
    bw r (repl M k (fun i j => A i j +! s *! B i j)) d 0 0 = bw r (repl M k A) d 0 0 +! s *! bw r (repl M k B) d 0 0.
  Proof.
    intros Hk. rewrite !bw_repl by auto. rewrite <- sum_scal_l, <- sum_add. apply sum_ext. intros i Hi.
    rewrite (sum_ext R (r (S k)) _ (fun j => A i j *! bw r M (d - 1 - k) (S k) j +! s *! (B i j *! bw r M (d - 1 - k) (S k) j))).
    - rewrite sum_add, sum_scal_l. ring.
    - intros j Hj. ring.
  Qed.

  Lemma bw_eq (M M' : nat -> nat -> nat -> R) : (forall k i j, k < d -> i < r k -> j < r (S k) -> M k i j = M' k i j) ->
    bw r M d 0 0 = bw r M' d 0 0.
  Proof. intros H. apply bw_ext; [lia|]. intros k i j Hk. apply H. lia. Qed.

  Variable M : nat -> nat -> nat -> R.
  Definition plus (N : nat -> nat -> nat -> R) k s (E : nat -> nat -> R) k' i j : R := N k' i j +! (if k' =? k then s *! E i j else r0).

  Lemma plus_repl N k s E k' i j : plus N k s E k' i j = repl N k (fun i j => N k i j +! s *! E i j) k' i j.
  Proof. unfold plus, repl. destruct (Nat.eqb_spec k' k) as [->|]; [reflexivity|ring]. Qed.
  Lemma bw_plus N k s E : k < d -> bw r (plus N k s E) d 0 0 = bw r N d 0 0 +! s *! bw r (repl N k E) d 0 0.
  Proof.
    intros Hk. rewrite (bw_eq _ _ (fun k' i j _ _ _ => plus_repl N k s E k' i j)), bw_lin by auto. f_equal.
    apply bw_eq. intros k' i j _ _ _. unfold repl. destruct (Nat.eqb_spec k' k) as [->|]; reflexivity.
  Qed.

  Lemma second_diff k1 s E1 k2 t E2 : k1 < d -> k2 < d ->
    bw r (plus (plus M k1 s E1) k2 t E2) d 0 0 -! bw r (plus M k1 s E1) d 0 0 -! bw r (plus M k2 t E2) d 0 0 +! bw r M d 0 0
    = s *! t *! (if k1 =? k2 then r0 else bw r (repl (repl M k1 E1) k2 E2) d 0 0).
  Proof.
    intros H1 H2. rewrite !bw_plus by auto. destruct (Nat.eqb_spec k1 k2) as [->|N].
    - rewrite (bw_eq (repl (plus M k2 s E1) k2 E2) (repl M k2 E2)); [ring|].
      intros k i j _ _ _. unfold repl, plus. destruct (k =? k2); [reflexivity|ring].
    - rewrite (bw_eq (repl (plus M k1 s E1) k2 E2) (plus (repl M k2 E2) k1 s E1)).
      + rewrite bw_plus by auto. rewrite (bw_eq (repl (repl M k2 E2) k1 E1) (repl (repl M k1 E1) k2 E2)); [ring|].
        intros k i j _ _ _. unfold repl. destruct (Nat.eqb_spec k k1), (Nat.eqb_spec k k2); try lia; reflexivity.
      + intros k i j _ _ _. unfold repl, plus. destruct (Nat.eqb_spec k k1), (Nat.eqb_spec k k2); try lia; ring.
  Qed.
End Chains2.

Section Train.
  Context {R : CRing} {F : Type}.
  Open Scope cr_scope.
  Add Ring Rr43 : (rth R).

  Variable z : gfn R F.
  Variable ev : gfn R F -> R -> R.
  Variable bas : gfn R F -> R -> list R.
  Let U := evU z ev.
  Variable ftp : ftparam R U.
  Hypothesis Ok_ : ftp_ok ftp.
  Hypothesis HL : linear_in_params ev bas.
  Variable x : list R.
  Let f := fp_ft ftp.
  Hypothesis Hx : length x = ft_dim f.

  Let d := ft_dim f.
  Let r := frk f.
  Let funs := flat_map fs (ft_cores f).
  Let np q := nth q (map gf_num funs) 0.
  Let EO := offs (fun q => r q * r (S q)).
  Let PO := offs np.
  Let NP := fp_nparams ftp.

  Definition tval (th : list R) : R := train_value (ft_with f th : ftrain U) x.
  Definition Mth (th : list R) := fM (ft_with f th : ftrain U) (fun k g => uev g (nth k x r0)).

  Lemma ht_set th : length th = NP -> ftp_ok (set_ftp ftp (ft_with f th) th).
  Proof. intros L. destruct (ftp_set nobad ftp th Ok_ L) as (g & _ & O & _ & ->); auto. Qed.

  Lemma ht_value th : length th = NP -> tval th = bw r (Mth th) d 0 0.
  Proof.
    intros L. destruct (ht_set th L) as (W & _). cbn [set_ftp fp_ft] in W. exact (pt_value z ev (ft_with f th) W x Hx).
  Qed.

  Lemma ht_funs th : flat_map fs (ft_cores (ft_with f th)) = lwith funs th.
  Proof. apply cfuns_cwith. Qed.

  (** The entries after a change of one parameter *)
  Lemma ht_bump k i j u l n t th : k < d -> i < r k -> j < r (S k) ->
    nth_error funs (EO k + (j * r k + i)) = Some u -> l < gf_num u -> n = PO (EO k + (j * r k + i)) + l -> length th = NP ->
    forall k' i' j', k' < d -> i' < r k' -> j' < r (S k') ->
      Mth (bump n t th) k' i' j' = plus (Mth th) k t (unit_at i j (nth l (bas u (nth k x r0)) r0)) k' i' j'.
  Proof.
    intros Hk Hi Hj Eu Hl En L k' i' j' Hk' Hi' Hj'.
    set (q := EO k + (j * r k + i)) in *.
    assert (O' := ht_set th L). assert (L1 : length (bump n t th) = NP) by now rewrite bump_length.
    assert (O1 := ht_set _ L1). pose proof O' as (W' & Of' & _). pose proof O1 as (W1 & _). cbn [set_ftp fp_ft] in W', Of', W1.
    set (f' := ft_with f th) in *. set (funs' := flat_map fs (ft_cores f')).
    assert (EF : funs' = lwith funs th) by apply ht_funs.
    assert (Wl : Forall gf_wf funs') by exact (funs_wf f' Of').
    assert (Wf0 : Forall gf_wf funs) by exact (pa_funswf z ev ftp Ok_).
    assert (LN : lnum funs = NP) by exact (pa_lnum z ev ftp Ok_).
    assert (Hq : q < length funs) by (apply nth_error_Some; congruence).
    assert (Lq : q < length funs') by (rewrite EF, lwith_length; exact Hq).
    destruct (nth_error funs' q) as [u'|] eqn:Eu'; [|apply nth_error_None in Eu'; lia].
    assert (Wu : gf_wf u) by (rewrite Forall_forall in Wf0; eapply Wf0, nth_error_In, Eu).
    assert (Wu' : gf_wf u') by (rewrite Forall_forall in Wl; eapply Wl, nth_error_In, Eu').
    destruct (lwith_spec funs th Wf0) as (Sw1 & Sw2 & Sw3); [lia|]. rewrite <- EF in Sw1, Sw2, Sw3.
    assert (Nu : gf_num u' = gf_num u).
    { assert (E := lwith_num funs th). rewrite <- EF in E. exact (map_nth_eq _ _ _ _ _ _ E Eu' Eu). }
    assert (Ru : gf_rest u' = gf_rest u).
    { exact (map_nth_eq _ _ _ _ _ _ Sw3 Eu' Eu). }
    assert (Pth : lparams funs' = th).
    { rewrite Sw2. apply firstn_all2. lia. }
    assert (EPO : PO q = lnum (firstn q funs')).
    { unfold PO. rewrite (offs_ext _ (fun q => nth q (map gf_num funs') 0)).
      - apply offs_lnum. lia.
      - intros a _. unfold np. rewrite EF, lwith_num. reflexivity. }
    set (v := nth n th r0). assert (Ev : nth_error (gf_params u') l = Some v).
    { rewrite <- (lparams_nth funs' q u' l Wl Eu') by lia. rewrite Pth, <- EPO, <- En. apply nth_error_nth'.
      rewrite L, En. assert (E := lparams_nth funs' q u' l Wl Eu' ltac:(lia)). rewrite <- EPO, Pth in E.
      assert (nth_error th (PO q + l) <> None); [|apply nth_error_Some in H; lia].
      rewrite E. apply nth_error_Some. rewrite gf_params_length by auto. lia. }
    set (w := gf_with u' (upd (gf_params u') l (v +! t))).
    assert (EF1 : flat_map fs (ft_cores (ft_with f (bump n t th))) = upd funs' q w).
    { refine (eq_trans (f_equal (fun g => flat_map fs (ft_cores g)) (eq_sym (ftw_with ftp th (bump n t th) Ok_ L L1))) _).
      transitivity (lwith funs' (bump n t th)); [apply cfuns_cwith|].
      unfold bump. fold v. rewrite <- Pth at 1. rewrite En, EPO. apply lwith_upd; auto. lia. }
    assert (Hp : j' * r k' + i' < r k' * r (S k')) by nia. assert (Hp0 : j * r k + i < r k * r (S k)) by nia.
    unfold Mth.
    destruct (fM_entry (ft_with f (bump n t th) : ftrain U) (fun k g => uev g (nth k x r0)) k' i' j' W1 Hk' Hi' Hj') as (g1 & Eg1 & ->).
    assert (Eg1' : nth_error (upd funs' q w) (EO k' + (j' * r k' + i')) = Some g1).
    { rewrite <- EF1. rewrite <- Eg1. exact (funs_nth (ft_with f (bump n t th) : ftrain U) W1 k' _ Hk' Hp). }
    unfold plus.
    destruct (fM_entry (f' : ftrain U) (fun k g => uev g (nth k x r0)) k' i' j' W' Hk' Hi' Hj') as (g0 & Eg0 & E0).
    match goal with |- _ = ?a +! _ => replace a with (ev g0 (nth k' x r0)) by (symmetry; exact E0) end.
    assert (Eg0' : nth_error funs' (EO k' + (j' * r k' + i')) = Some g0).
    { rewrite <- Eg0. exact (funs_nth (f' : ftrain U) W' k' _ Hk' Hp). }
    change (uev g1 (nth k' x r0)) with (ev g1 (nth k' x r0)).
    destruct (Nat.eq_dec (EO k' + (j' * r k' + i')) q) as [Eq|Nq].
    - destruct (offs_inj _ k' k _ _ Hp Hp0 Eq) as [-> Ep].
      assert (i' = i) by (pose proof (idx_mod j' (r k) i' Hi') as A1; rewrite Ep, idx_mod in A1; auto).
      assert (j' = j) by (pose proof (idx_div j' (r k) i' Hi') as A1; rewrite Ep, idx_div in A1; auto). subst i' j'.
      rewrite Eq in Eg0', Eg1'. rewrite nth_error_upd_same in Eg1' by auto. injection Eg1' as <-. assert (g0 = u') by congruence. subst g0.
      unfold unit_at. rewrite !Nat.eqb_refl. cbn [andb].
      assert (S := ev_slope ev bas u' l v (nth k x r0) (v +! t) HL Wu' Ev). fold w in S.
      rewrite (proj2 HL u' u (nth k x r0) Wu' Wu Ru) in S.
      transitivity (ev u' (nth k x r0) +! (ev w (nth k x r0) -! ev u' (nth k x r0))); [ring|]. rewrite S. ring.
    - rewrite nth_error_upd_other in Eg1' by auto. assert (g1 = g0) by congruence. subst g1.
      unfold unit_at. destruct (Nat.eqb_spec k' k) as [->|]; [|ring].
      destruct (Nat.eqb_spec i' i) as [->|]; cbn [andb]; [|ring]. destruct (Nat.eqb_spec j' j) as [->|]; [|ring]. contradiction Nq. reflexivity.
  Qed.
End Train.
