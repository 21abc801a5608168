(** The transposed products of quasimatrix arrays for all shapes. *)
From Verif Require Export QmaFacts.

Lemma freeze_none {A} (l : list (option A)) k : nth_error l k = Some None -> freeze l = UB.
Proof.
  revert k. induction l as [|[a|] l IH]; intros [|k] H; simpl in *; try discriminate; auto.
  now rewrite (IH k H).
Qed.

Section QmaMore.
  Context {R : CRing} {U : uops R}.
  Open Scope cr_scope.
  Add Ring Rr17 : (rth R).
  Context (HL : law_ev_lin U) (HP : law_ev_prod U) (HS : law_ev_sumprod U).
  Let ev (Q : qma U) (x : R) (i j : nat) := ent (fun f => uev f x) Q i j.

  Lemma qmatqmat_sp (a b : qma U) i j :
    qwf a -> qwf b -> nr a = nc b -> 0 < nr a -> i < nr b -> j < nc a -> exists u,
      sum_prod (nc b) 1 (fs a) (j * nr a) (nr b) (fs b) i = Ok u /\
      forall x, uev u x = sum (nr a) (fun k => ev a x k j *! ev b x i k).
  Proof.
    intros Wa Wb Hab Hp Hi Hj.
    destruct (entry_some a 0 j Wa Hp Hj) as [z Hz].
    destruct (sum_prod_ok (nc b) 1 (fs a) (j * nr a) (nr b) (fs b) i
                (fun k => egt a z k j) (fun k => egt b z i k)) as [u [Eu Hu]]; auto.
    - lia.
    - intros k Hk. apply egt_col; auto. lia.
    - intros k Hk. apply egt_row; auto.
    - exists u; split; auto. intros x. rewrite Hu, Hab. apply sum_ext. intros k Hk.
      rewrite (egt_ent a z (fun f => uev f x)), (egt_ent b z (fun f => uev f x)) by (auto; lia).
      reflexivity.
  Qed.

  (** One column: correct. *)
  Lemma qmatqmat_one (a b : qma U) :
    qwf a -> qwf b -> nr a = nc b -> nc a = 1 -> 0 < nr a ->
    exists c, qmatqmat a b = Ok c /\
      qprod_spec c (nc a) (nr b) (nr a) (fun x i k => ev a x k i) (fun x k j => ev b x j k).
  Proof.
    intros Wa Wb Hab H1 Hp. unfold qmatqmat.
    apply (qprod_fill (nc a) (nr b) (nr a)
             (fun i j => sum_prod (nc b) 1 (fs a) (i * nr a) (nr b) (fs b) j)).
    - intros i j Hi Hj. now apply qmatqmat_sp.
    - intros T HT. eexists; split.
      + eapply wrf_for. intros jj Hj. eapply wrf_for. intros ii Hi.
        destruct (qmatqmat_sp a b jj ii Wa Wb Hab Hp Hj Hi) as [u [Eu _]].
        eapply wrf_get; [exact Eu|]. apply wrf_aset; [nia|]. symmetry.
        rewrite <- (HT ii jj u Hi Hj Eu). f_equal. nia.
      + intros i j Hi Hj. cbv beta. exists j; split; auto. exists i; split; auto. nia.
  Qed.

  (** Two or more columns and a rectangular result: out of bounds or unset
      slots. *)
  Lemma qmatqmat_bad (a b : qma U) :
    qwf a -> qwf b -> nr a = nc b -> 0 < nr a -> 1 < nc a -> 0 < nr b -> nc a <> nr b ->
    qmatqmat a b = UB.
  Proof.
    intros Wa Wb Hab Hp H1 Hb0 Hne. unfold qmatqmat.
    match goal with |- context [for_ (nr b) ?f (slots _)] => set (F := f) end.
    destruct (Nat.lt_ge_cases (nr b) (nc a)) as [Hlt|Hge].
    - (* out of bounds *)
      assert (E : for_ (nr b) F (slots (nc a * nr b)) = UB); [|now rewrite E].
      assert (Hin : forall jj ii (C : list (option U)), jj < nr b -> ii < nc a -> length C = nc a * nr b ->
        (do g <- sum_prod (nc b) 1 (fs a) (ii * nr a) (nr b) (fs b) jj; aset C (ii * nc a + jj) (Some g)) = UB \/
        exists C', (do g <- sum_prod (nc b) 1 (fs a) (ii * nr a) (nr b) (fs b) jj;
                    aset C (ii * nc a + jj) (Some g)) = Ok C' /\ length C' = nc a * nr b).
      { intros jj ii C Hj Hi HC. destruct (qmatqmat_sp a b jj ii Wa Wb Hab Hp Hj Hi) as [u [Eu _]].
        rewrite Eu. cbn [obind]. destruct (Nat.lt_ge_cases (ii * nc a + jj) (length C)).
        - right. rewrite aset_ok by auto. eexists. split; [reflexivity|]. now rewrite upd_length.
        - left. unfold aset. destruct (Nat.ltb_spec (ii * nc a + jj) (length C)); [lia|reflexivity]. }
      apply (for_ub (fun C : list (option U) => length C = nc a * nr b) F _ _ (nr b - 1)); try lia.
      + apply slots_len.
      + intros jj C Hj HC. unfold F.
        assert (G : forall q, q <= nc a ->
          for_ q (fun ii f => do g <- sum_prod (nc b) 1 (fs a) (ii * nr a) (nr b) (fs b) jj;
                              aset f (ii * nc a + jj) (Some g)) C = UB \/
          exists C', for_ q (fun ii f => do g <- sum_prod (nc b) 1 (fs a) (ii * nr a) (nr b) (fs b) jj;
                              aset f (ii * nc a + jj) (Some g)) C = Ok C' /\ length C' = nc a * nr b).
        { induction q as [|q IH]; intros Hq; [right; exists C; auto|]. rewrite for_S.
          destruct IH as [->|(C' & -> & HC')]; [lia|now left|]. cbn [obind]. apply Hin; auto. }
        apply G. lia.
      + intros C HC. unfold F.
        apply (for_ub (fun C => length C = nc a * nr b) _ _ C (nc a - 1)); auto; try lia.
        * intros ii C' Hi HC'. apply Hin; auto. lia.
        * intros C' HC'. destruct (qmatqmat_sp a b (nr b - 1) (nc a - 1) Wa Wb Hab Hp) as [u [Eu _]]; [lia|lia|].
          rewrite Eu. cbn [obind]. unfold aset.
          destruct (Nat.ltb_spec ((nc a - 1) * nc a + (nr b - 1)) (length C')); [|reflexivity]. nia.
    - (* the last slot is never written *)
      assert (Inv : exists C, for_ (nr b) F (slots (nc a * nr b)) = Ok C /\
                (length C = nc a * nr b /\ nth_error C (nc a * nr b - 1) = Some None)).
      { apply (for_inv (fun _ C => length C = nc a * nr b /\ nth_error C (nc a * nr b - 1) = Some None)).
        - split; [apply slots_len|]. unfold slots. apply nth_error_repeat. nia.
        - intros jj C Hj [HC HN]. unfold F.
          apply (for_inv (fun _ C => length C = nc a * nr b /\ nth_error C (nc a * nr b - 1) = Some None)); auto.
          intros ii C' Hi [HC' HN']. destruct (qmatqmat_sp a b jj ii Wa Wb Hab Hp Hj Hi) as [u [Eu _]].
          rewrite Eu. cbn [obind]. assert (ii * nc a + jj < nc a * nr b - 1) by nia.
          rewrite aset_ok by lia. eexists. split; [reflexivity|]. split; [now rewrite upd_length|].
          rewrite nth_error_upd_other by lia. exact HN'. }
      destruct Inv as (C & -> & _ & HN). cbn [obind]. now rewrite (freeze_none _ _ HN).
  Qed.

  (** qmarray_vec_kron with equally many columns: entry [(i,j)] of the result
      is a^T applied to column i of [b] and column j of [c]; flat position
      [j * nc b + i], i.e. the order of a^T kron(c,b). *)
  Lemma qmarray_vec_kron_square (a : list R) (b c : qma U) :
    qwf b -> qwf c -> nc b = nc c -> 0 < nr b -> 0 < nr c -> length a = nr b * nr c ->
    exists d, qmarray_vec_kron a b c = Ok d /\ nr d = nc c /\ nc d = nc b /\ qwf d /\
      forall i j x, i < nc b -> j < nc c ->
        ent (fun f => uev f x) d i j
        = sum (nr c) (fun k => sum (nr b) (fun l => nth (k * nr b + l) a r0 *! (ev b x l i *! ev c x k j))).
  Proof.
    intros Wb Wc Hn Pb Pc Ha. unfold qmarray_vec_kron.
    destruct (qmatm_ok b a (nr c) (fun k l => nth (l * nr b + k) a r0)) as (t & Et & Nt & Mt & Wt & Ht); auto.
    { intros k i Hk Hi. apply nth_error_nth'. nia. }
    rewrite Et. cbn [obind].
    destruct (qmatqmat_square HL HP HS c t Wc Wt) as (d & Ed & Nd & Md & Wd & Hd); try lia.
    exists d. rewrite Ed. repeat split; auto; try lia.
    intros i j x Hi Hj. rewrite Hd by lia. apply sum_ext. intros k Hk.
    assert (Hlin : linfun (fun f : U => uev f x)) by (apply HL).
    destruct (Ht i k Hi Hk) as (u & Eu & Hu). unfold ent at 1. rewrite Eu, (Hu _ Hlin), <- sum_scal_r.
    apply sum_ext. intros l Hl. unfold ev. ring.
  Qed.
End QmaMore.

Lemma lin_comb_list (R : CRing) (U : uops R) (HL : law_ev_lin U)
  n (f : list U) (c : list R) : 0 < n -> length f = n -> length c = n ->
  exists u, lin_comb n f c = Ok u /\
    forall x, uev u x = lsum (map (fun p => rmul (fst p) (uev (snd p) x)) (combine c f)).
Proof.
  intros Hn Hf Hc.
  destruct f as [|f0 f']; [simpl in Hf; lia|]. set (f := f0 :: f') in *.
  destruct (lin_comb_ok n f c (fun i => nth i c r0) (fun i => nth i f f0) Hn) as (u & Eu & Hu).
  { intros i Hi. apply nth_error_nth'. lia. }
  { intros i Hi. apply nth_error_nth'. lia. }
  exists u; split; auto. intros x. rewrite (Hu _ (HL x)).
  rewrite <- (lsum_tab R). f_equal.
  rewrite (list_eq_tab_nth (r0, f0) (combine c f)), combine_length, map_tab.
  replace (Nat.min (length c) (length f)) with n by lia.
  apply tab_ext. intros i Hi. rewrite combine_nth by lia. reflexivity.
Qed.
