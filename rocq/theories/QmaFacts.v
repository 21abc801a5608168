(** Products of quasimatrix arrays with matrices and with each other. *)
From Verif Require Export FTArith.

Section QmaMul.
  Context {R : CRing} {U : uops R}.
  Open Scope cr_scope.
  Add Ring Rr6 : (rth R).

  Definition osome {A} (o : outcome A) : option A := match o with Ok a => Some a | _ => None end.

  (** A loop nest (as an array transformer) that writes every cell [j*n+i]
      with the result of [E i j]. *)
  Lemma qma_fill n m (E : nat -> nat -> outcome U) (F : list (option U) -> outcome (list (option U))) :
    (forall i j, i < n -> j < m -> exists u, E i j = Ok u) ->
    (forall T, (forall i j u, i < n -> j < m -> E i j = Ok u -> T (j * n + i) = Some u) ->
       exists P : nat -> Prop, wrf T (n * m) P F /\ forall i j, i < n -> j < m -> P (j * n + i)) ->
    exists r, (do f <- F (slots (n * m)); do f' <- freeze f; Ok (mkq n m f')) = Ok (mkq n m r) /\
       qwf (mkq n m r) /\
       forall i j, i < n -> j < m -> entry (mkq n m r) i j = osome (E i j).
  Proof.
    intros HE HF.
    destruct (qma_build n m (fun i j => osome (E i j))) as [r [Er [Wr Hr]]].
    { intros i j Hi Hj. destruct (HE i j Hi Hj) as [u ->]. exists u; reflexivity. }
    destruct (HF (fun k => osome (E (k mod n) (k / n)))) as [P [HW HP]].
    { intros i j u Hi Hj Hu. rewrite idx_mod, idx_div by auto. now rewrite Hu. }
    rewrite (wrf_full _ _ _ _ _ HW (slots_len _)).
    - cbn [obind]. rewrite Er. cbn [obind]. exists r. auto.
    - intros k Hk. rewrite Nat.mul_comm in Hk. destruct (idx_split k n m Hk) as (j & i & Hj & Hi & ->). auto.
  Qed.

  Lemma lc_col n (M : list R) off (Q : qma U) j (mf : nat -> R) ldc :
    (forall i, i < nr Q -> nth_error M (off + i * ldc) = Some (mf i)) ->
    qwf Q -> n = nr Q -> 0 < nr Q -> j < nc Q ->
    exists u, lin_comb2 n 1 (fs Q) (j * nr Q) ldc M off = Ok u /\
      forall phi, linfun phi -> phi u = sum (nr Q) (fun i => mf i *! ent phi Q i j).
  Proof.
    intros HM Hw -> Hp Hj.
    destruct (entry_some Q 0 j Hw Hp Hj) as [z Hz].
    destruct (lin_comb2_ok (nr Q) 1 (fs Q) (j * nr Q) ldc M off mf
                (fun i => match entry Q i j with Some f => f | None => z end)) as [u [Eu Hu]]; auto.
    - intros i Hi. destruct (entry_some Q i j Hw Hi Hj) as [f Hf]. rewrite Hf.
      unfold entry in Hf. rewrite <- Hf. f_equal. lia.
    - exists u; split; auto. intros phi Hphi. rewrite Hu by auto. apply sum_ext. intros i Hi.
      f_equal. unfold ent. destruct (entry_some Q i j Hw Hi Hj) as [f Hf]. now rewrite Hf.
  Qed.

  Lemma lc_row n (M : list R) off (Q : qma U) i (mf : nat -> R) ldc :
    (forall j, j < nc Q -> nth_error M (off + j * ldc) = Some (mf j)) ->
    qwf Q -> n = nc Q -> 0 < nc Q -> i < nr Q ->
    exists u, lin_comb2 n (nr Q) (fs Q) i ldc M off = Ok u /\
      forall phi, linfun phi -> phi u = sum (nc Q) (fun j => mf j *! ent phi Q i j).
  Proof.
    intros HM Hw -> Hp Hi.
    destruct (entry_some Q i 0 Hw Hi Hp) as [z Hz].
    destruct (lin_comb2_ok (nc Q) (nr Q) (fs Q) i ldc M off mf
                (fun j => match entry Q i j with Some f => f | None => z end)) as [u [Eu Hu]]; auto.
    - intros j Hj. destruct (entry_some Q i j Hw Hi Hj) as [f Hf]. rewrite Hf.
      unfold entry in Hf. rewrite <- Hf. f_equal. lia.
    - exists u; split; auto. intros phi Hphi. rewrite Hu by auto. apply sum_ext. intros j Hj.
      f_equal. unfold ent. destruct (entry_some Q i j Hw Hi Hj) as [f Hf]. now rewrite Hf.
  Qed.

  (** [c] is the product written [Q^T M], entrywise, under every linear functional. *)
  Lemma qmatm_ok (Q : qma U) (M : list R) b (mf : nat -> nat -> R) :
    qwf Q -> 0 < nr Q ->
    (forall k i, k < nr Q -> i < b -> nth_error M (i * nr Q + k) = Some (mf k i)) ->
    exists c, qmatm Q M b = Ok c /\ nr c = nc Q /\ nc c = b /\ qwf c /\
      forall j i, j < nc Q -> i < b -> exists u, entry c j i = Some u /\
        forall phi, linfun phi -> phi u = sum (nr Q) (fun k => mf k i *! ent phi Q k j).
  Proof.
    intros Hw Hp HM. unfold qmatm.
    assert (LC : forall j i, j < nc Q -> i < b ->
       exists u, lin_comb2 (nr Q) 1 (fs Q) (j * nr Q) 1 M (i * nr Q) = Ok u /\
         forall phi, linfun phi -> phi u = sum (nr Q) (fun k => mf k i *! ent phi Q k j)).
    { intros j i Hj Hi. apply lc_col; auto. intros k Hk. rewrite Nat.mul_1_r. auto. }
    destruct (qma_fill (nc Q) b (fun j i => lin_comb2 (nr Q) 1 (fs Q) (j * nr Q) 1 M (i * nr Q))
      (for_ (nc Q) (fun jj f =>
            for_ b (fun ii f =>
              do g <- lin_comb2 (nr Q) 1 (fs Q) (jj * nr Q) 1 M (ii * nr Q);
              aset f (ii * nc Q + jj) (Some g)) f))) as [r [Er [Wr Hr]]].
    - intros j i Hj Hi. destruct (LC j i Hj Hi) as [u [Hu _]]. eauto.
    - intros T HT. eexists; split.
      + eapply wrf_for. intros jj Hj. eapply wrf_for. intros ii Hi.
        destruct (LC jj ii Hj Hi) as [u [Hu _]].
        eapply wrf_get; [exact Hu|]. apply wrf_aset; [nia|]. symmetry. eapply HT; eauto.
      + intros i j Hi Hj. cbv beta. exists i; split; auto. exists j; split; auto.
    - rewrite Er. eexists; split; [reflexivity|]. cbn [nr nc]. repeat split; auto.
      intros j i Hj Hi. destruct (LC j i Hj Hi) as [u [Hu Hp']]. exists u; split; auto.
      rewrite Hr by auto. now rewrite Hu.
  Qed.

  (** [c] is [Q M] *)
  Lemma qmam_ok (Q : qma U) (M : list R) b (mf : nat -> nat -> R) :
    qwf Q -> 0 < nc Q ->
    (forall k i, k < nc Q -> i < b -> nth_error M (i * nc Q + k) = Some (mf k i)) ->
    exists c, qmam Q M b = Ok c /\ nr c = nr Q /\ nc c = b /\ qwf c /\
      forall j i, j < nr Q -> i < b -> exists u, entry c j i = Some u /\
        forall phi, linfun phi -> phi u = sum (nc Q) (fun k => mf k i *! ent phi Q j k).
  Proof.
    intros Hw Hp HM. unfold qmam.
    assert (LC : forall j i, j < nr Q -> i < b ->
       exists u, lin_comb2 (nc Q) (nr Q) (fs Q) j 1 M (i * nc Q) = Ok u /\
         forall phi, linfun phi -> phi u = sum (nc Q) (fun k => mf k i *! ent phi Q j k)).
    { intros j i Hj Hi. apply lc_row; auto. intros k Hk. rewrite Nat.mul_1_r. auto. }
    destruct (qma_fill (nr Q) b (fun j i => lin_comb2 (nc Q) (nr Q) (fs Q) j 1 M (i * nc Q))
      (for_ (nr Q) (fun jj f =>
            for_ b (fun ii f =>
              do g <- lin_comb2 (nc Q) (nr Q) (fs Q) jj 1 M (ii * nc Q);
              aset f (ii * nr Q + jj) (Some g)) f))) as [r [Er [Wr Hr]]].
    - intros j i Hj Hi. destruct (LC j i Hj Hi) as [u [Hu _]]. eauto.
    - intros T HT. eexists; split.
      + eapply wrf_for. intros jj Hj. eapply wrf_for. intros ii Hi.
        destruct (LC jj ii Hj Hi) as [u [Hu _]].
        eapply wrf_get; [exact Hu|]. apply wrf_aset; [nia|]. symmetry. eapply HT; eauto.
      + intros i j Hi Hj. cbv beta. exists i; split; auto. exists j; split; auto.
    - rewrite Er. eexists; split; [reflexivity|]. cbn [nr nc]. repeat split; auto.
      intros j i Hj Hi. destruct (LC j i Hj Hi) as [u [Hu Hp']]. exists u; split; auto.
      rewrite Hr by auto. now rewrite Hu.
  Qed.

  (** [c] is [M Q] *)
  Lemma mqma_ok (Q : qma U) (M : list R) b (mf : nat -> nat -> R) :
    qwf Q -> 0 < nr Q ->
    (forall i k, i < b -> k < nr Q -> nth_error M (k * b + i) = Some (mf i k)) ->
    exists c, mqma M Q b = Ok c /\ nr c = b /\ nc c = nc Q /\ qwf c /\
      forall i j, i < b -> j < nc Q -> exists u, entry c i j = Some u /\
        forall phi, linfun phi -> phi u = sum (nr Q) (fun k => mf i k *! ent phi Q k j).
  Proof.
    intros Hw Hp HM. unfold mqma.
    assert (LC : forall i j, i < b -> j < nc Q ->
       exists u, lin_comb2 (nr Q) 1 (fs Q) (j * nr Q) b M i = Ok u /\
         forall phi, linfun phi -> phi u = sum (nr Q) (fun k => mf i k *! ent phi Q k j)).
    { intros i j Hi Hj. apply lc_col; auto. intros k Hk.
      replace (i + k * b) with (k * b + i) by lia. auto. }
    destruct (qma_fill b (nc Q) (fun i j => lin_comb2 (nr Q) 1 (fs Q) (j * nr Q) b M i)
      (for_ (nc Q) (fun jj f =>
            for_ b (fun ii f =>
              do g <- lin_comb2 (nr Q) 1 (fs Q) (jj * nr Q) b M ii;
              aset f (jj * b + ii) (Some g)) f))) as [r [Er [Wr Hr]]].
    - intros i j Hi Hj. destruct (LC i j Hi Hj) as [u [Hu _]]. eauto.
    - intros T HT. eexists; split.
      + eapply wrf_for. intros jj Hj. eapply wrf_for. intros ii Hi.
        destruct (LC ii jj Hi Hj) as [u [Hu _]].
        eapply wrf_get; [exact Hu|]. apply wrf_aset; [nia|]. symmetry. eapply HT; eauto.
      + intros i j Hi Hj. cbv beta. exists j; split; auto. exists i; split; auto.
    - rewrite Er. eexists; split; [reflexivity|]. cbn [nr nc]. repeat split; auto.
      intros i j Hi Hj. destruct (LC i j Hi Hj) as [u [Hu Hp']]. exists u; split; auto.
      rewrite Hr by auto. now rewrite Hu.
  Qed.

  (** Selecting a row or column of a qma as a strided vector. *)
  Definition egt (Q : qma U) (z : U) i j : U := match entry Q i j with Some f => f | None => z end.

  Lemma egt_col (Q : qma U) z j :
    qwf Q -> j < nc Q -> forall i, i < nr Q -> nth_error (fs Q) (j * nr Q + i * 1) = Some (egt Q z i j).
  Proof.
    intros Hw Hj i Hi. unfold egt. destruct (entry_some Q i j Hw Hi Hj) as [f Hf]. rewrite Hf.
    rewrite <- Hf. unfold entry. f_equal; lia.
  Qed.

  Lemma egt_row (Q : qma U) z i :
    qwf Q -> i < nr Q -> forall j, j < nc Q -> nth_error (fs Q) (i + j * nr Q) = Some (egt Q z i j).
  Proof.
    intros Hw Hi j Hj. unfold egt. destruct (entry_some Q i j Hw Hi Hj) as [f Hf]. rewrite Hf.
    rewrite <- Hf. unfold entry. f_equal; lia.
  Qed.

  Lemma egt_ent (Q : qma U) z (h : U -> R) i j :
    qwf Q -> i < nr Q -> j < nc Q -> h (egt Q z i j) = ent h Q i j.
  Proof.
    intros Hw Hi Hj. unfold egt, ent. destruct (entry_some Q i j Hw Hi Hj) as [f Hf]. now rewrite Hf.
  Qed.

  Definition ent2 (k : U -> U -> R) (a : qma U) ia ja (b : qma U) ib jb : R :=
    match entry a ia ja, entry b ib jb with Some f, Some g => k f g | _, _ => r0 end.

  Lemma egt_ent2 (P Q : qma U) z z' k i j i' j' :
    qwf P -> qwf Q -> i < nr P -> j < nc P -> i' < nr Q -> j' < nc Q ->
    k (egt P z i j) (egt Q z' i' j') = ent2 k P i j Q i' j'.
  Proof.
    intros Hw Hw' Hi Hj Hi' Hj'. unfold egt, ent2.
    destruct (entry_some P i j Hw Hi Hj) as [f Hf]. destruct (entry_some Q i' j' Hw' Hi' Hj') as [g Hg].
    now rewrite Hf, Hg.
  Qed.

  Definition mulev (a : nat -> nat -> R) (b : nat -> nat -> R) n i j : R :=
    sum n (fun k => a i k *! b k j).

  (** Products of two quasimatrix arrays, pointwise. *)
  Definition qprod_spec (c : qma U) n m l (A B : R -> nat -> nat -> R) : Prop :=
    nr c = n /\ nc c = m /\ qwf c /\
    forall i j x, i < n -> j < m ->
      ent (fun f => uev f x) c i j = sum l (fun k => A x i k *! B x k j).

  Section Prods.
    Context (HL : law_ev_lin U) (HP : law_ev_prod U) (HS : law_ev_sumprod U).
    Let ev (Q : qma U) (x : R) (i j : nat) := ent (fun f => uev f x) Q i j.

    Lemma qprod_fill n m l (E : nat -> nat -> outcome U) A B F :
      (forall i j, i < n -> j < m -> exists u, E i j = Ok u /\
          forall x, uev u x = sum l (fun k => A x i k *! B x k j)) ->
      (forall T, (forall i j u, i < n -> j < m -> E i j = Ok u -> T (j * n + i) = Some u) ->
         exists P : nat -> Prop, wrf T (n * m) P F /\ forall i j, i < n -> j < m -> P (j * n + i)) ->
      exists c, (do f <- F (slots (n * m)); do f' <- freeze f; Ok (mkq n m f')) = Ok c /\
         qprod_spec c n m l A B.
    Proof.
      intros HE HF. destruct (qma_fill n m E F) as [r [Er [Wr Hr]]]; auto.
      { intros i j Hi Hj. destruct (HE i j Hi Hj) as [u [Hu _]]; eauto. }
      exists (mkq n m r). split; auto. repeat split; auto.
      intros i j x Hi Hj. destruct (HE i j Hi Hj) as [u [Hu Hx]].
      unfold ent. rewrite Hr, Hu by auto. apply Hx.
    Qed.

    Lemma qmaqma_ok (a b : qma U) :
      qwf a -> qwf b -> nc a = nr b -> 0 < nc a ->
      exists c, qmaqma a b = Ok c /\ qprod_spec c (nr a) (nc b) (nc a) (ev a) (ev b).
    Proof.
      intros Wa Wb Hab Hp. unfold qmaqma.
      apply (qprod_fill (nr a) (nc b) (nc a)
               (fun i j => sum_prod (nc a) (nr a) (fs a) i 1 (fs b) (j * nr b))).
      - intros i j Hi Hj.
        destruct (entry_some a i 0 Wa Hi Hp) as [z Hz].
        destruct (sum_prod_ok (nc a) (nr a) (fs a) i 1 (fs b) (j * nr b)
                    (fun k => egt a z i k) (fun k => egt b z k j)) as [u [Eu Hu]]; auto.
        + intros k Hk. apply egt_row; auto.
        + intros k Hk. apply egt_col; auto. lia.
        + exists u; split; auto. intros x. rewrite Hu. apply sum_ext. intros k Hk.
          rewrite (egt_ent a z (fun f => uev f x)), (egt_ent b z (fun f => uev f x)) by (auto; lia).
          reflexivity.
      - intros T HT. eexists; split.
        + eapply wrf_for. intros jj Hj. eapply wrf_for. intros ii Hi.
          destruct (entry_some a ii 0 Wa Hi Hp) as [z Hz].
          destruct (sum_prod_ok (nc a) (nr a) (fs a) ii 1 (fs b) (jj * nr b)
                    (fun k => egt a z ii k) (fun k => egt b z k jj)) as [u [Eu Hu]]; auto.
          { intros k Hk. apply egt_row; auto. }
          { intros k Hk. apply egt_col; auto. lia. }
          eapply wrf_get; [exact Eu|]. apply wrf_aset; [nia|]. symmetry. eapply HT; eauto.
        + intros i j Hi Hj. cbv beta. exists j; split; auto. exists i; split; auto.
    Qed.

    Lemma qmatqma_ok (a b : qma U) :
      qwf a -> qwf b -> nr a = nr b -> 0 < nr a ->
      exists c, qmatqma a b = Ok c /\
        qprod_spec c (nc a) (nc b) (nr a) (fun x i k => ev a x k i) (ev b).
    Proof.
      intros Wa Wb Hab Hp. unfold qmatqma.
      assert (SP : forall i j, i < nc a -> j < nc b -> exists u,
        sum_prod (nr b) 1 (fs a) (i * nr a) 1 (fs b) (j * nr b) = Ok u /\
        forall x, uev u x = sum (nr a) (fun k => ev a x k i *! ev b x k j)).
      { intros i j Hi Hj.
        destruct (entry_some a 0 i Wa Hp Hi) as [z Hz].
        destruct (sum_prod_ok (nr b) 1 (fs a) (i * nr a) 1 (fs b) (j * nr b)
                    (fun k => egt a z k i) (fun k => egt b z k j)) as [u [Eu Hu]]; auto.
        + lia.
        + intros k Hk. apply egt_col; auto. lia.
        + intros k Hk. apply egt_col; auto.
        + exists u; split; auto. intros x. rewrite Hu, Hab. apply sum_ext. intros k Hk.
          rewrite (egt_ent a z (fun f => uev f x)), (egt_ent b z (fun f => uev f x)) by (auto; lia).
          reflexivity. }
      apply (qprod_fill (nc a) (nc b) (nr a)
               (fun i j => sum_prod (nr b) 1 (fs a) (i * nr a) 1 (fs b) (j * nr b))); auto.
      intros T HT. eexists; split.
      + eapply wrf_for. intros jj Hj. eapply wrf_for. intros ii Hi.
        destruct (SP ii jj Hi Hj) as [u [Eu _]].
        eapply wrf_get; [exact Eu|]. apply wrf_aset; [nia|]. symmetry. eapply HT; eauto.
      + intros i j Hi Hj. cbv beta. exists j; split; auto. exists i; split; auto.
    Qed.

    Lemma qmaqmat_ok (a b : qma U) :
      qwf a -> qwf b -> nc a = nc b -> 0 < nc a ->
      exists c, qmaqmat a b = Ok c /\
        qprod_spec c (nr a) (nr b) (nc a) (ev a) (fun x k j => ev b x j k).
    Proof.
      intros Wa Wb Hab Hp. unfold qmaqmat.
      assert (SP : forall i j, i < nr a -> j < nr b -> exists u,
        sum_prod (nc a) (nr a) (fs a) i (nr b) (fs b) j = Ok u /\
        forall x, uev u x = sum (nc a) (fun k => ev a x i k *! ev b x j k)).
      { intros i j Hi Hj.
        destruct (entry_some a i 0 Wa Hi Hp) as [z Hz].
        destruct (sum_prod_ok (nc a) (nr a) (fs a) i (nr b) (fs b) j
                    (fun k => egt a z i k) (fun k => egt b z j k)) as [u [Eu Hu]]; auto.
        + intros k Hk. apply egt_row; auto.
        + intros k Hk. apply egt_row; auto. lia.
        + exists u; split; auto. intros x. rewrite Hu. apply sum_ext. intros k Hk.
          rewrite (egt_ent a z (fun f => uev f x)), (egt_ent b z (fun f => uev f x)) by (auto; lia).
          reflexivity. }
      apply (qprod_fill (nr a) (nr b) (nc a)
               (fun i j => sum_prod (nc a) (nr a) (fs a) i (nr b) (fs b) j)); auto.
      intros T HT. eexists; split.
      + eapply wrf_for. intros jj Hj. eapply wrf_for. intros ii Hi.
        destruct (SP ii jj Hi Hj) as [u [Eu _]].
        eapply wrf_get; [exact Eu|]. apply wrf_aset; [nia|]. symmetry. eapply HT; eauto.
      + intros i j Hi Hj. cbv beta. exists j; split; auto. exists i; split; auto.
    Qed.

    (** qmatqmat stores its result transposed: for square results ([nc a = nr b])
        the array returned is (a^T b^T)^T, i.e. b a. *)
    Lemma qmatqmat_square (a b : qma U) :
      qwf a -> qwf b -> nr a = nc b -> nc a = nr b -> 0 < nr a ->
      exists c, qmatqmat a b = Ok c /\
        qprod_spec c (nr b) (nc a) (nr a) (ev b) (ev a).
    Proof.
      intros Wa Wb Hab Hsq Hp. unfold qmatqmat.
      assert (SP : forall i j, i < nr b -> j < nc a -> exists u,
        sum_prod (nc b) 1 (fs a) (j * nr a) (nr b) (fs b) i = Ok u /\
        forall x, uev u x = sum (nr a) (fun k => ev b x i k *! ev a x k j)).
      { intros i j Hi Hj.
        destruct (entry_some a 0 j Wa Hp Hj) as [z Hz].
        destruct (sum_prod_ok (nc b) 1 (fs a) (j * nr a) (nr b) (fs b) i
                    (fun k => egt a z k j) (fun k => egt b z i k)) as [u [Eu Hu]]; auto.
        + lia.
        + intros k Hk. apply egt_col; auto. lia.
        + intros k Hk. apply egt_row; auto.
        + exists u; split; auto. intros x. rewrite Hu, Hab. apply sum_ext. intros k Hk.
          rewrite (egt_ent a z (fun f => uev f x)), (egt_ent b z (fun f => uev f x)) by (auto; lia).
          unfold ev. ring. }
      rewrite <- Hsq in SP |- *.
      apply (qprod_fill (nc a) (nc a) (nr a)
               (fun i j => sum_prod (nc b) 1 (fs a) (j * nr a) (nc a) (fs b) i)); auto.
      intros T HT. eexists; split.
      + eapply wrf_for. intros jj Hj. eapply wrf_for. intros ii Hi.
        destruct (SP jj ii Hj Hi) as [u [Eu _]].
        eapply wrf_get; [exact Eu|]. apply wrf_aset; [nia|]. symmetry. eapply HT; eauto.
      + intros i j Hi Hj. cbv beta. exists i; split; auto. exists j; split; auto.
    Qed.
  End Prods.

  (** * Matrices of inner products *)
  Lemma mat_fill n m (E : nat -> nat -> R) (F : list R -> outcome (list R)) l :
    length l = n * m ->
    (forall T, (forall i j, i < n -> j < m -> T (j * n + i) = E i j) ->
       exists P : nat -> Prop, wrf T (n * m) P F /\ forall i j, i < n -> j < m -> P (j * n + i)) ->
    exists r, F l = Ok r /\ length r = n * m /\
      forall i j, i < n -> j < m -> nth_error r (j * n + i) = Some (E i j).
  Proof.
    intros HLen HF.
    destruct (HF (fun k => E (k mod n) (k / n))) as [P [HW HP]].
    { intros i j Hi Hj. rewrite idx_mod, idx_div by auto. auto. }
    exists (tab (n * m) (fun k => E (k mod n) (k / n))). split; [|split; [apply tab_length|]].
    - apply (wrf_full _ _ _ _ _ HW HLen).
      intros k Hk. rewrite Nat.mul_comm in Hk. destruct (idx_split k n m Hk) as (j & i & Hj & Hi & ->). auto.
    - intros i j Hi Hj. rewrite nth_error_tab by nia. now rewrite idx_mod, idx_div by auto.
  Qed.

  Lemma qmarray_integrate_ok (a : qma U) :
    qwf a -> exists r, qmarray_integrate a = Ok r /\ length r = nr a * nc a /\
      forall i j, i < nr a -> j < nc a -> nth_error r (j * nr a + i) = Some (ent uint a i j).
  Proof.
    intros Wa. unfold qmarray_integrate.
    apply (mat_fill (nr a) (nc a) (fun i j => ent uint a i j)); [apply repeat_length|].
    intros T HT. eexists; split.
    - eapply wrf_for. intros ii Hi. eapply wrf_for. intros jj Hj.
      destruct (entry_some a jj ii Wa Hj Hi) as [f Hf].
      eapply wrf_get; [apply aget_entry; exact Hf|].
      apply wrf_aset; [nia|]. rewrite HT by auto. symmetry. now apply ent_nth.
    - intros i j Hi Hj. cbv beta. exists j; split; auto. exists i; split; auto.
  Qed.

  Lemma qmarray_kron_integrate_ok (a b : qma U) :
    qwf a -> qwf b ->
    exists r, qmarray_kron_integrate a b = Ok r /\ length r = nr a * nr b * (nc a * nc b) /\
      forall ia ib ja jb, ia < nr a -> ib < nr b -> ja < nc a -> jb < nc b ->
        nth_error r ((ja * nc b + jb) * (nr a * nr b) + (ia * nr b + ib))
        = Some (ent2 uinner a ia ja b ib jb).
  Proof.
    intros Wa Wb. unfold qmarray_kron_integrate.
    destruct (mat_fill (nr a * nr b) (nc a * nc b)
      (fun i j => ent2 uinner a (i / nr b) (j / nc b) b (i mod nr b) (j mod nc b))
      (for_ (nc a) (fun ii c =>
        for_ (nr a) (fun jj c =>
        for_ (nc b) (fun kk c =>
        for_ (nr b) (fun ll c =>
          do g <- aget (fs a) (ii * nr a + jj);
          do h <- aget (fs b) (kk * nr b + ll);
          aset c ((ii * nc b + kk) * (nr a * nr b) + (jj * nr b + ll)) (uinner g h))
        c) c) c))
      (repeat r0 (nr a * nr b * nc a * nc b))) as (r & E & L & Hr).
    - rewrite repeat_length. lia.
    - intros T HT. eexists; split.
      + eapply wrf_for. intros ii Hi. eapply wrf_for. intros jj Hj.
        eapply wrf_for. intros kk Hk. eapply wrf_for. intros ll Hl.
        destruct (entry_some a jj ii Wa Hj Hi) as [f Hf].
        destruct (entry_some b ll kk Wb Hl Hk) as [g Hg].
        eapply wrf_get; [apply aget_entry; exact Hf|].
        eapply wrf_get; [apply aget_entry; exact Hg|].
        assert (Hrow : jj * nr b + ll < nr a * nr b) by nia.
        assert (Hcol : ii * nc b + kk < nc a * nc b) by nia.
        apply wrf_aset; [nia|]. rewrite HT by auto. rewrite !idx_mod, !idx_div by auto.
        unfold ent2. now rewrite Hf, Hg.
      + intros i j Hi Hj. cbv beta.
        destruct (idx_split i _ _ Hi) as (ia & ib & H1 & H2 & ->).
        destruct (idx_split j _ _ Hj) as (ja & jb & H3 & H4 & ->).
        exists ja; split; auto. exists ia; split; auto. exists jb; split; auto.
        exists ib; split; auto.
    - exists r. repeat split; auto. intros ia ib ja jb H1 H2 H3 H4.
      rewrite Hr by nia. now rewrite !idx_mod, !idx_div by auto.
  Qed.

  Lemma qmaqma_integrate_ok (a b : qma U) :
    qwf a -> qwf b -> nc a = nr b ->
    exists r, qmaqma_integrate a b = Ok r /\ length r = nr a * nc b /\
      forall i j, i < nr a -> j < nc b ->
        nth_error r (j * nr a + i) = Some (sum (nc a) (fun k => ent2 uinner a i k b k j)).
  Proof.
    intros Wa Wb Hab. unfold qmaqma_integrate.
    apply (mat_fill (nr a) (nc b)); [apply repeat_length|].
    intros T HT. eexists; split.
    - eapply wrf_for. intros jj Hj. eapply wrf_for. intros ii Hi.
      destruct (Nat.eq_dec (nc a) 0) as [H0|H0].
      + eapply (wrf_get _ _ _ _ r0); [rewrite H0; reflexivity|].
        apply wrf_aset; [nia|]. rewrite HT by auto. rewrite H0. reflexivity.
      + destruct (entry_some a ii 0 Wa Hi ltac:(lia)) as [z Hz].
        eapply wrf_get; [apply (inner_sum_ok (nc a) (nr a) (fs a) ii 1 (fs b) (jj * nr b)
           (fun k => egt a z ii k) (fun k => egt b z k jj))|].
        * intros k Hk; apply egt_row; auto.
        * intros k Hk; apply egt_col; auto; lia.
        * apply wrf_aset; [nia|]. rewrite HT by auto. apply sum_ext. intros k Hk.
          apply egt_ent2; auto; lia.
    - intros i j Hi Hj. cbv beta. exists j; split; auto. exists i; split; auto.
  Qed.

  Lemma qmatqma_integrate_ok (a b : qma U) :
    qwf a -> qwf b -> nr a = nr b ->
    exists r, qmatqma_integrate a b = Ok r /\ length r = nc a * nc b /\
      forall i j, i < nc a -> j < nc b ->
        nth_error r (j * nc a + i) = Some (sum (nr a) (fun k => ent2 uinner a k i b k j)).
  Proof.
    intros Wa Wb Hab. unfold qmatqma_integrate.
    apply (mat_fill (nc a) (nc b)); [apply repeat_length|].
    intros T HT. eexists; split.
    - eapply wrf_for. intros jj Hj. eapply wrf_for. intros ii Hi.
      destruct (Nat.eq_dec (nr a) 0) as [H0|H0].
      + eapply (wrf_get _ _ _ _ r0); [rewrite <- Hab, H0; reflexivity|].
        apply wrf_aset; [nia|]. rewrite HT by auto. rewrite H0. reflexivity.
      + destruct (entry_some a 0 ii Wa ltac:(lia) Hi) as [z Hz].
        eapply wrf_get; [apply (inner_sum_ok (nr b) 1 (fs a) (ii * nr a) 1 (fs b) (jj * nr b)
           (fun k => egt a z k ii) (fun k => egt b z k jj))|].
        * intros k Hk; apply egt_col; auto; lia.
        * intros k Hk; apply egt_col; auto; lia.
        * apply wrf_aset; [nia|]. rewrite HT by auto. rewrite Hab. apply sum_ext. intros k Hk.
          apply egt_ent2; auto; lia.
    - intros i j Hi Hj. cbv beta. exists j; split; auto. exists i; split; auto.
  Qed.

  Lemma qmaqmat_integrate_ok (a b : qma U) :
    qwf a -> qwf b -> nc a = nc b ->
    exists r, qmaqmat_integrate a b = Ok r /\ length r = nr a * nr b /\
      forall i j, i < nr a -> j < nr b ->
        nth_error r (j * nr a + i) = Some (sum (nc a) (fun k => ent2 uinner a i k b j k)).
  Proof.
    intros Wa Wb Hab. unfold qmaqmat_integrate.
    apply (mat_fill (nr a) (nr b)); [apply repeat_length|].
    intros T HT. eexists; split.
    - eapply wrf_for. intros jj Hj. eapply wrf_for. intros ii Hi.
      destruct (Nat.eq_dec (nc a) 0) as [H0|H0].
      + eapply (wrf_get _ _ _ _ r0); [rewrite H0; reflexivity|].
        apply wrf_aset; [nia|]. rewrite HT by auto. rewrite H0. reflexivity.
      + destruct (entry_some a ii 0 Wa Hi ltac:(lia)) as [z Hz].
        eapply wrf_get; [apply (inner_sum_ok (nc a) (nr a) (fs a) ii (nr b) (fs b) jj
           (fun k => egt a z ii k) (fun k => egt b z jj k))|].
        * intros k Hk; apply egt_row; auto; lia.
        * intros k Hk; apply egt_row; auto; lia.
        * apply wrf_aset; [nia|]. rewrite HT by auto. apply sum_ext. intros k Hk.
          apply egt_ent2; auto; lia.
    - intros i j Hi Hj. cbv beta. exists j; split; auto. exists i; split; auto.
  Qed.

  (** The integrating variant of a^T b^T stores entry (i,j) at [i * nr b + j],
      i.e. it returns the transpose in column-major order. *)
  Lemma qmatqmat_integrate_ok (a b : qma U) :
    qwf a -> qwf b -> nr a = nc b ->
    exists r, qmatqmat_integrate a b = Ok r /\ length r = nc a * nr b /\
      forall i j, i < nc a -> j < nr b ->
        nth_error r (i * nr b + j) = Some (sum (nr a) (fun k => ent2 uinner a k i b j k)).
  Proof.
    intros Wa Wb Hab. unfold qmatqmat_integrate.
    destruct (mat_fill (nr b) (nc a) (fun j i => sum (nr a) (fun k => ent2 uinner a k i b j k))
      (for_ (nr b) (fun jj c =>
        for_ (nc a) (fun ii c =>
          do v <- inner_sum (nc b) 1 (fs a) (ii * nr a) (nr b) (fs b) jj;
          aset c (ii * nr b + jj) v) c)) (repeat r0 (nc a * nr b))) as (r & E & L & Hr).
    - rewrite repeat_length. lia.
    - intros T HT. eexists; split.
      + eapply wrf_for. intros jj Hj. eapply wrf_for. intros ii Hi.
        destruct (Nat.eq_dec (nr a) 0) as [H0|H0].
        * eapply (wrf_get _ _ _ _ r0); [rewrite <- Hab, H0; reflexivity|].
          apply wrf_aset; [nia|]. rewrite HT by auto. rewrite H0. reflexivity.
        * destruct (entry_some a 0 ii Wa ltac:(lia) Hi) as [z Hz].
          eapply wrf_get; [apply (inner_sum_ok (nc b) 1 (fs a) (ii * nr a) (nr b) (fs b) jj
             (fun k => egt a z k ii) (fun k => egt b z jj k))|].
          -- intros k Hk; apply egt_col; auto; lia.
          -- intros k Hk; apply egt_row; auto; lia.
          -- apply wrf_aset; [nia|]. rewrite HT by auto. rewrite Hab. apply sum_ext. intros k Hk.
             apply egt_ent2; auto; lia.
      + intros i j Hi Hj. cbv beta. exists i; split; auto. exists j; split; auto.
    - exists r. repeat split; auto. lia.
  Qed.

  Lemma qmarray_transpose_ok (a : qma U) :
    qwf a -> exists c, qmarray_transpose a = Ok c /\ nr c = nc a /\ nc c = nr a /\ qwf c /\
      forall i j, i < nr a -> j < nc a -> entry c j i = entry a i j.
  Proof.
    intros Wa. unfold qmarray_transpose.
    destruct (qma_fill (nc a) (nr a) (fun j i => aget (fs a) (j * nr a + i))
      (for_ (nr a) (fun ii f =>
            for_ (nc a) (fun jj f =>
              do g <- aget (fs a) (jj * nr a + ii);
              aset f (ii * nc a + jj) (Some g)) f))) as [r [Er [Wr Hr]]].
    - intros j i Hj Hi. destruct (entry_some a i j Wa Hi Hj) as [u Hu]. exists u. now apply aget_entry.
    - intros T HT. eexists; split.
      + eapply wrf_for. intros ii Hi. eapply wrf_for. intros jj Hj.
        destruct (entry_some a ii jj Wa Hi Hj) as [u Hu]. apply aget_entry in Hu.
        eapply wrf_get; [exact Hu|]. apply wrf_aset; [nia|]. symmetry. eapply HT; eauto.
      + intros i j Hi Hj. cbv beta. exists j; split; auto. exists i; split; auto.
    - rewrite Er. eexists; split; [reflexivity|]. cbn [nr nc]. repeat split; auto.
      intros i j Hi Hj. rewrite Hr by auto.
      destruct (entry_some a i j Wa Hi Hj) as [u Hu]. rewrite (aget_entry _ _ _ _ Hu). simpl. auto.
  Qed.

  Lemma qmarray_deriv_ok (a : qma U) :
    qwf a -> exists c, qmarray_deriv a = Ok c /\ nr c = nr a /\ nc c = nc a /\ qwf c /\
      forall i j f, i < nr a -> j < nc a -> entry a i j = Some f -> entry c i j = Some (uderiv f).
  Proof.
    intros Wa. unfold qmarray_deriv.
    destruct (qma_fill (nr a) (nc a) (fun i j => do g <- aget (fs a) (j * nr a + i); Ok (uderiv g))
      (for_ (nr a * nc a) (fun ii f => do g <- aget (fs a) ii; aset f ii (Some (uderiv g)))))
      as [r [Er [Wr Hr]]].
    - intros i j Hi Hj. destruct (entry_some a i j Wa Hi Hj) as [u Hu].
      rewrite (aget_entry _ _ _ _ Hu). simpl; eauto.
    - intros T HT. exists (fun k => exists i, i < nr a * nc a /\ i = k). split.
      + apply wrf_for. intros k Hk. rewrite Nat.mul_comm in Hk.
        destruct (idx_split k _ _ Hk) as (j & i & Hj & Hi & ->).
        destruct (entry_some a i j Wa Hi Hj) as [u Hu]. apply aget_entry in Hu.
        eapply wrf_get; [exact Hu|]. apply wrf_aset; [nia|]. symmetry. apply HT; auto. now rewrite Hu.
      + intros i j Hi Hj. exists (j * nr a + i). split; auto. nia.
    - rewrite Er. eexists; split; [reflexivity|]. cbn [nr nc]. repeat split; auto.
      intros i j f Hi Hj Hf. rewrite Hr by auto.
      rewrite (aget_entry _ _ _ _ Hf). simpl. auto.
  Qed.
End QmaMul.
