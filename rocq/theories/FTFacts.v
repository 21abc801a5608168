(** Proofs about the function-train model. *)
From Verif Require Export FTSpec BlasFacts.

Section Val.
  Context {R : CRing} {U : Type}.
  Open Scope cr_scope.
  Add Ring Rr1 : (rth R).

  Definition ent (h : U -> R) (c : qma U) (i j : nat) : R :=
    match entry c i j with Some f => h f | None => r0 end.

  (** Nested form of the sum over rank paths. *)
  Fixpoint val (hs : list (U -> R)) (cs : list (qma U)) (i : nat) : R :=
    match cs, hs with
    | c :: cs', h :: hs' => sum (nc c) (fun j => ent h c i j *! val hs' cs' j)
    | _, _ => r1
    end.

  Lemma val_nil hs i : val hs [] i = r1.
  Proof. destruct hs; reflexivity. Qed.

  Lemma map_flat_map {A B C} (f : B -> C) (g : A -> list B) l :
    map f (flat_map g l) = flat_map (fun a => map f (g a)) l.
  Proof. induction l as [|a l IH]; simpl; auto. now rewrite map_app, IH. Qed.

  Lemma tsum_val hs cs i : length hs = length cs -> tsum hs (terms cs i) = val hs cs i.
  Proof.
    revert cs i; induction hs as [|h hs IH]; intros [|c cs] i HL; simpl in HL; try lia.
    - unfold tsum; simpl. ring.
    - unfold tsum. simpl terms. rewrite map_flat_map, lsum_flat_map.
      fold (tab (nc c) (fun a => lsum (map (tprod (h :: hs))
         match entry c i a with Some f => map (cons f) (terms cs a) | None => [] end))).
      rewrite lsum_tab. cbn [val]. apply sum_ext. intros j Hj.
      unfold ent. destruct (entry c i j) as [f|]; simpl; [|ring].
      rewrite map_map. simpl. rewrite lsum_map_scal. f_equal.
      apply IH. lia.
  Qed.

  Lemma entry_some (c : qma U) i j :
    qwf c -> i < nr c -> j < nc c -> exists f, entry c i j = Some f.
  Proof.
    intros Hw Hi Hj. unfold entry. destruct (nth_error (fs c) (j * nr c + i)) eqn:E; eauto.
    apply nth_error_None in E. unfold qwf in Hw. rewrite Hw in E. nia.
  Qed.

  Lemma ent_nth h (c : qma U) i j f : entry c i j = Some f -> ent h c i j = h f.
  Proof. unfold ent. now intros ->. Qed.

  (** Building a qma from its entries. *)
  Lemma qma_build n m (E : nat -> nat -> option U) :
    (forall i j, i < n -> j < m -> exists u, E i j = Some u) ->
    exists r, freeze (tab (n * m) (fun k => E (k mod n) (k / n))) = Ok r /\
              qwf (mkq n m r) /\
              forall i j, i < n -> j < m -> entry (mkq n m r) i j = E i j.
  Proof.
    intros H. destruct (freeze_target (n * m) (fun k => E (k mod n) (k / n))) as [r [Er [Lr Hr]]].
    - intros k Hk. rewrite Nat.mul_comm in Hk.
      destruct (idx_split k n m Hk) as (j & i & Hj & Hi & ->).
      rewrite idx_mod, idx_div by auto. auto.
    - exists r. repeat split; auto.
      intros i j Hi Hj. unfold entry; simpl. rewrite Hr by nia.
      now rewrite idx_mod, idx_div by auto.
  Qed.
End Val.

Section QmaFacts.
  Context {R : CRing} {U : uops R}.
  Open Scope cr_scope.
  Add Ring Rr2 : (rth R).

  Lemma slots_len n : length (slots (U := U) n) = n.
  Proof. apply repeat_length. Qed.

  Lemma aget_entry (c : qma U) i j u :
    entry c i j = Some u -> aget (fs c) (j * nr c + i) = Ok u.
  Proof. intros H; now apply aget_ok. Qed.

  Lemma qmarray_copy_ok (a : qma U) : qwf a -> qmarray_copy a = Ok a.
  Proof.
    intros Hw. unfold qmarray_copy.
    pose (T := fun k => nth_error (fs a) k).
    rewrite (wrf_full T (nr a * nc a) (fun k => exists i, i < nr a * nc a /\ i = k)
               (for_ (nr a * nc a) (fun ii f => do g <- aget (fs a) ii; aset f ii (Some g)))).
    - simpl. replace (tab (nr a * nc a) T) with (map Some (fs a)).
      + rewrite freeze_map_Some. simpl. destruct a; reflexivity.
      + unfold qwf in Hw. apply tab_eq_intro; [now rewrite map_length|].
        intros i Hi. rewrite nth_error_map. unfold T.
        destruct (nth_error (fs a) i) eqn:E; auto.
        apply nth_error_None in E. lia.
    - apply wrf_for. intros i Hi.
      destruct (aget_lt (fs a) i) as [g [Eg Ag]]. { unfold qwf in Hw; lia. }
      eapply wrf_get; [exact Ag|]. apply wrf_aset; auto.
    - apply slots_len.
    - intros k Hk; exists k; auto.
  Qed.

  Lemma qmarray_stackh_ok (a b : qma U) :
    qwf a -> qwf b -> nr a = nr b ->
    qmarray_stackh a b = Ok (mkq (nr a) (nc a + nc b) (fs a ++ fs b)).
  Proof.
    intros Ha Hb Hr. unfold qmarray_stackh, cassert. rewrite Hr, Nat.eqb_refl. simpl.
    rewrite <- Hr.
    pose (N := nr a * (nc a + nc b)).
    pose (T := fun k => nth_error (fs a ++ fs b) k).
    assert (HF : forall l, length l = N ->
      (do f <- for_ (nr a * nc a) (fun ii f => do g <- aget (fs a) ii; aset f ii (Some g)) l;
       for_ (nr a * nc b) (fun ii f => do g <- aget (fs b) ii; aset f (ii + nr a * nc a) (Some g)) f)
      = Ok (tab N T)).
    { intros l HL. eapply (wrf_full T N _ (fun l => do f <- for_ (nr a * nc a) _ l; _ f)); [|exact HL|].
      - eapply wrf_bind.
        + eapply wrf_for. intros i Hi.
          destruct (aget_lt (fs a) i) as [g [Eg Ag]]. { unfold qwf in Ha; lia. }
          eapply wrf_get; [exact Ag|]. apply wrf_aset; [unfold N; nia|].
          unfold T. rewrite nth_error_app1; auto. unfold qwf in Ha; lia.
        + eapply wrf_for. intros i Hi.
          destruct (aget_lt (fs b) i) as [g [Eg Ag]]. { unfold qwf in Hb; rewrite Hb, <- Hr; auto. }
          eapply wrf_get; [exact Ag|]. apply wrf_aset; [unfold N; nia|].
          unfold T. rewrite nth_error_app2; [|unfold qwf in Ha; lia].
          unfold qwf in Ha. replace (i + nr a * nc a - length (fs a)) with i by lia. auto.
      - intros k Hk. simpl. destruct (Nat.lt_ge_cases k (nr a * nc a)) as [Hlt|Hge].
        + left. exists k; auto.
        + right. exists (k - nr a * nc a). split; [unfold N in Hk; nia|lia]. }
    specialize (HF (slots N) (slots_len N)).
    fold N.
    destruct (for_ (nr a * nc a) _ (slots N)) as [f| | |] eqn:E; simpl in HF |- *; try discriminate.
    rewrite HF. simpl.
    assert (ET : tab N T = map Some (fs a ++ fs b)).
    { symmetry. apply tab_eq_intro.
      - rewrite map_length, app_length. unfold qwf in *. rewrite Ha, Hb. unfold N. nia.
      - intros i Hi. rewrite nth_error_map. unfold T.
        destruct (nth_error (fs a ++ fs b) i) eqn:E2; auto.
        apply nth_error_None in E2. rewrite app_length in E2. unfold qwf in *. rewrite Ha, Hb in E2.
        unfold N in Hi; nia. }
    rewrite ET, freeze_map_Some. reflexivity.
  Qed.

  Lemma stackh_entry (a b : qma U) i j :
    qwf a -> qwf b -> nr a = nr b -> i < nr a -> j < nc a + nc b ->
    entry (mkq (nr a) (nc a + nc b) (fs a ++ fs b)) i j
    = if j <? nc a then entry a i j else entry b i (j - nc a).
  Proof.
    intros Ha Hb Hr Hi Hj. unfold entry; simpl. unfold qwf in *.
    destruct (Nat.ltb_spec j (nc a)).
    - rewrite nth_error_app1; auto. nia.
    - rewrite nth_error_app2 by nia. f_equal. rewrite Ha, <- Hr. nia.
  Qed.

  Lemma qmarray_stackv_ok (a b : qma U) :
    qwf a -> qwf b -> nc a = nc b ->
    exists c, qmarray_stackv a b = Ok c /\ nr c = nr a + nr b /\ nc c = nc a /\ qwf c /\
      forall i j, i < nr a + nr b -> j < nc a ->
        entry c i j = if i <? nr a then entry a i j else entry b (i - nr a) j.
  Proof.
    intros Ha Hb Hc. unfold qmarray_stackv, cassert. rewrite Hc, Nat.eqb_refl. simpl. rewrite <- Hc.
    set (cn := nr a + nr b).
    pose (E := fun i j => if i <? nr a then entry a i j else entry b (i - nr a) j).
    destruct (qma_build cn (nc a) E) as [r [Er [Wr Hr]]].
    { intros i j Hi Hj. unfold E. destruct (Nat.ltb_spec i (nr a)).
      - apply entry_some; auto.
      - apply entry_some; auto; unfold cn in Hi; lia. }
    set (T := fun k => E (k mod cn) (k / cn)) in *.
    erewrite (wrf_full T (cn * nc a)); [| |apply slots_len|].
    - simpl. rewrite Er. simpl. exists (mkq cn (nc a) r). repeat split; auto.
    - eapply wrf_for. intros jj Hj. eapply wrf_bind.
      + eapply wrf_for. intros ii Hi.
        destruct (entry_some a ii jj Ha Hi Hj) as [u Hu].
        eapply wrf_get; [apply aget_entry; exact Hu|].
        apply wrf_aset; [unfold cn; nia|]. unfold T.
        rewrite idx_mod, idx_div by (unfold cn; lia). unfold E.
        destruct (Nat.ltb_spec ii (nr a)); [auto|lia].
      + eapply wrf_for. intros ii Hi.
        destruct (entry_some b ii jj Hb Hi) as [u Hu]; [lia|].
        eapply wrf_get; [apply aget_entry; exact Hu|].
        apply wrf_aset; [unfold cn; nia|]. unfold T.
        replace (jj * cn + ii + nr a) with (jj * cn + (ii + nr a)) by lia.
        rewrite idx_mod, idx_div by (unfold cn; lia). unfold E.
        destruct (Nat.ltb_spec (ii + nr a) (nr a)); [lia|].
        replace (ii + nr a - nr a) with ii by lia. auto.
    - intros k Hk. cbv beta. rewrite Nat.mul_comm in Hk.
      destruct (idx_split k cn (nc a) Hk) as (j & i & Hj & Hi & ->).
      exists j; split; auto. destruct (Nat.lt_ge_cases i (nr a)).
      + left; exists i; split; auto.
      + right; exists (i - nr a); split; unfold cn in *; lia.
  Qed.

  Lemma qmarray_blockdiag_ok (a b : qma U) :
    qwf a -> qwf b -> 0 < nr a -> 0 < nc a ->
    exists c z, qmarray_blockdiag a b = Ok c /\ nr c = nr a + nr b /\ nc c = nc a + nc b /\ qwf c /\
      entry a 0 0 = Some z /\
      forall i j, i < nr a + nr b -> j < nc a + nc b ->
        entry c i j =
        if j <? nc a then (if i <? nr a then entry a i j else Some (uaxpby r0 z r0 None))
        else (if i <? nr a then Some (uaxpby r0 z r0 None) else entry b (i - nr a) (j - nc a)).
  Proof.
    intros Ha Hb Pr Pc. unfold qmarray_blockdiag.
    set (cn := nr a + nr b). set (cc := nc a + nc b).
    destruct (entry_some a 0 0 Ha Pr Pc) as [z Hz].
    assert (Az : aget (fs a) 0 = Ok z). { apply aget_entry in Hz. exact Hz. }
    pose (E := fun i j =>
        if j <? nc a then (if i <? nr a then entry a i j else Some (uaxpby r0 z r0 None))
        else (if i <? nr a then Some (uaxpby r0 z r0 None) else entry b (i - nr a) (j - nc a))).
    destruct (qma_build cn cc E) as [r [Er [Wr Hr]]].
    { intros i j Hi Hj. unfold E.
      destruct (Nat.ltb_spec j (nc a)), (Nat.ltb_spec i (nr a)); eauto.
      - apply entry_some; auto.
      - apply entry_some; auto; unfold cn, cc in *; lia. }
    set (T := fun k => E (k mod cn) (k / cn)) in *.
    match goal with |- context [obind (for_ (nc a) ?f ?s) (fun x => obind (@?g x) ?h)] =>
      assert (HF : (do x <- for_ (nc a) f s; g x) = Ok (tab (cn * cc) T)) end.
    { eapply (wrf_full T (cn * cc) _ (fun l => do x <- for_ (nc a) _ l; _ x));
        [|apply slots_len|].
      - eapply wrf_bind.
        + eapply wrf_for. intros jj Hj. eapply wrf_bind.
          * eapply wrf_for. intros ii Hi.
            destruct (entry_some a ii jj Ha Hi Hj) as [u Hu].
            eapply wrf_get; [apply aget_entry; exact Hu|].
            apply wrf_aset; [unfold cn, cc; nia|]. unfold T.
            rewrite idx_mod, idx_div by (unfold cn; lia). unfold E.
            destruct (Nat.ltb_spec jj (nc a)), (Nat.ltb_spec ii (nr a)); auto; lia.
          * eapply wrf_for. intros ii Hi.
            eapply wrf_get; [exact Az|].
            apply wrf_aset; [unfold cn, cc; nia|]. unfold T.
            replace (jj * cn + ii + nr a) with (jj * cn + (ii + nr a)) by lia.
            rewrite idx_mod, idx_div by (unfold cn; lia). unfold E.
            destruct (Nat.ltb_spec jj (nc a)), (Nat.ltb_spec (ii + nr a) (nr a)); auto; lia.
        + eapply wrf_for_from. intros jj Hj. eapply wrf_bind.
          * eapply wrf_for. intros ii Hi.
            eapply wrf_get; [exact Az|].
            apply wrf_aset; [unfold cn, cc in *; nia|]. unfold T.
            rewrite idx_mod, idx_div by (unfold cn; lia). unfold E.
            destruct (Nat.ltb_spec jj (nc a)), (Nat.ltb_spec ii (nr a)); auto; lia.
          * eapply wrf_for. intros ii Hi.
            destruct (entry_some b ii (jj - nc a) Hb Hi) as [u Hu]; [unfold cc in *; lia|].
            eapply wrf_get; [apply aget_entry; exact Hu|].
            apply wrf_aset; [unfold cn, cc in *; nia|]. unfold T.
            replace (jj * cn + ii + nr a) with (jj * cn + (ii + nr a)) by lia.
            rewrite idx_mod, idx_div by (unfold cn; lia). unfold E.
            destruct (Nat.ltb_spec jj (nc a)), (Nat.ltb_spec (ii + nr a) (nr a)); try lia.
            replace (ii + nr a - nr a) with ii by lia. auto.
      - intros k Hk. cbv beta. rewrite Nat.mul_comm in Hk.
        destruct (idx_split k cn cc Hk) as (j & i & Hj & Hi & ->).
        destruct (Nat.lt_ge_cases j (nc a)) as [Hja|Hja]; [left|right];
          (exists j; split; [unfold cc in *; lia|]);
          (destruct (Nat.lt_ge_cases i (nr a)); [left; exists i|right; exists (i - nr a)];
           split; unfold cn in *; lia). }
    match type of HF with (obind ?m _) = _ => destruct m as [f| | |] eqn:E1 end;
      simpl in HF |- *; try discriminate.
    rewrite HF. simpl. rewrite Er. simpl.
    exists (mkq cn cc r), z. repeat split; auto.
  Qed.

  Lemma qmarray_kron_ok (a b : qma U) :
    qwf a -> qwf b ->
    exists c, qmarray_kron a b = Ok c /\ nr c = nr a * nr b /\ nc c = nc a * nc b /\ qwf c /\
      forall ia ib ja jb f g, ia < nr a -> ib < nr b -> ja < nc a -> jb < nc b ->
        entry a ia ja = Some f -> entry b ib jb = Some g ->
        entry c (ia * nr b + ib) (ja * nc b + jb) = Some (uprod f g).
  Proof.
    intros Ha Hb. unfold qmarray_kron.
    set (cn := nr a * nr b). set (cc := nc a * nc b).
    pose (E := fun i j =>
       match entry a (i / nr b) (j / nc b), entry b (i mod nr b) (j mod nc b) with
       | Some f, Some g => Some (uprod f g) | _, _ => None end).
    assert (HE : forall ia ib ja jb f g, ia < nr a -> ib < nr b -> ja < nc a -> jb < nc b ->
        entry a ia ja = Some f -> entry b ib jb = Some g ->
        E (ia * nr b + ib) (ja * nc b + jb) = Some (uprod f g)).
    { intros ia ib ja jb f g H1 H2 H3 H4 Hf Hg. unfold E.
      rewrite !idx_div, !idx_mod by auto. now rewrite Hf, Hg. }
    destruct (qma_build cn cc E) as [r [Er [Wr Hr]]].
    { intros i j Hi Hj. unfold cn in Hi. unfold cc in Hj.
      destruct (idx_split i _ _ Hi) as (ia & ib & H1 & H2 & ->).
      destruct (idx_split j _ _ Hj) as (ja & jb & H3 & H4 & ->).
      destruct (entry_some a ia ja Ha H1 H3) as [f Hf].
      destruct (entry_some b ib jb Hb H2 H4) as [g Hg].
      exists (uprod f g). auto. }
    set (T := fun k => E (k mod cn) (k / cn)) in *.
    erewrite (wrf_full T (cn * cc)); [| |apply slots_len|].
    - simpl. rewrite Er. simpl. exists (mkq cn cc r). repeat split; auto.
      intros ia ib ja jb f g H1 H2 H3 H4 Hf Hg. rewrite Hr.
      + auto.
      + unfold cn; nia.
      + unfold cc; nia.
    - eapply wrf_for. intros ii Hi. eapply wrf_for. intros jj Hj.
      eapply wrf_for. intros kk Hk. eapply wrf_for. intros ll Hl.
      destruct (entry_some a jj ii Ha Hj Hi) as [f Hf].
      destruct (entry_some b ll kk Hb Hl Hk) as [g Hg].
      eapply wrf_get; [apply aget_entry; exact Hf|].
      eapply wrf_get; [apply aget_entry; exact Hg|].
      assert (Hrow : jj * nr b + ll < cn) by (unfold cn; nia).
      assert (Hcol : ii * nc b + kk < cc) by (unfold cc; nia).
      apply wrf_aset; [nia|]. unfold T.
      rewrite idx_mod, idx_div by auto. symmetry; auto.
    - intros k Hk. cbv beta. rewrite Nat.mul_comm in Hk.
      destruct (idx_split k cn cc Hk) as (j & i & Hj & Hi & ->).
      destruct (idx_split i _ _ Hi) as (ia & ib & H1 & H2 & ->).
      destruct (idx_split j _ _ Hj) as (ja & jb & H3 & H4 & ->).
      exists ja; split; auto. exists ia; split; auto. exists jb; split; auto.
      exists ib; split; auto.
  Qed.
End QmaFacts.
