(** The entries of the Hessian: hess_ij multiplies the chain in which two matrices
    are replaced by multiples of unit matrices. *)
From Verif Require Export HessModel PGradApp.

Section HessIj.
  Context {R : CRing}.
  Open Scope cr_scope.
  Add Ring Rr39 : (rth R).

  Lemma vec_mat_ok n m vec mat moff out (T : nat -> R) (A : nat -> nat -> R) :
    pre vec n T -> m <= length out ->
    (forall i j, i < n -> j < m -> nth_error mat (moff + (i + j * n)) = Some (A i j)) ->
    exists out', vec_mat n m vec mat moff out = Ok out' /\ length out' = length out /\
      pre out' m (fun j => sum n (fun i => A i j *! T i)).
  Proof.
    intros HT Ho HA. unfold vec_mat.
    match goal with |- context [for_ m ?B out] =>
      destruct (for_inv (fun j o => length o = length out /\ pre o j (fun j => sum n (fun i => A i j *! T i))) B m out) as (o & E & H) end.
    - split; [reflexivity|]. intros i Hi. lia.
    - intros j o Hj (L & P). rewrite aset_ok by lia. cbn [obind].
      match goal with |- context [for_ n ?B ?s] =>
        destruct (for_inv (fun i o' => length o' = length out /\ pre o' j (fun j => sum n (fun i => A i j *! T i)) /\
           nth_error o' j = Some (sum i (fun i => A i j *! T i))) B n s) as (o' & E & L' & P' & V) end.
      + rewrite upd_length. split; [exact L|]. split; [now apply pre_upd|]. rewrite nth_error_upd_same by lia. reflexivity.
      + intros i o' Hi (L' & P' & V). rewrite (aget_ok _ _ _ V). cbn [obind].
        rewrite (aget_ok _ _ _ (HT i Hi)). cbn [obind]. rewrite (aget_ok _ _ _ (HA i j Hi Hj)). cbn [obind].
        rewrite aset_ok by lia. eexists. split; [reflexivity|]. rewrite upd_length. split; [exact L'|]. split; [now apply pre_upd|].
        rewrite nth_error_upd_same by lia. cbn [sum]. f_equal. ring.
      + exists o'. split; [exact E|]. split; [exact L'|]. now apply pre_snoc.
    - exists o. split; [exact E|exact H].
  Qed.

  Lemma hess_pick_ok n col (v : R) lev : n <= length lev ->
    exists lev', hess_pick n col v lev = Ok lev' /\ length lev' = length lev /\ pre lev' n (fun j => if j =? col then v else r0).
  Proof.
    intros L. unfold hess_pick. rewrite (fill1 (fun ii => if ii =? col then v else r0)) by auto. eexists. split; [reflexivity|].
    rewrite app_length, tab_length, skipn_length. split; [lia|]. intros i Hi. rewrite nth_error_app1 by (rewrite tab_length; lia). now apply nth_error_tab.
  Qed.

  Variables (d : nat) (r : nat -> nat) (ranks : list nat) (M : nat -> nat -> nat -> R) (evals : list R) (mr : nat).
  Let EO := offs (fun q => r q * r (S q)).
  Hypothesis Hr0 : r 0 = 1.
  Hypothesis Hrk : forall k, k <= d -> aget ranks k = Ok (r k).
  Hypothesis Hmr : forall k, k <= d -> r k <= mr.
  Hypothesis Hev : forall k i j, k < d -> i < r k -> j < r (S k) -> nth_error evals (EO k + (j * r k + i)) = Some (M k i j).

  (** The cores [lo], ..., [lo + n - 1] of the chain [M'] are those of [M] *)
  Lemma hess_cores_ok (M' : nat -> nat -> nat -> R) lo n lev space : 1 <= lo -> lo + n <= d ->
    (forall k i j, lo <= k < lo + n -> i < r k -> j < r (S k) -> M' k i j = M k i j) ->
    length lev = mr -> length space = mr -> pre lev (r lo) (fw r M' lo) ->
    exists lev' space', hess_cores ranks evals lo n (lev, space, EO lo) = Ok (lev', space', EO (lo + n)) /\
      length lev' = mr /\ length space' = mr /\ pre lev' (r (lo + n)) (fw r M' (lo + n)).
  Proof.
    intros Hlo Hn HM L1 L2 P. unfold hess_cores.
    match goal with |- context [for_from lo n ?B ?s9] =>
      destruct (for_from_inv (fun k (s : list R * list R * nat) => let '(lev, space, e) := s in
         length lev = mr /\ length space = mr /\ e = EO k /\ pre lev (r k) (fw r M' k)) B lo n s9) as (s' & E & H) end.
    - repeat (split; auto).
    - intros k [[l s] e] Hk (La & Lb & -> & Pk). rewrite Nat.add_1_r, !Hrk by lia. cbn [obind].
      destruct (vec_mat_ok (r k) (r (S k)) l evals (EO k) s (fw r M' k) (M' k)) as (s' & E & Ls & Ps); auto.
      { rewrite Lb. apply Hmr. lia. }
      { intros i j Hi Hj. rewrite HM by (auto; lia). rewrite <- Hev by (auto; lia). f_equal. lia. }
      rewrite E. cbn [obind].
      assert (S1 : r (S k) <= mr) by (apply Hmr; lia).
      rewrite blit_ok by lia. cbn [obind skipn]. eexists. split; [reflexivity|]. cbv beta iota.
      assert (Lf : length (firstn (r (S k)) s') = r (S k)) by (rewrite firstn_length; lia).
      split; [rewrite splice_length; lia|]. split; [lia|]. split; [reflexivity|].
      intros i Hi. rewrite nth_error_splice by lia. rewrite Lf. cbn [Nat.leb andb]. destruct (Nat.ltb_spec i (0 + r (S k))); [|lia].
      rewrite Nat.sub_0_r, nth_error_firstn by lia. now apply Ps.
    - destruct s' as [[l s] e]. destruct H as (La & Lb & -> & Pk). exists l, s. repeat (split; auto).
  Qed.

  (** The chain with the matrices [k1] and [k2] exchanged *)
  Definition unit_at (i j : nat) (g : R) (i' j' : nat) : R := if (i' =? i) && (j' =? j) then g else r0.
  Definition chain2 k1 i1 j1 g1 k2 i2 j2 g2 := repl (repl M k1 (unit_at i1 j1 g1)) k2 (unit_at i2 j2 g2).

  Lemma pick_fw (M' : nat -> nat -> nat -> R) k i j g : i < r k -> (forall i' j', M' k i' j' = unit_at i j g i' j') ->
    forall j', fw r M' (S k) j' = if j' =? j then fw r M' k i *! g else r0.
  Proof.
    intros Hi HM j'. cbn [fw]. rewrite (sum_ext R (r k) _ (fun i' => if i' =? i then (if j' =? j then fw r M' k i *! g else r0) else r0)).
    - rewrite (sum_single R _ _ i Hi); [now rewrite Nat.eqb_refl|]. intros i' _ N. destruct (Nat.eqb_spec i' i); [contradiction|reflexivity].
    - intros i' Hi'. rewrite HM. unfold unit_at. destruct (Nat.eqb_spec i' i) as [->|]; cbn [andb]; [destruct (j' =? j)|]; ring.
  Qed.

  Lemma hess_ij_ok k1 i1 j1 g1 k2 i2 j2 g2 : k1 < k2 -> k2 < d ->
    i1 < r k1 -> j1 < r (S k1) -> i2 < r k2 -> j2 < r (S k2) -> r d = 1 ->
    hess_ij d k1 k2 i1 j1 i2 j2 evals g1 g2 mr ranks = Ok (fw r (chain2 k1 i1 j1 g1 k2 i2 j2 g2) d 0).
  Proof.
    intros K12 K2 I1 J1 I2 J2 Hrd. unfold hess_ij. destruct (Nat.ltb_spec k1 k2); [|lia]. cbn [cassert obind].
    rewrite Hrk by lia. cbn [obind]. set (M' := chain2 k1 i1 j1 g1 k2 i2 j2 g2).
    assert (HM : forall k i j, k <> k1 -> k <> k2 -> M' k i j = M k i j).
    { intros k i j N1 N2. unfold M', chain2, repl. destruct (Nat.eqb_spec k k2); [contradiction|]. destruct (Nat.eqb_spec k k1); [contradiction|]. reflexivity. }
    assert (H1 : forall i j, M' k1 i j = unit_at i1 j1 g1 i j).
    { intros i j. unfold M', chain2, repl. destruct (Nat.eqb_spec k1 k2); [lia|]. now rewrite Nat.eqb_refl. }
    assert (H2 : forall i j, M' k2 i j = unit_at i2 j2 g2 i j).
    { intros i j. unfold M', chain2, repl. now rewrite Nat.eqb_refl. }
    clearbody M'.
    match goal with |- context [if 0 <? k1 then ?A else ?B] =>
      assert (S1 : exists lev space, (if 0 <? k1 then A else B) = Ok (lev, space, EO (S k1)) /\ length lev = mr /\ length space = mr /\ pre lev (r (S k1)) (fw r M' (S k1))) end.
    { assert (L1 : length (repeat (r0 (c := R)) mr) = mr) by apply repeat_length.
      assert (R1 : r 1 <= mr) by (apply Hmr; lia). assert (RS : r (S k1) <= mr) by (apply Hmr; lia).
      destruct (Nat.ltb_spec 0 k1) as [P|Z].
      - assert (E1 : for_ (r 1) (fun ii lev => do e <- aget evals ii; aset lev ii e) (repeat r0 mr)
                     = for_ (r 1) (fun ii lev => aset lev ii (M 0 0 ii)) (repeat r0 mr)).
        { apply for_ext. intros i s Hi. assert (E := Hev 0 0 i ltac:(lia) ltac:(lia) Hi). rewrite Hr0 in E. cbn [offs EO Nat.add] in E.
          change (EO 0) with 0 in E. rewrite Nat.mul_1_r, Nat.add_0_r in E. cbn [Nat.add] in E. rewrite (aget_ok _ _ _ E). reflexivity. }
        rewrite E1, fill1 by lia. cbn [obind].
        destruct (hess_cores_ok M' 1 (k1 - 1) (tab (r 1) (M 0 0) ++ skipn (r 1) (repeat r0 mr)) (repeat r0 mr)) as (l & s & E & La & Lb & P1); auto; try lia.
        { intros k i j Hk _ _. apply HM; lia. }
        { rewrite app_length, tab_length, skipn_length. lia. }
        { intros i Hi. rewrite nth_error_app1 by (rewrite tab_length; lia). rewrite nth_error_tab by auto. f_equal.
          cbn [fw]. rewrite Hr0, sum_1. rewrite HM by lia. ring. }
        change (EO 1) with (0 + r 0 * r 1) in E. rewrite Hr0, Nat.mul_1_l, Nat.add_0_l in E. rewrite E. cbn [obind].
        replace (1 + (k1 - 1)) with k1 in * by lia.
        rewrite (aget_ok _ _ _ (P1 i1 I1)). cbn [obind]. rewrite Hrk by lia. cbn [obind]. rewrite Nat.add_1_r, Hrk by lia. cbn [obind].
        destruct (hess_pick_ok (r (S k1)) j1 (fw r M' k1 i1 *! g1) l) as (l' & -> & Ll & Pl); [lia|]. cbn [obind].
        exists l', s. split; [reflexivity|]. split; [lia|]. split; [lia|]. intros j Hj. rewrite (pick_fw M' k1 i1 j1 g1 I1 H1). now apply Pl.
      - assert (k1 = 0) by lia. subst k1. rewrite aset_ok by lia. cbn [obind]. eexists _, _. split.
        + do 2 f_equal. change (EO 1) with (0 + r 0 * r 1). rewrite Hr0. lia.
        + rewrite upd_length. split; [lia|]. split; [lia|]. intros j Hj. rewrite (pick_fw M' 0 i1 j1 g1 I1 H1).
          destruct (Nat.eqb_spec j j1) as [->|N].
          * rewrite nth_error_upd_same by lia. cbn [fw]. f_equal. ring.
          * rewrite nth_error_upd_other by auto. apply nth_error_repeat. lia. }
    destruct S1 as (lev & space & -> & La & Lb & P1). cbn [obind]. rewrite !Nat.add_1_r.
    destruct (hess_cores_ok M' (S k1) (k2 - S k1) lev space) as (lev2 & sp2 & E & La2 & Lb2 & P2); auto; try lia.
    { intros k i j Hk _ _. apply HM; lia. }
    rewrite E. cbn [obind]. replace (S k1 + (k2 - S k1)) with k2 in * by lia.
    rewrite (aget_ok _ _ _ (P2 i2 I2)). cbn [obind]. rewrite !Hrk by lia. cbn [obind].
    assert (RS : r (S k2) <= mr) by (apply Hmr; lia).
    destruct (hess_pick_ok (r (S k2)) j2 (fw r M' k2 i2 *! g2) lev2) as (l3 & -> & L3 & P3); [lia|]. cbn [obind].
    change (EO k2 + r k2 * r (S k2)) with (EO (S k2)).
    destruct (hess_cores_ok M' (S k2) (d - S k2) l3 sp2) as (lev4 & sp4 & E4 & La4 & Lb4 & P4); auto; try lia.
    { intros k i j Hk _ _. apply HM; lia. }
    { intros j Hj. rewrite (pick_fw M' k2 i2 j2 g2 I2 H2). now apply P3. }
    rewrite E4. cbn [obind]. replace (S k2 + (d - S k2)) with d in * by lia. apply aget_ok, P4. lia.
  Qed.
End HessIj.
