(** Proofs about matching two piecewise functions and the operations that use it. *)
From Coq Require Import Reals Lra Lia.
From Verif Require Import Base BaseFacts FOps PwModel PwSpec PwFacts.
Open Scope R_scope.

(** increasing from p (excluded) to v (the last) *)
Fixpoint up (p : R) (ls : list R) (v : R) : Prop :=
  match ls with nil => p = v | a :: r => p < a /\ up a r v end.

Lemma up_le p ls v : up p ls v -> p <= v /\ forall x, In x ls -> p < x <= v.
Proof.
  revert p; induction ls as [|a r IH]; simpl; intros p; [intros ->; split; [lra|intros x []]|].
  intros [H1 H2]. destruct (IH _ H2) as [H3 H4]. split; [lra|]. intros x [<-|Hx]; [lra|]. specialize (H4 x Hx). lra.
Qed.
Lemma up_last p ls v : up p ls v -> p < v -> In v ls.
Proof.
  revert p; induction ls as [|a r IH]; simpl; intros p; [intros ->; lra|].
  intros [H1 H2] _. destruct (up_le _ _ _ H2) as [[H|H] _]; [right; eauto|left; auto].
Qed.

Section Match.
  Context {L : Type} (K : leafops L) (tm ts eps junk : R).
  Notation lb := (l_lb K).
  Notation ub := (l_ub K).
  Context (Heps : 0 < eps) (Hts : 0 <= ts).

  Lemma Rleb_t a b : a <= b -> Rleb a b = true. Proof. unfold Rleb. destruct (Rle_dec a b); auto; lra. Qed.
  Lemma Rleb_f a b : b < a -> Rleb a b = false. Proof. unfold Rleb. destruct (Rle_dec a b); auto; lra. Qed.

  Lemma nth_error_skipn0 {A} (l : list A) i a r : skipn i l = a :: r -> nth_error l i = Some a /\ skipn (i + 1) l = r.
  Proof.
    revert l; induction i as [|i IH]; intros [|b l]; simpl; try discriminate.
    - intros E; injection E as -> ->; auto.
    - apply IH.
  Qed.

  Lemma merge_ok fuel : forall na nb v done z inda indb p ra rb,
    skipn inda na = ra -> skipn indb nb = rb -> up p ra v -> up p rb v ->
    (forall x y, In x ra -> In y rb -> x = y \/ eps <= Rabs (x - y)) ->
    (length ra + length rb < fuel)%nat -> (length ra + length rb <= length z)%nat ->
    exists m z', merge_nodes eps fuel na nb v ((done ++ p :: nil) ++ z) inda indb (length done + 1) = Ok ((done ++ p :: m) ++ z', (length done + 1 + length m)%nat)
      /\ up p m v /\ forall x, In x m <-> In x ra \/ In x rb.
  Proof.
    induction fuel as [|fuel IH]; intros na nb v done z inda indb p ra rb Ea Eb Ua Ub Hsep Hf Hz; [lia|].
    cbn [merge_nodes].
    rewrite (aget_ok _ _ p).
    2:{ rewrite nth_error_app1 by (rewrite app_length; simpl; lia). rewrite nth_error_app2 by lia.
        replace (length done + 1 - 1 - length done)%nat with 0%nat by lia. reflexivity. }
    cbn [obind]. destruct ra as [|a ra].
    { simpl in Ua. subst v. destruct rb as [|b rb]; [|simpl in Ub; destruct Ub as [H1 H2]; apply up_le in H2; lra].
      rewrite Rltb_f by lra. exists nil, z. rewrite Nat.add_0_r. repeat split; auto. intros [[]|[]]. }
    destruct rb as [|b rb]; [simpl in Ub; subst v; simpl in Ua; destruct Ua as [H1 H2]; apply up_le in H2; lra|].
    simpl in Ua, Ub. destruct Ua as [Ua1 Ua2], Ub as [Ub1 Ub2].
    pose proof (proj1 (up_le _ _ _ Ua2)) as Hav. pose proof (proj1 (up_le _ _ _ Ub2)) as Hbv.
    rewrite Rltb_t by lra.
    destruct (nth_error_skipn0 _ _ _ _ Ea) as [Na Sa]. destruct (nth_error_skipn0 _ _ _ _ Eb) as [Nb Sb].
    rewrite (aget_ok _ _ _ Na), (aget_ok _ _ _ Nb). cbn [obind].
    destruct z as [|z0 z]; [simpl in Hz; lia|].
    assert (Hset : forall c, aset ((done ++ p :: nil) ++ z0 :: z) (length done + 1) c = Ok ((((done ++ p :: nil) ++ c :: nil)) ++ z)).
    { intros c. rewrite aset_ok by (rewrite !app_length; simpl; lia). f_equal.
      replace (length done + 1)%nat with (length (done ++ p :: nil) + 0)%nat by (rewrite app_length; simpl; lia).
      rewrite upd_app_r. simpl. rewrite <- (app_assoc _ (c :: nil)). reflexivity. }
    assert (Hlen : (length done + 1 + 1)%nat = (length (done ++ p :: nil) + 1)%nat) by (rewrite app_length; simpl; lia).
    assert (Hfin : forall c m z' , ((done ++ p :: nil) ++ c :: m) ++ z' = (done ++ p :: c :: m) ++ z') by (intros; rewrite <- !app_assoc; reflexivity).
    simpl in Hf, Hz.
    destruct (Rtotal_order a b) as [Hab|[Hab|Hab]].
    - (* a < b *)
      destruct (Hsep a b (or_introl eq_refl) (or_introl eq_refl)) as [?|Hs]; [lra|].
      rewrite Rleb_t by lra. rewrite Hset. cbn [obind].
      rewrite Rltb_f by (rewrite Rabs_minus_sym; lra). rewrite (Rltb_f b a) by lra. rewrite Rltb_t by lra.
      rewrite Hlen.
      destruct (IH na nb v (done ++ p :: nil) z (inda + 1)%nat indb a ra (b :: rb)) as (m & z' & E & Um & Hin); auto.
      + simpl; auto.
      + intros x y Hx Hy. apply Hsep; auto; right; auto.
      + simpl; lia.
      + simpl; lia.
      + exists (a :: m), z'. rewrite E, Hfin. split; [f_equal; f_equal; rewrite app_length; simpl; lia|]. split; [simpl; auto|].
        intros x. specialize (Hin x). simpl in *. tauto.
    - subst b.
      rewrite Rleb_t by lra. rewrite Hset. cbn [obind].
      rewrite Rltb_t by (rewrite Rminus_diag_eq, Rabs_R0 by auto; lra). rewrite Hlen.
      destruct (IH na nb v (done ++ p :: nil) z (inda + 1)%nat (indb + 1)%nat a ra rb) as (m & z' & E & Um & Hin); auto.
      + intros x y Hx Hy. apply Hsep; right; auto.
      + lia.
      + lia.
      + exists (a :: m), z'. rewrite E, Hfin. split; [f_equal; f_equal; rewrite app_length; simpl; lia|]. split; [simpl; auto|].
        intros x. specialize (Hin x). simpl in *. tauto.
    - destruct (Hsep a b (or_introl eq_refl) (or_introl eq_refl)) as [?|Hs]; [lra|].
      rewrite Rleb_f by lra. rewrite (Rltb_t b a) by lra. rewrite Hset. cbn [obind].
      rewrite Rltb_f by (rewrite Rabs_minus_sym; lra). rewrite Hlen.
      destruct (IH na nb v (done ++ p :: nil) z inda (indb + 1)%nat b (a :: ra) rb) as (m & z' & E & Um & Hin); auto.
      + simpl; auto.
      + intros x y Hx Hy. apply Hsep; auto; right; auto.
      + simpl; lia.
      + simpl; lia.
      + exists (b :: m), z'. rewrite E, Hfin. split; [f_equal; f_equal; rewrite app_length; simpl; lia|]. split; [simpl; auto|].
        intros x. specialize (Hin x). simpl in *. tauto.
  Qed.

  (** comparison of the nodes *)
  Lemma same_ok na : forall nb, length na = length nb -> exists b, nodes_same ts na nb = Ok b /\
    (b = true <-> Forall2 (fun u v => Rabs (u - v) <= ts) na nb).
  Proof.
    intros nb Hl. unfold nodes_same.
    destruct (for_inv (fun i b => b = true <-> Forall2 (fun u v => Rabs (u - v) <= ts) (firstn i na) (firstn i nb))
      (fun ii (same : bool) => if same then do u <- aget na ii; do v <- aget nb ii; Ok (negb (Rltb ts (Rabs (u - v)))) else Ok false) (length na) true) as (b & E & H).
    - simpl. split; auto.
    - intros i b Hi Hb.
      assert (Hex : exists u v, nth_error na i = Some u /\ nth_error nb i = Some v).
      { destruct (nth_error na i) as [u|] eqn:E1; [|apply nth_error_None in E1; lia].
        destruct (nth_error nb i) as [v|] eqn:E2; [eauto|apply nth_error_None in E2; lia]. }
      destruct Hex as (u & v & Eu & Ev).
      assert (F : forall l (w : R), nth_error l i = Some w -> firstn (S i) l = firstn i l ++ w :: nil).
      { clear. intros l w. revert l; induction i as [|i IH]; intros [|a l]; simpl; try discriminate; [intros E; injection E as ->; auto|].
        intros E. f_equal. apply (IH _ E). }
      rewrite (F _ _ Eu), (F _ _ Ev).
      destruct b.
      + rewrite (aget_ok _ _ _ Eu), (aget_ok _ _ _ Ev). cbn [obind]. eexists; split; [reflexivity|].
        split; intros H.
        * apply Forall2_app; [apply Hb; auto|]. constructor; auto.
          destruct (Rltb_spec ts (Rabs (u - v))); [discriminate|lra].
        * apply Forall2_app_inv_l in H. destruct H as (l1 & l2 & H1 & H2 & E).
          inversion H2; subst. match goal with H : Forall2 _ nil _ |- _ => inversion H; subst end.
          apply app_inj_tail in E. destruct E as [E1 E2]; subst. rewrite Rltb_f by auto. reflexivity.
      + exists false. split; auto. split; [discriminate|]. intros H. apply Hb.
        apply Forall2_app_inv_l in H. destruct H as (l1 & l2 & H1 & H2 & E).
        inversion H2; subst. match goal with H : Forall2 _ nil _ |- _ => inversion H; subst end.
        apply app_inj_tail in E. destruct E as [E1 E2]; subst. auto.
    - rewrite !firstn_all2 in H by lia. eauto.
  Qed.

  Lemma tiles_up u ls v : tiles lb ub u ls v -> up u (map ub ls) v.
  Proof. revert u; induction ls as [|l r IH]; simpl; intros u; auto. intros (<- & H1 & H2). auto. Qed.

  (** the piece that covers an interval of a finer grid *)
  Lemma cover u ls v m pre c d post : tiles lb ub u ls v -> up u m v -> (forall x, In x (map ub ls) -> In x m) ->
    u :: m = pre ++ c :: d :: post ->
    exists l1 l l2, ls = l1 ++ l :: l2 /\ (forall k, In k l1 -> ub k <= c) /\ lb l <= c /\ c < d <= ub l.
  Proof.
    intros Ht Hup Hsub E.
    assert (Hcd : u <= c /\ c < d <= v /\ forall x, In x m -> c < x -> d <= x).
    { clear - E Hup. revert u m Hup E. induction pre as [|p0 pre IH]; intros u m Hup E; simpl in E.
      - injection E as -> ->. simpl in Hup. destruct Hup as [H1 H2]. destruct (up_le _ _ _ H2) as [H3 H4].
        repeat split; try lra. intros x [<-|Hx]; [lra|]. specialize (H4 x Hx). lra.
      - injection E as -> E. destruct m as [|a m]; [destruct pre; discriminate|].
        simpl in Hup. destruct Hup as [H1 H2]. destruct (IH a m H2 E) as (I1 & I2 & I3).
        repeat split; try lra. intros x [<-|Hx] Hc; [lra|]. apply I3; auto. }
    destruct Hcd as (Huc & Hcd & Hnext).
    assert (Hd : forall x, In x (map ub ls) -> c < x -> d <= x) by auto.
    clear - Ht Huc Hcd Hd. revert u Ht Huc. induction ls as [|l r IH]; simpl; intros u Ht Huc; [subst; lra|].
    destruct Ht as (<- & H1 & H2).
    destruct (Rlt_le_dec c (ub l)) as [Hc|Hc].
    - exists nil, l, r. repeat split; try lra; auto; [intros k []|]. apply Hd; [left; auto|auto].
    - destruct (IH) with (u := ub l) as (l1 & k & l2 & E & G1 & G2 & G3); auto.
      { intros x Hx Hcx. apply Hd; simpl; auto. }
      exists (l :: l1), k, l2. subst r. repeat split; try lra. intros k' [<-|Hk]; auto.
  Qed.
End Match.
