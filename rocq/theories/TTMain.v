(** Tensor-train theorems in terms of the specification. *)
From Verif Require Export TTFacts.

Section TTMain.
  Context {R : CRing}.
  Open Scope cr_scope.
  Add Ring Rr16 : (rth R).

  Lemma tt_canon' (t : ttrain R) : tt_wf t ->
    exists r E, (forall k, 0 < r k) /\ r 0 = 1 /\ r (tt_dim t) = 1 /\
      (forall k, k <= tt_dim t -> rk t k = r k) /\ t = ttt (tt_dim t) (nv t) r E.
  Proof.
    intros Hw. destruct (tt_canon t Hw) as [E HE].
    destruct Hw as (Hd & Hn & Hr & Hc & R0 & Rd & H).
    exists (fun k => if k <=? tt_dim t then rk t k else 1), E. repeat split.
    - intros k. natcase. destruct (Nat.eq_dec k (tt_dim t)) as [->|]; [lia|]. apply (H k); lia.
    - exact R0.
    - now natcase.
    - intros k Hk. now natcase.
    - rewrite HE at 1. apply ttt_ext; auto. intros k Hk. now natcase.
  Qed.

  Lemma nv_tab (t : ttrain R) : tt_wf t -> tab (tt_dim t) (nv t) = tt_nvals t.
  Proof. intros (Hd & Hn & _). rewrite <- Hn. symmetry. apply list_eq_tab_nth. Qed.

  Lemma valid_vld (t : ttrain R) idx : tt_wf t -> valid_idx (tt_nvals t) idx -> vld (nv t) 0 (tt_dim t) idx.
  Proof. intros Hw H. unfold vld. change (map (nv t) (seq 0 (tt_dim t))) with (tab (tt_dim t) (nv t)). now rewrite nv_tab. Qed.

  (** two trains on the same grid *)
  Lemma tt_canon2 (a b : ttrain R) : tt_wf a -> tt_wf b -> tt_nvals a = tt_nvals b ->
    exists d n ra Ea rb Eb, 0 < d /\
      (forall k, 0 < ra k) /\ ra 0 = 1 /\ ra d = 1 /\ (forall k, k <= d -> rk a k = ra k) /\
      (forall k, 0 < rb k) /\ rb 0 = 1 /\ rb d = 1 /\ (forall k, k <= d -> rk b k = rb k) /\
      a = ttt d n ra Ea /\ b = ttt d n rb Eb.
  Proof.
    intros Ha Hb Hn. destruct (tt_canon' a Ha) as (ra & Ea & A1 & A2 & A3 & A4 & A5).
    destruct (tt_canon' b Hb) as (rb & Eb & B1 & B2 & B3 & B4 & B5).
    assert (Hd : tt_dim b = tt_dim a).
    { destruct Ha as (_ & L1 & _), Hb as (_ & L2 & _). congruence. }
    rewrite Hd in *.
    exists (tt_dim a), (nv a), ra, Ea, rb, Eb. repeat split; auto; try apply Ha.
    rewrite B5. unfold nv. now rewrite Hn.
  Qed.

  Lemma ttt_valid d n r (E : nat -> nat -> nat -> nat -> R) idx :
    valid_idx (tt_nvals (ttt d n r E)) idx -> vld n 0 d idx.
  Proof. auto. Qed.

  Lemma ttadd_spec (a b : ttrain R) :
    tt_wf a -> tt_wf b -> tt_nvals a = tt_nvals b -> 2 <= tt_dim a ->
    exists c, ttadd a b = Ok c /\ tt_wf c /\ tt_nvals c = tt_nvals a /\
      (forall k, 0 < k -> k < tt_dim a -> rk c k = rk a k + rk b k) /\
      forall idx, valid_idx (tt_nvals a) idx -> tt_value c idx = tt_value a idx +! tt_value b idx.
  Proof.
    intros Ha Hb Hn Hd.
    destruct (tt_canon2 a b Ha Hb Hn) as (d & n & ra & Ea & rb & Eb & D0 & A1 & A2 & A3 & A4 & B1 & B2 & B3 & B4 & -> & ->).
    simpl in Hd. exists (ttt d n (radd d ra rb) (eadd d ra rb Ea Eb)). split; [now apply ttadd_ok|]. split.
    - apply ttt_wf; auto; unfold radd; natcase; auto. intros k Hk. specialize (A1 k). natcase.
    - split; [reflexivity|]. split.
      + intros k K0 K. simpl in K. rewrite A4, B4 by lia. unfold rk. simpl. rewrite nth_tab by lia.
        unfold radd. natcase.
      + intros idx Hi. rewrite !ttt_value. apply ps_add_0; auto.
  Qed.

  Lemma ttmult_spec (a b : ttrain R) :
    tt_wf a -> tt_wf b -> tt_nvals a = tt_nvals b ->
    exists c, ttmult a b = Ok c /\ tt_wf c /\ tt_nvals c = tt_nvals a /\
      (forall k, k <= tt_dim a -> rk c k = rk a k * rk b k) /\
      forall idx, valid_idx (tt_nvals a) idx -> tt_value c idx = tt_value a idx *! tt_value b idx.
  Proof.
    intros Ha Hb Hn.
    destruct (tt_canon2 a b Ha Hb Hn) as (d & n & ra & Ea & rb & Eb & D0 & A1 & A2 & A3 & A4 & B1 & B2 & B3 & B4 & -> & ->).
    eexists. split; [now apply ttmult_ok|]. split.
    - apply ttt_wf; auto; rewrite ?A2, ?B2, ?A3, ?B3; auto. intros k Hk. specialize (A1 k). specialize (B1 k). nia.
    - split; [reflexivity|]. split.
      + intros k K. simpl in K. rewrite A4, B4 by lia. unfold rk. simpl. rewrite nth_tab by lia. reflexivity.
      + intros idx Hi. rewrite !ttt_value.
        rewrite <- (ps_mult n ra Ea rb Eb d 0 idx 0 0); auto.
  Qed.

  Lemma ttscal_spec (a : ttrain R) s :
    tt_wf a ->
    exists c, ttscal a s = Ok c /\ tt_wf c /\ tt_nvals c = tt_nvals a /\ tt_ranks c = tt_ranks a /\
      forall idx, valid_idx (tt_nvals a) idx -> tt_value c idx = s *! tt_value a idx.
  Proof.
    intros Ha. destruct (tt_canon' a Ha) as (r & E & A1 & A2 & A3 & A4 & A5).
    assert (D0 : 0 < tt_dim a) by apply Ha. remember (tt_dim a) as d. remember (nv a) as n. rewrite A5.
    eexists. split; [now apply ttscal_ok|]. split; [now apply ttt_wf|]. split; [reflexivity|]. split; [reflexivity|].
    intros idx Hi. rewrite !ttt_value. destruct d as [|m]; [lia|].
    apply (ps_shift_scale n r E); auto. intros k' i e j Hk. natcase. reflexivity.
  Qed.

  Lemma copy_tt_spec (a : ttrain R) : tt_wf a -> copy_tt a = Ok a.
  Proof.
    intros Ha. destruct (tt_canon' a Ha) as (r & E & A1 & A2 & A3 & A4 & A5). rewrite A5. apply copy_tt_ok.
  Qed.

  Lemma tt_ones_spec (ns : list nat) :
    0 < length ns ->
    exists c, tt_ones (R := R) (length ns) ns = Ok c /\ tt_wf c /\ tt_nvals c = ns /\
      forall idx, valid_idx ns idx -> tt_value c idx = (r1 : R).
  Proof.
    intros Hd. assert (EN := list_eq_tab_nth 0 ns). set (d := length ns) in *.
    exists (ttt d (fun i => nth i ns 0) (fun _ => 1) (fun _ _ _ _ => r1)).
    split; [rewrite EN at 1; apply tt_ones_ok|]. split; [apply ttt_wf; auto|]. split; [symmetry; exact EN|].
    intros idx Hi. rewrite ttt_value. apply ps_ones. unfold vld.
    change (map (fun i => nth i ns 0) (seq 0 d)) with (tab d (fun i => nth i ns 0)). now rewrite <- EN.
  Qed.

  Lemma ttelem_spec (t : ttrain R) idx :
    tt_wf t -> 2 <= tt_dim t -> (forall k, 2 <= k -> k < tt_dim t - 1 -> nv t k = nv t 1) ->
    valid_idx (tt_nvals t) idx ->
    ttelem t idx = Ok (tt_value t idx).
  Proof.
    intros Ha Hd Hk Hi. destruct (tt_canon' t Ha) as (r & E & A1 & A2 & A3 & A4 & A5).
    apply valid_vld in Hi; auto. remember (tt_dim t) as d. remember (nv t) as n.
    rewrite A5, ttt_value. now apply ttelem_ok.
  Qed.

  Lemma tt_dot_spec (a b : ttrain R) :
    tt_wf a -> tt_wf b -> tt_nvals a = tt_nvals b ->
    (forall k, 2 <= k -> k < tt_dim a -> rk a k = rk b k) ->
    tt_dot a b = Ok (msum (tt_nvals a) (fun idx => tt_value a idx *! tt_value b idx)).
  Proof.
    intros Ha Hb Hn Hk.
    destruct (tt_canon2 a b Ha Hb Hn) as (d & n & ra & Ea & rb & Eb & D0 & A1 & A2 & A3 & A4 & B1 & B2 & B3 & B4 & -> & ->).
    apply tt_dot_ok; auto. intros k K1 K2. rewrite <- A4, <- B4 by lia. auto.
  Qed.

  Lemma tt_integrate_spec (t : ttrain R) (w : list (list R)) :
    tt_wf t -> length w = tt_dim t -> (forall k, k < tt_dim t -> nv t k <= length (nth k w [])) ->
    tt_integrate t w = Ok (msum (tt_nvals t) (fun idx => wprod w idx *! tt_value t idx)).
  Proof.
    intros Ha Hw Hk. destruct (tt_canon' t Ha) as (r & E & A1 & A2 & A3 & A4 & A5).
    assert (D0 : 0 < tt_dim t) by apply Ha. remember (tt_dim t) as d. remember (nv t) as n.
    rewrite A5. assert (EW : w = tab d (fun k => nth k w [])) by (rewrite <- Hw; apply list_eq_tab_nth).
    pose proof (tt_integrate_ok d n r E (fun k => nth k w []) D0 A2 A3 A1 Hk) as H.
    rewrite <- EW in H. exact H.
  Qed.

  (** three-way tensors *)
  Lemma copy3_id (t : tensor R) n0 n1 n2 : t3wf t n0 n1 n2 -> copy3 t false = Ok t.
  Proof. intros (H1 & H2 & H3). rewrite (mk3_canon t n0 n1 n2) at 1 2; auto. apply copy3_ok. Qed.

  Lemma copy3_tr (t : tensor R) n0 n1 n2 :
    t3wf t n0 n1 n2 ->
    exists c, copy3 t true = Ok c /\ t_dim c = 3 /\ t_nvals c = [n0; n1; n2] /\
      length (t_vals c) = n0 * n1 * n2 /\
      forall i j k, i < n2 -> j < n1 -> k < n0 ->
        nth (i + j * n2 + k * n2 * n1) (t_vals c) r0 = tent t k j i.
  Proof.
    intros (H1 & H2 & H3). remember (tent t) as f. rewrite (mk3_canon t n0 n1 n2) by auto. rewrite <- Heqf.
    rewrite copy3_transposed. eexists. split; [reflexivity|]. simpl. split; [reflexivity|]. split; [reflexivity|].
    split; [rewrite v3_length; lia|]. intros i j k Hi Hj Hk. apply nth_error_nth. now rewrite v3_get by auto.
  Qed.

  Lemma copy3_tr_square (t : tensor R) n n1 :
    t3wf t n n1 n ->
    exists c, copy3 t true = Ok c /\ t3wf c n n1 n /\
      forall i j k, i < n -> j < n1 -> k < n -> tent c i j k = tent t k j i.
  Proof.
    intros H. destruct (copy3_tr t n n1 n H) as (c & E & H1 & H2 & H3 & H4). exists c. split; auto.
    split; [now repeat split|]. intros i j k Hi Hj Hk. unfold tent at 1. rewrite H2. cbn [nth]. now apply H4.
  Qed.
End TTMain.
