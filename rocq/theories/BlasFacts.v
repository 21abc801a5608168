From Verif Require Export Blas Fill.

Section BlasFacts.
  Context {R : CRing}.
  Open Scope cr_scope.

  (** The first [n] entries of [l] are [f 0 .. f (n-1)]. *)
  Definition pre (l : list R) (n : nat) (f : nat -> R) : Prop :=
    forall i, i < n -> nth_error l i = Some (f i).

  Lemma pre_len l n f : pre l n f -> n <= length l.
  Proof.
    intros H. destruct n as [|n]; [lia|].
    assert (Hn : n < S n) by lia. specialize (H n Hn).
    assert (nth_error l n <> None) as HN by congruence. apply nth_error_Some in HN. lia.
  Qed.

  Lemma pre_tab n f : pre (tab n f) n f.
  Proof. intros i Hi. now apply nth_error_tab. Qed.

  Lemma ddot_ok n a oa ia b ob ib (f g : nat -> R) :
    (forall i, i < n -> nth_error a (oa + i * ia) = Some (f i)) ->
    (forall i, i < n -> nth_error b (ob + i * ib) = Some (g i)) ->
    ddot n a oa ia b ob ib = Ok (sum n (fun i => f i *! g i)).
  Proof.
    intros Ha Hb. unfold ddot.
    apply (for_det (fun i => sum i (fun i => f i *! g i))).
    intros i Hi. rewrite (aget_ok _ _ _ (Ha i Hi)). simpl.
    rewrite (aget_ok _ _ _ (Hb i Hi)). reflexivity.
  Qed.

  Lemma dgemv_t_ok m n A lda x y (fA : nat -> nat -> R) (fx : nat -> R) :
    0 < m -> 0 < n ->
    (forall i j, i < m -> j < n -> nth_error A (j * lda + i) = Some (fA i j)) ->
    pre x m fx -> n <= length y ->
    exists y', dgemv_t m n A lda x y = Ok y' /\ length y' = length y /\
               pre y' n (fun j => sum m (fun i => fx i *! fA i j)).
  Proof.
    intros Hm Hn HA Hx Hy. unfold dgemv_t.
    destruct (Nat.eqb_spec m 0) as [->|_]; [lia|].
    destruct (Nat.eqb_spec n 0) as [->|_]; [lia|]. simpl.
    pose (T := fun j => sum m (fun i => fx i *! fA i j)).
    destruct (wr_for T (fun j k => j = k)
                (fun j y => do s <- ddot m A (j * lda) 1 x 0 1; aset y j s) n y)
      as [y' [E W]].
    - intros j l' Hj HL.
      rewrite (ddot_ok m A (j*lda) 1 x 0 1 (fun i => fA i j) fx).
      + simpl. apply wr_aset; [lia|]. unfold T. apply sum_ext. intros; apply (Rmul_comm (rth R)).
      + intros i Hi. rewrite Nat.mul_1_r. auto.
      + intros i Hi. rewrite Nat.mul_1_r. apply Hx; auto.
    - exists y'. repeat split; auto.
      + apply (wr_len _ _ _ _ W).
      + intros j Hj. change (nth_error y' j = Some (T j)).
        apply (wr_prefix T _ y y' _ Hy) with (2 := W); auto.
        intros k Hk. exists k; auto.
  Qed.

  Lemma dgemv_n_ok m n A lda x y (fA : nat -> nat -> R) (fx : nat -> R) :
    0 < m -> 0 < n ->
    (forall i j, i < m -> j < n -> nth_error A (j * lda + i) = Some (fA i j)) ->
    pre x n fx -> m <= length y ->
    exists y', dgemv_n m n A lda x y = Ok y' /\ length y' = length y /\
               pre y' m (fun i => sum n (fun j => fA i j *! fx j)).
  Proof.
    intros Hm Hn HA Hx Hy. unfold dgemv_n.
    destruct (Nat.eqb_spec m 0) as [->|_]; [lia|].
    destruct (Nat.eqb_spec n 0) as [->|_]; [lia|]. simpl.
    pose (T := fun i => sum n (fun j => fA i j *! fx j)).
    destruct (wr_for T (fun j k => j = k)
                (fun i y => do s <- ddot n A i lda x 0 1; aset y i s) m y)
      as [y' [E W]].
    - intros i l' Hi HL.
      rewrite (ddot_ok n A i lda x 0 1 (fun j => fA i j) fx).
      + simpl. apply wr_aset; [lia|]. reflexivity.
      + intros j Hj. rewrite Nat.add_comm. auto.
      + intros j Hj. rewrite Nat.mul_1_r. apply Hx; auto.
    - exists y'. repeat split; auto.
      + apply (wr_len _ _ _ _ W).
      + intros j Hj. change (nth_error y' j = Some (T j)).
        apply (wr_prefix T _ y y' _ Hy) with (2 := W); auto.
        intros k Hk. exists k; auto.
  Qed.

  Lemma dgemm_nn_ok m n k A lda B ldb C ldc (fA fB : nat -> nat -> R) :
    (forall i l, i < m -> l < k -> nth_error A (l * lda + i) = Some (fA i l)) ->
    (forall l j, l < k -> j < n -> nth_error B (j * ldb + l) = Some (fB l j)) ->
    m = ldc -> length C = n * m ->
    dgemm_nn m n k A lda B ldb C ldc
    = Ok (tab (n * m) (fun q => sum k (fun l => fA (q mod m) l *! fB l (q / m)))).
  Proof.
    intros HA HB <- HC. unfold dgemm_nn.
    rewrite (fill2 (fun j i => sum k (fun l => fA i l *! fB l j)) n m C
              (fun j i C => do s <- ddot k A i lda B (j * ldb) 1; aset C (j * m + i) s)); auto.
    intros j i l' Hj Hi HL.
    rewrite (ddot_ok k A i lda B (j*ldb) 1 (fun l => fA i l) (fun l => fB l j)).
    - reflexivity.
    - intros l Hl. rewrite Nat.add_comm. auto.
    - intros l Hl. rewrite Nat.mul_1_r. auto.
  Qed.
End BlasFacts.
