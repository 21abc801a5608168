(** Products of chains of matrices given by their entries: [fw k j] is the
    entry [j] of the row vector M_0 ... M_(k-1), [bw n k i] the entry [i] of the
    column vector M_k ... M_(k+n-1) 1. *)
From Verif Require Export CRing BaseFacts.

Section Chains.
  Context {R : CRing}.
  Open Scope cr_scope.
  Add Ring Rr18 : (rth R).

  (** * Matrix chains *)
  Section Chain.
    Variable r : nat -> nat.
    Variable M : nat -> nat -> nat -> R.

    Fixpoint bw (n k i : nat) : R :=
      match n with
      | 0 => r1
      | S n => sum (r (S k)) (fun j => M k i j *! bw n (S k) j)
      end.

    Fixpoint fw (k j : nat) : R :=
      match k with
      | 0 => r1
      | S k => sum (r k) (fun i => M k i j *! fw k i)
      end.

    Lemma fw_bw n k : r 0 = 1 ->
      sum (r k) (fun i => fw k i *! bw n k i) = bw (k + n) 0 0.
    Proof.
      intros R0. revert n. induction k as [|k IH]; intros n.
      - rewrite R0, sum_1. cbn [fw]. rewrite Nat.add_0_l. ring.
      - replace (S k + n) with (k + S n) by lia. rewrite <- IH.
        cbn [fw bw].
        rewrite (sum_ext R _ _ (fun j => sum (r k) (fun i => M k i j *! fw k i *! bw n (S k) j))).
        2:{ intros j Hj. now rewrite <- sum_scal_r. }
        rewrite sum_swap. apply sum_ext. intros i Hi. rewrite <- sum_scal_l. apply sum_ext.
        intros j Hj. ring.
    Qed.

    Lemma fw_total d : r 0 = 1 -> r d = 1 -> fw d 0 = bw d 0 0.
    Proof.
      intros R0 Rd. rewrite <- (Nat.add_0_r d) at 2. rewrite <- (fw_bw 0 d R0), Rd, sum_1. cbn [bw]. ring.
    Qed.
  End Chain.

  Lemma bw_ext r M M' n k i :
    i < r k ->
    (forall k' i' j', k <= k' < k + n -> i' < r k' -> j' < r (S k') -> M k' i' j' = M' k' i' j') ->
    bw r M n k i = bw r M' n k i.
  Proof.
    revert k i. induction n as [|n IH]; intros k i Hi H; cbn [bw]; auto.
    apply sum_ext. intros j Hj. rewrite (H k i j) by (auto; lia). f_equal. apply IH; auto.
    intros k' i' j' Hk' Hi' Hj'. apply H; auto; lia.
  Qed.

  Lemma fw_ext r M M' k j :
    j < r k ->
    (forall k' i' j', k' < k -> i' < r k' -> j' < r (S k') -> M k' i' j' = M' k' i' j') ->
    fw r M k j = fw r M' k j.
  Proof.
    revert j. induction k as [|k IH]; intros j Hj H; cbn [fw]; auto.
    apply sum_ext. intros i Hi. rewrite (H k i j) by (auto; lia). f_equal. apply IH; auto.
  Qed.

  (** The chain with the matrix in position [k] exchanged. *)
  Definition repl (M : nat -> nat -> nat -> R) k (N : nat -> nat -> R) k' i j :=
    if k' =? k then N i j else M k' i j.

  Lemma bw_repl r M k N d : r 0 = 1 -> k < d ->
    bw r (repl M k N) d 0 0
    = sum (r k) (fun i => fw r M k i *! sum (r (S k)) (fun j => N i j *! bw r M (d - 1 - k) (S k) j)).
  Proof.
    intros R0 Hk. replace d with (k + (d - k)) at 1 by lia. rewrite <- fw_bw by auto.
    apply sum_ext. intros i Hi. f_equal.
    - apply fw_ext; auto. intros k' i' j' Hk' _ _. unfold repl.
      destruct (Nat.eqb_spec k' k); [lia|reflexivity].
    - replace (d - k) with (S (d - 1 - k)) by lia. cbn [bw]. apply sum_ext. intros j Hj.
      unfold repl at 1. rewrite Nat.eqb_refl. f_equal. apply bw_ext; auto.
      intros k' i' j' Hk' _ _. unfold repl. destruct (Nat.eqb_spec k' k); [lia|reflexivity].
  Qed.

  (** No exchange: splitting the product at any place. *)
  Lemma bw_split r M k d : r 0 = 1 -> k < d ->
    bw r M d 0 0
    = sum (r k) (fun i => fw r M k i *! sum (r (S k)) (fun j => M k i j *! bw r M (d - 1 - k) (S k) j)).
  Proof.
    intros R0 Hk. rewrite <- bw_repl by auto. apply bw_ext; [lia|].
    intros k' i' j' _ _ _. unfold repl. destruct (Nat.eqb_spec k' k) as [->|]; reflexivity.
  Qed.
End Chains.
