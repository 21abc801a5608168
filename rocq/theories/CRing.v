(** Commutative rings used as the scalars of the algebraic part of the model
    ([double] in the C code), and finite sums. *)
From Coq Require Export Ring.
From Verif Require Export BaseFacts.

Record CRing := mkCRing {
  car :> Type;
  r0 : car;
  r1 : car;
  radd : car -> car -> car;
  rmul : car -> car -> car;
  rsub : car -> car -> car;
  ropp : car -> car;
  rth : ring_theory r0 r1 radd rmul rsub ropp eq
}.
Arguments r0 {c}.
Arguments r1 {c}.
Arguments radd {c}.
Arguments rmul {c}.
Arguments rsub {c}.
Arguments ropp {c}.

Declare Scope cr_scope.
Delimit Scope cr_scope with cr.
Infix "+!" := radd (at level 50, left associativity) : cr_scope.
Infix "-!" := rsub (at level 50, left associativity) : cr_scope.
Infix "*!" := rmul (at level 40, left associativity) : cr_scope.

(** [sum n f] = f 0 + ... + f (n-1) *)
Fixpoint sum {R : CRing} (n : nat) (f : nat -> R) : R :=
  match n with
  | O => r0
  | S m => radd (sum m f) (f m)
  end.

(** Sum and product of a list. *)
Definition lsum {R : CRing} (l : list R) : R := fold_right radd r0 l.
Definition lprod {R : CRing} (l : list R) : R := fold_right rmul r1 l.

Section Sums.
  Variable R : CRing.
  Open Scope cr_scope.
  Add Ring Rring : (rth R).

  Lemma sum_ext n (f g : nat -> R) : (forall i, i < n -> f i = g i) -> sum n f = sum n g.
  Proof.
    induction n as [|n IH]; intros H; simpl; auto. rewrite IH, H; auto.
  Qed.

  Lemma sum_zero n : sum n (fun _ => r0) = (r0 : R).
  Proof. induction n as [|n IH]; simpl; auto. rewrite IH. ring. Qed.

  Lemma sum_zero_ext n (f : nat -> R) : (forall i, i < n -> f i = r0) -> sum n f = r0.
  Proof. intros H. rewrite (sum_ext n f (fun _ => r0)) by auto. apply sum_zero. Qed.

  Lemma sum_add n (f g : nat -> R) : sum n (fun i => f i +! g i) = sum n f +! sum n g.
  Proof. induction n as [|n IH]; simpl; [ring|]. rewrite IH. ring. Qed.

  Lemma sum_sub n (f g : nat -> R) : sum n (fun i => f i -! g i) = sum n f -! sum n g.
  Proof. induction n as [|n IH]; simpl; [ring|]. rewrite IH. ring. Qed.

  Lemma sum_scal_l n c (f : nat -> R) : sum n (fun i => c *! f i) = c *! sum n f.
  Proof. induction n as [|n IH]; simpl; [ring|]. rewrite IH. ring. Qed.

  Lemma sum_scal_r n c (f : nat -> R) : sum n (fun i => f i *! c) = sum n f *! c.
  Proof. induction n as [|n IH]; simpl; [ring|]. rewrite IH. ring. Qed.

  Lemma sum_swap n m (f : nat -> nat -> R) :
    sum n (fun i => sum m (fun j => f i j)) = sum m (fun j => sum n (fun i => f i j)).
  Proof.
    induction n as [|n IH]; simpl.
    - symmetry; apply sum_zero.
    - rewrite IH, <- sum_add. reflexivity.
  Qed.

  Lemma sum_app n m (f : nat -> R) : sum (n + m) f = sum n f +! sum m (fun i => f (n + i)).
  Proof.
    induction m as [|m IH]; simpl.
    - rewrite Nat.add_0_r. ring.
    - rewrite Nat.add_succ_r. simpl. rewrite IH. ring.
  Qed.

  Lemma sum_S_l n (f : nat -> R) : sum (S n) f = f 0 +! sum n (fun i => f (S i)).
  Proof. change (S n) with (1 + n). rewrite sum_app. simpl. ring. Qed.

  Lemma sum_1 (f : nat -> R) : sum 1 f = f 0.
  Proof. simpl. ring. Qed.

  (** Double sum over a product index [i*m+j]. *)
  Lemma sum_mul_index n m (f : nat -> R) :
    sum (n * m) f = sum n (fun i => sum m (fun j => f (i * m + j))).
  Proof.
    induction n as [|n IH]; [reflexivity|].
    replace (S n * m) with (n * m + m) by lia. rewrite sum_app, IH. reflexivity.
  Qed.

  Lemma sum_single n (f : nat -> R) k :
    k < n -> (forall i, i < n -> i <> k -> f i = r0) -> sum n f = f k.
  Proof.
    induction n as [|n IH]; intros Hk H; [lia|]. simpl.
    destruct (Nat.eq_dec k n) as [->|Hne].
    - rewrite sum_zero_ext; [ring|]. intros i Hi. apply H; lia.
    - rewrite IH; [|lia|intros; apply H; lia]. rewrite (H n) by lia. ring.
  Qed.

  Lemma sum_mul n m (f g : nat -> R) :
    sum n f *! sum m g = sum n (fun i => sum m (fun j => f i *! g j)).
  Proof.
    rewrite <- sum_scal_r. apply sum_ext. intros i _. now rewrite sum_scal_l.
  Qed.

  Lemma sum_rev n (f : nat -> R) : sum n f = sum n (fun i => f (n - 1 - i)).
  Proof.
    induction n as [|n IH]; [reflexivity|].
    rewrite sum_S_l. cbn [sum].
    transitivity (sum n (fun i => f (S i)) +! f 0); [ring|].
    replace (S n - 1 - n) with 0 by lia.
    f_equal.
    clear IH. revert f. induction n as [|n IHn]; intros f; [reflexivity|].
    rewrite sum_S_l. cbn [sum].
    rewrite (IHn (fun i => f (S i))).
    replace (S (S n) - 1 - n) with 1 by lia.
    transitivity (sum n (fun i => f (S (S n - 1 - i))) +! f 1); [ring|].
    f_equal. apply sum_ext. intros i Hi. f_equal. lia.
  Qed.

  Lemma lsum_app (l1 l2 : list R) : lsum (l1 ++ l2) = lsum l1 +! lsum l2.
  Proof. unfold lsum. induction l1 as [|a l IH]; simpl; [ring|]. rewrite IH. ring. Qed.

  Lemma lsum_map_add {A} (f g : A -> R) l :
    lsum (map (fun a => f a +! g a) l) = lsum (map f l) +! lsum (map g l).
  Proof. unfold lsum. induction l as [|a l IH]; simpl; [ring|]. rewrite IH. ring. Qed.

  Lemma lsum_map_scal {A} c (f : A -> R) l :
    lsum (map (fun a => c *! f a) l) = c *! lsum (map f l).
  Proof. unfold lsum. induction l as [|a l IH]; simpl; [ring|]. rewrite IH. ring. Qed.

  Lemma lsum_tab n (f : nat -> R) : lsum (tab n f) = sum n f.
  Proof.
    induction n as [|n IH]; [reflexivity|].
    rewrite tab_S, lsum_app, IH. simpl. ring.
  Qed.

  Lemma lsum_flat_map {A} (f : A -> list R) l :
    lsum (flat_map f l) = lsum (map (fun a => lsum (f a)) l).
  Proof.
    induction l as [|a l IH]; simpl; auto. rewrite lsum_app, IH. reflexivity.
  Qed.

  Lemma lsum_cons a (l : list R) : lsum (a :: l) = a +! lsum l.
  Proof. reflexivity. Qed.

  Lemma lsum_sum {A} n (f : A -> nat -> R) (l : list A) :
    lsum (map (fun s => sum n (f s)) l) = sum n (fun m => lsum (map (fun s => f s m) l)).
  Proof.
    induction l as [|t ts IH].
    - symmetry. apply sum_zero.
    - cbn [map]. rewrite lsum_cons, IH, <- sum_add. reflexivity.
  Qed.

  Lemma lsum_zero {A} (l : list A) : lsum (map (fun _ => r0) l) = (r0 : R).
  Proof. induction l as [|t ts IH]; [reflexivity|]. cbn [map]. rewrite lsum_cons, IH. ring. Qed.
End Sums.
