(** C70: the pseudoinverse. *)
From Coq Require Import Reals Lra.
From Verif Require Import ParamFacts PinvFacts Svd2.
Open Scope R_scope.

(** ** Specification: matrices as functions of two indices *)
Definition mmul (p : nat) (A B : nat -> nat -> R) (i j : nat) : R := rsum p (fun l => A i l * B l j).
Definition meq (m n : nat) (A B : nat -> nat -> R) : Prop := forall i j, (i < m)%nat -> (j < n)%nat -> A i j = B i j.
Definition eye (i j : nat) : R := if (i =? j)%nat then 1 else 0.
(** The four equations of Penrose for an [m] x [n] matrix A and an [n] x [m] matrix X. *)
Definition penrose (m n : nat) (A X : nat -> nat -> R) : Prop :=
  meq m n (mmul m (mmul n A X) A) A /\
  meq n m (mmul n (mmul m X A) X) X /\
  (forall i j, (i < m)%nat -> (j < m)%nat -> mmul n A X i j = mmul n A X j i) /\
  (forall i j, (i < n)%nat -> (j < n)%nat -> mmul m X A i j = mmul m X A j i).
(** The part of an svd with small singular values. *)
Definition small_part (m n : nat) (u s vt : list R) (cutoff : R) (i j : nat) : R :=
  rsum (Nat.min m n) (fun k => if Rltb (Rabs (nth k s 0)) cutoff then cm m u i k * nth k s 0 * cm n vt k j else 0).
Definition count_large (m n : nat) (s : list R) (cutoff : R) : nat :=
  length (filter (fun k => negb (Rltb (Rabs (nth k s 0)) cutoff)) (seq 0 (Nat.min m n))).

Lemma sinv_mid c x : (Rabs x < c \/ x <> 0) -> sinv c x * x * sinv c x = sinv c x.
Proof. intros H. unfold sinv. destruct (Rltb_spec (Rabs x) c); [ring|]. destruct H; [contradiction|]. now field. Qed.
Lemma sinv_one c x : (Rabs x < c \/ x <> 0) -> x * sinv c x = if Rltb (Rabs x) c then 0 else 1.
Proof. intros H. unfold sinv. destruct (Rltb_spec (Rabs x) c); [ring|]. destruct H; [contradiction|]. now field. Qed.

Section Parts.
  Context (m n : nat) (a u s vt X : list R) (cutoff : R).
  Hypothesis HS : svd_spec m n a u s vt.
  Hypothesis Hc : forall k, (k < Nat.min m n)%nat -> Rabs (nth k s 0) < cutoff \/ nth k s 0 <> 0.
  Hypothesis HX : forall i j, (i < n)%nat -> (j < m)%nat ->
    cm n X i j = rsum (Nat.min m n) (fun k => cm n vt k i * sinv cutoff (nth k s 0) * cm m u j k).
  Let r := Nat.min m n.

  Lemma ou k k' : (k < r)%nat -> (k' < r)%nat -> rsum m (fun l => cm m u l k * cm m u l k') = if (k =? k')%nat then 1 else 0.
  Proof. destruct HS as (_ & _ & _ & H & _). intros. apply H; unfold r in *; lia. Qed.
  Lemma ov k k' : (k < r)%nat -> (k' < r)%nat -> rsum n (fun l => cm n vt k l * cm n vt k' l) = if (k =? k')%nat then 1 else 0.
  Proof. destruct HS as (_ & _ & _ & _ & H & _). intros. apply H; unfold r in *; lia. Qed.
  Lemma av i j : (i < m)%nat -> (j < n)%nat -> cm m a i j = rsum r (fun k => cm m u i k * nth k s 0 * cm n vt k j).
  Proof. destruct HS as (_ & _ & _ & _ & _ & H). apply H. Qed.

  Lemma AX i j : (i < m)%nat -> (j < m)%nat -> mmul n (cm m a) (cm n X) i j =
    rsum r (fun k => cm m u i k * (if Rltb (Rabs (nth k s 0)) cutoff then 0 else 1) * cm m u j k).
  Proof.
    intros Hi Hj. unfold mmul.
    transitivity (rsum n (fun l => rsum r (fun k => cm m u i k * nth k s 0 * cm n vt k l) * rsum r (fun k => cm n vt k l * sinv cutoff (nth k s 0) * cm m u j k))).
    - apply rsum_ext. intros l Hl. rewrite av, HX by auto. reflexivity.
    - rewrite (sandwich r n (fun i k => cm m u i k) (fun k j => cm m u j k) (fun k l => cm n vt k l) (fun k => nth k s 0) (fun k => sinv cutoff (nth k s 0)) i j ov).
      apply rsum_ext. intros k Hk. rewrite sinv_one by (apply Hc; exact Hk). reflexivity.
  Qed.
  Lemma XA i j : (i < n)%nat -> (j < n)%nat -> mmul m (cm n X) (cm m a) i j =
    rsum r (fun k => cm n vt k i * (if Rltb (Rabs (nth k s 0)) cutoff then 0 else 1) * cm n vt k j).
  Proof.
    intros Hi Hj. unfold mmul.
    transitivity (rsum m (fun l => rsum r (fun k => cm n vt k i * sinv cutoff (nth k s 0) * cm m u l k) * rsum r (fun k => cm m u l k * nth k s 0 * cm n vt k j))).
    - apply rsum_ext. intros l Hl. rewrite av, HX by auto. reflexivity.
    - rewrite (sandwich r m (fun i k => cm n vt k i) (fun k j => cm n vt k j) (fun k l => cm m u l k) (fun k => sinv cutoff (nth k s 0)) (fun k => nth k s 0) i j ou).
      apply rsum_ext. intros k Hk. rewrite <- sinv_one by (apply Hc; exact Hk). ring.
  Qed.
  Lemma XAX i j : (i < n)%nat -> (j < m)%nat -> mmul n (mmul m (cm n X) (cm m a)) (cm n X) i j = cm n X i j.
  Proof.
    intros Hi Hj. unfold mmul at 1.
    transitivity (rsum n (fun l => rsum r (fun k => cm n vt k i * (if Rltb (Rabs (nth k s 0)) cutoff then 0 else 1) * cm n vt k l) * rsum r (fun k => cm n vt k l * sinv cutoff (nth k s 0) * cm m u j k))).
    - apply rsum_ext. intros l Hl. rewrite XA, HX by auto. reflexivity.
    - rewrite (sandwich r n (fun i k => cm n vt k i) (fun k j => cm m u j k) (fun k l => cm n vt k l) (fun k => if Rltb (Rabs (nth k s 0)) cutoff then 0 else 1) (fun k => sinv cutoff (nth k s 0)) i j ov).
      rewrite HX by auto. apply rsum_ext. intros k Hk. unfold sinv. destruct (Rltb_spec (Rabs (nth k s 0)) cutoff); ring.
  Qed.
  Lemma AXA i j : (i < m)%nat -> (j < n)%nat ->
    mmul m (mmul n (cm m a) (cm n X)) (cm m a) i j = cm m a i j - small_part m n u s vt cutoff i j.
  Proof.
    intros Hi Hj. unfold mmul at 1.
    transitivity (rsum m (fun l => rsum r (fun k => cm m u i k * (if Rltb (Rabs (nth k s 0)) cutoff then 0 else 1) * cm m u l k) * rsum r (fun k => cm m u l k * nth k s 0 * cm n vt k j))).
    - apply rsum_ext. intros l Hl. rewrite AX, av by auto. reflexivity.
    - rewrite (sandwich r m (fun i k => cm m u i k) (fun k j => cm n vt k j) (fun k l => cm m u l k) (fun k => if Rltb (Rabs (nth k s 0)) cutoff then 0 else 1) (fun k => nth k s 0) i j ou).
      rewrite av by auto. unfold small_part. fold r. unfold Rminus. replace (- rsum r (fun k => if Rltb (Rabs (nth k s 0)) cutoff then cm m u i k * nth k s 0 * cm n vt k j else 0))
        with (rsum r (fun k => (-1) * (if Rltb (Rabs (nth k s 0)) cutoff then cm m u i k * nth k s 0 * cm n vt k j else 0))) by (rewrite rsum_scal; ring).
      rewrite <- rsum_add. apply rsum_ext. intros k Hk. destruct (Rltb_spec (Rabs (nth k s 0)) cutoff); ring.
  Qed.
End Parts.

Lemma filter_le {T} (p : T -> bool) l : (length (filter p l) <= length l)%nat.
Proof. induction l as [|y l IH]; cbn; [lia|]. destruct (p y); cbn; lia. Qed.
Lemma filter_full {T} (p : T -> bool) l : length (filter p l) = length l -> forall x, In x l -> p x = true.
Proof.
  induction l as [|y l IH]; intros H x []; cbn in H; destruct (p y) eqn:E; cbn in H.
  - subst. exact E.
  - pose proof (filter_le p l). lia.
  - apply IH; auto.
  - pose proof (filter_le p l). lia.
Qed.

(** For every singular value decomposition that LAPACK may return and every positive
    cutoff: X is a generalised inverse with symmetric projections, A X A is A without its
    singular values below the cutoff, the return value counts the others; without nonzero
    singular values below the cutoff X is the pseudoinverse, and if a square matrix has
    full rank X is its inverse. *)
Theorem C70_pinv svdf m n a cutoff u s vt : 0 < cutoff -> svdf m n a = Ok (u, s, vt) -> svd_spec m n a u s vt ->
  exists X rank, pinv svdf m n a cutoff = Ok (X, rank) /\ length X = (m * n)%nat /\ rank = count_large m n s cutoff /\
    meq n m (mmul n (mmul m (cm n X) (cm m a)) (cm n X)) (cm n X) /\
    (forall i j, (i < m)%nat -> (j < m)%nat -> mmul n (cm m a) (cm n X) i j = mmul n (cm m a) (cm n X) j i) /\
    (forall i j, (i < n)%nat -> (j < n)%nat -> mmul m (cm n X) (cm m a) i j = mmul m (cm n X) (cm m a) j i) /\
    meq m n (mmul m (mmul n (cm m a) (cm n X)) (cm m a)) (fun i j => cm m a i j - small_part m n u s vt cutoff i j) /\
    ((forall k, (k < Nat.min m n)%nat -> nth k s 0 = 0 \/ cutoff <= Rabs (nth k s 0)) -> penrose m n (cm m a) (cm n X)) /\
    (m = n -> rank = n -> meq n n (mmul n (cm m a) (cm n X)) eye /\ meq n n (mmul n (cm n X) (cm m a)) eye).
Proof.
  intros H0 E HS.
  assert (Hc : forall k, (k < Nat.min m n)%nat -> Rabs (nth k s 0) < cutoff \/ nth k s 0 <> 0).
  { intros k _. destruct (Req_dec (nth k s 0) 0) as [Z|Z]; [left; rewrite Z, Rabs_R0; exact H0|now right]. }
  destruct (pinv_ok svdf m n a cutoff u s vt E HS Hc) as (X & EX & LX & HX).
  assert (S1 : forall i j, (i < m)%nat -> (j < m)%nat -> mmul n (cm m a) (cm n X) i j = mmul n (cm m a) (cm n X) j i).
  { intros i j Hi Hj. rewrite !(AX m n a u s vt X cutoff HS Hc HX) by auto. apply rsum_ext. intros; ring. }
  assert (S2 : forall i j, (i < n)%nat -> (j < n)%nat -> mmul m (cm n X) (cm m a) i j = mmul m (cm n X) (cm m a) j i).
  { intros i j Hi Hj. rewrite !(XA m n a u s vt X cutoff HS Hc HX) by auto. apply rsum_ext. intros; ring. }
  exists X, (count_large m n s cutoff). split; [exact EX|]. split; [exact LX|]. split; [reflexivity|].
  split; [intros i j Hi Hj; apply (XAX m n a u s vt X cutoff HS Hc HX); auto|].
  split; [exact S1|]. split; [exact S2|].
  split; [intros i j Hi Hj; apply (AXA m n a u s vt X cutoff HS Hc HX); auto|]. split.
  - intros HN. split; [|split; [intros i j Hi Hj; apply (XAX m n a u s vt X cutoff HS Hc HX); auto|split; assumption]].
    intros i j Hi Hj. rewrite (AXA m n a u s vt X cutoff HS Hc HX) by auto.
    unfold small_part. rewrite rsum_zero; [ring|]. intros k Hk. destruct (Rltb_spec (Rabs (nth k s 0)) cutoff) as [H|H]; [|reflexivity].
    destruct (HN k Hk) as [Z|Z]; [rewrite Z; ring|lra].
  - intros -> Hr. unfold count_large in Hr. rewrite Nat.min_id in *.
    assert (big : forall k, (k < n)%nat -> Rltb (Rabs (nth k s 0)) cutoff = false).
    { intros k Hk. apply negb_true_iff. apply (filter_full (fun k => negb (Rltb (Rabs (nth k s 0)) cutoff)) (seq 0 n)).
      - now rewrite seq_length.
      - apply in_seq. lia. }
    destruct HS as (Lu & Ls & Lv & Ou & Ov & Ha) eqn:EHS. clear EHS.
    split; intros i j Hi Hj.
    + rewrite (AX n n a u s vt X cutoff) by (rewrite ?Nat.min_id; auto; repeat (split; auto)). rewrite Nat.min_id.
      transitivity (rsum n (fun k => cm n u i k * cm n u j k)).
      * apply rsum_ext. intros k Hk. rewrite big by auto. ring.
      * apply (orth_transpose n (fun k l => cm n u l k) Ou i j Hi Hj).
    + rewrite (XA n n a u s vt X cutoff) by (rewrite ?Nat.min_id; auto; repeat (split; auto)). rewrite Nat.min_id.
      transitivity (rsum n (fun k => cm n vt k i * cm n vt k j)).
      * apply rsum_ext. intros k Hk. rewrite big by auto. ring.
      * apply (orth_transpose n (fun k l => cm n vt k l) Ov i j Hi Hj).
Qed.

(** The row (3, 4): its pseudoinverse is the column (3/25, 4/25). *)
Definition svd34 (m n : nat) (a : list R) : outcome (list R * list R * list R) := Ok ([1], [5], [3/5; -4/5; 4/5; 3/5]).
Lemma svd34_spec : svd_spec 1 2 [3; 4] [1] [5] [3/5; -4/5; 4/5; 3/5].
Proof.
  split; [reflexivity|]. split; [reflexivity|]. split; [reflexivity|]. split; [|split].
  - intros [|i] [|j] Hi Hj; try lia. cbn. ring.
  - intros [|[|i]] [|[|j]] Hi Hj; try lia; cbn; field.
  - intros [|i] [|[|j]] Hi Hj; try lia; cbn; field.
Qed.
Example C70_pinv_example : exists X, pinv svd34 1 2 [3; 4] (1 / 10) = Ok (X, 1%nat) /\
  penrose 1 2 (cm 1 [3; 4]) (cm 2 X).
Proof.
  destruct (C70_pinv svd34 1 2 [3; 4] (1 / 10) [1] [5] [3/5; -4/5; 4/5; 3/5] ltac:(lra) eq_refl svd34_spec)
    as (X & r & E & _ & Hr & _ & _ & _ & _ & P & _).
  exists X. split.
  - rewrite E, Hr. unfold count_large. cbn. destruct (Rltb_spec (Rabs 5) (1 / 10)) as [H|H]; [|reflexivity].
    rewrite Rabs_pos_eq in H; lra.
  - apply P. intros [|k] Hk; [|cbn in Hk; lia]. right. cbn. rewrite Rabs_pos_eq; lra.
Qed.

(** With a cutoff of zero (as in probability.c:1200) a singular matrix makes the code divide
    by zero. *)
Theorem C70_pinv_zero_cutoff_refuted :
  exists svdf a u s vt, svdf 1%nat 1%nat a = Ok (u, s, vt) /\ svd_spec 1 1 a u s vt /\ pinv svdf 1 1 a 0 = UB.
Proof.
  exists (fun _ _ _ => Ok ([1], [0], [1])), [0], [1], [0], [1]. split; [reflexivity|]. split.
  - split; [reflexivity|]. split; [reflexivity|]. split; [reflexivity|].
    split; [|split]; intros [|i] [|j] Hi Hj; try lia; cbn; ring.
  - unfold pinv, for_. cbn. destruct (Rltb_spec (Rabs 0) 0) as [H|H]; [rewrite Rabs_R0 in H; lra|].
    destruct (Req_EM_T 0 0); [reflexivity|contradiction].
Qed.
Print Assumptions C70_pinv.
Print Assumptions C70_pinv_zero_cutoff_refuted.
