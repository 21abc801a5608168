(** The truncated singular value decomposition keeps the leading part. *)
From Coq Require Import Reals Lra.
From Verif Require Import TensorModel ParamFacts.
From Verif Require Export RoundModel OrthDep.
Open Scope R_scope.

(** Entry of a matrix with [m] rows stored by columns. *)
Definition cm (m : nat) (l : list R) (i j : nat) : R := nth (j * m + i) l 0.

(** What a singular value decomposition is. *)
Definition svd_spec (m n : nat) (a u s vt : list R) : Prop :=
  length u = (m * m)%nat /\ length s = Nat.min m n /\ length vt = (n * n)%nat /\
  (forall i j, (i < m)%nat -> (j < m)%nat -> rsum m (fun k => cm m u k i * cm m u k j) = if (i =? j)%nat then 1 else 0) /\
  (forall i j, (i < n)%nat -> (j < n)%nat -> rsum n (fun k => cm n vt i k * cm n vt j k) = if (i =? j)%nat then 1 else 0) /\
  (forall i j, (i < m)%nat -> (j < n)%nat ->
     cm m a i j = rsum (Nat.min m n) (fun k => cm m u i k * nth k s 0 * cm n vt k j)).

(** Sum of the squares from index [r] on. *)
Definition tailsq (nsv : nat) (s : list R) (r : nat) : R := rsum (nsv - r) (fun k => nth (r + k) s 0 * nth (r + k) s 0).

Lemma rsum_front n f : rsum (S n) f = f 0%nat + rsum n (fun i => f (S i)).
Proof. induction n as [|n IH]; cbn in *; [lra|]. rewrite IH. lra. Qed.
Lemma rsum_split a b f : rsum (a + b) f = rsum a f + rsum b (fun i => f (a + i)%nat).
Proof. induction b as [|b IH]; [rewrite Nat.add_0_r; cbn; lra|]. rewrite Nat.add_succ_r. cbn. rewrite IH. lra. Qed.
Lemma tail_step nsv s r : (0 < r <= nsv)%nat -> tailsq nsv s (r - 1) = nth (r - 1) s 0 * nth (r - 1) s 0 + tailsq nsv s r.
Proof.
  intros H. unfold tailsq. replace (nsv - (r - 1))%nat with (S (nsv - r)) by lia. rewrite rsum_front, Nat.add_0_r. f_equal.
  apply rsum_ext. intros k _. now replace (r - 1 + S k)%nat with (r + k)%nat by lia.
Qed.
Lemma tail_end nsv s : tailsq nsv s nsv = 0.
Proof. unfold tailsq. now rewrite Nat.sub_diag. Qed.
Lemma tail_pos nsv s r : 0 <= tailsq nsv s r.
Proof. apply rsum_pos. intros. apply Rle_0_sqr. Qed.

Lemma trunc_loop_ok nsv s delta : length s = nsv ->
  forall fuel ii rank, (ii + fuel = nsv)%nat -> rank = fuel -> (0 < rank)%nat ->
  (rank = nsv \/ tailsq nsv s rank < delta) ->
  exists r, trunc_loop fuel ii nsv s delta (tailsq nsv s rank) rank = Ok r /\ (1 <= r <= rank)%nat /\
    (r = nsv \/ tailsq nsv s r < delta) /\ (r = 1%nat \/ delta <= tailsq nsv s (r - 1)).
Proof.
  intros HL. induction fuel as [|fuel IH]; intros ii rank Hf Hr Hp Hd; [lia|].
  cbn [trunc_loop].
  destruct (nth_error s (nsv - ii - 1)%nat) as [x|] eqn:E.
  2:{ apply nth_error_None in E. lia. }
  rewrite (aget_ok _ _ _ E). cbn [obind].
  assert (Hx : nth (rank - 1) s 0 = x).
  { replace (rank - 1)%nat with (nsv - ii - 1)%nat by lia. now apply nth_error_nth. }
  pose proof (tail_step nsv s rank ltac:(lia)) as T. rewrite Hx in T.
  replace (tailsq nsv s rank + x * x) with (tailsq nsv s (rank - 1)) by lra.
  destruct (Rleb_spec delta (tailsq nsv s (rank - 1))) as [H|H].
  - exists rank. split; [reflexivity|]. split; [lia|]. split; [exact Hd|]. right. exact H.
  - apply Rnot_le_lt in H. destruct (Nat.eqb_spec rank 1) as [->|N].
    + exists 1%nat. split; [reflexivity|]. split; [lia|]. split; [exact Hd|]. now left.
    + destruct (IH (ii + 1)%nat (rank - 1)%nat ltac:(lia) ltac:(lia) ltac:(lia) (or_intror H)) as (r & E1 & B & D1 & D2).
      exists r. split; [exact E1|]. split; [lia|]. auto.
Qed.

Lemma blit_prefix (src : list R) (n : nat) : (n <= length src)%nat -> blit (repeat 0 n) 0 src 0 n = Ok (firstn n src).
Proof.
  intros H. rewrite blit_ok by (rewrite ?repeat_length; lia). f_equal. cbn [skipn].
  unfold splice. cbn [firstn app Nat.add]. rewrite firstn_length, Nat.min_l by lia.
  rewrite skipn_all2 by (rewrite repeat_length; lia). apply app_nil_r.
Qed.
Lemma nth_firstn {A} (l : list A) n i d : (i < n)%nat -> nth i (firstn n l) d = nth i l d.
Proof. revert n l; induction i as [|i IH]; intros [|n] [|x l] H; try lia; cbn; auto. apply IH. lia. Qed.

Lemma splice_nth {A} off (p l : list A) q : (off + length p <= length l)%nat ->
  nth_error (splice off p l) q
  = if (off <=? q)%nat && (q <? off + length p)%nat then nth_error p (q - off)%nat else nth_error l q.
Proof.
  intros H. unfold splice. assert (Lf : length (firstn off l) = off) by (rewrite firstn_length; lia).
  destruct (Nat.leb_spec off q) as [H1|H1]; cbn [andb].
  - rewrite nth_error_app2 by lia. rewrite Lf. destruct (Nat.ltb_spec q (off + length p)) as [H2|H2].
    + now rewrite nth_error_app1 by lia.
    + rewrite nth_error_app2 by lia. rewrite <- (firstn_skipn (off + length p) l) at 2.
      rewrite (nth_error_app2 (firstn (off + length p) l)); rewrite firstn_length, Nat.min_l by lia; [|lia].
      f_equal. lia.
  - rewrite nth_error_app1 by lia. now apply nth_error_firstn.
Qed.

(** Copying the first [rank] rows. *)
Lemma vt_loop n rank (vt : list R) : (rank <= n)%nat -> length vt = (n * n)%nat ->
  for_ n (fun ii v => blit v (ii * rank)%nat vt (ii * n)%nat rank) (repeat 0 (n * rank)%nat)
  = Ok (tab (n * rank) (fun q => cm n vt (q mod rank) (q / rank))).
Proof.
  intros Hr HL.
  destruct (for_inv (fun c (v : list R) => length v = (n * rank)%nat /\
      forall j i, (j < c)%nat -> (i < rank)%nat -> nth_error v (j * rank + i)%nat = Some (cm n vt i j))
      (fun ii v => blit v (ii * rank)%nat vt (ii * n)%nat rank) n (repeat 0 (n * rank)%nat)) as (v & E & Lv & Hv).
  - split; [apply repeat_length|]. intros; lia.
  - intros c v Hc [Lv Hv]. assert (H1 : (c * n + rank <= n * n)%nat) by nia. assert (H2 : (c * rank + rank <= n * rank)%nat) by nia.
    rewrite blit_ok by lia. eexists. split; [reflexivity|].
    assert (Ls : length (firstn rank (skipn (c * n) vt)) = rank) by (apply slice_length; lia).
    split; [now rewrite splice_length by (rewrite ?Ls; lia)|].
    intros j i Hj Hi. rewrite splice_nth by (rewrite ?Ls; lia). rewrite Ls.
    destruct (Nat.eq_dec j c) as [->|Nj].
    + replace ((c * rank <=? c * rank + i)%nat && (c * rank + i <? c * rank + rank)%nat) with true.
      2:{ symmetry. apply andb_true_iff. split; [apply Nat.leb_le|apply Nat.ltb_lt]; lia. }
      replace (c * rank + i - c * rank)%nat with i by lia.
      rewrite slice_nth by lia. unfold cm. apply nth_error_nth'. nia.
    + replace ((c * rank <=? j * rank + i)%nat && (j * rank + i <? c * rank + rank)%nat) with false.
      2:{ symmetry. apply andb_false_iff. left. apply Nat.leb_gt. nia. }
      apply Hv; lia.
  - rewrite E. f_equal. apply nth_error_ext; [now rewrite tab_length|]. intros q Hq. rewrite Lv in Hq.
    rewrite nth_error_tab by auto. destruct (idx_split q rank n Hq) as (j & i & Hj & Hi & ->).
    rewrite Hv by auto. rewrite idx_mod, idx_div by auto. reflexivity.
Qed.

Section Svd.
  Context (svdf : nat -> nat -> list R -> outcome (list R * list R * list R)).

  Lemma truncated_svd_ok m n a delta u s vt :
    (0 < m)%nat -> (0 < n)%nat -> svdf m n a = Ok (u, s, vt) -> svd_spec m n a u s vt ->
    exists r u' s' vt', truncated_svd svdf m n a delta = Ok (r, u', s', vt') /\
      (1 <= r <= Nat.min m n)%nat /\
      (r = Nat.min m n \/ tailsq (Nat.min m n) s r < delta) /\
      (r = 1%nat \/ delta <= tailsq (Nat.min m n) s (r - 1)) /\
      length u' = (m * r)%nat /\ length s' = r /\ length vt' = (r * n)%nat /\
      (forall i k, (i < m)%nat -> (k < r)%nat -> cm m u' i k = cm m u i k) /\
      (forall k, (k < r)%nat -> nth k s' 0 = nth k s 0) /\
      (forall k j, (k < r)%nat -> (j < n)%nat -> cm r vt' k j = cm n vt k j).
  Proof.
    intros Hm Hn E (L1 & L2 & L3 & _). unfold truncated_svd. rewrite E. cbn [obind].
    replace (if (m <? n)%nat then m else n) with (Nat.min m n)
      by (destruct (Nat.ltb_spec m n); [apply Nat.min_l|apply Nat.min_r]; lia).
    set (nsv := Nat.min m n) in *.
    destruct (trunc_loop_ok nsv s delta L2 nsv 0 nsv ltac:(lia) eq_refl ltac:(lia) (or_introl eq_refl)) as (r & Er & B & D1 & D2).
    rewrite tail_end in Er. rewrite Er. cbn [obind].
    assert (Hrm : (r <= m)%nat) by lia. assert (Hrn : (r <= n)%nat) by lia.
    rewrite (Nat.mul_comm m r), blit_prefix by nia. cbn [obind].
    rewrite vt_loop by auto. cbn [obind]. rewrite blit_prefix by lia. cbn [obind].
    eexists _, _, _, _. split; [reflexivity|]. split; [exact B|]. split; [exact D1|]. split; [exact D2|].
    split; [rewrite firstn_length; nia|]. split; [rewrite firstn_length; lia|]. split; [rewrite tab_length; lia|].
    split; [|split].
    - intros i k Hi Hk. unfold cm. apply nth_firstn. nia.
    - intros k Hk. now apply nth_firstn.
    - intros k j Hk Hj. unfold cm at 1. erewrite nth_error_nth; [reflexivity|].
      rewrite nth_error_tab by (rewrite Nat.mul_comm; nia). rewrite idx_mod, idx_div by auto. reflexivity.
  Qed.
End Svd.

(** Frobenius error of the truncation. *)
Lemma rsum_rsum_mul n m f g : rsum n f * rsum m g = rsum n (fun i => rsum m (fun j => f i * g j)).
Proof. rewrite <- rsum_mul_r. apply rsum_ext. intros. now rewrite rsum_scal. Qed.
Lemma delta_sum n k f : (k < n)%nat -> rsum n (fun i => (if (i =? k)%nat then 1 else 0) * f i) = f k.
Proof.
  intros H. rewrite (rsum_single n _ k H); [rewrite Nat.eqb_refl; lra|]. intros i _ N. rewrite (proj2 (Nat.eqb_neq i k)) by auto. lra.
Qed.

Lemma frob_error m n a u s vt r :
  svd_spec m n a u s vt -> (r <= Nat.min m n)%nat ->
  rsum n (fun j => rsum m (fun i =>
     let e := cm m a i j - rsum r (fun k => cm m u i k * nth k s 0 * cm n vt k j) in e * e))
  = tailsq (Nat.min m n) s r.
Proof.
  intros (L1 & L2 & L3 & O1 & O2 & F) Hr. set (nsv := Nat.min m n) in *.
  set (q := (nsv - r)%nat).
  (* the error is the sum of the remaining terms *)
  assert (E : forall i j, (i < m)%nat -> (j < n)%nat ->
     cm m a i j - rsum r (fun k => cm m u i k * nth k s 0 * cm n vt k j)
     = rsum q (fun k => cm m u i (r + k) * nth (r + k) s 0 * cm n vt (r + k) j)).
  { intros i j Hi Hj. rewrite F by auto. replace nsv with (r + q)%nat by (unfold q; lia). rewrite rsum_split. lra. }
  transitivity (rsum n (fun j => rsum q (fun k => (nth (r + k) s 0 * cm n vt (r + k) j) * (nth (r + k) s 0 * cm n vt (r + k) j)))).
  - apply rsum_ext. intros j Hj.
    transitivity (rsum m (fun i => rsum q (fun k => rsum q (fun l =>
       (nth (r + k) s 0 * cm n vt (r + k) j) * (nth (r + l) s 0 * cm n vt (r + l) j) * (cm m u i (r + k) * cm m u i (r + l)))))).
    + apply rsum_ext. intros i Hi. cbv zeta. rewrite E by auto. rewrite rsum_rsum_mul. apply rsum_ext. intros k _. apply rsum_ext. intros l _. ring.
    + rewrite rsum_swap. apply rsum_ext. intros k Hk. rewrite rsum_swap.
      transitivity (rsum q (fun l => (if (l =? k)%nat then 1 else 0) * ((nth (r + k) s 0 * cm n vt (r + k) j) * (nth (r + l) s 0 * cm n vt (r + l) j)))).
      * apply rsum_ext. intros l Hl. rewrite rsum_scal, O1 by (unfold q, nsv in *; lia).
        replace (r + k =? r + l)%nat with (l =? k)%nat; [ring|].
        destruct (Nat.eqb_spec l k), (Nat.eqb_spec (r + k) (r + l)); auto; lia.
      * rewrite delta_sum by auto. reflexivity.
  - rewrite rsum_swap. unfold tailsq. fold q. apply rsum_ext. intros k Hk.
    transitivity (nth (r + k) s 0 * nth (r + k) s 0 * rsum n (fun j => cm n vt (r + k) j * cm n vt (r + k) j)).
    + rewrite <- rsum_scal. apply rsum_ext. intros; ring.
    + rewrite O2 by (unfold q, nsv in *; lia). rewrite Nat.eqb_refl. ring.
Qed.
