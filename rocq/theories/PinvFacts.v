(** Facts about the pseudoinverse. *)
From Coq Require Import Reals Lra.
From Verif Require Import TensorModel ParamFacts Fill BlasFacts OrthFacts RoundStep.
From Verif Require Export PinvModel LuFacts.
Open Scope R_scope.

Lemma cm_tab m n (f : nat -> nat -> R) i j : (i < m)%nat -> (j < n)%nat ->
  cm m (tab (n * m) (fun q => f (q / m)%nat (q mod m)%nat)) i j = f j i.
Proof.
  intros Hi Hj. unfold cm. apply nth_error_nth.
  rewrite nth_error_tab by nia. f_equal.
  rewrite Nat.div_add_l, Nat.div_small, Nat.add_0_r by lia.
  now rewrite (Nat.add_comm (j * m)), Nat.mod_add, Nat.mod_small by lia.
Qed.
Lemma cm_some m n l i j : length l = (n * m)%nat -> (i < m)%nat -> (j < n)%nat -> nth_error l (j * m + i) = Some (cm m l i j).
Proof. intros HL Hi Hj. unfold cm. apply nth_error_nth'. nia. Qed.

Lemma dgemm_tt_ok m n k A lda B ldb C (fA fB : nat -> nat -> R) :
  (forall l i, (l < k)%nat -> (i < m)%nat -> nth_error A (i * lda + l) = Some (fA l i)) ->
  (forall j l, (j < n)%nat -> (l < k)%nat -> nth_error B (l * ldb + j) = Some (fB j l)) ->
  length C = (n * m)%nat ->
  dgemm_tt m n k A lda B ldb C m = Ok (tab (n * m) (fun q => rsum k (fun l => fA l (q mod m)%nat * fB (q / m)%nat l))).
Proof.
  intros HA HB HC. unfold dgemm_tt.
  refine (fill2 (fun j i => rsum k (fun l => fA l i * fB j l)) n m C
    (fun j i C => do s <- ddot (R := Rring) k A (i * lda)%nat 1 B j ldb; aset C (j * m + i)%nat s) HC _).
  intros j i l' Hj Hi HL.
  rewrite (ddot_ok (R := Rring) k A (i * lda) 1 B j ldb (fun l => fA l i) (fun l => fB j l)).
  - cbn [obind]. now rewrite rsum_sum.
  - intros l Hl. rewrite Nat.mul_1_r. auto.
  - intros l Hl. rewrite Nat.add_comm. auto.
Qed.
Lemma dgemm_nt_ok m n k A lda B ldb C (fA fB : nat -> nat -> R) :
  (forall i l, (i < m)%nat -> (l < k)%nat -> nth_error A (l * lda + i) = Some (fA i l)) ->
  (forall j l, (j < n)%nat -> (l < k)%nat -> nth_error B (l * ldb + j) = Some (fB j l)) ->
  length C = (n * m)%nat ->
  dgemm_nt m n k A lda B ldb C m = Ok (tab (n * m) (fun q => rsum k (fun l => fA (q mod m)%nat l * fB (q / m)%nat l))).
Proof.
  intros HA HB HC. unfold dgemm_nt.
  refine (fill2 (fun j i => rsum k (fun l => fA i l * fB j l)) n m C
    (fun j i C => do s <- ddot (R := Rring) k A i lda B j ldb; aset C (j * m + i)%nat s) HC _).
  intros j i l' Hj Hi HL.
  rewrite (ddot_ok (R := Rring) k A i lda B j ldb (fun l => fA i l) (fun l => fB j l)).
  - cbn [obind]. now rewrite rsum_sum.
  - intros l Hl. rewrite Nat.add_comm. auto.
  - intros l Hl. rewrite Nat.add_comm. auto.
Qed.

(** The reciprocal used by pinv. *)
Definition sinv (cutoff x : R) : R := if Rltb (Rabs x) cutoff then 0 else 1 / x.

Lemma diag_div m i : (i * m + i = i * (m + 1))%nat.
Proof. lia. Qed.

Section Smat.
  Context (m n : nat) (s : list R) (cutoff : R).
  Let nsv := Nat.min m n.
  Hypothesis HL : length s = nsv.
  Hypothesis Hc : forall k, (k < nsv)%nat -> Rabs (nth k s 0) < cutoff \/ nth k s 0 <> 0.

  Definition smat_at (k q : nat) : R :=
    if ((q mod (m + 1) =? 0) && (q / (m + 1) <? k))%nat then sinv cutoff (nth (q / (m + 1)) s 0) else 0.

  Lemma smat_loop :
    for_ nsv (fun ii (st : list R * nat) =>
        let '(smat, rank) := st in
        do x <- aget s ii;
        if Rltb (Rabs x) cutoff then
          do smat <- aset smat (ii * m + ii)%nat 0; Ok (smat, rank)
        else
          do inv <- (if Req_EM_T x 0 then UB else Ok (1 / x));
          do smat <- aset smat (ii * m + ii)%nat inv; Ok (smat, (rank + 1)%nat))
      (repeat 0 (m * n)%nat, 0%nat)
    = Ok (tab (m * n) (smat_at nsv), length (filter (fun k => negb (Rltb (Rabs (nth k s 0)) cutoff)) (seq 0 nsv))).
  Proof.
    assert (Er : repeat 0 (m * n) = tab (m * n) (smat_at 0)).
    { apply nth_error_ext; [now rewrite tab_length, repeat_length|].
      intros q Hq. rewrite repeat_length in Hq. rewrite nth_error_repeat, nth_error_tab by auto. unfold smat_at.
      now rewrite (proj2 (Nat.ltb_ge (q / (m + 1)) 0)) by lia; rewrite andb_false_r. }
    rewrite Er.
    apply (for_det (fun k => (tab (m * n) (smat_at k), length (filter (fun k => negb (Rltb (Rabs (nth k s 0)) cutoff)) (seq 0 k))))).
    - intros k Hk. cbn beta iota.
      assert (Es : nth_error s k = Some (nth k s 0)) by (apply nth_error_nth'; lia).
      rewrite (aget_ok _ _ _ Es). cbn [obind].
      rewrite seq_S, filter_app, app_length. cbn [Nat.add filter].
      assert (B : (k * m + k < m * n)%nat) by (unfold nsv in Hk; nia).
      assert (T : upd (tab (m * n) (smat_at k)) (k * m + k) (sinv cutoff (nth k s 0)) = tab (m * n) (smat_at (S k))).
      { apply nth_error_ext; [now rewrite upd_length, !tab_length|].
        intros q Hq. rewrite upd_length, tab_length in Hq. rewrite (nth_error_tab _ _ _ Hq).
        destruct (Nat.eq_dec q (k * m + k)) as [->|N].
        - rewrite nth_error_upd_same by (now rewrite tab_length). unfold smat_at.
          rewrite diag_div, Nat.mod_mul, Nat.div_mul by lia. cbn [Nat.eqb andb].
          now rewrite (proj2 (Nat.ltb_lt k (S k))) by lia.
        - rewrite nth_error_upd_other by auto. rewrite nth_error_tab by auto. unfold smat_at.
          destruct (Nat.eqb_spec (q mod (m + 1)) 0) as [E0|E0]; [|reflexivity]. cbn [andb].
          assert (Eq : q = (q / (m + 1) * (m + 1))%nat).
          { pose proof (Nat.div_mod q (m + 1) ltac:(lia)). lia. }
          destruct (Nat.ltb_spec (q / (m + 1)) k), (Nat.ltb_spec (q / (m + 1)) (S k)); try reflexivity; try lia.
          exfalso. apply N. assert ((q / (m + 1))%nat = k) by lia. nia. }
      unfold sinv in T. destruct (Rltb_spec (Rabs (nth k s 0)) cutoff) as [H|H]; cbn [negb].
      + rewrite aset_ok by (now rewrite tab_length). cbn [obind]. rewrite T. cbn. now rewrite Nat.add_0_r.
      + destruct (Req_EM_T (nth k s 0) 0) as [Z|Z]; [destruct (Hc k Hk); [contradiction|contradiction]|].
        cbn [obind]. rewrite aset_ok by (now rewrite tab_length). cbn [obind]. rewrite T. reflexivity.
  Qed.
End Smat.

Lemma pinv_ok svdf m n a cutoff u s vt : svdf m n a = Ok (u, s, vt) -> svd_spec m n a u s vt ->
  (forall k, (k < Nat.min m n)%nat -> Rabs (nth k s 0) < cutoff \/ nth k s 0 <> 0) ->
  exists ainv, pinv svdf m n a cutoff = Ok (ainv, length (filter (fun k => negb (Rltb (Rabs (nth k s 0)) cutoff)) (seq 0 (Nat.min m n)))) /\
    length ainv = (m * n)%nat /\
    forall i j, (i < n)%nat -> (j < m)%nat ->
      cm n ainv i j = rsum (Nat.min m n) (fun k => cm n vt k i * sinv cutoff (nth k s 0) * cm m u j k).
Proof.
  intros E (Lu & Ls & Lv & _) Hc. unfold pinv. rewrite E. cbn [obind].
  assert (En : (if (m <? n)%nat then m else n) = Nat.min m n) by (destruct (Nat.ltb_spec m n); lia). rewrite En.
  rewrite (smat_loop m n s cutoff Ls Hc). cbn [obind].
  set (nsv := Nat.min m n) in *. set (smat := tab (m * n) (smat_at m s cutoff nsv)).
  set (sf := fun j l => if ((j =? l) && (j <? nsv))%nat then sinv cutoff (nth j s 0) else 0).
  rewrite (dgemm_tt_ok n m n vt n smat m (repeat 0 (m * n)%nat) (fun l i => cm n vt l i) sf).
  2:{ intros l i Hl Hi. apply cm_some with n; auto. }
  2:{ intros j l Hj Hl. unfold smat. rewrite nth_error_tab by nia. f_equal. unfold smat_at, sf.
      destruct (Nat.eqb_spec j l) as [<-|N]; cbn [andb].
      - rewrite diag_div, Nat.mod_mul, Nat.div_mul by lia. reflexivity.
      - destruct (Nat.eqb_spec ((l * m + j) mod (m + 1)) 0) as [E0|E0]; [|reflexivity]. cbn [andb].
        pose proof (Nat.div_mod (l * m + j) (m + 1) ltac:(lia)) as D. rewrite E0 in D. set (q := ((l * m + j) / (m + 1))%nat) in *.
        destruct (Nat.ltb_spec q nsv) as [Hq|Hq]; [|reflexivity]. exfalso. unfold nsv in Hq.
        destruct (Nat.div_mod_unique m l q j q Hj ltac:(lia) ltac:(lia)) as [E1 E2]. lia. }
  2:{ apply repeat_length. }
  cbn [obind]. set (temp := tab (m * n) _).
  assert (Ht : forall i l, (i < n)%nat -> (l < m)%nat -> nth_error temp (l * n + i) = Some (if (l <? nsv)%nat then cm n vt l i * sinv cutoff (nth l s 0) else 0)).
  { intros i l Hi Hl. rewrite (cm_some n m temp i l) by (auto; apply tab_length). f_equal. unfold temp.
    rewrite (cm_tab n m (fun j i => rsum n (fun l => cm n vt l i * sf j l))) by auto.
    destruct (Nat.ltb_spec l nsv) as [H|H].
    - rewrite (rsum_single n _ l) by (try (unfold nsv in H; lia); intros k Hk N; unfold sf; rewrite (proj2 (Nat.eqb_neq l k)) by auto; cbn [andb]; ring).
      unfold sf. rewrite Nat.eqb_refl, (proj2 (Nat.ltb_lt _ _) H). reflexivity.
    - apply rsum_zero. intros k Hk. unfold sf. rewrite (proj2 (Nat.ltb_ge _ _) H), andb_false_r. ring. }
  rewrite (dgemm_nt_ok n m m temp n u m (repeat 0 (m * n)%nat) (fun i l => if (l <? nsv)%nat then cm n vt l i * sinv cutoff (nth l s 0) else 0) (fun j l => cm m u j l)).
  2:{ exact Ht. }
  2:{ intros j l Hj Hl. apply cm_some with m; auto. }
  2:{ apply repeat_length. }
  cbn [obind]. eexists. split; [reflexivity|]. split; [apply tab_length|].
  intros i j Hi Hj. rewrite (cm_tab n m (fun j i => rsum m (fun l => (if (l <? nsv)%nat then cm n vt l i * sinv cutoff (nth l s 0) else 0) * cm m u j l))) by auto.
  rewrite <- (rsum_extend nsv m).
  - apply rsum_ext. intros k Hk. now rewrite (proj2 (Nat.ltb_lt _ _) Hk).
  - unfold nsv. lia.
  - intros k Hk. rewrite (proj2 (Nat.ltb_ge k nsv)) by lia. ring.
Qed.

(** Product of two sums of rank-one terms over orthonormal middle vectors. *)
Lemma sandwich r p (a e b : nat -> nat -> R) (c d : nat -> R) i j :
  (forall k k', (k < r)%nat -> (k' < r)%nat -> rsum p (fun l => b k l * b k' l) = if (k =? k')%nat then 1 else 0) ->
  rsum p (fun l => rsum r (fun k => a i k * c k * b k l) * rsum r (fun k => b k l * d k * e k j))
  = rsum r (fun k => a i k * (c k * d k) * e k j).
Proof.
  intros Ho.
  transitivity (rsum p (fun l => rsum r (fun k => rsum r (fun k' => (a i k * c k * d k' * e k' j) * (b k l * b k' l))))).
  - apply rsum_ext. intros l _. rewrite rsum_rsum_mul. apply rsum_ext. intros k _. apply rsum_ext. intros k' _. ring.
  - rewrite rsum_swap. apply rsum_ext. intros k Hk. rewrite rsum_swap.
    rewrite (rsum_single r _ k Hk).
    + rewrite rsum_scal, (Ho k k Hk Hk), Nat.eqb_refl. ring.
    + intros k' Hk' N. rewrite rsum_scal, (Ho k k' Hk Hk'), (proj2 (Nat.eqb_neq k k')) by auto. ring.
Qed.

(** The rows of a square matrix with orthonormal columns are orthonormal. *)
Lemma orth_transpose r (b : nat -> nat -> R) :
  (forall k k', (k < r)%nat -> (k' < r)%nat -> rsum r (fun l => b k l * b k' l) = if (k =? k')%nat then 1 else 0) ->
  forall i j, (i < r)%nat -> (j < r)%nat -> rsum r (fun k => b k i * b k j) = if (i =? j)%nat then 1 else 0.
Proof.
  intros Ho.
  set (P := fun i j => rsum r (fun k => b k i * b k j)).
  set (dl := fun i j : nat => if (i =? j)%nat then 1 else 0).
  assert (PP : forall i j, rsum r (fun l => P i l * P l j) = P i j).
  { intros i j. unfold P.
    transitivity (rsum r (fun l => rsum r (fun k => b k i * 1 * b k l) * rsum r (fun k => b k l * 1 * b k j))).
    - apply rsum_ext. intros l _. f_equal; apply rsum_ext; intros; ring.
    - rewrite (sandwich r r (fun i k => b k i) b b (fun _ => 1) (fun _ => 1) i j Ho). apply rsum_ext. intros; ring. }
  assert (PS : forall i j, P i j = P j i) by (intros; apply rsum_ext; intros; ring).
  assert (tr : rsum r (fun i => P i i) = INR r).
  { unfold P. rewrite rsum_swap. transitivity (rsum r (fun _ => 1)).
    - apply rsum_ext. intros k Hk. rewrite (Ho k k Hk Hk), Nat.eqb_refl. reflexivity.
    - clear. induction r as [|r IH]; [reflexivity|]. cbn [rsum]. rewrite IH, S_INR. reflexivity. }
  assert (D : rsum r (fun i => rsum r (fun j => (dl i j - P i j) * (dl i j - P i j))) = 0).
  { transitivity (rsum r (fun i => 1 - P i i)).
    - apply rsum_ext. intros i Hi.
      transitivity (rsum r (fun j => dl i j * dl i j + (-2) * (dl i j * P i j) + P i j * P j i)).
      + apply rsum_ext. intros j _. rewrite (PS j i). ring.
      + rewrite !rsum_add, rsum_scal, PP.
        rewrite (rsum_single r (fun j => dl i j * dl i j) i Hi).
        2:{ intros j Hj N. unfold dl. rewrite (proj2 (Nat.eqb_neq i j)) by auto. ring. }
        rewrite (rsum_single r (fun j => dl i j * P i j) i Hi).
        2:{ intros j Hj N. unfold dl. rewrite (proj2 (Nat.eqb_neq i j)) by auto. ring. }
        unfold dl. rewrite Nat.eqb_refl. ring.
    - transitivity (rsum r (fun i => 1 + (-1) * P i i)); [apply rsum_ext; intros; ring|].
      rewrite rsum_add, rsum_scal, tr.
      assert (X : rsum r (fun _ => 1) = INR r) by (clear; induction r as [|r IH]; [reflexivity|]; cbn [rsum]; rewrite IH, S_INR; reflexivity).
      rewrite X. ring. }
  intros i j Hi Hj.
  assert (Z : (dl i j - P i j) * (dl i j - P i j) = 0).
  { refine (rsum_null r (fun j => (dl i j - P i j) * (dl i j - P i j)) _ _ j Hj).
    - intros. apply Rle_0_sqr.
    - refine (rsum_null r (fun i => rsum r (fun j => (dl i j - P i j) * (dl i j - P i j))) _ D i Hi).
      intros. apply rsum_pos. intros. apply Rle_0_sqr. }
  apply Rsqr_0_uniq in Z. fold (P i j). change (P i j = dl i j). lra.
Qed.
