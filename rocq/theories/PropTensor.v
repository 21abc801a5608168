(** Properties C12, C14, C15, C16, C43, C44: Kronecker routines, three-way
    tensors and discrete tensor trains. *)
From Verif Require Import TTMain Instances.
From Coq Require Import ZArith.
Close Scope Z_scope.
Open Scope nat_scope.
Open Scope cr_scope.

(** * C12: Kronecker routines *)
Theorem C12_kron :
  forall (R : CRing) (a b : mat R), mat_wf a -> mat_wf b ->
  exists c, kron a b = Ok c /\ mat_wf c /\ m_nrows c = m_nrows a * m_nrows b /\
    m_ncols c = m_ncols a * m_ncols b /\
    forall i j p q, i < m_nrows a -> j < m_ncols a -> p < m_nrows b -> q < m_ncols b ->
      ment c (i * m_nrows b + p) (j * m_ncols b + q) = ment a i j *! ment b p q.
Proof. exact @kron_ok. Qed.
Print Assumptions C12_kron.

Theorem C12_kron_col :
  forall (R : CRing) n m a oa lda k l b ob ldb (out : list R) oo ldc,
  n * k <= ldc ->
  (forall i j, i < n -> j < m -> oa + (j * lda + i) < length a) ->
  (forall i j, i < k -> j < l -> ob + (j * ldb + i) < length b) ->
  (forall i j, i < n * k -> j < m * l -> oo + (j * ldc + i) < length out) ->
  exists out', kron_col n m a oa lda k l b ob ldb out oo ldc = Ok out' /\
    length out' = length out /\
    (forall i j p q, i < n -> j < m -> p < k -> q < l ->
       nth (oo + ((j * l + q) * ldc + (i * k + p))) out' r0
       = nth (oa + (j * lda + i)) a r0 *! nth (ob + (q * ldb + p)) b r0) /\
    (forall z, (forall row col, row < n * k -> col < m * l -> z <> oo + (col * ldc + row)) ->
       nth_error out' z = nth_error out z).
Proof. exact @kron_col_ok. Qed.
Print Assumptions C12_kron_col.

(** The full claim for vec_kron (any column counts) is false of the code; this
    is the part that holds: equal column counts. *)
Theorem C12_vec_kron_partial :
  forall (R : CRing) m n a oa lda k l b ob ldb v scale (out : list R),
  0 < m -> 0 < k -> 0 < l -> n = l -> m <= lda -> k <= ldb ->
  (forall i j, i < m -> j < n -> oa + (j * lda + i) < length a) ->
  (forall i j, i < k -> j < l -> ob + (j * ldb + i) < length b) ->
  length v = m * k -> length out = n * l ->
  exists out', vec_kron m n a oa lda k l b ob ldb v scale out = Ok out' /\ length out' = n * l /\
    forall j q, j < n -> q < l ->
      nth (j * l + q) out' r0
      = sum m (fun i => sum k (fun p => nth (i * k + p) v r0 *!
                  (nth (oa + (j * lda + i)) a r0 *! nth (ob + (q * ldb + p)) b r0)))
        +! scale *! nth (j * l + q) out r0.
Proof. exact @vec_kron_spec. Qed.
Print Assumptions C12_vec_kron_partial.

(** With different column counts the routine never works: it stops in BLAS
    (n < l) or writes outside the output (n > l). *)
Theorem C12_vec_kron_refuted :
  forall (R : CRing) m n a oa lda k l b ob ldb v scale (out : list R),
  0 < m -> 0 < k -> 0 < l -> 0 < n -> n <> l -> m <= lda -> k <= ldb ->
  (forall i j, i < m -> j < n -> oa + (j * lda + i) < length a) ->
  (forall i j, i < k -> j < l -> ob + (j * ldb + i) < length b) ->
  length v = m * k -> length out = n * l ->
  vec_kron m n a oa lda k l b ob ldb v scale out = if n <? l then Abort else UB.
Proof. exact @vec_kron_bad. Qed.
Print Assumptions C12_vec_kron_refuted.

Example C12_kron_example :
  kron (mkmat (R := Zring) 1 2 [2; 3]%Z) (mkmat (R := Zring) 2 1 [5; 7]%Z) = Ok (mkmat (R := Zring) 2 2 [10; 15; 14; 21]%Z).
Proof. reflexivity. Qed.
Example C12_kron_col_example :
  kron_col (R := Zring) 2 1 [2; 3]%Z 0 2 1 2 [9; 5; 7]%Z 1 1 [0; 0; 1; 0; 0; 1]%Z 0 3
  = Ok ([10; 15; 1; 14; 21; 1]%Z : list Zring).
Proof. reflexivity. Qed.
Example C12_vec_kron_example :
  vec_kron (R := Zring) 2 2 [1; 2; 3; 4]%Z 0 2 1 2 [5; 6]%Z 0 1 [1; 10]%Z 1%Z [0; 0; 0; 1]%Z
  = Ok ([105; 126; 215; 259]%Z : list Zring).
Proof. reflexivity. Qed.
Example C12_vec_kron_bad_example :
  vec_kron (R := Zring) 1 2 [1; 2]%Z 0 1 1 1 [5]%Z 0 1 [1]%Z 1%Z [0; 0]%Z = UB /\
  vec_kron (R := Zring) 1 1 [1]%Z 0 1 1 2 [5; 6]%Z 0 1 [1]%Z 1%Z [0; 0]%Z = Abort.
Proof. split; reflexivity. Qed.

(** * C15: element access *)
(** Full claim: for all mode sizes and dimensions.  It holds when the interior
    mode sizes from the third on agree with the second. *)
Theorem C15_ttelem_partial :
  forall (R : CRing) (t : ttrain R) idx,
  tt_wf t -> 2 <= tt_dim t ->
  (forall k, 2 <= k -> k < tt_dim t - 1 -> nv t k = nv t 1) ->
  valid_idx (tt_nvals t) idx ->
  ttelem t idx = Ok (tt_value t idx).
Proof. exact @ttelem_spec. Qed.
Print Assumptions C15_ttelem_partial.

Definition zt3 (a b c : nat) (v : list Zring) : tensor Zring := mktn 3 [a; b; c] v.

Ltac tt_wf_tac :=
  unfold tt_wf, rk, nv; simpl; do 6 (split; [solve [auto | lia]|]);
  let k := fresh "k" in let Hk := fresh "Hk" in intros k Hk;
  repeat (destruct k as [|k]; [split; [simpl; lia|]; eexists; split; [reflexivity|]; repeat split|]; try lia).

(** modes of sizes 1,2,3,1: a wrong element is returned *)
Definition tt_1231 : ttrain Zring :=
  mktt 4 [1; 2; 3; 1] [1; 1; 1; 2; 1]
    [zt3 1 1 1 [1]%Z; zt3 1 2 1 [1; 1]%Z; zt3 1 3 2 [0; 1; 2; 3; 4; 5]%Z; zt3 2 1 1 [0; 1]%Z].
(** modes of sizes 1,3,1,1: the core is read out of bounds *)
Definition tt_1311 : ttrain Zring :=
  mktt 4 [1; 3; 1; 1] [1; 1; 1; 2; 1]
    [zt3 1 1 1 [1]%Z; zt3 1 3 1 [1; 1; 1]%Z; zt3 1 1 2 [1; 1]%Z; zt3 2 1 1 [1; 1]%Z].
(** a one-dimensional train *)
Definition tt_dim1 : ttrain Zring := mktt 1 [2] [1; 1] [zt3 1 2 1 [7; 8]%Z].

Theorem C15_ttelem_refuted :
  (exists (t : ttrain Zring) idx v, tt_wf t /\ valid_idx (tt_nvals t) idx /\
     ttelem t idx = Ok v /\ v <> tt_value t idx) /\
  (exists (t : ttrain Zring) idx, tt_wf t /\ tt_dim t = 4 /\ valid_idx (tt_nvals t) idx /\ ttelem t idx = UB) /\
  (exists (t : ttrain Zring) idx, tt_wf t /\ tt_dim t = 1 /\ valid_idx (tt_nvals t) idx /\ ttelem t idx = UB).
Proof.
  repeat split.
  - exists tt_1231, [0; 0; 0; 0], 2%Z. split; [tt_wf_tac|]. split; [repeat constructor|].
    split; [reflexivity|]. vm_compute. discriminate.
  - exists tt_1311, [0; 0; 0; 0]. split; [tt_wf_tac|]. split; [reflexivity|]. split; [repeat constructor|].
    reflexivity.
  - exists tt_dim1, [1]. split; [tt_wf_tac|]. split; [reflexivity|]. split; [repeat constructor; lia|].
    reflexivity.
Qed.
Print Assumptions C15_ttelem_refuted.

(** hypotheses of the positive theorem met by unequal outer modes *)
Definition tt_2334 : ttrain Zring :=
  mktt 4 [2; 3; 3; 1] [1; 2; 1; 2; 1]
    [zt3 1 2 2 [1; 2; 3; 4]%Z; zt3 2 3 1 [1; 0; 2; -1; 5; 3]%Z; zt3 1 3 2 [0; 1; 2; 3; 4; 5]%Z;
     zt3 2 1 1 [7; 9]%Z].
Example C15_example :
  tt_wf tt_2334 /\ valid_idx (tt_nvals tt_2334) [1; 2; 1; 0] /\
  (forall k, 2 <= k -> k < tt_dim tt_2334 - 1 -> nv tt_2334 k = nv tt_2334 1) /\
  ttelem tt_2334 [1; 2; 1; 0] = Ok (946%Z : Zring).
Proof.
  split; [tt_wf_tac|]. split; [repeat constructor|]. split; [|reflexivity].
  intros k H1 H2. simpl in H2. assert (k = 2) as -> by lia. reflexivity.
Qed.

(** * C14: arithmetic *)
Theorem C14_ttadd :
  forall (R : CRing) (a b : ttrain R),
  tt_wf a -> tt_wf b -> tt_nvals a = tt_nvals b -> 2 <= tt_dim a ->
  exists c, ttadd a b = Ok c /\ tt_wf c /\ tt_nvals c = tt_nvals a /\
    (forall k, 0 < k -> k < tt_dim a -> rk c k = rk a k + rk b k) /\
    forall idx, valid_idx (tt_nvals a) idx -> tt_value c idx = tt_value a idx +! tt_value b idx.
Proof. exact @ttadd_spec. Qed.
Print Assumptions C14_ttadd.

Theorem C14_ttmult :
  forall (R : CRing) (a b : ttrain R),
  tt_wf a -> tt_wf b -> tt_nvals a = tt_nvals b ->
  exists c, ttmult a b = Ok c /\ tt_wf c /\ tt_nvals c = tt_nvals a /\
    (forall k, k <= tt_dim a -> rk c k = rk a k * rk b k) /\
    forall idx, valid_idx (tt_nvals a) idx -> tt_value c idx = tt_value a idx *! tt_value b idx.
Proof. exact @ttmult_spec. Qed.
Print Assumptions C14_ttmult.

Theorem C14_ttscal :
  forall (R : CRing) (a : ttrain R) s,
  tt_wf a ->
  exists c, ttscal a s = Ok c /\ tt_wf c /\ tt_nvals c = tt_nvals a /\ tt_ranks c = tt_ranks a /\
    forall idx, valid_idx (tt_nvals a) idx -> tt_value c idx = s *! tt_value a idx.
Proof. exact @ttscal_spec. Qed.
Print Assumptions C14_ttscal.

(** The same through the element accessor, where the accessor is right. *)
Theorem C14_elements_partial :
  forall (R : CRing) (a b : ttrain R) idx s,
  tt_wf a -> tt_wf b -> tt_nvals a = tt_nvals b -> 2 <= tt_dim a ->
  (forall k, 2 <= k -> k < tt_dim a - 1 -> nv a k = nv a 1) ->
  valid_idx (tt_nvals a) idx ->
  exists x y, ttelem a idx = Ok x /\ ttelem b idx = Ok y /\
    (do c <- ttadd a b; ttelem c idx) = Ok (x +! y) /\
    (do c <- ttmult a b; ttelem c idx) = Ok (x *! y) /\
    (do c <- ttscal a s; ttelem c idx) = Ok (s *! x).
Proof.
  intros R a b idx s Ha Hb Hn Hd Hk Hi.
  assert (Da : length (tt_nvals a) = tt_dim a) by apply Ha.
  assert (E : forall c : ttrain R, tt_wf c -> tt_nvals c = tt_nvals a -> ttelem c idx = Ok (tt_value c idx)).
  { intros c Hc Hcn. assert (Dc : length (tt_nvals c) = tt_dim c) by apply Hc.
    assert (tt_dim c = tt_dim a) by congruence.
    apply ttelem_spec; auto; try lia; [|congruence]. unfold nv. rewrite Hcn. intros k H1 H2. apply Hk; lia. }
  exists (tt_value a idx), (tt_value b idx). split; [now apply E|]. split; [now apply E|].
  destruct (ttadd_spec a b) as (c1 & -> & W1 & N1 & _ & V1); auto.
  destruct (ttmult_spec a b) as (c2 & -> & W2 & N2 & _ & V2); auto.
  destruct (ttscal_spec a s) as (c3 & -> & W3 & N3 & _ & V3); auto.
  cbn [obind]. rewrite !E by auto. rewrite V1, V2, V3 by auto. auto.
Qed.
Print Assumptions C14_elements_partial.

(** Inner product: full claim for all ranks; it holds when the interior ranks
    from the third on agree. *)
Theorem C14_tt_dot_partial :
  forall (R : CRing) (a b : ttrain R),
  tt_wf a -> tt_wf b -> tt_nvals a = tt_nvals b ->
  (forall k, 2 <= k -> k < tt_dim a -> rk a k = rk b k) ->
  tt_dot a b = Ok (msum (tt_nvals a) (fun idx => tt_value a idx *! tt_value b idx)).
Proof. exact @tt_dot_spec. Qed.
Print Assumptions C14_tt_dot_partial.

Definition tt_r1121 : ttrain Zring :=
  mktt 3 [1; 1; 1] [1; 1; 2; 1] [zt3 1 1 1 [1]%Z; zt3 1 1 2 [1; 1]%Z; zt3 2 1 1 [1; 1]%Z].
Definition tt_r1111 : ttrain Zring :=
  mktt 3 [1; 1; 1] [1; 1; 1; 1] [zt3 1 1 1 [1]%Z; zt3 1 1 1 [1]%Z; zt3 1 1 1 [1]%Z].

Theorem C14_tt_dot_refuted :
  exists a b : ttrain Zring, tt_wf a /\ tt_wf b /\ tt_nvals a = tt_nvals b /\
    tt_dot a b = UB /\ tt_dot b a = Abort.
Proof.
  exists tt_r1121, tt_r1111. split; [tt_wf_tac|]. split; [tt_wf_tac|]. repeat split; reflexivity.
Qed.
Print Assumptions C14_tt_dot_refuted.

Definition tt_233b : ttrain Zring :=
  mktt 4 [2; 3; 3; 1] [1; 3; 1; 2; 1]
    [zt3 1 2 3 [1; 2; 3; 4; 0; 1]%Z; zt3 3 3 1 [1; 0; 2; -1; 5; 3; 1; 1; 2]%Z;
     zt3 1 3 2 [0; 1; 2; 3; -4; 5]%Z; zt3 2 1 1 [7; -9]%Z].
Example C14_example :
  tt_wf tt_233b /\ tt_nvals tt_2334 = tt_nvals tt_233b /\
  (forall k, 2 <= k -> k < tt_dim tt_2334 -> rk tt_2334 k = rk tt_233b k) /\
  (do c <- ttadd tt_2334 tt_233b; ttelem c [1; 2; 1; 0]) = Ok (1290%Z : Zring) /\
  (do c <- ttmult tt_2334 tt_233b; ttelem c [1; 2; 1; 0]) = Ok ((946 * 344)%Z : Zring).
Proof.
  split; [tt_wf_tac|]. split; [reflexivity|]. split; [|split; reflexivity].
  intros k H1 H2. simpl in H2. assert (k = 2 \/ k = 3) as [-> | ->] by lia; reflexivity.
Qed.

(** * C16: three-way tensors *)
Theorem C16_copy : forall (R : CRing) (t : tensor R) n0 n1 n2, t3wf t n0 n1 n2 -> copy3 t false = Ok t.
Proof. exact @copy3_id. Qed.
Print Assumptions C16_copy.

(** Transposed copies of tensors with equal outer sizes are right. *)
Theorem C16_transpose_partial :
  forall (R : CRing) (t : tensor R) n n1, t3wf t n n1 n ->
  exists c, copy3 t true = Ok c /\ t3wf c n n1 n /\
    forall i j k, i < n -> j < n1 -> k < n -> tent c i j k = tent t k j i.
Proof. exact @copy3_tr_square. Qed.
Print Assumptions C16_transpose_partial.

(** In general the data is transposed but the size vector is not. *)
Theorem C16_transpose_data :
  forall (R : CRing) (t : tensor R) n0 n1 n2, t3wf t n0 n1 n2 ->
  exists c, copy3 t true = Ok c /\ t_dim c = 3 /\ t_nvals c = [n0; n1; n2] /\
    length (t_vals c) = n0 * n1 * n2 /\
    forall i j k, i < n2 -> j < n1 -> k < n0 ->
      nth (i + j * n2 + k * n2 * n1) (t_vals c) r0 = tent t k j i.
Proof. exact @copy3_tr. Qed.
Print Assumptions C16_transpose_data.

Theorem C16_transpose_refuted :
  exists (t c : tensor Zring), t3wf t 1 1 2 /\ copy3 t true = Ok c /\ t_nvals c <> [2; 1; 1].
Proof.
  exists (zt3 1 1 2 [5; 6]%Z), (zt3 1 1 2 [5; 6]%Z). split; [repeat split|]. split; [reflexivity|]. discriminate.
Qed.
Print Assumptions C16_transpose_refuted.

Theorem C16_elem :
  forall (R : CRing) (t : tensor R) idx,
  0 < t_dim t -> length (t_nvals t) = t_dim t -> length (t_vals t) = iprod (t_nvals t) ->
  valid_idx (t_nvals t) idx ->
  colmajor (t_nvals t) idx < length (t_vals t) /\
  tensor_elem t idx = Ok (nth (colmajor (t_nvals t) idx) (t_vals t) r0).
Proof. exact @tensor_elem_ok. Qed.
Print Assumptions C16_elem.

Example C16_example :
  copy3 (zt3 2 1 2 [1; 2; 3; 4]%Z) true = Ok (zt3 2 1 2 [1; 3; 2; 4]%Z) /\
  tensor_elem (zt3 2 1 2 [1; 2; 3; 4]%Z) [1; 0; 1] = Ok (4%Z : Zring).
Proof. split; reflexivity. Qed.

(** * C43: integration of a discrete train *)
Theorem C43_tt_integrate :
  forall (R : CRing) (t : ttrain R) (w : list (list R)),
  tt_wf t -> length w = tt_dim t -> (forall k, k < tt_dim t -> nv t k <= length (nth k w [])) ->
  tt_integrate t w = Ok (msum (tt_nvals t) (fun idx => wprod w idx *! tt_value t idx)).
Proof. exact @tt_integrate_spec. Qed.
Print Assumptions C43_tt_integrate.

Example C43_example :
  tt_integrate tt_2334 [[1; 2]; [1; 0; 3]; [2; 1; 1]; [4]]%Z = Ok (111696%Z : Zring).
Proof. vm_compute. reflexivity. Qed.

(** * C44: constructors of discrete trains *)
Theorem C44_copy : forall (R : CRing) (a : ttrain R), tt_wf a -> copy_tt a = Ok a.
Proof. exact @copy_tt_spec. Qed.
Print Assumptions C44_copy.

Theorem C44_ones :
  forall (R : CRing) (ns : list nat), 0 < length ns ->
  exists c, tt_ones (R := R) (length ns) ns = Ok c /\ tt_wf c /\ tt_nvals c = ns /\
    forall idx, valid_idx ns idx -> tt_value c idx = (r1 : R).
Proof. exact @tt_ones_spec. Qed.
Print Assumptions C44_ones.

(** tt_x: all ranks are one, the core of the named mode holds x, the others hold
    ones; the other cores have their sizes in the wrong order. *)
Theorem C44_tt_x_partial :
  forall (R : CRing) (x : list R) (dimx d : nat) (n : nat -> nat), dimx < d -> n dimx <= length x ->
  exists t, tt_x x dimx d (tab d n) = Ok t /\ tt_dim t = d /\ tt_nvals t = tab d n /\
    tt_ranks t = repeat 1 (d + 1) /\ length (tt_cores t) = d /\
    nth_error (tt_cores t) dimx = Some (mktn 3 [1; n dimx; 1] (firstn (n dimx) x)) /\
    forall k, k < d -> k <> dimx -> nth_error (tt_cores t) k = Some (mktn 3 [1; 1; n k] (repeat r1 (n k))).
Proof.
  intros R x dimx d n Hd Hx. unfold tt_x. rewrite alloc_ranks_tab, alloc_cores_tab. unfold for_.
  assert (Ones : forall m, ones3 (R := R) 1 1 m = Ok (mktn 3 [1; 1; m] (repeat r1 m))).
  { intros m. rewrite ones3_ok. unfold mk3, v3. do 2 f_equal. rewrite repeat_tab. rewrite !Nat.mul_1_l. reflexivity. }
  set (one := fun k => Some (mktn 3 [1; 1; n k] (repeat (r1 (c := R)) (n k)))).
  rewrite (loop_tab2 (d + 1) d _ _ (fun _ => 1) one).
  2:{ intros k r c Hk. cbn [fst snd]. rewrite aset_tab by lia. cbn [obind]. rewrite aget_tab by lia. cbn [obind].
      rewrite Ones. cbn [obind]. rewrite aset_tab by lia. reflexivity. }
  cbn [obind]. rewrite aset_tab by lia. cbn [obind]. rewrite aget_tab by lia. cbn [obind].
  assert (X3 : x3 (n dimx) x = Ok (mktn 3 [1; n dimx; 1] (firstn (n dimx) x))).
  { unfold x3, blit, for_. replace (iprod [1; n dimx; 1]) with (n dimx) by (unfold iprod; simpl; lia).
    rewrite repeat_tab. rewrite (loop_tab1 _ _ (fun k => nth k x r0)).
    - cbn [obind]. do 2 f_equal. apply nth_error_ext; [rewrite tab_length, firstn_length; lia|].
      rewrite tab_length. intros i Hi. rewrite nth_error_tab by auto. destruct (Nat.ltb_spec i (0 + n dimx)); [|lia].
      cbn [Nat.leb andb]. rewrite (nth_error_nth' _ r0) by (rewrite firstn_length; lia). f_equal.
      rewrite <- (firstn_skipn (n dimx) x) at 1. apply app_nth1. rewrite firstn_length. lia.
    - intros k r Hk. cbn [Nat.add]. rewrite (aget_ok x k (nth k x r0)) by (apply nth_error_nth'; lia). cbn [obind].
      apply aset_tab. lia. }
  rewrite X3. cbn [obind]. rewrite aset_tab by lia. cbn [obind].
  rewrite (loop_tab2 (d + 1) d _ _ (fun _ => 1) one).
  2:{ intros k r c Hk. cbn [fst snd]. rewrite aset_tab by lia. cbn [obind]. rewrite aget_tab by lia. cbn [obind].
      rewrite Ones. cbn [obind]. rewrite aset_tab by lia. reflexivity. }
  cbn [obind]. rewrite aset_tab by lia. cbn [obind].
  match goal with |- context [freeze (tab d ?c)] =>
    rewrite (tab_ext d c (fun k => Some (if k =? dimx then mktn 3 [1; n dimx; 1] (firstn (n dimx) x) else mktn 3 [1; 1; n k] (repeat r1 (n k)))))
  end.
  2:{ intros k Hk. unfold one. destruct (Nat.leb_spec (dimx + 1) k), (Nat.ltb_spec k (dimx + 1 + (d - (dimx + 1)))),
        (Nat.eqb_spec k dimx), (Nat.ltb_spec k (0 + dimx)); cbn [andb Nat.leb]; try lia; reflexivity. }
  rewrite freeze_tab. cbn [obind]. eexists. split; [reflexivity|]. cbn [tt_dim tt_nvals tt_ranks tt_cores].
  split; [reflexivity|]. split; [reflexivity|]. split.
  { rewrite repeat_tab. apply tab_ext. intros k Hk.
    destruct (Nat.eqb_spec k d), (Nat.leb_spec (dimx + 1) k), (Nat.ltb_spec k (dimx + 1 + (d - (dimx + 1)))),
      (Nat.eqb_spec k dimx), (Nat.ltb_spec k (0 + dimx)), (Nat.eqb_spec k 0); cbn [andb Nat.leb]; try lia; reflexivity. }
  split; [apply tab_length|]. split.
  - rewrite nth_error_tab by auto. rewrite Nat.eqb_refl. reflexivity.
  - intros k Hk Nk. rewrite nth_error_tab by auto. apply Nat.eqb_neq in Nk. rewrite Nk. reflexivity.
Qed.
Print Assumptions C44_tt_x_partial.
Example C44_tt_x_case : tt_x (R := Zring) [5; 6; 7]%Z 1 3 (tab 3 (fun k => 2)) =
  Ok (mktt (R := Zring) 3 [2; 2; 2] [1; 1; 1; 1] [mktn (R := Zring) 3 [1; 1; 2] [1; 1]%Z; mktn (R := Zring) 3 [1; 2; 1] [5; 6]%Z; mktn (R := Zring) 3 [1; 1; 2] [1; 1]%Z]).
Proof. reflexivity. Qed.

(** tt_x builds cores of shape 1 x 1 x n instead of 1 x n x 1 for the other
    modes; the integral of x(i) over a 2 x 3 grid is then missing a factor. *)
Theorem C44_tt_x_refuted :
  exists (x : list Zring) (t : ttrain Zring), tt_x x 0 2 [2; 3] = Ok t /\ ~ tt_wf t /\
    tt_integrate t [[1; 1]; [1; 1; 1]]%Z = Ok (11%Z : Zring) /\
    msum [2; 3] (fun idx => nth (nth 0 idx 0) x r0) = 33%Z.
Proof.
  eexists [5; 6]%Z, _. split; [reflexivity|]. split; [|split; reflexivity].
  intros (_ & _ & _ & _ & _ & _ & H). destruct (H 1) as (_ & c & E & _ & N & _); [simpl; lia|].
  simpl in E. injection E as <-. discriminate N.
Qed.
Print Assumptions C44_tt_x_refuted.
