(** Properties of linear combinations and quasimatrix-array products: C31, C13. *)
From Verif Require Import QmaMore PolyInst Instances PropFT.
From Coq Require Import QArith Qcanon.
Close Scope Qc_scope.
Close Scope Q_scope.
Open Scope nat_scope.

(** Value of entry (i,j) of a quasimatrix array at x, read directly from the
    column-major storage. *)
Definition qval {R : CRing} {U : uops R} (a : qma U) (i j : nat) (x : R) : R :=
  match nth_error (fs a) (j * nr a + i) with Some f => uev f x | None => r0 end.

(** * C31 *)
Theorem C31_lin_comb_value :
  forall (R : CRing) (U : uops R), law_ev_lin U ->
  forall n (f : list U) (c : list R), 0 < n -> length f = n -> length c = n ->
  exists u, lin_comb n f c = Ok u /\
    forall x, uev u x = lsum (map (fun p => rmul (fst p) (uev (snd p) x)) (combine c f)).
Proof. exact @lin_comb_list. Qed.
Print Assumptions C31_lin_comb_value.

(** the strided variant, for any offsets and leading dimensions *)
Theorem C31_lin_comb2_value :
  forall (R : CRing) (U : uops R) n ldgf (gfa : list U) og ldc (c : list R) oc
         (cf : nat -> R) (ff : nat -> U),
  law_ev_lin U -> 0 < n ->
  (forall i, i < n -> nth_error c (oc + i * ldc) = Some (cf i)) ->
  (forall i, i < n -> nth_error gfa (og + i * ldgf) = Some (ff i)) ->
  exists u, lin_comb2 n ldgf gfa og ldc c oc = Ok u /\
    forall x, uev u x = sum n (fun i => rmul (cf i) (uev (ff i) x)).
Proof. exact @lin_comb2_ev. Qed.
Print Assumptions C31_lin_comb2_value.

(** the same linear combination under integration *)
Theorem C31_lin_comb2_integral :
  forall (R : CRing) (U : uops R) n ldgf (gfa : list U) og ldc (c : list R) oc
         (cf : nat -> R) (ff : nat -> U),
  law_int_lin U -> 0 < n ->
  (forall i, i < n -> nth_error c (oc + i * ldc) = Some (cf i)) ->
  (forall i, i < n -> nth_error gfa (og + i * ldgf) = Some (ff i)) ->
  exists u, lin_comb2 n ldgf gfa og ldc c oc = Ok u /\
    uint u = sum n (fun i => rmul (cf i) (uint (ff i))).
Proof.
  intros R U n ldgf gfa og ldc c oc cf ff HL Hn Hc Hf.
  destruct (lin_comb2_ok n ldgf gfa og ldc c oc cf ff Hn Hc Hf) as (u & E & H).
  exists u. split; [exact E|]. apply H, HL.
Qed.
Print Assumptions C31_lin_comb2_integral.

(** five functions of mixed classes: 2(1+2x) - (3x) + 7(x^2) + 5 - 4(2+x) at x = 10 *)
Example C31_example :
  exists u, lin_comb (R := Qcring) (U := polyU) 5
              [pf [1; 2]; nf [0; 3]; pf [0; 0; 1]; nf [1]; pf [2; 1]]%Z
              [qc 2; qc (-1); qc 7; qc 5; qc (-4)]%Z = Ok u /\ uev u (qc 10) = qc 669.
Proof.
  destruct (C31_lin_comb_value Qcring polyU polyU_ev_lin 5
              [pf [1; 2]; nf [0; 3]; pf [0; 0; 1]; nf [1]; pf [2; 1]]%Z
              [qc 2; qc (-1); qc 7; qc 5; qc (-4)]%Z) as (u & E & H); try reflexivity; [lia|].
  exists u. split; [exact E|]. rewrite H. apply Qc_is_canon. reflexivity.
Qed.

(** * C13 *)
Theorem C13_plain_product :
  forall (R : CRing) (U : uops R), law_ev_lin U -> law_ev_prod U -> law_ev_sumprod U ->
  forall a b : qma U, qwf a -> qwf b -> nc a = nr b -> 0 < nc a ->
  exists c, qmaqma a b = Ok c /\ nr c = nr a /\ nc c = nc b /\ qwf c /\
    forall i j x, i < nr a -> j < nc b ->
      qval c i j x = sum (nc a) (fun k => rmul (qval a i k x) (qval b k j x)).
Proof. exact @qmaqma_ok. Qed.
Print Assumptions C13_plain_product.

Theorem C13_left_transposed_product :
  forall (R : CRing) (U : uops R), law_ev_lin U -> law_ev_prod U -> law_ev_sumprod U ->
  forall a b : qma U, qwf a -> qwf b -> nr a = nr b -> 0 < nr a ->
  exists c, qmatqma a b = Ok c /\ nr c = nc a /\ nc c = nc b /\ qwf c /\
    forall i j x, i < nc a -> j < nc b ->
      qval c i j x = sum (nr a) (fun k => rmul (qval a k i x) (qval b k j x)).
Proof. exact @qmatqma_ok. Qed.
Print Assumptions C13_left_transposed_product.

Theorem C13_right_transposed_product :
  forall (R : CRing) (U : uops R), law_ev_lin U -> law_ev_prod U -> law_ev_sumprod U ->
  forall a b : qma U, qwf a -> qwf b -> nc a = nc b -> 0 < nc a ->
  exists c, qmaqmat a b = Ok c /\ nr c = nr a /\ nc c = nr b /\ qwf c /\
    forall i j x, i < nr a -> j < nr b ->
      qval c i j x = sum (nc a) (fun k => rmul (qval a i k x) (qval b j k x)).
Proof. exact @qmaqmat_ok. Qed.
Print Assumptions C13_right_transposed_product.

(** a^T b^T is only computed correctly when [a] has one column ... *)
Theorem C13_both_transposed_one_column_partial :
  forall (R : CRing) (U : uops R), law_ev_lin U -> law_ev_prod U -> law_ev_sumprod U ->
  forall a b : qma U, qwf a -> qwf b -> nr a = nc b -> nc a = 1 -> 0 < nr a ->
  exists c, qmatqmat a b = Ok c /\ nr c = nc a /\ nc c = nr b /\ qwf c /\
    forall i j x, i < nc a -> j < nr b ->
      qval c i j x = sum (nr a) (fun k => rmul (qval a k i x) (qval b j k x)).
Proof. exact @qmatqmat_one. Qed.
Print Assumptions C13_both_transposed_one_column_partial.

(** ... for square results the transpose of the documented product comes
    out ... *)
Theorem C13_both_transposed_square_is_transposed :
  forall (R : CRing) (U : uops R), law_ev_lin U -> law_ev_prod U -> law_ev_sumprod U ->
  forall a b : qma U, qwf a -> qwf b -> nr a = nc b -> nc a = nr b -> 0 < nr a ->
  exists c, qmatqmat a b = Ok c /\ nr c = nr b /\ nc c = nc a /\ qwf c /\
    forall i j x, i < nr b -> j < nc a ->
      qval c i j x = sum (nr a) (fun k => rmul (qval b i k x) (qval a k j x)).
Proof. exact @qmatqmat_square. Qed.
Print Assumptions C13_both_transposed_square_is_transposed.

(** ... and for every other shape memory outside the array is written or
    entries are left unset. *)
Theorem C13_both_transposed_rectangular_refuted :
  forall (R : CRing) (U : uops R), law_ev_lin U -> law_ev_prod U -> law_ev_sumprod U ->
  forall a b : qma U, qwf a -> qwf b -> nr a = nc b -> 0 < nr a -> 1 < nc a -> 0 < nr b ->
  nc a <> nr b -> qmatqmat a b = UB.
Proof. exact @qmatqmat_bad. Qed.
Print Assumptions C13_both_transposed_rectangular_refuted.

Definition q22 : qma polyU := mkq 2 2 [pf [1]; pf [0]; pf [5]; nf [1; 1]]%Z.
Definition q22b : qma polyU := mkq 2 2 [pf [2]; pf [0; 1]; nf [3]; nf [1]]%Z.
Definition q23 : qma polyU := mkq 2 3 [pf [2]; pf [0; 1]; nf [3]; nf [1]; pf [4]; pf [5]]%Z.

(** witness: entry (0,1) of a^T b^T is 1 * x + 0 * 1, the stored value differs *)
Theorem C13_both_transposed_square_refuted :
  exists (a b c : qma polyU) (x : Qc),
    qwf a /\ qwf b /\ nr a = nc b /\ nc a = nr b /\
    qmatqmat (R := Qcring) a b = Ok c /\
    qval (R := Qcring) c 0 1 x <>
    sum (R := Qcring) (nr a) (fun k => rmul (qval (R := Qcring) a k 0 x) (qval (R := Qcring) b 1 k x)).
Proof.
  destruct (C13_both_transposed_square_is_transposed Qcring polyU polyU_ev_lin polyU_ev_prod polyU_ev_sumprod
              q22 q22b) as (c & E & _ & _ & _ & H); try reflexivity; [simpl; lia|].
  exists q22, q22b, c, (qc 7). repeat (split; [first [reflexivity|exact E]|]).
  rewrite H by (simpl; lia). intro C. apply (f_equal (fun q : Qc => Qnum q)) in C. vm_compute in C. discriminate.
Qed.
Print Assumptions C13_both_transposed_square_refuted.

Example C13_rectangular_example : qmatqmat (R := Qcring) q23 (mkq 1 2 [pf [1]; nf [2]]%Z) = UB.
Proof.
  apply (C13_both_transposed_rectangular_refuted Qcring polyU polyU_ev_lin polyU_ev_prod polyU_ev_sumprod);
    simpl; try reflexivity; lia.
Qed.

Example C13_plain_example :
  exists c, qmaqma (R := Qcring) q22 q23 = Ok c /\ nr c = 2 /\ nc c = 3 /\
    qval (R := Qcring) c 0 0 (qc 7) = qc 37.
Proof.
  destruct (C13_plain_product Qcring polyU polyU_ev_lin polyU_ev_prod polyU_ev_sumprod q22 q23)
    as (c & E & N & M & _ & H); try reflexivity; [simpl; lia|].
  exists c. repeat split; auto. rewrite H by (simpl; lia). apply Qc_is_canon. reflexivity.
Qed.

(** qmarray_vec_kron with equally many columns: position [j * nc b + i] of the
    result, which is where a^T kron(c,b) has it; the documented a^T kron(b,c)
    has it at position [i * nc c + j]. *)
Theorem C13_vec_kron_order_swapped :
  forall (R : CRing) (U : uops R), law_ev_lin U -> law_ev_prod U -> law_ev_sumprod U ->
  forall (a : list R) (b c : qma U),
  qwf b -> qwf c -> nc b = nc c -> 0 < nr b -> 0 < nr c -> length a = nr b * nr c ->
  exists d, qmarray_vec_kron a b c = Ok d /\ nr d = nc c /\ nc d = nc b /\ qwf d /\
    forall i j x, i < nc b -> j < nc c ->
      qval d i j x
      = sum (nr c) (fun k => sum (nr b) (fun l =>
          rmul (nth (k * nr b + l) a r0) (rmul (qval b l i x) (qval c k j x)))).
Proof. exact @qmarray_vec_kron_square. Qed.
Print Assumptions C13_vec_kron_order_swapped.

(** one column in [b] or a rectangular pair: see the previous theorems; the
    rectangular case is not defined behaviour. *)
Theorem C13_vec_kron_rectangular_refuted :
  exists (a : list Qc) (b c : qma polyU),
    qwf b /\ qwf c /\ length a = nr b * nr c /\ 0 < nr b /\ 0 < nr c /\
    qmarray_vec_kron (R := Qcring) a b c = UB.
Proof.
  exists [qc 1; qc 2; qc 3; qc 4], q22, q23. repeat split; simpl; try lia. 
Qed.
Print Assumptions C13_vec_kron_rectangular_refuted.
