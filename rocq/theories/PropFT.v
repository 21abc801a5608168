(** Properties of function trains: C01 to C06 and C41. *)
From Verif Require Import FTMore PolyInst Instances.
From Coq Require Import QArith Qcanon.
Close Scope Qc_scope.
Close Scope Q_scope.
Open Scope nat_scope.

(** * Concrete trains used to show that the hypotheses can be met *)
Definition qc (z : Z) : Qc := Q2Qc (inject_Z z).
Definition pf (l : list Z) : polyU := mkt true (map qc l).
Definition nf (l : list Z) : polyU := mkt false (map qc l).

(** rank (1,2,2,1) train in three dimensions and a rank (1,1,3,1) one *)
Definition exA : ftrain polyU :=
  mkft 3 [1; 2; 2; 1]
    [mkq 1 2 [pf [1; 2]; pf [0; 1]]%Z;
     mkq 2 2 [pf [1]; nf [2; 1]; pf [0; 3]; nf [1; 1; 1]]%Z;
     mkq 2 1 [pf [5; 1]; pf [0; 0; 2]]%Z].
Definition exB : ftrain polyU :=
  mkft 3 [1; 1; 3; 1]
    [mkq 1 1 [pf [1; -1]]%Z;
     mkq 1 3 [pf [1]; pf [2; 1]; nf [0; 3]]%Z;
     mkq 3 1 [pf [5; 1]; pf [0; 0; 2]; pf [7]]%Z].

Ltac wf_concrete :=
  unfold ft_wf, chain, qwf; simpl; repeat split; auto; lia.

Example exA_wf : ft_wf exA. Proof. wf_concrete. Qed.
Example exB_wf : ft_wf exB. Proof. wf_concrete. Qed.
Example exA_small : ft_small exA.
Proof. intros c [<-|[<-|[<-|[]]]]; left; simpl; lia. Qed.
Definition ws0 : wspace Qcring := mkws None None None.
Example ws0_wf : ws_wf ws0. Proof. repeat split. Qed.

(** * C01 *)
Theorem C01_evaluation_is_path_sum :
  forall (R : CRing) (U : uops R) (f : ftrain U) (w : wspace R) (x : list R),
  ft_wf f -> ft_small f -> ws_wf w -> length x = ft_dim f ->
  exists w', ft_eval f w x = Ok (train_value f x, w') /\ ws_wf w'.
Proof. exact @ft_eval_correct. Qed.
Print Assumptions C01_evaluation_is_path_sum.

Theorem C01_many_points :
  forall (R : CRing) (U : uops R) (f : ftrain U) (w : wspace R) N (x evals : list R),
  ft_wf f -> ft_small f -> ws_wf w -> N * ft_dim f <= length x -> length evals = N ->
  exists w', ft_evals f w N x evals
    = Ok (tab N (fun n => train_value f (firstn (ft_dim f) (skipn (n * ft_dim f) x))), w')
    /\ ws_wf w'.
Proof. exact @ft_evals_correct. Qed.
Print Assumptions C01_many_points.

Theorem C01_outer_ranks_checked :
  forall (R : CRing) (U : uops R) (f : ftrain U) w x (r0 rd : nat),
  nth_error (ft_ranks f) 0 = Some r0 -> nth_error (ft_ranks f) (ft_dim f) = Some rd ->
  r0 <> 1 \/ rd <> 1 -> ft_eval f w x = Abort.
Proof. exact @ft_eval_abort. Qed.
Print Assumptions C01_outer_ranks_checked.

(** a three-dimensional train with ranks 2: 2 * 2 = 4 rank paths *)
Example C01_example :
  length (terms (ft_cores exA) 0) = 4 /\
  exists w', ft_eval exA ws0 [qc 2; qc 3; qc 5] = Ok (qc 3700, w').
Proof.
  split; [reflexivity|].
  destruct (C01_evaluation_is_path_sum _ _ exA ws0 [qc 2; qc 3; qc 5] exA_wf exA_small ws0_wf eq_refl)
    as (w' & E & _).
  exists w'. exact E.
Qed.

(** The evaluation runs into the 1000-pointer stack buffer for a legal train
    whose middle core has 32 x 32 polynomials: the full property (no bound on
    the ranks) is false of the code. *)
Definition exBig : ftrain polyU :=
  mkft 3 [1; 32; 32; 1]
    [mkq 1 32 (repeat (pf [1%Z]) 32); mkq 32 32 (repeat (pf [1%Z]) (32 * 32));
     mkq 32 1 (repeat (pf [1%Z]) 32)].

Theorem C01_large_ranks_refuted :
  exists (f : ftrain polyU) (x : list Qc),
    ft_wf f /\ length x = ft_dim f /\ ft_eval (R := Qcring) f ws0 x = UB.
Proof.
  exists exBig, [qc 1; qc 1; qc 1]. split; [|split; [reflexivity|]].
  - unfold ft_wf, exBig, chain, qwf; cbn [ft_dim ft_cores ft_ranks nr nc fs map length].
    rewrite !repeat_length. repeat split; lia.
  - vm_compute. reflexivity.
Qed.
Print Assumptions C01_large_ranks_refuted.

(** * C41 *)
Theorem C41_eval2_values :
  forall (R : CRing) (U : uops R) n (f : list U) x (out : list R),
  n <= length f -> n <= length out ->
  (n <= 1000 \/ exists k g, k < 1000 /\ nth_error f k = Some g /\ uispoly g = false) ->
  exists out', eval2 n f x out = Ok out' /\ length out' = length out /\
    (forall k g, k < n -> nth_error f k = Some g -> nth_error out' k = Some (uev g x)) /\
    (forall k, n <= k -> nth_error out' k = nth_error out k).
Proof. exact @eval2_value. Qed.
Print Assumptions C41_eval2_values.

Theorem C41_eval2_overflow_refuted :
  forall (R : CRing) (U : uops R) n (f : list U) x out,
  1000 < n ->
  (forall k, k <= 1000 -> exists g, nth_error f k = Some g /\ uispoly g = true) ->
  eval2 n f x out = UB.
Proof. exact @eval2_overflow. Qed.
Print Assumptions C41_eval2_overflow_refuted.

Example C41_example :
  exists out', eval2 (R := Qcring) (U := polyU) 2 [pf [1; 2]%Z; nf [3]%Z] (qc 4) [qc 0; qc 0; qc 9] = Ok out'.
Proof.
  destruct (C41_eval2_values Qcring polyU 2 [pf [1; 2]%Z; nf [3]%Z] (qc 4) [qc 0; qc 0; qc 9])
    as (o & E & _); simpl; auto; try lia. now exists o.
Qed.

Example C41_overflow_example :
  eval2 (R := Qcring) (U := polyU) 1001 (repeat (pf [1]%Z) 1001) (qc 4) [] = UB.
Proof.
  apply C41_eval2_overflow_refuted; [lia|].
  intros k Hk. exists (pf [1]%Z). split; [apply nth_error_repeat; lia|reflexivity].
Qed.

(** * C02 *)
Theorem C02_sum_value_partial :
  forall (R : CRing) (U : uops R) (a b : ftrain U),
  law_ev_lin U -> ft_wf a -> ft_wf b -> ft_dim a = ft_dim b -> 2 <= ft_dim a ->
  exists c, ft_sum a b = Ok c /\ ft_wf c /\ ft_dim c = ft_dim a /\
    forall x, length x = ft_dim a ->
      train_value c x = radd (train_value a x) (train_value b x).
Proof. exact @sum_value. Qed.
Print Assumptions C02_sum_value_partial.

(** In dimension one the result cannot even be evaluated. *)
Theorem C02_dimension_one_refuted :
  forall (R : CRing) (U : uops R) (a b : ftrain U),
  ft_wf a -> ft_wf b -> ft_dim a = 1 -> ft_dim b = 1 ->
  exists c, ft_sum a b = Ok c /\ forall w x, ft_eval c w x = Abort.
Proof. exact @ft_sum_dim1. Qed.
Print Assumptions C02_dimension_one_refuted.

Example C02_example :
  exists c, ft_sum exA exB = Ok c /\ ft_ranks c = [1; 3; 5; 1].
Proof.
  destruct (C02_sum_value_partial Qcring polyU exA exB polyU_ev_lin exA_wf exB_wf eq_refl) as (c & E & _);
    [simpl; lia|]. exists c; split; auto. revert E. vm_compute. now intros [= <-].
Qed.
Definition ex1 : ftrain polyU := mkft 1 [1; 1] [mkq 1 1 [pf [1; 2]%Z]].
Example C02_dim1_example : ft_wf ex1 /\ ft_dim ex1 = 1.
Proof. split; [wf_concrete|reflexivity]. Qed.

(** * C03 *)
Theorem C03_product_value :
  forall (R : CRing) (U : uops R) (a b : ftrain U),
  law_ev_prod U -> ft_wf a -> ft_wf b -> ft_dim a = ft_dim b ->
  exists c, ft_product a b = Ok c /\ ft_wf c /\ ft_dim c = ft_dim a /\
    forall x, length x = ft_dim a ->
      train_value c x = rmul (train_value a x) (train_value b x).
Proof. exact @product_value. Qed.
Print Assumptions C03_product_value.

Example C03_example :
  exists c, ft_product exA exB = Ok c /\ ft_ranks c = [1; 2; 6; 1].
Proof.
  destruct (C03_product_value Qcring polyU exA exB polyU_ev_prod exA_wf exB_wf eq_refl) as (c & E & _).
  exists c; split; auto. revert E. vm_compute. now intros [= <-].
Qed.

(** * C06 *)
Theorem C06_integrate_is_path_sum :
  forall (R : CRing) (U : uops R) (f : ftrain U),
  ft_wf f -> ft_integrate f = Ok (train_integral f).
Proof. exact @ft_integrate_ok. Qed.
Print Assumptions C06_integrate_is_path_sum.

Theorem C06_integral_additive :
  forall (R : CRing) (U : uops R) (a b : ftrain U),
  law_int_lin U -> ft_wf a -> ft_wf b -> ft_dim a = ft_dim b -> 2 <= ft_dim a ->
  exists c, ft_sum a b = Ok c /\
    ft_integrate c = Ok (radd (train_integral a) (train_integral b)).
Proof. exact @sum_integral. Qed.
Print Assumptions C06_integral_additive.

Example C06_example :
  match ft_integrate exA with Ok v => Qc_eq_bool v (train_integral exA) | _ => false end = true.
Proof. vm_compute. reflexivity. Qed.

(** * C05 *)
Theorem C05_inner_is_pair_path_sum :
  forall (R : CRing) (U : uops R) (a b : ftrain U),
  law_inner_lin_r U -> law_inner_sym U -> ft_wf a -> ft_wf b -> ft_dim a = ft_dim b ->
  ft_inner a b = Ok (train_inner a b).
Proof. exact @ft_inner_ok. Qed.
Print Assumptions C05_inner_is_pair_path_sum.

Theorem C05_inner2_is_pair_path_sum :
  forall (R : CRing) (U : uops R) (a b : ftrain U),
  law_inner_lin_l U -> law_inner_sym U -> ft_wf a -> ft_wf b -> ft_dim a = ft_dim b ->
  ft_inner2 a b = Ok (train_inner a b).
Proof. exact @ft_inner2_ok. Qed.
Print Assumptions C05_inner2_is_pair_path_sum.

Theorem C05_inner_rl_is_pair_path_sum :
  forall (R : CRing) (U : uops R) (a b : ftrain U),
  law_inner_lin_l U -> law_inner_sym U -> ft_wf a -> ft_wf b -> ft_dim a = ft_dim b ->
  ft_inner_rl a b = Ok (train_inner a b).
Proof. exact @ft_inner_rl_ok. Qed.
Print Assumptions C05_inner_rl_is_pair_path_sum.

Theorem C05_inner_is_integral_of_product :
  forall (R : CRing) (U : uops R) (a b : ftrain U),
  law_int_prod U -> ft_wf a -> ft_wf b -> ft_dim a = ft_dim b ->
  exists c, ft_product a b = Ok c /\ ft_integrate c = Ok (train_inner a b).
Proof. exact @inner_is_integral_of_product. Qed.
Print Assumptions C05_inner_is_integral_of_product.

Theorem C05_inner_symmetric :
  forall (R : CRing) (U : uops R) (a b : ftrain U),
  law_inner_lin_r U -> law_inner_sym U -> ft_wf a -> ft_wf b -> ft_dim a = ft_dim b ->
  ft_inner a b = ft_inner b a.
Proof.
  intros. rewrite !ft_inner_ok by (auto; congruence). f_equal. now apply train_inner_sym.
Qed.
Print Assumptions C05_inner_symmetric.

Theorem C05_inner_additive :
  forall (R : CRing) (U : uops R) (a b g : ftrain U),
  law_inner_lin_r U -> law_inner_sym U -> ft_wf a -> ft_wf b -> ft_wf g ->
  ft_dim a = ft_dim g -> ft_dim b = ft_dim g -> 2 <= ft_dim g ->
  exists s x y, ft_sum a b = Ok s /\ ft_inner g a = Ok x /\ ft_inner g b = Ok y /\
    ft_inner g s = Ok (radd x y).
Proof.
  intros R U a b g HL HS Wa Wb Wg Da Db H2.
  destruct (ft_sum_ok a b Wa Wb) as (s & Es & Ws & Ds & _); [congruence|lia|].
  destruct (inner_sum a b g HL Wa Wb Wg Da Db H2) as (s' & Es' & E).
  assert (s' = s) as -> by congruence.
  exists s, (train_inner g a), (train_inner g b).
  rewrite !ft_inner_ok by (auto; congruence). rewrite E. auto.
Qed.
Print Assumptions C05_inner_additive.

Theorem C05_inner_homogeneous :
  forall (R : CRing) (U : uops R) (a g : ftrain U) (c : R),
  law_inner_lin_r U -> law_inner_sym U -> ft_wf a -> ft_wf g -> ft_dim a = ft_dim g ->
  exists s x, ft_scale a c = Ok s /\ ft_inner g a = Ok x /\ ft_inner g s = Ok (rmul c x).
Proof.
  intros R U a g c HL HS Wa Wg Da.
  destruct (ft_scale_ok a c Wa) as (s & Es & Ws & Ds & _).
  destruct (inner_scale a g c HL Wa Wg Da) as (s' & Es' & E).
  assert (s' = s) as -> by congruence.
  exists s, (train_inner g a). rewrite !ft_inner_ok by (auto; congruence). rewrite E. auto.
Qed.
Print Assumptions C05_inner_homogeneous.

Example C05_example :
  ft_inner exA exB = Ok (train_inner exA exB) /\ ft_inner_rl exA exB = Ok (train_inner exA exB) /\
  exists c, ft_product exA exB = Ok c /\ ft_integrate c = Ok (train_inner exA exB).
Proof.
  split; [|split].
  - exact (C05_inner_is_pair_path_sum Qcring polyU exA exB polyU_inner_lin_r polyU_inner_sym exA_wf exB_wf eq_refl).
  - exact (C05_inner_rl_is_pair_path_sum Qcring polyU exA exB polyU_inner_lin_l polyU_inner_sym exA_wf exB_wf eq_refl).
  - exact (C05_inner_is_integral_of_product Qcring polyU exA exB polyU_int_prod exA_wf exB_wf eq_refl).
Qed.

(** * C04 (values; the aliasing part is in the heap model) *)
Theorem C04_scale_value :
  forall (R : CRing) (U : uops R) (f : ftrain U) (s : R),
  law_ev_lin U -> ft_wf f ->
  exists g, ft_scale f s = Ok g /\ ft_wf g /\ ft_dim g = ft_dim f /\
    forall x, length x = ft_dim f -> train_value g x = rmul s (train_value f x).
Proof. exact @scale_value. Qed.
Print Assumptions C04_scale_value.

Theorem C04_copy_is_identity :
  forall (R : CRing) (U : uops R) (a : ftrain U), ft_wf a -> ft_copy a = Ok a.
Proof. exact @ft_copy_ok. Qed.
Print Assumptions C04_copy_is_identity.

Example C04_example :
  ft_copy exA = Ok exA /\ exists g, ft_scale exA (qc 7) = Ok g /\ ft_ranks g = [1; 2; 2; 1].
Proof.
  split; [exact (C04_copy_is_identity Qcring polyU exA exA_wf)|].
  destruct (C04_scale_value Qcring polyU exA (qc 7) polyU_ev_lin exA_wf) as (g & E & _).
  exists g; split; auto. revert E. vm_compute. now intros [= <-].
Qed.
