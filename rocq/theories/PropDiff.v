(** Properties C08 (derivatives), C11 (perturbations, fibers, grid indices) and
    C45 (evaluation up to a core). *)
From Verif Require Import FTFiber FTUpTo FTRealDeriv RealPoly PolyInst Instances PropFT.
From Coq Require Import QArith Qcanon Reals.
Close Scope R_scope.
Close Scope Qc_scope.
Close Scope Q_scope.
Open Scope nat_scope.

(** * C08 *)
Theorem C08_gradient :
  forall (R : CRing) (U : uops R) (f : ftrain U), ft_wf f ->
  exists l, ft_gradient f = Ok l /\ length l = ft_dim f /\
    forall i g, nth_error l i = Some g -> ft_wf g /\ ft_dim g = ft_dim f /\
      forall x, length x = ft_dim f ->
        train_value g x = train_partial (fun u t => uev (uderiv u) t) f i x.
Proof. exact @gradient_correct. Qed.
Print Assumptions C08_gradient.

(** Over the reals the formula is the partial derivative. *)
Theorem C08_partial_derivative :
  forall (U : uops Rring) (dev : U -> R -> R),
  (forall (g : U) (t : R), derivable_pt_lim (uev (R := Rring) g) t (dev g t)) ->
  forall (f : ftrain U) (x : list R) (i : nat),
  ft_wf f -> length x = ft_dim f -> i < ft_dim f ->
  derivable_pt_lim (fun t => train_value (R := Rring) f (with_coord (R := Rring) x i t)) (nth i x 0%R)
    (train_partial (R := Rring) dev f i x).
Proof. exact @partial_derivative. Qed.
Print Assumptions C08_partial_derivative.

Theorem C08_jacobian :
  forall (R : CRing) (U : uops R) (fta : list (ftrain U)) d,
  0 < length fta -> (forall f, In f fta -> ft_wf f /\ ft_dim f = d) ->
  exists l, ft1d_array_jacobian fta = Ok l /\ length l = length fta * d /\
    forall i j f, i < d -> nth_error fta j = Some f ->
      exists g, nth_error l (i * length fta + j) = Some g /\ ft_wf g /\ ft_dim g = d /\
        forall x, length x = d ->
          train_value g x = train_partial (fun u t => uev (uderiv u) t) f i x.
Proof. exact @jacobian_correct. Qed.
Print Assumptions C08_jacobian.

Theorem C08_hessian :
  forall (R : CRing) (U : uops R) (f : ftrain U), ft_wf f ->
  exists l, ft_hessian f = Ok l /\ length l = ft_dim f * ft_dim f /\
    forall i j, i < ft_dim f -> j < ft_dim f ->
      exists g, nth_error l (i * ft_dim f + j) = Some g /\ ft_wf g /\ ft_dim g = ft_dim f /\
        forall x, length x = ft_dim f ->
          train_value g x
          = path_value f (fun k u =>
              uev (if k =? i then (if k =? j then uderiv (uderiv u) else uderiv u)
                   else if k =? j then uderiv u else u) (nth k x r0)).
Proof. exact @hessian_correct. Qed.
Print Assumptions C08_hessian.

Theorem C08_hessian_diag :
  forall (R : CRing) (U : uops R) (op : U -> U) (f : ftrain U), ft_wf f ->
  exists l, ft_gradient_gen op f = Ok l /\ length l = ft_dim f /\
    forall i g, nth_error l i = Some g -> ft_wf g /\ ft_dim g = ft_dim f /\
      forall x, length x = ft_dim f ->
        train_value g x = train_partial (fun u t => uev (op u) t) f i x.
Proof. exact @gradient_gen_correct. Qed.
Print Assumptions C08_hessian_diag.

Theorem C08_gradient_eval :
  forall (R : CRing) (U : uops R) (f : ftrain U) (dev : U -> R -> R) (x : list R),
  ft_wf f -> length x = ft_dim f -> forall out : list R,
  2 <= ft_dim f -> ft_dim f <= length out ->
  exists out', ft_gradient_eval dev f x out = Ok out' /\ length out' = length out /\
    (forall k, k < ft_dim f -> nth_error out' k = Some (train_partial dev f k x)) /\
    (forall k, ft_dim f <= k -> nth_error out' k = nth_error out k).
Proof. exact @gradient_eval_correct. Qed.
Print Assumptions C08_gradient_eval.

(** In one dimension the result is 0 whatever the function: *)
Theorem C08_gradient_eval_dim1_is_zero :
  forall (R : CRing) (U : uops R) (f : ftrain U) (dev : U -> R -> R) (x : list R),
  ft_wf f -> length x = ft_dim f -> forall out : list R,
  ft_dim f = 1 -> 1 <= length out -> ft_gradient_eval dev f x out = Ok (upd out 0 r0).
Proof. exact @gradient_eval_dim1. Qed.
Print Assumptions C08_gradient_eval_dim1_is_zero.

Definition pdev (g : polyU) (t : Qc) : Qc := peval (pderiv (tp_c g)) t.
Definition exOne : ftrain polyU := mkft 1 [1; 1] [mkq 1 1 [pf [0; 1]%Z]].

(** so the property is false for f(x) = x. *)
Theorem C08_gradient_eval_dim1_refuted :
  exists (f : ftrain polyU) (x out : list Qc) out',
    ft_wf f /\ length x = ft_dim f /\ ft_dim f <= length out /\
    ft_gradient_eval (R := Qcring) pdev f x out = Ok out' /\
    nth_error out' 0 <> Some (train_partial (R := Qcring) pdev f 0 x).
Proof.
  exists exOne, [qc 5], [qc 7], [qc 0].
  assert (W : ft_wf exOne) by (unfold ft_wf, chain, qwf; simpl; repeat split; auto; lia).
  split; [exact W|]. split; [reflexivity|]. split; [simpl; lia|]. split.
  - apply (gradient_eval_dim1 (R := Qcring) exOne pdev [qc 5]); auto.
  - intros C. injection C as C. discriminate C.
Qed.
Print Assumptions C08_gradient_eval_dim1_refuted.

(** exA = (1+2x, x) [[1, 3y],[2+y, 1+y+y^2]] (5+z, 2z^2)^T at (2,3,5) *)
Example C08_example :
  exists out', ft_gradient_eval (R := Qcring) pdev exA [qc 2; qc 3; qc 5] [qc 0; qc 0; qc 0; qc 9] = Ok out' /\
  nth_error out' 0 = Some (train_partial (R := Qcring) pdev exA 0 [qc 2; qc 3; qc 5]) /\
  nth_error out' 3 = Some (qc 9) /\
  train_partial (R := Qcring) pdev exA 0 [qc 2; qc 3; qc 5] = qc 1620.
Proof.
  destruct (C08_gradient_eval Qcring polyU exA pdev [qc 2; qc 3; qc 5] exA_wf eq_refl [qc 0; qc 0; qc 0; qc 9])
    as (o & E & L & H1 & H2); try (simpl; lia).
  exists o. split; [exact E|]. split; [apply H1; simpl; lia|]. split; [rewrite H2 by (simpl; lia); reflexivity|].
  apply Qc_is_canon. reflexivity.
Qed.

Example C08_real_example :
  (forall (g : rpolyU) (t : R), derivable_pt_lim (uev (R := Rring) g) t (uev (R := Rring) (uderiv g) t)) /\
  ft_wf (mkft 2 [1; 2; 1] [mkq 1 2 [[1; 2]; [0; 1; 1]]; mkq 2 1 [[3; 1]; [0; 1]]]%R : ftrain rpolyU).
Proof.
  split; [exact rpderiv_ok|]. unfold ft_wf, chain, qwf. simpl. repeat split; auto; lia.
Qed.

(** * C11 *)
Theorem C11_co_perturb :
  forall (R : CRing) (U : uops R) (f : ftrain U), ft_wf f ->
  forall (x : list R) (w : wspace R) (dd : ddcache R) (pert vals : list R),
  length x = ft_dim f -> ft_small f -> ws_wf w -> dd_wf f dd -> 2 <= ft_dim f ->
  2 * ft_dim f <= length pert -> 2 * ft_dim f <= length vals ->
  exists vals' dd', ft_eval_co_perturb f w dd x pert vals = Ok (train_value f x, vals', dd') /\
    length vals' = length vals /\ dd_wf f dd' /\
    (forall k, k < ft_dim f ->
       nth_error vals' (2 * k) = Some (train_value f (with_coord x k (nth (2 * k) pert r0))) /\
       nth_error vals' (2 * k + 1) = Some (train_value f (with_coord x k (nth (2 * k + 1) pert r0)))) /\
    (forall q, 2 * ft_dim f <= q -> nth_error vals' q = nth_error vals q).
Proof. exact @co_perturb_correct. Qed.
Print Assumptions C11_co_perturb.

Theorem C11_co_perturb_ind :
  forall (R : CRing) (U : uops R) (uevi : U -> nat -> R) (f : ftrain U), ft_wf f ->
  forall (x : list nat) (w : wspace R) (dd : ddcache R) (pert : list nat) (vals : list R),
  length x = ft_dim f -> ws_wf w -> dd_wf f dd -> 2 <= ft_dim f ->
  2 * ft_dim f <= length pert -> 2 * ft_dim f <= length vals ->
  exists vals' dd', ft_eval_co_perturb_ind uevi f w dd x pert vals
      = Ok (path_value f (fun k g => uevi g (nth k x 0)), vals', dd') /\
    length vals' = length vals /\ dd_wf f dd' /\
    (forall k, k < ft_dim f ->
       nth_error vals' (2 * k)
       = Some (path_value f (fun q g => uevi g (if q =? k then nth (2 * k) pert 0 else nth q x 0))) /\
       nth_error vals' (2 * k + 1)
       = Some (path_value f (fun q g => uevi g (if q =? k then nth (2 * k + 1) pert 0 else nth q x 0)))) /\
    (forall q, 2 * ft_dim f <= q -> nth_error vals' q = nth_error vals q).
Proof. exact @co_perturb_ind_correct. Qed.
Print Assumptions C11_co_perturb_ind.

Theorem C11_eval_ind :
  forall (R : CRing) (U : uops R) (uevi : U -> nat -> R) (f : ftrain U), ft_wf f ->
  forall (ind : list nat), length ind = ft_dim f -> forall w : wspace R, ws_wf w ->
  ft_eval_ind uevi f w ind = Ok (path_value f (fun k g => uevi g (nth k ind 0))).
Proof. exact @eval_ind_correct. Qed.
Print Assumptions C11_eval_ind.

Theorem C11_fiber :
  forall (R : CRing) (U : uops R) (uevi : U -> nat -> R) (f : ftrain U), ft_wf f ->
  forall (w : wspace R) (fixed_ind : list nat) N (ind : list nat) v (out : list R),
  ws_wf w -> v < ft_dim f -> length fixed_ind = ft_dim f -> N <= length ind -> N <= length out -> 0 < N ->
  exists out', ft_eval_fiber_ind uevi f w fixed_ind N ind v out = Ok out' /\ length out' = length out /\
    (forall j, j < N -> nth_error out' j
      = Some (path_value f (fun k g => uevi g (if k =? v then nth j ind 0 else nth k fixed_ind 0)))) /\
    (forall q, N <= q -> nth_error out' q = nth_error out q).
Proof. exact @fiber_ind_correct. Qed.
Print Assumptions C11_fiber.

Definition dd0 : ddcache Qcring := mkdd None None None.
Example C11_example :
  exists vals' dd',
    ft_eval_co_perturb exA ws0 dd0 [qc 2; qc 3; qc 5] (map qc [1; 2; 3; 4; 5; 6]%Z) (map qc [0; 0; 0; 0; 0; 0]%Z)
    = Ok (qc 3700, vals', dd') /\
    nth_error vals' 0 = Some (train_value (R := Qcring) exA [qc 1; qc 3; qc 5]) /\
    nth_error vals' 1 = Some (qc 3700).
Proof.
  destruct (C11_co_perturb _ _ exA exA_wf [qc 2; qc 3; qc 5] ws0 dd0 (map qc [1; 2; 3; 4; 5; 6]%Z) (map qc [0; 0; 0; 0; 0; 0]%Z))
    as (v & dd' & E & _ & _ & H & _); try (simpl; lia); auto using exA_small, ws0_wf.
  { intros mr _. repeat split. }
  destruct (H 0) as [H0 H1]; [simpl; lia|].
  exists v, dd'. split; [exact E|]. split; [exact H0|]. exact H1.
Qed.

Definition gevi (g : polyU) (i : nat) : Qc := peval (tp_c g) (Qcnat i).
Example C11_fiber_example :
  exists out', ft_eval_fiber_ind gevi exA ws0 [2; 3; 5] 2 [3; 4] 1 (map qc [0; 0; 8]%Z) = Ok out' /\
    nth_error out' 0 = Some (qc 3700) /\ nth_error out' 2 = Some (qc 8).
Proof.
  destruct (C11_fiber _ _ gevi exA exA_wf ws0 [2; 3; 5] 2 [3; 4] 1 (map qc [0; 0; 8]%Z))
    as (o & E & _ & H1 & H2); try (simpl; lia); auto using ws0_wf.
  exists o. split; [exact E|]. split.
  - rewrite (H1 0) by lia. f_equal.
  - rewrite (H2 2) by lia. reflexivity.
Qed.

(** In one dimension the routine reads the row [bprod[1]] of an array of one
    row. *)
Theorem C11_dim1_refuted :
  exists (f : ftrain polyU) (x pert vals : list Qc),
    ft_wf f /\ ft_small f /\ length x = ft_dim f /\ length pert = 2 * ft_dim f /\ length vals = 2 * ft_dim f /\
    ft_eval_co_perturb (R := Qcring) f ws0 dd0 x pert vals = UB.
Proof.
  exists exOne, [qc 5], [qc 6; qc 7], [qc 0; qc 0]. repeat split; try (simpl; lia); auto.
  - intros c [<-|[]]. left. simpl. lia.
Qed.
Print Assumptions C11_dim1_refuted.

(** * C45 *)
Theorem C45_first_core :
  forall (R : CRing) (U : uops R) (f : ftrain U), ft_wf f ->
  forall (w : wspace R) (x out : list R),
  ft_small f -> ws_wf w -> length x = ft_dim f -> frk f 1 <= length out ->
  exists out', ft_eval_up_to_core f w 0 x out = Ok (out', frk f 1) /\ length out' = length out /\
    forall j, j < frk f 1 -> nth_error out' j = Some (ent (fun g => uev g (nth 0 x r0)) (fco f 0) 0 j).
Proof.
  intros R U f Wf w x out Hs (Hw1 & _) Hx Ho. unfold ft_eval_up_to_core. rewrite pt_outer by auto. cbn [obind].
  destruct (get_maxrank_ok f) as (mr & Emr & _ & _). { apply wf_lens; auto. }
  unfold pre_eval. rewrite Emr. cbn [obind].
  pose proof (pt_d f Wf) as Hd.
  rewrite (pt_core f Wf 0) by auto. cbn [obind].
  rewrite (aget_ok x 0 (nth 0 x r0)) by (apply nth_error_nth'; lia). cbn [obind].
  destruct (ms_check_ok (ws1 w) (mr * mr) Hw1) as [S1 _].
  pose proof (pt_mr f Wf mr 1 Emr ltac:(lia)) as H1.
  pose proof (pt_mr f Wf mr 0 Emr ltac:(lia)) as H0.
  destruct (pt_eval2 f Wf mr 0 (nth 0 x r0) (ms_vals (ms_check (ws1 w) 1 (mr * mr))) Hs Emr Hd) as (t & Et & Lt & Ht).
  { nia. }
  rewrite Et. cbn [obind Nat.sub for_from].
  destruct (canon_core f 0 Wf Hd) as (_ & _ & _ & C & _). rewrite C.
  cbn [Nat.eqb]. destruct (blitr_ok (frk f 1) t out 0 0) as (o & Eo & Lo & H2 & _).
  { rewrite frk_0 in H0 by auto. nia. } { lia. }
  rewrite Eo. cbn [obind]. exists o. repeat split; auto. intros j Hj.
  change j with (0 + j) at 1. rewrite (H2 j Hj). rewrite frk_0 in Ht by auto.
  replace (0 + j) with (j * 1 + 0) by lia. apply Ht; auto.
Qed.
Print Assumptions C45_first_core.

(** The documentation says "up to, and including core k".  For core 1 of exA
    the routine returns the first core alone. *)
Theorem C45_includes_core_refuted :
  exists (f : ftrain polyU) (x : list Qc) core out n,
    ft_wf f /\ length x = ft_dim f /\ core < ft_dim f /\
    ft_eval_up_to_core (R := Qcring) f ws0 core x (map qc [0; 0]%Z) = Ok (out, n) /\
    nth_error out 0 <> Some (sum (R := Qcring) (frk f 1) (fun i =>
       rmul (c := Qcring) (ent (R := Qcring) (fun g : polyU => uev g (nth 0 x (qc 0))) (fco f 0) 0 i)
                          (ent (R := Qcring) (fun g : polyU => uev g (nth 1 x (qc 0))) (fco f 1) i 0))).
Proof.
  exists exA, [qc 2; qc 3; qc 5], 1, [qc 5; qc 2], 2. split; [exact exA_wf|].
  split; [reflexivity|]. split; [simpl; lia|]. split; [reflexivity|].
  intros C. injection C as C.
  discriminate C.
Qed.
Print Assumptions C45_includes_core_refuted.

(** What is returned for a later core: the product of the cores before it (in the
    entries that exist in both lengths). *)
Theorem C45_later_cores_partial :
  forall (R : CRing) (U : uops R) (f : ftrain U), ft_wf f ->
  forall (w : wspace R) (x out : list R) core, ft_small f -> ws_wf w -> length x = ft_dim f ->
  1 <= core < ft_dim f -> frk f (S core) <= length out ->
  exists out', ft_eval_up_to_core f w core x out = Ok (out', frk f (S core)) /\ length out' = length out /\
    (forall j, j < frk f core -> j < frk f (S core) ->
       nth_error out' j = Some (fw (frk f) (fM f (fun k g => uev g (nth k x r0))) core j)) /\
    (forall j, frk f (S core) <= j -> nth_error out' j = nth_error out j).
Proof. exact @up_to_core_before. Qed.
Print Assumptions C45_later_cores_partial.
Example C45_later_run : ft_eval_up_to_core (R := Qcring) exA ws0 1 [qc 2; qc 3; qc 5] (map qc [0; 0]%Z) = Ok ([qc 5; qc 2], 2).
Proof. reflexivity. Qed.
