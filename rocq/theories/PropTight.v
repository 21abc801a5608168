(** Properties C49, C51, C53, C30 (more theorems) and C57-C60: constructors,
    evaluation at several points, functions with given zeros and error estimates
    of piecewise-linear and piecewise-constant functions. *)
From Verif Require Import Base BaseFacts FOps LinElmModel ConstElmModel LinElmSpec LinElmFacts LinElmMerge LinElmArith
  LinElmInt LinElmMore ConstElmFacts LinElmTight PropLin PropConst.
From Coq Require Import QArith Qcanon Reals Lra.
Close Scope Qc_scope.
Close Scope Q_scope.
Local Open Scope R_scope.

(** * C49 at the nodes *)

(** At an inner node the code returns the difference quotient of the two
    neighbours, at the ends the slope of the only cell. *)
Theorem C49_deriv_node : forall tol (f : lexp (Rops tol)) (k : nat), 0 <= tol -> valid tol f ->
  spaced tol (l_n f) (l_nodes f) -> (k < l_n f)%nat ->
  let a := (k - 1)%nat in
  let b := Nat.min (k + 1) (l_n f - 1) in
  le_deriv_eval f (nd (l_nodes f) k : Rops tol) =
    Ok ((nd (l_coeff f) b - nd (l_coeff f) a) / (nd (l_nodes f) b - nd (l_nodes f) a)).
Proof. exact le_deriv_eval_node. Qed.
Print Assumptions C49_deriv_node.
Example C49_node_run : q1 (le_deriv_eval exQ (q 1 1)) = Ok (1 # 3)%Q /\ q1 (le_deriv_eval exQ (q 0 1)) = Ok (-1 # 1)%Q.
Proof. split; vm_compute; reflexivity. Qed.

(** * C50 with optimisation nodes: the largest absolute value over them *)
Theorem C50_absmax_opt : forall tol (f : lexp (Rops tol)) (opt : list R), valid tol f -> opt <> [] ->
  exists m o, le_absmax_opt f (opt : list (Rops tol)) = Ok (m, o) /\ In (o : R) opt /\
    (exists v, le_eval f o = Ok v /\ m = Rabs v) /\
    forall (z : R) v, In z opt -> le_eval f (z : Rops tol) = Ok v -> Rabs v <= m.
Proof. exact le_absmax_opt_ok. Qed.
Print Assumptions C50_absmax_opt.
Example C50_absmax_opt_run : okp (le_absmax_opt exQ [q 1 2; q 1 1; q 5 2; q 2 1]) (fun r => Qc_eq_bool (fst r) (q 3 2) && Qc_eq_bool (snd r) (q 5 2))%bool = true.
Proof. vm_compute. reflexivity. Qed.

(** * C51: what is added to the buffer is [scale] times a vector that depends on
    the function only *)
Theorem C51_sqnorm_grad_linear : forall tol (f : lexp (Rops tol)), valid tol f ->
  exists G : nat -> R, forall (scale : R) (g : list R), (l_n f <= length g)%nat ->
    exists g', le_sqnorm_param_grad f (scale : Rops tol) g = Ok g' /\ length g' = length g /\
      (forall k, (k < l_n f)%nat -> nd g' k = nd g k + scale * G k) /\
      (forall k, (l_n f <= k)%nat -> nd g' k = nd g k).
Proof. exact le_sqnorm_param_grad_linear. Qed.
Print Assumptions C51_sqnorm_grad_linear.

(** * C53: the forward quotients at all nodes but the last *)
Theorem C53_deriv_partial : forall tol (f : lexp (Rops tol)), valid tol f ->
  exists h, ce_deriv f = Ok h /\ l_n h = l_n f /\ l_nodes h = firstn (l_n f) (l_nodes f) /\
    length (l_coeff h) = l_n f /\
    let d i := (nd (l_coeff f) (S i) - nd (l_coeff f) i) / (nd (l_nodes f) (S i) - nd (l_nodes f) i) in
    let n := l_n f in
    (forall i, (S i < n)%nat -> nd (l_coeff h) i = d i) /\
    nd (l_coeff h) (n - 1) = (nd (l_coeff f) (n - 1) - d (n - 2)%nat) /
                             (nd (l_nodes f) (n - 1) - nd (l_nodes f) (n - 2)).
Proof. exact ce_deriv_ok. Qed.
Print Assumptions C53_deriv_partial.

(** * C30: on different grids the sum is right at the nodes *)
Theorem C30_axpy_nodes_partial : forall tol (a : R) (f g : lexp (Rops tol)), 0 < tol -> valid tol f -> valid tol g ->
  spaced (2 * tol) (l_n f) (l_nodes f) -> spaced (2 * tol) (l_n g) (l_nodes g) ->
  sepd tol (l_n f) (l_n g) (l_nodes f) (l_nodes g) -> le_sdiscp f g = Ok false ->
  exists h, ce_axpy (a : Rops tol) f g = Ok h /\ valid tol h /\
    (forall v, is_node (l_n h) (l_nodes h) v <-> is_node (l_n f) (l_nodes f) v \/ is_node (l_n g) (l_nodes g) v) /\
    forall k, (k < l_n h)%nat -> exists u v, ce_eval f (nd (l_nodes h) k : Rops tol) = Ok u /\
      ce_eval g (nd (l_nodes h) k : Rops tol) = Ok v /\ nd (l_coeff h) k = a * u + v.
Proof. exact ce_axpy_nodes. Qed.
Print Assumptions C30_axpy_nodes_partial.

Lemma tol15_pos : 0 < tol15 < / 8.
Proof.
  unfold tol15. split; [apply Rinv_0_lt_compat, pow_lt; lra|].
  apply Rinv_lt_contravar; [apply Rmult_lt_0_compat; [lra|apply pow_lt; lra]|].
  replace 8 with (8 * 1) by ring. pose proof (pow_R1_Rle 10 14 ltac:(lra)).
  change (10 ^ 15) with (10 * 10 ^ 14). lra.
Qed.

Example C30_axpy_nodes_case : let f := exV tol15 in let g := @mkL (Rops tol15) 2 [0; 3] [0; 3] in
  valid tol15 f /\ valid tol15 g /\ spaced (2 * tol15) 3 (l_nodes f) /\ spaced (2 * tol15) 2 (l_nodes g) /\
  sepd tol15 3 2 (l_nodes f) (l_nodes g) /\ le_sdiscp f g = Ok false.
Proof.
  pose proof tol15_pos. cbv zeta. split; [apply exV_valid|].
  split; [constructor; cbn; try lia; intros [|i] Hi; unfold nd; cbn; [lra|lia]|].
  split; [intros [|[|i]] Hi; unfold nd; cbn; try lra; lia|].
  split; [intros [|i] Hi; unfold nd; cbn; [lra|lia]|].
  split; [|reflexivity].
  intros [|[|[|i]]] [|[|j]] Hi Hj; unfold nd; cbn; try lia.
  - left; reflexivity.
  - right. rewrite Rabs_left; lra.
  - right. rewrite Rabs_right; lra.
  - right. rewrite Rabs_left; lra.
  - right. rewrite Rabs_right; lra.
  - left; reflexivity.
Qed.

(** * C57 constructors *)

(** The affine function: exactly a x + b at every point that is a node or farther
    than [tol] from every node, and off by at most |a| tol at the other points of
    the range. *)
Theorem C57_linear : forall tol (a b : R) (o : laopts (Rops tol)) (xs : list R),
  opt_nodes tol o xs -> (2 <= length xs)%nat -> sinc (length xs) xs -> 0 <= tol ->
  exists f, le_linear (a : Rops tol) b o = Ok f /\ valid tol f /\ l_nodes f = xs /\ l_n f = length xs /\
    forall x : R, nd xs 0 <= x <= nd xs (length xs - 1) ->
      exists v, le_eval f (x : Rops tol) = Ok v /\ (clear tol f x -> v = a * x + b) /\
        Rabs (v - (a * x + b)) <= Rabs a * tol.
Proof. exact le_linear_ok. Qed.
Print Assumptions C57_linear.

Theorem C57_constant : forall tol (a : R) (o : laopts (Rops tol)) (xs : list R),
  opt_nodes tol o xs -> (2 <= length xs)%nat -> sinc (length xs) xs ->
  exists f, le_constant (a : Rops tol) o = Ok f /\ valid tol f /\ l_nodes f = xs /\ l_n f = length xs /\
    forall x : R, nd xs 0 <= x <= nd xs (length xs - 1) -> le_eval f (x : Rops tol) = Ok a.
Proof. exact le_constant_ok. Qed.
Print Assumptions C57_constant.

Theorem C57_const_constant : forall tol (a : R) (o : laopts (Rops tol)) (xs : list R), 0 <= tol ->
  opt_nodes tol o xs -> (2 <= length xs)%nat -> spaced (2 * tol) (length xs) xs ->
  exists f, ce_constant (a : Rops tol) o = Ok f /\ valid tol f /\ l_nodes f = xs /\ l_n f = length xs /\
    forall x : R, nd xs 0 <= x <= nd xs (length xs - 1) -> ce_eval f (x : Rops tol) = Ok a.
Proof. exact ce_constant_ok. Qed.
Print Assumptions C57_const_constant.

Theorem C57_const_approx : forall tol (o : laopts (Rops tol)) (F : R -> R) (nodes : list R), 0 <= tol ->
  o_adapt o = false -> o_nodes o = Some nodes -> (2 <= o_n o <= length nodes)%nat ->
  spaced (2 * tol) (o_n o) nodes ->
  exists f, @ce_approx (Rops tol) o F = Ok f /\ valid tol f /\ l_n f = o_n o /\ l_nodes f = firstn (o_n o) nodes /\
    forall k, (k < o_n o)%nat -> ce_eval f (nd nodes k : Rops tol) = Ok (F (nd nodes k)).
Proof. exact ce_approx_ok. Qed.
Print Assumptions C57_const_approx.

Theorem C57_flip_sign : forall tol (f : lexp (Rops tol)), valid tol f ->
  exists h, le_flip_sign f = Ok h /\ valid tol h /\ same_grid tol f h /\
   forall x : R, exists v, le_eval f (x : Rops tol) = Ok v /\ le_eval h (x : Rops tol) = Ok (- v).
Proof. exact le_flip_sign_ok. Qed.
Print Assumptions C57_flip_sign.

(** Options with given nodes 0, 1, 3 (and one spare) and options with none. *)
Example C57_case tol : opt_nodes tol (@mkLO (Rops tol) false (Some [0; 1; 3; 9]) 3 0 3 0 0) [0; 1; 3] /\
  opt_nodes tol (@mkLO (Rops tol) false None 0 0 3 0 0) [0; 3] /\ sinc 3 [0; 1; 3] /\ sinc 2 [0; 3].
Proof.
  split; [right; split; [cbn; lia|]; eexists; split; [reflexivity|]; cbn; split; [lia|reflexivity]|].
  split; [left; split; reflexivity|].
  split; [intros [|[|i]] Hi; unfold nd; cbn; try lra; lia|intros [|i] Hi; unfold nd; cbn; [lra|lia]].
Qed.
Example C57_run :
  eqv (view (@le_linear Qops (q 2 1) (q 1 1) (@mkLO Qops false (Some [q 0 1; q 1 1; q 3 1; q 9 1]) 3 (q 0 1) (q 3 1) (q 0 1) (q 0 1))))
      [(q 0 1, q 1 1); (q 1 1, q 3 1); (q 3 1, q 7 1)] = true /\
  eqv (view (@le_constant Qops (q 5 1) (@mkLO Qops false None 0 (q 0 1) (q 3 1) (q 0 1) (q 0 1))))
      [(q 0 1, q 5 1); (q 3 1, q 5 1)] = true /\
  eqv (view (@le_flip_sign Qops exQ)) [(q 0 1, q (-1) 1); (q 1 1, q 0 1); (q 3 1, q (-2) 1)] = true.
Proof. split; [vm_compute; reflexivity|]. split; vm_compute; reflexivity. Qed.

(** * C58 several points *)
Theorem C58_evalN : forall tol (f : lexp (Rops tol)) (N : nat) (x : list R) (incx : nat) (y : list R) (incy : nat),
  valid tol f -> (1 <= incy)%nat ->
  (forall i, (i < N)%nat -> (i * incx < length x)%nat /\ (i * incy < length y)%nat) ->
  exists y', @le_evalN (Rops tol) f N x incx y incy = Ok y' /\ length y' = length y /\
    (forall i, (i < N)%nat -> le_eval f (nd x (i * incx) : Rops tol) = Ok (nd y' (i * incy))) /\
    (forall j, (forall i, (i < N)%nat -> j <> (i * incy)%nat) -> nd y' j = nd y j).
Proof.
  intros tol f N x incx y incy V H1 H2. unfold le_evalN. apply (evalN_loop (@le_eval (Rops tol) f)); auto.
  intros z. now apply le_eval_total.
Qed.
Print Assumptions C58_evalN.

Theorem C58_const_evalN : forall tol (f : lexp (Rops tol)) (N : nat) (x : list R) (incx : nat) (y : list R) (incy : nat),
  0 <= tol -> valid tol f -> spaced (2 * tol) (l_n f) (l_nodes f) -> (1 <= incy)%nat ->
  (forall i, (i < N)%nat -> (i * incx < length x)%nat /\ (i * incy < length y)%nat) ->
  exists y', @ce_evalN (Rops tol) f N x incx y incy = Ok y' /\ length y' = length y /\
    (forall i, (i < N)%nat -> ce_eval f (nd x (i * incx) : Rops tol) = Ok (nd y' (i * incy))) /\
    (forall j, (forall i, (i < N)%nat -> j <> (i * incy)%nat) -> nd y' j = nd y j).
Proof.
  intros tol f N x incx y incy Ht V S H1 H2. unfold ce_evalN. apply (evalN_loop (@ce_eval (Rops tol) f)); auto.
  intros z. now apply ce_eval_total.
Qed.
Print Assumptions C58_const_evalN.
Example C58_run : qs (@le_evalN Qops exQ 2 [q 2 1; q 9 1; q 1 2] 2 [q 7 1; q 7 1; q 7 1; q 7 1] 3)
  = Ok [1 # 1; 7 # 1; 7 # 1; 1 # 2]%Q.
Proof. vm_compute. reflexivity. Qed.

(** * C59 functions with given zeros *)

(** Fixed nodes: zero at every node that is (within [tol14]) one of the zeros, one
    at the others, and there is one of those. *)
Theorem C59_onezero_fixed : forall tol (tol14 : R) (zeros nodes : list R) (o : laopts (Rops tol)), 0 <= tol -> tol <= tol14 ->
  o_nodes o = Some nodes -> (2 <= o_n o <= length nodes)%nat -> (length zeros < o_n o)%nat ->
  spaced (2 * tol14) (o_n o) nodes ->
  exists f, @le_onezero_fixed (Rops tol) tol14 zeros o = Ok f /\ valid tol f /\ l_n f = o_n o /\
    l_nodes f = firstn (o_n o) nodes /\
    (forall k, (k < o_n o)%nat ->
      ((exists z, In z zeros /\ Rabs (nd nodes k - z) < tol14) -> le_eval f (nd nodes k : Rops tol) = Ok 0) /\
      ((forall z, In z zeros -> tol14 <= Rabs (nd nodes k - z)) -> le_eval f (nd nodes k : Rops tol) = Ok 1)) /\
    exists k, (k < o_n o)%nat /\ le_eval f (nd nodes k : Rops tol) = Ok 1.
Proof.
  intros tol tol14 zeros nodes o Ht Htt En Hn Hz Sp.
  destruct (le_onezero_fixed_ok tol tol14 zeros nodes o) as (f & E & V & A & B & C); auto.
  { intros i Hi. specialize (Sp i Hi). lra. }
  exists f. repeat (split; [assumption|]).
  destruct (onezero_pigeon tol14 zeros nodes (o_n o)) as (k & Hk & Hk2); auto; [lia|lra|].
  exists k. split; auto. now apply C.
Qed.
Print Assumptions C59_onezero_fixed.

(** Adaptive: zeros in increasing order, each end of the interval either one of
    them or clearly away from them; if the lower end is a zero and the upper end
    is not, there is no other zero. *)
Theorem C59_onezero_adapt : forall tol (tol14 lb ub : R) (zeros : list R), 0 <= tol -> 0 < tol14 -> tol <= tol14 ->
  zeros <> [] -> spaced (2 * tol) (length zeros) zeros ->
  (nd zeros 0 = lb \/ lb + tol14 < nd zeros 0) ->
  (nd zeros (length zeros - 1) = ub \/ nd zeros (length zeros - 1) + tol14 < ub) ->
  lb + tol14 < ub ->
  (nd zeros 0 = lb -> nd zeros (length zeros - 1) <> ub -> length zeros = 1%nat) ->
  exists f x1, @le_onezero_adapt (Rops tol) tol14 zeros lb ub = Ok f /\ valid tol f /\
    nd (l_nodes f) 0 = lb /\ nd (l_nodes f) (l_n f - 1) = ub /\
    (forall z : R, In z zeros -> le_eval f (z : Rops tol) = Ok 0) /\ le_eval f (x1 : Rops tol) = Ok 1.
Proof. exact le_onezero_adapt_ok. Qed.
Print Assumptions C59_onezero_adapt.
Example C59_adapt_case : let tol14 := 10 * tol15 in
  spaced (2 * tol15) 2 [1; 2] /\ (nd [1; 2] 0 = 0 \/ 0 + tol14 < nd [1; 2] 0) /\ (nd [1; 2] 1 = 3 \/ nd [1; 2] 1 + tol14 < 3) /\
  spaced (2 * tol15) 2 [0; 3].
Proof.
  assert (tol15 < / 100).
  { unfold tol15. apply Rinv_lt_contravar; [apply Rmult_lt_0_compat; [lra|apply pow_lt; lra]|].
    pose proof (pow_R1_Rle 10 12 ltac:(lra)). change (10 ^ 15) with (10 * (10 * (10 * 10 ^ 12))). lra. }
  cbv zeta. split; [intros [|i] Hi; unfold nd; cbn; [lra|lia]|].
  split; [right; unfold nd; cbn; lra|]. split; [right; unfold nd; cbn; lra|].
  intros [|i] Hi; unfold nd; cbn; [lra|lia].
Qed.
Definition q14 : Qc := q 1 100000000000000.
Example C59_run :
  eqv (view (@le_onezero_adapt Qops q14 [q 1 1; q 2 1] (q 0 1) (q 3 1))) [(q 0 1, q 0 1); (q 1 1, q 0 1); (q 2 1, q 0 1); (q 3 1, q 1 1)] = true /\
  eqv (view (@le_onezero_adapt Qops q14 [q 0 1; q 3 1] (q 0 1) (q 3 1))) [(q 0 1, q 0 1); (q 3 2, q 1 1); (q 3 1, q 0 1)] = true /\
  eqv (view (@le_onezero_fixed Qops q14 [q 1 1] (@mkLO Qops false (Some [q 0 1; q 1 1; q 3 1]) 3 (q 0 1) (q 3 1) (q 0 1) (q 0 1))))
      [(q 0 1, q 1 1); (q 1 1, q 0 1); (q 3 1, q 1 1)] = true.
Proof. split; [vm_compute; reflexivity|]. split; vm_compute; reflexivity. Qed.

(** Without zeros both nodes are 0: the function vanishes everywhere but at 0. *)
Theorem C59_onezero_none_refuted : forall tol (tol14 lb ub : R),
  exists f, @le_onezero_adapt (Rops tol) tol14 [] lb ub = Ok f /\
    (forall i, nd (l_nodes f) i = 0) /\ forall x : R, x <> 0 -> le_eval f (x : Rops tol) = Ok 0.
Proof. exact le_onezero_adapt_none. Qed.
Print Assumptions C59_onezero_none_refuted.

(** The lower end is a zero and there is another one: that one gets lost. *)
Theorem C59_onezero_lower_refuted : exists f, @le_onezero_adapt Qops q14 [q 0 1; q 1 2] (q 0 1) (q 1 1) = Ok f /\
  q1 (le_eval f (q 1 2)) = Ok (1 # 2)%Q.
Proof.
  destruct (okp_ex (@le_onezero_adapt Qops q14 [q 0 1; q 1 2] (q 0 1) (q 1 1))
    (fun f => match le_eval f (q 1 2) with Ok y => Qc_eq_bool y (q 1 2) | _ => false end)) as (f & E & H); [vm_compute; reflexivity|].
  exists f. split; [exact E|]. destruct (le_eval f (q 1 2)) as [y| | |]; try discriminate.
  apply Qc_eq_bool_correct in H. subst y. reflexivity.
Qed.
Print Assumptions C59_onezero_lower_refuted.

(** Zeros in decreasing order, the upper end one of them: the test for the upper
    end looks at the wrong zero and the end becomes a node twice. *)
Theorem C59_onezero_unsorted_refuted : exists f, @le_onezero_adapt Qops q14 [q 1 1; q 1 2] (q 0 1) (q 1 1) = Ok f /\
  map this (l_nodes f) = [0 # 1; 1 # 2; 1 # 1; 1 # 1]%Q.
Proof. eexists. split; [reflexivity|]. vm_compute. reflexivity. Qed.
Print Assumptions C59_onezero_unsorted_refuted.

(** * C60 error estimate *)

(** A parabola sampled at the nodes: entry i is the largest distance between the
    parabola and the function on cell i, the returned value the largest entry --
    provided that the cells from the third to the last have width one. *)
Theorem C60_err_est_partial : forall tol (f : lexp (Rops tol)) (errs : list R) (fw : bool) (a b c : R),
  valid tol f -> (3 <= l_n f)%nat -> (l_n f - 1 <= length errs)%nat ->
  let p x := a * x * x + b * x + c in
  (forall k, (k < l_n f)%nat -> nd (l_coeff f) k = p (nd (l_nodes f) k)) ->
  (forall k, (2 <= k)%nat -> (S k < l_n f)%nat -> nd (l_nodes f) (S k) - nd (l_nodes f) k = 1) ->
  exists v es, @le_err_est (Rops tol) f errs fw = Ok (v, es) /\ length es = length errs /\
    (forall i, (S i < l_n f)%nat ->
       let x := nd (l_nodes f) i in let y := nd (l_nodes f) (S i) in
       let chord t := p x + (t - x) * ((p y - p x) / (y - x)) in
       (forall t, x <= t <= y -> Rabs (p t - chord t) <= nd es i) /\
       Rabs (p ((x + y) / 2) - chord ((x + y) / 2)) = nd es i) /\
    (forall i, (l_n f <= S i)%nat -> nd es i = nd errs i) /\
    (forall i, (S i < l_n f)%nat -> nd es i <= v) /\ (exists i, (S i < l_n f)%nat /\ nd es i = v).
Proof.
  intros tol f errs fw a b c V H1 H2 p H3 H4.
  destruct (le_err_est_ok tol f errs fw a b c V H1 H2 H3 H4) as (v & es & E & A & B & C).
  exists v, es. split; [exact E|]. split; [exact A|]. split; [|exact C].
  intros i Hi. cbv zeta. rewrite (B i Hi). cbv zeta. pose proof (v_inc _ _ V i Hi) as Hxy.
  split.
  - intros t Ht. apply (quad_chord a b c _ _ t Hxy Ht).
  - apply (quad_chord a b c _ _ ((nd (l_nodes f) i + nd (l_nodes f) (S i)) / 2) Hxy); [lra|reflexivity].
Qed.
Print Assumptions C60_err_est_partial.
Example C60_case tol : let f := @mkL (Rops tol) 4 [0; 1; 4; 5] [0; 1; 16; 25] in valid tol f /\
  (forall k, (k < 4)%nat -> nd (l_coeff f) k = 1 * nd (l_nodes f) k * nd (l_nodes f) k + 0 * nd (l_nodes f) k + 0) /\
  nd (l_nodes f) 3 - nd (l_nodes f) 2 = 1.
Proof.
  cbv zeta. split; [constructor; cbn; try lia; intros [|[|[|i]]] Hi; unfold nd; cbn; try lra; lia|].
  split; [intros [|[|[|[|k]]]] Hk; unfold nd; cbn; try lra; lia|]. unfold nd; cbn. lra.
Qed.
Example C60_run : okp (@le_err_est Qops (@mkL Qops 4 [q 0 1; q 1 1; q 4 1; q 5 1] [q 0 1; q 1 1; q 16 1; q 25 1]) [q 7 1; q 7 1; q 7 1; q 7 1] true)
  (fun r => Qc_eq_bool (fst r) (q 9 4) && (Qc_eq_bool (nth 0 (snd r) (q 0 1)) (q 1 4)) && (Qc_eq_bool (nth 1 (snd r) (q 0 1)) (q 9 4))
     && (Qc_eq_bool (nth 2 (snd r) (q 0 1)) (q 1 4)) && (Qc_eq_bool (nth 3 (snd r) (q 0 1)) (q 7 1)))%bool = true.
Proof. vm_compute. reflexivity. Qed.

(** A slope is used without dividing by the width of its cell: the identity, which
    is represented exactly, gets a positive error estimate. *)
Theorem C60_err_est_refuted : exists (f : lexp Qops) v es,
  map this (l_nodes f) = map this (l_coeff f) /\ map this (l_nodes f) = [0 # 1; 1 # 1; 2 # 1; 4 # 1]%Q /\ l_n f = 4%nat /\
  @le_err_est Qops f [q 0 1; q 0 1; q 0 1] true = Ok (v, es) /\ ~ (this v == 0)%Q.
Proof.
  set (f := @mkL Qops 4 [q 0 1; q 1 1; q 2 1; q 4 1] [q 0 1; q 1 1; q 2 1; q 4 1]).
  destruct (okp_ex (@le_err_est Qops f [q 0 1; q 0 1; q 0 1] true) (fun r => negb (Qeq_bool (this (fst r)) 0)))
    as ((v & es) & E & H); [vm_compute; reflexivity|].
  exists f, v, es. split; [reflexivity|]. split; [reflexivity|]. split; [reflexivity|]. split; [exact E|].
  intros Q. apply Qeq_bool_iff in Q. cbn [fst] in H. rewrite Q in H. discriminate.
Qed.
Print Assumptions C60_err_est_refuted.
