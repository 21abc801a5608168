(** Properties C28 (piecewise-constant part), C30, C52 and C53. *)
From Verif Require Import Base BaseFacts FOps LinElmModel LinElmSpec LinElmFacts LinElmMerge LinElmInt LinElmGrad
  ConstElmModel ConstElmFacts ConstElmMore RIntLib PropLin.
From Coq Require Import QArith Qcanon Reals Lra.
Close Scope Qc_scope.
Close Scope Q_scope.
Local Open Scope R_scope.

(** Value 3 left of 1/2 and 5 right of it, on [0,1]. *)
Definition exS (tol : R) : lexp (Rops tol) := @mkL (Rops tol) 2 [0; 1] [3; 5].
Definition exSf (x : R) : R := if Rlt_dec x (1 / 2) then 3 else 5.
Lemma exS_valid tol : valid tol (exS tol).
Proof. constructor; cbn; try lia. intros [|i] Hi; unfold nd; cbn; [lra|lia]. Qed.
Lemma exS_spaced : spaced (2 * tol15) 2 [0; 1].
Proof.
  assert (2 * tol15 < 1).
  { assert (P : 0 < 10 ^ 15) by (apply pow_lt; lra).
    assert (L : 10 ^ 1 <= 10 ^ 15) by (apply Rle_pow; [lra|lia]).
    unfold tol15. apply Rmult_lt_reg_r with (10 ^ 15); auto. rewrite Rmult_assoc, Rinv_l by lra. lra. }
  intros [|i] Hi; unfold nd; cbn; [lra|lia].
Qed.
Lemma exS_graph tol x : nd (l_nodes (exS tol)) 0 <= x <= nd (l_nodes (exS tol)) 1 ->
  Step 2 (l_nodes (exS tol)) (l_coeff (exS tol)) x (exSf x).
Proof.
  unfold exS, exSf. cbn [l_nodes l_coeff]. intros Hx. assert (H01 : 0 <= x <= 1) by exact Hx. clear Hx.
  assert (A : forall j, (j < 2)%nat -> j = 0%nat \/ j = 1%nat) by lia.
  destruct (Rlt_dec x (1 / 2)) as [H|H].
  - exists 0%nat. split; [|split; [|reflexivity]].
    + split; [lia|]. intros j Hj. destruct (A j Hj) as [-> | ->]; unfold nd; cbn; [lra|].
      rewrite (Rabs_pos_eq (x - 0)), (Rabs_left1 (x - 1)) by lra. lra.
    + intros j [Hj N]. destruct (A j Hj) as [-> | ->]; [lia|]. specialize (N 0%nat ltac:(lia)). unfold nd in N. cbn in N.
      rewrite (Rabs_pos_eq (x - 0)), (Rabs_left1 (x - 1)) in N by lra. lra.
  - exists 1%nat. split; [|split; [|reflexivity]].
    + split; [lia|]. intros j Hj. destruct (A j Hj) as [-> | ->]; unfold nd; cbn; [|lra].
      rewrite (Rabs_pos_eq (x - 0)), (Rabs_left1 (x - 1)) by lra. lra.
    + intros j [Hj _]. lia.
Qed.
Definition exC : lexp Qops := @mkL Qops 3 [q 0 1; q 1 1; q 2 1] [q 0 1; q 1 1; q 3 1].

(** * C30 *)

Theorem C30_eval : forall tol (f : lexp (Rops tol)) (x : R), 0 <= tol -> valid tol f ->
  spaced (2 * tol) (l_n f) (l_nodes f) ->
  (x < nd (l_nodes f) 0 \/ nd (l_nodes f) (l_n f - 1) < x -> ce_eval f x = Ok 0) /\
  (nd (l_nodes f) 0 <= x <= nd (l_nodes f) (l_n f - 1) ->
    exists v, ce_eval f x = Ok v /\ Step (l_n f) (l_nodes f) (l_coeff f) x v).
Proof. intros tol f x Ht V S. split; [now apply ce_eval_out|now apply ce_eval_in]. Qed.
Print Assumptions C30_eval.

Theorem C30_integrate : forall tol (f : lexp (Rops tol)) (h : R -> R), valid tol f ->
  (forall x, nd (l_nodes f) 0 <= x <= nd (l_nodes f) (l_n f - 1) -> Step (l_n f) (l_nodes f) (l_coeff f) x (h x)) ->
  exists v, ce_integrate f = Ok v /\ is_RInt h (nd (l_nodes f) 0) (nd (l_nodes f) (l_n f - 1)) v.
Proof. exact ce_integrate_exact. Qed.
Print Assumptions C30_integrate.

Theorem C30_inner : forall tol (f g : lexp (Rops tol)) (hf hg : R -> R), 0 <= tol -> valid tol f -> valid tol g ->
  same_grid tol f g ->
  (forall x, nd (l_nodes f) 0 <= x <= nd (l_nodes f) (l_n f - 1) -> Step (l_n f) (l_nodes f) (l_coeff f) x (hf x)) ->
  (forall x, nd (l_nodes g) 0 <= x <= nd (l_nodes g) (l_n g - 1) -> Step (l_n g) (l_nodes g) (l_coeff g) x (hg x)) ->
  exists v, ce_inner f g = Ok v /\
    is_RInt (fun x => hf x * hg x) (nd (l_nodes f) 0) (nd (l_nodes f) (l_n f - 1)) v.
Proof. exact ce_inner_exact. Qed.
Print Assumptions C30_inner.

Theorem C30_axpy : forall tol (a : R) (f g : lexp (Rops tol)), 0 <= tol -> valid tol f -> valid tol g ->
  spaced (2 * tol) (l_n f) (l_nodes f) -> same_grid tol f g ->
  exists h, ce_axpy (K := Rops tol) a f g = Ok h /\ valid tol h /\ same_grid tol g h /\
   forall x : R, exists u v, ce_eval f x = Ok u /\ ce_eval g x = Ok v /\ ce_eval h x = Ok (a * u + v).
Proof. exact ce_axpy_same. Qed.
Print Assumptions C30_axpy.

Theorem C30_prod : forall tol (f g : lexp (Rops tol)), 0 <= tol -> valid tol f -> valid tol g ->
  spaced (2 * tol) (l_n f) (l_nodes f) -> same_grid tol f g ->
  exists h, ce_prod f g = Ok h /\ valid tol h /\ same_grid tol f h /\
   forall x : R, exists u v, ce_eval f x = Ok u /\ ce_eval g x = Ok v /\ ce_eval h x = Ok (u * v).
Proof. exact ce_prod_same. Qed.
Print Assumptions C30_prod.

Theorem C30_max : forall tol (f : lexp (Rops tol)), 0 <= tol -> valid tol f -> spaced (2 * tol) (l_n f) (l_nodes f) ->
  exists m xm, node_max (K := Rops tol) (l_n f) (l_nodes f) (l_coeff f) = Ok (m, xm) /\ ce_eval f xm = Ok m /\
   forall x : R, nd (l_nodes f) 0 <= x <= nd (l_nodes f) (l_n f - 1) -> exists v, ce_eval f x = Ok v /\ v <= m.
Proof. exact ce_max_ok. Qed.
Print Assumptions C30_max.

Theorem C30_min : forall tol (f : lexp (Rops tol)), 0 <= tol -> valid tol f -> spaced (2 * tol) (l_n f) (l_nodes f) ->
  exists m xm, node_min (K := Rops tol) (l_n f) (l_nodes f) (l_coeff f) = Ok (m, xm) /\ ce_eval f xm = Ok m /\
   forall x : R, nd (l_nodes f) 0 <= x <= nd (l_nodes f) (l_n f - 1) -> exists v, ce_eval f x = Ok v /\ m <= v.
Proof. exact ce_min_ok. Qed.
Print Assumptions C30_min.

Example C30_case : valid tol15 (exS tol15) /\ spaced (2 * tol15) 2 (l_nodes (exS tol15)) /\
  exists v w, ce_integrate (exS tol15) = Ok v /\ is_RInt exSf 0 1 v /\
    ce_inner (exS tol15) (exS tol15) = Ok w /\ is_RInt (fun x => exSf x * exSf x) 0 1 w.
Proof.
  split; [apply exS_valid|]. split; [apply exS_spaced|].
  destruct (C30_integrate tol15 (exS tol15) exSf) as (v & Ev & Iv); [apply exS_valid|intros x; apply exS_graph|].
  destruct (C30_inner tol15 (exS tol15) (exS tol15) exSf exSf) as (w & Ew & Iw); try apply exS_valid; try (intros x; apply exS_graph).
  - pose proof tol15_pos. lra.
  - split; auto.
  - exists v, w. auto.
Qed.
Example C30_run : q1 (ce_eval exC (q 1 2)) = Ok (1 # 1)%Q /\ q1 (ce_eval exC (q 1 4)) = Ok (0 # 1)%Q
  /\ q1 (ce_integrate exC) = Ok (5 # 2)%Q /\ q1 (ce_inner exC exC) = Ok (11 # 2)%Q.
Proof. repeat match goal with |- _ /\ _ => split end; vm_compute; reflexivity. Qed.

(** ** Different grids: all three claims fail. *)

Theorem C30_axpy_grid_refuted : exists (f g h : lexp Qops) (x u v w : Qc),
  @ce_axpy Qops (q 1 1) f g = Ok h /\ ce_eval f x = Ok u /\ ce_eval g x = Ok v /\ ce_eval h x = Ok w /\ w <> (u + v)%Qc.
Proof.
  destruct (okp_ex (@ce_axpy Qops (q 1 1) (@mkL Qops 2 [q 0 1; q 2 1] [q 0 1; q 1 1]) (@mkL Qops 3 [q 0 1; q 1 1; q 2 1] [q 0 1; q 0 1; q 0 1]))
     (fun h => okp (ce_eval h (q 3 4)) (fun w => negb (Qc_eq_bool w (q 0 1 + q 0 1)%Qc)))) as (h & Eh & Hh); [vm_compute; reflexivity|].
  destruct (okp_ex _ _ Hh) as (w & Ew & Hw).
  do 2 eexists. exists h, (q 3 4), (q 0 1), (q 0 1), w. split; [exact Eh|]. split; [vm_compute; reflexivity|].
  split; [vm_compute; reflexivity|]. split; [exact Ew|]. intros ->.
  assert (X : forall y, Qc_eq_bool y y = true) by (intros y; unfold Qc_eq_bool; destruct (Qc_eq_dec y y); congruence).
  rewrite X in Hw. discriminate.
Qed.
Print Assumptions C30_axpy_grid_refuted.

(** The function that is 0 left of 1 and 1 from 1 on, on [0,2], has integral 1;
    its inner product with the constant 1 on another grid is 3/2. *)
Theorem C30_inner_grid_refuted : exists (f g : lexp Qops),
  q1 (ce_integrate f) = Ok (1 # 1)%Q /\
  l_coeff g = [q 1 1; q 1 1; q 1 1] /\ l_n g = 3%nat /\
  q1 (ce_inner f g) = Ok (3 # 2)%Q.
Proof.
  exists (@mkL Qops 2 [q 0 1; q 2 1] [q 0 1; q 1 1]), (@mkL Qops 3 [q 0 1; q 1 1; q 2 1] [q 1 1; q 1 1; q 1 1]).
  split; [vm_compute; reflexivity|]. split; [reflexivity|]. split; [reflexivity|]. vm_compute; reflexivity.
Qed.
Print Assumptions C30_inner_grid_refuted.

(** Product on different grids stops the program, inner product over disjoint
    domains reads outside its arrays. *)
Theorem C30_prod_grid_refuted : forall tol (f g : lexp (Rops tol)), valid tol f -> valid tol g ->
  (l_n f <> l_n g \/ exists i, (i < l_n f)%nat /\ tol < Rabs (nd (l_nodes f) i - nd (l_nodes g) i)) ->
  ce_prod f g = Abort.
Proof. exact ce_prod_diff. Qed.
Print Assumptions C30_prod_grid_refuted.

Theorem C30_inner_disjoint_refuted : forall tol (f g : lexp (Rops tol)), 0 <= tol -> valid tol f -> valid tol g ->
  nd (l_nodes f) (l_n f - 1) + tol < nd (l_nodes g) 0 -> ce_inner f g = UB.
Proof. exact ce_inner_disjoint. Qed.
Print Assumptions C30_inner_disjoint_refuted.

(** * C28 (piecewise-constant part) *)

(** With a zeroed buffer the gradient is right. *)
Theorem C28_const_zeroed : forall tol (f : lexp (Rops tol)) (nx : nat) (x g : list R), 0 <= tol -> valid tol f ->
  spaced (2 * tol) (l_n f) (l_nodes f) -> (nx <= length x)%nat -> (nx * l_n f <= length g)%nat ->
  (forall k, nd g k = 0) ->
  (forall ii, (ii < nx)%nat -> nd (l_nodes f) 0 <= nd x ii <= nd (l_nodes f) (l_n f - 1)) ->
  exists g', ce_param_grad_eval f nx x g = Ok g' /\ length g' = length g /\
    (forall ii, (ii < nx)%nat -> exists v, ce_eval f (nd x ii) = Ok v /\
       forall j h, (j < l_n f)%nat -> ce_eval (bump tol f j h) (nd x ii) = Ok (v + h * nd g' (ii * l_n f + j))).
Proof. exact ce_param_grad_eval_zeroed. Qed.
Print Assumptions C28_const_zeroed.

(** For every buffer: all entries but the one after the nearest node are right;
    that entry keeps its old content although the value does not depend on it;
    the returned number is the position of the node instead of the value. *)
Theorem C28_const_refuted : forall tol (f : lexp (Rops tol)) (x : R) (g : list R), 0 <= tol -> valid tol f ->
  spaced (2 * tol) (l_n f) (l_nodes f) -> (l_n f <= length g)%nat ->
  nd (l_nodes f) 0 <= x <= nd (l_nodes f) (l_n f - 1) ->
  exists k g' v, Nearest (l_n f) (l_nodes f) x k /\
    ce_param_grad_eval2 f x g = Ok (nd (l_nodes f) k, g') /\ length g' = length g /\
    ce_eval f x = Ok v /\ v = nd (l_coeff f) k /\
    (forall j h, (j < l_n f)%nat -> j <> S k -> ce_eval (bump tol f j h) x = Ok (v + h * nd g' j)) /\
    ((S k < l_n f)%nat -> forall h, ce_eval (bump tol f (S k) h) x = Ok v) /\
    nd g' (S k) = nd g (S k).
Proof. exact ce_param_grad_eval2_ok. Qed.
Print Assumptions C28_const_refuted.

Example C28_const_run :
  qs (ce_param_grad_eval exC 2 [q 1 4; q 2 1] (repeat (q 0 1) 6)) = Ok [1 # 1; 0 # 1; 0 # 1; 0 # 1; 0 # 1; 1 # 1]%Q
  /\ qs (ce_param_grad_eval exC 1 [q 1 4] (repeat (q 7 1) 3)) = Ok [1 # 1; 7 # 1; 0 # 1]%Q.
Proof. split; vm_compute; reflexivity. Qed.

(** * C52 orthonormal basis *)

Theorem C52_orth_basis : forall tol (tiny : R) (n num : nat) (nodes : list R), 0 <= tol ->
  (2 <= num)%nat -> (n <= num)%nat -> (num <= length nodes)%nat -> sinc num nodes ->
  exists fs, ce_orth_basis (K := Rops tol) sqrt tiny n num nodes = Ok fs /\ length fs = n /\
    (forall i f, nth_error fs i = Some f -> valid tol f /\ l_n f = num /\ l_nodes f = firstn num nodes) /\
    forall i j f g, nth_error fs i = Some f -> nth_error fs j = Some g ->
      ce_inner f g = Ok (if Nat.eq_dec i j then 1 else 0).
Proof. exact ce_orth_basis_ok. Qed.
Print Assumptions C52_orth_basis.

Example C52_case : (2 <= 3)%nat /\ sinc 3 [0; 1; 4].
Proof. split; [lia|]. intros [|[|i]] Hi; unfold nd; cbn; try lra. lia. Qed.

(** More functions than nodes: a surplus function has the squared norm
    [tiny^2 (b-a)/2] instead of one. *)
Theorem C52_orth_basis_refuted : forall tol (tiny a b : R), 0 <= tol -> a < b -> tiny * tiny * (b - a) < 2 ->
  exists fs f v, ce_orth_basis (K := Rops tol) sqrt tiny 3 2 [a; b] = Ok fs /\ nth_error fs 2 = Some f /\
    ce_inner f f = Ok v /\ v < 1.
Proof.
  intros tol tiny a b Ht Hab Hv.
  set (f := @mkL (Rops tol) 2 [a; b] [tiny; 0]).
  assert (V : valid tol f) by (constructor; cbn; try lia; intros [|i] Hi; unfold nd; cbn; [lra|lia]).
  do 2 eexists. exists (tiny * tiny * (b - a) / 2). split; [reflexivity|]. split; [cbn [nth_error]; reflexivity|].
  split; [|lra]. change (ce_inner f f = Ok (tiny * tiny * (b - a) / 2)). unfold ce_inner.
  setoid_rewrite (same_grid_sdiscp tol f f Ht V V ltac:(split; auto)). cbn [obind].
  rewrite ce_inner_same_trap by (cbn; lia). cbn. unfold nd. cbn. f_equal. field.
Qed.
Print Assumptions C52_orth_basis_refuted.

(** * C53 derivative of a piecewise-constant function *)

(** Central and one-sided difference quotients of the nodal values, written over
    the values they are computed from: the last entry uses an entry that is
    already overwritten. *)
Theorem C53_deriv_refuted : exists (f : lexp Qops) (h : lexp Qops),
  ce_deriv f = Ok h /\ map this (firstn 3 (l_coeff f)) = [0 # 1; 1 # 1; 3 # 1]%Q /\
  map this (firstn 3 (l_nodes f)) = [0 # 1; 1 # 1; 2 # 1]%Q /\
  exists y, nth_error (map this (l_coeff h)) 2 = Some y /\ ~ (y == (3 - 1) / (2 - 1))%Q.
Proof.
  destruct (okp_ex (ce_deriv exC) (fun h => match nth_error (map this (l_coeff h)) 2 with Some y => negb (Qeq_bool y ((3 - 1) / (2 - 1))%Q) | None => false end))
   as (h & E & Hh); [vm_compute; reflexivity|].
  exists exC, h. split; [exact E|]. split; [reflexivity|]. split; [reflexivity|].
  destruct (nth_error (map this (l_coeff h)) 2) as [y|]; [|discriminate]. exists y. split; auto.
  intros H. apply Qeq_bool_iff in H. rewrite H in Hh. discriminate.
Qed.
Print Assumptions C53_deriv_refuted.
