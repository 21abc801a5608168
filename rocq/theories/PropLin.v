(** Properties C25-C29 and C48-C50: piecewise-linear nodal functions.

    The number model is [Rops tol]: real numbers, with the literal 1e-15 of the
    code replaced by an arbitrary [tol]; [Qops] (rational numbers, 1e-15) runs
    the same model on concrete data. *)
From Verif Require Import Base BaseFacts FOps LinElmModel LinElmSpec LinElmFacts LinElmMerge LinElmArith
  LinElmInt LinElmGrad LinElmAdapt LinElmErr LinElmMore ConstElmFacts RIntLib GridModel.
From Coq Require Import QArith Qcanon Reals Lra.
Close Scope Qc_scope.
Close Scope Q_scope.
Local Open Scope R_scope.

(** The function |x - 1| on the nodes 0, 1, 3. *)
Definition exV (tol : R) : lexp (Rops tol) := @mkL (Rops tol) 3 [0; 1; 3] [1; 0; 2].
Lemma exV_valid tol : valid tol (exV tol).
Proof.
  constructor; cbn; try lia. intros [|[|i]] Hi; unfold nd; cbn; try lra. lia.
Qed.
Lemma exV_spaced : spaced tol15 3 [0; 1; 3].
Proof.
  assert (tol15 < 1) by (unfold tol15; rewrite <- Rinv_1; apply Rinv_1_lt_contravar; [lra|]; apply Rlt_pow_R1; [lra|lia]).
  intros [|[|i]] Hi; unfold nd; cbn; try lra. lia.
Qed.
Lemma exV_graph tol x : nd (l_nodes (exV tol)) 0 <= x <= nd (l_nodes (exV tol)) 2 ->
  Interp 3 (l_nodes (exV tol)) (l_coeff (exV tol)) x (Rabs (x - 1)).
Proof.
  unfold exV, nd. cbn. intros Hx. destruct (Rle_dec x 1).
  - exists 0%nat. split; [lia|]. unfold nd, on_line. cbn. rewrite Rabs_left1 by lra. split; [lra|]. ring.
  - exists 1%nat. split; [lia|]. unfold nd, on_line. cbn. rewrite Rabs_pos_eq by lra. split; [lra|]. ring.
Qed.
(** Rational data for runs of the model. *)
Definition q (a : Z) (b : positive) : Qc := Q2Qc (a # b).
Definition exQ : lexp Qops := @mkL Qops 3 [q 0 1; q 1 1; q 3 1] [q 1 1; q 0 1; q 2 1].
Definition exQ2 : lexp Qops := @mkL Qops 2 [q 0 1; q 3 1] [q 0 1; q 3 1].

(** Used nodes and coefficients of a result. *)
Definition view (o : outcome (lexp Qops)) : outcome (list (Qc * Qc)) :=
  do h <- o; Ok (combine (firstn (l_n h) (l_nodes h)) (firstn (l_n h) (l_coeff h))).
Definition eqv (o : outcome (list (Qc * Qc))) (l : list (Qc * Qc)) : bool :=
  match o with
  | Ok l' => (length l =? length l') && forallb (fun p => Qc_eq_bool (fst (fst p)) (fst (snd p)) && Qc_eq_bool (snd (fst p)) (snd (snd p))) (combine l l')
  | _ => false
  end.

Definition okp {A} (o : outcome A) (P : A -> bool) : bool := match o with Ok a => P a | _ => false end.
Lemma okp_ex {A} (o : outcome A) P : okp o P = true -> exists a, o = Ok a /\ P a = true.
Proof. destruct o; cbn; try discriminate. eauto. Qed.
Definition qs (o : outcome (list Qc)) : outcome (list Q) := do l <- o; Ok (map this l).
Definition q1 (o : outcome Qc) : outcome Q := do x <- o; Ok (this x).

(** * C25 *)

(** Evaluation returns the value of the polygon at every point of the range that
    is a node or farther than [tol] from every node; zero outside the range. *)
Theorem C25_eval : forall tol (f : lexp (Rops tol)) (x : R), valid tol f ->
  (x < nd (l_nodes f) 0 \/ nd (l_nodes f) (l_n f - 1) < x -> le_eval f x = Ok 0) /\
  (nd (l_nodes f) 0 <= x <= nd (l_nodes f) (l_n f - 1) -> clear tol f x ->
     exists v, le_eval f x = Ok v /\ Interp (l_n f) (l_nodes f) (l_coeff f) x v).
Proof. intros tol f x V. split; [now apply le_eval_out|now apply le_eval_clear]. Qed.
Print Assumptions C25_eval.

(** At every node exactly the nodal value. *)
Theorem C25_eval_node : forall tol (f : lexp (Rops tol)) k, 0 <= tol -> valid tol f ->
  spaced tol (l_n f) (l_nodes f) -> (k < l_n f)%nat -> le_eval f (nd (l_nodes f) k) = Ok (nd (l_coeff f) k).
Proof. exact le_eval_node. Qed.
Print Assumptions C25_eval_node.

(** Every other point: the search ends, and the value is the polygon's or that
    of a node closer than [tol]; the latter differs from the polygon by at most
    [tol] times the slope of one of the cells. *)
Theorem C25_eval_near : forall tol (f : lexp (Rops tol)) (x : R), 0 <= tol -> valid tol f ->
  spaced tol (l_n f) (l_nodes f) ->
  nd (l_nodes f) 0 <= x <= nd (l_nodes f) (l_n f - 1) ->
  exists v w, le_eval f x = Ok w /\ Interp (l_n f) (l_nodes f) (l_coeff f) x v /\
    (w = v \/ exists i, (S i < l_n f)%nat /\
      Rabs (v - w) <= tol * Rabs ((nd (l_coeff f) (S i) - nd (l_coeff f) i) / (nd (l_nodes f) (S i) - nd (l_nodes f) i))).
Proof.
  intros tol f x Ht V S Hx.
  destruct (Interp_ex (l_n f) (l_nodes f) (l_coeff f) x) as (v & Iv); [apply V|apply V|auto|].
  destruct (le_eval_in tol f x V Hx) as (w & E & [(k & Hk & Hd & Ew)|Iw]); exists v, w.
  - split; auto. split; auto. right. rewrite Ew. eapply le_eval_near; eauto.
  - split; auto. split; auto. left. eapply Interp_fun; eauto. apply V.
Qed.
Print Assumptions C25_eval_near.

Example C25_case : valid tol15 (exV tol15) /\ spaced tol15 3 (l_nodes (exV tol15)) /\
  le_eval (exV tol15) 1 = Ok 0.
Proof.
  split; [apply exV_valid|]. split; [apply exV_spaced|].
  apply (C25_eval_node tol15 (exV tol15) 1); [pose proof tol15_pos; lra|apply exV_valid|apply exV_spaced|cbn; lia].
Qed.
Example C25_run : le_eval exQ (q 1 4) = Ok (q 3 4) /\ le_eval exQ (q 2 1) = Ok (q 1 1) /\
  le_eval exQ (q 4 1) = Ok (q 0 1) /\ le_eval exQ (q 3 1) = Ok (q 2 1).
Proof. repeat match goal with |- _ /\ _ => split end; vm_compute; reflexivity. Qed.

(** * C26 *)

(** Sum on equal or different grids over one interval. *)
Theorem C26_axpy : forall tol (a : R) (f g : lexp (Rops tol)), 0 < tol -> valid tol f -> valid tol g ->
  spaced tol (l_n f) (l_nodes f) -> spaced tol (l_n g) (l_nodes g) ->
  sepd tol (l_n f) (l_n g) (l_nodes f) (l_nodes g) ->
  nd (l_nodes f) 0 = nd (l_nodes g) 0 ->
  nd (l_nodes f) (l_n f - 1) = nd (l_nodes g) (l_n g - 1) ->
  exists h, le_axpy (K := Rops tol) a f g = Ok h /\ valid tol h /\
    (forall v, is_node (l_n h) (l_nodes h) v <-> is_node (l_n f) (l_nodes f) v \/ is_node (l_n g) (l_nodes g) v) /\
    (forall x yf yg, Interp (l_n f) (l_nodes f) (l_coeff f) x yf -> Interp (l_n g) (l_nodes g) (l_coeff g) x yg ->
       Interp (l_n h) (l_nodes h) (l_coeff h) x (a * yf + yg)).
Proof. exact le_axpy_ok. Qed.
Print Assumptions C26_axpy.

Theorem C26_axpy_eval : forall tol (a : R) (f g : lexp (Rops tol)), 0 < tol -> valid tol f -> valid tol g ->
  spaced tol (l_n f) (l_nodes f) -> spaced tol (l_n g) (l_nodes g) ->
  sepd tol (l_n f) (l_n g) (l_nodes f) (l_nodes g) ->
  nd (l_nodes f) 0 = nd (l_nodes g) 0 ->
  nd (l_nodes f) (l_n f - 1) = nd (l_nodes g) (l_n g - 1) ->
  exists h, le_axpy (K := Rops tol) a f g = Ok h /\
    forall x : R, nd (l_nodes f) 0 <= x <= nd (l_nodes f) (l_n f - 1) -> clear tol h x ->
      exists vf vg, le_eval f x = Ok vf /\ le_eval g x = Ok vg /\ le_eval h x = Ok (a * vf + vg).
Proof. exact le_axpy_eval. Qed.
Print Assumptions C26_axpy_eval.

Example C26_run : eqv (view (@le_axpy Qops (q 2 1) exQ exQ2)) [(q 0 1, q 2 1); (q 1 1, q 1 1); (q 3 1, q 7 1)] = true.
Proof. repeat match goal with |- _ /\ _ => split end; vm_compute; reflexivity. Qed.
Example C26_case : let f := exV tol15 in let g := @mkL (Rops tol15) 2 [0; 3] [0; 3] in
  valid tol15 g /\ spaced tol15 2 (l_nodes g) /\ sepd tol15 3 2 (l_nodes f) (l_nodes g).
Proof.
  assert (tol15 < 1) by (unfold tol15; rewrite <- Rinv_1; apply Rinv_1_lt_contravar; [lra|]; apply Rlt_pow_R1; [lra|lia]).
  cbn. split; [constructor; cbn; try lia; intros [|i] Hi; unfold nd; cbn; try lra; lia|].
  split; [intros [|i] Hi; unfold nd; cbn; try lra; lia|].
  intros [|[|[|i]]] [|[|j]] Hi Hj; try lia; unfold nd; cbn; try (left; lra); right;
   solve [rewrite Rabs_pos_eq by lra; lra | rewrite Rabs_left1 by lra; lra].
Qed.

(** Different bounds: outside its own range a function counts as zero at the
    nodes of the sum, which is then interpolated; at 3/2 the sum of a function on
    [0,1] and one on [0,2] is wrong. *)
Theorem C26_axpy_bounds_refuted : exists (f g h : lexp Qops) (x u v w : Qc),
  @le_axpy Qops (q 1 1) f g = Ok h /\ le_eval f x = Ok u /\ le_eval g x = Ok v /\ le_eval h x = Ok w /\ w <> (u + v)%Qc.
Proof.
  destruct (okp_ex (@le_axpy Qops (q 1 1) (@mkL Qops 2 [q 0 1; q 1 1] [q 1 1; q 1 1]) (@mkL Qops 2 [q 0 1; q 2 1] [q 0 1; q 0 1]))
     (fun h => okp (le_eval h (q 3 2)) (fun w => negb (Qc_eq_bool w (q 0 1 + q 0 1)%Qc)))) as (h & Eh & Hh); [vm_compute; reflexivity|].
  destruct (okp_ex _ _ Hh) as (w & Ew & Hw).
  do 2 eexists. exists h, (q 3 2), (q 0 1), (q 0 1), w. split; [exact Eh|]. split; [vm_compute; reflexivity|].
  split; [vm_compute; reflexivity|]. split; [exact Ew|]. intros ->.
  assert (X : forall y, Qc_eq_bool y y = true) by (intros y; unfold Qc_eq_bool; destruct (Qc_eq_dec y y); congruence).
  rewrite X in Hw. discriminate.
Qed.
Print Assumptions C26_axpy_bounds_refuted.

(** * C27 *)

Theorem C27_integrate : forall tol (f : lexp (Rops tol)) (h : R -> R), valid tol f ->
  (forall x, nd (l_nodes f) 0 <= x <= nd (l_nodes f) (l_n f - 1) -> Interp (l_n f) (l_nodes f) (l_coeff f) x (h x)) ->
  exists v, le_integrate f = Ok v /\ is_RInt h (nd (l_nodes f) 0) (nd (l_nodes f) (l_n f - 1)) v.
Proof. exact le_integrate_exact. Qed.
Print Assumptions C27_integrate.

Example C27_integrate_case tol : exists v, le_integrate (exV tol) = Ok v /\ is_RInt (fun x => Rabs (x - 1)) 0 3 v.
Proof. apply (C27_integrate tol (exV tol) (fun x => Rabs (x - 1))); [apply exV_valid|]. intros x. apply exV_graph. Qed.
Example C27_integrate_run : le_integrate exQ = Ok (q 5 2) /\ le_inner exQ exQ2 = Ok (q 6 1).
Proof. repeat match goal with |- _ /\ _ => split end; vm_compute; reflexivity. Qed.

(** The inner product is the area under the polygon that interpolates the
    product of the two functions at the nodes of both. *)
Theorem C27_inner : forall tol (f g : lexp (Rops tol)), 0 < tol -> valid tol f -> valid tol g ->
  spaced tol (l_n f) (l_nodes f) -> spaced tol (l_n g) (l_nodes g) ->
  sepd tol (l_n f) (l_n g) (l_nodes f) (l_nodes g) ->
  nd (l_nodes f) 0 = nd (l_nodes g) 0 ->
  nd (l_nodes f) (l_n f - 1) = nd (l_nodes g) (l_n g - 1) ->
  exists X fv gv, length fv = length X /\ length gv = length X /\ (2 <= length X)%nat /\ sinc (length X) X
     /\ (forall v, In v X <-> is_node (l_n f) (l_nodes f) v \/ is_node (l_n g) (l_nodes g) v)
     /\ (forall k, (k < length X)%nat -> Interp (l_n f) (l_nodes f) (l_coeff f) (nd X k) (nd fv k)
                                     /\ Interp (l_n g) (l_nodes g) (l_coeff g) (nd X k) (nd gv k))
     /\ le_inner f g = Ok (trap (length X) (nd X) (fun k => nd fv k * nd gv k)).
Proof. exact le_inner_ok. Qed.
Print Assumptions C27_inner.

Theorem C27_inner_sym : forall tol (f g : lexp (Rops tol)), 0 < tol -> valid tol f -> valid tol g ->
  spaced tol (l_n f) (l_nodes f) -> spaced tol (l_n g) (l_nodes g) ->
  sepd tol (l_n f) (l_n g) (l_nodes f) (l_nodes g) ->
  nd (l_nodes f) 0 = nd (l_nodes g) 0 ->
  nd (l_nodes f) (l_n f - 1) = nd (l_nodes g) (l_n g - 1) ->
  le_inner f g = le_inner g f.
Proof. exact le_inner_sym. Qed.
Print Assumptions C27_inner_sym.

Theorem C27_inner_bilinear : forall tol (a : R) (f g f' : lexp (Rops tol)), 0 <= tol ->
  valid tol f -> valid tol g -> valid tol f' -> same_grid tol f g -> same_grid tol f' g ->
  exists h vf vg v, le_axpy (K := Rops tol) a f' f = Ok h /\ le_inner f g = Ok vf /\ le_inner f' g = Ok vg /\
     le_inner h g = Ok v /\ v = a * vg + vf.
Proof. exact le_inner_bilinear. Qed.
Print Assumptions C27_inner_bilinear.

(** On one grid the difference from the integral of the product is exactly one
    sixth of the sum over the cells of (jump of f)(jump of g)(length). *)
Theorem C27_inner_error : forall tol (f g : lexp (Rops tol)) (hf hg : R -> R), 0 <= tol ->
  valid tol f -> valid tol g -> same_grid tol f g ->
  (forall x, nd (l_nodes f) 0 <= x <= nd (l_nodes f) (l_n f - 1) -> Interp (l_n f) (l_nodes f) (l_coeff f) x (hf x)) ->
  (forall x, nd (l_nodes g) 0 <= x <= nd (l_nodes g) (l_n g - 1) -> Interp (l_n g) (l_nodes g) (l_coeff g) x (hg x)) ->
  exists v, le_inner f g = Ok v /\
    is_RInt (fun x => hf x * hg x) (nd (l_nodes f) 0) (nd (l_nodes f) (l_n f - 1))
      (v - jumps (l_n f) (nd (l_nodes f)) (nd (l_coeff f)) (nd (l_coeff g))).
Proof. exact le_inner_error. Qed.
Print Assumptions C27_inner_error.

(** So it is not the integral of the product: for |x - 1| with itself on [0,3]
    the result is 9/2 and the integral is 3. *)
Theorem C27_inner_exact_refuted : exists (f : lexp (Rops tol15)) (h : R -> R) v w,
  valid tol15 f /\ spaced tol15 (l_n f) (l_nodes f) /\
  (forall x, nd (l_nodes f) 0 <= x <= nd (l_nodes f) (l_n f - 1) -> Interp (l_n f) (l_nodes f) (l_coeff f) x (h x)) /\
  le_inner f f = Ok v /\ is_RInt (fun x => h x * h x) (nd (l_nodes f) 0) (nd (l_nodes f) (l_n f - 1)) w /\ v <> w.
Proof.
  pose proof tol15_pos as Ht.
  assert (G : same_grid tol15 (exV tol15) (exV tol15)) by (split; auto).
  destruct (le_inner_error tol15 (exV tol15) (exV tol15) (fun x => Rabs (x - 1)) (fun x => Rabs (x - 1)))
    as (v & E & I); auto using exV_valid; try lra; try (intros x; apply exV_graph).
  exists (exV tol15), (fun x => Rabs (x - 1)), v, (v - jumps 3 (nd (l_nodes (exV tol15))) (nd (l_coeff (exV tol15))) (nd (l_coeff (exV tol15)))).
  repeat match goal with |- _ /\ _ => split end; auto using exV_valid, exV_spaced.
  - intros x. apply exV_graph.
  - unfold exV, nd. cbn. lra.
Qed.
Print Assumptions C27_inner_exact_refuted.

(** Functions with disjoint domains stop the program. *)
Theorem C27_inner_abort_refuted : forall tol (f g : lexp (Rops tol)), 0 <= tol -> valid tol f -> valid tol g ->
  nd (l_nodes f) (l_n f - 1) + tol < nd (l_nodes g) 0 -> le_inner f g = Abort.
Proof. exact le_inner_disjoint. Qed.
Print Assumptions C27_inner_abort_refuted.

(** * C28 (piecewise-linear part) *)

(** Inside the range the gradient is exact, not only to first order: changing
    coefficient [j] by [h] changes the value by [h] times entry [j]. *)
Theorem C28_lin_grad2 : forall tol (f : lexp (Rops tol)) (x : R) (g : list R), valid tol f -> (l_n f <= length g)%nat ->
  nd (l_nodes f) 0 <= x <= nd (l_nodes f) (l_n f - 1) -> clear tol f x ->
  exists v g', le_param_grad_eval2 f x g = Ok (v, g') /\ length g' = length g /\
    le_eval f x = Ok v /\
    (forall j h, (j < l_n f)%nat -> le_eval (bump tol f j h) x = Ok (v + h * nd g' j)) /\
    (forall k, (l_n f <= k)%nat -> nd g' k = nd g k).
Proof. exact le_param_grad_eval2_ok. Qed.
Print Assumptions C28_lin_grad2.

Theorem C28_lin_grad : forall tol (f : lexp (Rops tol)) (nx : nat) (x g : list R), valid tol f ->
  (nx <= length x)%nat -> (nx * l_n f <= length g)%nat ->
  (forall ii, (ii < nx)%nat -> nd (l_nodes f) 0 <= nd x ii <= nd (l_nodes f) (l_n f - 1) /\ clear tol f (nd x ii)) ->
  exists g', le_param_grad_eval f nx x g = Ok g' /\ length g' = length g /\
    (forall ii, (ii < nx)%nat -> exists v, le_eval f (nd x ii) = Ok v /\
       forall j h, (j < l_n f)%nat -> le_eval (bump tol f j h) (nd x ii) = Ok (v + h * nd g' (ii * l_n f + j))) /\
    (forall k, (nx * l_n f <= k)%nat -> nd g' k = nd g k).
Proof. exact le_param_grad_eval_ok. Qed.
Print Assumptions C28_lin_grad.

Example C28_lin_run :
  qs (do r <- le_param_grad_eval2 exQ (q 3 2) [q 7 1; q 7 1; q 7 1]; Ok (fst r :: snd r)) = Ok [1 # 2; 0 # 1; 3 # 4; 1 # 4]%Q
  /\ qs (le_param_grad_eval exQ 2 [q 1 2; q 3 1] (repeat (q 7 1) 6)) = Ok [1 # 2; 1 # 2; 0 # 1; 0 # 1; 0 # 1; 1 # 1]%Q.
Proof. split; vm_compute; reflexivity. Qed.

(** Outside the range the value is zero whatever the coefficients are, but the
    gradient entries sum to one. *)
Theorem C28_lin_outside_refuted : forall tol (f : lexp (Rops tol)) (x : R) (g : list R), valid tol f -> (l_n f <= length g)%nat ->
  x < nd (l_nodes f) 0 \/ nd (l_nodes f) (l_n f - 1) < x ->
  (forall c, (l_n f <= length c)%nat -> le_eval (@mkL (Rops tol) (l_n f) (l_nodes f) c) x = Ok 0) /\
  exists v g' i, le_param_grad_eval2 f x g = Ok (v, g') /\ (S i < l_n f)%nat /\ nd g' i + nd g' (S i) = 1.
Proof. exact le_param_grad_eval2_out. Qed.
Print Assumptions C28_lin_outside_refuted.

(** * C29 *)

Theorem C29_adapt : forall tol (o : laopts (Rops tol)) (F : R -> R), o_adapt o = true -> o_nodes o = None ->
  0 < o_hmin o -> o_lb o < o_ub o ->
  exists N, forall fuel, (N <= fuel)%nat -> exists e, le_approx (K := Rops tol) fuel o F = Ok e /\
    valid tol e /\ nd (l_nodes e) 0 = o_lb o /\ nd (l_nodes e) (l_n e - 1) = o_ub o /\
    (forall i, (i < l_n e)%nat -> nd (l_coeff e) i = F (nd (l_nodes e) i)) /\
    (forall i, (S i < l_n e)%nat -> accepted F (o_delta o) (o_hmin o) (nd (l_nodes e) i) (nd (l_nodes e) (S i))).
Proof. exact le_approx_none. Qed.
Print Assumptions C29_adapt.

(** With starting nodes: the same, and every starting node is kept. *)
Theorem C29_adapt_nodes : forall tol (o : laopts (Rops tol)) (F : R -> R) (nodes : list R), o_adapt o = true -> o_nodes o = Some nodes ->
  0 < o_hmin o -> (2 <= o_n o)%nat -> (o_n o <= length nodes)%nat -> sinc (o_n o) nodes ->
  exists N, forall fuel, (N <= fuel)%nat -> exists e, le_approx (K := Rops tol) fuel o F = Ok e /\
    valid tol e /\ nd (l_nodes e) 0 = nd nodes 0 /\ nd (l_nodes e) (l_n e - 1) = nd nodes (o_n o - 1) /\
    (forall i, (i < l_n e)%nat -> nd (l_coeff e) i = F (nd (l_nodes e) i)) /\
    (forall i, (S i < l_n e)%nat -> accepted F (o_delta o) (o_hmin o) (nd (l_nodes e) i) (nd (l_nodes e) (S i))) /\
    (forall j, (j < o_n o)%nat -> exists i, (i < l_n e)%nat /\ nd (l_nodes e) i = nd nodes j).
Proof. exact le_approx_some. Qed.
Print Assumptions C29_adapt_nodes.

(** The positive minimum spacing is needed: for the zero function the relative
    test never succeeds, and the recursion does not end without it. *)
Theorem C29_adapt_needs_hmin : forall tol (F : R -> R) (delta hmin : R), hmin <= 0 -> (forall x, F x = 0) ->
  forall fuel (xl xr : R), xl < xr -> @le_adapt (Rops tol) fuel F xl (F xl) xr (F xr) delta hmin = OutOfFuel.
Proof. exact le_adapt_diverges. Qed.
Print Assumptions C29_adapt_needs_hmin.

Example C29_run : eqv (view (@le_approx Qops 5 (@mkLO Qops true None 0 (q 0 1) (q 1 1) (q 1 10) (q 1 2)) (fun x => x * x)%Qc))
  [(q 0 1, q 0 1); (q 1 2, q 1 4); (q 1 1, q 1 1)] = true.
Proof. repeat match goal with |- _ /\ _ => split end; vm_compute; reflexivity. Qed.

(** * C48 product *)

Theorem C48_prod_same : forall tol (fuel : nat) (delta hmin : R) (f g : lexp (Rops tol)), 0 <= tol -> valid tol f -> valid tol g ->
  spaced tol (l_n f) (l_nodes f) -> same_grid tol f g ->
  exists p, le_prod (K := Rops tol) fuel delta hmin f g = Ok p /\ valid tol p /\ same_grid tol f p /\
    forall i, (i < l_n f)%nat -> nd (l_coeff p) i = nd (l_coeff f) i * nd (l_coeff g) i.
Proof. exact le_prod_same. Qed.
Print Assumptions C48_prod_same.

Theorem C48_prod_diff : forall tol (delta hmin : R) (f g : lexp (Rops tol)), 0 <= tol -> 0 < hmin -> valid tol f -> valid tol g ->
  le_sdiscp f g = Ok false ->
  let lb := Rmax (nd (l_nodes f) 0) (nd (l_nodes g) 0) in
  let ub := Rmin (nd (l_nodes f) (l_n f - 1)) (nd (l_nodes g) (l_n g - 1)) in
  lb < ub ->
  exists N, forall fuel, (N <= fuel)%nat -> exists p, le_prod (K := Rops tol) fuel delta hmin f g = Ok p /\ valid tol p /\
    nd (l_nodes p) 0 = lb /\ nd (l_nodes p) (l_n p - 1) = ub /\
    forall i, (i < l_n p)%nat -> exists u v, le_eval f (nd (l_nodes p) i) = Ok u /\
      le_eval g (nd (l_nodes p) i) = Ok v /\ nd (l_coeff p) i = u * v.
Proof. exact le_prod_diff. Qed.
Print Assumptions C48_prod_diff.

Example C48_run : eqv (view (@le_prod Qops 9 (q 1 10) (q 1 1) exQ exQ2))
  [(q 0 1, q 0 1); (q 3 4, q 3 16); (q 3 2, q 3 4); (q 9 4, q 45 16); (q 3 1, q 6 1)] = true.
Proof. repeat match goal with |- _ /\ _ => split end; vm_compute; reflexivity. Qed.

(** * C49 derivative *)

Theorem C49_deriv : forall tol (f : lexp (Rops tol)) (x : R) (h : R -> R), valid tol f ->
  (forall k, (k < l_n f)%nat -> x <> nd (l_nodes f) k /\ tol < Rabs (x - nd (l_nodes f) k)) ->
  nd (l_nodes f) 0 <= x <= nd (l_nodes f) (l_n f - 1) ->
  (forall z, nd (l_nodes f) 0 <= z <= nd (l_nodes f) (l_n f - 1) -> Interp (l_n f) (l_nodes f) (l_coeff f) z (h z)) ->
  exists d, le_deriv_eval f x = Ok d /\ derivable_pt_lim h x d.
Proof. exact le_deriv_eval_in. Qed.
Print Assumptions C49_deriv.

Theorem C49_deriv_out : forall tol (f : lexp (Rops tol)) (x : R), valid tol f ->
  x < nd (l_nodes f) 0 \/ nd (l_nodes f) (l_n f - 1) < x -> le_deriv_eval f x = Ok 0.
Proof. exact le_deriv_eval_out. Qed.
Print Assumptions C49_deriv_out.

Example C49_run : q1 (le_deriv_eval exQ (q 1 2)) = Ok (-1 # 1)%Q /\ q1 (le_deriv_eval exQ (q 2 1)) = Ok (1 # 1)%Q
  /\ q1 (le_deriv_eval exQ (q 1 1)) = Ok (1 # 3)%Q.
Proof. repeat match goal with |- _ /\ _ => split end; vm_compute; reflexivity. Qed.

(** * C50 extrema and scaling *)

Theorem C50_max : forall tol (f : lexp (Rops tol)), 0 <= tol -> valid tol f -> spaced tol (l_n f) (l_nodes f) ->
  exists m xm, node_max (K := Rops tol) (l_n f) (l_nodes f) (l_coeff f) = Ok (m, xm) /\ le_eval f xm = Ok m /\
   forall x : R, nd (l_nodes f) 0 <= x <= nd (l_nodes f) (l_n f - 1) -> exists v, le_eval f x = Ok v /\ v <= m.
Proof. exact le_max_ok. Qed.
Print Assumptions C50_max.

Theorem C50_min : forall tol (f : lexp (Rops tol)), 0 <= tol -> valid tol f -> spaced tol (l_n f) (l_nodes f) ->
  exists m xm, node_min (K := Rops tol) (l_n f) (l_nodes f) (l_coeff f) = Ok (m, xm) /\ le_eval f xm = Ok m /\
   forall x : R, nd (l_nodes f) 0 <= x <= nd (l_nodes f) (l_n f - 1) -> exists v, le_eval f x = Ok v /\ m <= v.
Proof. exact le_min_ok. Qed.
Print Assumptions C50_min.

Theorem C50_absmax : forall tol (f : lexp (Rops tol)), 0 <= tol -> valid tol f -> spaced tol (l_n f) (l_nodes f) ->
  exists m k v, node_absmax (K := Rops tol) (l_n f) (l_coeff f) = Ok (m, k) /\ (k < l_n f)%nat /\
   le_eval f (nd (l_nodes f) k : Rops tol) = Ok v /\ Rabs v = m /\
   forall x : R, nd (l_nodes f) 0 <= x <= nd (l_nodes f) (l_n f - 1) -> exists w, le_eval f x = Ok w /\ Rabs w <= m.
Proof. exact le_absmax_ok. Qed.
Print Assumptions C50_absmax.

Theorem C50_scale : forall tol (a : R) (f : lexp (Rops tol)), valid tol f ->
  exists h, le_scale (K := Rops tol) a f = Ok h /\ valid tol h /\ same_grid tol f h /\
   forall x : R, exists v, le_eval f x = Ok v /\ le_eval h x = Ok (a * v).
Proof. exact le_scale_ok. Qed.
Print Assumptions C50_scale.

Example C50_run : node_max (K := Qops) 3 (l_nodes exQ) (l_coeff exQ) = Ok (q 2 1, q 3 1)
  /\ node_min (K := Qops) 3 (l_nodes exQ) (l_coeff exQ) = Ok (q 0 1, q 1 1)
  /\ node_absmax (K := Qops) 3 [q 1 1; q (-5) 1; q 2 1] = Ok (q 5 1, 1%nat).
Proof. repeat match goal with |- _ /\ _ => split end; vm_compute; reflexivity. Qed.

(** * C51 gradient of the squared norm *)

(** For the zero function, where the squared norm has its minimum and changing
    one coefficient by [h] gives [h^2 (b-a)/2], the routine adds -2/3 (b-a) scale
    to the first entry. *)
Theorem C51_sqnorm_grad_refuted : forall tol (a b scale : R), 0 <= tol -> a < b ->
  let f := @mkL (Rops tol) 2 [a; b] [0; 0] in
  (forall h, le_inner (bump tol f 0 h) (bump tol f 0 h) = Ok (h * h * (b - a) / 2)) /\
  le_sqnorm_param_grad (K := Rops tol) f scale [0; 0] = Ok [- (2 / 3) * (b - a) * scale; 0].
Proof.
  intros tol a b scale Ht Hab f. split.
  - intros h. assert (V : valid tol f).
    { constructor; cbn; try lia. intros [|i] Hi; unfold nd; cbn; [lra|lia]. }
    pose proof (valid_bump tol f 0 h V) as Vb.
    assert (G : same_grid tol (bump tol f 0 h) (bump tol f 0 h)) by (split; auto).
    unfold le_inner. setoid_rewrite (same_grid_sdiscp tol _ _ Ht Vb Vb G). cbn [obind].
    rewrite le_inner_same_trap by (cbn; lia). cbn. f_equal. unfold nd. cbn. field.
  - unfold le_sqnorm_param_grad, f. cbn. f_equal. f_equal; [field|f_equal; field].
Qed.
Print Assumptions C51_sqnorm_grad_refuted.
