(** Facts about piecewise-linear functions: search, evaluation. *)
From Verif Require Import Base BaseFacts FOps LinElmModel LinElmSpec.
From Coq Require Import Reals Lra.
Local Open Scope R_scope.

Ltac unr := cbn [fcar f0 f1 fadd fsub fmul fdiv fabs fltb fleb fnat ftol Rops] in *.
Ltac rlia := unr; lia.

Lemma aget_nd (l : list R) i : (i < length l)%nat -> aget l i = Ok (nd l i).
Proof. intros H. apply aget_ok. unfold nd. now apply nth_error_nth'. Qed.

Lemma sinc_lt n xs i j : sinc n xs -> (i < j)%nat -> (j < n)%nat -> nd xs i < nd xs j.
Proof.
  intros H Hij. induction Hij as [|j Hij IH]; intros Hj; [now apply H|].
  apply Rlt_trans with (nd xs j); [apply IH; lia|]. now apply H.
Qed.
Lemma sinc_le n xs i j : sinc n xs -> (i <= j)%nat -> (j < n)%nat -> nd xs i <= nd xs j.
Proof.
  intros H Hij Hj. destruct (Nat.eq_dec i j) as [->|]; [lra|].
  left. apply sinc_lt with n; auto. lia.
Qed.
Lemma sinc_inj n xs i j : sinc n xs -> (i < n)%nat -> (j < n)%nat -> nd xs i = nd xs j -> i = j.
Proof.
  intros H Hi Hj E. destruct (Nat.lt_trichotomy i j) as [L|[L|L]]; auto.
  - pose proof (sinc_lt n xs i j H L Hj). lra.
  - pose proof (sinc_lt n xs j i H L Hi). lra.
Qed.

(** A point between the first and the last node lies in some cell. *)
Lemma cell_exists n xs x : (2 <= n)%nat -> nd xs 0 <= x -> x <= nd xs (n - 1) ->
  exists i, (S i < n)%nat /\ nd xs i <= x <= nd xs (S i).
Proof.
  intros Hn Ha. induction n as [|n IH]; [lia|]. intros Hb.
  replace (S n - 1)%nat with n in Hb by lia.
  destruct (Nat.eq_dec n 1) as [->|].
  - exists 0%nat. split; [lia|lra].
  - destruct (Rle_dec x (nd xs (n - 1))) as [L|L].
    + destruct IH as (i & Hi & Hx); auto; [lia|]. exists i. split; [lia|lra].
    + exists (n - 1)%nat. split; [lia|]. replace (S (n - 1)) with n by lia. lra.
Qed.

(** The polygon is a function. *)
Lemma Interp_fun n xs ys x y y' : sinc n xs ->
  Interp n xs ys x y -> Interp n xs ys x y' -> y = y'.
Proof.
  intros Hs (i & Hi & Hx & E) (j & Hj & Hx' & E'). unfold on_line in *.
  destruct (Nat.lt_trichotomy i j) as [L|[->|L]].
  - assert (nd xs (S i) <= nd xs j) by (apply sinc_le with n; auto; lia).
    pose proof (Hs i Hi). pose proof (Hs j Hj).
    assert (Ex : x = nd xs j) by lra. assert (Ex' : x = nd xs (S i)) by lra.
    assert (S i = j) by (apply sinc_inj with n xs; auto; try lia; congruence). subst j.
    assert (y = nd ys (S i)) by (apply Rmult_eq_reg_r with (nd xs (S i) - nd xs i); [rewrite Ex' in E; nra|lra]).
    assert (y' = nd ys (S i)) by (apply Rmult_eq_reg_r with (nd xs (S (S i)) - nd xs (S i)); [rewrite Ex' in E'; nra|lra]).
    lra.
  - pose proof (Hs j Hj). assert ((y - y') * (nd xs (S j) - nd xs j) = 0) by lra.
    apply Rmult_integral in H0. lra.
  - assert (nd xs (S j) <= nd xs i) by (apply sinc_le with n; auto; lia).
    pose proof (Hs i Hi). pose proof (Hs j Hj).
    assert (Ex : x = nd xs i) by lra. assert (Ex' : x = nd xs (S j)) by lra.
    assert (S j = i) by (apply sinc_inj with n xs; auto; try lia; congruence). subst i.
    assert (y = nd ys (S j)) by (apply Rmult_eq_reg_r with (nd xs (S (S j)) - nd xs (S j)); [rewrite Ex' in E; nra|lra]).
    assert (y' = nd ys (S j)) by (apply Rmult_eq_reg_r with (nd xs (S j) - nd xs j); [rewrite Ex' in E'; nra|lra]).
    lra.
Qed.

(** The polygon passes through its points. *)
Lemma Interp_node n xs ys k : (2 <= n)%nat -> sinc n xs -> (k < n)%nat ->
  Interp n xs ys (nd xs k) (nd ys k).
Proof.
  intros Hn Hs Hk. destruct (Nat.eq_dec (S k) n).
  - exists (k - 1)%nat. assert (S (k - 1) = k) as -> by lia. split; [lia|]. split; [|unfold on_line; ring].
    split; [|lra]. apply sinc_le with n; auto; lia.
  - exists k. pose proof (Hs k ltac:(lia)). split; [lia|]. split; [lra|unfold on_line; ring].
Qed.

Section Fix.
Context (tol : R).
Notation K := (Rops tol).
Notation lexpR := (lexp K).

(** A well-formed function: at least two strictly increasing nodes. *)
Record valid (f : lexpR) : Prop := mkV {
  v_n : (2 <= l_n f)%nat;
  v_nodes : (l_n f <= length (l_nodes f))%nat;
  v_coeff : (l_n f <= length (l_coeff f))%nat;
  v_inc : sinc (l_n f) (l_nodes f) }.

Lemma fi_spec (nodes : list R) x : forall fuel imin imax,
  (imin < imax)%nat -> (imax < length nodes)%nat -> (imax - imin <= fuel)%nat ->
  exists e i, @fi_loop K fuel nodes x imin imax = Ok (e, i) /\ (imin <= i < imax)%nat /\
    (e = true -> Rabs (x - nd nodes i) <= tol) /\
    (e = false -> (i = imin \/ nd nodes i <= x) /\ (S i = imax \/ x < nd nodes (S i))).
Proof.
  induction fuel as [|fuel IH]; intros imin imax H1 H2 H3; [rlia|].
  cbn [fi_loop].
  pose proof (Nat.div_mod (imax - imin) 2 ltac:(rlia)) as Hd.
  pose proof (Nat.mod_upper_bound (imax - imin) 2 ltac:(rlia)) as Hm.
  set (q := ((imax - imin) / 2)%nat) in *.
  destruct (imin + q =? imin)%nat eqn:Eq.
  - apply Nat.eqb_eq in Eq. exists false, imin. repeat split; try rlia; try congruence; auto.
  - apply Nat.eqb_neq in Eq. rewrite (aget_nd nodes) by rlia. cbn [obind]. unr.
    destruct (Rleb_spec (Rabs (x - nd nodes (imin + q))) tol) as [Ht|Ht].
    + exists true, (imin + q)%nat. repeat split; try rlia; auto; try congruence.
    + destruct (Rltb_spec x (nd nodes (imin + q))) as [Hl|Hl].
      * destruct (IH imin (imin + q)%nat) as (e & i & E & Hi & He & Hf); try rlia.
        exists e, i. split; [exact E|]. split; [rlia|]. split; auto. intros e0. destruct (Hf e0) as [A [B|B]]; split; auto.
        right. rewrite B. auto.
      * destruct (IH (imin + q)%nat imax) as (e & i & E & Hi & He & Hf); try rlia.
        exists e, i. split; [exact E|]. split; [rlia|]. split; auto. intros e0. destruct (Hf e0) as [[A|A] B]; split; auto.
        right. rewrite A. lra.
Qed.

Lemma le_find_ok f (x : R) : valid f ->
  exists i, @le_find_interval K f x = Ok i /\ (S i < l_n f)%nat /\
    (Rabs (x - nd (l_nodes f) i) <= tol \/
     ((i = 0%nat \/ nd (l_nodes f) i <= x) /\ (S i = (l_n f - 1)%nat \/ x < nd (l_nodes f) (S i)))).
Proof.
  intros [Hn Hl Hc Hs]. unfold le_find_interval.
  destruct (l_n f =? 0)%nat eqn:E; [apply Nat.eqb_eq in E; rlia|].
  destruct (fi_spec (l_nodes f) x (l_n f) 0 (l_n f - 1)) as (e & i & E' & Hi & He & Hf); try rlia.
  rewrite E'. cbn [obind snd]. exists i. split; [reflexivity|]. split; [rlia|].
  destruct e; [left; now apply He|right; now apply Hf].
Qed.

(** Inside the node range the search returns the cell, or a node within tolerance. *)
Lemma le_find_in f (x : R) : valid f -> nd (l_nodes f) 0 <= x <= nd (l_nodes f) (l_n f - 1) ->
  exists i, @le_find_interval K f x = Ok i /\ (S i < l_n f)%nat /\
    (Rabs (x - nd (l_nodes f) i) <= tol \/ nd (l_nodes f) i <= x <= nd (l_nodes f) (S i)).
Proof.
  intros V Hx. destruct (le_find_ok f x V) as (i & E & Hi & [H|[[H1|H1] [H2|H2]]]);
    exists i; split; auto; split; auto; right; subst; try (rewrite H2); split; try lra.
Qed.

Lemma on_line_formula x0 y0 x1 y1 x : x0 < x1 ->
  on_line x0 y0 x1 y1 x (y0 * ((x1 - x) / (x1 - x0)) + y1 * (1 - (x1 - x) / (x1 - x0))).
Proof. intros H. unfold on_line. field. lra. Qed.

(** Evaluation: total, zero outside, the polygon inside (snapping to a node
    within the tolerance). *)
Lemma le_eval_out f (x : R) : valid f -> x < nd (l_nodes f) 0 \/ nd (l_nodes f) (l_n f - 1) < x ->
  @le_eval K f x = Ok 0.
Proof.
  intros [Hn Hl Hc Hs] Hx. unfold le_eval.
  rewrite !(aget_nd (l_nodes f)) by rlia. cbn [obind]. unr.
  destruct (Rltb_spec x (nd (l_nodes f) 0)); [reflexivity|].
  destruct (Rltb_spec (nd (l_nodes f) (l_n f - 1)) x); [reflexivity|]. lra.
Qed.

Lemma le_eval_in f (x : R) : valid f -> nd (l_nodes f) 0 <= x <= nd (l_nodes f) (l_n f - 1) ->
  exists v, @le_eval K f x = Ok v /\
   ((exists k, (k < l_n f)%nat /\ Rabs (x - nd (l_nodes f) k) <= tol /\ v = nd (l_coeff f) k)
    \/ Interp (l_n f) (l_nodes f) (l_coeff f) x v).
Proof.
  intros V Hx. pose proof V as [Hn Hl Hc Hs]. unfold le_eval.
  rewrite !(aget_nd (l_nodes f)) by rlia. cbn [obind]. unr.
  destruct (Rltb_spec x (nd (l_nodes f) 0)); [lra|].
  destruct (Rltb_spec (nd (l_nodes f) (l_n f - 1)) x); [lra|]. cbn [orb].
  destruct (le_find_in f x V Hx) as (i & E & Hi & Hc2). setoid_rewrite E. cbn [obind].
  rewrite (aget_nd (l_nodes f)), (aget_nd (l_coeff f)) by rlia. cbn [obind].
  destruct (Rleb_spec (Rabs (x - nd (l_nodes f) i)) tol) as [Ht|Ht].
  - eexists. split; [reflexivity|]. left. exists i. repeat split; auto. rlia.
  - replace (i + 1)%nat with (S i) by rlia.
    rewrite (aget_nd (l_nodes f)), (aget_nd (l_coeff f)) by rlia. cbn [obind].
    eexists. split; [reflexivity|]. right. exists i. split; auto.
    destruct Hc2 as [|Hc2]; [lra|]. split; auto. apply on_line_formula. now apply Hs.
Qed.

(** [x] is a node or farther than the tolerance from every node. *)
Definition clear (f : lexpR) (x : R) : Prop :=
  forall k, (k < l_n f)%nat -> x = nd (l_nodes f) k \/ tol < Rabs (x - nd (l_nodes f) k).
(** Neighbouring nodes are farther apart than the tolerance. *)
Definition spaced (n : nat) (xs : list R) : Prop :=
  forall i, (S i < n)%nat -> tol < nd xs (S i) - nd xs i.

Lemma spaced_sinc n xs : 0 <= tol -> spaced n xs -> sinc n xs.
Proof. intros H S i Hi. specialize (S i Hi). lra. Qed.

Lemma spaced_far n xs i j : 0 <= tol -> spaced n xs -> (i < n)%nat -> (j < n)%nat ->
  Rabs (nd xs i - nd xs j) <= tol -> i = j.
Proof.
  intros Ht S Hi Hj A. pose proof (spaced_sinc n xs Ht S) as Hs.
  destruct (Nat.lt_trichotomy i j) as [L|[L|L]]; auto; exfalso.
  - assert (nd xs (Datatypes.S i) <= nd xs j) by (apply sinc_le with n; auto; rlia).
    pose proof (S i ltac:(rlia)). rewrite Rabs_minus_sym, Rabs_pos_eq in A; lra.
  - assert (nd xs (Datatypes.S j) <= nd xs i) by (apply sinc_le with n; auto; rlia).
    pose proof (S j ltac:(rlia)). rewrite Rabs_pos_eq in A; lra.
Qed.

Lemma le_eval_clear f (x : R) : valid f -> nd (l_nodes f) 0 <= x <= nd (l_nodes f) (l_n f - 1) ->
  clear f x -> exists v, @le_eval K f x = Ok v /\ Interp (l_n f) (l_nodes f) (l_coeff f) x v.
Proof.
  intros V Hx Hc. destruct (le_eval_in f x V Hx) as (v & E & [(k & Hk & Ht & Ev)|H]); exists v; split; auto.
  destruct (Hc k Hk) as [Ex|]; [|lra]. subst x v. apply Interp_node; auto; apply V.
Qed.

Lemma le_eval_node f k : 0 <= tol -> valid f -> spaced (l_n f) (l_nodes f) -> (k < l_n f)%nat ->
  @le_eval K f (nd (l_nodes f) k) = Ok (nd (l_coeff f) k).
Proof.
  intros Ht V S Hk. pose proof V as [Hn Hl Hc Hs].
  destruct (le_eval_in f (nd (l_nodes f) k) V) as (v & E & [(j & Hj & Hd & Ev)|H]).
  - split; apply sinc_le with (l_n f); auto; rlia.
  - apply (spaced_far (l_n f)) in Hd; auto. now subst.
  - rewrite E. f_equal. apply (Interp_fun _ _ _ _ _ _ Hs H). apply Interp_node; auto.
Qed.

(** The snapping error: within the tolerance of a node the value differs from
    the polygon by at most the tolerance times the larger neighbouring slope. *)
Lemma le_eval_near f x v k : 0 <= tol -> valid f -> spaced (l_n f) (l_nodes f) ->
  nd (l_nodes f) 0 <= x <= nd (l_nodes f) (l_n f - 1) ->
  (k < l_n f)%nat -> Rabs (x - nd (l_nodes f) k) <= tol ->
  Interp (l_n f) (l_nodes f) (l_coeff f) x v ->
  exists i, (S i < l_n f)%nat /\
    Rabs (v - nd (l_coeff f) k) <=
    tol * Rabs ((nd (l_coeff f) (S i) - nd (l_coeff f) i) / (nd (l_nodes f) (S i) - nd (l_nodes f) i)).
Proof.
  intros Ht V S Hx Hk Hd (i & Hi & Hxi & El). pose proof V as [Hn Hl Hc Hs].
  pose proof (S i Hi) as Hsp. unfold on_line in El.
  assert (Ei : k = i \/ k = Datatypes.S i).
  { destruct (Nat.lt_trichotomy k i) as [L|[L|L]]; auto.
    - exfalso. assert (nd (l_nodes f) (Datatypes.S k) <= nd (l_nodes f) i) by (apply sinc_le with (l_n f); auto; rlia).
      pose proof (S k ltac:(rlia)). rewrite Rabs_pos_eq in Hd; lra.
    - destruct (Nat.eq_dec k (Datatypes.S i)); auto. exfalso.
      assert (nd (l_nodes f) (Datatypes.S (Datatypes.S i)) <= nd (l_nodes f) k) by (apply sinc_le with (l_n f); auto; rlia).
      pose proof (S (Datatypes.S i) ltac:(rlia)).
      rewrite Rabs_minus_sym, Rabs_pos_eq in Hd; lra. }
  exists i. split; auto.
  set (sl := (nd (l_coeff f) (Datatypes.S i) - nd (l_coeff f) i) / (nd (l_nodes f) (Datatypes.S i) - nd (l_nodes f) i)).
  assert (Ev : v = nd (l_coeff f) i + sl * (x - nd (l_nodes f) i)).
  { unfold sl. apply Rmult_eq_reg_r with (nd (l_nodes f) (Datatypes.S i) - nd (l_nodes f) i); [|lra].
    field_simplify; [|lra]. lra. }
  assert (E1 : nd (l_coeff f) (Datatypes.S i) = nd (l_coeff f) i + sl * (nd (l_nodes f) (Datatypes.S i) - nd (l_nodes f) i)).
  { unfold sl. field. lra. }
  destruct Ei as [->| ->].
  - rewrite Ev. replace (_ - _) with ((x - nd (l_nodes f) i) * sl) by ring.
    rewrite Rabs_mult. apply Rmult_le_compat_r; auto. apply Rabs_pos.
  - rewrite Ev, E1. replace (_ - _) with ((x - nd (l_nodes f) (Datatypes.S i)) * sl) by ring.
    rewrite Rabs_mult. apply Rmult_le_compat_r; auto. apply Rabs_pos.
Qed.

End Fix.
