(** Piecewise-linear and piecewise-constant functions: evaluation at several
    points, derivative at nodes, constructors, functions with given zeros, error
    estimates, difference quotients. *)
From Verif Require Import Base BaseFacts FOps LinElmModel ConstElmModel LinElmSpec LinElmFacts LinElmMerge LinElmArith LinElmInt LinElmMore ConstElmFacts.
From Coq Require Import Reals Lra.
Local Open Scope R_scope.

Lemma le_init_ok {K : fops} n (nodes coeff : list K) : (2 <= n)%nat -> (n <= length nodes)%nat -> (n <= length coeff)%nat ->
  le_init n nodes coeff = Ok (mkL n (firstn n nodes) (firstn n coeff)).
Proof.
  intros H1 H2 H3. unfold le_init. destruct (Nat.ltb_spec 1 n); [|lia]. cbn [cassert obind].
  apply Nat.leb_le in H2, H3. rewrite H2, H3. reflexivity.
Qed.

(** ** Several points *)
Lemma evalN_loop (ev : R -> outcome R) (N : nat) (x : list R) (incx : nat) (y : list R) (incy : nat) :
  (1 <= incy)%nat -> (forall z, exists v, ev z = Ok v) ->
  (forall i, (i < N)%nat -> (i * incx < length x)%nat /\ (i * incy < length y)%nat) ->
  exists y', for_ N (fun ii y => do xi <- aget x (ii * incx); do v <- ev xi; aset y (ii * incy) v) y = Ok y' /\
    length y' = length y /\
    (forall i, (i < N)%nat -> ev (nd x (i * incx)) = Ok (nd y' (i * incy))) /\
    (forall j, (forall i, (i < N)%nat -> j <> (i * incy)%nat) -> nd y' j = nd y j).
Proof.
  intros Hi Hev Hb.
  destruct (for_inv (fun k y' => length y' = length y /\
    (forall i, (i < k)%nat -> ev (nd x (i * incx)) = Ok (nd y' (i * incy))) /\
    (forall j, (forall i, (i < k)%nat -> j <> (i * incy)%nat) -> nd y' j = nd y j))
    (fun ii y => do xi <- aget x (ii * incx); do v <- ev xi; aset y (ii * incy) v) N y) as (y' & E & H).
  - split; [auto|]. split; [intros; lia|auto].
  - intros k c Hk (L & H1 & H2). destruct (Hb k Hk) as [B1 B2].
    rewrite (aget_nd x) by lia. cbn [obind].
    destruct (Hev (nd x (k * incx))) as (v & Ev). rewrite Ev. cbn [obind].
    rewrite aset_ok by lia. eexists. split; [reflexivity|]. split; [now rewrite upd_length|]. split.
    + intros i Hik. destruct (Nat.eq_dec i k) as [->|Nik].
      * rewrite nd_upd_same by lia. exact Ev.
      * rewrite nd_upd_other by nia. apply H1. lia.
    + intros j Hj. rewrite nd_upd_other by (intros <-; apply (Hj k); auto; lia). apply H2.
      intros i Hik. apply Hj. lia.
  - exists y'. auto.
Qed.

Section Fix.
Context (tol : R).
Notation K := (Rops tol).
Notation lexpR := (lexp K).

Lemma le_eval_total (f : lexpR) (x : R) : valid tol f -> exists v, @le_eval K f x = Ok v.
Proof.
  intros V. destruct (Rlt_dec x (nd (l_nodes f) 0)); [exists 0; apply le_eval_out; auto|].
  destruct (Rlt_dec (nd (l_nodes f) (l_n f - 1)) x); [exists 0; apply le_eval_out; auto|].
  destruct (le_eval_in tol f x V ltac:(lra)) as (v & E & _). eauto.
Qed.

Lemma ce_eval_total (f : lexpR) (x : R) : 0 <= tol -> valid tol f -> spaced (2 * tol) (l_n f) (l_nodes f) ->
  exists v, @ce_eval K f x = Ok v.
Proof.
  intros Ht V S. destruct (Rlt_dec x (nd (l_nodes f) 0)); [exists 0; apply ce_eval_out; auto|].
  destruct (Rlt_dec (nd (l_nodes f) (l_n f - 1)) x); [exists 0; apply ce_eval_out; auto|].
  destruct (ce_eval_in tol f x Ht V S ltac:(lra)) as (v & E & _). eauto.
Qed.

(** ** The derivative at the nodes *)
Theorem le_deriv_eval_node (f : lexpR) (k : nat) : 0 <= tol -> valid tol f ->
  spaced tol (l_n f) (l_nodes f) -> (k < l_n f)%nat ->
  let a := (k - 1)%nat in
  let b := Nat.min (k + 1) (l_n f - 1) in
  @le_deriv_eval K f (nd (l_nodes f) k) =
    Ok ((nd (l_coeff f) b - nd (l_coeff f) a) / (nd (l_nodes f) b - nd (l_nodes f) a)).
Proof.
  intros Ht V S Hk a b. pose proof V as [Hn Hl Hc Hs]. set (x := nd (l_nodes f) k).
  assert (X0 : nd (l_nodes f) 0 <= x) by (apply sinc_le with (l_n f); auto; lia).
  assert (X1 : x <= nd (l_nodes f) (l_n f - 1)) by (apply sinc_le with (l_n f); auto; lia).
  destruct (le_find_ok tol f x V) as (i & E & Hi & Hx).
  assert (Ei : i = Nat.min k (l_n f - 2)).
  { destruct Hx as [Hx|[H1 H2]].
    - apply (spaced_far tol (l_n f)) in Hx; auto; lia.
    - assert (A : (i <= k)%nat).
      { destruct H1 as [->|H1]; [lia|]. apply Nat.nlt_ge. intros L.
        assert (x < nd (l_nodes f) i) by (apply sinc_lt with (l_n f); auto; lia). lra. }
      destruct H2 as [H2|H2]; [lia|].
      assert ((k < Datatypes.S i)%nat).
      { apply Nat.nle_gt. intros L.
        assert (nd (l_nodes f) (Datatypes.S i) <= x) by (apply sinc_le with (l_n f); auto; lia). lra. }
      lia. }
  unfold le_deriv_eval. unr. rewrite !(aget_nd (l_nodes f)) by lia. cbn [obind].
  destruct (Rltb_spec x (nd (l_nodes f) 0)); [lra|].
  destruct (Rltb_spec (nd (l_nodes f) (l_n f - 1)) x); [lra|]. cbn [orb].
  setoid_rewrite E. cbn [obind]. rewrite !(aget_nd (l_nodes f)) by lia. cbn [obind].
  destruct (Nat.le_gt_cases k (l_n f - 2)) as [L|L].
  - assert (i = k) by lia. subst i. rewrite H. fold x.
    replace (x - x) with 0 by ring. rewrite Rabs_R0.
    destruct (Rleb_spec 0 tol); [|lra].
    assert (Eb : b = (k + 1)%nat) by (unfold b; lia). rewrite Eb.
    destruct (Nat.eqb_spec k 0) as [K0|K0].
    + subst k. rewrite !(aget_nd (l_coeff f)) by lia. cbn [obind]. reflexivity.
    + destruct (Nat.ltb_spec k (l_n f - 1)); [|lia].
      rewrite !(aget_nd (l_coeff f)) by lia. cbn [obind]. reflexivity.
  - assert (Ek : k = (l_n f - 1)%nat) by lia. assert (i = (k - 1)%nat) by lia. subst i. rewrite H.
    pose proof (S (k - 1)%nat ltac:(lia)) as Sk. replace (Datatypes.S (k - 1)) with k in Sk by lia. fold x in Sk.
    destruct (Rleb_spec (Rabs (x - nd (l_nodes f) (k - 1))) tol) as [Q|Q];
      [rewrite Rabs_pos_eq in Q by lra; lra|].
    rewrite !(aget_nd (l_coeff f)) by lia. cbn [obind]. f_equal.
    assert (Eb : b = k) by (unfold b; lia). rewrite Eb. unfold a. fold x.
    replace (k - 1 + 1)%nat with k by lia. fold x. field. lra.
Qed.

(** ** Sign *)
Theorem le_flip_sign_ok (f : lexpR) : valid tol f ->
  exists h, @le_flip_sign K f = Ok h /\ valid tol h /\ same_grid tol f h /\
   forall x, exists v, @le_eval K f x = Ok v /\ @le_eval K h x = Ok (- v).
Proof.
  intros V. destruct (le_scale_ok tol (0 - 1) f V) as (h & E & Vh & G & H).
  unfold le_flip_sign. unr. setoid_rewrite E. cbn [obind].
  pose proof (v_n _ _ V). destruct (Nat.eqb_spec (l_n f) 0); [lia|]. cbn [negb cassert obind].
  exists h. split; [reflexivity|]. split; auto. split; auto.
  intros x. destruct (H x) as (v & E1 & E2). exists v. split; auto. rewrite E2. f_equal. ring.
Qed.

(** ** Constructors *)
(** The nodes a set of options stands for. *)
Definition opt_nodes (o : laopts K) (xs : list R) : Prop :=
  (o_n o = 0%nat /\ xs = [o_lb o; o_ub o]) \/
  ((0 < o_n o)%nat /\ exists l, o_nodes o = Some l /\ (o_n o <= length l)%nat /\ xs = firstn (o_n o) l).

Lemma le_opt_nodes_ok o xs : opt_nodes o xs -> le_opt_nodes o = Ok xs.
Proof.
  unfold le_opt_nodes. intros [[-> ->]|(H & l & -> & L & ->)]; [reflexivity|].
  destruct (Nat.eqb_spec (o_n o) 0); [lia|]. destruct (Nat.leb_spec (o_n o) (length l)); [reflexivity|lia].
Qed.

Lemma nd_map (g : R -> R) l i : (i < length l)%nat -> nd (map g l) i = g (nd l i).
Proof. intros H. unfold nd. rewrite (nth_indep _ 0 (g 0)) by now rewrite map_length. apply map_nth. Qed.

Theorem le_linear_ok (a b : R) (o : laopts K) (xs : list R) :
  opt_nodes o xs -> (2 <= length xs)%nat -> sinc (length xs) xs -> 0 <= tol ->
  exists f, @le_linear K a b o = Ok f /\ valid tol f /\ l_nodes f = xs /\ l_n f = length xs /\
    forall x : R, nd xs 0 <= x <= nd xs (length xs - 1) ->
      exists v, @le_eval K f x = Ok v /\ (clear tol f x -> v = a * x + b) /\
        Rabs (v - (a * x + b)) <= Rabs a * tol.
Proof.
  intros Ho H2 Hs Ht. unfold le_linear. rewrite (le_opt_nodes_ok o xs Ho). cbn [obind]. unr.
  eexists. split; [reflexivity|]. set (f := mkL _ _ _ : lexpR).
  assert (V : valid tol f) by (constructor; cbn; auto; unr; rewrite ?map_length; auto).
  split; [exact V|]. split; [reflexivity|]. split; [reflexivity|]. intros x Hx.
  assert (Nk : forall k, (k < l_n f)%nat -> nd (l_coeff f) k = a * nd xs k + b)
    by (intros k Hk; exact (nd_map (fun x => a * x + b) xs k Hk)).
  assert (L : forall w, Interp (length xs) xs (map (fun x => a * x + b) xs) x w -> w = a * x + b).
  { intros w (i & Hi & Hxi & El). pose proof (Hs i Hi) as D. unfold on_line in El. rewrite !nd_map in El by lia.
    apply Rmult_eq_reg_r with (nd xs (S i) - nd xs i); [|lra]. nra. }
  destruct (le_eval_in tol f x V Hx) as (v & E & Hv). exists v. split; [exact E|]. split.
  - intros C. destruct Hv as [(k & Hk & Hd & ->)|Hv]; [|apply L; exact Hv].
    rewrite (Nk k Hk). destruct (C k Hk) as [->|F]; [reflexivity|lra].
  - destruct Hv as [(k & Hk & Hd & ->)|Hv].
    + rewrite (Nk k Hk).
      replace (a * nd xs k + b - (a * x + b)) with (a * (- (x - nd xs k))) by ring.
      rewrite Rabs_mult, Rabs_Ropp. apply Rmult_le_compat_l; [apply Rabs_pos|exact Hd].
    + rewrite (L v Hv). replace (a * x + b - (a * x + b)) with 0 by ring. rewrite Rabs_R0.
      apply Rmult_le_pos; [apply Rabs_pos|auto].
Qed.

Theorem le_constant_ok (a : R) (o : laopts K) (xs : list R) :
  opt_nodes o xs -> (2 <= length xs)%nat -> sinc (length xs) xs ->
  exists f, @le_constant K a o = Ok f /\ valid tol f /\ l_nodes f = xs /\ l_n f = length xs /\
    forall x : R, nd xs 0 <= x <= nd xs (length xs - 1) -> @le_eval K f x = Ok a.
Proof.
  intros Ho H2 Hs. unfold le_constant. rewrite (le_opt_nodes_ok o xs Ho). cbn [obind]. unr.
  eexists. split; [reflexivity|]. set (f := mkL _ _ _ : lexpR).
  assert (V : valid tol f) by (constructor; cbn; auto; unr; rewrite ?map_length; auto).
  split; [exact V|]. split; [reflexivity|]. split; [reflexivity|]. intros x Hx.
  destruct (le_eval_in tol f x V Hx) as (v & E & Hv). rewrite E. f_equal.
  destruct Hv as [(k & Hk & Hd & ->)|(i & Hi & Hxi & El)].
  - exact (nd_map (fun _ => a) xs k Hk).
  - change (l_n f) with (length xs) in Hi. unfold on_line in El.
    change (l_coeff f) with (map (fun _ : R => a) xs) in El. change (l_nodes f) with xs in El.
    rewrite !(nd_map (fun _ => a)) in El by lia.
    pose proof (Hs i Hi). apply Rmult_eq_reg_r with (nd xs (S i) - nd xs i); [|lra]. lra.
Qed.

Theorem ce_constant_ok (a : R) (o : laopts K) (xs : list R) : 0 <= tol ->
  opt_nodes o xs -> (2 <= length xs)%nat -> spaced (2 * tol) (length xs) xs ->
  exists f, @ce_constant K a o = Ok f /\ valid tol f /\ l_nodes f = xs /\ l_n f = length xs /\
    forall x : R, nd xs 0 <= x <= nd xs (length xs - 1) -> @ce_eval K f x = Ok a.
Proof.
  intros Ht Ho H2 Sp. assert (Hs : sinc (length xs) xs) by (apply (spaced_sinc (2 * tol)); auto; lra).
  unfold ce_constant. rewrite (le_opt_nodes_ok o xs Ho). cbn [obind]. unr.
  eexists. split; [reflexivity|]. set (f := mkL _ _ _ : lexpR).
  assert (V : valid tol f) by (constructor; cbn; auto; unr; rewrite ?map_length; auto).
  split; [exact V|]. split; [reflexivity|]. split; [reflexivity|]. intros x Hx.
  destruct (ce_eval_in tol f x Ht V Sp Hx) as (v & E & k & (Hk & _) & _ & ->). rewrite E. f_equal.
  exact (nd_map (fun _ => a) xs k Hk).
Qed.

(** Nodal interpolation with fixed nodes. *)
Theorem ce_approx_ok (o : laopts K) (F : R -> R) (nodes : list R) : 0 <= tol ->
  o_adapt o = false -> o_nodes o = Some nodes -> (2 <= o_n o <= length nodes)%nat ->
  spaced (2 * tol) (o_n o) nodes ->
  exists f, @ce_approx K o F = Ok f /\ valid tol f /\ l_n f = o_n o /\ l_nodes f = firstn (o_n o) nodes /\
    forall k, (k < o_n o)%nat -> @ce_eval K f (nd nodes k) = Ok (F (nd nodes k)).
Proof.
  intros Ht Ea En [H2 Hn] Sp. unfold ce_approx. rewrite Ea, En. cbn [negb]. unr.
  destruct (Nat.leb_spec (o_n o) (length nodes)); [|lia].
  eexists. split; [reflexivity|]. set (f := mkL _ _ _ : lexpR).
  assert (Nf : forall k, (k < o_n o)%nat -> nd (firstn (o_n o) nodes) k = nd nodes k).
  { intros k Hk. unfold nd. rewrite <- (firstn_skipn (o_n o) nodes) at 2. rewrite app_nth1; auto.
    rewrite firstn_length. lia. }
  assert (Fn : l_n f = o_n o) by reflexivity.
  assert (Fx : forall k, (k < o_n o)%nat -> nd (l_nodes f) k = nd nodes k) by exact Nf.
  assert (Fc : forall k, (k < o_n o)%nat -> nd (l_coeff f) k = F (nd nodes k)).
  { intros k Hk. rewrite <- (Nf k Hk). apply (nd_map F (firstn (o_n o) nodes)). rewrite firstn_length. lia. }
  assert (Sf : spaced (2 * tol) (l_n f) (l_nodes f)).
  { intros i Hi. rewrite Fn in Hi. rewrite !Fx by lia. apply Sp. exact Hi. }
  assert (V : valid tol f).
  { constructor.
    - rewrite Fn. lia.
    - unfold f. cbn [l_n l_nodes]. unr. rewrite firstn_length. lia.
    - unfold f. cbn [l_n l_coeff]. unr. rewrite map_length, firstn_length. lia.
    - apply (spaced_sinc (2 * tol)); auto. lra. }
  split; [exact V|]. split; [reflexivity|]. split; [reflexivity|]. clearbody f. intros k Hk.
  pose proof (v_inc _ _ V) as Hs.
  destruct (ce_eval_in tol f (nd nodes k) Ht V Sf) as (v & E & j & (Hj & Hn') & _ & ->).
  { rewrite <- (Fx k Hk). split; apply sinc_le with (l_n f); auto; lia. }
  rewrite E. f_equal. rewrite Fn in *. rewrite (Fc j Hj). f_equal.
  specialize (Hn' k Hk). rewrite (Fx k Hk), (Fx j Hj) in Hn'.
  replace (nd nodes k - nd nodes k) with 0 in Hn' by ring. rewrite Rabs_R0 in Hn'.
  destruct (Req_dec (nd nodes k) (nd nodes j)); auto.
  assert (0 < Rabs (nd nodes k - nd nodes j)) by (apply Rabs_pos_lt; lra). lra.
Qed.

(** ** Difference quotients of piecewise-constant functions *)
Theorem ce_deriv_ok (f : lexpR) : valid tol f ->
  exists h, @ce_deriv K f = Ok h /\ l_n h = l_n f /\ l_nodes h = firstn (l_n f) (l_nodes f) /\
    length (l_coeff h) = l_n f /\
    let d i := (nd (l_coeff f) (S i) - nd (l_coeff f) i) / (nd (l_nodes f) (S i) - nd (l_nodes f) i) in
    let n := l_n f in
    (forall i, (S i < n)%nat -> nd (l_coeff h) i = d i) /\
    nd (l_coeff h) (n - 1) = (nd (l_coeff f) (n - 1) - d (n - 2)%nat) /
                             (nd (l_nodes f) (n - 1) - nd (l_nodes f) (n - 2)).
Proof.
  destruct f as [n fx fc]. intros [Hn Hl Hc Hs]. cbn [l_n l_nodes l_coeff] in *. unfold ce_deriv.
  cbn [l_n l_nodes l_coeff] in *. rewrite le_init_ok by auto. cbn [obind l_n l_nodes l_coeff]. unr.
  set (xs := firstn n fx). set (cs := firstn n fc).
  assert (Lx : length xs = n) by (unfold xs; rewrite firstn_length; lia).
  assert (Lc : length cs = n) by (unfold cs; rewrite firstn_length; lia).
  assert (Nx : forall k, (k < n)%nat -> nd xs k = nd fx k).
  { intros k Hk. unfold nd, xs. rewrite <- (firstn_skipn n fx) at 2. rewrite app_nth1; auto.
    rewrite firstn_length. lia. }
  assert (Nc : forall k, (k < n)%nat -> nd cs k = nd fc k).
  { intros k Hk. unfold nd, cs. rewrite <- (firstn_skipn n fc) at 2. rewrite app_nth1; auto.
    rewrite firstn_length. lia. }
  set (d := fun i => (nd fc (S i) - nd fc i) / (nd fx (S i) - nd fx i)).
  rewrite !(aget_nd cs), !(aget_nd xs) by lia. cbn [obind]. rewrite aset_ok by (unr; lia). cbn [obind].
  match goal with |- context [for_from 1 (n - 2) ?b ?s] =>
    destruct (for_from_inv (fun k c => length c = n /\ (forall i, (i < k)%nat -> nd c i = d i) /\
       (forall i, (k <= i)%nat -> nd c i = nd cs i)) b 1 (n - 2)%nat s) as (c & E & L & H1' & H2') end.
  { unr. rewrite upd_length. split; auto. split.
    - intros i Hi. assert (i = 0%nat) by lia. subst i. rewrite nd_upd_same by lia. unfold d.
      rewrite !Nx, !Nc by lia. reflexivity.
    - intros i Hi. rewrite nd_upd_other by lia. auto. }
  { intros i c Hi (L & A & B). rewrite !(aget_nd c), !(aget_nd xs) by lia. cbn [obind].
    rewrite aset_ok by (unr; lia). eexists. split; [reflexivity|]. split; [unr; now rewrite upd_length|]. split.
    - intros j Hj. destruct (Nat.eq_dec i j) as [<-|Nj].
      + rewrite nd_upd_same by (unr; lia). unfold d. rewrite !B, !Nx, !Nc by lia.
        replace (i + 1)%nat with (S i) by lia. reflexivity.
      + rewrite nd_upd_other by auto. apply A. lia.
    - intros j Hj. rewrite nd_upd_other by lia. apply B. lia. }
  setoid_rewrite E. cbn [obind]. rewrite !(aget_nd c) by lia. cbn [obind].
  rewrite aset_ok by (unr; lia). cbn [obind]. eexists. split; [reflexivity|]. cbn [l_n l_nodes l_coeff].
  split; [reflexivity|]. split; [reflexivity|]. split; [unr; now rewrite upd_length|]. split.
  - intros i Hi. rewrite nd_upd_other by lia. apply H1'. lia.
  - rewrite nd_upd_same by (unr; lia). rewrite !Nx by lia. unr.
    rewrite (H2' (n - 1)%nat) by lia. rewrite (H1' (n - 2)%nat) by lia. rewrite Nc by lia. reflexivity.
Qed.

(** ** Functions with given zeros *)
Lemma nd_firstn n (l : list R) k : (k < n)%nat -> (n <= length l)%nat -> nd (firstn n l) k = nd l k.
Proof.
  intros Hk Hn. unfold nd. rewrite <- (firstn_skipn n l) at 2. rewrite app_nth1; auto.
  rewrite firstn_length. lia.
Qed.
Lemma nd_repeat0 n k : nd (repeat 0 n) k = 0.
Proof. unfold nd. revert k. induction n; intros [|k]; cbn; auto. Qed.

Theorem le_onezero_fixed_ok (tol14 : R) (zeros nodes : list R) (o : laopts K) : 0 <= tol ->
  o_nodes o = Some nodes -> (2 <= o_n o <= length nodes)%nat -> (length zeros < o_n o)%nat ->
  spaced tol (o_n o) nodes ->
  exists f, @le_onezero_fixed K tol14 zeros o = Ok f /\ valid tol f /\ l_n f = o_n o /\
    l_nodes f = firstn (o_n o) nodes /\
    forall k, (k < o_n o)%nat ->
      ((exists z, In z zeros /\ Rabs (nd nodes k - z) < tol14) -> @le_eval K f (nd nodes k) = Ok 0) /\
      ((forall z, In z zeros -> tol14 <= Rabs (nd nodes k - z)) -> @le_eval K f (nd nodes k) = Ok 1).
Proof.
  destruct o as [oa on n lb ub de hm]. cbn [o_nodes o_n]. intros Ht -> [H2 Hn] Hz Sp. unr.
  unfold le_onezero_fixed. cbn [o_nodes o_n]. unr.
  destruct (Nat.ltb_spec (length zeros) n); [|lia]. cbn [cassert obind].
  rewrite (@le_init_ok K) by (auto; unr; rewrite ?repeat_length; auto). cbn [obind l_n l_nodes l_coeff].
  unr. rewrite (firstn_all2 (repeat 0 n)) by (rewrite repeat_length; lia).
  set (xs := firstn n nodes).
  assert (Nx : forall k, (k < n)%nat -> nd xs k = nd nodes k) by (intros; now apply nd_firstn).
  assert (Lx : length xs = n) by (unfold xs; rewrite firstn_length; lia).
  set (g := fun i : nat => if existsb (fun z => Rltb (Rabs (nd xs i - z)) tol14) zeros then 0 else 1).
  assert (Q : exists c, for_ n (fun ii c => do xi <- aget xs ii;
      if existsb (fun z => Rltb (Rabs (xi - z)) tol14) zeros then Ok c else aset c ii 1) (repeat 0 n) = Ok c /\
      length c = n /\ (forall i, (i < n)%nat -> nd c i = g i)).
  { destruct (for_inv (fun k c => length c = n /\ (forall i, (i < k)%nat -> nd c i = g i) /\
         (forall i, (k <= i)%nat -> nd c i = 0))
       (fun ii c => do xi <- aget xs ii;
        if existsb (fun z => Rltb (Rabs (xi - z)) tol14) zeros then Ok c else aset c ii 1) n (repeat 0 n))
      as (c & E & L & A & _).
    - rewrite repeat_length. split; auto. split; [intros; lia|]. intros; apply nd_repeat0.
    - intros i c Hi (L & A & B). rewrite (aget_nd xs) by lia. cbn [obind].
      destruct (existsb _ zeros) eqn:Ex.
      + exists c. split; auto. split; auto. split; [|intros; apply B; lia].
        intros j Hj. destruct (Nat.eq_dec j i) as [->|N]; [|apply A; lia]. rewrite B by lia. unfold g. now rewrite Ex.
      + rewrite aset_ok by lia. eexists. split; [reflexivity|]. rewrite upd_length. split; auto. split.
        * intros j Hj. destruct (Nat.eq_dec j i) as [->|N]; [|rewrite nd_upd_other by auto; apply A; lia].
          rewrite nd_upd_same by lia. unfold g. now rewrite Ex.
        * intros j Hj. rewrite nd_upd_other by lia. apply B. lia.
    - exists c. auto. }
  destruct Q as (c & E & Lc & Hc). setoid_rewrite E. cbn [obind].
  eexists. split; [reflexivity|]. set (f := mkL _ _ _ : lexpR).
  assert (Sf : spaced tol (l_n f) (l_nodes f)).
  { intros i Hi. change (l_n f) with n in Hi. change (l_nodes f) with xs. rewrite !Nx by lia. now apply Sp. }
  assert (V : valid tol f).
  { constructor; unfold f; cbn [l_n l_nodes l_coeff]; unr; try lia. apply (spaced_sinc tol); auto. }
  split; [exact V|]. split; [reflexivity|]. split; [reflexivity|]. intros k Hk.
  rewrite <- (Nx k Hk). pose proof (le_eval_node tol f k Ht V Sf Hk) as Ev.
  change (nd (l_nodes f) k) with (nd xs k) in Ev. change (nd (l_coeff f) k) with (nd c k) in Ev.
  rewrite (Hc k Hk) in Ev. unfold g in Ev. split.
  - intros (z & Iz & Hzk). replace (existsb _ zeros) with true in Ev; [exact Ev|].
    symmetry. apply existsb_exists. exists z. split; auto. destruct (Rltb_spec (Rabs (nd xs k - z)) tol14); [reflexivity|contradiction].
  - intros Hall. replace (existsb _ zeros) with false in Ev; [exact Ev|].
    symmetry. apply not_true_is_false. intros Ex. apply existsb_exists in Ex as (z & Iz & Q).
    specialize (Hall z Iz). destruct (Rltb_spec (Rabs (nd xs k - z)) tol14); [lra|discriminate].
Qed.

(** There are fewer zeros than nodes, so the function is not zero. *)
Lemma onezero_pigeon (t : R) (zeros nodes : list R) (n : nat) : (length zeros < n)%nat -> (n <= length nodes)%nat ->
  spaced (2 * t) n nodes -> 0 <= t ->
  exists k, (k < n)%nat /\ forall z, In z zeros -> t <= Rabs (nd nodes k - z).
Proof.
  intros Hz Hn Sp Ht.
  assert (D : forall k, (exists z, In z zeros /\ Rabs (nd nodes k - z) < t) \/ forall z, In z zeros -> t <= Rabs (nd nodes k - z)).
  { intros k. clear Hz. induction zeros as [|z zs IH]; [right; intros z []|].
    destruct (Rlt_dec (Rabs (nd nodes k - z)) t); [left; exists z; split; [left|]; auto|].
    destruct IH as [(w & I & W)|W]; [left; exists w; split; [right|]; auto|].
    right. intros w [<-|I]; [lra|auto]. }
  assert (F : (exists k, (k < n)%nat /\ forall z, In z zeros -> t <= Rabs (nd nodes k - z)) \/
     forall m, (m <= n)%nat -> exists ws, length ws = m /\ NoDup ws /\ (forall w, In w ws -> In w zeros) /\
       forall w, In w ws -> exists k, (k < m)%nat /\ Rabs (nd nodes k - w) < t).
  { assert (G : forall m, (m <= n)%nat -> (exists k, (k < n)%nat /\ forall z, In z zeros -> t <= Rabs (nd nodes k - z)) \/
       exists ws, length ws = m /\ NoDup ws /\ (forall w, In w ws -> In w zeros) /\
       forall w, In w ws -> exists k, (k < m)%nat /\ Rabs (nd nodes k - w) < t).
    { induction m as [|m IH]; intros Hm.
      - right. exists []. split; auto. split; [constructor|]. split; intros w [].
      - destruct (IH ltac:(lia)) as [H|(ws & L & ND & I & H)]; [left; auto|].
        destruct (D m) as [(z & Iz & Hzm)|H']; [|left; exists m; split; auto; lia].
        right. exists (z :: ws). split; [cbn; lia|]. split.
        + constructor; auto. intros Iw. destruct (H z Iw) as (k & Hk & Hzk).
          assert (nd nodes k < nd nodes m) by (apply sinc_lt with n; auto; try lia; apply (spaced_sinc (2 * t)); auto; lra).
          assert (C : 2 * t < nd nodes m - nd nodes k).
          { assert (S0 : nd nodes (S k) <= nd nodes m)
              by (apply sinc_le with n; auto; try lia; apply (spaced_sinc (2 * t)); auto; lra).
            pose proof (Sp k ltac:(lia)). lra. }
          apply Rabs_def2 in Hzm. apply Rabs_def2 in Hzk. lra.
        + split.
          * intros w [<-|Iw]; auto.
          * intros w [<-|Iw]; [exists m; split; auto; lia|]. destruct (H w Iw) as (k & Hk & Q). exists k. split; auto; lia. }
    destruct (G n ltac:(lia)) as [H|H]; [left; auto|]. right. intros m Hm.
    destruct (G m Hm) as [(k & Hk & Q)|Q]; auto. exfalso.
    destruct H as (ws & L & ND & I & H). pose proof (NoDup_incl_length ND I). lia. }
  destruct F as [F|F]; auto. exfalso.
  destruct (F n ltac:(lia)) as (ws & L & ND & I & _). pose proof (NoDup_incl_length ND I). lia.
Qed.

(** The adaptive variant, for zeros in increasing order. *)
Lemma ssort_sorted (l : list R) : (forall i, (S i < length l)%nat -> nd l i < nd l (S i)) -> @ssort K l = l.
Proof.
  induction l as [|a l IH]; intros H; [reflexivity|]. unfold ssort in *. cbn [fold_right].
  rewrite IH. 2:{ intros i Hi. apply (H (S i)). cbn. lia. }
  destruct l as [|b l]; [reflexivity|]. cbn [sinsert]. unr.
  pose proof (H 0%nat ltac:(cbn; lia)) as Hab. unfold nd in Hab. cbn in Hab.
  destruct (Rltb_spec b a); [lra|reflexivity].
Qed.

Lemma sinc_cons a l : (forall b, nth_error l 0 = Some b -> a < b) -> sinc (length l) l -> sinc (S (length l)) (a :: l).
Proof.
  intros H S i Hi. destruct i as [|i].
  - destruct l as [|b l]; cbn in *; [lia|]. unfold nd. cbn. now apply H.
  - apply S. lia.
Qed.

Lemma spaced_cons a l : (forall b, nth_error l 0 = Some b -> tol < b - a) -> spaced tol (length l) l ->
  spaced tol (S (length l)) (a :: l).
Proof.
  intros H Sp i Hi. destruct i as [|i].
  - destruct l as [|b l]; cbn in *; [lia|]. unfold nd. cbn. now apply H.
  - apply Sp. lia.
Qed.

Lemma spaced_snoc l b : (l <> [] -> tol < b - nd l (length l - 1)) -> spaced tol (length l) l ->
  spaced tol (length l + 1) (l ++ [b]).
Proof.
  intros H Sp i Hi. destruct (Nat.eq_dec (S i) (length l)) as [E|N].
  - rewrite (nd_app1 l [b] i) by lia. rewrite E. rewrite (nd_app_at l b []).
    replace i with (length l - 1)%nat by lia. apply H. intros ->. cbn in *. lia.
  - rewrite !(nd_app1 l [b]) by lia. apply Sp. lia.
Qed.

Lemma nodal_zero_one (n : nat) (xs cs : list R) (zeros : list R) (one : R) : 0 <= tol ->
  (2 <= n)%nat -> length xs = n -> length cs = n -> spaced tol n xs ->
  (forall z, In z zeros -> exists k, (k < n)%nat /\ nd xs k = z /\ nd cs k = 0) ->
  (exists k, (k < n)%nat /\ nd xs k = one /\ nd cs k = 1) ->
  let f := @mkL K n xs cs in
  valid tol f /\ (forall z, In z zeros -> @le_eval K f z = Ok 0) /\ @le_eval K f one = Ok 1.
Proof.
  intros Ht Hn Lx Lc Sp Hz Ho f.
  assert (V : valid tol f).
  { constructor; unfold f; cbn [l_n l_nodes l_coeff]; unr; try lia. apply (spaced_sinc tol); auto. }
  split; [exact V|].
  assert (Q : forall k, (k < n)%nat -> @le_eval K f (nd xs k) = Ok (nd cs k))
    by (intros k Hk; exact (le_eval_node tol f k Ht V Sp Hk)).
  split.
  - intros z Iz. destruct (Hz z Iz) as (k & Hk & <- & <-). auto.
  - destruct Ho as (k & Hk & <- & <-). auto.
Qed.

Lemma nd_cons0 (a : R) l : nd (a :: l) 0 = a.
Proof. reflexivity. Qed.
Lemma nd_consS (a : R) l k : nd (a :: l) (S k) = nd l k.
Proof. reflexivity. Qed.
Lemma nd_app2 (l l' : list R) k : nd (l ++ l') (length l + k) = nd l' k.
Proof. unfold nd. rewrite app_nth2 by lia. f_equal. lia. Qed.

(** Zeros in increasing order in [lb,ub], each end either a zero or clearly away
    from the zeros; if the lower end is a zero and the upper end is not, there is
    no other zero. *)
Theorem le_onezero_adapt_ok (tol14 lb ub : R) (zeros : list R) : 0 <= tol -> 0 < tol14 -> tol <= tol14 ->
  zeros <> [] -> spaced (2 * tol) (length zeros) zeros ->
  (nd zeros 0 = lb \/ lb + tol14 < nd zeros 0) ->
  (nd zeros (length zeros - 1) = ub \/ nd zeros (length zeros - 1) + tol14 < ub) ->
  lb + tol14 < ub ->
  (nd zeros 0 = lb -> nd zeros (length zeros - 1) <> ub -> length zeros = 1%nat) ->
  exists f x1, @le_onezero_adapt K tol14 zeros lb ub = Ok f /\ valid tol f /\
    nd (l_nodes f) 0 = lb /\ nd (l_nodes f) (l_n f - 1) = ub /\
    (forall z, In z zeros -> @le_eval K f z = Ok 0) /\ @le_eval K f x1 = Ok 1.
Proof.
  intros Ht Ht14 Htt Hne Sp Hlb Hub Hlu Hone.
  set (n := length zeros) in *.
  assert (Hn : (1 <= n)%nat) by (destruct zeros; [congruence|cbn in n; lia]).
  assert (Sp1 : spaced tol n zeros) by (intros i Hi; specialize (Sp i Hi); lra).
  assert (Hs : sinc n zeros) by (apply (spaced_sinc tol); auto).
  unfold le_onezero_adapt. unr. fold n. destruct (Nat.eqb_spec n 0); [lia|].
  rewrite (ssort_sorted zeros) by (intros i Hi; apply Hs; exact Hi).
  rewrite !(aget_nd zeros) by (fold n; lia). cbn [obind].
  assert (B0 : Rltb (Rabs (nd zeros 0 - lb)) tol14 = true <-> nd zeros 0 = lb).
  { destruct (Rltb_spec (Rabs (nd zeros 0 - lb)) tol14) as [Q|Q]; split; auto; intros E.
    - destruct Hlb; auto. rewrite Rabs_pos_eq in Q; lra.
    - discriminate.
    - rewrite E in Q. replace (lb - lb) with 0 in Q by ring. rewrite Rabs_R0 in Q. lra. }
  assert (B1 : Rltb (Rabs (nd zeros (n - 1) - ub)) tol14 = true <-> nd zeros (n - 1) = ub).
  { destruct (Rltb_spec (Rabs (nd zeros (n - 1) - ub)) tol14) as [Q|Q]; split; auto; intros E.
    - destruct Hub; auto. rewrite Rabs_left in Q; lra.
    - discriminate.
    - rewrite E in Q. replace (ub - ub) with 0 in Q by ring. rewrite Rabs_R0 in Q. lra. }
  assert (Zin : forall z, In z zeros -> exists k, (k < n)%nat /\ z = nd zeros k) by (intros z; apply In_nd).
  destruct (Rltb (Rabs (nd zeros 0 - lb)) tol14) eqn:E0; destruct (Rltb (Rabs (nd zeros (n - 1) - ub)) tol14) eqn:E1.
  - (* both ends *)
    assert (Z0 : nd zeros 0 = lb) by now apply B0. assert (Z1 : nd zeros (n - 1) = ub) by now apply B1.
    assert (Hn2 : (2 <= n)%nat).
    { destruct (Nat.eq_dec n 1); [|lia]. replace (n - 1)%nat with 0%nat in Z1 by lia. lra. }
    rewrite (aget_nd zeros) by (fold n; lia). cbn [obind].
    destruct zeros as [|z0 zs]; [congruence|]. cbn [tl]. change (nd (z0 :: zs) 0) with z0 in *.
    assert (Ls : length zs = (n - 1)%nat) by (unfold n; cbn; lia).
    change (nd (z0 :: zs) 1) with (nd zs 0) in *.
    set (mid := (lb + nd zs 0) / 2). 
    assert (G1 : 2 * tol < nd zs 0 - z0) by (apply (Sp 0%nat); lia).
    rewrite (@le_init_ok K) by (unr; cbn [length]; rewrite ?repeat_length; lia).
    unr. rewrite !firstn_all2 by (cbn [length]; rewrite ?repeat_length; lia).
    eexists. exists mid. split; [reflexivity|].
    assert (SpN : spaced tol (n + 1) (lb :: mid :: zs)).
    { replace (n + 1)%nat with (S (S (length zs))) by lia.
      apply (spaced_cons lb (mid :: zs)); [intros b [= <-]; unfold mid; lra|].
      apply spaced_cons.
      - intros b Hb. assert (b = nd zs 0) by (unfold nd; erewrite nth_error_nth; eauto). unfold mid. subst b. lra.
      - intros i Hi. apply (Sp1 (S i)). lia. }
    destruct (nodal_zero_one (n + 1) (lb :: mid :: zs) (0 :: 1 :: repeat 0 (n - 1)) (z0 :: zs) mid)
      as (V & A & B); auto; try lia.
    { cbn [length]. lia. }
    { cbn [length]. rewrite repeat_length. lia. }
    { intros z Iz. destruct Iz as [<-|Iz].
      - exists 0%nat. split; [lia|]. split; [rewrite nd_cons0; lra|reflexivity].
      - destruct (In_nd _ _ Iz) as (k & Hk & ->). exists (S (S k)). split; [lia|].
        rewrite !nd_consS. split; [reflexivity|apply nd_repeat0]. }
    { exists 1%nat. split; [lia|]. split; reflexivity. }
    split; [exact V|]. split; [reflexivity|]. split.
    { cbn [l_nodes l_n]. replace (n + 1 - 1)%nat with (S (S (length zs - 1))) by lia. rewrite !nd_consS.
      rewrite <- Z1. replace (n - 1)%nat with (S (length zs - 1)) by lia. reflexivity. }
    split; [exact A|exact B].
  - (* lower end only: a single zero *)
    assert (Z0 : nd zeros 0 = lb) by now apply B0.
    assert (N1 : n = 1%nat).
    { apply Hone; auto. intros Q. apply B1 in Q. discriminate. }
    rewrite (@le_init_ok K) by (unr; cbn [length]; rewrite ?app_length, ?firstn_length, ?repeat_length; fold n; cbn [length]; lia).
    unr. rewrite N1. cbn [Nat.add Nat.sub firstn app repeat].
    destruct zeros as [|z0 [|z1 zs]]; try (unfold n in *; cbn in *; lia).
    change (nd [z0] 0) with z0 in Z0.
    eexists. exists ub. split; [reflexivity|].
    destruct (nodal_zero_one 2 [lb; ub] [0; 1] [z0] ub) as (V & A & B); auto; try (cbn; lia).
    { intros i Hi. assert (i = 0%nat) by lia. subst i. unfold nd. cbn. lra. }
    { intros z [<-|[]]. exists 0%nat. split; [lia|]. rewrite Z0. split; reflexivity. }
    { exists 1%nat. split; [lia|]. split; reflexivity. }
  - (* upper end only *)
    assert (Z1 : nd zeros (n - 1) = ub) by now apply B1.
    assert (Z0 : lb + tol14 < nd zeros 0).
    { destruct Hlb as [Q|Q]; auto. apply B0 in Q. discriminate. }
    rewrite (@le_init_ok K) by (unr; cbn [length]; rewrite ?repeat_length; fold n; lia).
    unr. rewrite !firstn_all2 by (cbn [length]; rewrite ?repeat_length; fold n; lia).
    eexists. exists lb. split; [reflexivity|].
    destruct (nodal_zero_one (n + 1) (lb :: zeros) (1 :: repeat 0 n) zeros lb) as (V & A & B); auto; try lia.
    { cbn [length]. fold n. lia. }
    { cbn [length]. rewrite repeat_length. lia. }
    { replace (n + 1)%nat with (S (length zeros)) by (fold n; lia). apply spaced_cons; auto.
      intros b Hb. assert (b = nd zeros 0) by (unfold nd; erewrite nth_error_nth; eauto). subst b. lra. }
    { intros z Iz. destruct (Zin z Iz) as (k & Hk & ->). exists (S k). split; [lia|].
      rewrite !nd_consS. split; [reflexivity|apply nd_repeat0]. }
    { exists 0%nat. split; [lia|]. split; reflexivity. }
    split; [exact V|]. split; [reflexivity|]. split.
    { cbn [l_nodes l_n]. replace (n + 1 - 1)%nat with (S (n - 1)) by lia. rewrite nd_consS. exact Z1. }
    split; [exact A|exact B].
  - (* no end *)
    assert (Z0 : lb + tol14 < nd zeros 0).
    { destruct Hlb as [Q|Q]; auto. apply B0 in Q. discriminate. }
    assert (Z1 : nd zeros (n - 1) + tol14 < ub).
    { destruct Hub as [Q|Q]; auto. apply B1 in Q. discriminate. }
    rewrite (@le_init_ok K) by (unr; cbn [length]; rewrite ?app_length, ?repeat_length; fold n; cbn [length]; lia).
    unr. rewrite !firstn_all2 by (cbn [length]; rewrite ?app_length, ?repeat_length; fold n; cbn [length]; lia).
    eexists. exists ub. split; [reflexivity|].
    assert (NL : forall k, (k < n)%nat -> nd (lb :: zeros ++ [ub]) (S k) = nd zeros k)
      by (intros k Hk; rewrite nd_consS; apply nd_app1; exact Hk).
    assert (NU : nd (lb :: zeros ++ [ub]) (n + 1) = ub).
    { replace (n + 1)%nat with (S (length zeros)) by (fold n; lia). rewrite nd_consS. apply nd_app_at. }
    destruct (nodal_zero_one (n + 2) (lb :: zeros ++ [ub]) (repeat 0 (n + 1) ++ [1]) zeros ub) as (V & A & B); auto; try lia.
    { cbn [length]. rewrite app_length. fold n. cbn [length]. lia. }
    { rewrite app_length, repeat_length. cbn [length]. lia. }
    { replace (n + 2)%nat with (S (length (zeros ++ [ub]))) by (rewrite app_length; fold n; cbn [length]; lia).
      apply spaced_cons.
      - intros b Hb. destruct zeros as [|z0 zs]; [congruence|]. cbn in Hb. injection Hb as <-.
        change (nd (z0 :: zs) 0) with z0 in Z0. lra.
      - rewrite app_length. cbn [length]. apply spaced_snoc; auto. intros _. fold n. lra. }
    { intros z Iz. destruct (Zin z Iz) as (k & Hk & ->). exists (S k). split; [lia|]. split; [now apply NL|].
      rewrite nd_app1 by (rewrite repeat_length; lia). apply nd_repeat0. }
    { exists (n + 1)%nat. split; [lia|]. split; [exact NU|].
      pose proof (nd_app_at (repeat 0 (n + 1)) 1 []) as Q. rewrite repeat_length in Q. exact Q. }
    split; [exact V|]. split; [reflexivity|]. split.
    { cbn [l_nodes l_n]. replace (n + 2 - 1)%nat with (n + 1)%nat by lia. exact NU. }
    split; [exact A|exact B].
Qed.

(** Without zeros both nodes are 0 and the function vanishes everywhere else. *)
Theorem le_onezero_adapt_none (tol14 lb ub : R) :
  exists f, @le_onezero_adapt K tol14 [] lb ub = Ok f /\
    (forall i, nd (l_nodes f) i = 0) /\ forall x : R, x <> 0 -> @le_eval K f x = Ok 0.
Proof.
  eexists. split; [reflexivity|]. split.
  - intros [|[|[|i]]]; reflexivity.
  - intros x Hx. unfold le_eval. cbn. destruct (Rltb_spec x 0); [reflexivity|].
    destruct (Rltb_spec 0 x); [reflexivity|]. exfalso. apply Hx. lra.
Qed.

(** ** Error estimate *)
Definition quad (a b c x : R) : R := a * x * x + b * x + c.

Lemma quad_slope a b c x y : x < y -> (quad a b c y - quad a b c x) / (y - x) = 2 * a * ((y + x) / 2) + b.
Proof. intros H. unfold quad. field. lra. Qed.

Lemma slope_quot (a b m m' : R) : m < m' -> (2 * a * m' + b - (2 * a * m + b)) / (m' - m) = 2 * a.
Proof. intros H. field. lra. Qed.

(** The distance between a parabola and its chord over [x,y]. *)
Lemma quad_chord a b c x y t : x < y -> x <= t <= y ->
  let L := quad a b c x + (t - x) * ((quad a b c y - quad a b c x) / (y - x)) in
  Rabs (quad a b c t - L) <= (y - x) * (y - x) * Rabs (2 * a) / 8 /\
  (t = (x + y) / 2 -> Rabs (quad a b c t - L) = (y - x) * (y - x) * Rabs (2 * a) / 8).
Proof.
  intros Hxy Ht L.
  assert (E : quad a b c t - L = a * ((t - x) * (t - y))) by (unfold L, quad; field; lra).
  rewrite E, Rabs_mult, (Rabs_mult 2 a), (Rabs_pos_eq 2) by lra.
  replace ((t - x) * (t - y)) with (- ((t - x) * (y - t))) by ring. rewrite Rabs_Ropp.
  assert (P : 0 <= (t - x) * (y - t)) by (apply Rmult_le_pos; lra).
  rewrite (Rabs_pos_eq ((t - x) * (y - t))) by exact P. pose proof (Rabs_pos a).
  split.
  - assert (Q : (t - x) * (y - t) <= (y - x) * (y - x) / 4) by (pose proof (Rle_0_sqr (2 * t - x - y)); unfold Rsqr in *; lra).
    replace ((y - x) * (y - x) * (2 * Rabs a) / 8) with (Rabs a * ((y - x) * (y - x) / 4)) by field.
    now apply Rmult_le_compat_l.
  - intros ->. field.
Qed.

Theorem le_err_est_ok (f : lexpR) (errs : list R) (fw : bool) (a b c : R) : valid tol f -> (3 <= l_n f)%nat ->
  (l_n f - 1 <= length errs)%nat ->
  (forall k, (k < l_n f)%nat -> nd (l_coeff f) k = quad a b c (nd (l_nodes f) k)) ->
  (forall k, (2 <= k)%nat -> (S k < l_n f)%nat -> nd (l_nodes f) (S k) - nd (l_nodes f) k = 1) ->
  exists v es, @le_err_est K f errs fw = Ok (v, es) /\ length es = length errs /\
    (forall i, (S i < l_n f)%nat ->
       let h := nd (l_nodes f) (S i) - nd (l_nodes f) i in nd es i = h * h * Rabs (2 * a) / 8) /\
    (forall i, (l_n f <= S i)%nat -> nd es i = nd errs i) /\
    (forall i, (S i < l_n f)%nat -> nd es i <= v) /\ (exists i, (S i < l_n f)%nat /\ nd es i = v).
Proof.
  intros V Hn Le Hq Hw. destruct V as [V1 Ln Lc Hinc].
  destruct f as [n xs cs]. cbn [l_n l_nodes l_coeff] in *. unr.
  assert (Xi : forall k, (S k < n)%nat -> nd xs k < nd xs (S k)) by (intros k Hk; apply Hinc; exact Hk).
  set (er := fun i => let h := nd xs (S i) - nd xs i in h * h * Rabs (2 * a) / 8).
  unfold le_err_est. cbn [l_n l_nodes l_coeff]. unr. destruct (Nat.ltb_spec 2 n); [|lia]. cbn [cassert obind].
  replace (INR 8) with 8 by (cbn; ring). replace (INR 2) with 2 by (cbn; ring).
  rewrite !(aget_nd xs), !(aget_nd cs) by lia. cbn [obind].
  rewrite !Hq by lia.
  pose proof (Xi 0%nat ltac:(lia)) as X0. pose proof (Xi 1%nat ltac:(lia)) as X1.
  rewrite !quad_slope by auto.
  rewrite slope_quot by lra.
  replace ((nd xs 1 - nd xs 0) * (nd xs 1 - nd xs 0) * Rabs (2 * a) / 8) with (er 0%nat)
    by (unfold er; cbv zeta; field).
  rewrite (@aset_ok R) by lia. cbn [obind].
  pose (Inv := fun (k : nat) (r : R * R * R * R * R * R * list R) => let '(dx, m1, mid1, m2, mid2, value, es) := r in
    dx = nd xs (k + 2) - nd xs (k + 1) /\ m1 = 2 * a * mid1 + b /\ m2 = 2 * a * mid2 + b /\ mid1 < mid2 /\
    mid2 = (nd xs (k + 2) + nd xs (k + 1)) / 2 /\ length es = length errs /\
    (forall i, (i < k + 1)%nat -> nd es i = er i) /\ (forall i, (k + 1 <= i)%nat -> nd es i = nd errs i) /\
    (forall i, (i < k + 1)%nat -> nd es i <= value) /\ (exists i, (i < k + 1)%nat /\ nd es i = value)).
  match goal with |- context [for_from 2 (n - 3) ?B ?S0] =>
    destruct (for_from_inv (fun ii => Inv (ii - 2)%nat) B 2 (n - 3) S0) as (r & E & HI); [| |rewrite E; clear E; cbn [obind]] end.
  - unfold Inv. cbn [Nat.add Nat.sub]. repeat (split; [first [reflexivity|lra]|]). split; [now rewrite upd_length|].
    split; [intros i Hi; assert (i = 0%nat) by lia; subst i; now rewrite nd_upd_same by lia|].
    split; [intros i Hi; now rewrite nd_upd_other by lia|].
    split; [intros i Hi; assert (i = 0%nat) by lia; subst i; rewrite nd_upd_same by lia; lra|].
    exists 0%nat. split; [lia|]. now rewrite nd_upd_same by lia.
  - intros ik [[[[[[dx m1] mid1] m2] mid2] value] es] Hk. remember (ik - 2)%nat as k eqn:Ek.
    assert (ik = 2 + k)%nat by lia. subst ik. clear Ek. intros (D & M1 & M2 & Lt & Md & Les & E1 & E2 & E3 & E4).
    rewrite !(aget_nd xs) by lia. cbn [obind]. rewrite !(aget_nd cs) by lia. cbn [obind].
    rewrite !Hq by lia.
    assert (W : nd xs (2 + k + 1) - nd xs (2 + k) = 1).
    { replace (2 + k + 1)%nat with (S (2 + k)) by lia. apply Hw; lia. }
    pose proof (Xi (k + 1)%nat ltac:(lia)) as Xk. replace (S (k + 1)) with (k + 2)%nat in Xk by lia.
    replace (2 + k)%nat with (k + 2)%nat in * by lia.
    set (mid3 := (nd xs (k + 2 + 1) + nd xs (k + 2)) / 2).
    assert (M3 : quad a b c (nd xs (k + 2 + 1)) - quad a b c (nd xs (k + 2)) = 2 * a * mid3 + b).
    { pose proof (quad_slope a b c (nd xs (k + 2)) (nd xs (k + 2 + 1)) ltac:(lra)) as Q. rewrite W in Q.
      unfold mid3. rewrite <- Q. field. }
    rewrite M3, M1, M2.
    assert (Lt3 : mid2 < mid3) by (unfold mid3; lra).
    rewrite !slope_quot by auto.
    assert (Ee : dx * dx * Rabs (if fw then 2 * a else 2 * a) / 8 = er (k + 1)%nat).
    { unfold er. cbv zeta. replace (S (k + 1)) with (k + 2)%nat by lia. rewrite D. destruct fw; field. }
    rewrite Ee. replace (k + 2 - 1)%nat with (k + 1)%nat by lia. rewrite (@aset_ok R) by lia. cbn [obind].
    eexists. split; [reflexivity|]. replace (S (k + 2) - 2)%nat with (S k) by lia. unfold Inv.
    replace (S k + 2)%nat with (k + 2 + 1)%nat by lia. replace (S k + 1)%nat with (k + 2)%nat by lia.
    split; [reflexivity|]. split; [reflexivity|]. split; [reflexivity|]. split; [exact Lt3|]. split; [unfold mid3; lra|].
    split; [now rewrite upd_length|].
    split.
    { intros i Hi. destruct (Nat.eq_dec i (k + 1)) as [->|Nk]; [now rewrite nd_upd_same by lia|].
      rewrite nd_upd_other by lia. apply E1. lia. }
    split; [intros i Hi; rewrite nd_upd_other by lia; apply E2; lia|].
    destruct E4 as (i4 & Hi4 & E4).
    destruct (Rltb_spec value (er (k + 1)%nat)) as [Q|Q]; split.
    + intros i Hi. destruct (Nat.eq_dec i (k + 1)) as [->|Nk]; [rewrite nd_upd_same by lia; lra|].
      rewrite nd_upd_other by lia. specialize (E3 i ltac:(lia)). lra.
    + exists (k + 1)%nat. split; [lia|]. now rewrite nd_upd_same by lia.
    + intros i Hi. destruct (Nat.eq_dec i (k + 1)) as [->|Nk]; [rewrite nd_upd_same by lia; lra|].
      rewrite nd_upd_other by lia. apply E3. lia.
    + exists i4. split; [lia|]. now rewrite nd_upd_other by lia.
  - replace (2 + (n - 3) - 2)%nat with (n - 3)%nat in HI by lia.
    destruct r as [[[[[[dx m1] mid1] m2] mid2] value] es]. destruct HI as (D & M1 & M2 & Lt & Md & Les & E1 & E2 & E3 & E4).
    rewrite M1, M2, slope_quot by auto.
    assert (Ee : dx * dx * Rabs (2 * a) / 8 = er (n - 2)%nat).
    { unfold er. cbv zeta. replace (S (n - 2)) with (n - 1)%nat by lia. rewrite D.
      replace (n - 3 + 2)%nat with (n - 1)%nat by lia. replace (n - 3 + 1)%nat with (n - 2)%nat by lia. field. }
    rewrite Ee. replace (n - 1 - 1)%nat with (n - 2)%nat by lia. rewrite (@aset_ok R) by lia. cbn [obind].
    replace (n - 3 + 1)%nat with (n - 2)%nat in * by lia.
    eexists. eexists. split; [reflexivity|]. split; [now rewrite upd_length|].
    split.
    { intros i Hi. cbv zeta. destruct (Nat.eq_dec i (n - 2)) as [->|Nk]; [now rewrite nd_upd_same by lia|].
      rewrite nd_upd_other by lia. apply E1. lia. }
    split; [intros i Hi; rewrite nd_upd_other by lia; apply E2; lia|].
    destruct E4 as (i4 & Hi4 & E4).
    destruct (Rltb_spec value (er (n - 2)%nat)) as [Q|Q]; split.
    + intros i Hi. destruct (Nat.eq_dec i (n - 2)) as [->|Nk]; [rewrite nd_upd_same by lia; lra|].
      rewrite nd_upd_other by lia. specialize (E3 i ltac:(lia)). lra.
    + exists (n - 2)%nat. split; [lia|]. now rewrite nd_upd_same by lia.
    + intros i Hi. destruct (Nat.eq_dec i (n - 2)) as [->|Nk]; [rewrite nd_upd_same by lia; lra|].
      rewrite nd_upd_other by lia. apply E3. lia.
    + exists i4. split; [lia|]. now rewrite nd_upd_other by lia.
Qed.

(** ** Gradient of the squared norm: what is added to the buffer is [scale] times a
    vector that depends on the function only. *)
Theorem le_sqnorm_param_grad_linear (f : lexpR) : valid tol f ->
  exists G : nat -> R, forall (scale : R) (g : list R), (l_n f <= length g)%nat ->
    exists g', @le_sqnorm_param_grad K f scale g = Ok g' /\ length g' = length g /\
      (forall k, (k < l_n f)%nat -> nd g' k = nd g k + scale * G k) /\
      (forall k, (l_n f <= k)%nat -> nd g' k = nd g k).
Proof.
  intros [V1 Ln Lc Hinc]. destruct f as [n xs cs]. cbn [l_n l_nodes l_coeff] in *. unr.
  pose (dx := fix dx k := match k with O => nd xs 1 - nd xs 0 | S k => dx k * dx k end).
  pose (A := fun k => ((nd cs k - 1) / 3 + nd cs (k + 1) / 2)).
  pose (B := fun k => 1 / 2 * nd cs k + 1 / 3 * (nd cs k - nd cs (k - 1))).
  exists (fun k => if (k =? 0)%nat then 2 * (A 0%nat * dx 0%nat)
    else if (k <? n - 1)%nat then 2 * (B k * dx (k - 1)%nat + A k * dx (k - 1)%nat) else 2 * (B k * dx (n - 2)%nat)).
  intros s g Lg. unfold le_sqnorm_param_grad. cbn [l_n l_nodes l_coeff]. unr.
  replace (INR 3) with 3 by (cbn; ring). replace (INR 2) with 2 by (cbn; ring).
  rewrite !(aget_nd xs), !(aget_nd cs) by lia. cbn [obind].
  rewrite (aget_nd g) by lia. cbn [obind]. rewrite (@aset_ok R) by lia. cbn [obind].
  pose (Inv := fun ii (r : R * list R) => let '(d, g') := r in d = dx (ii - 1)%nat /\ length g' = length g /\
    (forall k, (k < ii)%nat -> nd g' k = nd g k + s * (if (k =? 0)%nat then 2 * (A 0%nat * dx 0%nat)
      else 2 * (B k * dx (k - 1)%nat + A k * dx (k - 1)%nat))) /\
    (forall k, (ii <= k)%nat -> nd g' k = nd g k)).
  match goal with |- context [for_from 1 (n - 2) ?Bd ?S0] =>
    destruct (for_from_inv Inv Bd 1 (n - 2) S0) as (r & E & HI); [| |rewrite E; clear E; cbn [obind]] end.
  - unfold Inv. split; [reflexivity|]. split; [now rewrite upd_length|]. split.
    + intros k Hk. assert (k = 0%nat) by lia. subst k. rewrite nd_upd_same by lia. cbn [Nat.eqb]. unfold A.
      change (0 + 1)%nat with 1%nat. cbn [dx]. ring.
    + intros k Hk. now rewrite nd_upd_other by lia.
  - intros k [d g'] Hk (D & L & H1 & H2).
    rewrite !(aget_nd cs) by lia. cbn [obind]. rewrite (aget_nd g') by lia. cbn [obind].
    rewrite (@aset_ok R) by lia. cbn [obind]. eexists. split; [reflexivity|]. unfold Inv.
    split; [rewrite D; replace (S k - 1)%nat with (S (k - 1)) by lia; reflexivity|].
    split; [now rewrite upd_length|]. split.
    + intros j Hj. destruct (Nat.eq_dec j k) as [->|Nj].
      * rewrite nd_upd_same by lia. rewrite H2 by lia. destruct (Nat.eqb_spec k 0); [lia|]. rewrite D. unfold A, B. ring.
      * rewrite nd_upd_other by lia. apply H1. lia.
    + intros j Hj. rewrite nd_upd_other by lia. apply H2. lia.
  - destruct r as [d g']. destruct HI as (D & L & H1 & H2). replace (1 + (n - 2))%nat with (n - 1)%nat in * by lia.
    rewrite (aget_nd g') by lia. cbn [obind].
    rewrite (@aset_ok R) by lia. eexists. split; [reflexivity|].
    split; [now rewrite upd_length|]. split.
    + intros j Hj. destruct (Nat.eq_dec j (n - 1)) as [->|Nj].
      * rewrite nd_upd_same by lia. rewrite H2 by lia. destruct (Nat.eqb_spec (n - 1) 0); [lia|].
        destruct (Nat.ltb_spec (n - 1) (n - 1)); [lia|]. rewrite D. replace (n - 1 - 1)%nat with (n - 2)%nat by lia. unfold B.
        replace (n - 1 - 1)%nat with (n - 2)%nat by lia. ring.
      * rewrite nd_upd_other by lia. rewrite H1 by lia. destruct (Nat.eqb_spec j 0); [reflexivity|].
        destruct (Nat.ltb_spec j (n - 1)); [reflexivity|lia].
    + intros j Hj. rewrite nd_upd_other by lia. apply H2. lia.
Qed.

(** ** Sum of piecewise-constant functions on different grids: right at the nodes. *)
Theorem ce_axpy_nodes (a : R) (f g : lexpR) : 0 < tol -> valid tol f -> valid tol g ->
  spaced (2 * tol) (l_n f) (l_nodes f) -> spaced (2 * tol) (l_n g) (l_nodes g) ->
  sepd tol (l_n f) (l_n g) (l_nodes f) (l_nodes g) -> @le_sdiscp K f g = Ok false ->
  exists h, @ce_axpy K a f g = Ok h /\ valid tol h /\
    (forall v, is_node (l_n h) (l_nodes h) v <-> is_node (l_n f) (l_nodes f) v \/ is_node (l_n g) (l_nodes g) v) /\
    forall k, (k < l_n h)%nat -> exists u v, @ce_eval K f (nd (l_nodes h) k) = Ok u /\
      @ce_eval K g (nd (l_nodes h) k) = Ok v /\ nd (l_coeff h) k = a * u + v.
Proof.
  intros Ht Vf Vg Sf Sg Hsep E. unfold ce_axpy. setoid_rewrite E. cbn [obind].
  pose proof Vf as [Nf Lf Cf If]. pose proof Vg as [Ng Lg Cg Ig]. unr.
  destruct (interp_same_grid_ok tol (l_n f) (l_n g) (l_nodes f) (l_nodes g) Ht Lf Lg If Ig Hsep)
    as (X & EX & HXl & HXs & HX).
  setoid_rewrite EX. cbn [obind].
  assert (Tf : forall x : R, exists v, @ce_eval K f x = Ok v) by (intros x; apply ce_eval_total; auto; lra).
  assert (Tg : forall x : R, exists v, @ce_eval K g x = Ok v) by (intros x; apply ce_eval_total; auto; lra).
  set (ev := fun (h : lexpR) (x : R) => match @ce_eval K h x with Ok v => v | _ => 0 end : R).
  destruct (for_upd (length X) (fun k _ => a * ev f (nd X k) + ev g (nd X k)) (repeat 0 (l_n f + l_n g))
     (fun ii coeff =>
      do xi <- aget (X ++ repeat 0 (l_n f + l_n g - length X)) ii;
      do v <- @ce_eval K f xi; do w <- @ce_eval K g xi; aset coeff ii (a * v + w))) as (c & Ec & Hl & Hc & _).
  { rewrite repeat_length; lia. }
  { intros k c0 Hk Hl0 _. rewrite (aget_nd (X ++ _)) by (rewrite app_length; lia). rewrite nd_app1 by auto. cbn [obind].
    unfold ev. destruct (Tf (nd X k)) as (v & ->). cbn [obind].
    destruct (Tg (nd X k)) as (w & ->). cbn [obind]. apply aset_ok. rewrite Hl0, repeat_length. lia. }
  setoid_rewrite Ec. cbn [obind]. eexists. split; [reflexivity|]. cbn [l_n l_nodes l_coeff].
  rewrite repeat_length in Hl.
  assert (HX2 : (2 <= length X)%nat).
  { assert (Hnf : forall i, (i < l_n f)%nat -> exists k, (k < length X)%nat /\ nd (l_nodes f) i = nd X k)
      by (intros i Hi; apply In_nd, HX; left; exists i; auto).
    destruct (Hnf 0%nat ltac:(lia)) as (k0 & Hk0 & E0). destruct (Hnf 1%nat ltac:(lia)) as (k1 & Hk1 & E1).
    pose proof (If 0%nat ltac:(lia)). assert (k0 <> k1) by (intros ->; lra). lia. }
  split; [|split].
  - constructor; cbn [l_n l_nodes l_coeff]; auto; unr; try lia.
    + rewrite app_length, repeat_length. lia.
    + now apply sinc_app1.
  - intros v. rewrite <- HX. split.
    + intros (k & Hk & ->). rewrite nd_app1 by auto. now apply nd_In.
    + intros Hv. destruct (In_nd _ _ Hv) as (k & Hk & ->). exists k. split; auto. now rewrite nd_app1.
  - intros k Hk. rewrite nd_app1 by auto. rewrite Hc by auto.
    destruct (Tf (nd X k)) as (u & Eu). destruct (Tg (nd X k)) as (v & Ev). exists u, v.
    split; [exact Eu|]. split; [exact Ev|]. unfold ev. rewrite Eu, Ev. reflexivity.
Qed.

(** ** Largest absolute value over given points *)
Theorem le_absmax_opt_ok (f : lexpR) (opt : list R) : valid tol f -> opt <> [] ->
  exists m o, @le_absmax_opt K f opt = Ok (m, o) /\ In o opt /\
    (exists v, @le_eval K f o = Ok v /\ m = Rabs v) /\
    forall z v, In z opt -> @le_eval K f z = Ok v -> Rabs v <= m.
Proof.
  intros V Hne. unfold le_absmax_opt. unr.
  assert (L : (0 < length opt)%nat) by (destruct opt; [congruence|cbn; lia]).
  rewrite (aget_nd opt) by lia. cbn [obind].
  destruct (le_eval_total f (nd opt 0) V) as (v0 & E0). rewrite E0. cbn [obind].
  pose (Inv := fun k (r : R * R) => In (snd r) opt /\ (exists v, @le_eval K f (snd r) = Ok v /\ fst r = Rabs v) /\
    forall i v, (i < k)%nat -> @le_eval K f (nd opt i) = Ok v -> Rabs v <= fst r).
  match goal with |- context [for_ (length opt) ?B ?S0] =>
    destruct (for_inv Inv B (length opt) S0) as ((m & o) & E & I1 & I2 & I3) end.
  - split; [apply nd_In; lia|]. split; [exists v0; auto|intros; lia].
  - intros k [m o] Hk (I1 & I2 & I3). cbn [fst snd] in *. rewrite (aget_nd opt) by lia. cbn [obind].
    destruct (le_eval_total f (nd opt k) V) as (v & Ev). rewrite Ev. cbn [obind].
    destruct (Rltb_spec m (Rabs v)) as [Q|Q]; eexists; (split; [reflexivity|]); unfold Inv; cbn [fst snd].
    + split; [apply nd_In; lia|]. split; [exists v; auto|]. intros i w Hi Ew.
      destruct (Nat.eq_dec i k) as [->|N]; [rewrite Ew in Ev; injection Ev as ->; lra|].
      specialize (I3 i w ltac:(lia) Ew). lra.
    + split; [exact I1|]. split; [exact I2|]. intros i w Hi Ew.
      destruct (Nat.eq_dec i k) as [->|N]; [rewrite Ew in Ev; injection Ev as ->; lra|].
      apply (I3 i w ltac:(lia) Ew).
  - rewrite E. exists m, o. cbn [fst snd] in *. split; [reflexivity|]. split; [exact I1|]. split; [exact I2|].
    intros z v Hz Ev. destruct (In_nd _ _ Hz) as (k & Hk & ->). apply (I3 k v Hk Ev).
Qed.

End Fix.
