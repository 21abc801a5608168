(** Piecewise-linear functions: derivative, product, largest absolute value,
    scaling, constants and linear functions. *)
From Verif Require Import Base BaseFacts FOps LinElmModel LinElmSpec LinElmFacts LinElmMerge LinElmArith LinElmInt LinElmAdapt ConstElmFacts ConstElmMore.
From Coq Require Import Reals Lra.
Local Open Scope R_scope.

Section Fix.
Context (tol : R).
Notation K := (Rops tol).
Notation lexpR := (lexp K).
Notation In_f f := (Interp (l_n f) (l_nodes f) (l_coeff f)).

(** ** Derivative *)
(** Inside a cell, away from the nodes: the derivative of the polygon. *)
Theorem le_deriv_eval_in (f : lexpR) (x : R) (h : R -> R) : valid tol f ->
  (forall k, (k < l_n f)%nat -> x <> nd (l_nodes f) k /\ tol < Rabs (x - nd (l_nodes f) k)) ->
  nd (l_nodes f) 0 <= x <= nd (l_nodes f) (l_n f - 1) ->
  (forall z, nd (l_nodes f) 0 <= z <= nd (l_nodes f) (l_n f - 1) -> In_f f z (h z)) ->
  exists d, @le_deriv_eval K f x = Ok d /\ derivable_pt_lim h x d.
Proof.
  intros V Hc Hx Hh. pose proof V as [Hn Hl Hcl Hs]. unfold le_deriv_eval. unr.
  rewrite !(aget_nd (l_nodes f)) by lia. cbn [obind].
  destruct (Rltb_spec x (nd (l_nodes f) 0)); [lra|].
  destruct (Rltb_spec (nd (l_nodes f) (l_n f - 1)) x); [lra|]. cbn [orb].
  destruct (le_find_in tol f x V Hx) as (i & E & Hi & [H|H]).
  { destruct (Hc i ltac:(lia)). lra. }
  setoid_rewrite E. cbn [obind]. rewrite !(aget_nd (l_nodes f)) by lia. cbn [obind].
  destruct (Hc i ltac:(lia)) as [Ni Ti]. destruct (Hc (S i) ltac:(lia)) as [Nj Tj].
  destruct (Rleb_spec (Rabs (x - nd (l_nodes f) i)) tol); [lra|].
  rewrite !(aget_nd (l_coeff f)) by lia. cbn [obind]. eexists. split; [reflexivity|].
  replace (i + 1)%nat with (S i) by lia. pose proof (Hs i Hi) as Hci.
  set (x0 := nd (l_nodes f) i) in *. set (x1 := nd (l_nodes f) (S i)) in *.
  set (y0 := nd (l_coeff f) i) in *. set (y1 := nd (l_coeff f) (S i)) in *.
  assert (Hlt : x0 < x < x1) by lra.
  set (s := (y1 - y0) / (x1 - x0)).
  replace ((y0 - y1) * ((0 - 1) / (x1 - x0))) with s by (unfold s; field; lra).
  assert (Hloc : forall z, x0 < z < x1 -> h z = y0 + s * (z - x0)).
  { intros z Hz. pose proof (Interp_graph_line _ _ _ _ Hs Hh i z Hi Hz) as L. unfold on_line in L.
    fold x0 x1 y0 y1 in L. apply Rmult_eq_reg_r with (x1 - x0); [|lra]. unfold s. field_simplify; [|lra]. lra. }
  intros eps Heps. assert (Hd : 0 < Rmin (x - x0) (x1 - x)) by (apply Rmin_glb_lt; lra).
  exists (mkposreal _ Hd). intros t Ht0 Ht. cbn in Ht. apply Rabs_def2 in Ht as [T1 T2].
  pose proof (Rmin_l (x - x0) (x1 - x)). pose proof (Rmin_r (x - x0) (x1 - x)).
  rewrite !Hloc by lra. replace ((y0 + s * (x + t - x0) - (y0 + s * (x - x0))) / t - s) with 0 by (field; auto).
  rewrite Rabs_R0. lra.
Qed.

Theorem le_deriv_eval_out (f : lexpR) (x : R) : valid tol f -> x < nd (l_nodes f) 0 \/ nd (l_nodes f) (l_n f - 1) < x ->
  @le_deriv_eval K f x = Ok 0.
Proof.
  intros [Hn Hl Hc Hs] Hx. unfold le_deriv_eval.
  rewrite !(aget_nd (l_nodes f)) by rlia. cbn [obind]. unr.
  destruct (Rltb_spec x (nd (l_nodes f) 0)); [reflexivity|].
  destruct (Rltb_spec (nd (l_nodes f) (l_n f - 1)) x); [reflexivity|]. lra.
Qed.

(** ** Product *)
Theorem le_prod_same (fuel : nat) (delta hmin : R) (f g : lexpR) : 0 <= tol -> valid tol f -> valid tol g ->
  spaced tol (l_n f) (l_nodes f) -> same_grid tol f g ->
  exists p, @le_prod K fuel delta hmin f g = Ok p /\ valid tol p /\ same_grid tol f p /\
    forall i, (i < l_n f)%nat -> nd (l_coeff p) i = nd (l_coeff f) i * nd (l_coeff g) i.
Proof.
  intros Ht Vf Vg Sf G. pose proof Vf as [Nf Lf Cf If]. pose proof Vg as [Ng Lg Cg Ig]. unr.
  unfold le_prod. unr. rewrite !(aget_nd (l_nodes f)), !(aget_nd (l_nodes g)) by lia. cbn [obind].
  setoid_rewrite (same_grid_sdiscp tol f g Ht Vf Vg G). cbn [obind].
  unfold le_approx. cbn [o_adapt o_nodes o_n negb]. unr.
  assert (El : (l_n f <=? @length R (l_nodes f))%nat = true) by (apply Nat.leb_le; lia). setoid_rewrite El.
  rewrite (aget_nd (firstn (l_n f) (l_nodes f))) by (unr; rewrite firstn_length; unr; lia). cbn [obind l_n].
  destruct (Nat.eqb_spec (l_n f) 0); [lia|]. cbn [negb cassert obind].
  eexists. split; [reflexivity|].
  assert (Hnd : forall i, (i < l_n f)%nat -> nd (firstn (l_n f) (l_nodes f)) i = nd (l_nodes f) i).
  { intros i Hi. apply nd_firstn; auto. }
  assert (Hlen : @length R (firstn (l_n f) (l_nodes f)) = l_n f) by (rewrite firstn_length; unr; lia).
  repeat match goal with |- _ /\ _ => split end.
  - constructor; cbn [l_n l_nodes l_coeff]; unr; rewrite ?map_length; try lia.
    intros i Hi. rewrite !Hnd by lia. now apply If.
  - split; [reflexivity|]. cbn [l_nodes]. intros i Hi. symmetry. now apply Hnd.
  - cbn [l_coeff]. intros i Hi. unr. unfold nd at 1.
    match goal with |- nth i (map ?F00 ?l00) 0 = _ =>
      rewrite (nth_indep _ 0 (F00 0)) by (rewrite map_length; lia); rewrite (map_nth F00) end. cbv beta.
    change (nth i (firstn (l_n f) (l_nodes f)) 0) with (nd (firstn (l_n f) (l_nodes f)) i).
    rewrite Hnd by auto. unfold le_evalv. setoid_rewrite (le_eval_node tol f i Ht Vf Sf Hi).
    destruct G as [En Hn].
    assert (Sg : spaced tol (l_n g) (l_nodes g)). { intros k Hk. rewrite <- !Hn by lia. apply Sf. lia. }
    rewrite Hn by auto. setoid_rewrite (le_eval_node tol g i Ht Vg Sg ltac:(lia)). reflexivity.
Qed.

(** Different grids with a common interval: the result samples the product. *)
Theorem le_prod_diff (delta hmin : R) (f g : lexpR) : 0 <= tol -> 0 < hmin -> valid tol f -> valid tol g ->
  @le_sdiscp K f g = Ok false ->
  let lb := Rmax (nd (l_nodes f) 0) (nd (l_nodes g) 0) in
  let ub := Rmin (nd (l_nodes f) (l_n f - 1)) (nd (l_nodes g) (l_n g - 1)) in
  lb < ub ->
  exists N, forall fuel, (N <= fuel)%nat -> exists p, @le_prod K fuel delta hmin f g = Ok p /\ valid tol p /\
    nd (l_nodes p) 0 = lb /\ nd (l_nodes p) (l_n p - 1) = ub /\
    forall i, (i < l_n p)%nat -> exists u v, @le_eval K f (nd (l_nodes p) i) = Ok u /\
      @le_eval K g (nd (l_nodes p) i) = Ok v /\ nd (l_coeff p) i = u * v.
Proof.
  intros Ht Hh Vf Vg Esd lb ub Hb. pose proof Vf as [Nf Lf Cf If]. pose proof Vg as [Ng Lg Cg Ig]. unr.
  set (F := fun x => @le_evalv K f x * @le_evalv K g x).
  set (o := @mkLO K true None 0 lb ub delta hmin : laopts K).
  destruct (le_approx_none tol o F eq_refl eq_refl Hh Hb) as (N & HN).
  exists N. intros fuel Hf. destruct (HN fuel Hf) as (p & E & V & H1 & H2 & H3 & _).
  exists p. split; [|split; [auto|split; [auto|split; [auto|]]]].
  - unfold le_prod. unr. rewrite !(aget_nd (l_nodes f)), !(aget_nd (l_nodes g)) by lia. cbn [obind].
    setoid_rewrite Esd. cbn [obind]. rewrite <- E. unfold o.
    assert (El : (if Rltb (nd (l_nodes f) 0) (nd (l_nodes g) 0) then nd (l_nodes g) 0 else nd (l_nodes f) 0) = lb).
    { unfold lb. destruct (Rltb_spec (nd (l_nodes f) 0) (nd (l_nodes g) 0)); [rewrite Rmax_right|rewrite Rmax_left]; lra. }
    assert (Eu : (if Rltb (nd (l_nodes g) (l_n g - 1)) (nd (l_nodes f) (l_n f - 1)) then nd (l_nodes g) (l_n g - 1) else nd (l_nodes f) (l_n f - 1)) = ub).
    { unfold ub. destruct (Rltb_spec (nd (l_nodes g) (l_n g - 1)) (nd (l_nodes f) (l_n f - 1))); [rewrite Rmin_right|rewrite Rmin_left]; lra. }
    unr. rewrite El, Eu. reflexivity.
  - intros i Hi. rewrite H3 by auto. unfold F.
    assert (T : forall (e : lexpR) (x : R), valid tol e -> exists u, @le_eval K e x = Ok u /\ @le_evalv K e x = u).
    { intros e x Ve. unfold le_evalv.
      destruct (Rlt_dec x (nd (l_nodes e) 0)); [|destruct (Rlt_dec (nd (l_nodes e) (l_n e - 1)) x)].
      - exists 0. rewrite le_eval_out by auto. auto.
      - exists 0. rewrite le_eval_out by auto. auto.
      - destruct (le_eval_in tol e x Ve ltac:(lra)) as (u & E' & _). exists u. setoid_rewrite E'. auto. }
    destruct (T f (nd (l_nodes p) i) Vf) as (u & Eu & ->). destruct (T g (nd (l_nodes p) i) Vg) as (v & Ev & ->).
    exists u, v. auto.
Qed.

(** ** Largest absolute value *)
Lemma node_absmax_ok (n : nat) (cs : list R) : (1 <= n)%nat -> (n <= length cs)%nat ->
  exists k, (k < n)%nat /\ @node_absmax K n cs = Ok (Rabs (nd cs k), k) /\ forall j, (j < n)%nat -> Rabs (nd cs j) <= Rabs (nd cs k).
Proof.
  intros Hn Hc. unfold node_absmax. rewrite (aget_nd cs) by lia. cbn [obind]. unr.
  match goal with |- context [for_from 1 (n - 1) ?b00 ?s00] =>
    destruct (for_from_inv (fun m (r : R * nat) => exists k, (k < m)%nat /\ r = (Rabs (nd cs k), k) /\ forall j, (j < m)%nat -> Rabs (nd cs j) <= Rabs (nd cs k))
      b00 1 (n - 1) s00) as (r & E & k & Hk & -> & H) end.
  - exists 0%nat. split; [lia|]. split; auto. intros j Hj. replace j with 0%nat by lia. lra.
  - intros i r Hi (k & Hk & -> & H). rewrite (aget_nd cs) by lia. cbn [obind].
    destruct (Rltb_spec (Rabs (nd cs k)) (Rabs (nd cs i))).
    + eexists. split; [reflexivity|]. exists i. split; [lia|]. split; auto.
      intros j Hj. destruct (Nat.eq_dec j i) as [->|]; [lra|]. specialize (H j ltac:(lia)). lra.
    + eexists. split; [reflexivity|]. exists k. split; [lia|]. split; auto.
      intros j Hj. destruct (Nat.eq_dec j i) as [->|]; [lra|]. apply H. lia.
  - replace (1 + (n - 1))%nat with n in * by lia. exists k. auto.
Qed.

Theorem le_absmax_ok (f : lexpR) : 0 <= tol -> valid tol f -> spaced tol (l_n f) (l_nodes f) ->
  exists m k v, @node_absmax K (l_n f) (l_coeff f) = Ok (m, k) /\ (k < l_n f)%nat /\
   @le_eval K f (nd (l_nodes f) k) = Ok v /\ Rabs v = m /\
   forall x, nd (l_nodes f) 0 <= x <= nd (l_nodes f) (l_n f - 1) -> exists w, @le_eval K f x = Ok w /\ Rabs w <= m.
Proof.
  intros Ht V S. pose proof V as [Hn Hl Hc Hs]. unr.
  destruct (node_absmax_ok (l_n f) (l_coeff f)) as (k & Hk & E & H); try lia.
  exists (Rabs (nd (l_coeff f) k)), k, (nd (l_coeff f) k). split; auto. split; auto. split; [now apply le_eval_node|]. split; auto.
  intros x Hx. destruct (le_eval_in tol f x V Hx) as (v & Ev & [(j & Hj & _ & ->)|I]); eexists; (split; [exact Ev|]); auto.
  apply Rabs_le. apply (Interp_bounds _ _ _ _ _ (- Rabs (nd (l_coeff f) k)) _ Hs I).
  intros i Hi. specialize (H i Hi). pose proof (Rle_abs (nd (l_coeff f) i)). pose proof (Rle_abs (- nd (l_coeff f) i)) as Q. rewrite Rabs_Ropp in Q. lra.
Qed.

(** ** Scaling *)
Theorem le_scale_ok (a : R) (f : lexpR) : valid tol f ->
  exists h, @le_scale K a f = Ok h /\ valid tol h /\ same_grid tol f h /\
   forall x, exists v, @le_eval K f x = Ok v /\ @le_eval K h x = Ok (a * v).
Proof.
  intros V. pose proof V as [Hn Hl Hc Hs]. unfold le_scale. unr.
  match goal with |- context [for_ (l_n f) ?b00 (l_coeff f)] =>
    destruct (for_upd (l_n f) (fun i v => v * a) (l_coeff f) b00) as (c & E & Lc & Hcc & _) end; try lia.
  { intros i c Hi HL E. rewrite (aget_nd c) by lia. cbn [obind]. rewrite E. apply aset_ok. lia. }
  setoid_rewrite E. cbn [obind]. eexists. split; [reflexivity|].
  set (h := mkL (l_n f) (l_nodes f) c : lexpR).
  assert (Vh : valid tol h). { constructor; cbn; auto. unr. lia. }
  split; auto. split; [split; cbn; auto|]. intros x.
  assert (Ef : forall e : lexpR, @le_find_interval K e x = @le_find_interval K (mkL (l_n e) (l_nodes e) []) x) by reflexivity.
  destruct (Rlt_dec x (nd (l_nodes f) 0)) as [L|L]; [|destruct (Rlt_dec (nd (l_nodes f) (l_n f - 1)) x) as [L'|L']].
  - exists 0. rewrite Rmult_0_r. split; apply le_eval_out; auto.
  - exists 0. rewrite Rmult_0_r. split; apply le_eval_out; auto.
  - destruct (le_find_in tol f x V ltac:(lra)) as (i & Ei & Hi & _).
    assert (Ei' : @le_find_interval K h x = Ok i) by (rewrite <- Ei; reflexivity).
    unfold le_eval. cbn [h l_nodes l_n l_coeff]. unr. rewrite !(aget_nd (l_nodes f)) by lia. cbn [obind].
    destruct (Rltb_spec x (nd (l_nodes f) 0)); [lra|].
    destruct (Rltb_spec (nd (l_nodes f) (l_n f - 1)) x); [lra|]. cbn [orb].
    setoid_rewrite Ei. setoid_rewrite Ei'. cbn [obind].
    rewrite !(aget_nd (l_nodes f)), !(aget_nd (l_coeff f)), !(aget_nd c) by lia. cbn [obind].
    rewrite !Hcc by lia.
    destruct (Rleb_spec (Rabs (x - nd (l_nodes f) i)) tol); eexists; split; try reflexivity; f_equal; ring.
Qed.

End Fix.
