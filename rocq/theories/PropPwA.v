(** C100: piecewise approximation: on given points, on equal regions and adaptive; splitting
    a piece. *)
From Coq Require Import Reals Lra Lia.
From Verif Require Import Base BaseFacts FOps PwModel PwSpec PwFacts PwMatch PwOps PwAdapt PropPw.
Open Scope R_scope.

(** what is asked of the fit of an expansion with N coefficients: on every interval it
    succeeds, the result lives on the interval and has N coefficients *)
Definition fits {L} (K : leafops L) (N : nat) (f : R -> outcome R) (coeff : L -> nat -> R) : Prop :=
  forall c d, c < d -> exists l, l_fit K N c d f = Ok l /\ l_lb K l = c /\ l_ub K l = d /\
    forall k, (k < N)%nat -> l_coeff K l k = Ok (coeff l k).
(** the piece is the fit on its own interval *)
Definition is_fit {L} (K : leafops L) (N : nat) (f : R -> outcome R) (l : L) : Prop := l_fit K N (l_lb K l) (l_ub K l) f = Ok l.
(** all the checked coefficients, the last ones, are small *)
Definition small_tail {L} (coeff : L -> nat -> R) (N nchk : nat) (bound : R) (l : L) : Prop :=
  forall i, (i < N)%nat -> (N <= i + nchk)%nat -> coeff l i * coeff l i <= bound.

Lemma small_of {L} (coeff : L -> nat -> R) N nchk bound l :
  (forall jj, (jj < nchk)%nat -> (jj < N)%nat -> coeff l (N - 1 - jj)%nat * coeff l (N - 1 - jj)%nat <= bound) -> small_tail coeff N nchk bound l.
Proof. intros H i Hi Hn. replace i with (N - 1 - (N - 1 - i))%nat by lia. apply H; lia. Qed.

(** C100: with enough rounds (the loop stops by itself) the adaptive approximation gives
    pieces that cover the domain from left to right; each is the fit of the function on its
    interval; each is narrower than the minimal size or has small last coefficients; none is
    narrower than the minimal size over the number of regions unless there is only one
    piece; and the options are left as they were. *)
Theorem C100_adapt : forall (L : Type) (K : leafops L) (o : pwopts) (f : R -> outcome R) (coeff : L -> nat -> R),
  let N := (q_maxorder o + 1)%nat in
  fits K N f coeff -> (2 <= q_nregions o)%nat -> q_pts o = None -> 0 < q_minsize o -> q_lb o < q_ub o ->
  exists n, forall fuel, (n <= fuel)%nat -> exists t,
    pw_approx1_adapt K fuel o f = Ok (t, o) /\ on K (q_lb o) (q_ub o) t /\ pw_isflat t = true /\ Forall (is_fit K N f) (pieces t) /\
    ((exists l, t = Leaf l /\ (q_ub o - q_lb o < q_minsize o \/
        small_tail coeff N (q_check o) (q_eps o * fold_right Rplus 0 (map (fun i => coeff l i * coeff l i) (seq 0 N))) l)) \/
     ((exists bs, t = Node bs) /\ forall l, In l (pieces t) -> q_minsize o / INR (q_nregions o) <= l_ub K l - l_lb K l /\
        (l_ub K l - l_lb K l < q_minsize o \/ small_tail coeff N (q_check o) (q_eps o) l))).
Proof.
  intros L K o f coeff N Hfit Hr Hp Hm Hab.
  destruct (adapt_ok K f coeff o Hfit Hr Hp Hm Hab) as (n & H). exists n. intros fuel Hf.
  destruct (H fuel Hf) as (t & E & Hon & Ht). exists t. split; auto. split; auto.
  destruct Ht as [(l & -> & [F1 F2] & Hd)|(ls & -> & T & F & D & W)].
  - split; auto. split; [constructor; auto|]. left. exists l. split; auto. destruct Hd as [Hd|Hd]; [left|right; apply small_of; auto].
    destruct Hon as [_ Hon]. simpl in Hon. lra.
  - split; [simpl; apply forallb_forall; intros y (l & <- & _)%in_map_iff; auto|]. simpl pieces. rewrite flat_leaves. split.
    + eapply Forall_impl; [|exact F]. intros l [F1 _]. exact F1.
    + right. split; [eauto|]. intros l Hl. rewrite Forall_forall in W, D. split; [apply W; auto|].
      destruct (D l Hl) as [Hd|Hd]; [auto|right; apply small_of; auto].
Qed.
Print Assumptions C100_adapt.

(** C100: the approximation on user points has exactly these points as boundaries, the one
    on k regions has k pieces of the same width. *)
Fixpoint increasing (a : R) (ps : list R) : Prop := match ps with nil => True | b :: r => a < b /\ increasing b r end.
Lemma increasing_up a ps : increasing a ps -> up a ps (last ps a).
Proof.
  revert a; induction ps as [|b r IH]; intros a; simpl; auto. intros [H1 H2]. split; auto.
  specialize (IH b H2). destruct r as [|c r]; [auto|]. 
  assert (G : forall (l : list R) d x y, last (d :: l) x = last (d :: l) y) by (clear; induction l as [|e l IH]; intros d x y; [auto|]; apply (IH e x y)).
  rewrite (G r c a b). auto.
Qed.
Theorem C100_points : forall (L : Type) (K : leafops L) (o : pwopts) (f : R -> outcome R) (coeff : L -> nat -> R) p ps,
  let N := (q_maxorder o + 1)%nat in
  fits K N f coeff -> q_nregions o <> 1%nat -> q_pts o = Some (p :: ps) -> ps <> nil -> increasing p ps ->
  exists t, pw_approx1 K o f = Ok t /\ on K p (last ps p) t /\ map (l_ub K) (pieces t) = ps /\ Forall (is_fit K N f) (pieces t).
Proof.
  intros L K o f coeff p ps N Hfit Hr Hp Hne Hi.
  assert (Ho : q_bounds o (q_lb o) (q_ub o) = o) by (destruct o; auto).
  pose proof (approx_nodes K f coeff (mkpwopts (q_lb o) (last ps p) (q_maxorder o) (q_minsize o) (q_check o) (q_eps o) (q_nregions o) (q_pts o)) Hfit (q_lb o) p ps (last ps p) Hr (increasing_up p ps Hi)) as H.
  cbn [q_pts q_bounds q_lb q_ub] in H. rewrite Hp in H. destruct (H eq_refl) as (ls & E & T & M & F).
  exists (Node (map Leaf ls)). split.
  - rewrite <- E. unfold pw_approx1, q_bounds. cbn [q_pts q_nregions q_maxorder q_lb q_ub].
    destruct (Nat.eqb_spec (q_nregions o) 1); [congruence|]. rewrite Hp. reflexivity.
  - simpl pieces. unfold on. simpl pieces. rewrite flat_leaves. split; [split; auto|].
    + apply proper_leaves. intros ->. simpl in M. congruence.
    + split; auto. eapply Forall_impl; [|exact F]. intros l [F1 _]. exact F1.
Qed.
Print Assumptions C100_points.
Theorem C100_regions : forall (L : Type) (K : leafops L) (o : pwopts) (f : R -> outcome R) (coeff : L -> nat -> R),
  let N := (q_maxorder o + 1)%nat in
  fits K N f coeff -> (1 <= q_nregions o)%nat -> q_pts o = None -> q_lb o < q_ub o ->
  exists t, pw_approx1 K o f = Ok t /\ on K (q_lb o) (q_ub o) t /\ length (pieces t) = q_nregions o /\
    forall l, In l (pieces t) -> is_fit K N f l /\ l_ub K l - l_lb K l = (q_ub o - q_lb o) / INR (q_nregions o).
Proof.
  intros L K o f coeff N Hfit Hr Hp Hab.
  assert (Ho : q_bounds o (q_lb o) (q_ub o) = o) by (destruct o; auto).
  destruct (Nat.eq_dec (q_nregions o) 1) as [E1|E1].
  - destruct (Hfit _ _ Hab) as (l & El & L1 & L2 & _). exists (Leaf l). unfold pw_approx1. rewrite E1. cbn [Nat.eqb]. fold N. rewrite El. cbn [obind].
    split; auto. split; [split; simpl; auto; rewrite L1, L2; auto|]. split; auto. intros m [<-|[]]. unfold is_fit. rewrite L1, L2. split; auto. simpl. field.
  - destruct (nodes_up (q_lb o) (q_ub o) (q_nregions o)) as (m & Em & Hup & Hl & _); [lia|auto|].
    destruct (approx_regions K f coeff o Hfit (q_lb o) (q_ub o)) as (ls & E & T & F & Hne & W); [lia|auto|auto|].
    destruct (approx_nodes K f coeff o Hfit (q_lb o) (q_lb o) m (q_ub o) E1 Hup) as (ls' & E' & _ & M & _).
    { rewrite Hp, linspace_ok by lia. rewrite Em. auto. }
    rewrite Ho in E, E'. rewrite E in E'. injection E' as E'.
    assert (Hls : ls = ls') by (rewrite <- (flat_leaves ls), E', flat_leaves; auto). subst ls'.
    exists (Node (map Leaf ls)). unfold on. simpl pieces. rewrite flat_leaves. split; auto. split; [split; [apply proper_leaves; auto|auto]|].
    split; [rewrite <- Hl, <- M, map_length; auto|]. intros l Hin. rewrite Forall_forall in F, W. split; [apply F; auto|apply W; auto].
Qed.
Print Assumptions C100_regions.

(** C100: splitting a piece at increasing points from its lower to its upper bound gives a
    function with these boundaries; if the refit gives the piece back, the values stay. *)
Theorem C100_splitn : forall (L : Type) (K : leafops L) tm junk (l : L) ps, 0 <= tm -> ps <> nil ->
  increasing (l_lb K l) ps -> last ps (l_lb K l) = l_ub K l ->
  (forall c d, c < d -> exists m, l_splitfit K l c d = Ok m /\ l_lb K m = c /\ l_ub K m = d /\ forall x, l_eval K m x = l_eval K l x) ->
  exists t, pw_splitn K (Leaf l) (length ps + 1) (l_lb K l :: ps) = Ok t /\ on K (l_lb K l) (l_ub K l) t /\ map (l_ub K) (pieces t) = ps /\
    forall x, x < l_ub K l + tm -> pw_eval K tm junk t x = pw_eval K tm junk (Leaf l) x.
Proof.
  intros L K tm junk l ps Htm Hne Hi Hl Hs.
  assert (Hup := increasing_up _ _ Hi). rewrite Hl in Hup.
  destruct (fit_loop K (l_splitfit K l) (fun _ _ m => forall x, l_eval K m x = l_eval K l x) (l_lb K l) ps (l_ub K l) Hup Hs) as (ls & E & T & M & F).
  exists (Node (map Leaf ls)).
  assert (Hon : on K (l_lb K l) (l_ub K l) (Node (map Leaf ls))).
  { split; [apply proper_leaves; intros ->; simpl in M; congruence|simpl; rewrite flat_leaves; auto]. }
  split; [|split; [auto|split; [simpl; rewrite flat_leaves; auto|]]].
  - unfold pw_splitn. destruct (Nat.eqb_spec (length ps + 1) 0); [lia|]. rewrite (aget_ok _ 0 (l_lb K l)) by reflexivity. cbn [obind].
    destruct (Req_EM_T (l_lb K l) (l_lb K l)); [|congruence]. cbn [cassert obind]. replace (length ps + 1 - 1)%nat with (length ps) by lia.
    assert (Hn : nth_error (l_lb K l :: ps) (length ps) = Some (l_ub K l)).
    { rewrite <- Hl. clear - Hne. destruct ps as [|a r]; [congruence|]. simpl. clear. revert a. induction r as [|b r IH]; intros a; [reflexivity|]. 
      cbn [length nth_error]. rewrite IH. reflexivity. }
    rewrite (aget_ok _ _ _ Hn). cbn [obind]. destruct (Req_EM_T (l_ub K l) (l_ub K l)); [|congruence]. cbn [cassert obind]. rewrite E. reflexivity.
  - intros x Hx. destruct (C42_eval L K tm junk _ _ _ x Hon Htm Hx) as (m & (Hm & _) & Ev & _). rewrite Ev.
    simpl in Hm. rewrite flat_leaves in Hm. rewrite Forall_forall in F. apply (F m Hm).
Qed.
Print Assumptions C100_splitn.
Theorem C100_split : forall (L : Type) (K : leafops L) tm junk (l : L) loc, 0 <= tm -> l_lb K l < loc < l_ub K l ->
  (forall c d, c < d -> exists m, l_splitfit K l c d = Ok m /\ l_lb K m = c /\ l_ub K m = d /\ forall x, l_eval K m x = l_eval K l x) ->
  exists t, pw_split K (Leaf l) loc = Ok t /\ on K (l_lb K l) (l_ub K l) t /\ map (l_ub K) (pieces t) = loc :: l_ub K l :: nil /\
    forall x, x < l_ub K l + tm -> pw_eval K tm junk t x = pw_eval K tm junk (Leaf l) x.
Proof.
  intros L K tm junk l loc Htm [H1 H2] Hs. unfold pw_split. rewrite !Rltb_t by lra. cbn [cassert obind].
  destruct (Hs _ _ H1) as (a & Ea & A1 & A2 & A3). destruct (Hs _ _ H2) as (b & Eb & B1 & B2 & B3). rewrite Ea, Eb. cbn [obind].
  eexists; split; [reflexivity|].
  assert (Hon : on K (l_lb K l) (l_ub K l) (Node (Leaf a :: Leaf b :: nil))).
  { split; [simpl; repeat split; auto; discriminate|]. simpl. rewrite A1, A2, B1, B2. repeat split; auto. }
  split; auto. split; [simpl; rewrite A2, B2; auto|].
  intros x Hx. destruct (C42_eval L K tm junk _ _ _ x Hon Htm Hx) as (m & (Hm & _) & Ev & _). rewrite Ev.
  simpl in Hm. destruct Hm as [<-|[<-|[]]]; [apply A3|apply B3].
Qed.
Print Assumptions C100_split.

(** ** Examples: segments, for the function x on [0,1] with two regions, minimal size 3/10 *)
Definition s_coeff (l : seg) (k : nat) : R := match k with O => s_a l | _ => s_b l end.
Lemma seg_fits (f : R -> R) : fits segops 2 (fun x => Ok (f x)) s_coeff.
Proof.
  intros c d Hcd. simpl. unfold s_interp. cbn [obind]. eexists; split; [reflexivity|]. repeat split; auto.
  intros [|[|k]] Hk; simpl; auto; lia.
Qed.
Definition o_ex : pwopts := mkpwopts 0 1 1 (3/10) 1 (1/2) 2 None.
Example C100_example : exists fuel t, pw_approx1_adapt segops fuel o_ex (fun x => Ok x) = Ok (t, o_ex) /\ on segops 0 1 t /\
  forall l, In l (pieces t) -> s_a l = 0 /\ s_b l = 1 /\ 3/20 <= s_ub l - s_lb l < 3/10.
Proof.
  assert (Hx : forall l, is_fit segops 2 (fun x => Ok x) l -> s_lb l < s_ub l -> s_a l = 0 /\ s_b l = 1).
  { intros l Hl Hlt. unfold is_fit in Hl. simpl in Hl. 
    destruct (seg_interp (fun x => Ok x) (mkseg 0 1 0 1) (s_lb l) (s_ub l) Hlt) as (m & Em & _ & _ & M1 & M2); try (unfold s_val; simpl; f_equal; lra).
    rewrite Em in Hl. injection Hl as ->. auto. }
  destruct (C100_adapt seg segops o_ex (fun x => Ok x) s_coeff) as (n & H); simpl; try lia; try lra; auto.
  { apply (seg_fits (fun x => x)). }
  destruct (H n (le_n _)) as (t & E & Hon & _ & F & Ht). exists n, t. split; auto. split; auto.
  intros l Hl. rewrite Forall_forall in F. simpl in Hon. destruct (tiles_le segops 0 _ 1 (proj2 Hon)) as [_ Hle]. specialize (Hle l Hl). simpl in Hle.
  destruct (Hx l (F l Hl)) as [Ha Hb]; [lra|]. split; auto. split; auto.
  destruct Ht as [(m & -> & Hm)|(_ & Hm)].
  - exfalso. simpl in Hl. destruct Hl as [->|[]]. simpl in Hm. destruct Hm as [Hm|Hm]; [lra|].
    specialize (Hm 1%nat ltac:(simpl; lia) ltac:(simpl; lia)). simpl in Hm. rewrite Ha, Hb in Hm. lra.
  - destruct (Hm l Hl) as [W D]. simpl in W, D. split; [lra|]. destruct D as [D|D]; [lra|].
    specialize (D 1%nat ltac:(simpl; lia) ltac:(simpl; lia)). simpl in D. rewrite Hb in D. lra.
Qed.
Example C100_example_split : exists t, pw_splitn segops (Leaf (mkseg 0 2 1 3)) 3 (0 :: 1/2 :: 2 :: nil) = Ok t /\
  map s_ub (pieces t) = 1/2 :: 2 :: nil /\ pw_eval segops (1/100) 7 t 1 = Ok 4.
Proof.
  destruct (C100_splitn seg segops (1/100) 7 (mkseg 0 2 1 3) (1/2 :: 2 :: nil)) as (t & E & Hon & M & Hv); simpl; try lra; auto; [discriminate| |].
  - intros c d Hcd. destruct (seg_interp (fun x => Ok (s_val (mkseg 0 2 1 3) x)) (mkseg 0 2 1 3) c d Hcd eq_refl eq_refl) as (m & Em & M1 & M2 & M3 & M4).
    exists m. repeat split; auto. intros x. unfold s_val. rewrite M3, M4. auto.
  - exists t. split; [exact E|]. split; [exact M|]. rewrite Hv by (simpl; lra). unfold pw_eval; simpl. unfold s_val; simpl. f_equal. lra.
Qed.

(** C100 refuted: with no region at all the approximation succeeds with a function without
    pieces, whose bounds are undefined behaviour. *)
Theorem C100_no_region_refuted : exists (o : pwopts) (t : pw seg), q_lb o < q_ub o /\
  pw_approx1 segops o (fun x => Ok x) = Ok t /\ pw_nregions t = 0%nat /\ pw_lb segops t = UB /\
  pw_eval segops (1/100) 7 t (1/2) = Ok 7 /\ forall fuel, pw_approx1_adapt segops (S fuel) o (fun x => Ok x) = UB.
Proof.
  exists (mkpwopts 0 1 1 (3/10) 1 (1/2) 0 None), (Node nil). simpl. split; [lra|]. split; auto. split; auto. split; auto. split; auto.
  intros fuel.
  destruct (seg_interp (fun x => Ok x) (mkseg 0 1 0 1) 0 1) as (m & Em & _ & _ & M1 & M2); try lra; try (unfold s_val; simpl; f_equal; lra).
  simpl in M1, M2. unfold pw_approx1_adapt. cbn [q_pts cassert obind q_maxorder q_lb q_ub segops l_fit]. rewrite Em. cbn [obind q_minsize q_nregions].
  rewrite Rltb_f by lra. cbn [orb Nat.eqb]. simpl. rewrite M1, M2. rewrite Rltb_t by lra. reflexivity.
Qed.
Print Assumptions C100_no_region_refuted.
