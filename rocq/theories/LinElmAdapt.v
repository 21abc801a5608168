(** Adaptive piecewise-linear approximation. *)
From Verif Require Import Base BaseFacts FOps LinElmModel LinElmSpec LinElmFacts LinElmMerge LinElmArith.
From Coq Require Import Reals Lra.
Local Open Scope R_scope.

(** What the list of sampled points must satisfy, stated on the list alone:
    it samples [F], runs from [a] to [b], increases strictly, and every two
    consecutive points are at most [hmin] apart or are one half of an interval
    [l, r] whose midpoint value is predicted by the chord to relative accuracy
    [delta]. *)
Definition accepted (F : R -> R) (delta hmin u v : R) : Prop :=
  v - u <= hmin \/
  exists l r, l < r /\ F ((l + r) / 2) <> 0 /\
    Rabs ((F l + F r) / 2 - F ((l + r) / 2)) / Rabs (F ((l + r) / 2)) < delta /\
    ((u = l /\ v = (l + r) / 2) \/ (u = (l + r) / 2 /\ v = r)).

Inductive chain (F : R -> R) (delta hmin : R) : R -> R -> list (R * R) -> Prop :=
| chain_one a : chain F delta hmin a a [(a, F a)]
| chain_cons a b c l : a < b -> accepted F delta hmin a b -> chain F delta hmin b c l ->
    chain F delta hmin a c ((a, F a) :: l).

Lemma chain_app F delta hmin a b c l r :
  chain F delta hmin a b l -> chain F delta hmin b c r -> chain F delta hmin a c (l ++ tl r).
Proof.
  induction 1 as [a|a b' b l Hab Ha Hc IH]; intros Hr.
  - inversion Hr; subst; cbn; auto.
  - cbn. apply chain_cons with b'; auto.
Qed.

Lemma chain_le F delta hmin a b l : chain F delta hmin a b l -> a <= b.
Proof. induction 1; lra. Qed.

Lemma chain_head F delta hmin a b l : chain F delta hmin a b l -> exists r, l = (a, F a) :: r.
Proof. inversion 1; eauto. Qed.

Lemma chain_vals F delta hmin a b l : chain F delta hmin a b l -> forall p, In p l -> snd p = F (fst p).
Proof. induction 1; intros p [<-|Hp]; cbn; auto. now destruct Hp. Qed.

Lemma chain_in F delta hmin a b l : chain F delta hmin a b l -> In (a, F a) l /\ In (b, F b) l.
Proof.
  induction 1 as [a|a b c l Hab Ha Hc [IH1 IH2]]; cbn; auto.
Qed.

Lemma chain_last F delta hmin a b l : chain F delta hmin a b l -> nth (length l - 1) l (0, 0) = (b, F b).
Proof.
  induction 1 as [a|a b c l Hab Ha Hc IH]; cbn; auto.
  destruct (chain_head _ _ _ _ _ _ Hc) as [r ->]. cbn in *. rewrite Nat.sub_0_r in *. apply IH.
Qed.

Lemma chain_step F delta hmin a b l : chain F delta hmin a b l ->
  forall i, (S i < length l)%nat ->
    fst (nth i l (0,0)) < fst (nth (S i) l (0,0)) /\
    accepted F delta hmin (fst (nth i l (0,0))) (fst (nth (S i) l (0,0))).
Proof.
  induction 1 as [a|a b c l Hab Ha Hc IH]; intros i Hi; cbn in Hi; [lia|].
  destruct i.
  - destruct (chain_head _ _ _ _ _ _ Hc) as [r ->]. cbn. auto.
  - cbn [nth]. apply IH. lia.
Qed.

Section Fix.
Context (tol : R).
Notation K := (Rops tol).

Lemma zero_test (y : R) : (Rleb y 0 && Rleb 0 y = true)%bool <-> y = 0.
Proof.
  destruct (Rleb_spec y 0), (Rleb_spec 0 y); cbn; split; intros; try discriminate; lra.
Qed.

(** The recursion ends when the intervals have length [hmin] and its result is
    a chain of accepted intervals. *)
Lemma le_adapt_ok (F : R -> R) (delta hmin : R) (k fuel : nat) : 0 < hmin -> (k < fuel)%nat ->
  forall xl xr : R, xl < xr -> xr - xl <= hmin * 2 ^ k ->
  exists l, @le_adapt K fuel F xl (F xl) xr (F xr) delta hmin = Ok l /\ chain F delta hmin xl xr l.
Proof.
  intros Hh. revert fuel. induction k as [|k IH]; intros [|fuel] Hf xl xr Hx Hs; try lia; cbn [le_adapt]; unr.
  - destruct (Rleb_spec (xr - xl) hmin) as [H|H]; [|cbn in Hs; lra].
    eexists. split; [reflexivity|]. eapply chain_cons; [exact Hx|now left|constructor].
  - destruct (Rleb_spec (xr - xl) hmin) as [H|H].
    { eexists. split; [reflexivity|]. eapply chain_cons; [exact Hx|now left|constructor]. }
    assert (E2 : INR 2 = 2) by (cbn; lra). rewrite ?E2.
    set (mid := (xl + xr) / 2) in *.
    assert (Hm : xl < mid < xr) by (unfold mid; lra).
    match goal with |- context [if ?b00 then _ else _] => destruct b00 eqn:Et end.
    + apply andb_prop in Et as [Ez Ed]. apply Bool.negb_true_iff in Ez.
      assert (Hz : F mid <> 0) by (intros E; apply zero_test in E; congruence).
      destruct (Rltb_spec (Rabs ((F xl + F xr) / 2 - F mid) / Rabs (F mid)) delta) as [Hd|]; [|discriminate].
      eexists. split; [reflexivity|].
      eapply chain_cons; [apply Hm| |eapply chain_cons; [apply Hm| |constructor]];
        right; exists xl, xr; repeat match goal with |- _ /\ _ => split end; auto.
    + assert (Hs' : xr - xl <= 2 * (hmin * 2 ^ k)) by (cbn in Hs; lra).
      destruct (IH fuel ltac:(lia) xl mid) as (l & El & Cl); [lra|unfold mid; lra|].
      destruct (IH fuel ltac:(lia) mid xr) as (r & Er & Cr); [lra|unfold mid; lra|].
      unr. rewrite El. cbn [obind]. rewrite Er. cbn [obind]. eexists. split; [reflexivity|].
      eapply chain_app; eauto.
Qed.

Lemma pow2_big (h L : R) : 0 < h -> exists k, L <= h * 2 ^ k.
Proof.
  intros Hh. destruct (Pow_x_infinity 2) with (b := L / h) as [N HN].
  - rewrite Rabs_right; lra.
  - exists N. specialize (HN N (le_n _)). rewrite Rabs_right in HN by (apply Rle_ge, pow_le; lra).
    apply Rge_le in HN. apply Rmult_le_compat_l with (r := h) in HN; [|lra].
    replace (h * (L / h)) with L in HN by (field; lra). exact HN.
Qed.

(** No fuel is enough when [hmin] is not positive and the test never succeeds. *)
Lemma le_adapt_diverges (F : R -> R) (delta hmin : R) : hmin <= 0 -> (forall x, F x = 0) ->
  forall fuel (xl xr : R), xl < xr -> @le_adapt K fuel F xl (F xl) xr (F xr) delta hmin = OutOfFuel.
Proof.
  intros Hh HF. induction fuel as [|fuel IH]; intros xl xr Hx; cbn [le_adapt]; [reflexivity|]. unr.
  destruct (Rleb_spec (xr - xl) hmin) as [H|H]; [lra|].
  match goal with |- context [(Rleb ?y 0 && Rleb 0 ?y)%bool] =>
    assert (E : (Rleb y 0 && Rleb 0 y = true)%bool) by (apply zero_test; apply HF) end.
  rewrite E. cbn [negb andb]. rewrite IH by (cbn; lra). reflexivity.
Qed.

(** Points of a chain as a piecewise-linear function. *)
Lemma of_pairs_ok (F : R -> R) delta hmin a b l : a < b -> chain F delta hmin a b l ->
  let e := @of_pairs K l in
  valid tol e /\ nd (l_nodes e) 0 = a /\ nd (l_nodes e) (l_n e - 1) = b /\
  (forall i, (i < l_n e)%nat -> nd (l_coeff e) i = F (nd (l_nodes e) i)) /\
  (forall i, (S i < l_n e)%nat -> accepted F delta hmin (nd (l_nodes e) i) (nd (l_nodes e) (S i))).
Proof.
  intros Hab C e. unfold e, of_pairs. cbn [l_n l_nodes l_coeff].
  assert (Hfst : forall i, nd (map fst l) i = fst (nth i l (0, 0))).
  { intros i. unfold nd. now rewrite <- (map_nth fst l (0, 0)). }
  assert (Hsnd : forall i, nd (map snd l) i = snd (nth i l (0, 0))).
  { intros i. unfold nd. now rewrite <- (map_nth snd l (0, 0)). }
  destruct (chain_head _ _ _ _ _ _ C) as [r Er].
  assert (Hlen : (2 <= length l)%nat).
  { inversion C; subst; [lra|]. destruct (chain_head _ _ _ _ _ _ H1) as [r' ->]. cbn. lia. }
  repeat match goal with |- _ /\ _ => split end.
  - constructor; cbn [l_n l_nodes l_coeff]; unr; rewrite ?map_length; auto.
    intros i Hi. rewrite !Hfst. now apply (chain_step _ _ _ _ _ _ C).
  - unr. rewrite Hfst. now rewrite Er.
  - unr. rewrite Hfst. now rewrite (chain_last _ _ _ _ _ _ C).
  - intros i Hi. unr. rewrite Hfst, Hsnd. apply (chain_vals _ _ _ _ _ _ C). now apply nth_In.
  - intros i Hi. unr. rewrite !Hfst. now apply (chain_step _ _ _ _ _ _ C).
Qed.

(** The approximation without given nodes. *)
Lemma le_approx_none (o : laopts K) (F : R -> R) : o_adapt o = true -> o_nodes o = None ->
  0 < o_hmin o -> o_lb o < o_ub o ->
  exists N, forall fuel, (N <= fuel)%nat -> exists e, @le_approx K fuel o F = Ok e /\
    valid tol e /\ nd (l_nodes e) 0 = o_lb o /\ nd (l_nodes e) (l_n e - 1) = o_ub o /\
    (forall i, (i < l_n e)%nat -> nd (l_coeff e) i = F (nd (l_nodes e) i)) /\
    (forall i, (S i < l_n e)%nat -> accepted F (o_delta o) (o_hmin o) (nd (l_nodes e) i) (nd (l_nodes e) (S i))).
Proof.
  intros Ha En Hh Hb. unr. destruct (pow2_big (o_hmin o) (o_ub o - o_lb o) Hh) as [k Hk].
  exists (S k). intros fuel Hf.
  destruct (le_adapt_ok F (o_delta o) (o_hmin o) k fuel Hh ltac:(lia) (o_lb o) (o_ub o) Hb Hk) as (l & El & C).
  destruct (of_pairs_ok F _ _ _ _ l Hb C) as (V & H1 & H2 & H3 & H4).
  exists (@of_pairs K l). split; [|auto].
  unfold le_approx. rewrite Ha, En. cbn [negb]. unr. rewrite El. cbn [obind].
  pose proof (v_n _ _ V) as Hv. unfold of_pairs in *. cbn [l_n] in *. unr. destruct l; cbn in Hv |- *; [lia|reflexivity].
Qed.

(** With given nodes: the result refines every given cell. *)
Lemma le_approx_some (o : laopts K) (F : R -> R) (nodes : list R) : o_adapt o = true -> o_nodes o = Some nodes ->
  0 < o_hmin o -> (2 <= o_n o)%nat -> (o_n o <= length nodes)%nat -> sinc (o_n o) nodes ->
  exists N, forall fuel, (N <= fuel)%nat -> exists e, @le_approx K fuel o F = Ok e /\
    valid tol e /\ nd (l_nodes e) 0 = nd nodes 0 /\ nd (l_nodes e) (l_n e - 1) = nd nodes (o_n o - 1) /\
    (forall i, (i < l_n e)%nat -> nd (l_coeff e) i = F (nd (l_nodes e) i)) /\
    (forall i, (S i < l_n e)%nat -> accepted F (o_delta o) (o_hmin o) (nd (l_nodes e) i) (nd (l_nodes e) (S i))) /\
    (forall j, (j < o_n o)%nat -> exists i, (i < l_n e)%nat /\ nd (l_nodes e) i = nd nodes j).
Proof.
  intros Ha En Hh Hn Hl Hs. unr. destruct (pow2_big (o_hmin o) (nd nodes (o_n o - 1) - nd nodes 0) Hh) as [k Hk].
  exists (S k). intros fuel Hf.
  assert (Hcell : forall j, (S j < o_n o)%nat ->
    exists l, @le_adapt K fuel F (nd nodes j) (F (nd nodes j)) (nd nodes (S j)) (F (nd nodes (S j))) (o_delta o) (o_hmin o) = Ok l /\
      chain F (o_delta o) (o_hmin o) (nd nodes j) (nd nodes (S j)) l).
  { intros j Hj. apply le_adapt_ok with k; auto. 
    assert (nd nodes 0 <= nd nodes j) by (apply sinc_le with (o_n o); auto; lia).
    assert (nd nodes (S j) <= nd nodes (o_n o - 1)) by (apply sinc_le with (o_n o); auto; lia). lra. }
  assert (Hr : exists l, @le_approx K fuel o F = (do _ <- cassert (negb (length l =? 0)); Ok (@of_pairs K l)) /\ 
     chain F (o_delta o) (o_hmin o) (nd nodes 0) (nd nodes (o_n o - 1)) l /\
     forall j, (j < o_n o)%nat -> In (nd nodes j, F (nd nodes j)) l).
  { unfold le_approx. rewrite Ha, En. cbn [negb].
    assert (E1 : (1 <? o_n o)%nat = true) by (apply Nat.ltb_lt; lia). rewrite E1. cbn [cassert obind].
    rewrite !(aget_nd nodes) by lia. cbn [obind].
    destruct (Hcell 0%nat ltac:(lia)) as (l0 & E0 & C0). unr. rewrite E0. cbn [obind].
    match goal with |- context [for_from 2 (o_n o - 2) ?b00 ?s00] =>
      destruct (for_from_inv (fun i (r : R * R * list (R * R)) => 
         exists l, r = (nd nodes (i - 1), F (nd nodes (i - 1)), l) /\
           chain F (o_delta o) (o_hmin o) (nd nodes 0) (nd nodes (i - 1)) l /\
           forall j, (j < i)%nat -> In (nd nodes j, F (nd nodes j)) l) b00 2 (o_n o - 2) s00) as (r & Er & l & -> & Cl & Hin) end.
    - exists l0. split; [reflexivity|]. split; [exact C0|]. intros j Hj.
      destruct (chain_in _ _ _ _ _ _ C0). destruct j as [|[|j]]; auto. lia.
    - intros i r Hi (l & -> & Cl & Hin). cbv beta iota. rewrite (aget_nd nodes) by lia. cbn [obind].
      destruct (Hcell (i - 1)%nat ltac:(lia)) as (t & Et & Ct). replace (S (i - 1)) with i in * by lia.
      unr. rewrite Et. cbn [obind]. eexists. split; [reflexivity|].
      replace (S i - 1)%nat with i by lia. eexists. split; [reflexivity|]. 
      assert (CC : chain F (o_delta o) (o_hmin o) (nd nodes 0) (nd nodes i) (l ++ tl t)) by (eapply chain_app; eauto).
      split; auto. intros j Hj. destruct (Nat.eq_dec j i) as [->|N].
      + apply (chain_in _ _ _ _ _ _ CC).
      + apply in_or_app. left. apply Hin. lia.
    - replace (2 + (o_n o - 2) - 1)%nat with (o_n o - 1)%nat in * by lia.
      rewrite Er. cbn [obind snd]. exists l. split; [reflexivity|]. split; auto. intros j Hj. apply Hin. lia. }
  destruct Hr as (l & El & C & Hin).
  assert (Hb : nd nodes 0 < nd nodes (o_n o - 1)) by (apply sinc_lt with (o_n o); auto; lia).
  destruct (of_pairs_ok F _ _ _ _ l Hb C) as (V & H1 & H2 & H3 & H4).
  exists (@of_pairs K l). split; [|repeat match goal with |- _ /\ _ => split end; auto].
  - rewrite El. pose proof (v_n _ _ V) as Hv. unfold of_pairs in *. cbn [l_n] in *. unr. destruct l; cbn in Hv |- *; [lia|reflexivity].
  - intros j Hj. specialize (Hin j Hj). apply (In_nth _ _ (0, 0)) in Hin as (i & Hi & E).
    exists i. split; auto. unfold of_pairs. cbn [l_nodes]. unr. unfold nd.
    change 0 with (fst (0, 0)) at 1. rewrite map_nth, E. reflexivity.
Qed.

End Fix.
