(** Facts about the piecewise-constant functions. *)
From Verif Require Import Base BaseFacts FOps LinElmModel ConstElmModel LinElmSpec LinElmFacts LinElmMerge LinElmArith LinElmInt LinElmGrad RIntLib.
From Coq Require Import Reals Lra.
Local Open Scope R_scope.

Lemma Step_fun n xs ys x y y' : Step n xs ys x y -> Step n xs ys x y' -> y = y'.
Proof.
  intros (k & N & M & ->) (k' & N' & M' & ->). f_equal. specialize (M _ N'). specialize (M' _ N). lia.
Qed.

(** The nearest node of a point of a cell (or beyond the first or last). *)
Lemma nearest_cell n xs x i : sinc n xs -> (S i < n)%nat ->
  (i = 0%nat \/ nd xs i <= x) -> (S i = (n - 1)%nat \/ x <= nd xs (S i)) ->
  forall k, k = (if Rlt_dec (x - nd xs i) (nd xs (S i) - x) then i else S i) ->
  Nearest n xs x k /\ forall j, Nearest n xs x j -> (j <= k)%nat.
Proof.
  intros Hs Hi Hl Hr k ->. pose proof (Hs i Hi) as Hc.
  assert (Lo : forall j, (j < i)%nat -> nd xs j < nd xs i /\ nd xs i <= x).
  { intros j Hj. split; [apply sinc_lt with n; auto; lia|]. destruct Hl; [lia|auto]. }
  assert (Hiq : forall j, (S i < j < n)%nat -> nd xs (S i) < nd xs j /\ x <= nd xs (S i)).
  { intros j Hj. split; [apply sinc_lt with n; auto; lia|]. destruct Hr; [lia|auto]. }
  assert (Cs : forall j, (j < n)%nat -> (j < i \/ j = i \/ j = S i \/ S i < j < n)%nat) by (intros; lia).
  destruct (Rlt_dec (x - nd xs i) (nd xs (S i) - x)) as [L|L].
  - assert (D : forall j, (j < n)%nat -> j = i \/ Rabs (x - nd xs i) < Rabs (x - nd xs j)).
    { intros j Hj. destruct (Cs j Hj) as [H|[H|[H|H]]]; [right|now left|right; subst j|right].
      - destruct (Lo j H). rewrite !Rabs_pos_eq by lra. lra.
      - rewrite (Rabs_left1 (x - nd xs (S i))) by lra. apply Rabs_def1; lra.
      - destruct (Hiq j H). rewrite (Rabs_left1 (x - nd xs j)) by lra. apply Rabs_def1; lra. }
    split.
    + split; [lia|]. intros j Hj. destruct (D j Hj) as [->|]; lra.
    + intros j [Hj Nj]. destruct (D j Hj) as [->|H]; [lia|]. specialize (Nj i ltac:(lia)). lra.
  - assert (D : forall j, (j < n)%nat -> j = i \/ j = S i \/ Rabs (x - nd xs (S i)) < Rabs (x - nd xs j)).
    { intros j Hj. destruct (Cs j Hj) as [H|[H|[H|H]]]; [right; right|now left|right; now left|right; right].
      - destruct (Lo j H). rewrite (Rabs_pos_eq (x - nd xs j)) by lra. apply Rabs_def1; lra.
      - destruct (Hiq j H). rewrite !Rabs_left1 by lra. lra. }
    split.
    + split; [lia|]. intros j Hj. destruct (D j Hj) as [->|[->|]]; try lra.
      destruct (Rle_dec 0 (x - nd xs i)).
      * rewrite (Rabs_pos_eq (x - nd xs i)) by lra. apply Rabs_le. lra.
      * lra.
    + intros j [Hj Nj]. destruct (D j Hj) as [->|[->|H]]; [lia|lia|]. specialize (Nj (S i) ltac:(lia)). lra.
Qed.

Section Fix.
Context (tol : R).
Notation K := (Rops tol).
Notation lexpR := (lexp K).
Notation St f := (Step (l_n f) (l_nodes f) (l_coeff f)).

Lemma ce_find_node_ok (f : lexpR) (x : R) : 0 <= tol -> valid tol f -> spaced (2 * tol) (l_n f) (l_nodes f) ->
  exists k, @ce_find_node K f x = Ok k /\ Nearest (l_n f) (l_nodes f) x k /\
    (forall j, Nearest (l_n f) (l_nodes f) x j -> (j <= k)%nat).
Proof.
  intros Ht V S. pose proof V as [Hn Hl Hc Hs]. unr. unfold ce_find_node.
  destruct (Nat.eqb_spec (l_n f) 0) as [|_]; [lia|].
  destruct (fi_spec tol (l_nodes f) x (l_n f) 0 (l_n f - 1)) as (e & i & E & Hi & He & Hne); try lia.
  setoid_rewrite E. cbn [obind]. destruct e.
  - exists i. split; [reflexivity|]. specialize (He eq_refl).
    assert (D : forall j, (j < l_n f)%nat -> j = i \/ Rabs (x - nd (l_nodes f) i) < Rabs (x - nd (l_nodes f) j)).
    { intros j Hj. destruct (Nat.eq_dec j i) as [|N]; [now left|right].
      apply Rnot_le_lt. intros L. apply N. apply (spaced_far (2 * tol) (l_n f) (l_nodes f)); auto; try lra; try lia.
      replace (nd (l_nodes f) j - nd (l_nodes f) i) with ((x - nd (l_nodes f) i) - (x - nd (l_nodes f) j)) by ring.
      eapply Rle_trans; [apply Rabs_triang|]. rewrite Rabs_Ropp. lra. }
    split.
    + split; [lia|]. intros j Hj. destruct (D j Hj) as [->|]; lra.
    + intros j [Hj Nj]. destruct (D j Hj) as [->|H]; [lia|]. specialize (Nj i ltac:(lia)). lra.
  - destruct (Hne eq_refl) as [H1 H2]. rewrite !(aget_nd (l_nodes f)) by lia. cbn [obind]. unr.
    replace (i + 1)%nat with (Datatypes.S i) by lia.
    eexists. split; [|apply nearest_cell with i; auto; [lia|destruct H2; [now left|right; lra]]].
    destruct (Rltb_spec (x - nd (l_nodes f) i) (nd (l_nodes f) (Datatypes.S i) - x)) as [L|L];
      destruct (Rlt_dec (x - nd (l_nodes f) i) (nd (l_nodes f) (Datatypes.S i) - x)); try lra; reflexivity.
Qed.

Lemma ce_eval_out (f : lexpR) (x : R) : valid tol f -> x < nd (l_nodes f) 0 \/ nd (l_nodes f) (l_n f - 1) < x ->
  @ce_eval K f x = Ok 0.
Proof.
  intros [Hn Hl Hc Hs] Hx. unfold ce_eval.
  rewrite !(aget_nd (l_nodes f)) by rlia. cbn [obind]. unr.
  destruct (Rltb_spec x (nd (l_nodes f) 0)); [reflexivity|].
  destruct (Rltb_spec (nd (l_nodes f) (l_n f - 1)) x); [reflexivity|]. lra.
Qed.

Lemma ce_eval_in (f : lexpR) (x : R) : 0 <= tol -> valid tol f -> spaced (2 * tol) (l_n f) (l_nodes f) ->
  nd (l_nodes f) 0 <= x <= nd (l_nodes f) (l_n f - 1) ->
  exists v, @ce_eval K f x = Ok v /\ St f x v.
Proof.
  intros Ht V S Hx. pose proof V as [Hn Hl Hc Hs]. unfold ce_eval.
  rewrite !(aget_nd (l_nodes f)) by rlia. cbn [obind]. unr.
  destruct (Rltb_spec x (nd (l_nodes f) 0)); [lra|].
  destruct (Rltb_spec (nd (l_nodes f) (l_n f - 1)) x); [lra|]. cbn [orb].
  destruct (ce_find_node_ok f x Ht V S) as (k & E & N & M). setoid_rewrite E. cbn [obind].
  pose proof (proj1 N). rewrite (aget_nd (l_coeff f)) by lia. eexists. split; [reflexivity|]. exists k. auto.
Qed.

Lemma nearest_node n xs k : sinc n xs -> (k < n)%nat -> forall j, Nearest n xs (nd xs k) j <-> j = k.
Proof.
  intros Hs Hk j. split.
  - intros [Hj N]. specialize (N k Hk). rewrite (Rminus_diag_eq (nd xs k) (nd xs k)), Rabs_R0 in N by reflexivity.
    destruct (Req_dec (nd xs k - nd xs j) 0) as [E|E].
    + apply (sinc_inj n xs); auto. lra.
    + apply Rabs_pos_lt in E. lra.
  - intros ->. split; auto. intros j Hj. rewrite (Rminus_diag_eq (nd xs k) (nd xs k)), Rabs_R0 by reflexivity. apply Rabs_pos.
Qed.

Lemma Step_node n xs ys k : sinc n xs -> (k < n)%nat -> Step n xs ys (nd xs k) (nd ys k).
Proof.
  intros Hs Hk. exists k. split; [now apply nearest_node|]. split; auto.
  intros j N. apply nearest_node in N; auto. lia.
Qed.

(** ** Integrals *)
Lemma step_left n xs ys i x y : sinc n xs -> (S i < n)%nat -> nd xs i < x < (nd xs i + nd xs (S i)) / 2 ->
  Step n xs ys x y -> y = nd ys i.
Proof.
  intros Hs Hi Hx H. apply (Step_fun n xs ys x); auto. exists i.
  destruct (nearest_cell n xs x i Hs Hi) with (k := i); auto; try (right; lra).
  destruct (Rlt_dec (x - nd xs i) (nd xs (S i) - x)); [auto|lra].
Qed.
Lemma step_right n xs ys i x y : sinc n xs -> (S i < n)%nat -> (nd xs i + nd xs (S i)) / 2 < x < nd xs (S i) ->
  Step n xs ys x y -> y = nd ys (S i).
Proof.
  intros Hs Hi Hx H. apply (Step_fun n xs ys x); auto. exists (S i).
  pose proof (Hs i Hi).
  destruct (nearest_cell n xs x i Hs Hi) with (k := S i); auto; try (right; lra).
  destruct (Rlt_dec (x - nd xs i) (nd xs (S i) - x)); [lra|auto].
Qed.

(** The area under a step function given on the half cells. *)
Lemma step_RInt (xs ys : list R) (h : R -> R) n : (1 <= n)%nat -> sinc n xs ->
  (forall i x, (S i < n)%nat -> nd xs i < x < (nd xs i + nd xs (S i)) / 2 -> h x = nd ys i) ->
  (forall i x, (S i < n)%nat -> (nd xs i + nd xs (S i)) / 2 < x < nd xs (S i) -> h x = nd ys (S i)) ->
  is_RInt h (nd xs 0) (nd xs (n - 1)) (trap n (nd xs) (nd ys)).
Proof.
  intros Hn Hs. destruct n as [|n]; [lia|]. clear Hn. replace (S n - 1)%nat with n by lia.
  induction n as [|n IH]; intros Ha Hb; [apply is_RInt_point|].
  rewrite trap_SS. apply is_RInt_chasles with (nd xs n).
  - apply IH; [intros i Hi; apply Hs; lia| |]; intros i x Hi; [apply Ha|apply Hb]; lia.
  - assert (Hlt : nd xs n < nd xs (S n)) by (apply Hs; lia).
    set (m := (nd xs n + nd xs (S n)) / 2).
    replace ((nd ys n + nd ys (S n)) / 2 * (nd xs (S n) - nd xs n))
      with (nd ys n * (m - nd xs n) + nd ys (S n) * (nd xs (S n) - m)) by (unfold m; field).
    apply is_RInt_chasles with m.
    + apply is_RInt_ext with (fun _ => nd ys n); [unfold m; lra| |apply is_RInt_const].
      intros x Hx. symmetry. apply Ha; [lia|exact Hx].
    + apply is_RInt_ext with (fun _ => nd ys (S n)); [unfold m; lra| |apply is_RInt_const].
      intros x Hx. symmetry. apply Hb; [lia|exact Hx].
Qed.

Lemma ce_integrate_trap (f : lexpR) : (2 <= l_n f)%nat -> (l_n f <= length (l_nodes f))%nat ->
  (l_n f <= length (l_coeff f))%nat ->
  @ce_integrate K f = Ok (trap (l_n f) (nd (l_nodes f)) (nd (l_coeff f))).
Proof.
  intros Hn Hl Hc. destruct f as [n xs cs]. cbn [l_n l_nodes l_coeff] in *. unr.
  unfold ce_integrate. cbn [l_n l_nodes l_coeff].
  destruct (Nat.ltb_spec 1 n) as [_|]; [|lia]. cbn [cassert obind].
  rewrite !(aget_nd xs) by lia. rewrite !(aget_nd cs) by lia. cbn [obind]. unr.
  match goal with |- context [for_from 1 (n - 2) ?b00 ?s00] =>
    destruct (for_from_inv (fun m (r : R * R) => fst r = (nd xs m - nd xs (m - 1)) / 2 /\
       snd r = trap m (nd xs) (nd cs) + nd cs (m - 1) * ((nd xs m - nd xs (m - 1)) / 2))
      b00 1 (n - 2) s00) as (v & E & Hv1 & Hv) end.
  - cbn [trap Nat.sub fst snd]. replace (INR 2) with 2 by (cbn; lra). split; [reflexivity|ring].
  - intros i [dx v] Hi [Hd Hv]. cbn [fst snd] in *. rewrite !(aget_nd xs) by lia. rewrite !(aget_nd cs) by lia. cbn [obind].
    eexists. split; [reflexivity|]. cbn [fst snd]. rewrite Hv, Hd. destruct i as [|i]; [lia|].
    replace (S i - 1)%nat with i by lia. replace (S (S i) - 1)%nat with (S i) by lia.
    replace (S i + 1)%nat with (S (S i)) by lia. rewrite trap_SS. replace (INR 2) with 2 by (cbn; lra). split; field.
  - rewrite E. cbn [obind]. f_equal. rewrite Hv. replace (1 + (n - 2))%nat with (n - 1)%nat by lia.
    destruct n as [|[|n]]; try lia. replace (S (S n) - 1)%nat with (S n) by lia. replace (S (S n) - 2)%nat with n by lia.
    replace (S n - 1)%nat with n by lia. rewrite trap_SS. replace (INR 2) with 2 by (cbn; lra). field.
Qed.

Theorem ce_integrate_exact (f : lexpR) (h : R -> R) : valid tol f ->
  (forall x, nd (l_nodes f) 0 <= x <= nd (l_nodes f) (l_n f - 1) -> St f x (h x)) ->
  exists v, @ce_integrate K f = Ok v /\ is_RInt h (nd (l_nodes f) 0) (nd (l_nodes f) (l_n f - 1)) v.
Proof.
  intros V Hh. pose proof V as [Hn Hl Hc Hs]. unr. rewrite ce_integrate_trap by rlia.
  eexists. split; [reflexivity|]. 
  assert (Hin : forall i x, (S i < l_n f)%nat -> nd (l_nodes f) i < x < nd (l_nodes f) (S i) ->
     nd (l_nodes f) 0 <= x <= nd (l_nodes f) (l_n f - 1)).
  { intros i x Hi Hx. assert (nd (l_nodes f) 0 <= nd (l_nodes f) i) by (apply sinc_le with (l_n f); auto; lia).
    assert (nd (l_nodes f) (S i) <= nd (l_nodes f) (l_n f - 1)) by (apply sinc_le with (l_n f); auto; lia). lra. }
  apply step_RInt; auto; [lia| |]; intros i x Hi Hx; pose proof (Hs i Hi).
  - apply (step_left (l_n f) (l_nodes f) (l_coeff f) i x); auto. apply Hh, (Hin i); auto. lra.
  - apply (step_right (l_n f) (l_nodes f) (l_coeff f) i x); auto. apply Hh, (Hin i); auto. lra.
Qed.

Lemma ce_inner_same_trap n (xs fs gs : list R) : (2 <= n)%nat -> (n <= length xs)%nat ->
  (n <= length fs)%nat -> (n <= length gs)%nat ->
  @ce_inner_same K n xs fs gs = Ok (trap n (nd xs) (fun i => nd fs i * nd gs i)).
Proof.
  intros Hn Hl Hf Hg. unfold ce_inner_same. destruct (Nat.ltb_spec n 2) as [|_]; [lia|].
  rewrite !(aget_nd xs), !(aget_nd fs), !(aget_nd gs) by lia. cbn [obind]. unr.
  match goal with |- context [for_from 1 (n - 2) ?b00 ?s00] =>
    destruct (for_from_inv (fun m (r : R * R) => fst r = (nd xs m - nd xs (m - 1)) / 2 /\
      snd r = trap m (nd xs) (fun i => nd fs i * nd gs i)
        + nd fs (m - 1) * nd gs (m - 1) * ((nd xs m - nd xs (m - 1)) / 2))
      b00 1 (n - 2) s00) as (v & E & Hv1 & Hv) end.
  - cbn [trap Nat.sub fst snd]. replace (INR 2) with 2 by (cbn; lra). split; [reflexivity|ring].
  - intros i [dx v] Hi [Hd Hv]. cbn [fst snd] in *. rewrite !(aget_nd xs), !(aget_nd fs), !(aget_nd gs) by lia. cbn [obind].
    eexists. split; [reflexivity|]. cbn [fst snd]. rewrite Hv, Hd. destruct i as [|i]; [lia|].
    replace (S i - 1)%nat with i by lia. replace (S (S i) - 1)%nat with (S i) by lia.
    replace (S i + 1)%nat with (S (S i)) by lia. rewrite trap_SS. replace (INR 2) with 2 by (cbn; lra). split; field.
  - rewrite E. cbn [obind]. f_equal. rewrite Hv. replace (1 + (n - 2))%nat with (n - 1)%nat by lia.
    destruct n as [|[|n]]; try lia. replace (S (S n) - 1)%nat with (S n) by lia. replace (S (S n) - 2)%nat with n by lia.
    replace (S n - 1)%nat with n by lia. rewrite trap_SS. replace (INR 2) with 2 by (cbn; lra). field.
Qed.

(** Two functions on one grid. *)
Definition same_grid (f g : lexpR) : Prop :=
  l_n f = l_n g /\ forall i, (i < l_n f)%nat -> nd (l_nodes f) i = nd (l_nodes g) i.

Lemma same_grid_sdiscp (f g : lexpR) : 0 <= tol -> valid tol f -> valid tol g -> same_grid f g -> @le_sdiscp K f g = Ok true.
Proof.
  intros Ht Vf Vg [En Hn]. pose proof Vf as [Nf Lf Cf If]. pose proof Vg as [Ng Lg Cg Ig]. unr.
  destruct (sdiscp_spec tol (l_n f) (l_n g) (l_nodes f) (l_nodes g) Lf Lg) as (b & Eb & Hb).
  unfold le_sdiscp. setoid_rewrite Eb. f_equal. apply Hb. split; auto. intros i Hi.
  rewrite Rminus_diag_eq, Rabs_R0 by auto. auto.
Qed.

Lemma Nearest_ext n xs xs' x k : (forall i, (i < n)%nat -> nd xs i = nd xs' i) -> Nearest n xs x k -> Nearest n xs' x k.
Proof. intros H [Hk N]. split; auto. intros j Hj. rewrite <- !H by auto. auto. Qed.
Lemma Step_ext n xs xs' ys ys' x y : (forall i, (i < n)%nat -> nd xs i = nd xs' i) -> (forall i, (i < n)%nat -> nd ys i = nd ys' i) ->
  Step n xs ys x y -> Step n xs' ys' x y.
Proof.
  intros H H' (k & N & M & ->). exists k. split; [eapply Nearest_ext; eauto|]. split; [|apply H', N].
  intros j Nj. apply M. eapply Nearest_ext; [|exact Nj]. intros; symmetry; auto.
Qed.

Theorem ce_inner_exact (f g : lexpR) (hf hg : R -> R) : 0 <= tol -> valid tol f -> valid tol g -> same_grid f g ->
  (forall x, nd (l_nodes f) 0 <= x <= nd (l_nodes f) (l_n f - 1) -> St f x (hf x)) ->
  (forall x, nd (l_nodes g) 0 <= x <= nd (l_nodes g) (l_n g - 1) -> St g x (hg x)) ->
  exists v, @ce_inner K f g = Ok v /\
    is_RInt (fun x => hf x * hg x) (nd (l_nodes f) 0) (nd (l_nodes f) (l_n f - 1)) v.
Proof.
  intros Ht Vf Vg G Hf Hg. pose proof Vf as [Nf Lf Cf If]. pose proof Vg as [Ng Lg Cg Ig].
  unfold ce_inner. setoid_rewrite (same_grid_sdiscp f g Ht Vf Vg G). cbn [obind].
  destruct G as [En Hn]. unr. rewrite (ce_inner_same_trap (l_n f)) by lia. eexists. split; [reflexivity|].
  set (ys := map (fun i => nd (l_coeff f) i * nd (l_coeff g) i) (seq 0 (l_n f))).
  assert (Hys : forall i, (i < l_n f)%nat -> nd ys i = nd (l_coeff f) i * nd (l_coeff g) i).
  { intros i Hi. unfold ys, nd at 1. 
    rewrite (nth_indep _ 0 (nd (l_coeff f) 0 * nd (l_coeff g) 0)) by (rewrite map_length, seq_length; auto).
    rewrite (map_nth (fun i => nd (l_coeff f) i * nd (l_coeff g) i)), seq_nth by auto. reflexivity. }
  rewrite (trap_ext (l_n f) (nd (l_nodes f)) _ (nd (l_nodes f)) (nd ys)) by (auto; intros; symmetry; auto).
  assert (Hin : forall i x, (S i < l_n f)%nat -> nd (l_nodes f) i < x < nd (l_nodes f) (S i) ->
     nd (l_nodes f) 0 <= x <= nd (l_nodes f) (l_n f - 1)).
  { intros i x Hi Hx. assert (nd (l_nodes f) 0 <= nd (l_nodes f) i) by (apply sinc_le with (l_n f); auto; lia).
    assert (nd (l_nodes f) (S i) <= nd (l_nodes f) (l_n f - 1)) by (apply sinc_le with (l_n f); auto; lia). lra. }
  assert (Hg' : forall x, nd (l_nodes f) 0 <= x <= nd (l_nodes f) (l_n f - 1) -> Step (l_n f) (l_nodes f) (l_coeff g) x (hg x)).
  { intros x Hx. rewrite !Hn in Hx by lia. apply Step_ext with (l_nodes g) (l_coeff g); auto.
    - intros; symmetry; auto.
    - rewrite En in Hx |- *. auto. }
  apply step_RInt; auto; [lia| |]; intros i x Hi Hx; pose proof (Hs := If i Hi); rewrite Hys by lia.
  - assert (Hx' := Hin i x Hi ltac:(lra)).
    rewrite (step_left (l_n f) (l_nodes f) (l_coeff f) i x (hf x)) by auto.
    rewrite (step_left (l_n f) (l_nodes f) (l_coeff g) i x (hg x)) by auto. reflexivity.
  - assert (Hx' := Hin i x Hi ltac:(lra)).
    rewrite (step_right (l_n f) (l_nodes f) (l_coeff f) i x (hf x)) by auto.
    rewrite (step_right (l_n f) (l_nodes f) (l_coeff g) i x (hg x)) by auto. reflexivity.
Qed.

(** Sums and products on one grid, at every point of the real line. *)
Lemma ce_eval_pointwise (f g h : lexpR) (x : R) (op : R -> R -> R) : 0 <= tol -> valid tol f -> valid tol g -> valid tol h ->
  spaced (2 * tol) (l_n f) (l_nodes f) ->
  same_grid f g -> same_grid f h -> op 0 0 = 0 ->
  (forall i, (i < l_n f)%nat -> nd (l_coeff h) i = op (nd (l_coeff f) i) (nd (l_coeff g) i)) ->
  exists u v, @ce_eval K f x = Ok u /\ @ce_eval K g x = Ok v /\ @ce_eval K h x = Ok (op u v).
Proof.
  intros Ht Vf Vg Vh Sf [En Hn] [Em Hm] H0 Hop. pose proof Vf as [Nf Lf Cf If].
  assert (Sg : spaced (2 * tol) (l_n g) (l_nodes g)).
  { intros i Hi. rewrite <- !Hn by lia. apply Sf. lia. }
  assert (Sh : spaced (2 * tol) (l_n h) (l_nodes h)).
  { intros i Hi. rewrite <- !Hm by lia. apply Sf. lia. }
  destruct (Rlt_dec x (nd (l_nodes f) 0)) as [L|L]; [|destruct (Rlt_dec (nd (l_nodes f) (l_n f - 1)) x) as [L'|L']].
  - exists 0, 0. rewrite H0. repeat split; apply ce_eval_out; auto; left; [rewrite <- Hn|rewrite <- Hm]; auto; lia.
  - exists 0, 0. rewrite H0. repeat split; apply ce_eval_out; auto; right;
      [rewrite <- En, <- Hn|rewrite <- Em, <- Hm]; auto; lia.
  - destruct (ce_eval_in f x Ht Vf Sf) as (u & Eu & Hu); [lra|].
    destruct (ce_eval_in g x Ht Vg Sg) as (v & Ev & Hv); [rewrite <- En, <- !Hn by lia; lra|].
    destruct (ce_eval_in h x Ht Vh Sh) as (w & Ew & Hw); [rewrite <- Em, <- !Hm by lia; lra|].
    exists u, v. repeat split; auto. rewrite Ew. f_equal.
    destruct Hu as (k & N & M & ->).
    rewrite <- En in Hv. rewrite <- Em in Hw.
    apply (Step_fun (l_n f) (l_nodes h) (l_coeff h) x); auto.
    assert (Ev' : v = nd (l_coeff g) k).
    { apply (Step_fun (l_n f) (l_nodes g) (l_coeff g) x); auto. exists k. split; [eapply Nearest_ext; eauto|]. split; auto.
      intros j Nj. apply M. eapply Nearest_ext; [|exact Nj]. intros; symmetry; auto. }
    rewrite Ev', <- Hop by apply N.
    exists k. split; [eapply Nearest_ext; eauto|]. split; auto.
    intros j Nj. apply M. eapply Nearest_ext; [|exact Nj]. intros; symmetry; auto.
Qed.

Theorem ce_axpy_same (a : R) (f g : lexpR) : 0 <= tol -> valid tol f -> valid tol g ->
  spaced (2 * tol) (l_n f) (l_nodes f) -> same_grid f g ->
  exists h, @ce_axpy K a f g = Ok h /\ valid tol h /\ same_grid g h /\
   forall x, exists u v, @ce_eval K f x = Ok u /\ @ce_eval K g x = Ok v /\ @ce_eval K h x = Ok (a * u + v).
Proof.
  intros Ht Vf Vg Sf G. pose proof Vf as [Nf Lf Cf If]. pose proof Vg as [Ng Lg Cg Ig].
  unfold ce_axpy. setoid_rewrite (same_grid_sdiscp f g Ht Vf Vg G). cbn [obind]. pose proof G as [En Hn]. unr.
  destruct (daxpy1_ok tol (l_n g) a (l_coeff f) (l_coeff g)) as (c & E & Lc & Hc & _); try lia.
  setoid_rewrite E. cbn [obind]. eexists. split; [reflexivity|].
  assert (Vh : valid tol (mkL (l_n g) (l_nodes g) c : lexpR)).
  { constructor; cbn; auto. unr. lia. }
  split; auto. split; [split; cbn; auto|]. intros x.
  apply (ce_eval_pointwise f g (mkL (l_n g) (l_nodes g) c) x (fun u v => a * u + v)); auto.
  - cbn. ring.
  - cbn [l_coeff]. intros i Hi. apply Hc. lia.
Qed.

Theorem ce_prod_same (f g : lexpR) : 0 <= tol -> valid tol f -> valid tol g ->
  spaced (2 * tol) (l_n f) (l_nodes f) -> same_grid f g ->
  exists h, @ce_prod K f g = Ok h /\ valid tol h /\ same_grid f h /\
   forall x, exists u v, @ce_eval K f x = Ok u /\ @ce_eval K g x = Ok v /\ @ce_eval K h x = Ok (u * v).
Proof.
  intros Ht Vf Vg Sf G. pose proof Vf as [Nf Lf Cf If]. pose proof Vg as [Ng Lg Cg Ig].
  unfold ce_prod. setoid_rewrite (same_grid_sdiscp f g Ht Vf Vg G). cbn [obind]. pose proof G as [En Hn]. unr.
  match goal with |- context [for_ (l_n f) ?b00 (l_coeff f)] =>
    destruct (for_upd (l_n f) (fun i v => v * nd (l_coeff g) i) (l_coeff f) b00) as (c & E & Lc & Hc & _) end; try lia.
  { intros i c Hi Hl E. rewrite (aget_nd c), (aget_nd (l_coeff g)) by lia. cbn [obind]. rewrite E. apply aset_ok. lia. }
  setoid_rewrite E. cbn [obind]. eexists. split; [reflexivity|].
  assert (Vh : valid tol (mkL (l_n f) (l_nodes f) c : lexpR)).
  { constructor; cbn; auto. unr. lia. }
  split; auto. split; [split; cbn; auto|]. intros x.
  apply (ce_eval_pointwise f g (mkL (l_n f) (l_nodes f) c) x (fun u v => u * v)); auto.
  - split; auto.
  - ring.
Qed.

(** Products on different grids stop the program. *)
Theorem ce_prod_diff (f g : lexpR) : valid tol f -> valid tol g ->
  (l_n f <> l_n g \/ exists i, (i < l_n f)%nat /\ tol < Rabs (nd (l_nodes f) i - nd (l_nodes g) i)) ->
  @ce_prod K f g = Abort.
Proof.
  intros Vf Vg D. pose proof Vf as [Nf Lf Cf If]. pose proof Vg as [Ng Lg Cg Ig]. unr.
  destruct (sdiscp_spec tol (l_n f) (l_n g) (l_nodes f) (l_nodes g) Lf Lg) as (b & Eb & Hb).
  unfold ce_prod, le_sdiscp. setoid_rewrite Eb. cbn [obind]. destruct b; [exfalso|reflexivity].
  destruct Hb as [Hb _]. destruct (Hb eq_refl) as [En Hn]. destruct D as [D|(i & Hi & D)]; [lia|].
  specialize (Hn i Hi). lra.
Qed.

(** Disjoint domains: the inner product reads outside its arrays. *)
Theorem ce_inner_disjoint (f g : lexpR) : 0 <= tol -> valid tol f -> valid tol g ->
  nd (l_nodes f) (l_n f - 1) + tol < nd (l_nodes g) 0 ->
  @ce_inner K f g = UB.
Proof.
  intros Ht Vf Vg Hd. pose proof Vf as [Nf Lf Cf If]. pose proof Vg as [Ng Lg Cg Ig]. unr.
  assert (nd (l_nodes f) 0 < nd (l_nodes f) (l_n f - 1)) by (apply sinc_lt with (l_n f); auto; lia).
  assert (nd (l_nodes g) 0 < nd (l_nodes g) (l_n g - 1)) by (apply sinc_lt with (l_n g); auto; lia).
  unfold ce_inner.
  destruct (sdiscp_spec tol (l_n f) (l_n g) (l_nodes f) (l_nodes g) Lf Lg) as (b & Eb & Hb).
  unfold le_sdiscp. setoid_rewrite Eb. cbn [obind]. destruct b.
  - exfalso. destruct Hb as [Hb _]. destruct (Hb eq_refl) as [En Hn]. specialize (Hn 0%nat ltac:(lia)).
    rewrite Rabs_minus_sym, Rabs_pos_eq in Hn by lra. lra.
  - assert (E : @ce_same_interp K f g (l_n f + l_n g) = Ok (0%nat, repeat 0 (l_n f + l_n g), repeat 0 (l_n f + l_n g), repeat 0 (l_n f + l_n g))).
    { unfold ce_same_interp. unr. rewrite !(aget_nd (l_nodes f)), !(aget_nd (l_nodes g)) by lia. cbn [obind]. unr.
      destruct (Rltb_spec (nd (l_nodes g) (l_n g - 1)) (nd (l_nodes f) 0)); [lra|].
      destruct (Rltb_spec (nd (l_nodes f) (l_n f - 1)) (nd (l_nodes g) 0)); [reflexivity|lra]. }
    setoid_rewrite E. cbn [obind]. reflexivity.
Qed.

(** ** Extrema *)
Lemma node_max_ok (n : nat) (xs cs : list R) : (1 <= n)%nat -> (n <= length xs)%nat -> (n <= length cs)%nat ->
  exists k, (k < n)%nat /\ @node_max K n xs cs = Ok (nd cs k, nd xs k) /\ forall j, (j < n)%nat -> nd cs j <= nd cs k.
Proof.
  intros Hn Hx Hc. unfold node_max. rewrite (aget_nd cs), (aget_nd xs) by lia. cbn [obind]. unr.
  match goal with |- context [for_from 1 (n - 1) ?b00 ?s00] =>
    destruct (for_from_inv (fun m (r : R * R) => exists k, (k < m)%nat /\ r = (nd cs k, nd xs k) /\ forall j, (j < m)%nat -> nd cs j <= nd cs k)
      b00 1 (n - 1) s00) as (r & E & k & Hk & -> & H) end.
  - exists 0%nat. split; [lia|]. split; auto. intros j Hj. replace j with 0%nat by lia. lra.
  - intros i r Hi (k & Hk & -> & H). rewrite (aget_nd cs) by lia. cbn [obind].
    destruct (Rltb_spec (nd cs k) (nd cs i)).
    + rewrite (aget_nd xs) by lia. cbn [obind]. eexists. split; [reflexivity|]. exists i. split; [lia|]. split; auto.
      intros j Hj. destruct (Nat.eq_dec j i) as [->|]; [lra|]. specialize (H j ltac:(lia)). lra.
    + eexists. split; [reflexivity|]. exists k. split; [lia|]. split; auto.
      intros j Hj. destruct (Nat.eq_dec j i) as [->|]; [lra|]. apply H. lia.
  - replace (1 + (n - 1))%nat with n in * by lia. exists k. auto.
Qed.

Lemma node_min_ok (n : nat) (xs cs : list R) : (1 <= n)%nat -> (n <= length xs)%nat -> (n <= length cs)%nat ->
  exists k, (k < n)%nat /\ @node_min K n xs cs = Ok (nd cs k, nd xs k) /\ forall j, (j < n)%nat -> nd cs k <= nd cs j.
Proof.
  intros Hn Hx Hc. unfold node_min. rewrite (aget_nd cs), (aget_nd xs) by lia. cbn [obind]. unr.
  match goal with |- context [for_from 1 (n - 1) ?b00 ?s00] =>
    destruct (for_from_inv (fun m (r : R * R) => exists k, (k < m)%nat /\ r = (nd cs k, nd xs k) /\ forall j, (j < m)%nat -> nd cs k <= nd cs j)
      b00 1 (n - 1) s00) as (r & E & k & Hk & -> & H) end.
  - exists 0%nat. split; [lia|]. split; auto. intros j Hj. replace j with 0%nat by lia. lra.
  - intros i r Hi (k & Hk & -> & H). rewrite (aget_nd cs) by lia. cbn [obind].
    destruct (Rltb_spec (nd cs i) (nd cs k)).
    + rewrite (aget_nd xs) by lia. cbn [obind]. eexists. split; [reflexivity|]. exists i. split; [lia|]. split; auto.
      intros j Hj. destruct (Nat.eq_dec j i) as [->|]; [lra|]. specialize (H j ltac:(lia)). lra.
    + eexists. split; [reflexivity|]. exists k. split; [lia|]. split; auto.
      intros j Hj. destruct (Nat.eq_dec j i) as [->|]; [lra|]. apply H. lia.
  - replace (1 + (n - 1))%nat with n in * by lia. exists k. auto.
Qed.

(** The reported maximum is attained at the reported place and bounds the
    function on its whole range, for both kinds of function. *)
Theorem ce_max_ok (f : lexpR) : 0 <= tol -> valid tol f -> spaced (2 * tol) (l_n f) (l_nodes f) ->
  exists m xm, @node_max K (l_n f) (l_nodes f) (l_coeff f) = Ok (m, xm) /\ @ce_eval K f xm = Ok m /\
   forall x, nd (l_nodes f) 0 <= x <= nd (l_nodes f) (l_n f - 1) -> exists v, @ce_eval K f x = Ok v /\ v <= m.
Proof.
  intros Ht V S. pose proof V as [Hn Hl Hc Hs]. unr.
  destruct (node_max_ok (l_n f) (l_nodes f) (l_coeff f)) as (k & Hk & E & H); try lia.
  exists (nd (l_coeff f) k), (nd (l_nodes f) k). split; auto. split.
  - destruct (ce_eval_in f (nd (l_nodes f) k) Ht V S) as (v & Ev & Hv).
    { split; apply sinc_le with (l_n f); auto; lia. }
    rewrite Ev. f_equal. eapply Step_fun; [exact Hv|]. now apply Step_node.
  - intros x Hx. destruct (ce_eval_in f x Ht V S Hx) as (v & Ev & j & N & _ & ->). exists (nd (l_coeff f) j).
    split; auto. apply H, N.
Qed.

Lemma Interp_bounds n xs ys x y lo hi : sinc n xs -> Interp n xs ys x y ->
  (forall i, (i < n)%nat -> lo <= nd ys i <= hi) -> lo <= y <= hi.
Proof.
  intros Hs (i & Hi & Hx & L) H. pose proof (Hs i Hi) as Hc. unfold on_line in L.
  pose proof (H i ltac:(lia)) as H0. pose proof (H (S i) Hi) as H1.
  set (x0 := nd xs i) in *. set (x1 := nd xs (S i)) in *. set (y0 := nd ys i) in *. set (y1 := nd ys (S i)) in *.
  assert (E : y * (x1 - x0) = y0 * (x1 - x) + y1 * (x - x0)) by lra.
  split; apply Rmult_le_reg_r with (x1 - x0); try lra; rewrite E.
  - replace (lo * (x1 - x0)) with (lo * (x1 - x) + lo * (x - x0)) by ring.
    apply Rplus_le_compat; apply Rmult_le_compat_r; lra.
  - replace (hi * (x1 - x0)) with (hi * (x1 - x) + hi * (x - x0)) by ring.
    apply Rplus_le_compat; apply Rmult_le_compat_r; lra.
Qed.

Theorem le_max_ok (f : lexpR) : 0 <= tol -> valid tol f -> spaced tol (l_n f) (l_nodes f) ->
  exists m xm, @node_max K (l_n f) (l_nodes f) (l_coeff f) = Ok (m, xm) /\ @le_eval K f xm = Ok m /\
   forall x, nd (l_nodes f) 0 <= x <= nd (l_nodes f) (l_n f - 1) -> exists v, @le_eval K f x = Ok v /\ v <= m.
Proof.
  intros Ht V S. pose proof V as [Hn Hl Hc Hs]. unr.
  destruct (node_max_ok (l_n f) (l_nodes f) (l_coeff f)) as (k & Hk & E & H); try lia.
  destruct (node_min_ok (l_n f) (l_nodes f) (l_coeff f)) as (k' & Hk' & E' & H'); try lia.
  exists (nd (l_coeff f) k), (nd (l_nodes f) k). split; auto. split.
  - apply le_eval_node; auto.
  - intros x Hx. destruct (le_eval_in tol f x V Hx) as (v & Ev & [(j & Hj & _ & ->)|I]); eexists; (split; [exact Ev|]); auto.
    apply (Interp_bounds _ _ _ _ _ (nd (l_coeff f) k') _ Hs I). auto.
Qed.

Theorem le_min_ok (f : lexpR) : 0 <= tol -> valid tol f -> spaced tol (l_n f) (l_nodes f) ->
  exists m xm, @node_min K (l_n f) (l_nodes f) (l_coeff f) = Ok (m, xm) /\ @le_eval K f xm = Ok m /\
   forall x, nd (l_nodes f) 0 <= x <= nd (l_nodes f) (l_n f - 1) -> exists v, @le_eval K f x = Ok v /\ m <= v.
Proof.
  intros Ht V S. pose proof V as [Hn Hl Hc Hs]. unr.
  destruct (node_max_ok (l_n f) (l_nodes f) (l_coeff f)) as (k & Hk & E & H); try lia.
  destruct (node_min_ok (l_n f) (l_nodes f) (l_coeff f)) as (k' & Hk' & E' & H'); try lia.
  exists (nd (l_coeff f) k'), (nd (l_nodes f) k'). split; auto. split.
  - apply le_eval_node; auto.
  - intros x Hx. destruct (le_eval_in tol f x V Hx) as (v & Ev & [(j & Hj & _ & ->)|I]); eexists; (split; [exact Ev|]); auto.
    apply (Interp_bounds _ _ _ _ _ _ (nd (l_coeff f) k) Hs I). auto.
Qed.

Theorem ce_min_ok (f : lexpR) : 0 <= tol -> valid tol f -> spaced (2 * tol) (l_n f) (l_nodes f) ->
  exists m xm, @node_min K (l_n f) (l_nodes f) (l_coeff f) = Ok (m, xm) /\ @ce_eval K f xm = Ok m /\
   forall x, nd (l_nodes f) 0 <= x <= nd (l_nodes f) (l_n f - 1) -> exists v, @ce_eval K f x = Ok v /\ m <= v.
Proof.
  intros Ht V S. pose proof V as [Hn Hl Hc Hs]. unr.
  destruct (node_min_ok (l_n f) (l_nodes f) (l_coeff f)) as (k & Hk & E & H); try lia.
  exists (nd (l_coeff f) k), (nd (l_nodes f) k). split; auto. split.
  - destruct (ce_eval_in f (nd (l_nodes f) k) Ht V S) as (v & Ev & Hv).
    { split; apply sinc_le with (l_n f); auto; lia. }
    rewrite Ev. f_equal. eapply Step_fun; [exact Hv|]. now apply Step_node.
  - intros x Hx. destruct (ce_eval_in f x Ht V S Hx) as (v & Ev & j & N & _ & ->). exists (nd (l_coeff f) j).
    split; auto. apply H, N.
Qed.

End Fix.
