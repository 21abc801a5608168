(** C88: the limited-memory inverse Hessian. *)
From Verif Require Import LbfgsFacts.
From Coq Require Import ZArith Reals Lra Psatz.
Open Scope R_scope.

(** The calls the method makes: the list is created for [m] pairs, then step [i]
    inserts the difference of the points [X (i+1)], [X i] and that of the gradients. *)
Definition inserts (d m : nat) (X G : nat -> list R) (k : nat) : outcome (blist RO) :=
  for_ k (fun i l => list_insert RO d l i (X (i + 1)%nat) (X i) (G (i + 1)%nat) (G i)) (list_alloc RO m).
(** [n] steps through the list with [step] *)
Definition visit (step : blist RO -> outcome (blist RO * node RO)) (n : nat) (l : blist RO) : outcome (blist RO * list (node RO)) :=
  for_ n (fun _ '(l, acc) => do (l', nd) <- step l; Ok (l', acc ++ [nd])) (list_reset RO l, []).
(** what the caller sees of a node *)
Definition seen (nd : node RO) : nat * list R * list R * R := (n_iter RO nd, n_s RO nd, n_y RO nd, n_rhoinv RO nd).
Definition pair (d : nat) (X G : nat -> list R) (i : nat) : nat * list R * list R * R :=
  let s := tab d (fun j => nth j (X (i + 1)%nat) 0 - nth j (X i) 0) in
  let y := tab d (fun j => nth j (G (i + 1)%nat) 0 - nth j (G i) 0) in
  (i, s, y, ip d (vec s) (vec y)).

Lemma inserts_ok d m X G k : (2 <= m)%nat -> (forall i, length (X i) = d) -> (forall i, length (G i) = d) ->
  exists l, inserts d m X G k = Ok l /\ linv d m X G k l.
Proof.
  intros Hm LX LG. unfold inserts. apply (for_inv (fun k l => linv d m X G k l)).
  - apply linv_0; auto.
  - intros i s Hi I. replace (S i) with (i + 1)%nat by lia. now apply insert_ok.
Qed.

(** After any number of steps the list holds the last [m] pairs: going through it
    from the newest visits them in falling order, going back in rising order. *)
Theorem C88_list d m (X G : nat -> list R) k : (2 <= m)%nat -> (forall i, length (X i) = d) -> (forall i, length (G i) = d) ->
  exists l, inserts d m X G k = Ok l /\ b_size RO l = Nat.min k m /\
    (exists l' ns, visit (list_step RO) (Nat.min k m) l = Ok (l', ns) /\
      map seen ns = map (fun t => pair d X G (k - 1 - t)) (seq 0 (Nat.min k m))) /\
    (exists l' ns, visit (list_step_back RO) (Nat.min k m) l = Ok (l', ns) /\
      map seen ns = map (fun t => pair d X G (k - Nat.min k m + t)) (seq 0 (Nat.min k m))).
Proof.
  intros Hm LX LG. destruct (inserts_ok d m X G k Hm LX LG) as (l & E & I). exists l. split; [exact E|]. split; [apply I|].
  assert (Sn : forall k i nd, is_node d m X G k i nd -> seen nd = pair d X G i).
  { intros k0 i nd (H1 & H2 & H3 & H4 & _). unfold seen, pair. rewrite H1, H2, H3, H4. reflexivity. }
  split; unfold visit.
  - destruct (for_inv (fun t s => let '(l1, acc) := s in linv d m X G k l1 /\ ((t < Nat.min k m)%nat -> b_step RO l1 = t) /\
        ((0 < t)%nat -> b_cstep RO l1 = Some ((k - t) mod m)) /\ map seen acc = map (fun t => pair d X G (k - 1 - t)) (seq 0 t))
      (fun _ '(l, acc) => do (l', nd) <- list_step RO l; Ok (l', acc ++ [nd])) (Nat.min k m) (list_reset RO l, [])) as ([l' ns] & E' & _ & _ & _ & H).
    + split; [apply linv_reset; exact I|]. split; [reflexivity|]. split; [lia|reflexivity].
    + intros t [l1 acc] Ht (I1 & Es & Ec & Ha).
      destruct (step_ok d m X G Hm k l1 t I1 Ht (Es Ht) Ec) as (l2 & nd & E2 & N2 & I2 & Es2 & Ec2). rewrite E2. cbn [obind].
      eexists. split; [reflexivity|]. split; [exact I2|]. split; [intros; rewrite Es2 by lia; lia|].
      split; [intros; rewrite Ec2; do 2 f_equal; lia|]. rewrite seq_S, !map_app, Ha. cbn [map Nat.add]. now rewrite (Sn _ _ _ N2).
    + exists l', ns. auto.
  - destruct (for_inv (fun t s => let '(l1, acc) := s in linv d m X G k l1 /\ ((t < Nat.min k m)%nat -> b_step RO l1 = t) /\
        ((0 < t)%nat -> b_cstep RO l1 = Some ((k - Nat.min k m + t - 1) mod m)) /\ map seen acc = map (fun t => pair d X G (k - Nat.min k m + t)) (seq 0 t))
      (fun _ '(l, acc) => do (l', nd) <- list_step_back RO l; Ok (l', acc ++ [nd])) (Nat.min k m) (list_reset RO l, [])) as ([l' ns] & E' & _ & _ & _ & H).
    + split; [apply linv_reset; exact I|]. split; [reflexivity|]. split; [lia|reflexivity].
    + intros t [l1 acc] Ht (I1 & Es & Ec & Ha).
      destruct (step_back_ok d m X G Hm k l1 t I1 Ht (Es Ht) Ec) as (l2 & nd & E2 & N2 & I2 & Es2 & Ec2). rewrite E2. cbn [obind].
      eexists. split; [reflexivity|]. split; [exact I2|]. split; [intros; rewrite Es2 by lia; lia|].
      split; [intros; rewrite Ec2; do 2 f_equal; lia|]. rewrite seq_S, !map_app, Ha. cbn [map Nat.add]. now rewrite (Sn _ _ _ N2).
    + exists l', ns. auto.
Qed.
Print Assumptions C88_list.

(** ** The product *)
(** The implied matrix: the textbook update with the last pairs, oldest first, of a
    multiple [c] of the identity. *)
Fixpoint limited (d : nat) (c : R) (ps : list ((nat -> R) * (nat -> R))) : nat -> nat -> R :=
  match ps with
  | [] => fun i j => c * (if (i =? j)%nat then 1 else 0)
  | (s, y) :: ps => bfgs d (limited d c ps) s y
  end.
(** the last [n] pairs, newest first *)
Definition last_pairs (X G : nat -> list R) (k n : nat) : list ((nat -> R) * (nat -> R)) :=
  map (fun t => let i := (k - 1 - t)%nat in ((fun j => vec (X (i + 1)%nat) j - vec (X i) j), (fun j => vec (G (i + 1)%nat) j - vec (G i) j))) (seq 0 n).

Lemma bfgs_ext d M M' s s' y y' i j : (forall i j, (i < d)%nat -> (j < d)%nat -> M i j = M' i j) ->
  (forall i, (i < d)%nat -> s i = s' i) -> (forall i, (i < d)%nat -> y i = y' i) -> (i < d)%nat -> (j < d)%nat ->
  bfgs d M s y i j = bfgs d M' s' y' i j.
Proof.
  intros HM Hs Hy Hi Hj. unfold bfgs. rewrite (ip_ext d s s' y y' Hs Hy). rewrite !Hs by auto. f_equal.
  apply rs_ext. intros k Hk. unfold trn, bfgs_left at 2 4. rewrite (ip_ext d s s' y y' Hs Hy), Hs, Hy by auto. f_equal.
  apply rs_ext. intros l Hl. unfold bfgs_left. rewrite (ip_ext d s s' y y' Hs Hy), Hs, Hy, HM by auto. reflexivity.
Qed.
Lemma dense_limited d m X G k c n i j : (n <= Nat.min k m)%nat -> (i < d)%nat -> (j < d)%nat ->
  dense d m X G k c n i j =
  limited d c (map (fun t => let i := (k - Nat.min k m + n - 1 - t)%nat in ((fun j => vec (X (i + 1)%nat) j - vec (X i) j), (fun j => vec (G (i + 1)%nat) j - vec (G i) j))) (seq 0 n)) i j.
Proof.
  revert i j. induction n as [|n IH]; intros i j Hn Hi Hj; [reflexivity|]. cbn [dense seq map limited].
  apply bfgs_ext; auto.
  - intros a b Ha Hb. rewrite IH by (auto; lia). f_equal. rewrite <- seq_shift, map_map. apply map_ext. intros t. cbv zeta.
    replace (k - Nat.min k m + S n - 1 - S t)%nat with (k - Nat.min k m + n - 1 - t)%nat by lia. reflexivity.
  - intros a Ha. unfold vsub. rewrite vec_tab' by auto. unfold vec. replace (k - Nat.min k m + S n - 1 - 0)%nat with (k - Nat.min k m + n)%nat by lia. reflexivity.
  - intros a Ha. unfold vsub. rewrite vec_tab' by auto. unfold vec. replace (k - Nat.min k m + S n - 1 - 0)%nat with (k - Nat.min k m + n)%nat by lia. reflexivity.
Qed.

(** the multiple: [hoscale], times [s.y / y.y] of the newest pair if asked for and
    [y.y] is not tiny *)
Definition first_scale (d : nat) (X G : nat -> list R) (k : nat) (hoscale : R) (scale : bool) : R :=
  let s := fun j => vec (X k) j - vec (X (k - 1)%nat) j in
  let y := fun j => vec (G k) j - vec (G (k - 1)%nat) j in
  if (Rltb tol15 (ip d y y) && scale)%bool then hoscale * ip d s y / ip d y y else hoscale.

Lemma scaled_limited d m X G k hoscale scale i j : (0 < k)%nat -> (i < d)%nat -> (j < d)%nat ->
  dense d m X G k (scaling d X G k hoscale scale) (Nat.min k m) i j =
  limited d (first_scale d X G k hoscale scale) (last_pairs X G k (Nat.min k m)) i j.
Proof.
  intros Hk Hi Hj. rewrite dense_limited by auto.
  assert (Es : scaling d X G k hoscale scale = first_scale d X G k hoscale scale).
  { unfold scaling, first_scale.
    assert (A : forall j, (j < d)%nat -> vec (vsub d (G (k - 1 + 1)%nat) (G (k - 1)%nat)) j = vec (G k) j - vec (G (k - 1)%nat) j).
    { intros a Ha. unfold vsub. rewrite vec_tab' by auto. replace (k - 1 + 1)%nat with k by lia. reflexivity. }
    assert (B : forall j, (j < d)%nat -> vec (vsub d (X (k - 1 + 1)%nat) (X (k - 1)%nat)) j = vec (X k) j - vec (X (k - 1)%nat) j).
    { intros a Ha. unfold vsub. rewrite vec_tab' by auto. replace (k - 1 + 1)%nat with k by lia. reflexivity. }
    rewrite (ip_ext d _ _ _ _ A A), (ip_ext d _ _ _ _ B A). reflexivity. }
  rewrite Es. unfold last_pairs. f_equal. apply map_ext. intros t. cbv zeta.
  replace (k - Nat.min k m + Nat.min k m - 1 - t)%nat with (k - 1 - t)%nat by lia. reflexivity.
Qed.

(** The product computed with the list is the product with that matrix, after any
    number of steps. *)
Theorem C88_product d m (X G : nat -> list R) k hoscale scale (alpha g q : list R) :
  (2 <= m)%nat -> (0 < k)%nat -> (forall i, length (X i) = d) -> (forall i, length (G i) = d) ->
  length alpha = m -> length g = d -> length q = d ->
  exists q' alpha' l', (do l <- inserts d m X G k; lbfgs_hg RO d k m hoscale scale alpha g q l) = Ok (q', alpha', l') /\ length q' = d /\
    forall i, (i < d)%nat ->
      vec q' i = mv d (limited d (first_scale d X G k hoscale scale) (last_pairs X G k (Nat.min k m))) (vec g) i.
Proof.
  intros Hm Hk LX LG La Lg Lq. destruct (inserts_ok d m X G k Hm LX LG) as (l & E & I). rewrite E. cbn [obind].
  destruct (hg_ok d m X G Hm k Hk g Lg l hoscale scale alpha q I La Lq) as (q' & alpha' & l' & E' & _ & _ & L' & H).
  exists q', alpha', l'. split; [exact E'|]. split; [exact L'|]. intros i Hi. rewrite H by auto. apply mv_ext; auto.
  intros j Hj. now apply scaled_limited.
Qed.
Print Assumptions C88_product.

(** That matrix maps the newest gradient difference to the newest step, and it is
    positive definite when all the pairs kept have positive curvature, so that the
    direction of the method is one of descent. *)
Lemma scaled_id_posdef d c : 0 < c -> posdef d (fun i j => c * (if (i =? j)%nat then 1 else 0)).
Proof.
  intros Hc v (i & Hi & Hv). rewrite (ip_ext d v v _ (fun i => c * v i)); auto.
  - rewrite ip_scal_r. apply Rmult_lt_0_compat; auto. unfold ip. revert i Hi Hv. clear. induction d as [|n IH]; intros i Hi Hv; [lia|]. cbn [rs].
    assert (P : 0 <= rs n (fun i => v i * v i)). { clear. induction n; cbn [rs]; [lra|nra]. }
    destruct (Nat.eq_dec i n) as [->|].
    + assert (0 < v n * v n) by nra. lra.
    + assert (0 < rs n (fun i => v i * v i)) by (apply (IH i); [lia|auto]). nra.
  - intros j Hj. unfold mv. rewrite (rs_ext _ _ (fun k => delta j k * (c * v k))); [|intros; unfold delta; ring]. now rewrite delta_sum.
Qed.
Lemma limited_posdef d c ps : 0 < c -> (forall s y, In (s, y) ps -> 0 < ip d s y) -> posdef d (limited d c ps).
Proof.
  intros Hc. induction ps as [|[s y] ps IH]; intros H.
  - now apply scaled_id_posdef.
  - cbn [limited]. apply bfgs_posdef; [apply H; now left|]. apply IH. intros. apply H. now right.
Qed.
Lemma last_pairs_in X G k n s y : In (s, y) (last_pairs X G k n) ->
  exists t, (t < n)%nat /\ s = (fun j => vec (X (k - 1 - t + 1)%nat) j - vec (X (k - 1 - t)%nat) j) /\ y = (fun j => vec (G (k - 1 - t + 1)%nat) j - vec (G (k - 1 - t)%nat) j).
Proof.
  intros H. unfold last_pairs in H. apply in_map_iff in H. destruct H as (t & [= <- <-] & Ht). apply in_seq in Ht. exists t. split; [lia|]. auto.
Qed.

Theorem C88_descent d m (X G : nat -> list R) k hoscale scale (alpha g q : list R) :
  (2 <= m)%nat -> (0 < k)%nat -> (forall i, length (X i) = d) -> (forall i, length (G i) = d) ->
  length alpha = m -> length g = d -> length q = d -> 0 < hoscale ->
  let curv := fun i => ip d (fun j => vec (X (i + 1)%nat) j - vec (X i) j) (fun j => vec (G (i + 1)%nat) j - vec (G i) j) in
  (forall i, (k - Nat.min k m <= i < k)%nat -> 0 < curv i) ->
  exists q' alpha' l', (do l <- inserts d m X G k; lbfgs_hg RO d k m hoscale scale alpha g q l) = Ok (q', alpha', l') /\
    ((exists i, (i < d)%nat /\ vec g i <> 0) -> 0 < ip d (vec g) (vec q')) /\
    ((forall i, (i < d)%nat -> vec g i = vec (G k) i - vec (G (k - 1)%nat) i) -> forall i, (i < d)%nat -> vec q' i = vec (X k) i - vec (X (k - 1)%nat) i).
Proof.
  intros Hm Hk LX LG La Lg Lq Hh curv Hc.
  destruct (C88_product d m X G k hoscale scale alpha g q Hm Hk LX LG La Lg Lq) as (q' & alpha' & l' & E & L' & H).
  exists q', alpha', l'. split; [exact E|].
  assert (Hcl : 0 < curv (k - 1)%nat) by (apply Hc; lia). unfold curv in Hcl. replace (k - 1 + 1)%nat with k in Hcl by lia. split.
  - intros Hg. rewrite (ip_ext d (vec g) (vec g) _ _ ltac:(auto) H). apply limited_posdef; auto.
    + unfold first_scale. match goal with |- context [Rltb tol15 ?a] => destruct (Rltb_spec tol15 a) as [T|T] end; cbn [andb]; auto.
      destruct scale; auto. pose proof tol15_pos. apply Rmult_lt_0_compat; [apply Rmult_lt_0_compat; auto|apply Rinv_0_lt_compat; lra].
    + intros s y Hin. destruct (last_pairs_in _ _ _ _ _ _ Hin) as (t & Ht & -> & ->). apply (Hc (k - 1 - t)%nat). lia.
  - intros Hg i Hi. rewrite H by auto. replace (Nat.min k m) with (S (Nat.min k m - 1)) by lia. unfold last_pairs. cbn [seq map limited].
    replace (k - 1 - 0 + 1)%nat with k by lia. replace (k - 1 - 0)%nat with (k - 1)%nat by lia.
    rewrite (mv_ext d _ _ (vec g) (fun j => vec (G k) j - vec (G (k - 1)%nat) j) i (fun _ _ => eq_refl) Hg).
    apply (bfgs_secant d _ (fun j => vec (X k) j - vec (X (k - 1)%nat) j)); auto. lra.
Qed.
Print Assumptions C88_descent.

(** ** Memories of fewer than two pairs *)
(** With room for one pair the second step, and with room for none the first one,
    follows a null pointer, whatever the points and gradients. *)
Theorem C88_one_refuted d (X G : nat -> list R) k : (forall i, length (X i) = d) -> (forall i, length (G i) = d) ->
  inserts d 1 X G (S (S k)) = UB /\ inserts d 0 X G (S k) = UB.
Proof.
  intros LX LG. split.
  - unfold inserts, for_. cbn [for_from].
    unfold list_insert at 1. cbn [b_m b_size list_alloc b_recent b_nodes Nat.leb app length obind deref].
    cbn [aget nth_error obind]. rewrite (vsub_ok d _ _ (LX _) (LX _)), (vsub_ok d _ _ (LG _) (LG _)). cbn [obind].
    rewrite vdot_ok by apply tab_length. cbn [obind]. rewrite set_node_ok by (cbn; lia). cbn [obind b_m b_size Nat.leb Nat.ltb b_nodes b_recent b_step b_cstep upd].
    rewrite set_node_ok by (cbn; lia). cbn [obind b_m b_size Nat.leb Nat.ltb b_nodes b_recent b_step b_cstep upd].
    reflexivity.
  - unfold inserts, for_. cbn [for_from]. reflexivity.
Qed.
Print Assumptions C88_one_refuted.

(** three pairs kept of four steps *)
Example C88_case : let X := fun i => [INR i; INR (i * i)] in let G := fun i => [2 * INR i; INR (i * i)] in
  exists q' alpha' l', (do l <- inserts 2 3 X G 4; lbfgs_hg RO 2 4 3 1 true [0; 0; 0] [1; 1] [0; 0] l) = Ok (q', alpha', l') /\ 0 < ip 2 (vec [1; 1]) (vec q').
Proof.
  intros X G. destruct (C88_descent 2 3 X G 4 1 true [0; 0; 0] [1; 1] [0; 0]) as (q' & al & l' & E & H & _); auto; try lia; try lra.
  { intros i Hi. unfold ip, vec, X, G. cbn [rs nth]. rewrite !mult_INR, plus_INR. cbn [INR]. nra. }
  exists q', al, l'. split; [exact E|]. apply H. exists 0%nat. split; [lia|]. unfold vec. cbn. lra.
Qed.
