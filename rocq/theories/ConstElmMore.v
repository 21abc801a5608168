(** Piecewise-constant functions: parameter gradients, orthonormal basis,
    constants and nodal approximation. *)
From Verif Require Import Base BaseFacts FOps LinElmModel ConstElmModel LinElmSpec LinElmFacts LinElmMerge LinElmArith LinElmInt LinElmGrad ConstElmFacts RIntLib.
From Coq Require Import Reals Lra.
Local Open Scope R_scope.

(** Area of a spike. *)
Definition cellw (n : nat) (x : nat -> R) (i : nat) : R :=
  (if (0 <? i)%nat then (x i - x (i - 1)%nat) / 2 else 0) + (if (i <? n - 1)%nat then (x (S i) - x i) / 2 else 0).

Lemma trap_zero n x y : (forall k, (k < n)%nat -> y k = 0) -> trap n x y = 0.
Proof.
  intros H. destruct n as [|n]; [reflexivity|]. induction n as [|n IH]; [reflexivity|].
  rewrite trap_SS, IH by auto. rewrite !H by lia. field.
Qed.

Lemma trap_spike n x y i c : (i < n)%nat -> (forall k, (k < n)%nat -> k <> i -> y k = 0) -> y i = c ->
  trap n x y = c * cellw n x i.
Proof.
  intros Hi H Ec. destruct n as [|n]; [lia|]. induction n as [|n IH].
  - assert (i = 0%nat) by lia. subst i. unfold cellw; cbn. ring.
  - rewrite trap_SS. destruct (Nat.eq_dec i (S n)) as [->|N].
    + rewrite trap_zero by (intros k Hk; apply H; lia). rewrite (H n), Ec by lia.
      unfold cellw. destruct (Nat.ltb_spec 0 (S n)) as [_|]; [|lia].
      destruct (Nat.ltb_spec (S n) (S (S n) - 1)) as [|_]; [lia|].
      replace (S n - 1)%nat with n by lia. field.
    + rewrite IH by (try lia; intros k Hk; apply H; lia). rewrite (H (S n)) by lia.
      unfold cellw. destruct (Nat.eq_dec i n) as [->|N'].
      * rewrite Ec. destruct (Nat.ltb_spec n (S n - 1)) as [|_]; [lia|].
        destruct (Nat.ltb_spec n (S (S n) - 1)) as [_|]; [|lia]. field.
      * rewrite (H n) by lia. destruct (Nat.ltb_spec i (S n - 1)) as [_|]; [|lia].
        destruct (Nat.ltb_spec i (S (S n) - 1)) as [_|]; [|lia]. field.
Qed.

Lemma nd_repeat0 n i : nd (repeat 0 n) i = 0.
Proof. unfold nd. revert i. induction n; intros [|i]; cbn; auto. Qed.

Section Fix.
Context (tol : R).
Notation K := (Rops tol).
Notation lexpR := (lexp K).
Notation St f := (Step (l_n f) (l_nodes f) (l_coeff f)).

Lemma nd_firstn n l i : (i < n)%nat -> (n <= length l)%nat -> nd (firstn n l) i = nd l i.
Proof.
  intros Hi Hl. rewrite <- (firstn_skipn n l) at 2. rewrite nd_app1; auto. rewrite firstn_length. lia.
Qed.

Lemma ce_orth_fun_ok (tiny : R) (ii num : nat) (nodes : list R) : (2 <= num)%nat -> (num <= length nodes)%nat -> sinc num nodes ->
  (ii < num)%nat ->
  exists f, @ce_orth_fun K sqrt tiny ii num nodes = Ok f /\ valid tol f /\ l_n f = num /\ l_nodes f = firstn num nodes /\
    0 < cellw num (nd nodes) ii /\
    nd (l_coeff f) ii = sqrt (1 / cellw num (nd nodes) ii) /\ (forall j, j <> ii -> nd (l_coeff f) j = 0).
Proof.
  intros Hn Hl Hs Hi. unfold ce_orth_fun, le_init. unr.
  destruct (Nat.ltb_spec 1 num) as [_|]; [|lia]. cbn [cassert obind].
  rewrite repeat_length. destruct (Nat.leb_spec num (length nodes)) as [_|]; [|lia].
  destruct (Nat.leb_spec num num) as [_|]; [|lia]. cbn [andb obind].
  destruct (Nat.ltb_spec ii num) as [_|]; [|lia].
  assert (Hden : 0 < cellw num (nd nodes) ii /\
    (do den <-
      (if (ii =? 0)%nat then
         do n1 <- aget nodes 1;
         do n0 <- aget nodes 0;
         Ok ((n1 - n0) / INR 2)
       else if (ii =? num - 1)%nat then
         do ni <- aget nodes ii;
         do nm <- aget nodes (ii - 1);
         Ok ((ni - nm) / INR 2)
       else
         do ni <- aget nodes ii;
         do nm <- aget nodes (ii - 1);
         do np <- aget nodes (ii + 1);
         Ok ((ni - nm) / INR 2 + (np - ni) / INR 2)); Ok den) = Ok (cellw num (nd nodes) ii)).
  { replace (INR 2) with 2 by (cbn; lra). unfold cellw.
    destruct (Nat.eqb_spec ii 0) as [->|N].
    - rewrite !(aget_nd nodes) by lia. cbn [obind]. pose proof (Hs 0%nat ltac:(lia)).
      destruct (Nat.ltb_spec 0 (num - 1)) as [_|]; [|lia]. cbn [Nat.ltb Nat.leb]. split; [lra|]. f_equal. ring.
    - pose proof (Hs (ii - 1)%nat ltac:(lia)) as H1. replace (S (ii - 1)) with ii in H1 by lia.
      destruct (Nat.ltb_spec 0 ii) as [_|]; [|lia].
      destruct (Nat.eqb_spec ii (num - 1)) as [E|N'].
      + rewrite !(aget_nd nodes) by lia. cbn [obind].
        destruct (Nat.ltb_spec ii (num - 1)) as [|_]; [lia|]. split; [lra|]. f_equal. ring.
      + rewrite !(aget_nd nodes) by lia. cbn [obind]. pose proof (Hs ii ltac:(lia)).
        destruct (Nat.ltb_spec ii (num - 1)) as [_|]; [|lia]. replace (ii + 1)%nat with (S ii) by lia. split; [lra|reflexivity]. }
  destruct Hden as [Hp Hden].
  match type of Hden with (do den <- ?e00; _) = _ => destruct e00 as [d| | |]; cbn [obind] in Hden; try discriminate end.
  injection Hden as ->. cbn [obind l_coeff l_n l_nodes].
  rewrite (firstn_all2 (repeat 0 num)) by (rewrite repeat_length; lia).
  rewrite aset_ok by (rewrite repeat_length; lia). cbn [obind].
  eexists. split; [reflexivity|]. cbn [l_coeff l_n l_nodes].
  split; [|repeat match goal with |- _ /\ _ => split end; auto].
  - constructor; cbn; unr; auto.
    + rewrite firstn_length. lia.
    + rewrite upd_length, repeat_length. lia.
    + intros i Hi'. rewrite !nd_firstn by lia. apply Hs. lia.
  - apply nd_upd_same. rewrite repeat_length. lia.
  - intros j Hj. rewrite nd_upd_other by auto. apply nd_repeat0.
Qed.

(** The first [num] functions are orthonormal for the library's own inner product
    (which [ce_inner_exact] identifies with the integral). *)
Theorem ce_orth_basis_ok (tiny : R) (n num : nat) (nodes : list R) : 0 <= tol ->
  (2 <= num)%nat -> (n <= num)%nat -> (num <= length nodes)%nat -> sinc num nodes ->
  exists fs, @ce_orth_basis K sqrt tiny n num nodes = Ok fs /\ length fs = n /\
    (forall i f, nth_error fs i = Some f -> valid tol f /\ l_n f = num /\ l_nodes f = firstn num nodes) /\
    forall i j f g, nth_error fs i = Some f -> nth_error fs j = Some g ->
      @ce_inner K f g = Ok (if Nat.eq_dec i j then 1 else 0).
Proof.
  intros Ht Hn Hnn Hl Hs. unfold ce_orth_basis.
  destruct (for_inv (fun m (l : list lexpR) => length l = m /\ forall i f, nth_error l i = Some f ->
      valid tol f /\ l_n f = num /\ l_nodes f = firstn num nodes /\ 0 < cellw num (nd nodes) i /\
      nd (l_coeff f) i = sqrt (1 / cellw num (nd nodes) i) /\ (forall j, j <> i -> nd (l_coeff f) j = 0))
     (fun ii l => do f <- @ce_orth_fun K sqrt tiny ii num nodes; Ok (l ++ [f])) n []) as (fs & E & L & H).
  - split; auto. intros [|i] f; discriminate.
  - intros i l Hi [L H]. destruct (ce_orth_fun_ok tiny i num nodes Hn Hl Hs ltac:(lia)) as (f & E & P).
    setoid_rewrite E. cbn [obind]. eexists. split; [reflexivity|]. rewrite app_length. cbn [length]. split; [lia|].
    intros j g Hg. destruct (Nat.lt_ge_cases j (length l)) as [Lj|Lj].
    + rewrite nth_error_app1 in Hg by auto. now apply H.
    + rewrite nth_error_app2 in Hg by auto. destruct (j - length l)%nat as [|q] eqn:Q; [|destruct q; discriminate].
      injection Hg as <-. replace j with i by lia. exact P.
  - exists fs. split; [exact E|]. split; auto. split.
    { intros i f Hf. destruct (H i f Hf) as (A & B & C & _). auto. }
    intros i j f g Hf Hg.
    destruct (H i f Hf) as (Vf & Nf & Lf & Pf & Cf & Zf). destruct (H j g Hg) as (Vg & Ng & Lg & Pg & Cg & Zg).
    assert (Hi : (i < num)%nat). { assert (i < length fs)%nat by (apply nth_error_Some; congruence). lia. }
    assert (Hj : (j < num)%nat). { assert (j < length fs)%nat by (apply nth_error_Some; congruence). lia. }
    unfold ce_inner. setoid_rewrite (same_grid_sdiscp tol f g Ht Vf Vg) ; [|split; [lia|intros; now rewrite Lf, Lg]].
    cbn [obind]. pose proof (v_nodes _ _ Vf). pose proof (v_coeff _ _ Vf). pose proof (v_coeff _ _ Vg). unr.
    rewrite ce_inner_same_trap by lia. f_equal.
    destruct (Nat.eq_dec i j) as [<-|N].
    + rewrite (trap_spike _ _ _ i (nd (l_coeff f) i * nd (l_coeff g) i)); [|lia| |reflexivity].
      * rewrite Cf, Cg, sqrt_sqrt by (apply Rlt_le, Rdiv_lt_0_compat; lra). rewrite Nf.
        assert (Ew : cellw num (nd (l_nodes f)) i = cellw num (nd nodes) i).
        { unfold cellw. rewrite Lf. destruct (Nat.ltb_spec 0 i), (Nat.ltb_spec i (num - 1)); rewrite ?nd_firstn by lia; reflexivity. }
        unr. rewrite Ew. field. lra.
      * intros k Hk Nk. rewrite Zf by auto. ring.
    + apply trap_zero. intros k Hk. destruct (Nat.eq_dec k i) as [->|Nk]; [rewrite (Zg i) by auto|rewrite (Zf k) by auto]; ring.
Qed.

(** ** Parameter gradients *)
Lemma ce_eval_bump (f : lexpR) (x : R) k : 0 <= tol -> valid tol f -> spaced (2 * tol) (l_n f) (l_nodes f) ->
  nd (l_nodes f) 0 <= x <= nd (l_nodes f) (l_n f - 1) ->
  Nearest (l_n f) (l_nodes f) x k -> (forall j, Nearest (l_n f) (l_nodes f) x j -> (j <= k)%nat) ->
  @ce_eval K f x = Ok (nd (l_coeff f) k) /\
  forall j h, (j < l_n f)%nat -> @ce_eval K (bump tol f j h) x = Ok (nd (l_coeff f) k + h * (if Nat.eq_dec j k then 1 else 0)).
Proof.
  intros Ht V S Hx N M. pose proof (v_coeff _ _ V) as Hl. unr.
  assert (G : forall g : lexpR, valid tol g -> l_n g = l_n f -> l_nodes g = l_nodes f -> @ce_eval K g x = Ok (nd (l_coeff g) k)).
  { intros g Vg En Eg. destruct (ce_eval_in tol g x Ht Vg) as (v & E & Hv).
    - now rewrite En, Eg.
    - now rewrite En, Eg.
    - rewrite E. f_equal. eapply Step_fun; [exact Hv|]. exists k. rewrite En, Eg. auto. }
  split; [now apply G|]. intros j h Hj. rewrite (G (bump tol f j h)) by (auto using valid_bump).
  f_equal. cbn [bump l_coeff]. unr. destruct (Nat.eq_dec j k) as [->|Nj].
  - rewrite nd_upd_same by lia. ring.
  - rewrite nd_upd_other by auto. ring.
Qed.

Lemma ce_grad_row (f : lexpR) (k b : nat) (g : list R) :
  (k < l_n f)%nat -> (b + l_n f <= length g)%nat ->
  exists g',
   (do g <- for_ k (fun jj g => aset g (b + jj) 0) g;
    do g <- for_from (k + 2) (l_n f - (k + 2)) (fun jj g => aset g (b + jj) 0) g;
    aset g (b + k) 1) = Ok g' /\ length g' = length g /\
   (forall j, (j < l_n f)%nat -> j <> S k -> nd g' (b + j) = if Nat.eq_dec j k then 1 else 0) /\
   (forall j, ~ (b <= j < b + l_n f)%nat \/ j = (b + S k)%nat -> nd g' j = nd g j).
Proof.
  intros Hk Hg. 
  destruct (fill_seg b 0 k 0 g) as (g1 & E1 & L1 & A1 & B1); [lia|].
  unfold for_. rewrite E1. cbn [obind].
  assert (E2' : exists g2, for_from (k + 2) (l_n f - (k + 2)) (fun jj g => aset g (b + jj) 0) g1 = Ok g2 /\ length g2 = length g1 /\
    (forall j, (b + (k + 2) <= j < b + l_n f)%nat -> nd g2 j = 0) /\
    (forall j, ~ (b + (k + 2) <= j < b + l_n f)%nat -> nd g2 j = nd g1 j)).
  { destruct (Nat.le_gt_cases (k + 2) (l_n f)) as [Q|Q].
    - destruct (fill_seg b (k + 2) (l_n f - (k + 2)) 0 g1) as (g2 & E2 & L2 & A2 & B2); [lia|].
      exists g2. split; auto. split; auto. split; intros j Hj; [apply A2|apply B2]; lia.
    - replace (l_n f - (k + 2))%nat with 0%nat by lia. cbn. exists g1. repeat split; auto. intros; lia. }
  destruct E2' as (g2 & E2 & L2 & A2 & B2). rewrite E2. cbn [obind]. rewrite aset_ok by lia.
  eexists. split; [reflexivity|]. split; [rewrite upd_length; lia|]. split.
  - intros j Hj Nj. destruct (Nat.eq_dec j k) as [->|N].
    + rewrite nd_upd_same by lia. reflexivity.
    + rewrite nd_upd_other by lia. destruct (Nat.lt_ge_cases j k).
      * rewrite B2 by lia. apply A1. lia.
      * apply A2. lia.
  - intros j Hj. rewrite nd_upd_other by lia. rewrite B2 by lia. apply B1. lia.
Qed.

(** Everything the function does: entry [k+1] after the nearest node [k] keeps its
    old contents and the returned number is the position of the node. *)
Theorem ce_param_grad_eval2_ok (f : lexpR) (x : R) (g : list R) : 0 <= tol -> valid tol f ->
  spaced (2 * tol) (l_n f) (l_nodes f) -> (l_n f <= length g)%nat ->
  nd (l_nodes f) 0 <= x <= nd (l_nodes f) (l_n f - 1) ->
  exists k g' v, Nearest (l_n f) (l_nodes f) x k /\
    @ce_param_grad_eval2 K f x g = Ok (nd (l_nodes f) k, g') /\ length g' = length g /\
    @ce_eval K f x = Ok v /\ v = nd (l_coeff f) k /\
    (forall j h, (j < l_n f)%nat -> j <> S k -> @ce_eval K (bump tol f j h) x = Ok (v + h * nd g' j)) /\
    ((S k < l_n f)%nat -> forall h, @ce_eval K (bump tol f (S k) h) x = Ok v) /\
    nd g' (S k) = nd g (S k).
Proof.
  intros Ht V S Hg Hx. destruct (ce_find_node_ok tol f x Ht V S) as (k & E & N & M).
  destruct (ce_eval_bump f x k Ht V S Hx N M) as [Ev Hb].
  destruct (ce_grad_row f k 0 g) as (g' & Eg & Lg & Ag & Bg); [apply N|lia|].
  exists k, g', (nd (l_coeff f) k). split; auto. pose proof (v_nodes _ _ V). pose proof (proj1 N). unr.
  split; [|repeat match goal with |- _ /\ _ => split end; auto].
  - unfold ce_param_grad_eval2. setoid_rewrite E. cbn [obind]. unr. cbn [Nat.add] in Eg.
    unfold for_ in *.
    destruct (for_from 0 k (fun jj g => aset g jj 0) g) as [g1| | |]; cbn [obind] in Eg |- *; try discriminate.
    destruct (for_from (k + 2) (l_n f - (k + 2)) (fun jj g => aset g jj 0) g1) as [g2| | |]; cbn [obind] in Eg |- *; try discriminate.
    rewrite Eg. cbn [obind]. rewrite (aget_nd (l_nodes f)) by lia. reflexivity.
  - intros j h Hj Nj. rewrite (Hb j h Hj). do 2 f_equal. rewrite <- (Ag j Hj Nj). reflexivity.
  - intros Hk h. rewrite (Hb (Datatypes.S k) h Hk). f_equal. destruct (Nat.eq_dec (Datatypes.S k) k); [lia|ring].
Qed.

(** With a zeroed buffer the rows of the array version are the gradients. *)
Theorem ce_param_grad_eval_zeroed (f : lexpR) (nx : nat) (x : list R) (g : list R) : 0 <= tol -> valid tol f ->
  spaced (2 * tol) (l_n f) (l_nodes f) -> (nx <= length x)%nat -> (nx * l_n f <= length g)%nat ->
  (forall k, nd g k = 0) ->
  (forall ii, (ii < nx)%nat -> nd (l_nodes f) 0 <= nd x ii <= nd (l_nodes f) (l_n f - 1)) ->
  exists g', @ce_param_grad_eval K f nx x g = Ok g' /\ length g' = length g /\
    (forall ii, (ii < nx)%nat -> exists v, @ce_eval K f (nd x ii) = Ok v /\
       forall j h, (j < l_n f)%nat -> @ce_eval K (bump tol f j h) (nd x ii) = Ok (v + h * nd g' (ii * l_n f + j))).
Proof.
  intros Ht V S Hx Hg Hz Hp. pose proof V as [Hn Hl Hcl Hs]. unfold ce_param_grad_eval. unr.
  match goal with |- context [for_ nx ?b00 g] =>
    destruct (for_inv (fun m g' => length g' = length g /\
      (forall ii, (ii < m)%nat -> exists v, @ce_eval K f (nd x ii) = Ok v /\
       forall j h, (j < l_n f)%nat -> @ce_eval K (bump tol f j h) (nd x ii) = Ok (v + h * nd g' (ii * l_n f + j))) /\
      (forall k, (m * l_n f <= k)%nat -> nd g' k = 0)) b00 nx g) as (g' & E & H1 & H2 & H3) end.
  - split; auto. split; auto. intros ii Hii. lia.
  - intros ii s Hii (L & A & B). cbv beta. rewrite (aget_nd x) by lia. cbn [obind].
    destruct (ce_find_node_ok tol f (nd x ii) Ht V S) as (k & E & N & M).
    destruct (ce_eval_bump f (nd x ii) k Ht V S (Hp ii Hii) N M) as [Ev Hb].
    setoid_rewrite E. cbn [obind].
    assert (ii * l_n f + l_n f <= nx * l_n f)%nat by nia.
    destruct (ce_grad_row f k (ii * l_n f) s) as (g' & Eg & Lg & Ag & Bg); [apply N|lia|].
    exists g'. split; [exact Eg|]. split; [lia|]. split.
    + intros jj Hjj. destruct (Nat.eq_dec jj ii) as [->|Nj].
      * exists (nd (l_coeff f) k). split; auto. intros j h Hj. rewrite (Hb j h Hj). do 2 f_equal.
        destruct (Nat.eq_dec j (Datatypes.S k)) as [->|Q].
        -- rewrite Bg by (right; reflexivity). rewrite B by lia. destruct (Nat.eq_dec (Datatypes.S k) k); [lia|reflexivity].
        -- now rewrite Ag.
      * destruct (A jj ltac:(lia)) as (w & Ew & Hw). exists w. split; auto. intros j h Hj. rewrite (Hw j h Hj).
        do 2 f_equal. rewrite Bg; auto. left. assert (jj * l_n f + l_n f <= ii * l_n f)%nat by nia. lia.
    + intros j Hj. rewrite Bg by (left; cbn in Hj; lia). apply B. cbn in Hj. lia.
  - exists g'. split; auto.
Qed.

End Fix.
