(** Parameter gradients of piecewise-linear functions. *)
From Verif Require Import Base BaseFacts FOps LinElmModel LinElmSpec LinElmFacts LinElmMerge LinElmArith.
From Coq Require Import Reals Lra.
Local Open Scope R_scope.

(** Writing a constant into a segment. *)
Lemma fill_seg (b lo m : nat) (v : R) (g : list R) : (b + lo + m <= length g)%nat ->
  exists g', for_from lo m (fun jj g => aset g (b + jj) v) g = Ok g' /\ length g' = length g /\
    (forall k, (b + lo <= k < b + lo + m)%nat -> nd g' k = v) /\
    (forall k, ~ (b + lo <= k < b + lo + m)%nat -> nd g' k = nd g k).
Proof.
  intros H.
  destruct (for_from_inv (fun i g' => length g' = length g /\
     (forall k, (b + lo <= k < b + i)%nat -> nd g' k = v) /\
     (forall k, ~ (b + lo <= k < b + i)%nat -> nd g' k = nd g k)) (fun jj g => aset g (b + jj) v) lo m g) as (g' & E & H1 & H2 & H3).
  - repeat split; auto. intros k Hk. lia.
  - intros i s Hi (H1 & H2 & H3). rewrite aset_ok by lia. eexists. split; [reflexivity|].
    split; [now rewrite upd_length|]. split.
    + intros k Hk. destruct (Nat.eq_dec (b + i) k) as [<-|N]; [apply nd_upd_same; lia|].
      rewrite nd_upd_other by auto. apply H2. lia.
    + intros k Hk. rewrite nd_upd_other by lia. apply H3. lia.
  - exists g'. split; auto. split; auto. split; intros k Hk; [apply H2|apply H3]; lia.
Qed.

Section Fix.
Context (tol : R).
Notation K := (Rops tol).
Notation lexpR := (lexp K).

(** The function with coefficient [j] changed by [h]. *)
Definition bump (f : lexpR) (j : nat) (h : R) : lexpR :=
  mkL (l_n f) (l_nodes f) (upd (l_coeff f) j (nd (l_coeff f) j + h)).

Lemma valid_bump f j h : valid tol f -> valid tol (bump f j h).
Proof. intros [A B C D]. constructor; cbn; auto. unr. now rewrite upd_length. Qed.

(** The weights of the two neighbouring nodes. *)
Definition hat (f : lexpR) (x : R) (i k : nat) : R :=
  let t := (nd (l_nodes f) (S i) - x) / (nd (l_nodes f) (S i) - nd (l_nodes f) i) in
  if Nat.eq_dec k i then t else if Nat.eq_dec k (S i) then 1 - t else 0.

(** One row of gradient values. *)
Lemma grad_row (f : lexpR) (x : R) (i b : nat) (g : list R) :
  (2 <= l_n f)%nat -> (S i < l_n f)%nat -> (l_n f <= length (l_nodes f))%nat -> (b + l_n f <= length g)%nat ->
  exists g',
   (do g <- for_ i (fun jj g => aset g (b + jj) 0) g;
    do g <- for_from (i + 2) (l_n f - (i + 2)) (fun jj g => aset g (b + jj) 0) g;
    do nr <- aget (l_nodes f) (i + 1);
    do nl <- aget (l_nodes f) i;
    let den := (nr - nl)%R in
    let t := ((nr - x) / den)%R in
    do g <- aset g (b + i) t;
    aset g (b + i + 1) (1 - t)%R) = Ok g' /\ length g' = length g /\
   (forall k, (k < l_n f)%nat -> nd g' (b + k) = hat f x i k) /\
   (forall k, ~ (b <= k < b + l_n f)%nat -> nd g' k = nd g k).
Proof.
  intros Hn Hi Hl Hg. unr.
  destruct (fill_seg b 0 i 0 g) as (g1 & E1 & L1 & A1 & B1); [lia|].
  unfold for_. rewrite E1. cbn [obind].
  destruct (fill_seg b (i + 2) (l_n f - (i + 2)) 0 g1) as (g2 & E2 & L2 & A2 & B2); [lia|].
  rewrite E2. cbn [obind]. rewrite !(aget_nd (l_nodes f)) by lia. cbn [obind]. cbv zeta.
  rewrite aset_ok by lia. cbn [obind]. rewrite aset_ok by (rewrite upd_length; lia).
  eexists. split; [reflexivity|]. split; [rewrite !upd_length; lia|].
  replace (i + 1)%nat with (S i) by lia. split.
  - intros k Hk. unfold hat. destruct (Nat.eq_dec k i) as [->|N1].
    + rewrite nd_upd_other by lia. rewrite nd_upd_same by lia. reflexivity.
    + destruct (Nat.eq_dec k (S i)) as [->|N2].
      * replace (b + S i)%nat with (b + i + 1)%nat by lia. rewrite nd_upd_same by (rewrite upd_length; lia). reflexivity.
      * rewrite !nd_upd_other by lia. destruct (Nat.lt_ge_cases k i).
        -- rewrite B2 by lia. apply A1. lia.
        -- apply A2. lia.
  - intros k Hk. rewrite !nd_upd_other by lia. rewrite B2 by lia. apply B1. lia.
Qed.

(** For a clear point of the range the search returns the cell of the point. *)
Lemma le_find_clear (f : lexpR) (x : R) : valid tol f -> nd (l_nodes f) 0 <= x <= nd (l_nodes f) (l_n f - 1) ->
  clear tol f x ->
  exists i, @le_find_interval K f x = Ok i /\ (S i < l_n f)%nat /\ nd (l_nodes f) i <= x <= nd (l_nodes f) (S i).
Proof.
  intros V Hx Hc. destruct (le_find_in tol f x V Hx) as (i & E & Hi & [H|H]); exists i; split; auto; split; auto.
  destruct (Hc i ltac:(lia)) as [->|]; [|lra]. split; [lra|]. left. now apply V.
Qed.

(** The value of a bumped function at a point of cell [i]. *)
Lemma le_eval_bump (f : lexpR) (x : R) i : valid tol f -> clear tol f x ->
  (S i < l_n f)%nat -> nd (l_nodes f) i <= x <= nd (l_nodes f) (S i) ->
  exists v, @le_eval K f x = Ok v /\
    v = nd (l_coeff f) i * hat f x i i + nd (l_coeff f) (S i) * hat f x i (S i) /\
    forall j h, (j < l_n f)%nat -> @le_eval K (bump f j h) x = Ok (v + h * hat f x i j).
Proof.
  intros V Hc Hi Hx.
  assert (Hr : nd (l_nodes f) 0 <= x <= nd (l_nodes f) (l_n f - 1)).
  { assert (nd (l_nodes f) 0 <= nd (l_nodes f) i) by (apply sinc_le with (l_n f); try apply V; lia).
    assert (nd (l_nodes f) (S i) <= nd (l_nodes f) (l_n f - 1)) by (apply sinc_le with (l_n f); try apply V; lia). lra. }
  assert (G : forall g : lexpR, valid tol g -> l_n g = l_n f -> l_nodes g = l_nodes f ->
     @le_eval K g x = Ok (nd (l_coeff g) i * hat f x i i + nd (l_coeff g) (S i) * hat f x i (S i))).
  { intros g Vg En Eg. destruct (le_eval_clear tol g x Vg) as (v & E & I).
    - now rewrite En, Eg.
    - intros k Hk. rewrite Eg. apply Hc. lia.
    - rewrite E. f_equal. apply (Interp_fun (l_n g) (l_nodes g) (l_coeff g) x); auto; [apply Vg|].
      exists i. rewrite En, Eg. split; auto. split; auto. unfold hat.
      destruct (Nat.eq_dec i i); [|lia]. destruct (Nat.eq_dec (S i) i); [lia|]. destruct (Nat.eq_dec (S i) (S i)); [|lia].
      apply on_line_formula. now apply V. }
  eexists. split; [apply G; auto|]. split; [reflexivity|].
  intros j h Hj. pose proof (v_coeff _ _ V) as Hl. unr.
  rewrite (G (bump f j h)) by (auto using valid_bump). cbn [bump l_coeff]. unr. f_equal.
  assert (Hup : forall k, (k < l_n f)%nat -> nd (upd (l_coeff f) j (nd (l_coeff f) j + h)) k = nd (l_coeff f) k + (if Nat.eq_dec j k then h else 0)).
  { intros k Hk. destruct (Nat.eq_dec j k) as [->|N]; [rewrite nd_upd_same by lia; reflexivity|]. rewrite nd_upd_other by auto. ring. }
  rewrite !Hup by lia. unfold hat.
  destruct (Nat.eq_dec j i) as [->|N1]; [destruct (Nat.eq_dec i (S i)); [lia|]|];
    repeat match goal with |- context [Nat.eq_dec ?a ?b] => destruct (Nat.eq_dec a b); try lia end; try ring.
Qed.

Lemma le_param_grad_eval2_ok (f : lexpR) (x : R) (g : list R) : valid tol f -> (l_n f <= length g)%nat ->
  nd (l_nodes f) 0 <= x <= nd (l_nodes f) (l_n f - 1) -> clear tol f x ->
  exists v g', @le_param_grad_eval2 K f x g = Ok (v, g') /\ length g' = length g /\
    @le_eval K f x = Ok v /\
    (forall j h, (j < l_n f)%nat -> @le_eval K (bump f j h) x = Ok (v + h * nd g' j)) /\
    (forall k, (l_n f <= k)%nat -> nd g' k = nd g k).
Proof.
  intros V Hg Hx Hc. destruct (le_find_clear f x V Hx Hc) as (i & E & Hi & Hxi).
  destruct (le_eval_bump f x i V Hc Hi Hxi) as (v & Ev & Evv & Hb).
  pose proof V as [Hn Hl Hcl Hs]. unr.
  destruct (grad_row f x i 0 g Hn Hi Hl) as (g' & Eg & Lg & Ag & Bg); [lia|].
  unfold le_param_grad_eval2. setoid_rewrite E. cbn [obind]. unr. cbn [Nat.add] in Eg.
  unfold for_ in *.
  destruct (for_from 0 i (fun jj g => aset g jj 0) g) as [g1| | |]; cbn [obind] in Eg; try discriminate. cbn [obind].
  destruct (for_from (i + 2) (l_n f - (i + 2)) (fun jj g => aset g jj 0) g1) as [g2| | |]; cbn [obind] in Eg; try discriminate. cbn [obind].
  rewrite !(aget_nd (l_nodes f)) in * by lia. cbn [obind] in *. cbv zeta in Eg.
  match type of Eg with (do g <- ?a00; _) = _ => destruct a00 as [g3| | |]; cbn [obind] in Eg; try discriminate end. cbn [obind].
  rewrite Eg. cbn [obind]. rewrite !(aget_nd (l_coeff f)) by lia. cbn [obind].
  exists v, g'. repeat match goal with |- _ /\ _ => split end; auto.
  - do 2 f_equal. rewrite Evv. unfold hat.
    repeat match goal with |- context [Nat.eq_dec ?a ?b] => destruct (Nat.eq_dec a b); try lia end.
    replace (i + 1)%nat with (S i) by lia. reflexivity.
  - intros j h Hj. rewrite (Hb j h Hj). do 2 f_equal. rewrite <- (Ag j Hj). cbn [Nat.add]. reflexivity.
  - intros k Hk. apply Bg. lia.
Qed.

(** Several points: row [ii] of the output is the gradient at point [ii]. *)
Lemma le_param_grad_eval_ok (f : lexpR) (nx : nat) (x g : list R) : valid tol f ->
  (nx <= length x)%nat -> (nx * l_n f <= length g)%nat ->
  (forall ii, (ii < nx)%nat -> nd (l_nodes f) 0 <= nd x ii <= nd (l_nodes f) (l_n f - 1) /\ clear tol f (nd x ii)) ->
  exists g', @le_param_grad_eval K f nx x g = Ok g' /\ length g' = length g /\
    (forall ii, (ii < nx)%nat -> exists v, @le_eval K f (nd x ii) = Ok v /\
       forall j h, (j < l_n f)%nat -> @le_eval K (bump f j h) (nd x ii) = Ok (v + h * nd g' (ii * l_n f + j))) /\
    (forall k, (nx * l_n f <= k)%nat -> nd g' k = nd g k).
Proof.
  intros V Hx Hg Hp. pose proof V as [Hn Hl Hcl Hs]. unfold le_param_grad_eval. unr.
  match goal with |- context [for_ nx ?b00 g] =>
    destruct (for_inv (fun m g' => length g' = length g /\
      (forall ii, (ii < m)%nat -> exists v, @le_eval K f (nd x ii) = Ok v /\
       forall j h, (j < l_n f)%nat -> @le_eval K (bump f j h) (nd x ii) = Ok (v + h * nd g' (ii * l_n f + j))) /\
      (forall k, (m * l_n f <= k)%nat -> nd g' k = nd g k)) b00 nx g) as (g' & E & H1 & H2 & H3) end.
  - split; auto. split; auto. intros ii Hii. lia.
  - intros ii s Hii (L & A & B). cbv beta. rewrite (aget_nd x) by lia. cbn [obind].
    destruct (Hp ii Hii) as [Hxr Hc].
    destruct (le_find_clear f (nd x ii) V Hxr Hc) as (i & E & Hi & Hxi).
    destruct (le_eval_bump f (nd x ii) i V Hc Hi Hxi) as (v & Ev & Evv & Hb).
    setoid_rewrite E. cbn [obind].
    assert (ii * l_n f + l_n f <= nx * l_n f)%nat by nia.
    destruct (grad_row f (nd x ii) i (ii * l_n f) s Hn Hi Hl) as (g' & Eg & Lg & Ag & Bg); [lia|].
    exists g'. split; [exact Eg|]. split; [lia|]. split.
    + intros jj Hjj. destruct (Nat.eq_dec jj ii) as [->|N].
      * exists v. split; auto. intros j h Hj. rewrite (Hb j h Hj). do 2 f_equal. now rewrite Ag.
      * destruct (A jj ltac:(lia)) as (w & Ew & Hw). exists w. split; auto. intros j h Hj. rewrite (Hw j h Hj).
        do 2 f_equal. rewrite Bg; auto. assert (jj * l_n f + l_n f <= ii * l_n f)%nat by nia. lia.
    + intros k Hk. rewrite Bg by (cbn in Hk; lia). apply B. cbn in Hk. lia.
  - exists g'. split; auto.
Qed.

(** Outside the range the gradient is not the derivative of the value: the
    value is zero whatever the coefficients, the gradient entries sum to one. *)
Lemma le_param_grad_eval2_out (f : lexpR) (x : R) (g : list R) : valid tol f -> (l_n f <= length g)%nat ->
  x < nd (l_nodes f) 0 \/ nd (l_nodes f) (l_n f - 1) < x ->
  (forall c, (l_n f <= length c)%nat -> @le_eval K (mkL (l_n f) (l_nodes f) c) x = Ok 0) /\
  exists v g' i, @le_param_grad_eval2 K f x g = Ok (v, g') /\ (S i < l_n f)%nat /\ nd g' i + nd g' (S i) = 1.
Proof.
  intros V Hg Hx. pose proof V as [Hn Hl Hcl Hs]. split.
  { intros c Hc. apply le_eval_out; auto. constructor; cbn; auto. }
  destruct (le_find_ok tol f x V) as (i & E & Hi & _).
  unr. destruct (grad_row f x i 0 g Hn Hi Hl) as (g' & Eg & Lg & Ag & Bg); [lia|].
  unfold le_param_grad_eval2. setoid_rewrite E. cbn [obind]. unr. cbn [Nat.add] in Eg.
  unfold for_ in *.
  destruct (for_from 0 i (fun jj g => aset g jj 0) g) as [g1| | |]; cbn [obind] in Eg; try discriminate. cbn [obind].
  destruct (for_from (i + 2) (l_n f - (i + 2)) (fun jj g => aset g jj 0) g1) as [g2| | |]; cbn [obind] in Eg; try discriminate. cbn [obind].
  rewrite !(aget_nd (l_nodes f)) in * by lia. cbn [obind] in *. cbv zeta in Eg.
  match type of Eg with (do g <- ?a00; _) = _ => destruct a00 as [g3| | |]; cbn [obind] in Eg; try discriminate end. cbn [obind].
  rewrite Eg. cbn [obind]. rewrite !(aget_nd (l_coeff f)) by lia. cbn [obind].
  eexists _, g', i. split; [reflexivity|]. split; auto.
  pose proof (Ag i ltac:(lia)) as A1. pose proof (Ag (S i) Hi) as A2. cbn [Nat.add] in A1, A2.
  rewrite A1, A2. unfold hat.
  repeat match goal with |- context [Nat.eq_dec ?a ?b] => destruct (Nat.eq_dec a b); try lia end. ring.
Qed.

End Fix.
