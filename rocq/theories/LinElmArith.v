(** Addition and scaling of piecewise-linear functions. *)
From Verif Require Import Base BaseFacts FOps LinElmModel LinElmSpec LinElmFacts LinElmMerge.
From Coq Require Import Reals Lra.
Local Open Scope R_scope.

Lemma nd_upd_same l i v : (i < length l)%nat -> nd (upd l i v) i = v.
Proof. intros H. unfold nd. apply nth_error_nth. now apply nth_error_upd_same. Qed.
Lemma nd_upd_other l i j v : i <> j -> nd (upd l i v) j = nd l j.
Proof.
  unfold nd. revert i j. induction l as [|h t IH]; intros i j H; [reflexivity|].
  destruct i, j; cbn [upd nth]; auto; try congruence.
Qed.

(** A loop that rewrites entry [i] of an array from its old value. *)
Lemma for_upd (n : nat) (F : nat -> R -> R) (y : list R) (body : nat -> list R -> outcome (list R)) :
  (n <= length y)%nat ->
  (forall i c, (i < n)%nat -> length c = length y -> nd c i = nd y i -> body i c = Ok (upd c i (F i (nd y i)))) ->
  exists c, for_ n body y = Ok c /\ length c = length y /\
    (forall i, (i < n)%nat -> nd c i = F i (nd y i)) /\ (forall i, (n <= i)%nat -> nd c i = nd y i).
Proof.
  intros Hn Hb.
  destruct (for_inv (fun k c => length c = length y /\
     (forall i, (i < k)%nat -> nd c i = F i (nd y i)) /\ (forall i, (k <= i)%nat -> nd c i = nd y i)) body n y)
    as (c & E & H).
  - repeat split; auto. intros i Hi. lia.
  - intros i c Hi (H1 & H2 & H3). rewrite Hb by auto. eexists. split; [reflexivity|].
    split; [now rewrite upd_length|]. split.
    + intros j Hj. destruct (Nat.eq_dec i j) as [->|N]; [rewrite nd_upd_same; auto; lia|].
      rewrite nd_upd_other by auto. apply H2. lia.
    + intros j Hj. rewrite nd_upd_other by lia. apply H3. lia.
  - exists c. split; auto.
Qed.

Section Fix.
Context (tol : R).
Notation K := (Rops tol).
Notation lexpR := (lexp K).

Lemma daxpy1_ok n a (x y : list R) : (n <= length x)%nat -> (n <= length y)%nat ->
  exists c, @daxpy1 K n a x y = Ok c /\ length c = length y /\
    (forall i, (i < n)%nat -> nd c i = a * nd x i + nd y i) /\
    (forall i, (n <= i)%nat -> nd c i = nd y i).
Proof.
  intros Hx Hy. unfold daxpy1.
  apply (for_upd n (fun i v => a * nd x i + v) y); auto.
  intros i c Hi Hl E. rewrite (aget_nd x), (aget_nd c) by lia. cbn [obind]. unr. rewrite E.
  apply aset_ok. lia.
Qed.

Notation nodes_of f := (is_node (l_n f) (l_nodes f)).

(** A node of one grid is clear for the other function. *)
Lemma node_clear (f g : lexpR) v : 0 <= tol -> valid tol f -> spaced tol (l_n f) (l_nodes f) ->
  sepd tol (l_n f) (l_n g) (l_nodes f) (l_nodes g) ->
  nodes_of f v \/ nodes_of g v -> clear tol f v.
Proof.
  intros Ht Vf Sf Hsep [(i & Hi & ->)|(j & Hj & ->)] k Hk.
  - destruct (Req_dec (nd (l_nodes f) i) (nd (l_nodes f) k)) as [E|N]; [now left|right].
    apply Rnot_le_lt. intros L. apply (spaced_far tol (l_n f)) in L; auto; congruence.
  - destruct (Hsep k j Hk Hj) as [E|E]; [left; congruence|right]. rewrite Rabs_minus_sym. exact E.
Qed.

Lemma sepd_sym nf ng fx gx : sepd tol nf ng fx gx -> sepd tol ng nf gx fx.
Proof.
  intros H i j Hi Hj. destruct (H j i Hj Hi) as [E|E]; [left; congruence|right]. now rewrite Rabs_minus_sym.
Qed.

Lemma le_axpy_same a (f g : lexpR) : valid tol f -> valid tol g ->
  sepd tol (l_n f) (l_n g) (l_nodes f) (l_nodes g) ->
  @le_sdiscp K f g = Ok true ->
  exists h, @le_axpy K a f g = Ok h /\ l_n h = l_n g /\ l_nodes h = l_nodes g /\ valid tol h /\
    (forall v, nodes_of h v <-> nodes_of f v \/ nodes_of g v) /\
    (forall x yf yg, Interp (l_n f) (l_nodes f) (l_coeff f) x yf -> Interp (l_n g) (l_nodes g) (l_coeff g) x yg ->
       Interp (l_n h) (l_nodes h) (l_coeff h) x (a * yf + yg)).
Proof.
  intros Vf Vg Hsep E. unfold le_axpy. setoid_rewrite E. cbn [obind].
  pose proof Vf as [Nf Lf Cf If]. pose proof Vg as [Ng Lg Cg Ig]. unr.
  destruct (sdiscp_spec tol (l_n f) (l_n g) (l_nodes f) (l_nodes g) Lf Lg) as (b & Eb & Hb).
  unfold le_sdiscp in E. setoid_rewrite Eb in E. injection E as ->.
  destruct Hb as [Hb _]. destruct (Hb eq_refl) as [En Hd]. clear Hb Eb.
  assert (Enode : forall i, (i < l_n f)%nat -> nd (l_nodes f) i = nd (l_nodes g) i).
  { intros i Hi. destruct (Hsep i i Hi ltac:(lia)) as [?|L]; auto. specialize (Hd i Hi). lra. }
  destruct (daxpy1_ok (l_n g) a (l_coeff f) (l_coeff g)) as (c & Ec & Hl & Hc & _); try lia.
  setoid_rewrite Ec. cbn [obind]. eexists. split; [reflexivity|]. cbn [l_n l_nodes l_coeff].
  repeat match goal with |- _ /\ _ => split end; auto.
  - constructor; cbn [l_n l_nodes l_coeff]; auto. unr. lia.
  - intros v. split; auto. intros [(i & Hi & ->)|H]; auto. exists i. split; [lia|now apply Enode].
  - intros x yf yg If' Ig'.
    pose proof (Interp_range _ _ _ _ _ Ig Ig') as Hx.
    destruct (cell_exists (l_n g) (l_nodes g) x) as (i & Hi & Hxi); auto; try lra.
    assert (Jf : Interp (l_n f) (l_nodes f) (l_coeff f) x
       (nd (l_coeff f) i * ((nd (l_nodes f) (S i) - x) / (nd (l_nodes f) (S i) - nd (l_nodes f) i))
        + nd (l_coeff f) (S i) * (1 - (nd (l_nodes f) (S i) - x) / (nd (l_nodes f) (S i) - nd (l_nodes f) i)))).
    { exists i. split; [lia|]. split; [rewrite !Enode by lia; lra|]. apply on_line_formula. apply If. lia. }
    assert (Jg : Interp (l_n g) (l_nodes g) (l_coeff g) x
       (nd (l_coeff g) i * ((nd (l_nodes g) (S i) - x) / (nd (l_nodes g) (S i) - nd (l_nodes g) i))
        + nd (l_coeff g) (S i) * (1 - (nd (l_nodes g) (S i) - x) / (nd (l_nodes g) (S i) - nd (l_nodes g) i)))).
    { exists i. split; [lia|]. split; [lra|]. apply on_line_formula. now apply Ig. }
    rewrite (Interp_fun _ _ _ _ _ _ If If' Jf), (Interp_fun _ _ _ _ _ _ Ig Ig' Jg).
    exists i. split; auto. split; auto. rewrite !Enode by lia. rewrite !Hc by lia.
    pose proof (Ig i Hi). unfold on_line. field. lra.
Qed.

(** Different grids. *)
Lemma le_axpy_diff a (f g : lexpR) : 0 < tol -> valid tol f -> valid tol g ->
  spaced tol (l_n f) (l_nodes f) -> spaced tol (l_n g) (l_nodes g) ->
  sepd tol (l_n f) (l_n g) (l_nodes f) (l_nodes g) ->
  nd (l_nodes f) 0 = nd (l_nodes g) 0 ->
  nd (l_nodes f) (l_n f - 1) = nd (l_nodes g) (l_n g - 1) ->
  @le_sdiscp K f g = Ok false ->
  exists h, @le_axpy K a f g = Ok h /\ valid tol h /\
    (forall v, nodes_of h v <-> nodes_of f v \/ nodes_of g v) /\
    (forall x yf yg, Interp (l_n f) (l_nodes f) (l_coeff f) x yf -> Interp (l_n g) (l_nodes g) (l_coeff g) x yg ->
       Interp (l_n h) (l_nodes h) (l_coeff h) x (a * yf + yg)).
Proof.
  intros Ht Vf Vg Sf Sg Hsep Elb Eub E. unfold le_axpy. setoid_rewrite E. cbn [obind].
  pose proof Vf as [Nf Lf Cf If]. pose proof Vg as [Ng Lg Cg Ig]. unr.
  destruct (interp_same_grid_ok tol (l_n f) (l_n g) (l_nodes f) (l_nodes g) Ht Lf Lg If Ig Hsep)
    as (X & EX & HXl & HXs & HX).
  setoid_rewrite EX. cbn [obind].
  assert (HXr : forall k, (k < length X)%nat -> nd (l_nodes f) 0 <= nd X k <= nd (l_nodes f) (l_n f - 1)).
  { intros k Hk. destruct (proj1 (HX (nd X k)) (nd_In X k Hk)) as [(i & Hi & ->)|(i & Hi & ->)].
    - split; apply sinc_le with (l_n f); auto; lia.
    - rewrite Elb, Eub. split; apply sinc_le with (l_n g); auto; lia. }
  assert (Hcf : forall k, (k < length X)%nat -> exists v, @le_eval K f (nd X k) = Ok v /\
      Interp (l_n f) (l_nodes f) (l_coeff f) (nd X k) v).
  { intros k Hk. apply le_eval_clear; auto. apply node_clear with g; auto; try lra. apply HX, nd_In, Hk. }
  assert (Hcg : forall k, (k < length X)%nat -> exists v, @le_eval K g (nd X k) = Ok v /\
      Interp (l_n g) (l_nodes g) (l_coeff g) (nd X k) v).
  { intros k Hk. apply le_eval_clear; auto; [rewrite <- Elb, <- Eub; auto|].
    apply node_clear with f; auto; try lra; [now apply sepd_sym|]. apply or_comm. apply HX, nd_In, Hk. }
  set (vf := fun k => le_evalv f (nd X k : K) : R). set (vg := fun k => le_evalv g (nd X k : K) : R).
  destruct (for_upd (length X) (fun k _ => a * vf k + vg k) (repeat 0 (l_n f + l_n g))
     (fun ii coeff =>
      do xi <- aget (X ++ repeat 0 (l_n f + l_n g - length X)) ii;
      do v <- @le_eval K f xi; do w <- @le_eval K g xi; aset coeff ii (a * v + w))) as (c & Ec & Hl & Hc & _).
  { rewrite repeat_length; lia. }
  { intros k c0 Hk Hl0 _. rewrite (aget_nd (X ++ _)) by (rewrite app_length; lia). rewrite nd_app1 by auto. cbn [obind].
    unfold vf, vg, le_evalv. destruct (Hcf k Hk) as (v & -> & _). cbn [obind].
    destruct (Hcg k Hk) as (w & -> & _). cbn [obind]. apply aset_ok. rewrite Hl0, repeat_length. lia. }
  setoid_rewrite Ec. cbn [obind]. eexists. split; [reflexivity|]. cbn [l_n l_nodes l_coeff].
  rewrite repeat_length in Hl.
  assert (Hvf : forall k, (k < length X)%nat -> Interp (l_n f) (l_nodes f) (l_coeff f) (nd X k) (vf k)).
  { intros k Hk. unfold vf, le_evalv. destruct (Hcf k Hk) as (v & -> & H). exact H. }
  assert (Hvg : forall k, (k < length X)%nat -> Interp (l_n g) (l_nodes g) (l_coeff g) (nd X k) (vg k)).
  { intros k Hk. unfold vg, le_evalv. destruct (Hcg k Hk) as (v & -> & H). exact H. }
  clearbody vf vg. clear Hcf Hcg Ec EX E.
  (* every node of f or g is a node of X *)
  assert (Hnf : forall i, (i < l_n f)%nat -> exists k, (k < length X)%nat /\ nd (l_nodes f) i = nd X k).
  { intros i Hi. apply In_nd, HX. left. exists i. auto. }
  assert (Hng : forall i, (i < l_n g)%nat -> exists k, (k < length X)%nat /\ nd (l_nodes g) i = nd X k).
  { intros i Hi. apply In_nd, HX. right. exists i. auto. }
  assert (HX2 : (2 <= length X)%nat).
  { destruct (Hnf 0%nat ltac:(lia)) as (k0 & Hk0 & E0). destruct (Hnf 1%nat ltac:(lia)) as (k1 & Hk1 & E1).
    pose proof (If 0%nat ltac:(lia)). assert (k0 <> k1) by (intros ->; lra). lia. }
  assert (Hcell : forall k i, (S k < length X)%nat -> (i < l_n f)%nat -> nd (l_nodes f) i <= nd X k \/ nd X (S k) <= nd (l_nodes f) i).
  { intros k i Hk Hi. destruct (Hnf i Hi) as (m & Hm & ->). destruct (Nat.le_gt_cases m k); [left|right]; apply sinc_le with (length X); auto; lia. }
  assert (Hcell' : forall k i, (S k < length X)%nat -> (i < l_n g)%nat -> nd (l_nodes g) i <= nd X k \/ nd X (S k) <= nd (l_nodes g) i).
  { intros k i Hk Hi. destruct (Hng i Hi) as (m & Hm & ->). destruct (Nat.le_gt_cases m k); [left|right]; apply sinc_le with (length X); auto; lia. }
  split; [|split].
  - constructor; cbn [l_n l_nodes l_coeff]; auto; unr; try lia.
    + rewrite app_length, repeat_length. lia.
    + now apply sinc_app1.
  - intros v. rewrite <- HX. split.
    + intros (k & Hk & ->). rewrite nd_app1 by auto. now apply nd_In.
    + intros Hv. destruct (In_nd _ _ Hv) as (k & Hk & ->). exists k. split; auto. now rewrite nd_app1.
  - intros x yf yg Jf Jg. pose proof (Interp_range _ _ _ _ _ If Jf) as Hx.
    destruct (cell_exists (length X) X x) as (k & Hk & Hxk); auto.
    { destruct (Hnf 0%nat ltac:(lia)) as (k0 & Hk0 & E0).
      assert (nd X 0 <= nd X k0) by (apply sinc_le with (length X); auto; lia). lra. }
    { destruct (Hnf (l_n f - 1)%nat ltac:(lia)) as (k0 & Hk0 & E0).
      assert (nd X k0 <= nd X (length X - 1)) by (apply sinc_le with (length X); auto; lia). lra. }
    pose proof (HXs k Hk) as Hlt.
    apply (Interp_cell _ _ _ (nd X k) (nd X (S k)) (vf k) (vf (S k)) Nf If Hlt (fun i => Hcell k i Hk) (Hvf k ltac:(lia)) (Hvf (S k) Hk) x yf Hxk) in Jf.
    apply (Interp_cell _ _ _ (nd X k) (nd X (S k)) (vg k) (vg (S k)) Ng Ig Hlt (fun i => Hcell' k i Hk) (Hvg k ltac:(lia)) (Hvg (S k) Hk) x yg Hxk) in Jg.
    exists k. rewrite !nd_app1 by lia. split; auto. split; auto.
    rewrite !Hc by lia. unfold on_line in *.
    replace ((a * yf + yg - (a * vf k + vg k)) * (nd X (S k) - nd X k))
      with (a * ((yf - vf k) * (nd X (S k) - nd X k)) + (yg - vg k) * (nd X (S k) - nd X k)) by ring.
    rewrite Jf, Jg. ring.
Qed.

Theorem le_axpy_ok a (f g : lexpR) : 0 < tol -> valid tol f -> valid tol g ->
  spaced tol (l_n f) (l_nodes f) -> spaced tol (l_n g) (l_nodes g) ->
  sepd tol (l_n f) (l_n g) (l_nodes f) (l_nodes g) ->
  nd (l_nodes f) 0 = nd (l_nodes g) 0 ->
  nd (l_nodes f) (l_n f - 1) = nd (l_nodes g) (l_n g - 1) ->
  exists h, @le_axpy K a f g = Ok h /\ valid tol h /\
    (forall v, nodes_of h v <-> nodes_of f v \/ nodes_of g v) /\
    (forall x yf yg, Interp (l_n f) (l_nodes f) (l_coeff f) x yf -> Interp (l_n g) (l_nodes g) (l_coeff g) x yg ->
       Interp (l_n h) (l_nodes h) (l_coeff h) x (a * yf + yg)).
Proof.
  intros Ht Vf Vg Sf Sg Hsep Elb Eub.
  destruct (sdiscp_spec tol (l_n f) (l_n g) (l_nodes f) (l_nodes g) (v_nodes _ _ Vf) (v_nodes _ _ Vg)) as ([|] & Eb & Hb).
  - destruct (le_axpy_same a f g Vf Vg Hsep Eb) as (h & E & _ & _ & H). exists h. tauto.
  - now apply le_axpy_diff.
Qed.

Lemma clear_sub (f h : lexpR) x : (forall v, nodes_of f v -> nodes_of h v) -> clear tol h x -> clear tol f x.
Proof. intros H C k Hk. destruct (H (nd (l_nodes f) k)) as (j & Hj & ->); [exists k; auto|]. now apply C. Qed.

Corollary le_axpy_eval a (f g : lexpR) : 0 < tol -> valid tol f -> valid tol g ->
  spaced tol (l_n f) (l_nodes f) -> spaced tol (l_n g) (l_nodes g) ->
  sepd tol (l_n f) (l_n g) (l_nodes f) (l_nodes g) ->
  nd (l_nodes f) 0 = nd (l_nodes g) 0 ->
  nd (l_nodes f) (l_n f - 1) = nd (l_nodes g) (l_n g - 1) ->
  exists h, @le_axpy K a f g = Ok h /\
    forall x : R, nd (l_nodes f) 0 <= x <= nd (l_nodes f) (l_n f - 1) -> clear tol h x ->
      exists vf vg, @le_eval K f x = Ok vf /\ @le_eval K g x = Ok vg /\ @le_eval K h x = Ok (a * vf + vg).
Proof.
  intros Ht Vf Vg Sf Sg Hsep Elb Eub.
  destruct (le_axpy_ok a f g Ht Vf Vg Sf Sg Hsep Elb Eub) as (h & E & Vh & Hn & HI).
  exists h. split; auto. intros x Hx Hc.
  destruct (le_eval_clear tol f x Vf) as (vf & Ef & Jf); auto.
  { apply clear_sub with h; auto. intros v Hv. apply Hn. now left. }
  destruct (le_eval_clear tol g x Vg) as (vg & Eg & Jg); [lra| |].
  { apply clear_sub with h; auto. intros v Hv. apply Hn. now right. }
  exists vf, vg. split; auto. split; auto.
  pose proof (HI x vf vg Jf Jg) as J.
  destruct (le_eval_clear tol h x Vh) as (vh & Eh & Jh); auto.
  { eapply Interp_range; eauto. apply Vh. }
  rewrite Eh. f_equal. apply (Interp_fun _ _ _ _ _ _ (v_inc _ _ Vh) Jh J).
Qed.

End Fix.
