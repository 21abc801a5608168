(** Grid comparison, grid merging and addition of piecewise-linear functions. *)
From Verif Require Import Base BaseFacts FOps LinElmModel LinElmSpec LinElmFacts.
From Coq Require Import Reals Lra.
Local Open Scope R_scope.

Lemma nd_app1 l l' i : (i < length l)%nat -> nd (l ++ l') i = nd l i.
Proof. intros H. unfold nd. now apply app_nth1. Qed.
Lemma nd_app_at l v l' : nd (l ++ v :: l') (length l) = v.
Proof. unfold nd. rewrite app_nth2, Nat.sub_diag by lia. reflexivity. Qed.
Lemma nd_In l i : (i < length l)%nat -> In (nd l i) l.
Proof. intros H. now apply nth_In. Qed.
Lemma In_nd l v : In v l -> exists i, (i < length l)%nat /\ v = nd l i.
Proof. intros H. destruct (In_nth l v 0 H) as (i & Hi & E). eauto. Qed.

Lemma sinc_snoc acc v : sinc (length acc) acc -> (forall w, In w acc -> w < v) ->
  sinc (length (acc ++ [v])) (acc ++ [v]).
Proof.
  intros H Hv i Hi. rewrite app_length in Hi. cbn [length] in Hi.
  destruct (Nat.eq_dec (S i) (length acc)) as [E|].
  - rewrite E, nd_app_at, nd_app1 by lia. apply Hv, nd_In. lia.
  - rewrite !nd_app1 by lia. apply H. lia.
Qed.
Lemma sinc_app1 n l l' : (n <= length l)%nat -> sinc n l -> sinc n (l ++ l').
Proof. intros Hl H i Hi. rewrite !nd_app1 by lia. now apply H. Qed.

(** Writing the next entry of an array filled from the left. *)
Lemma aset_fill {A} (acc : list A) d m v : (length acc < m)%nat ->
  aset (acc ++ repeat d (m - length acc)) (length acc) v
  = Ok ((acc ++ [v]) ++ repeat d (m - length (acc ++ [v]))).
Proof.
  intros H. rewrite (aset_ok _ (length acc)) by (rewrite app_length, repeat_length; lia).
  f_equal. rewrite app_length. cbn [length].
  replace (m - length acc)%nat with (S (m - (length acc + 1))) by lia. cbn [repeat].
  rewrite <- app_assoc. cbn [app]. clear H. generalize (repeat d (m - (length acc + 1))) as rr. intros rr.
  induction acc as [|h t IH]; [reflexivity|]. cbn [app upd length]. f_equal. apply IH.
Qed.

Lemma aset_fill' {A} (acc : list A) d m n v : length acc = n -> (n < m)%nat ->
  aset (acc ++ repeat d (m - length acc)) n v
  = Ok ((acc ++ [v]) ++ repeat d (m - length (acc ++ [v]))).
Proof. intros <-. apply aset_fill. Qed.

Section Fix.
Context (tol : R).
Notation K := (Rops tol).
Notation lexpR := (lexp K).

Lemma sdiscp_spec nf ng (fx gx : list R) : (nf <= length fx)%nat -> (ng <= length gx)%nat ->
  exists b, @sdiscp K nf ng fx gx = Ok b /\
   (b = true <-> nf = ng /\ forall i, (i < nf)%nat -> Rabs (nd fx i - nd gx i) <= tol).
Proof.
  intros Hf Hg. unfold sdiscp. destruct (nf =? ng)%nat eqn:E; cbn [negb].
  - apply Nat.eqb_eq in E. subst ng.
    destruct (for_inv (fun k (b : bool) => b = true <-> forall i, (i < k)%nat -> Rabs (nd fx i - nd gx i) <= tol)
      (fun ii (same : bool) =>
        if same then do a <- aget fx ii; do b <- aget gx ii; Ok (negb (Rltb tol (Rabs (a - b)))) else Ok false)
      nf true) as (b & Eb & Hb).
    + split; auto. intros _ i Hi. lia.
    + intros i s Hi IH. destruct s.
      * rewrite (aget_nd fx), (aget_nd gx) by lia. cbn [obind]. eexists. split; [reflexivity|].
        destruct (Rltb_spec tol (Rabs (nd fx i - nd gx i))) as [L|L]; cbn [negb]; split; intros H.
        -- congruence.
        -- specialize (H i ltac:(lia)). lra.
        -- intros j Hj. destruct (Nat.eq_dec j i) as [->|]; [lra|]. apply IH; auto. lia.
        -- reflexivity.
      * eexists. split; [reflexivity|]. split; [congruence|]. intros H. apply IH. intros j Hj. apply H. lia.
    + exists b. split; [exact Eb|]. rewrite Hb. split; [intros H; split; auto|tauto].
  - apply Nat.eqb_neq in E. exists false. split; auto. split; [congruence|]. intros [H _]. contradiction.
Qed.

(** Nodes of the two grids coincide or are farther apart than the tolerance. *)
Definition sepd (nf ng : nat) (fx gx : list R) : Prop :=
  forall i j, (i < nf)%nat -> (j < ng)%nat -> nd fx i = nd gx j \/ tol < Rabs (nd fx i - nd gx j).

Definition is_node (n : nat) (xs : list R) (v : R) : Prop := exists i, (i < n)%nat /\ v = nd xs i.

Lemma merge_loop_ok nf ng fx gx cap :
  0 < tol -> (nf <= length fx)%nat -> (ng <= length gx)%nat -> (nf + ng <= cap)%nat ->
  sinc nf fx -> sinc ng gx -> sepd nf ng fx gx ->
  forall fuel i j acc,
   (i <= nf)%nat -> (j <= ng)%nat -> (length acc <= i + j)%nat -> (nf - i + (ng - j) < fuel)%nat ->
   sinc (length acc) acc ->
   (forall v, In v acc -> ((i < nf)%nat -> v < nd fx i) /\ ((j < ng)%nat -> v < nd gx j)) ->
   (forall v, In v acc <-> is_node i fx v \/ is_node j gx v) ->
   exists X, @merge_loop K fuel nf ng fx gx i j (acc ++ repeat 0 (cap - length acc)) (length acc)
             = Ok (length X, X ++ repeat 0 (cap - length X))
     /\ (length X <= nf + ng)%nat /\ sinc (length X) X
     /\ (forall v, In v X <-> is_node nf fx v \/ is_node ng gx v).
Proof.
  intros Ht Hf Hg Hcap Sf Sg Hsep. induction fuel as [|fuel IH]; intros i j acc Hi Hj Hl Hfu Hs Hlt Hin; [lia|].
  cbn [merge_loop].
  destruct (Nat.ltb_spec i nf) as [Li|Li]; [|destruct (Nat.ltb_spec j ng) as [Lj|Lj]]; cbn [orb].
  - destruct (Nat.eqb_spec i nf) as [|_]; [lia|].
    destruct (Nat.eqb_spec j ng) as [Ej|Nj].
    + (* only f left *)
      rewrite (aget_nd fx) by lia. cbn [obind]. unr.
      rewrite (aset_fill acc 0 cap (nd fx i)) by lia. cbn [obind].
      replace (length acc + 1)%nat with (length (acc ++ [nd fx i])) by (rewrite app_length; cbn; lia).
      apply IH; try lia.
      * rewrite app_length; cbn; lia.
      * apply sinc_snoc; auto. intros w Hw. now apply Hlt.
      * intros v Hv. apply in_app_or in Hv. split; [|lia]. intros Hi1.
        pose proof (Sf i ltac:(lia)). replace (i + 1)%nat with (S i) by lia.
        destruct Hv as [Hv|[<-|[]]]; [|auto]. destruct (Hlt v Hv) as [A _]. specialize (A Li). lra.
      * intros v. rewrite in_app_iff, Hin. cbn [In]. split.
        -- intros [[(k & Hk & E)|H]|[E|[]]]; [left; exists k; split; [lia|auto]|now right|].
           left. exists i. split; [lia|auto].
        -- intros [(k & Hk & E)|H]; [|left; now right].
           destruct (Nat.eq_dec k i) as [->|]; [right; left; auto|]. left; left. exists k. split; [lia|auto].
    + (* both left *)
      rewrite (aget_nd fx), (aget_nd gx) by lia. cbn [obind]. unr.
      destruct (Rltb_spec (Rabs (nd fx i - nd gx j)) tol) as [T|T].
      * assert (E : nd fx i = nd gx j) by (destruct (Hsep i j); auto; [lia|lra]).
        rewrite (aset_fill acc 0 cap (nd fx i)) by lia. cbn [obind].
        replace (length acc + 1)%nat with (length (acc ++ [nd fx i])) by (rewrite app_length; cbn; lia).
        apply IH; try lia.
        -- rewrite app_length; cbn; lia.
        -- apply sinc_snoc; auto. intros w Hw. now apply Hlt.
        -- intros v Hv. apply in_app_or in Hv. replace (i + 1)%nat with (S i) by lia. replace (j + 1)%nat with (S j) by lia.
           assert (v <= nd fx i).
           { destruct Hv as [Hv|[<-|[]]]; [|lra]. destruct (Hlt v Hv) as [A _]. specialize (A Li). lra. }
           split; intros Hi1.
           ++ pose proof (Sf i ltac:(lia)). lra.
           ++ pose proof (Sg j ltac:(lia)). lra.
        -- intros v. rewrite in_app_iff, Hin. cbn [In]. split.
           ++ intros [[(k & Hk & E')|(k & Hk & E')]|[E'|[]]].
              ** left; exists k; split; [lia|auto].
              ** right; exists k; split; [lia|auto].
              ** left. exists i. split; [lia|auto].
           ++ intros [(k & Hk & E')|(k & Hk & E')].
              ** destruct (Nat.eq_dec k i) as [->|]; [right; left; auto|]. left; left. exists k. split; [lia|auto].
              ** destruct (Nat.eq_dec k j) as [->|]; [right; left; congruence|]. left; right. exists k. split; [lia|auto].
      * destruct (Rltb_spec (nd fx i) (nd gx j)) as [L|L].
        -- rewrite (aset_fill acc 0 cap (nd fx i)) by lia. cbn [obind].
           replace (length acc + 1)%nat with (length (acc ++ [nd fx i])) by (rewrite app_length; cbn; lia).
           apply IH; try lia.
           ++ rewrite app_length; cbn; lia.
           ++ apply sinc_snoc; auto. intros w Hw. now apply Hlt.
           ++ intros v Hv. apply in_app_or in Hv. replace (i + 1)%nat with (S i) by lia.
              assert (v <= nd fx i).
              { destruct Hv as [Hv|[<-|[]]]; [|lra]. destruct (Hlt v Hv) as [A _]. specialize (A Li). lra. }
              split; intros Hi1; [pose proof (Sf i ltac:(lia)); lra|lra].
           ++ intros v. rewrite in_app_iff, Hin. cbn [In]. split.
              ** intros [[(k & Hk & E)|H]|[E|[]]]; [left; exists k; split; [lia|auto]|now right|].
                 left. exists i. split; [lia|auto].
              ** intros [(k & Hk & E)|H]; [|left; now right].
                 destruct (Nat.eq_dec k i) as [->|]; [right; left; auto|]. left; left. exists k. split; [lia|auto].
        -- assert (L' : nd gx j < nd fx i).
           { destruct (Req_dec (nd fx i) (nd gx j)) as [E|]; [|lra]. exfalso. apply T. rewrite E, Rminus_diag_eq, Rabs_R0 by auto. lra. }
           destruct (Rltb_spec (nd gx j) (nd fx i)); [|lra].
           rewrite (aset_fill acc 0 cap (nd gx j)) by lia. cbn [obind].
           replace (length acc + 1)%nat with (length (acc ++ [nd gx j])) by (rewrite app_length; cbn; lia).
           apply IH; try lia.
           ++ rewrite app_length; cbn; lia.
           ++ apply sinc_snoc; auto. intros w Hw. apply Hlt; auto. lia.
           ++ intros v Hv. apply in_app_or in Hv. replace (j + 1)%nat with (S j) by lia.
              assert (v <= nd gx j).
              { destruct Hv as [Hv|[<-|[]]]; [|lra]. destruct (Hlt v Hv) as [_ A]. specialize (A ltac:(lia)). lra. }
              split; intros Hi1; [lra|pose proof (Sg j ltac:(lia)); lra].
           ++ intros v. rewrite in_app_iff, Hin. cbn [In]. split.
              ** intros [[H|(k & Hk & E)]|[E|[]]]; [now left|right; exists k; split; [lia|auto]|].
                 right. exists j. split; [lia|auto].
              ** intros [H|(k & Hk & E)]; [left; now left|].
                 destruct (Nat.eq_dec k j) as [->|]; [right; left; auto|]. left; right. exists k. split; [lia|auto].
  - (* only g left *)
    destruct (Nat.eqb_spec i nf) as [_|]; [|lia].
    rewrite (aget_nd gx) by lia. cbn [obind]. unr.
    rewrite (aset_fill acc 0 cap (nd gx j)) by lia. cbn [obind].
    replace (length acc + 1)%nat with (length (acc ++ [nd gx j])) by (rewrite app_length; cbn; lia).
    apply IH; try lia.
    + rewrite app_length; cbn; lia.
    + apply sinc_snoc; auto. intros w Hw. now apply Hlt.
    + intros v Hv. apply in_app_or in Hv. split; [lia|]. intros Hi1.
      pose proof (Sg j ltac:(lia)). replace (j + 1)%nat with (S j) by lia.
      destruct Hv as [Hv|[<-|[]]]; [|auto]. destruct (Hlt v Hv) as [_ A]. specialize (A Lj). lra.
    + intros v. rewrite in_app_iff, Hin. cbn [In]. split.
      * intros [[H|(k & Hk & E)]|[E|[]]]; [now left|right; exists k; split; [lia|auto]|].
        right. exists j. split; [lia|auto].
      * intros [H|(k & Hk & E)]; [left; now left|].
        destruct (Nat.eq_dec k j) as [->|]; [right; left; auto|]. left; right. exists k. split; [lia|auto].
  - exists acc. assert (i = nf) by lia. assert (j = ng) by lia. subst. repeat split; auto; try lia; apply Hin.
Qed.

Lemma interp_same_grid_ok nf ng (fx gx : list R) :
  0 < tol -> (nf <= length fx)%nat -> (ng <= length gx)%nat ->
  sinc nf fx -> sinc ng gx -> sepd nf ng fx gx ->
  exists X, @interp_same_grid K nf ng fx gx = Ok (length X, X ++ repeat 0 (nf + ng - length X))
     /\ (length X <= nf + ng)%nat /\ sinc (length X) X
     /\ (forall v, In v X <-> is_node nf fx v \/ is_node ng gx v).
Proof.
  intros Ht Hf Hg Sf Sg Hsep.
  destruct (merge_loop_ok nf ng fx gx (nf + ng) Ht Hf Hg (le_n _) Sf Sg Hsep (S (nf + ng)) 0 0 [])
    as (X & E & H); try (cbn [length]; lia).
  - intros i Hi. cbn in Hi. lia.
  - intros v [].
  - intros v. cbn [In]. split; [tauto|]. intros [(k & Hk & _)|(k & Hk & _)]; lia.
  - exists X. split; auto. rewrite <- E. unfold interp_same_grid. cbn [length]. rewrite Nat.sub_0_r. reflexivity.
Qed.

End Fix.

(** On an interval without inner nodes the polygon is a straight line. *)
Lemma Interp_ex n xs ys x : (2 <= n)%nat -> sinc n xs -> nd xs 0 <= x <= nd xs (n - 1) ->
  exists y, Interp n xs ys x y.
Proof.
  intros Hn Hs Hx. destruct (cell_exists n xs x) as (i & Hi & Hxi); auto; try lra.
  eexists. exists i. split; auto. split; auto. apply on_line_formula. now apply Hs.
Qed.

Lemma Interp_range n xs ys x y : sinc n xs -> Interp n xs ys x y -> nd xs 0 <= x <= nd xs (n - 1).
Proof.
  intros Hs (i & Hi & Hx & _).
  assert (nd xs 0 <= nd xs i) by (apply sinc_le with n; auto; lia).
  assert (nd xs (S i) <= nd xs (n - 1)) by (apply sinc_le with n; auto; lia). lra.
Qed.

Lemma Interp_cell n xs ys p q yp yq : (2 <= n)%nat -> sinc n xs -> p < q ->
  (forall i, (i < n)%nat -> nd xs i <= p \/ q <= nd xs i) ->
  Interp n xs ys p yp -> Interp n xs ys q yq ->
  forall x y, p <= x <= q -> (Interp n xs ys x y <-> on_line p yp q yq x y).
Proof.
  intros Hn Hs Hpq Hno Ip Iq.
  pose proof (Interp_range _ _ _ _ _ Hs Ip). pose proof (Interp_range _ _ _ _ _ Hs Iq).
  destruct (cell_exists n xs ((p + q) / 2)) as (i & Hi & Hm); auto; try lra.
  assert (A : nd xs i <= p) by (destruct (Hno i ltac:(lia)); lra).
  assert (B : q <= nd xs (S i)) by (destruct (Hno (S i) ltac:(lia)); lra).
  pose proof (Hs i Hi) as Hd.
  set (x0 := nd xs i) in *. set (x1 := nd xs (S i)) in *. set (y0 := nd ys i) in *. set (y1 := nd ys (S i)) in *.
  assert (Hline : forall x y, p <= x <= q -> Interp n xs ys x y -> on_line x0 y0 x1 y1 x y).
  { intros x y Hx I.
    assert (I' : Interp n xs ys x (y0 * ((x1 - x) / (x1 - x0)) + y1 * (1 - (x1 - x) / (x1 - x0)))).
    { exists i. split; auto. split; [unfold x0, x1 in *; lra|]. now apply on_line_formula. }
    rewrite (Interp_fun _ _ _ _ _ _ Hs I I'). now apply on_line_formula. }
  pose proof (Hline p yp ltac:(lra) Ip) as Lp. pose proof (Hline q yq ltac:(lra) Iq) as Lq.
  unfold on_line in *.
  set (sl := (y1 - y0) / (x1 - x0)).
  assert (Esl : (y1 - y0) = sl * (x1 - x0)) by (unfold sl; field; lra).
  assert (Ep : yp = y0 + sl * (p - x0)).
  { apply Rmult_eq_reg_r with (x1 - x0); [|lra]. nra. }
  assert (Eq : yq = y0 + sl * (q - x0)).
  { apply Rmult_eq_reg_r with (x1 - x0); [|lra]. nra. }
  intros x y Hx. split; intros I.
  - specialize (Hline x y Hx I).
    assert (Ey : y = y0 + sl * (x - x0)).
    { apply Rmult_eq_reg_r with (x1 - x0); [|lra]. nra. }
    rewrite Ep, Eq, Ey. ring.
  - assert (Ey : y = y0 + sl * (x - x0)).
    { rewrite Ep, Eq in I. assert ((y - (y0 + sl * (x - x0))) * (q - p) = 0) by nra.
      apply Rmult_integral in H1. lra. }
    exists i. split; auto. split; [unfold x0, x1 in *; lra|]. fold x0 x1 y0 y1. unfold on_line.
    rewrite Ey, Esl. ring.
Qed.
