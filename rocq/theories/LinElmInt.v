(** Integration and inner products of piecewise-linear functions. *)
From Verif Require Import Base BaseFacts FOps LinElmModel LinElmSpec LinElmFacts LinElmMerge LinElmArith RIntLib.
From Coq Require Import Reals Lra.
Local Open Scope R_scope.

(** Area under the polygon through the first [n] points. *)
Fixpoint trap (n : nat) (x y : nat -> R) : R :=
  match n with
  | S ((S m) as n') => trap n' x y + (y m + y (S m)) / 2 * (x (S m) - x m)
  | _ => 0
  end.

Lemma trap_SS m x y : trap (S (S m)) x y = trap (S m) x y + (y m + y (S m)) / 2 * (x (S m) - x m).
Proof. reflexivity. Qed.

Lemma trap_ext n x y x' y' : (forall i, (i < n)%nat -> x i = x' i) -> (forall i, (i < n)%nat -> y i = y' i) ->
  trap n x y = trap n x' y'.
Proof.
  intros Hx Hy. destruct n as [|n]; [reflexivity|]. induction n as [|n IH]; [reflexivity|].
  rewrite !trap_SS, IH by auto. rewrite !Hx, !Hy by lia. reflexivity.
Qed.
Lemma trap_comb n x y y' a : trap n x (fun i => a * y i + y' i) = a * trap n x y + trap n x y'.
Proof.
  destruct n as [|n]; [cbn; ring|]. induction n as [|n IH]; [cbn; ring|].
  rewrite !trap_SS, IH. field.
Qed.

(** It is the integral of every function whose graph is the polygon. *)
Lemma trap_RInt (xs ys : list R) (h : R -> R) n : (1 <= n)%nat -> sinc n xs ->
  (forall i x, (S i < n)%nat -> nd xs i < x < nd xs (S i) -> on_line (nd xs i) (nd ys i) (nd xs (S i)) (nd ys (S i)) x (h x)) ->
  is_RInt h (nd xs 0) (nd xs (n - 1)) (trap n (nd xs) (nd ys)).
Proof.
  intros Hn Hs. destruct n as [|n]; [lia|]. clear Hn. replace (S n - 1)%nat with n by lia.
  induction n as [|n IH]; intros Hh; [apply is_RInt_point|].
  rewrite trap_SS. apply is_RInt_chasles with (nd xs n).
  - apply IH; [intros i Hi; apply Hs; lia|]. intros i x Hi. apply Hh. lia.
  - assert (Hlt : nd xs n < nd xs (S n)) by (apply Hs; lia).
    set (x0 := nd xs n) in *. set (x1 := nd xs (S n)) in *. set (y0 := nd ys n) in *. set (y1 := nd ys (S n)) in *.
    set (sl := (y1 - y0) / (x1 - x0)).
    replace ((y0 + y1) / 2 * (x1 - x0))
      with (((y0 - sl * x0) + sl * x0 + ((y0 - sl * x0) + sl * x1)) / 2 * (x1 - x0)) by (unfold sl; field; lra).
    apply is_RInt_affine; [lra|]. intros x Hx.
    assert (L : on_line x0 y0 x1 y1 x (h x)) by (apply Hh; [lia|auto]). unfold on_line in L.
    apply Rmult_eq_reg_r with (x1 - x0); [|lra]. unfold sl. field_simplify; [|lra]. lra.
Qed.

Lemma Interp_graph_line (xs ys : list R) n (h : R -> R) : sinc n xs ->
  (forall x, nd xs 0 <= x <= nd xs (n - 1) -> Interp n xs ys x (h x)) ->
  forall i x, (S i < n)%nat -> nd xs i < x < nd xs (S i) -> on_line (nd xs i) (nd ys i) (nd xs (S i)) (nd ys (S i)) x (h x).
Proof.
  intros Hs Hh i x Hi Hx.
  assert (nd xs 0 <= nd xs i) by (apply sinc_le with n; auto; lia).
  assert (nd xs (S i) <= nd xs (n - 1)) by (apply sinc_le with n; auto; lia).
  destruct (Hh x ltac:(lra)) as (j & Hj & Hxj & L).
  assert (j = i); [|now subst].
  destruct (Nat.lt_trichotomy j i) as [C|[C|C]]; auto; exfalso.
  - assert (nd xs (S j) <= nd xs i) by (apply sinc_le with n; auto; lia). lra.
  - assert (nd xs (S i) <= nd xs j) by (apply sinc_le with n; auto; lia). lra.
Qed.

Section Fix.
Context (tol : R).
Notation K := (Rops tol).
Notation lexpR := (lexp K).
Notation nodes_of f := (is_node (l_n f) (l_nodes f)).
Notation In_f f := (Interp (l_n f) (l_nodes f) (l_coeff f)).

Lemma le_integrate_trap (f : lexpR) : (2 <= l_n f)%nat -> (l_n f <= length (l_nodes f))%nat ->
  (l_n f <= length (l_coeff f))%nat ->
  @le_integrate K f = Ok (trap (l_n f) (nd (l_nodes f)) (nd (l_coeff f))).
Proof.
  intros Hn Hl Hc. destruct f as [n xs cs]. cbn [l_n l_nodes l_coeff] in *. unr.
  unfold le_integrate. cbn [l_n l_nodes l_coeff].
  destruct (Nat.ltb_spec 1 n) as [_|]; [|lia]. cbn [cassert obind].
  rewrite !(aget_nd xs) by lia. rewrite !(aget_nd cs) by lia. cbn [obind]. unr.
  match goal with |- context [for_from 1 (n - 2) ?b00 ?s00] =>
    destruct (for_from_inv (fun m v => v = trap m (nd xs) (nd cs) + nd cs (m - 1) * (nd xs m - nd xs (m - 1)) * (1 / INR 2))
      b00 1 (n - 2) s00) as (v & E & Hv) end.
  - cbn [trap Nat.sub]. ring.
  - intros i v Hi Hv. cbv beta. rewrite !(aget_nd xs) by lia. rewrite !(aget_nd cs) by lia. cbn [obind].
    eexists. split; [reflexivity|]. rewrite Hv. destruct i as [|i]; [lia|].
    replace (S i - 1)%nat with i by lia. replace (S (S i) - 1)%nat with (S i) by lia.
    replace (S i + 1)%nat with (S (S i)) by lia. rewrite trap_SS. replace (INR 2) with 2 by (cbn; lra). field.
  - rewrite E. cbn [obind]. f_equal. rewrite Hv. replace (1 + (n - 2))%nat with (n - 1)%nat by lia.
    destruct n as [|[|n]]; try lia. replace (S (S n) - 1)%nat with (S n) by lia. replace (S (S n) - 2)%nat with n by lia.
    replace (S n - 1)%nat with n by lia. rewrite trap_SS. replace (INR 2) with 2 by (cbn; lra). field.
Qed.

Lemma le_inner_same_trap n (xs fs gs : list R) : (2 <= n)%nat -> (n <= length xs)%nat ->
  (n <= length fs)%nat -> (n <= length gs)%nat ->
  @le_inner_same K n xs fs gs = Ok (trap n (nd xs) (fun i => nd fs i * nd gs i)).
Proof.
  intros Hn Hl Hf Hg. unfold le_inner_same.
  rewrite !(aget_nd xs), !(aget_nd fs), !(aget_nd gs) by lia. cbn [obind]. unr.
  match goal with |- context [for_from 1 (n - 2) ?b00 ?s00] =>
    destruct (for_from_inv (fun m v => v = trap m (nd xs) (fun i => nd fs i * nd gs i)
        + nd fs (m - 1) * nd gs (m - 1) * (nd xs m - nd xs (m - 1)) * (1 / INR 2))
      b00 1 (n - 2) s00) as (v & E & Hv) end.
  - cbn [trap Nat.sub]. ring.
  - intros i v Hi Hv. cbv beta. rewrite !(aget_nd xs), !(aget_nd fs), !(aget_nd gs) by lia. cbn [obind].
    eexists. split; [reflexivity|]. rewrite Hv. destruct i as [|i]; [lia|].
    replace (S i - 1)%nat with i by lia. replace (S (S i) - 1)%nat with (S i) by lia.
    replace (S i + 1)%nat with (S (S i)) by lia. rewrite trap_SS. replace (INR 2) with 2 by (cbn; lra). field.
  - rewrite E. cbn [obind]. f_equal. rewrite Hv. replace (1 + (n - 2))%nat with (n - 1)%nat by lia.
    destruct n as [|[|n]]; try lia. replace (S (S n) - 1)%nat with (S n) by lia. replace (S (S n) - 2)%nat with n by lia.
    replace (S n - 1)%nat with n by lia. rewrite trap_SS. replace (INR 2) with 2 by (cbn; lra). field.
Qed.

(** lin_elem_exp_integrate is the exact integral. *)
Theorem le_integrate_exact (f : lexpR) (h : R -> R) : valid tol f ->
  (forall x, nd (l_nodes f) 0 <= x <= nd (l_nodes f) (l_n f - 1) -> In_f f x (h x)) ->
  exists v, @le_integrate K f = Ok v /\ is_RInt h (nd (l_nodes f) 0) (nd (l_nodes f) (l_n f - 1)) v.
Proof.
  intros V Hh. pose proof V as [Hn Hl Hc Hs]. unr. rewrite le_integrate_trap by rlia.
  eexists. split; [reflexivity|]. apply trap_RInt; auto; [lia|]. now apply Interp_graph_line.
Qed.

(** ** Inner products *)
Lemma le_inner_samegrid (f g : lexpR) : valid tol f -> valid tol g ->
  sepd tol (l_n f) (l_n g) (l_nodes f) (l_nodes g) -> @le_sdiscp K f g = Ok true ->
  l_n f = l_n g /\ (forall i, (i < l_n f)%nat -> nd (l_nodes f) i = nd (l_nodes g) i) /\
  @le_inner K f g = Ok (trap (l_n f) (nd (l_nodes f)) (fun i => nd (l_coeff f) i * nd (l_coeff g) i)).
Proof.
  intros Vf Vg Hsep E. pose proof Vf as [Nf Lf Cf If]. pose proof Vg as [Ng Lg Cg Ig]. unr.
  destruct (sdiscp_spec tol (l_n f) (l_n g) (l_nodes f) (l_nodes g) Lf Lg) as (b & Eb & Hb).
  unfold le_inner. setoid_rewrite E. cbn [obind].
  unfold le_sdiscp in E. setoid_rewrite Eb in E. injection E as ->.
  destruct Hb as [Hb _]. destruct (Hb eq_refl) as [En Hd].
  split; auto. split.
  - intros i Hi. destruct (Hsep i i Hi ltac:(lia)) as [?|L]; auto. specialize (Hd i Hi). lra.
  - apply le_inner_same_trap; lia.
Qed.

Lemma skip_loop_0 (nodes : list R) b fuel : (1 < length nodes)%nat -> (0 < fuel)%nat -> b <= nd nodes 1 ->
  @skip_loop K fuel nodes b 0 = Ok 0%nat.
Proof.
  intros Hl Hf Hb. destruct fuel; [lia|]. cbn [skip_loop Nat.add]. rewrite (aget_nd nodes) by lia. cbn [obind]. unr.
  destruct (Rltb_spec (nd nodes 1) b); [lra|reflexivity].
Qed.

Lemma isg_loop_ok (f g : lexpR) cap : 0 < tol -> valid tol f -> valid tol g ->
  spaced tol (l_n f) (l_nodes f) -> spaced tol (l_n g) (l_nodes g) ->
  sepd tol (l_n f) (l_n g) (l_nodes f) (l_nodes g) ->
  nd (l_nodes f) 0 = nd (l_nodes g) 0 ->
  nd (l_nodes f) (l_n f - 1) = nd (l_nodes g) (l_n g - 1) ->
  (l_n f + l_n g <= cap)%nat ->
  forall fuel i j (X fv gv : list R),
   (i <= l_n f)%nat -> (j <= l_n g)%nat -> (length X <= i + j)%nat -> (l_n f - i + (l_n g - j) < fuel)%nat ->
   length fv = length X -> length gv = length X ->
   sinc (length X) X ->
   (forall v, In v X -> ((i < l_n f)%nat -> v < nd (l_nodes f) i) /\ ((j < l_n g)%nat -> v < nd (l_nodes g) j)) ->
   (forall v, In v X <-> is_node i (l_nodes f) v \/ is_node j (l_nodes g) v) ->
   (forall k, (k < length X)%nat -> In_f f (nd X k) (nd fv k) /\ In_f g (nd X k) (nd gv k)) ->
   exists X' fv' gv',
     @isg_loop K fuel (l_n f) (l_n g) (l_nodes f) (l_coeff f) (l_nodes g) (l_coeff g) (le_eval f) (le_eval g) i j
        (X ++ repeat 0 (cap - length X)) (fv ++ repeat 0 (cap - length fv)) (gv ++ repeat 0 (cap - length gv)) (length X)
      = Ok (length X', X' ++ repeat 0 (cap - length X'), fv' ++ repeat 0 (cap - length fv'), gv' ++ repeat 0 (cap - length gv'))
     /\ length fv' = length X' /\ length gv' = length X' /\ sinc (length X') X'
     /\ (forall v, In v X' <-> nodes_of f v \/ nodes_of g v)
     /\ (forall k, (k < length X')%nat -> In_f f (nd X' k) (nd fv' k) /\ In_f g (nd X' k) (nd gv' k)).
Proof.
  intros Ht Vf Vg Sf Sg Hsep Elb Eub Hcap. pose proof Vf as [Nf Lf Cf If]. pose proof Vg as [Ng Lg Cg Ig]. unr.
  induction fuel as [|fuel IH]; intros i j X fv gv Hi Hj Hl Hfu Hlf Hlg Hs Hlt Hin Hval; [lia|].
  cbn [isg_loop].
  assert (Snoc : forall v a b, length (X ++ [v]) = S (length X) /\ length (fv ++ [a]) = length (X ++ [v]) /\ length (gv ++ [b]) = length (X ++ [v])).
  { intros. rewrite !app_length. cbn. lia. }
  assert (Vsnoc : forall v a b, In_f f v a -> In_f g v b -> forall k, (k < length (X ++ [v]))%nat ->
      In_f f (nd (X ++ [v]) k) (nd (fv ++ [a]) k) /\ In_f g (nd (X ++ [v]) k) (nd (gv ++ [b]) k)).
  { intros v a b Ha Hb k Hk. rewrite app_length in Hk. cbn in Hk.
    destruct (Nat.eq_dec k (length X)) as [->|].
    - rewrite nd_app_at. split; [rewrite <- Hlf, nd_app_at; auto|rewrite <- Hlg, nd_app_at; auto].
    - rewrite !nd_app1 by lia. apply Hval. lia. }
  destruct (Nat.ltb_spec i (l_n f)) as [Li|Li]; [destruct (Nat.ltb_spec j (l_n g)) as [Lj|Lj]|]; cbn [andb].
  - rewrite (aget_nd (l_nodes f)), (aget_nd (l_nodes g)) by lia. cbn [obind]. unr.
    set (a := nd (l_nodes f) i) in *. set (b := nd (l_nodes g) j) in *.
    assert (Ra : nd (l_nodes g) 0 <= a <= nd (l_nodes g) (l_n g - 1)).
    { rewrite <- Elb, <- Eub. split; apply sinc_le with (l_n f); auto; lia. }
    assert (Rb : nd (l_nodes f) 0 <= b <= nd (l_nodes f) (l_n f - 1)).
    { rewrite Elb, Eub. split; apply sinc_le with (l_n g); auto; lia. }
    destruct (Rltb_spec (Rabs (a - b)) tol) as [T|T].
    + assert (E : a = b) by (destruct (Hsep i j); auto; [fold a b in H; lra]).
      rewrite (aget_nd (l_coeff f)), (aget_nd (l_coeff g)) by lia. cbn [obind].
      rewrite (aset_fill X 0 cap a) by lia. cbn [obind].
      rewrite (aset_fill' fv 0 cap) by (auto; lia). cbn [obind].
      rewrite (aset_fill' gv 0 cap) by (auto; lia). cbn [obind].
      destruct (Snoc a (nd (l_coeff f) i) (nd (l_coeff g) j)) as (S1 & S2 & S3).
      replace (length X + 1)%nat with (length (X ++ [a])) by lia.
      apply IH; auto; try lia.
      * apply sinc_snoc; auto. intros w Hw. now apply Hlt.
      * intros v Hv. apply in_app_or in Hv. replace (i + 1)%nat with (S i) by lia. replace (j + 1)%nat with (S j) by lia.
        assert (v <= a).
        { destruct Hv as [Hv|[<-|[]]]; [|lra]. destruct (Hlt v Hv) as [A _]. specialize (A Li). lra. }
        split; intros Hi1.
        -- pose proof (If i ltac:(lia)). fold a in H0. lra.
        -- pose proof (Ig j ltac:(lia)). fold b in H0. lra.
      * intros v. rewrite in_app_iff, Hin. cbn [In]. split.
        -- intros [[(k & Hk & E')|(k & Hk & E')]|[E'|[]]].
           ++ left; exists k; split; [lia|auto].
           ++ right; exists k; split; [lia|auto].
           ++ left. exists i. split; [lia|auto].
        -- intros [(k & Hk & E')|(k & Hk & E')].
           ++ destruct (Nat.eq_dec k i) as [->|]; [right; left; auto|]. left; left. exists k. split; [lia|auto].
           ++ destruct (Nat.eq_dec k j) as [->|]; [right; left; rewrite E', E; auto|]. left; right. exists k. split; [lia|auto].
      * apply Vsnoc; [apply Interp_node; auto|]. rewrite E. apply Interp_node; auto.
    + destruct (Rltb_spec a b) as [L|L].
      * destruct (le_eval_clear tol g a Vg Ra) as (v & Ev & Iv).
        { apply node_clear with f; auto; try lra; [now apply sepd_sym|]. right. exists i. auto. }
        rewrite (aget_nd (l_coeff f)) by lia. cbn [obind].
        rewrite (aset_fill X 0 cap a) by lia. cbn [obind].
        rewrite (aset_fill' fv 0 cap) by (auto; lia). cbn [obind].
        setoid_rewrite Ev. cbn [obind].
        rewrite (aset_fill' gv 0 cap) by (auto; lia). cbn [obind].
        destruct (Snoc a (nd (l_coeff f) i) v) as (S1 & S2 & S3).
        replace (length X + 1)%nat with (length (X ++ [a])) by lia.
        apply IH; auto; try lia.
        -- apply sinc_snoc; auto. intros w Hw. now apply Hlt.
        -- intros w Hv. apply in_app_or in Hv. replace (i + 1)%nat with (S i) by lia.
           assert (w <= a).
           { destruct Hv as [Hv|[<-|[]]]; [|lra]. destruct (Hlt w Hv) as [A _]. specialize (A Li). lra. }
           split; intros Hi1; [pose proof (If i ltac:(lia)) as Q; fold a in Q; lra|fold b; lra].
        -- intros w. rewrite in_app_iff, Hin. cbn [In]. split.
           ++ intros [[(k & Hk & E)|H]|[E|[]]]; [left; exists k; split; [lia|auto]|now right|].
              left. exists i. split; [lia|auto].
           ++ intros [(k & Hk & E)|H]; [|left; now right].
              destruct (Nat.eq_dec k i) as [->|]; [right; left; auto|]. left; left. exists k. split; [lia|auto].
        -- apply Vsnoc; auto. apply Interp_node; auto.
      * assert (L' : b < a).
        { destruct (Req_dec a b) as [E|]; [|lra]. exfalso. apply T. rewrite E, Rminus_diag_eq, Rabs_R0 by auto. lra. }
        destruct (Rltb_spec b a); [|lra].
        destruct (le_eval_clear tol f b Vf Rb) as (v & Ev & Iv).
        { apply node_clear with g; auto; try lra. right. exists j. auto. }
        rewrite (aset_fill X 0 cap b) by lia. cbn [obind].
        setoid_rewrite Ev. cbn [obind].
        rewrite (aset_fill' fv 0 cap) by (auto; lia). cbn [obind].
        rewrite (aget_nd (l_coeff g)) by lia. cbn [obind].
        rewrite (aset_fill' gv 0 cap) by (auto; lia). cbn [obind].
        destruct (Snoc b v (nd (l_coeff g) j)) as (S1 & S2 & S3).
        replace (length X + 1)%nat with (length (X ++ [b])) by lia.
        apply IH; auto; try lia.
        -- apply sinc_snoc; auto. intros w Hw. now apply Hlt.
        -- intros w Hv. apply in_app_or in Hv. replace (j + 1)%nat with (S j) by lia.
           assert (w <= b).
           { destruct Hv as [Hv|[<-|[]]]; [|lra]. destruct (Hlt w Hv) as [_ A]. specialize (A Lj). lra. }
           split; intros Hi1; [fold a; lra|pose proof (Ig j ltac:(lia)) as Q; fold b in Q; lra].
        -- intros w. rewrite in_app_iff, Hin. cbn [In]. split.
           ++ intros [[H|(k & Hk & E)]|[E|[]]]; [now left|right; exists k; split; [lia|auto]|].
              right. exists j. split; [lia|auto].
           ++ intros [H|(k & Hk & E)]; [left; now left|].
              destruct (Nat.eq_dec k j) as [->|]; [right; left; auto|]. left; right. exists k. split; [lia|auto].
        -- apply Vsnoc; auto. apply Interp_node; auto.
  - (* g exhausted first: impossible, the last node of g is the last of f *)
    exfalso. assert (j = l_n g) by lia. subst j.
    assert (Hg : In (nd (l_nodes g) (l_n g - 1)) X) by (apply Hin; right; exists (l_n g - 1)%nat; split; [lia|auto]).
    destruct (Hlt _ Hg) as [A _]. specialize (A Li). rewrite <- Eub in A.
    assert (nd (l_nodes f) i <= nd (l_nodes f) (l_n f - 1)) by (apply sinc_le with (l_n f); auto; lia). lra.
  - assert (i = l_n f) by lia. subst i.
    assert (j = l_n g).
    { destruct (Nat.eq_dec j (l_n g)) as [|N]; auto. exfalso.
      assert (Hf : In (nd (l_nodes f) (l_n f - 1)) X) by (apply Hin; left; exists (l_n f - 1)%nat; split; [lia|auto]).
      destruct (Hlt _ Hf) as [_ A]. specialize (A ltac:(lia)). rewrite Eub in A.
      assert (nd (l_nodes g) j <= nd (l_nodes g) (l_n g - 1)) by (apply sinc_le with (l_n g); auto; lia). lra. }
    subst j. exists X, fv, gv. repeat match goal with |- _ /\ _ => split end; auto.
Qed.

(** Strictly increasing lists with the same elements are equal. *)
Lemma sinc_tl v l : sinc (length (v :: l)) (v :: l) -> sinc (length l) l.
Proof. intros H i Hi. apply (H (S i)). cbn. lia. Qed.
Lemma sinc_head v l w : sinc (length (v :: l)) (v :: l) -> In w l -> v < w.
Proof.
  intros H Hw. destruct (In_nd _ _ Hw) as (i & Hi & ->). apply (sinc_lt _ (v :: l) 0 (S i) H); cbn; lia.
Qed.
Lemma sinc_ext : forall X Y, sinc (length X) X -> sinc (length Y) Y -> (forall v, In v X <-> In v Y) -> X = Y.
Proof.
  induction X as [|x X IH]; intros Y HX HY H.
  - destruct Y as [|y Y]; auto. exfalso. apply (H y). now left.
  - destruct Y as [|y Y]; [exfalso; apply (H x); now left|].
    assert (x = y).
    { destruct (proj1 (H x) (or_introl eq_refl)) as [E|E]; [congruence|].
      destruct (proj2 (H y) (or_introl eq_refl)) as [E'|E']; [congruence|].
      pose proof (sinc_head _ _ _ HY E). pose proof (sinc_head _ _ _ HX E'). lra. }
    subst y. f_equal. apply IH; try (eapply sinc_tl; eauto).
    intros v. split; intros Hv.
    + destruct (proj1 (H v) (or_intror Hv)) as [E|E]; auto. subst.
      pose proof (sinc_head _ _ _ HX Hv). lra.
    + destruct (proj2 (H v) (or_intror Hv)) as [E|E]; auto. subst.
      pose proof (sinc_head _ _ _ HY Hv). lra.
Qed.

(** The general result: the inner product is the area under the polygon which
    interpolates the product at the nodes of both functions. *)
Theorem le_inner_ok (f g : lexpR) : 0 < tol -> valid tol f -> valid tol g ->
  spaced tol (l_n f) (l_nodes f) -> spaced tol (l_n g) (l_nodes g) ->
  sepd tol (l_n f) (l_n g) (l_nodes f) (l_nodes g) ->
  nd (l_nodes f) 0 = nd (l_nodes g) 0 ->
  nd (l_nodes f) (l_n f - 1) = nd (l_nodes g) (l_n g - 1) ->
  exists X fv gv, length fv = length X /\ length gv = length X /\ (2 <= length X)%nat /\ sinc (length X) X
     /\ (forall v, In v X <-> nodes_of f v \/ nodes_of g v)
     /\ (forall k, (k < length X)%nat -> In_f f (nd X k) (nd fv k) /\ In_f g (nd X k) (nd gv k))
     /\ @le_inner K f g = Ok (trap (length X) (nd X) (fun k => nd fv k * nd gv k)).
Proof.
  intros Ht Vf Vg Sf Sg Hsep Elb Eub. pose proof Vf as [Nf Lf Cf If]. pose proof Vg as [Ng Lg Cg Ig]. unr.
  destruct (sdiscp_spec tol (l_n f) (l_n g) (l_nodes f) (l_nodes g) Lf Lg) as (b & Eb & Hb).
  destruct b.
  - destruct (le_inner_samegrid f g Vf Vg Hsep Eb) as (En & Enode & E).
    exists (firstn (l_n f) (l_nodes f)), (firstn (l_n f) (l_coeff f)), (firstn (l_n f) (l_coeff g)).
    assert (Hnd : forall l k, (k < l_n f)%nat -> (l_n f <= length l)%nat -> nd (firstn (l_n f) l) k = nd l k).
    { intros l k Hk Hl. rewrite <- (firstn_skipn (l_n f) l) at 2. rewrite nd_app1; auto. rewrite firstn_length. lia. }
    unr. rewrite !firstn_length, !Nat.min_l by lia.
    repeat match goal with |- _ /\ _ => split end; auto.
    + intros i Hi. rewrite !Hnd by lia. now apply If.
    + intros v. split.
      * intros Hv. destruct (In_nd _ _ Hv) as (k & Hk & ->). rewrite firstn_length, Nat.min_l in Hk by lia.
        rewrite Hnd by lia. left. exists k. auto.
      * intros H. assert (Hf : nodes_of f v). { destruct H as [H|(k & Hk & ->)]; auto. exists k. split; [lia|]. symmetry. apply Enode. lia. }
        destruct Hf as (k & Hk & ->). rewrite <- (Hnd (l_nodes f) k) by lia. apply nd_In. rewrite firstn_length. lia.
    + intros k Hk. rewrite !Hnd by lia. split; [apply Interp_node; auto|].
      rewrite Enode by auto. apply Interp_node; auto. lia.
    + rewrite E. f_equal. apply trap_ext; intros i Hi; rewrite !Hnd by lia; reflexivity.
  - assert (HI : exists X fv gv,
      @le_inner_same_grid K f g (l_n f + l_n g) = Ok (length X, X ++ repeat 0 (l_n f + l_n g - length X), fv ++ repeat 0 (l_n f + l_n g - length fv), gv ++ repeat 0 (l_n f + l_n g - length gv))
     /\ length fv = length X /\ length gv = length X /\ sinc (length X) X
     /\ (forall v, In v X <-> nodes_of f v \/ nodes_of g v)
     /\ (forall k, (k < length X)%nat -> In_f f (nd X k) (nd fv k) /\ In_f g (nd X k) (nd gv k))).
    { unfold le_inner_same_grid. unr. rewrite !(aget_nd (l_nodes f)), !(aget_nd (l_nodes g)) by lia. cbn [obind]. unr.
      assert (nd (l_nodes f) 0 < nd (l_nodes f) (l_n f - 1)) by (apply sinc_lt with (l_n f); auto; lia).
      destruct (Rltb_spec (nd (l_nodes g) (l_n g - 1)) (nd (l_nodes f) 0)); [lra|].
      destruct (Rltb_spec (nd (l_nodes f) (l_n f - 1)) (nd (l_nodes g) 0)); [lra|].
      pose proof (If 0%nat ltac:(lia)). pose proof (Ig 0%nat ltac:(lia)).
      rewrite (skip_loop_0 (l_nodes f)) by (try lia; lra). cbn [obind].
      rewrite (skip_loop_0 (l_nodes g)) by (try lia; lra). cbn [obind].
      destruct (isg_loop_ok f g (l_n f + l_n g) Ht Vf Vg Sf Sg Hsep Elb Eub (le_n _) (S (l_n f + l_n g)) 0 0 [] [] [])
        as (X & fv & gv & E & H3); try (cbn [length]; lia).
      - intros i Hi. cbn in Hi. lia.
      - intros v [].
      - intros v. cbn [In]. split; [tauto|]. intros [(k & Hk & _)|(k & Hk & _)]; lia.
      - exists X, fv, gv. split; auto. rewrite <- E. cbn [length app]. rewrite Nat.sub_0_r. reflexivity. }
    destruct HI as (X & fv & gv & E & Hlf & Hlg & Hs & HX & Hv).
    assert (HX3 : (2 < length X)%nat).
    { destruct (Nat.lt_ge_cases 2 (length X)) as [|Hsmall]; auto. exfalso.
      assert (Hcov : forall h : lexpR, valid tol h -> (forall v, nodes_of h v -> In v X) -> l_n h = 2%nat /\ length X = 2%nat /\
         nd (l_nodes h) 0 = nd X 0 /\ nd (l_nodes h) 1 = nd X 1).
      { intros h Vh Hh. pose proof Vh as [Nh Lh Ch Ih].
        assert (Hidx : forall i, (i < l_n h)%nat -> exists k, (k < length X)%nat /\ nd (l_nodes h) i = nd X k).
        { intros i Hi. apply In_nd, Hh. exists i. auto. }
        destruct (Hidx 0%nat ltac:(lia)) as (k0 & Hk0 & E0). destruct (Hidx 1%nat ltac:(lia)) as (k1 & Hk1 & E1).
        pose proof (Ih 0%nat ltac:(lia)) as I01.
        assert (length X <> 0 /\ length X <> 1)%nat by (split; intros Q; [lia|assert (k0 = 0%nat) by lia; assert (k1 = 0%nat) by lia; subst; lra]).
        assert (L2 : length X = 2%nat) by lia.
        pose proof (Hs 0%nat ltac:(lia)) as X01.
        assert (k0 = 0%nat /\ k1 = 1%nat) as [-> ->].
        { assert (k0 = 0 \/ k0 = 1)%nat as [->| ->] by lia; assert (k1 = 0 \/ k1 = 1)%nat as [->| ->] by lia; try lra; auto. }
        split; [|auto].
        destruct (Nat.eq_dec (l_n h) 2) as [|N]; auto. exfalso.
        destruct (Hidx 2%nat ltac:(lia)) as (k2 & Hk2 & E2). pose proof (Ih 1%nat ltac:(lia)).
        assert (k2 = 0 \/ k2 = 1)%nat as [->| ->] by lia; lra. }
      destruct (Hcov f Vf) as (F1 & F2 & F3 & F4); [intros v Hv'; apply HX; now left|].
      destruct (Hcov g Vg) as (G1 & G2 & G3 & G4); [intros v Hv'; apply HX; now right|].
      assert (false = true); [|discriminate]. apply Hb. split; [lia|]. intros i Hi.
      assert (i = 0 \/ i = 1)%nat as [->| ->] by lia; rewrite Rminus_diag_eq, Rabs_R0 by congruence; lra. }
    exists X, fv, gv. repeat match goal with |- _ /\ _ => split end; auto; try lia; try (now apply Hv).
    unfold le_inner. unfold le_sdiscp. setoid_rewrite Eb. cbn [obind]. setoid_rewrite E. cbn [obind].
    destruct (Nat.ltb_spec 2 (length X)) as [_|]; [|lia].
    rewrite (le_inner_same_trap (length X)) by (try rewrite !app_length; lia).
    f_equal. apply trap_ext; intros i Hi; rewrite !nd_app1 by lia; reflexivity.
Qed.

(** Symmetry. *)
Theorem le_inner_sym (f g : lexpR) : 0 < tol -> valid tol f -> valid tol g ->
  spaced tol (l_n f) (l_nodes f) -> spaced tol (l_n g) (l_nodes g) ->
  sepd tol (l_n f) (l_n g) (l_nodes f) (l_nodes g) ->
  nd (l_nodes f) 0 = nd (l_nodes g) 0 ->
  nd (l_nodes f) (l_n f - 1) = nd (l_nodes g) (l_n g - 1) ->
  @le_inner K f g = @le_inner K g f.
Proof.
  intros Ht Vf Vg Sf Sg Hsep Elb Eub.
  destruct (le_inner_ok f g Ht Vf Vg Sf Sg Hsep Elb Eub) as (X & fv & gv & Hlf & Hlg & H2 & Hs & HX & Hv & ->).
  destruct (le_inner_ok g f Ht Vg Vf Sg Sf (sepd_sym _ _ _ _ _ Hsep) (eq_sym Elb) (eq_sym Eub))
    as (Y & gv' & fv' & Hlg' & Hlf' & H2' & Hs' & HY & Hv' & ->).
  assert (X = Y) as <-.
  { apply sinc_ext; auto. intros v. rewrite HX, HY. tauto. }
  f_equal. apply trap_ext; auto. intros i Hi. destruct (Hv i Hi) as [A B]. destruct (Hv' i Hi) as [C D].
  rewrite (Interp_fun _ _ _ _ _ _ (v_inc _ _ Vf) A D), (Interp_fun _ _ _ _ _ _ (v_inc _ _ Vg) B C). ring.
Qed.

(** Functions with disjoint domains make the program abort. *)
Theorem le_inner_disjoint (f g : lexpR) : 0 <= tol -> valid tol f -> valid tol g ->
  nd (l_nodes f) (l_n f - 1) + tol < nd (l_nodes g) 0 ->
  @le_inner K f g = Abort.
Proof.
  intros Ht Vf Vg Hd. pose proof Vf as [Nf Lf Cf If]. pose proof Vg as [Ng Lg Cg Ig]. unr.
  assert (nd (l_nodes f) 0 < nd (l_nodes f) (l_n f - 1)) by (apply sinc_lt with (l_n f); auto; lia).
  assert (nd (l_nodes g) 0 < nd (l_nodes g) (l_n g - 1)) by (apply sinc_lt with (l_n g); auto; lia).
  unfold le_inner.
  destruct (sdiscp_spec tol (l_n f) (l_n g) (l_nodes f) (l_nodes g) Lf Lg) as (b & Eb & Hb).
  unfold le_sdiscp. setoid_rewrite Eb. cbn [obind]. destruct b.
  - exfalso. destruct Hb as [Hb _]. destruct (Hb eq_refl) as [En Hn]. specialize (Hn 0%nat ltac:(lia)).
    rewrite Rabs_minus_sym, Rabs_pos_eq in Hn by lra. lra.
  - assert (E : @le_inner_same_grid K f g (l_n f + l_n g) = Ok (0%nat, repeat 0 (l_n f + l_n g), repeat 0 (l_n f + l_n g), repeat 0 (l_n f + l_n g))).
    { unfold le_inner_same_grid. unr. rewrite !(aget_nd (l_nodes f)), !(aget_nd (l_nodes g)) by lia. cbn [obind]. unr.
      destruct (Rltb_spec (nd (l_nodes g) (l_n g - 1)) (nd (l_nodes f) 0)); [lra|].
      destruct (Rltb_spec (nd (l_nodes f) (l_n f - 1)) (nd (l_nodes g) 0)); [reflexivity|lra]. }
    setoid_rewrite E. cbn [obind]. reflexivity.
Qed.

End Fix.
