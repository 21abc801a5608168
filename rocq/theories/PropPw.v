(** C42: structure, evaluation, linear operations and integral of piecewise polynomials.
    C68: sums, products and inner products of piecewise polynomials on different grids. *)
From Coq Require Import Reals Lra Lia.
From Verif Require Import Base BaseFacts FOps PwModel PwSpec PwFacts PwMatch PwOps PwAdapt.
Open Scope R_scope.

(** C42: the bounds, the number of regions and the boundaries are those of the pieces. *)
Theorem C42_structure : forall (L : Type) (K : leafops L) u v (t : pw L), on K u v t ->
  pw_lb K t = Ok u /\ pw_ub K t = Ok v /\ pw_nregions t = length (pieces t) /\
  ((2 <= length (pieces t))%nat \/ is_leaf t = true -> pw_boundaries K t = Ok (u :: map (l_ub K) (pieces t))).
Proof.
  intros L K u v t [Hp Ht].
  destruct (pw_lb_first K t Hp) as (l & r & E & Elb). destruct (pw_ub_last K t Hp) as (l1 & r1 & E1 & Eub).
  assert (Hu : l_lb K l = u) by (rewrite E in Ht; simpl in Ht; tauto).
  repeat split.
  - rewrite Elb, Hu. auto.
  - rewrite Eub. f_equal. rewrite E1 in Ht. apply tiles_app in Ht. destruct Ht as (p & _ & T). simpl in T. tauto.
  - apply nregions_pieces.
  - intros Hs. rewrite (boundaries_ok K t l r Hp E), Hu, E; auto. destruct Hs as [Hs|Hs].
    + left. rewrite E in Hs. destruct r; [simpl in Hs; lia|discriminate].
    + right. destruct t; [|discriminate]. simpl in E. injection E as ->. auto.
Qed.
Print Assumptions C42_structure.

(** C42: at a point that is not above the domain the value is that of one piece of the
    function: the piece whose interval, moved to the right by the tolerance, holds the
    point; the first piece also takes what is to the left. *)
Definition at_piece {L} (K : leafops L) (tm u x : R) (t : pw L) (l : L) : Prop :=
  In l (pieces t) /\ x < l_ub K l + tm /\ (l_lb K l + tm <= x \/ l_lb K l = u).
Lemma piece_at_left {L} (K : leafops L) tm u ls v x l : tiles (l_lb K) (l_ub K) u ls v -> piece_at (l_ub K) tm ls x l ->
  l_lb K l + tm <= x \/ l_lb K l = u.
Proof.
  revert u; induction ls as [|m r IH]; simpl; [intros u _ []|]. intros u (T1 & T2 & T3) [[H ->]|[H H1]]; [auto|].
  destruct (IH _ T3 H1) as [H2|H2]; [auto|left; lra].
Qed.
Theorem C42_eval : forall (L : Type) (K : leafops L) tm junk u v (t : pw L) x, on K u v t -> 0 <= tm -> x < v + tm ->
  exists l, at_piece K tm u x t l /\
    pw_eval K tm junk t x = l_eval K l x /\ pw_deriv_eval K tm junk t x = l_deriv_eval K l x /\
    (u + tm <= x -> forall m, at_piece K tm u x t m -> m = l).
Proof.
  intros L K tm junk u v t x [Hp Ht] Htm Hx.
  destruct (tiles_at K tm u (pieces t) v x Ht (pieces_ne t Hp) Hx) as (l & Hl).
  exists l. unfold at_piece. destruct (piece_at_in K tm _ _ _ Hl) as [Hin Hub].
  assert (Hs := tiles_srt K _ _ _ Ht).
  split; [|split; [apply pw_at_piece; auto|split; [apply pw_at_piece; auto|]]].
  - split; auto. split; auto. apply (piece_at_left K tm u (pieces t) v); auto.
  - intros Hu m (Hm & Hm1 & Hm2).
    assert (Hm3 : l_lb K m + tm <= x) by (destruct Hm2 as [Hm2|Hm2]; lra). clear Hm2 Hs Hin Hub Hp Hx.
    revert u Hu Ht. induction (pieces t) as [|k r IH]; [destruct Hm|]. simpl. intros u Hu (T1 & T2 & T3).
    simpl in Hl. destruct (tiles_le K _ _ _ T3) as [_ Hle].
    destruct Hl as [[H ->]|[H H1]], Hm as [->|Hm]; auto.
    + specialize (Hle m Hm). lra.
    + lra.
    + apply IH with (u := l_ub K k); auto.
Qed.
Print Assumptions C42_eval.

(** C42: evaluation at many points with strides *)
Theorem C42_evalN : forall (L : Type) (K : leafops L) tm junk (t : pw L) N x incx y incy (val : nat -> R), (1 <= incy)%nat ->
  (forall i, (i < N)%nat -> exists p, nth_error x (i * incx) = Some p /\ pw_eval K tm junk t p = Ok (val i)) ->
  (forall i, (i < N)%nat -> (i * incy < length y)%nat) ->
  exists z, pw_evalN K tm junk t N x incx y incy = Ok z /\ length z = length y /\
    (forall i, (i < N)%nat -> nth_error z (i * incy) = Some (val i)) /\
    (forall j, (forall i, (i < N)%nat -> j <> i * incy)%nat -> nth_error z j = nth_error y j).
Proof.
  intros L K tm junk t N x incx y incy val Hi Hx Hy. unfold pw_evalN.
  apply (for_inv (fun n z => length z = length y /\ (forall i, (i < n)%nat -> nth_error z (i * incy) = Some (val i)) /\
    (forall j, (forall i, (i < n)%nat -> j <> i * incy)%nat -> nth_error z j = nth_error y j))).
  - repeat split; auto. intros; lia.
  - intros i z Hlt (I1 & I2 & I3). destruct (Hx i Hlt) as (p & Ep & Ev). rewrite (aget_ok _ _ p) by auto. cbn [obind]. rewrite Ev. cbn [obind].
    rewrite aset_ok by (rewrite I1; auto). eexists; split; [reflexivity|]. rewrite upd_length. repeat split; auto.
    + intros j Hj. destruct (Nat.eq_dec j i) as [->|].
      * rewrite nth_error_upd_same; auto. rewrite I1; auto.
      * rewrite nth_error_upd_other by nia. apply I2; lia.
    + intros j Hj. rewrite nth_error_upd_other by (apply not_eq_sym, Hj; lia). apply I3. intros k Hk. apply Hj. lia.
Qed.
Print Assumptions C42_evalN.

(** C42: an operation that is applied to every piece (scaling, change of sign, derivatives)
    gives a function on the same grid, whose value is at every point the one the operation
    gives to the piece there. *)
Definition piecewise {L} (K : leafops L) (tm junk u v : R) (f : L -> outcome L) (t t' : pw L) : Prop :=
  on K u v t' /\ map (l_ub K) (pieces t') = map (l_ub K) (pieces t) /\
  forall x, x < v + tm -> exists l m, at_piece K tm u x t l /\ f l = Ok m /\ pw_eval K tm junk t x = l_eval K l x /\ pw_eval K tm junk t' x = l_eval K m x.
Definition keeps {L} (K : leafops L) (f : L -> outcome L) (t : pw L) : Prop :=
  forall l, In l (pieces t) -> exists m, f l = Ok m /\ l_lb K m = l_lb K l /\ l_ub K m = l_ub K l.
Lemma map_piecewise {L} (K : leafops L) tm junk u v f (t : pw L) : on K u v t -> keeps K f t ->
  exists t', pw_map f t = Ok t' /\ piecewise K tm junk u v f t t'.
Proof.
  intros [Hp Ht] Hf. destruct (pw_map_ok f (fun l m => f l = Ok m /\ l_lb K m = l_lb K l /\ l_ub K m = l_ub K l) t) as (t' & E & HF & Hp' & _).
  { intros l Hl. destruct (Hf l Hl) as (m & H1 & H2). exists m; auto. }
  exists t'. split; auto.
  assert (Ht' : tiles (l_lb K) (l_ub K) u (pieces t') v).
  { clear - HF Ht. revert u Ht. induction HF as [|l m ls ms (_ & H1 & H2) HF IH]; simpl; auto. intros u (T1 & T2 & T3). rewrite H1, H2. auto. }
  repeat split; auto.
  - clear - HF. induction HF as [|l m ls ms (_ & H1 & H2) HF IH]; simpl; [auto|]. rewrite H2, IH. auto.
  - intros x Hx. destruct (tiles_at K tm u (pieces t) v x Ht (pieces_ne t Hp) Hx) as (l & Hl).
    assert (Hm : exists m, piece_at (l_ub K) tm (pieces t') x m /\ f l = Ok m).
    { clear - HF Hl. induction HF as [|k m ls ms (H0 & H1 & H2) HF IH]; simpl in *; [destruct Hl|].
      destruct Hl as [[H ->]|[H Hl]]; [exists m; rewrite H2; auto|]. destruct (IH Hl) as (m' & Hm' & Em). exists m'. rewrite H2. auto. }
    destruct Hm as (m & Hm & Em). exists l, m. destruct (piece_at_in K tm _ _ _ Hl) as [Hin Hub].
    split; [|split; [auto|split]].
    + split; auto. split; auto. apply (piece_at_left K tm u (pieces t) v); auto.
    + apply pw_at_piece; auto. eapply tiles_srt; eauto.
    + apply pw_at_piece; auto. eapply tiles_srt; eauto.
Qed.
Theorem C42_linear : forall (L : Type) (K : leafops L) tm junk u v (t : pw L), on K u v t ->
  (forall a, keeps K (l_scale K a) t -> exists t', pw_scale K a t = Ok t' /\ piecewise K tm junk u v (l_scale K a) t t') /\
  (keeps K (l_flip K) t -> exists t', pw_flip_sign K t = Ok t' /\ piecewise K tm junk u v (l_flip K) t t') /\
  (keeps K (l_deriv K) t -> exists t', pw_deriv K t = Ok t' /\ piecewise K tm junk u v (l_deriv K) t t') /\
  (keeps K (l_dderiv K) t -> exists t', pw_dderiv K t = Ok t' /\ piecewise K tm junk u v (l_dderiv K) t t').
Proof. intros L K tm junk u v t H. repeat split; intros; apply map_piecewise; auto. Qed.
Print Assumptions C42_linear.

(** C42: the derivative evaluates to what the evaluation of the derivative gives. *)
Theorem C42_deriv_eval : forall (L : Type) (K : leafops L) tm junk u v (t : pw L), on K u v t -> 0 <= tm -> keeps K (l_deriv K) t ->
  (forall l m x, In l (pieces t) -> l_deriv K l = Ok m -> l_eval K m x = l_deriv_eval K l x) ->
  exists t', pw_deriv K t = Ok t' /\ forall x, u + tm <= x < v + tm -> pw_eval K tm junk t' x = pw_deriv_eval K tm junk t x.
Proof.
  intros L K tm junk u v t Hon Htm Hk Hd. destruct (map_piecewise K tm junk u v _ t Hon Hk) as (t' & E & _ & _ & H). exists t'. split; auto.
  intros x [Hx1 Hx]. destruct (H x Hx) as (l & m & Hl & Em & _ & Ev). destruct (C42_eval L K tm junk u v t x Hon Htm Hx) as (l' & _ & _ & Ed & Hu).
  rewrite Ev, Ed, <- (Hu Hx1 l Hl). apply Hd; auto. apply Hl.
Qed.
Print Assumptions C42_deriv_eval.

(** C42: the integral is the sum of the integrals of the pieces. *)
Theorem C42_integrate : forall (L : Type) (K : leafops L) (t : pw L) (I : L -> R),
  (forall l, In l (pieces t) -> l_integrate K l = Ok (I l)) -> pw_integrate K t = Ok (psum I (pieces t)).
Proof. intros. apply pw_integrate_ok; auto. Qed.
Print Assumptions C42_integrate.

(** C42: flattening keeps the pieces and gives a single level; the values stay. *)
Theorem C42_flatten : forall (L : Type) (K : leafops L) tm junk u v (t : pw L), on K u v t ->
  on K u v (pw_flatten t) /\ pieces (pw_flatten t) = pieces t /\ pw_isflat (pw_flatten t) = true /\
  forall x, x < v + tm -> pw_eval K tm junk (pw_flatten t) x = pw_eval K tm junk t x.
Proof.
  intros L K tm junk u v t [Hp Ht].
  assert (Hon : on K u v (pw_flatten t)) by (split; [apply flatten_proper; auto|rewrite flatten_pieces; auto]).
  repeat split; try apply Hon; [apply flatten_pieces| |].
  - unfold pw_flatten. destruct (pw_isflat t) eqn:E; auto. simpl. apply forallb_forall. intros y (l & <- & _)%in_map_iff. reflexivity.
  - intros x Hx. destruct (tiles_at K tm u (pieces t) v x Ht (pieces_ne t Hp) Hx) as (l & Hl). assert (Hs := tiles_srt K _ _ _ Ht).
    unfold pw_eval. rewrite !(pw_at_piece K tm junk (l_eval K) _ x l); auto; rewrite ?flatten_pieces; auto. apply Hon.
Qed.
Print Assumptions C42_flatten.

(** ** A concrete kind of piece: a + b x on an interval *)
Record seg := mkseg { s_lb : R; s_ub : R; s_a : R; s_b : R }.
Definition s_val (l : seg) (x : R) : R := s_a l + s_b l * x.
Definition s_interp (f : R -> outcome R) (c d : R) : outcome seg :=
  do p <- f ((c + d) / 2); do q <- f (c + 3 * (d - c) / 4);
  let b := (q - p) / ((d - c) / 4) in Ok (mkseg c d (p - b * ((c + d) / 2)) b).
Definition segops : leafops seg := {|
  l_lb := s_lb; l_ub := s_ub;
  l_eval := fun l x => Ok (s_val l x);
  l_deriv_eval := fun l _ => Ok (s_b l);
  l_scale := fun a l => Ok (mkseg (s_lb l) (s_ub l) (a * s_a l) (a * s_b l));
  l_flip := fun l => Ok (mkseg (s_lb l) (s_ub l) (- s_a l) (- s_b l));
  l_deriv := fun l => Ok (mkseg (s_lb l) (s_ub l) (s_b l) 0);
  l_dderiv := fun l => Ok (mkseg (s_lb l) (s_ub l) 0 0);
  l_integrate := fun l => Ok (s_a l * (s_ub l - s_lb l) + s_b l * (s_ub l * s_ub l - s_lb l * s_lb l) / 2);
  l_inner := fun l m => Ok ((s_ub l - s_lb l) * (s_a l * s_a m));
  l_axpy := fun k l m => Ok (mkseg (s_lb m) (s_ub m) (k * s_a l + s_a m) (k * s_b l + s_b m));
  l_daxpby := fun p l q m => Ok (mkseg (s_lb m) (s_ub m) (p * s_a l + q * s_a m) (p * s_b l + q * s_b m));
  l_prod := fun l m => Ok (mkseg (s_lb m) (s_ub m) (s_a l * s_a m) (s_a l * s_b m + s_b l * s_a m));
  l_adapt := s_interp; l_fit := fun _ c d f => s_interp f c d; l_splitfit := fun l c d => s_interp (fun x => Ok (s_val l x)) c d;
  l_coeff := fun l k => match k with O => Ok (s_a l) | S O => Ok (s_b l) | _ => UB end |}.

(** 1 + x on [0,1], then 2 on [1,2]; and nested: the same with 3 - x/2 on [2,4] *)
Definition two_seg : pw seg := Node (Leaf (mkseg 0 1 1 1) :: Leaf (mkseg 1 2 2 0) :: nil).
Definition nested_seg : pw seg := Node (two_seg :: Leaf (mkseg 2 4 3 (-1/2)) :: nil).
Lemma two_on : on segops 0 2 two_seg.
Proof. unfold two_seg. split; simpl; repeat split; auto; try discriminate; lra. Qed.
Lemma nested_on : on segops 0 4 nested_seg.
Proof. unfold nested_seg, two_seg. split; simpl; repeat split; auto; try discriminate; lra. Qed.
Example C42_example : pw_boundaries segops nested_seg = Ok (0 :: 1 :: 2 :: 4 :: nil) /\
  pw_eval segops (1/100) 7 nested_seg 3 = Ok (3/2) /\ pw_integrate segops nested_seg = Ok (13/2) /\
  (exists t, pw_scale segops 2 nested_seg = Ok t /\ pw_eval segops (1/100) 7 t 3 = Ok 3).
Proof.
  split; [|split; [|split]].
  - destruct (C42_structure _ segops 0 4 nested_seg nested_on) as (_ & _ & _ & H). rewrite H; [reflexivity|left; simpl; lia].
  - unfold pw_eval, nested_seg, two_seg. simpl. rewrite !Rltb_f by lra. rewrite Rltb_t by lra. unfold s_val; simpl. f_equal. lra.
  - rewrite (C42_integrate _ segops nested_seg (fun l => s_a l * (s_ub l - s_lb l) + s_b l * (s_ub l * s_ub l - s_lb l * s_lb l) / 2)) by reflexivity.
    f_equal. unfold nested_seg, psum; simpl. lra.
  - eexists; split; [reflexivity|]. unfold pw_eval. simpl. rewrite !Rltb_f by lra. rewrite Rltb_t by lra. unfold s_val; simpl. f_equal. lra.
Qed.
Example C42_example_hyps : keeps segops (l_deriv segops) nested_seg /\ pw_isflat nested_seg = false /\
  pieces (pw_flatten nested_seg) = mkseg 0 1 1 1 :: mkseg 1 2 2 0 :: mkseg 2 4 3 (-1/2) :: nil.
Proof. split; [intros l _; eexists; repeat split|]. split; reflexivity. Qed.

(** C42 refuted (boundaries): a function that was built on two user points has one branch,
    evaluates, and its boundaries are undefined behaviour. *)
Theorem C42_one_branch_refuted : exists (o : pwopts) (f : R -> outcome R) (t : pw seg),
  pw_approx1 segops o f = Ok t /\ on segops 0 1 t /\ (forall x, x <= 1 -> exists y, pw_eval segops (1/100) 7 t x = Ok y) /\
  pw_boundaries segops t = UB /\ forall b, pw_prod segops (1/100) (1/100) (1/100) 7 t b = UB.
Proof.
  exists (mkpwopts 0 1 1 0 1 0 5 (Some (0 :: 1 :: nil))), (fun x => Ok 0).
  eexists. split; [unfold pw_approx1, s_interp; simpl; reflexivity|].
  split; [split; simpl; repeat split; auto; try discriminate; lra|]. split; [|split; reflexivity].
  intros x Hx. unfold pw_eval. simpl. rewrite Rltb_t by lra. eauto.
Qed.
Print Assumptions C42_one_branch_refuted.
(** C42 refuted (evaluation): above the domain a function with branches has a constant
    value that has nothing to do with its pieces, while a single piece is continued. *)
Theorem C42_above_refuted : (forall (L : Type) (K : leafops L) tm junk u v (bs : list (pw L)) x, on K u v (Node bs) -> v + tm <= x ->
    pw_eval K tm junk (Node bs) x = Ok junk) /\
  (exists x l, 1 < x /\ pw_eval segops (1/100) 7 (Leaf l) x = Ok 1 /\ pw_eval segops (1/100) 7 (Node (Leaf l :: nil)) x = Ok 7).
Proof.
  split.
  - intros L K tm junk u v bs x [Hp Ht] Hx. apply pw_at_above; auto. intros l Hl. destruct (tiles_le K _ _ _ Ht) as [_ H]. specialize (H l Hl). lra.
  - exists 2, (mkseg 0 1 1 0). split; [lra|]. unfold pw_eval; simpl. rewrite Rltb_f by lra. unfold s_val; simpl. split; f_equal; lra.
Qed.
Print Assumptions C42_above_refuted.

(** ** C68 *)
(** what is asked of the expansions: evaluation gives the value, and the adaptive
    approximation of a function that is a good expansion on a long enough interval gives it back *)
Definition contract {L} (K : leafops L) (tm w : R) (val : L -> R -> R) (good : L -> Prop) : Prop :=
  (forall l x, good l -> l_eval K l x = Ok (val l x)) /\
  (forall f g c d, good g -> w < d - c -> (forall x, c + tm <= x < d + tm -> f x = Ok (val g x)) ->
    exists l, l_adapt K f c d = Ok l /\ l_lb K l = c /\ l_ub K l = d /\ good l /\ forall x, val l x = val g x).

(** C68: sums a x + y, a x + b y and products of functions on the same domain with grids
    whose nodes are equal or apart are defined, live on the domain, and their value is at
    every point that of the sum or product. *)
Theorem C68_axpy : forall (L : Type) (K : leafops L) tm ts eps junk w val good k u v (x y : pw L),
  0 < eps <= w -> 0 <= ts <= w -> contract K tm w val good ->
  op_ok K val good (l_axpy K k) (fun p q => k * p + q) ->
  okfun K good u v x -> okfun K good u v y -> splits x -> splits y -> apart K w x y ->
  exists z, pw_axpy K tm ts eps junk k x y = Ok z /\ result K tm junk good u v (fun p q => k * p + q) x y z.
Proof. intros L K tm ts eps junk w val good k u v x y [H1 H2] [H3 H4] [H5 H6] Hop Hx Hy Sx Sy Ha. eapply axpy_op; eauto. Qed.
Print Assumptions C68_axpy.
Theorem C68_daxpby : forall (L : Type) (K : leafops L) tm ts eps junk w val good a b u v (x y : pw L),
  0 < eps <= w -> 0 <= ts <= w -> contract K tm w val good ->
  op_ok K val good (fun l m => l_daxpby K a l b m) (fun p q => a * p + b * q) ->
  okfun K good u v x -> okfun K good u v y -> splits x -> splits y -> apart K w x y ->
  exists z, pw_daxpby K tm ts eps junk a (Some x) b (Some y) = Ok (Some z) /\ result K tm junk good u v (fun p q => a * p + b * q) x y z.
Proof.
  intros L K tm ts eps junk w val good a b u v x y [H1 H2] [H3 H4] [H5 H6] Hop Hx Hy Sx Sy Ha.
  destruct (zip_op K tm ts eps junk w H1 H2 H3 H4 val good H5 H6 _ _ u v x y Hop Hx Hy Sx Sy Ha) as (z & E & Hr).
  exists z. split; auto. unfold pw_daxpby. destruct (pw_match K tm ts eps junk x y) as [[xx yy]| | |]; try discriminate. cbn [obind] in *. rewrite E. reflexivity.
Qed.
Print Assumptions C68_daxpby.
(** a missing function counts as zero *)
Theorem C68_daxpby_null : forall (L : Type) (K : leafops L) tm ts eps junk a b u v (t : pw L), on K u v t ->
  (keeps K (l_scale K a) t -> exists t', pw_daxpby K tm ts eps junk a (Some t) b None = Ok (Some t') /\
     piecewise K tm junk u v (l_scale K a) t t') /\
  (keeps K (l_scale K b) t -> exists t', pw_daxpby K tm ts eps junk a None b (Some t) = Ok (Some t') /\
     piecewise K tm junk u v (l_scale K b) t t') /\
  pw_daxpby K tm ts eps junk a None b None = Ok None.
Proof.
  intros L K tm ts eps junk a b u v t Hon. destruct (C42_linear L K tm junk u v t Hon) as (H & _).
  split; [|split; [|reflexivity]]; intros Hk; destruct (H _ Hk) as (t' & E & P); exists t'; (split; [|exact P]);
    unfold pw_daxpby; rewrite E; reflexivity.
Qed.
Print Assumptions C68_daxpby_null.
Theorem C68_prod : forall (L : Type) (K : leafops L) tm ts eps junk w val good u v (x y : pw L),
  0 < eps <= w -> 0 <= ts <= w -> contract K tm w val good ->
  op_ok K val good (l_prod K) Rmult ->
  okfun K good u v x -> okfun K good u v y -> splits x -> splits y -> apart K w x y ->
  exists z, pw_prod K tm ts eps junk x y = Ok z /\ result K tm junk good u v Rmult x y z.
Proof. intros L K tm ts eps junk w val good u v x y [H1 H2] [H3 H4] [H5 H6] Hop Hx Hy Sx Sy Ha. eapply zip_op; eauto. Qed.
Print Assumptions C68_prod.
(** C68: the inner product is the sum, over a common refinement of the grids, of the inner
    products of the pieces that live there. *)
Theorem C68_inner : forall (L : Type) (K : leafops L) tm ts eps junk w val good (I : R -> R -> (R -> R) -> (R -> R) -> R) u v (x y : pw L),
  0 < eps <= w -> 0 <= ts <= w -> contract K tm w val good ->
  (forall c d f g f' g', (forall p, f p = f' p) -> (forall p, g p = g' p) -> I c d f g = I c d f' g') ->
  (forall l m, good l -> good m -> l_lb K l = l_lb K m -> l_ub K l = l_ub K m -> l_inner K l m = Ok (I (l_lb K l) (l_ub K l) (val l) (val m))) ->
  okfun K good u v x -> okfun K good u v y -> splits x -> splits y -> apart K w x y ->
  exists ps, over K x y u ps v /\ pw_inner K tm ts eps junk x y = Ok (total val I u ps).
Proof. intros L K tm ts eps junk w val good I u v x y [H1 H2] [H3 H4] [H5 H6] He Hi Hx Hy Sx Sy Ha. eapply inner_op; eauto. Qed.
Print Assumptions C68_inner.

(** the segments meet the contract *)
Lemma seg_interp f g c d : c < d -> f ((c + d) / 2) = Ok (s_val g ((c + d) / 2)) -> f (c + 3 * (d - c) / 4) = Ok (s_val g (c + 3 * (d - c) / 4)) ->
  exists l, s_interp f c d = Ok l /\ s_lb l = c /\ s_ub l = d /\ s_a l = s_a g /\ s_b l = s_b g.
Proof.
  intros Hcd E1 E2. unfold s_interp. rewrite E1, E2. cbn [obind]. eexists; split; [reflexivity|]. unfold s_val. simpl.
  repeat split; field; lra.
Qed.
Lemma seg_contract (flat : bool) : contract segops (1/100) (1/10) s_val (fun l => flat = true -> s_b l = 0).
Proof.
  split; [reflexivity|]. intros f g c d Hg Hw Hf.
  destruct (seg_interp f g c d) as (l & E & H1 & H2 & H3 & H4); [lra|apply Hf; lra|apply Hf; lra|].
  exists l. repeat split; auto; [intros Hfl; rewrite H4; auto|]. intros x. unfold s_val. rewrite H3, H4. auto.
Qed.
(** x/2 on the whole of [0,2] and the two segments: different grids *)
Definition one_seg : pw seg := Leaf (mkseg 0 2 0 (1/2)).
Definition steps2 : pw seg := Node (Leaf (mkseg 0 1 1 0) :: Leaf (mkseg 1 2 5 0) :: nil).
Definition steps3 : pw seg := Node (Leaf (mkseg 0 (1/2) 3 0) :: Leaf (mkseg (1/2) 2 (-1) 0) :: nil).
Ltac aparts := intros p q Hp Hq; simpl in Hp, Hq;
  repeat (match goal with H : _ \/ _ |- _ => destruct H as [<-|H] end); try contradiction;
  first [left; lra | right; unfold Rabs; destruct (Rcase_abs _); lra].
Ltac okseg := split; [split; simpl; repeat split; auto; try discriminate; lra|repeat constructor; simpl; auto; discriminate].
Example C68_example : exists z, pw_axpy segops (1/100) (1/100) (1/100) 7 3 one_seg two_seg = Ok z /\
  pw_eval segops (1/100) 7 z (1/2) = Ok (9/4) /\ pw_eval segops (1/100) 7 z (3/2) = Ok (17/4).
Proof.
  destruct (C68_axpy seg segops (1/100) (1/100) (1/100) 7 (1/10) s_val (fun l => false = true -> s_b l = 0) 3 0 2 one_seg two_seg) as (z & E & Hon & Hz); try lra.
  - apply (seg_contract false).
  - intros l m _ _ H1 H2. eexists; split; [reflexivity|]. simpl. repeat split; auto; [discriminate|]. intros y. unfold s_val; simpl. lra.
  - unfold one_seg; okseg.
  - unfold two_seg; okseg.
  - left; reflexivity.
  - right; simpl; lia.
  - unfold one_seg, two_seg, apart, bounds_of. aparts.
  - exists z. split; auto. split.
    + destruct (Hz (1/2)) as (p & q & E1 & E2 & E3); [lra|]. rewrite E3. unfold pw_eval, one_seg, two_seg in E1, E2. simpl in E1, E2.
      rewrite Rltb_t in E2 by lra. injection E1 as <-. injection E2 as <-. unfold s_val; simpl. f_equal. lra.
    + destruct (Hz (3/2)) as (p & q & E1 & E2 & E3); [lra|]. rewrite E3. unfold pw_eval, one_seg, two_seg in E1, E2. simpl in E1, E2.
      rewrite Rltb_f in E2 by lra. rewrite Rltb_t in E2 by lra. injection E1 as <-. injection E2 as <-. unfold s_val; simpl. f_equal. lra.
Qed.
Example C68_example_prod : exists z, pw_prod segops (1/100) (1/100) (1/100) 7 steps2 steps3 = Ok z /\
  pw_eval segops (1/100) 7 z (1/4) = Ok 3 /\ pw_eval segops (1/100) 7 z (3/4) = Ok (-1) /\ pw_eval segops (1/100) 7 z (3/2) = Ok (-5).
Proof.
  destruct (C68_prod seg segops (1/100) (1/100) (1/100) 7 (1/10) s_val (fun l => true = true -> s_b l = 0) 0 2 steps2 steps3) as (z & E & Hon & Hz); try lra.
  - apply (seg_contract true).
  - intros l m G1 G2 H1 H2. eexists; split; [reflexivity|]. simpl. rewrite G1, G2 by auto. repeat split; auto; [intros _; lra|]. intros y. unfold s_val; simpl. rewrite G1, G2 by auto. lra.
  - unfold steps2; okseg.
  - unfold steps3; okseg.
  - right; simpl; lia.
  - right; simpl; lia.
  - unfold steps2, steps3, apart, bounds_of. aparts.
  - exists z. split; auto.
    repeat split; match goal with |- pw_eval _ _ _ _ ?x = _ => destruct (Hz x) as (p & q & E1 & E2 & E3); [lra|]; rewrite E3; unfold pw_eval, steps2, steps3 in E1, E2; simpl in E1, E2 end;
      repeat (first [rewrite Rltb_f in E1 by lra | rewrite Rltb_t in E1 by lra]); repeat (first [rewrite Rltb_f in E2 by lra | rewrite Rltb_t in E2 by lra]);
      injection E1 as <-; injection E2 as <-; unfold s_val; simpl; f_equal; lra.
Qed.
Example C68_example_inner : exists ps, over segops steps2 steps3 0 ps 2 /\
  pw_inner segops (1/100) (1/100) (1/100) 7 steps2 steps3 = Ok (total s_val (fun c d f g => (d - c) * (f 0 * g 0)) 0 ps).
Proof.
  apply (C68_inner seg segops (1/100) (1/100) (1/100) 7 (1/10) s_val (fun l => true = true -> s_b l = 0)); try lra.
  - apply (seg_contract true).
  - intros c d f g f' g' H1 H2. rewrite H1, H2. auto.
  - intros l m G1 G2 H1 H2. simpl. f_equal. unfold s_val. rewrite G1, G2 by auto. rewrite !Rmult_0_l, !Rplus_0_r. auto.
  - unfold steps2; okseg.
  - unfold steps3; okseg.
  - right; simpl; lia.
  - right; simpl; lia.
  - unfold steps2, steps3, apart, bounds_of. aparts.
Qed.

(** C68 refuted: the comment of the code promises the intersection of the domains; when
    they differ the arrays are read past their ends. *)
Theorem C68_domains_refuted : exists (x y : pw seg), on segops 0 2 x /\ on segops 0 3 y /\
  (forall tm ts eps junk, 0 < eps <= 1/10 -> 0 <= ts <= 1/10 ->
    pw_prod segops tm ts eps junk x y = UB /\ pw_axpy segops tm ts eps junk 1 x y = UB /\ pw_inner segops tm ts eps junk x y = UB).
Proof.
  exists two_seg, (Leaf (mkseg 0 3 0 1)). split; [apply two_on|]. split; [split; simpl; repeat split; auto; lra|].
  intros tm ts eps junk He Hs.
  assert (E : pw_match segops tm ts eps junk two_seg (Leaf (mkseg 0 3 0 1)) = UB).
  { assert (A1 : Rleb 1 3 = true) by (destruct (Rleb_spec 1 3); auto; lra). assert (A2 : Rleb 2 3 = true) by (destruct (Rleb_spec 2 3); auto; lra).
    assert (B1 : Rltb (Rabs (3 - 1)) eps = false) by (rewrite Rabs_pos_eq by lra; apply Rltb_f; lra).
    assert (B2 : Rltb (Rabs (3 - 2)) eps = false) by (rewrite Rabs_pos_eq by lra; apply Rltb_f; lra).
    unfold pw_match, two_seg. simpl.
    repeat (first [rewrite A1 | rewrite A2 | rewrite B1 | rewrite B2 | rewrite (Rltb_f 0 0) by lra | rewrite (Rltb_f 3 2) by lra | rewrite (Rltb_f 3 1) by lra | rewrite (Rltb_f 1 0) by lra | rewrite (Rltb_f 3 0) by lra
      | rewrite (Rltb_t 0 3) by lra | rewrite (Rltb_t 1 3) by lra | rewrite (Rltb_t 2 3) by lra]; simpl). reflexivity. }
  unfold pw_prod, pw_axpy, pw_inner. unfold two_seg in *. rewrite E. auto.
Qed.
Print Assumptions C68_domains_refuted.
(** C68 refuted: this also happens when the ends differ by less than the tolerance with
    which nodes are identified. *)
Theorem C68_close_ends_refuted : forall tm ts eps junk, 0 < eps <= 1/10 -> 0 <= ts <= 1/10 ->
  exists x y : pw seg, on segops 0 2 x /\ on segops 0 (2 + eps / 2) y /\
    pw_prod segops tm ts eps junk x y = UB /\ pw_axpy segops tm ts eps junk 1 x y = UB /\ pw_inner segops tm ts eps junk x y = UB.
Proof.
  intros tm ts eps junk He Hs. exists two_seg, (Leaf (mkseg 0 (2 + eps / 2) 0 1)). split; [apply two_on|]. split; [split; simpl; repeat split; auto; lra|].
  assert (E : pw_match segops tm ts eps junk two_seg (Leaf (mkseg 0 (2 + eps / 2) 0 1)) = UB).
  { set (d := 2 + eps / 2) in *. assert (Hd : 2 < d < 2 + eps) by (unfold d; lra).
    assert (A1 : Rleb 1 d = true) by (destruct (Rleb_spec 1 d); auto; lra). assert (A2 : Rleb 2 d = true) by (destruct (Rleb_spec 2 d); auto; lra).
    assert (B1 : Rltb (Rabs (d - 1)) eps = false) by (rewrite Rabs_pos_eq by lra; apply Rltb_f; lra).
    assert (B2 : Rltb (Rabs (d - 2)) eps = true) by (rewrite Rabs_pos_eq by lra; apply Rltb_t; lra).
    unfold pw_match, two_seg. simpl.
    repeat (first [rewrite A1 | rewrite A2 | rewrite B1 | rewrite B2 | rewrite (Rltb_f 0 0) by lra | rewrite (Rltb_f d 2) by lra | rewrite (Rltb_f d 1) by lra | rewrite (Rltb_f 1 0) by lra | rewrite (Rltb_f d 0) by lra
      | rewrite (Rltb_t 0 d) by lra | rewrite (Rltb_t 1 d) by lra | rewrite (Rltb_t 2 d) by lra]; simpl). reflexivity. }
  unfold pw_prod, pw_axpy, pw_inner. unfold two_seg in *. rewrite E. auto.
Qed.
Print Assumptions C68_close_ends_refuted.
