(** C105: the BLAS-type interface of function trains. *)
From Verif Require Import FTMore PolyInst Instances FTBlasModel PropFT.
From Coq Require Import QArith Qcanon.
Close Scope Qc_scope.
Close Scope Q_scope.
Open Scope nat_scope.

Section Spec.
  Context {R : CRing} {U : uops R}.
  Open Scope cr_scope.

  (** An array of [d]-dimensional trains, none of them NULL. *)
  Definition arr_wf (d : nat) (A : list (option (ftrain U))) : Prop :=
    forall i, i < length A -> exists f, nth_error A i = Some (Some f) /\ ft_wf f /\ ft_dim f = d.

  (** Value at [p] of the train in position [i]. *)
  Definition aval (A : list (option (ftrain U))) (i : nat) (p : list R) : R :=
    match nth_error A i with Some (Some f) => train_value f p | _ => r0 end.

  (** Rounding that keeps shapes and values. *)
  Definition keeps_values (rnd : ftrain U -> outcome (ftrain U)) : Prop :=
    forall f, ft_wf f -> exists g, rnd f = Ok g /\ ft_wf g /\ ft_dim g = ft_dim f /\
      forall p, length p = ft_dim f -> train_value g p = train_value f p.

  (** [n] entries with stride [inc] from [o] on lie inside an array of length [l]. *)
  Definition inside (n o inc l : nat) : Prop := forall i, i < n -> o + i * inc < l.
End Spec.

Section Facts.
  Context {R : CRing} {U : uops R}.
  Variable pos : bool.
  Variable rnd : ftrain U -> outcome (ftrain U).
  Hypothesis LL : law_ev_lin U.
  Hypothesis LP : law_ev_prod U.
  Hypothesis HR : pos = true -> keeps_values rnd.
  Variable d : nat.
  Hypothesis Hd : 2 <= d.
  Open Scope cr_scope.
  Add Ring Rr51 : (rth R).

  (** [f] is a well-shaped train with values [v] *)
  Definition rep (f : ftrain U) (v : list R -> R) : Prop :=
    ft_wf f /\ ft_dim f = d /\ forall p, length p = d -> train_value f p = v p.

  Lemma rep_ext f v w : rep f v -> (forall p, length p = d -> v p = w p) -> rep f w.
  Proof. intros (A & B & C) H. split; [auto|]. split; [auto|]. intros p Hp. now rewrite C, H. Qed.

  Lemma scale_rep f v s : rep f v -> exists g, ft_scale f s = Ok g /\ rep g (fun p => s *! v p).
  Proof.
    intros (W & D & V). destruct (scale_value f s LL W) as (g & E & Wg & Dg & Vg).
    exists g. split; auto. split; [auto|]. split; [congruence|]. intros p Hp. now rewrite Vg, V by congruence.
  Qed.

  Lemma rnd_rep f v : rep f v -> exists g, rnd_if pos rnd f = Ok g /\ rep g v.
  Proof.
    intros (W & D & V). unfold rnd_if. destruct pos; [|exists f; split; [auto|]; split; auto].
    destruct (HR eq_refl f W) as (g & E & Wg & Dg & Vg). exists g. split; auto.
    split; [auto|]. split; [congruence|]. intros p Hp. now rewrite Vg, V by congruence.
  Qed.

  Lemma prod_rep f v g w : rep f v -> rep g w ->
    exists h, ft_product f g = Ok h /\ rep h (fun p => v p *! w p).
  Proof.
    intros (W & D & V) (W' & D' & V').
    destruct (product_value f g LP W W') as (h & E & Wh & Dh & Vh); [congruence|].
    exists h. split; auto. split; [auto|]. split; [congruence|].
    intros p Hp. now rewrite Vh, V, V' by congruence.
  Qed.

  Lemma axpy_rep a f v g w : rep f v -> rep g w ->
    exists h, c3axpy pos rnd a f g = Ok h /\ rep h (fun p => a *! v p +! w p).
  Proof.
    intros Hf (W' & D' & V'). unfold c3axpy. rewrite (ft_copy_ok f) by apply Hf. cbn [obind].
    destruct (scale_rep f v a Hf) as (t & -> & Wt & Dt & Vt). cbn [obind].
    destruct (sum_value t g LL Wt W') as (z & -> & Wz & Dz & Vz); [congruence|lia|]. cbn [obind].
    apply rnd_rep. split; [auto|]. split; [congruence|]. intros p Hp. now rewrite Vz, Vt, V' by congruence.
  Qed.

  Lemma fget_rep A i : arr_wf d A -> i < length A -> exists f, fget A i = Ok f /\ rep f (aval A i).
  Proof.
    intros W Hi. destruct (W i Hi) as (f & E & Wf & Df). exists f. unfold fget.
    rewrite (aget_ok _ _ _ E). cbn [obind]. split; auto. split; [auto|]. split; [auto|].
    intros p _. unfold aval. now rewrite E.
  Qed.

  (** Replacing one entry. *)
  Lemma aset_rep A i f v : arr_wf d A -> i < length A -> rep f v ->
    exists A', aset A i (Some f) = Ok A' /\ length A' = length A /\ arr_wf d A' /\
      (forall p, length p = d -> aval A' i p = v p) /\
      (forall j, j <> i -> nth_error A' j = nth_error A j).
  Proof.
    intros W Hi (Wf & Df & Vf). rewrite aset_ok by auto. eexists. split; [reflexivity|].
    split; [apply upd_length|].
    split.
    { intros j Hj. rewrite upd_length in Hj. destruct (Nat.eq_dec j i) as [->|Hne].
      - exists f. rewrite nth_error_upd_same by auto. auto.
      - rewrite nth_error_upd_other by auto. auto. }
    split.
    { intros p Hp. unfold aval. rewrite nth_error_upd_same by auto. auto. }
    intros j Hj. apply nth_error_upd_other; auto.
  Qed.

  Lemma aval_same A A' i p : nth_error A' i = nth_error A i -> aval (U := U) (R := R) A' i p = aval A i p.
  Proof. unfold aval. now intros ->. Qed.

  (** A loop that replaces the entries i * inc one after the other. *)
  Lemma each_rep (body : nat -> list (option (ftrain U)) -> outcome (list (option (ftrain U)))) n inc A
    (new : nat -> list R -> R) :
    arr_wf d A -> 0 < inc -> inside n 0 inc (length A) ->
    (forall i B, i < n -> arr_wf d B -> length B = length A -> nth_error B (i * inc) = nth_error A (i * inc) ->
       exists f, body i B = aset B (i * inc) (Some f) /\ rep f (new i)) ->
    exists A', for_ n body A = Ok A' /\ length A' = length A /\ arr_wf d A' /\
      (forall i p, i < n -> length p = d -> aval A' (i * inc) p = new i p) /\
      (forall j, (forall i, i < n -> j <> i * inc) -> nth_error A' j = nth_error A j).
  Proof.
    intros W Hinc In Hb.
    apply (for_inv (fun k B => length B = length A /\ arr_wf d B /\
      (forall i p, i < k -> length p = d -> aval B (i * inc) p = new i p) /\
      (forall j, (forall i, i < k -> j <> i * inc) -> nth_error B j = nth_error A j)) body n A).
    - split; [auto|]. split; [auto|]. split; [intros; lia|auto].
    - intros k B Hk (LB & WB & V & S).
      destruct (Hb k B Hk WB LB) as (f & E & Rf).
      { apply S. intros i Hi. assert (i * inc < k * inc) by nia. lia. }
      destruct (aset_rep B (k * inc) f (new k) WB) as (B' & E' & L' & W' & V' & S'); auto.
      { rewrite LB. apply (In k Hk). }
      exists B'. rewrite E. split; auto. split; [congruence|]. split; auto. split.
      + intros i p Hi Hp. destruct (Nat.eq_dec i k) as [->|]; [now apply V'|].
        rewrite (aval_same B B'); [apply V; auto; lia|]. apply S'. assert (i * inc < k * inc) by nia. lia.
      + intros j Hj. rewrite S' by (apply Hj; lia). apply S. intros i Hi. apply Hj. lia.
  Qed.

  Lemma arr_scale_rep (A : list (option (ftrain U))) n inc s : arr_wf d A -> 0 < inc -> inside n 0 inc (length A) ->
    exists A', ft1d_array_scale A n inc s = Ok A' /\ length A' = length A /\ arr_wf d A' /\
      (forall i p, i < n -> length p = d -> aval A' (i * inc) p = s *! aval A (i * inc) p) /\
      (forall j, (forall i, i < n -> j <> i * inc) -> nth_error A' j = nth_error A j).
  Proof.
    intros W Hi In. unfold ft1d_array_scale.
    apply (each_rep _ n inc A (fun i p => s *! aval A (i * inc) p)); auto.
    intros i B Hin WB LB EB.
    destruct (fget_rep B (i * inc) WB) as (f & -> & Rf); [rewrite LB; apply (In i Hin)|]. cbn [obind].
    destruct (scale_rep f _ s Rf) as (g & -> & Rg). cbn [obind]. exists g. split; auto.
    apply (rep_ext _ _ _ Rg). intros p _. now rewrite (aval_same A B).
  Qed.

  Lemma vaxpy_rep n a (x : list (option (ftrain U))) incx (y : list (option (ftrain U))) incy :
    arr_wf d x -> arr_wf d y -> 0 < incy -> inside n 0 incx (length x) -> inside n 0 incy (length y) ->
    exists y', c3vaxpy pos rnd n a x incx y incy = Ok y' /\ length y' = length y /\ arr_wf d y' /\
      (forall i p, i < n -> length p = d ->
         aval y' (i * incy) p = a *! aval x (i * incx) p +! aval y (i * incy) p) /\
      (forall j, (forall i, i < n -> j <> i * incy) -> nth_error y' j = nth_error y j).
  Proof.
    intros Wx Wy Hi Ix Iy. unfold c3vaxpy.
    apply (each_rep _ n incy y (fun i p => a *! aval x (i * incx) p +! aval y (i * incy) p)); auto.
    intros i B Hin WB LB EB.
    destruct (fget_rep x (i * incx) Wx) as (f & -> & Rf); [apply (Ix i Hin)|]. cbn [obind].
    destruct (fget_rep B (i * incy) WB) as (g & -> & Rg); [rewrite LB; apply (Iy i Hin)|]. cbn [obind].
    destruct (axpy_rep a f _ g _ Rf Rg) as (z & -> & Rz). cbn [obind]. exists z. split; auto.
    apply (rep_ext _ _ _ Rz). intros p _. now rewrite (aval_same y B).
  Qed.

  Lemma vaxpy_arr_rep n alpha (x : list (option (ftrain U))) incx (y : list R) oy incy beta z v :
    arr_wf d x -> inside n 0 incx (length x) -> inside n oy incy (length y) -> rep z v ->
    exists z', c3vaxpy_arr pos rnd n alpha x incx y oy incy beta (Some z) = Ok z' /\
      rep z' (fun p => alpha *! sum n (fun i => nth (oy + i * incy) y r0 *! aval x (i * incx) p) +! beta *! v p).
  Proof.
    intros Wx Ix Iy Rz. unfold c3vaxpy_arr.
    destruct (scale_rep z v beta Rz) as (z0 & -> & R0). cbn [obind].
    match goal with |- exists z', for_ _ ?b _ = Ok z' /\ _ =>
      destruct (for_inv (fun k f => rep f (fun p =>
        alpha *! sum k (fun i => nth (oy + i * incy) y r0 *! aval x (i * incx) p) +! beta *! v p)) b n z0)
        as (z' & E & Rz') end.
    - apply (rep_ext _ _ _ R0). intros p _. cbn [sum]. ring.
    - intros k f Hk Rf. assert (Hy := Iy k Hk). rewrite (Nat.mul_comm incy k).
      rewrite (aget_ok _ _ (nth (oy + k * incy) y r0)) by (now apply nth_error_nth'). cbn [obind].
      destruct (fget_rep x (k * incx) Wx) as (g & -> & Rg); [apply (Ix k Hk)|]. cbn [obind].
      destruct (axpy_rep (alpha *! nth (oy + k * incy) y r0) g _ f _ Rg Rf) as (h & E & Rh).
      exists h. split; auto. apply (rep_ext _ _ _ Rh). intros p _. cbn [sum]. ring.
    - exists z'. auto.
  Qed.

  Lemma prodsum_rep n a (x : list (option (ftrain U))) ox incx (y : list (option (ftrain U))) incy beta z v :
    arr_wf d x -> arr_wf d y -> inside n ox incx (length x) -> inside n 0 incy (length y) -> 0 < n -> rep z v ->
    exists z', c3vprodsum pos rnd n a x ox incx y incy beta (Some z) = Ok z' /\
      rep z' (fun p => a *! sum n (fun i => aval x (ox + i * incx) p *! aval y (i * incy) p) +! beta *! v p).
  Proof.
    intros Wx Wy Ix Iy Hn Rz. unfold c3vprodsum.
    destruct (scale_rep z v beta Rz) as (z0 & -> & R0). cbn [obind].
    destruct (fget_rep x (ox + 0) Wx) as (x0 & -> & Rx); [apply (Ix 0 Hn)|]. cbn [obind].
    destruct (fget_rep y 0 Wy) as (y0 & -> & Ry); [apply (Iy 0 Hn)|]. cbn [obind].
    destruct (prod_rep _ _ _ _ Rx Ry) as (r & -> & Rr). cbn [obind].
    destruct (rnd_rep _ _ Rr) as (r' & -> & Rr'). cbn [obind].
    match goal with |- exists z', (do _ <- for_from _ _ ?b _; _) = _ /\ _ =>
      destruct (for_from_inv (fun k f => rep f (fun p =>
        sum k (fun i => aval x (ox + i * incx) p *! aval y (i * incy) p))) b 1 (n - 1) r')
        as (s & E & Rs) end.
    - apply (rep_ext _ _ _ Rr'). intros p _. cbn [sum]. rewrite Nat.mul_0_l. cbn [Nat.mul]. ring.
    - intros k f Hk Rf.
      destruct (fget_rep x (ox + k * incx) Wx) as (xk & -> & Rxk); [apply (Ix k); lia|]. cbn [obind].
      destruct (fget_rep y (k * incy) Wy) as (yk & -> & Ryk); [apply (Iy k); lia|]. cbn [obind].
      destruct (prod_rep _ _ _ _ Rxk Ryk) as (t & -> & Rt). cbn [obind].
      destruct (rnd_rep _ _ Rt) as (t' & -> & Rt'). cbn [obind].
      destruct (axpy_rep r1 t' _ f _ Rt' Rf) as (h & E & Rh).
      exists h. split; auto. apply (rep_ext _ _ _ Rh). intros p _. cbn [sum]. ring.
    - rewrite E. cbn [obind]. destruct (axpy_rep a s _ z0 _ Rs R0) as (h & E' & Rh).
      exists h. split; auto. replace (1 + (n - 1)) with n in Rh by lia. exact Rh.
  Qed.

  Lemma gemv_rep n alpha (A : list (option (ftrain U))) inca x v beta y w :
    arr_wf d A -> inside n 0 inca (length A) -> 0 < n -> rep x v -> rep y w ->
    exists z, c3gemv pos rnd alpha n A inca x beta y = Ok (z, None) /\
      rep z (fun p => alpha *! sum n (fun i => aval A (i * inca) p *! v p) +! beta *! w p).
  Proof.
    intros WA IA Hn Rx Ry. unfold c3gemv.
    destruct (scale_rep y w beta Ry) as (y0 & -> & R0). cbn [obind].
    destruct (fget_rep A 0 WA) as (a0 & -> & Ra); [apply (IA 0 Hn)|]. cbn [obind].
    destruct (prod_rep _ _ _ _ Ra Rx) as (r & -> & Rr). cbn [obind].
    destruct (rnd_rep _ _ Rr) as (r' & -> & Rr'). cbn [obind].
    match goal with |- exists z', (do _ <- for_from _ _ ?b _; _) = _ /\ _ =>
      destruct (for_from_inv (fun k f => rep f (fun p =>
        sum k (fun i => aval A (i * inca) p *! v p))) b 1 (n - 1) r')
        as (s & E & Rs) end.
    - apply (rep_ext _ _ _ Rr'). intros p _. cbn [sum]. rewrite Nat.mul_0_l. ring.
    - intros k f Hk Rf.
      destruct (fget_rep A (k * inca) WA) as (xk & -> & Rxk); [apply (IA k); lia|]. cbn [obind].
      destruct (prod_rep _ _ _ _ Rxk Rx) as (t & -> & Rt). cbn [obind].
      destruct (rnd_rep _ _ Rt) as (t' & -> & Rt'). cbn [obind].
      destruct (axpy_rep r1 t' _ f _ Rt' Rf) as (h & E & Rh).
      exists h. split; auto. apply (rep_ext _ _ _ Rh). intros p _. cbn [sum]. ring.
    - rewrite E. cbn [obind]. destruct (axpy_rep alpha s _ y0 _ Rs R0) as (h & E' & Rh).
      rewrite E'. cbn [obind]. exists h. split; auto. replace (1 + (n - 1)) with n in Rh by lia. exact Rh.
  Qed.

  Lemma vgemv_arr_rep (tr : bool) m n alpha (A : list R) lda (B : list (option (ftrain U))) incb beta (y : list (option (ftrain U))) incy :
    arr_wf d B -> arr_wf d y -> 0 < incy -> inside n 0 incb (length B) -> inside m 0 incy (length y) ->
    (forall i j, i < m -> j < n -> (if tr then i * lda + j else i + j * lda) < length A) ->
    exists y', c3vgemv_arr pos rnd (if tr then 1 else 0) m n alpha A lda B incb beta y incy = Ok y' /\
      length y' = length y /\ arr_wf d y' /\
      (forall i p, i < m -> length p = d -> aval y' (i * incy) p
         = alpha *! sum n (fun j => nth (if tr then i * lda + j else i + j * lda) A r0 *! aval B (j * incb) p)
           +! beta *! (beta *! aval y (i * incy) p)) /\
      (forall j, (forall i, i < m -> j <> i * incy) -> nth_error y' j = nth_error y j).
  Proof.
    intros WB Wy Hi IB Iy IA. unfold c3vgemv_arr.
    destruct (arr_scale_rep y m incy beta Wy Hi Iy) as (y1 & -> & L1 & W1 & V1 & S1). cbn [obind].
    assert (G : exists y', for_ m (fun ii y =>
        do z <- aget y (ii * incy);
        do z <- c3vaxpy_arr pos rnd n alpha B incb A (if tr then ii * lda else ii) (if tr then 1 else lda) beta z;
        aset y (ii * incy) (Some z)) y1 = Ok y' /\
      length y' = length y1 /\ arr_wf d y' /\
      (forall i p, i < m -> length p = d -> aval y' (i * incy) p
         = alpha *! sum n (fun j => nth (if tr then i * lda + j else i + j * lda) A r0 *! aval B (j * incb) p)
           +! beta *! aval y1 (i * incy) p) /\
      (forall j, (forall i, i < m -> j <> i * incy) -> nth_error y' j = nth_error y1 j)).
    { apply (each_rep _ m incy y1 (fun i p =>
         alpha *! sum n (fun j => nth (if tr then i * lda + j else i + j * lda) A r0 *! aval B (j * incb) p)
           +! beta *! aval y1 (i * incy) p)); auto.
      { intros i Hm. rewrite L1. apply (Iy i Hm). }
      intros i C Him WC LC EC.
      destruct (W1 (i * incy)) as (f & Ef & Wf & Df); [rewrite L1; apply (Iy i Him)|].
      rewrite (aget_ok C (i * incy) (Some f)) by congruence. cbn [obind].
      assert (Rf : rep f (aval y1 (i * incy))).
      { split; [auto|]. split; [auto|]. intros p _. unfold aval. now rewrite Ef. }
      destruct (vaxpy_arr_rep n alpha B incb A (if tr then i * lda else i) (if tr then 1 else lda) beta f (aval y1 (i * incy)) WB IB)
        as (z & -> & Rz); auto.
      { intros j Hj. generalize (IA i j Him Hj). destruct tr; lia. }
      cbn [obind]. exists z. split; auto. apply (rep_ext _ _ _ Rz). intros p _. f_equal. f_equal.
      apply sum_ext. intros j _. destruct tr; [now rewrite Nat.mul_1_r|reflexivity]. }
    destruct G as (y' & E & L & W & V & S). exists y'. split; [destruct tr; exact E|].
    split; [congruence|]. split; auto. split.
    - intros i p Him Hp. rewrite V, V1 by auto. reflexivity.
    - intros j Hj. rewrite S, S1; auto.
  Qed.
End Facts.

(** * C105 *)
(** y <- a x + y *)
Theorem C105_axpy :
  forall (R : CRing) (U : uops R) pos rnd a (x y : ftrain U),
  law_ev_lin U -> (pos = true -> keeps_values rnd) ->
  ft_wf x -> ft_wf y -> ft_dim x = ft_dim y -> 2 <= ft_dim y ->
  exists z, c3axpy pos rnd a x y = Ok z /\ ft_wf z /\ ft_dim z = ft_dim y /\
    forall p, length p = ft_dim y -> train_value z p = radd (rmul a (train_value x p)) (train_value y p).
Proof.
  intros R U pos rnd a x y LL HR Wx Wy E Hd.
  apply (axpy_rep pos rnd LL HR (ft_dim y) Hd a x (train_value x) y (train_value y)); (split; [auto|]); (split; auto).
Qed.
Print Assumptions C105_axpy.

(** Any rounding at all: it is applied to a train with exactly those values. *)
Theorem C105_axpy_rounds :
  forall (R : CRing) (U : uops R) (rnd : ftrain U -> outcome (ftrain U)) a (x y : ftrain U),
  law_ev_lin U -> ft_wf x -> ft_wf y -> ft_dim x = ft_dim y -> 2 <= ft_dim y ->
  exists z, c3axpy false rnd a x y = Ok z /\ c3axpy true rnd a x y = rnd z /\ ft_wf z /\
    forall p, length p = ft_dim y -> train_value z p = radd (rmul a (train_value x p)) (train_value y p).
Proof.
  intros R U rnd a x y LL Wx Wy E Hd.
  destruct (C105_axpy R U false rnd a x y LL) as (z & Ez & Wz & Dz & Vz); auto; [discriminate|].
  exists z. split; auto. split; [|auto]. revert Ez. unfold c3axpy.
  destruct (ft_copy x) as [t| | |]; cbn [obind]; try discriminate.
  destruct (ft_scale t a) as [t'| | |]; cbn [obind]; try discriminate.
  destruct (ft_sum t' y) as [s| | |]; cbn [obind]; try discriminate.
  unfold rnd_if. now intros [= ->].
Qed.
Print Assumptions C105_axpy_rounds.

(** In dimension one nothing can be done with the result (as C02). *)
Theorem C105_axpy_refuted :
  forall (R : CRing) (U : uops R) rnd a (x y : ftrain U),
  law_ev_lin U -> ft_wf x -> ft_wf y -> ft_dim x = 1 -> ft_dim y = 1 ->
  exists z, c3axpy false rnd a x y = Ok z /\ forall w p, ft_eval z w p = Abort.
Proof.
  intros R U rnd a x y LL Wx Wy Dx Dy. unfold c3axpy. rewrite ft_copy_ok by auto. cbn [obind].
  destruct (scale_value x a LL Wx) as (t & -> & Wt & Dt & _). cbn [obind].
  destruct (ft_sum_dim1 t y) as (c & -> & H); auto; [congruence|]. cbn [obind]. exists c. split; auto.
Qed.
Print Assumptions C105_axpy_refuted.

Theorem C105_dot :
  forall (R : CRing) (U : uops R) (x y : ftrain U),
  law_inner_lin_r U -> law_inner_sym U -> ft_wf x -> ft_wf y -> ft_dim x = ft_dim y ->
  c3dot x y = Ok (train_inner x y).
Proof. exact @ft_inner_ok. Qed.
Print Assumptions C105_dot.

(** Scaling of an array. *)
Theorem C105_array_scale :
  forall (R : CRing) (U : uops R) d (A : list (option (ftrain U))) n inc s,
  law_ev_lin U -> 2 <= d -> arr_wf d A -> 0 < inc -> inside n 0 inc (length A) ->
  exists A', ft1d_array_scale A n inc s = Ok A' /\ length A' = length A /\ arr_wf d A' /\
    (forall i p, i < n -> length p = d -> aval A' (i * inc) p = rmul s (aval A (i * inc) p)) /\
    (forall j, (forall i, i < n -> j <> i * inc) -> nth_error A' j = nth_error A j).
Proof. intros R U d A n inc s LL Hd. now apply arr_scale_rep. Qed.
Print Assumptions C105_array_scale.

(** y[i incy] <- a x[i incx] + y[i incy]; the other entries stay. *)
Theorem C105_vaxpy :
  forall (R : CRing) (U : uops R) pos rnd d n a (x : list (option (ftrain U))) incx y incy,
  law_ev_lin U -> (pos = true -> keeps_values rnd) -> 2 <= d ->
  arr_wf d x -> arr_wf d y -> 0 < incy -> inside n 0 incx (length x) -> inside n 0 incy (length y) ->
  exists y', c3vaxpy pos rnd n a x incx y incy = Ok y' /\ length y' = length y /\ arr_wf d y' /\
    (forall i p, i < n -> length p = d ->
       aval y' (i * incy) p = radd (rmul a (aval x (i * incx) p)) (aval y (i * incy) p)) /\
    (forall j, (forall i, i < n -> j <> i * incy) -> nth_error y' j = nth_error y j).
Proof. intros R U pos rnd d n a x incx y incy LL HR Hd. now apply vaxpy_rep. Qed.
Print Assumptions C105_vaxpy.

(** z <- alpha sum_i y[i incy] x[i incx] + beta z, for numbers y. *)
Theorem C105_vaxpy_arr :
  forall (R : CRing) (U : uops R) pos rnd d n alpha (x : list (option (ftrain U))) incx (y : list R) oy incy beta z,
  law_ev_lin U -> (pos = true -> keeps_values rnd) -> 2 <= d ->
  arr_wf d x -> inside n 0 incx (length x) -> inside n oy incy (length y) -> ft_wf z -> ft_dim z = d ->
  exists z', c3vaxpy_arr pos rnd n alpha x incx y oy incy beta (Some z) = Ok z' /\ ft_wf z' /\ ft_dim z' = d /\
    forall p, length p = d -> train_value z' p =
      radd (rmul alpha (sum n (fun i => rmul (nth (oy + i * incy) y r0) (aval x (i * incx) p))))
           (rmul beta (train_value z p)).
Proof.
  intros R U pos rnd d n alpha x incx y oy incy beta z LL HR Hd Wx Ix Iy Wz Dz.
  apply (vaxpy_arr_rep pos rnd LL HR d Hd n alpha x incx y oy incy beta z (train_value z)); auto.
  split; [auto|]. split; auto.
Qed.
Print Assumptions C105_vaxpy_arr.

(** z <- a sum_i x[i incx] y[i incy] + beta z, for at least one term. *)
Theorem C105_vprodsum_partial :
  forall (R : CRing) (U : uops R) pos rnd d n a (x : list (option (ftrain U))) ox incx y incy beta z,
  law_ev_lin U -> law_ev_prod U -> (pos = true -> keeps_values rnd) -> 2 <= d ->
  arr_wf d x -> arr_wf d y -> inside n ox incx (length x) -> inside n 0 incy (length y) -> 0 < n ->
  ft_wf z -> ft_dim z = d ->
  exists z', c3vprodsum pos rnd n a x ox incx y incy beta (Some z) = Ok z' /\ ft_wf z' /\ ft_dim z' = d /\
    forall p, length p = d -> train_value z' p =
      radd (rmul a (sum n (fun i => rmul (aval x (ox + i * incx) p) (aval y (i * incy) p))))
           (rmul beta (train_value z p)).
Proof.
  intros R U pos rnd d n a x ox incx y incy beta z LL LP HR Hd Wx Wy Ix Iy Hn Wz Dz.
  apply (prodsum_rep pos rnd LL LP HR d Hd n a x ox incx y incy beta z (train_value z)); auto.
  split; [auto|]. split; auto.
Qed.
Print Assumptions C105_vprodsum_partial.

(** With no term, the first product is added all the same: the result is that for one term. *)
Theorem C105_vprodsum_zero :
  forall (R : CRing) (U : uops R) pos (rnd : ftrain U -> outcome (ftrain U)) a x ox incx y incy beta z,
  c3vprodsum pos rnd 0 a x ox incx y incy beta z = c3vprodsum pos rnd 1 a x ox incx y incy beta z.
Proof. reflexivity. Qed.
Print Assumptions C105_vprodsum_zero.

(** y <- alpha sum_i A[i inca] x + beta y: the right train is computed, but the
    caller's variable is left with freed memory. *)
Theorem C105_gemv_lost :
  forall (R : CRing) (U : uops R) pos rnd d n alpha (A : list (option (ftrain U))) inca x beta y,
  law_ev_lin U -> law_ev_prod U -> (pos = true -> keeps_values rnd) -> 2 <= d ->
  arr_wf d A -> inside n 0 inca (length A) -> 0 < n -> ft_wf x -> ft_dim x = d -> ft_wf y -> ft_dim y = d ->
  exists z, c3gemv pos rnd alpha n A inca x beta y = Ok (z, None) /\ ft_wf z /\ ft_dim z = d /\
    forall p, length p = d -> train_value z p =
      radd (rmul alpha (sum n (fun i => rmul (aval A (i * inca) p) (train_value x p))))
           (rmul beta (train_value y p)).
Proof.
  intros R U pos rnd d n alpha A inca x beta y LL LP HR Hd WA IA Hn Wx Dx Wy Dy.
  apply (gemv_rep pos rnd LL LP HR d Hd n alpha A inca x (train_value x) beta y (train_value y)); auto; (split; [auto|]); (split; auto).
Qed.
Print Assumptions C105_gemv_lost.

(** The matrix of trains times a vector of trains always fails its assertion. *)
Theorem C105_vgemv_aborts :
  forall (R : CRing) (U : uops R) pos (rnd : ftrain U -> outcome (ftrain U)) d m n alpha A lda x incx beta y incy,
  law_ev_lin U -> 2 <= d -> arr_wf d y -> 0 < incy -> inside m 0 incy (length y) -> 0 < m ->
  c3vgemv pos rnd m n alpha A lda x incx beta y incy = Abort.
Proof.
  intros R U pos rnd d m n alpha A lda x incx beta y incy LL Hd Wy Hi Iy Hm. unfold c3vgemv.
  destruct (arr_scale_rep LL d Hd y m incy beta Wy Hi Iy) as (y1 & -> & _). cbn [obind].
  destruct m as [|m]; [lia|]. reflexivity.
Qed.
Print Assumptions C105_vgemv_aborts.

(** y[i incy] <- alpha sum_j A(i,j) B[j incb] + beta^2 y[i incy], where beta is
    documented: the factor is applied twice.  Without transposition the matrix
    is column-major. *)
Theorem C105_vgemv_arr_partial :
  forall (R : CRing) (U : uops R) pos rnd d (tr : bool) m n alpha (A : list R) lda
    (B : list (option (ftrain U))) incb beta y incy,
  law_ev_lin U -> (pos = true -> keeps_values rnd) -> 2 <= d ->
  arr_wf d B -> arr_wf d y -> 0 < incy -> inside n 0 incb (length B) -> inside m 0 incy (length y) ->
  (forall i j, i < m -> j < n -> (if tr then i * lda + j else i + j * lda) < length A) ->
  exists y', c3vgemv_arr pos rnd (if tr then 1 else 0) m n alpha A lda B incb beta y incy = Ok y' /\
    length y' = length y /\ arr_wf d y' /\
    (forall i p, i < m -> length p = d -> aval y' (i * incy) p
       = radd (rmul alpha (sum n (fun j => rmul (nth (if tr then i * lda + j else i + j * lda) A r0)
                                               (aval B (j * incb) p))))
              (rmul beta (rmul beta (aval y (i * incy) p)))) /\
    (forall j, (forall i, i < m -> j <> i * incy) -> nth_error y' j = nth_error y j).
Proof. intros R U pos rnd d tr m n alpha A lda B incb beta y incy LL HR Hd. now apply vgemv_arr_rep. Qed.
Print Assumptions C105_vgemv_arr_partial.

(** * Concrete cases *)
Lemma arr2_wf : arr_wf 3 [Some exA; Some exB].
Proof.
  intros [|[|i]] H; cbn in H; try lia; eexists; (split; [reflexivity|]); (split; [|reflexivity]);
    [exact exA_wf|exact exB_wf].
Qed.
Lemma arr1_wf : arr_wf 3 [Some exA].
Proof. intros [|i] H; cbn in H; try lia. exists exA. split; [reflexivity|]. split; [exact exA_wf|reflexivity]. Qed.

Lemma arr2b_wf : arr_wf 3 [Some exB; Some exA].
Proof.
  intros [|[|i]] H; cbn in H; try lia; eexists; (split; [reflexivity|]); (split; [|reflexivity]);
    [exact exB_wf|exact exA_wf].
Qed.
Lemma no_rounding (f : ftrain polyU -> outcome (ftrain polyU)) : false = true -> keeps_values (R := Qcring) f.
Proof. discriminate. Qed.
Lemma inside22 : inside 2 0 1 2. Proof. intros i H. lia. Qed.
Lemma inside11 : inside 1 0 1 1. Proof. intros i H. lia. Qed.

Example C105_example :
  exists z, c3vprodsum (R := Qcring) false (fun f => Ok f) 2 (qc 3) [Some exA; Some exB] 0 1 [Some exB; Some exA] 1
              (qc 2) (Some exA) = Ok z /\ ft_wf z /\ ft_dim z = 3.
Proof.
  assert (H3 : 2 <= 3) by lia. assert (H2 : 0 < 2) by lia.
  destruct (C105_vprodsum_partial Qcring polyU false (fun f => Ok f) 3 2 (qc 3) [Some exA; Some exB] 0 1
              [Some exB; Some exA] 1 (qc 2) exA polyU_ev_lin polyU_ev_prod (no_rounding _) H3 arr2_wf arr2b_wf
              inside22 inside22 H2 exA_wf eq_refl) as (z & E & W & D & _).
  exists z. split; [exact E|]. split; [exact W|exact D].
Qed.

(** The double factor shows: 1 * exA + 2 * exA at (2,3,5) would be 11100. *)
Theorem C105_vgemv_arr_refuted :
  exists y', c3vgemv_arr (R := Qcring) (U := polyU) false (fun f => Ok f) 0 1 1 (qc 1) [qc 1] 1 [Some exA] 1 (qc 2)
               [Some exA] 1 = Ok y' /\
    let p := [qc 2; qc 3; qc 5] : list Qcring in
    aval (R := Qcring) y' 0 p <>
      radd (c := Qcring) (rmul (c := Qcring) (qc 1) (rmul (c := Qcring) (qc 1) (aval [Some exA] 0 p)))
           (rmul (c := Qcring) (qc 2) (aval [Some exA] 0 p)).
Proof.
  assert (H3 : 2 <= 3) by lia. assert (H1 : 0 < 1) by lia.
  assert (IA : forall i j, i < 1 -> j < 1 -> (if false then i * 1 + j else i + j * 1) < length [qc 1]).
  { intros i j Hi Hj. cbn [length]. lia. }
  destruct (C105_vgemv_arr_partial Qcring polyU false (fun f => Ok f) 3 false 1 1 (qc 1) [qc 1] 1 [Some exA] 1 (qc 2)
              [Some exA] 1 polyU_ev_lin (no_rounding _) H3 arr1_wf arr1_wf H1 inside11 inside11 IA)
    as (y' & E & _ & _ & V & _).
  exists y'. split; [exact E|]. cbv zeta. specialize (V 0 [qc 2; qc 3; qc 5] H1 eq_refl).
  change (0 * 1) with 0 in V. rewrite V.
  intros H. apply (f_equal (fun q : Qc => Qeq_bool (this q) (11100 # 1))) in H. revert H. vm_compute. discriminate.
Qed.
Print Assumptions C105_vgemv_arr_refuted.

(** Two of the operations never deliver: one leaves the caller with freed
    memory, the other fails its assertion. *)
Theorem C105_gemv_refuted :
  (exists z, c3gemv (R := Qcring) (U := polyU) false (fun f => Ok f) (qc 1) 1 [Some exA] 1 exA (qc 2) exA = Ok (z, None)) /\
  c3vgemv (R := Qcring) (U := polyU) false (fun f => Ok f) 1 1 (qc 1) [Some exA] 1 [Some exA] 1 (qc 2) [Some exA] 1 = Abort.
Proof.
  assert (H3 : 2 <= 3) by lia. assert (H1 : 0 < 1) by lia. split.
  - destruct (C105_gemv_lost Qcring polyU false (fun f => Ok f) 3 1 (qc 1) [Some exA] 1 exA (qc 2) exA
                polyU_ev_lin polyU_ev_prod (no_rounding _) H3 arr1_wf inside11 H1 exA_wf eq_refl exA_wf eq_refl)
      as (z & E & _). exists z. exact E.
  - exact (C105_vgemv_aborts Qcring polyU false (fun f => Ok f) 3 1 1 (qc 1) [Some exA] 1 [Some exA] 1 (qc 2)
             [Some exA] 1 polyU_ev_lin H3 arr1_wf H1 inside11 H1).
Qed.
Print Assumptions C105_gemv_refuted.
