(** C71: maximum volume pivots of a quasimatrix array and their inverse. *)
From Coq Require Import Reals Lra.
From Verif Require Import TensorModel ParamFacts Fill QmaFacts OrthFacts RoundStep Svd2 PropOrth PropLu PropPinv.
From Verif Require Import MaxvolRun.
Open Scope R_scope.

(** ** Specification *)
Section Spec.
  Context {U : uops Rring}.
  (** the value at [x] of the function in row [i] and column [j] *)
  Definition at_point (A : qma U) (i : nat) (x : R) (j : nat) : R :=
    match nth_error (fs A) (j * nr A + i) with Some f => uev f (x : Rring) | None => 0 end.
  (** rows and locations chosen so that the square matrix of values there has singular values
      [s], and [X] inverts it as far as singular values of at least [zt] go: it is its
      inverse if there are no others. *)
  Definition inverts (zt : R) (A : qma U) (rows : list nat) (xs X : list R) (rank : nat) : Prop :=
    let r := nc A in
    let P := fun i j => at_point A (nth i rows 0%nat) (nth i xs 0) j in
    (exists um u s vt, meq r r (cm r um) P /\ svd_spec r r um u s vt /\ rank = count_large r r s zt) /\
    meq r r (mmul r (mmul r (cm r X) P) (cm r X)) (cm r X) /\
    (rank = r -> meq r r (mmul r P (cm r X)) eye /\ meq r r (mmul r (cm r X) P) eye).
End Spec.

Lemma meq_sym m n A B : meq m n A B -> meq m n B A.
Proof. intros H i j Hi Hj. symmetry. now apply H. Qed.
Lemma mmul_ext p A A' B B' i j : (forall l, (l < p)%nat -> A i l = A' i l) -> (forall l, (l < p)%nat -> B l j = B' l j) -> mmul p A B i j = mmul p A' B' i j.
Proof. intros H1 H2. unfold mmul. apply rsum_ext. intros l Hl. now rewrite H1, H2. Qed.

Section C71.
  Context (svdf : nat -> nat -> list R -> outcome (list R * list R * list R)).
  Context {U : uops Rring} (W : vops U) (zt : R) (absmax1 : U -> R * R) (nodal : U -> bool).
  Context (onezero2 : list R -> U) (uone : U) (zpoly : list R -> U) (lb ub : U -> R).

  Lemma is_pinv_inverts N F (A : qma U) rows xs X rank : svd_law N F svdf -> 0 < zt -> (0 < nc A <= N)%nat -> qwf A ->
    length rows = nc A -> length xs = nc A -> (forall k, (k < nc A)%nat -> (nth k rows 0 < nr A)%nat) ->
    is_pinv svdf zt A rows xs X rank -> inverts zt A rows xs X rank.
  Proof.
    intros Hsvd Hzt Hm HA L1 L2 HP [EI _]. unfold pivot_inverse in EI.
    destruct (pivot_matrix_ok A rows xs (repeat 0 (nc A * nc A)%nat) HA L1 L2 HP (repeat_length _ _)) as (um & E & LU & HU).
    rewrite E in EI. cbn [obind] in EI.
    destruct (Hsvd (nc A) um ltac:(lia) LU) as [(u & s & vt & Es & Sp)|[Es Fl]].
    2:{ unfold pinv in EI. rewrite Es in EI. discriminate. }
    destruct (C70_pinv svdf (nc A) (nc A) um zt u s vt Hzt Es Sp) as (X' & rank' & E' & _ & Hr & H2 & _ & _ & _ & _ & H3).
    rewrite E' in EI. injection EI as <- <-. unfold inverts.
    set (P := fun i j => at_point A (nth i rows 0%nat) (nth i xs 0) j).
    assert (HU' : meq (nc A) (nc A) (cm (nc A) um) P) by exact HU.
    split; [exists um, u, s, vt; auto|]. split.
    - intros i j Hi Hj. etransitivity; [|exact (H2 i j Hi Hj)]. apply mmul_ext; [|reflexivity].
      intros l Hl. apply mmul_ext; [reflexivity|]. intros q Hq. symmetry. now apply HU'.
    - intros Hf. destruct (H3 eq_refl Hf) as [K1 K2]. split; intros i j Hi Hj.
      + rewrite <- (K1 i j Hi Hj). apply mmul_ext; [|reflexivity]. intros l Hl. symmetry. now apply HU'.
      + rewrite <- (K2 i j Hi Hj). apply mmul_ext; [reflexivity|]. intros l Hl. symmetry. now apply HU'.
  Qed.

  (** The procedure stops the program (no svd, no function vanishing at the pivots), does not
      end (only while moving apart equal pivots, hence only for two or more columns), or
      returns rows in range and locations in the domain.  For two or more columns no two
      pivots coincide and the matrix returned is the (pseudo)inverse at the pivots returned.
      For one column this holds if the search for the maximum of |f| is exact. *)
  Theorem C71_maxvol1d N F lo hi (A : qma U) fuel Asinv pivi pivx :
    svd_law N F svdf -> 0 < zt -> lu_laws W zt absmax1 nodal onezero2 zpoly (nc A) ->
    (forall f, lo <= snd (absmax1 f) <= hi) -> (forall f, lb f = lo) -> (forall f, ub f = hi) ->
    (0 < nr A)%nat -> (0 < nc A <= N)%nat -> qwf A -> length pivi = nc A -> length pivx = nc A ->
    let run := qmarray_maxvol1d svdf W zt absmax1 nodal onezero2 uone zpoly lb ub fuel A Asinv pivi pivx in
    run = Abort \/ (run = OutOfFuel /\ (1 < nc A)%nat) \/
    exists X rows xs info rank, run = Ok (X, rows, xs, info, rank) /\ (info <= 0)%Z /\
      length rows = nc A /\ length xs = nc A /\ length X = (nc A * nc A)%nat /\
      (forall k, (k < nc A)%nat -> (nth k rows 0 < nr A)%nat /\ lo <= nth k xs 0 <= hi) /\
      (forall i j, (i < j < nc A)%nat -> nth i rows 0%nat = nth j rows 0%nat -> zt <= Rabs (nth i xs 0 - nth j xs 0)) /\
      ((1 < nc A)%nat \/ is_absmax absmax1 (fun x => lo <= x <= hi) -> inverts zt A rows xs X rank).
  Proof.
    intros Hsvd Hzt HL Hd Hlb Hub Hn Hm HA L1 L2 run.
    destruct (maxvol_run svdf W zt absmax1 nodal onezero2 uone zpoly lo hi Hd lb ub Hlb Hub N F Hsvd Hzt A fuel Asinv pivi pivx HL Hn Hm HA L1 L2)
      as [E|[E|(X & rows & xs & info & rank & E & Hi & K1 & K2 & K3 & K4 & K5 & K6 & K7)]]; [now left|now (right; left)|].
    right. right. exists X, rows, xs, info, rank. split; [exact E|]. split; [exact Hi|]. repeat (split; [assumption|]).
    split; [intros k Hk; split; [apply K4|apply K5]; exact Hk|]. split.
    - intros i j Hij. apply (proj2 (K6 ltac:(lia)) i j Hij).
    - intros H. apply (is_pinv_inverts N F); auto. destruct H as [H|H]; [apply K6; exact H|apply K7; exact H].
  Qed.
End C71.

(** ** The theorem applies: the columns (1, x) and (0, 1) *)
Lemma Rltb_t a b : a < b -> Rltb a b = true.
Proof. intros H. destruct (Rltb_spec a b); [reflexivity|contradiction]. Qed.
Lemma Rltb_f a b : b <= a -> Rltb a b = false.
Proof. intros H. destruct (Rltb_spec a b); [lra|reflexivity]. Qed.
Lemma Rleb_t a b : a <= b -> Rleb a b = true.
Proof. intros H. destruct (Rleb_spec a b); [reflexivity|contradiction]. Qed.
Lemma Rleb_f a b : b < a -> Rleb a b = false.
Proof. intros H. destruct (Rleb_spec a b); [lra|reflexivity]. Qed.
Ltac rnum := clear; try unfold Rdiv; unfold Rabs; repeat destruct Rcase_abs; lra.
Ltac rdec2 := repeat (match goal with
  | |- context [Rltb ?a ?b] => first [rewrite (Rltb_t a b) by rnum|rewrite (Rltb_f a b) by rnum]; cbn
  | |- context [Rleb ?a ?b] => first [rewrite (Rleb_t a b) by rnum|rewrite (Rleb_f a b) by rnum]; cbn
  | |- context [Req_EM_T ?a ?b] => destruct (Req_EM_T a b); [try (exfalso; lra)|try (exfalso; lra)]; cbn
  end).

(** an svd with the obvious factors of the identity *)
Definition svdI (m n : nat) (a : list R) : outcome (list R * list R * list R) :=
  if list_eq_dec Req_EM_T a [1; 0; 0; 1] then Ok ([1; 0; 0; 1], [1; 1], [1; 0; 0; 1]) else svd2 m n a.
Lemma svdI_law : svd_law 2 False svdI.
Proof.
  intros n a Hn Ha. unfold svdI. destruct (list_eq_dec Req_EM_T a [1; 0; 0; 1]) as [->|_]; [|apply svd2_law; auto].
  destruct n as [|[|[|n]]]; try (cbn in Ha; lia). left. eexists _, _, _. split; [reflexivity|].
  split; [reflexivity|]. split; [reflexivity|]. split; [reflexivity|].
  split; [|split]; intros [|[|i]] [|[|j]] Hi Hj; try lia; cbn; ring.
Qed.

Definition mvA : qma lineU := mkq (U := lineU) 2 2 [(1, 0); (0, 1); (0, 0); (1, 0)].
Definition mv_run (svdf : nat -> nat -> list R -> outcome (list R * list R * list R)) (absmax1 : lineU -> R * R) (A : qma lineU) (piv : list nat) (px : list R) :=
  qmarray_maxvol1d svdf lineV (1 / 10) absmax1 (fun _ => false) (fun _ => (0, 0)) (1, 0) line_zpoly (fun _ => 0) (fun _ => 1) 5 A [] piv px.

Lemma mv_lu : exists s, qmarray_lu1d lineV (1 / 10) line_absmax (fun _ => false) (fun _ => (0, 0)) (1, 0) line_zpoly mvA
  (repeat None (2 * 2)%nat) (repeat 0 (2 * 2)%nat) [0%nat; 0%nat] [0; 0] = Ok (s, 0%Z) /\ lu_piv s = [0%nat; 1%nat] /\ lu_px s = [0; 0].
Proof.
  unfold qmarray_lu1d, for_. cbn. unfold lu_step, array_absmax. cbn. unfold line_absmax. cbn. rdec2.
  eexists. split; [reflexivity|]. auto.
Qed.
Lemma mv_inv2 : pivot_inverse svdI (1 / 10) mvA [0%nat; 1%nat] [0; 0] = Ok ([1; 0; 0; 1], 2%nat).
Proof.
  unfold pivot_inverse, pivot_matrix, for_. cbn.
  match goal with |- pinv _ _ _ ?l _ = _ => replace l with [1; 0; 0; 1] by (repeat (f_equal; try ring)) end.
  unfold pinv, svdI. destruct (list_eq_dec Req_EM_T [1; 0; 0; 1] [1; 0; 0; 1]) as [_|n]; [|exfalso; apply n; reflexivity].
  unfold for_. cbn. rdec2. repeat (destruct (Req_EM_T 1 0) as [X|_]; [exfalso; lra|cbn]). rdec2. cbn.
  unfold dgemm_tt, dgemm_nt, for_. cbn. repeat f_equal; lra.
Qed.

Lemma mv_max : exists B, qmam mvA [1; 0; 0; 1] 2 = Ok B /\ exists x r c v, qmarray_absmax1d line_absmax B = Ok (x, r, c, v) /\ v <= 1 + 1 / 100.
Proof.
  unfold qmam, for_. cbn. eexists. split; [reflexivity|]. unfold qmarray_absmax1d, array_absmax, for_. cbn. unfold line_absmax. cbn. rdec2.
  eexists _, _, _, _. split; [reflexivity|]. rnum.
Qed.
Example C71_maxvol1d_example : exists X, mv_run svdI line_absmax mvA [0%nat; 0%nat] [0; 0] = Ok (X, [0%nat; 1%nat], [0; 0], 0%Z, 2%nat) /\
  inverts (1 / 10) mvA [0%nat; 1%nat] [0; 0] X 2.
Proof.
  assert (E : mv_run svdI line_absmax mvA [0%nat; 0%nat] [0; 0] = Ok ([1; 0; 0; 1], [0%nat; 1%nat], [0; 0], 0%Z, 2%nat)).
  { unfold mv_run, qmarray_maxvol1d. destruct mv_lu as (s & E & E1 & E2). cbn [nr nc mvA] in *.
    rewrite E. cbn [obind]. rewrite E1, E2. cbn [Z.ltb Z.compare]. rewrite mv_inv2. cbn [obind].
    destruct mv_max as (B & EB & x & r & c & v & EM & Hv). rewrite EB. cbn [obind]. rewrite EM. cbn [obind].
    assert (EL : maxvol_loop svdI (1 / 10) line_absmax 34 mvA (mkmv [0%nat; 1%nat] [0; 0] [1; 0; 0; 1] 2 x r c v 0) = Ok (mkmv [0%nat; 1%nat] [0; 0] [1; 0; 0; 1] 2 x r c v 0)).
    { cbn [maxvol_loop mv_val]. rewrite Rltb_f by exact Hv. reflexivity. }
    rewrite EL. cbn [obind mv_iter mv_pivi mv_pivx Nat.ltb Nat.leb].
    cbn [aget nth_error fs mvA obind]. cbn [remove_duplicates dup_outer dup_inner Nat.sub Nat.add obind aget nth_error Nat.eqb].
    rewrite mv_inv2. reflexivity. }
  rewrite E. exists [1; 0; 0; 1]. split; [reflexivity|].
  destruct (C71_maxvol1d (U := lineU) svdI lineV (1 / 10) line_absmax (fun _ => false) (fun _ => (0, 0)) (1, 0) line_zpoly (fun _ => 0) (fun _ => 1)
     2 False 0 1 mvA 5 [] [0%nat; 0%nat] [0; 0] svdI_law ltac:(lra)) as [H|[[H _]|(X & rows & xs & info & rank & H & _ & _ & _ & _ & _ & _ & K)]];
    try reflexivity; try (cbn; lia).
  - apply line_lu_laws. cbn. lia.
  - intros f. apply line_is_absmax.
  - change (mv_run svdI line_absmax mvA [0%nat; 0%nat] [0; 0] = Abort) in H. congruence.
  - change (mv_run svdI line_absmax mvA [0%nat; 0%nat] [0; 0] = OutOfFuel) in H. congruence.
  - change (mv_run svdI line_absmax mvA [0%nat; 0%nat] [0; 0] = Ok (X, rows, xs, info, rank)) in H. rewrite E in H. injection H as <- <- <- <- <-.
    apply K. left. cbn. lia.
Qed.

(** ** One column and an inexact search for the maximum
    The locations are overwritten after the loop, but the inverse is only computed again for
    two or more columns: the inverse returned belongs to other pivots.  Here the search
    finds the value 2 of 2 + 2 x on [0,1] first, then the maximum 2 of 1 + x at 1 and the
    value 1/2 of (1 + x) / 2 at 0. *)
Definition poor_absmax (f : lineU) : R * R :=
  if Req_EM_T (fst f) 1 then line_absmax f else (Rabs (fst f), 0).
Definition attained (absmax1 : lineU -> R * R) : Prop :=
  forall f, fst (absmax1 f) = Rabs (fst f + snd f * snd (absmax1 f)) /\ 0 <= snd (absmax1 f) <= 1.
Definition mvA1 : qma lineU := mkq (U := lineU) 1 1 [(2, 2)].
Lemma stale_lu : exists s, qmarray_lu1d lineV (1 / 10) poor_absmax (fun _ => false) (fun _ => (0, 0)) (1, 0) line_zpoly mvA1
  (repeat None (1 * 1)%nat) (repeat 0 (1 * 1)%nat) [0%nat] [0] = Ok (s, 0%Z) /\ lu_piv s = [0%nat] /\ lu_px s = [0].
Proof.
  unfold qmarray_lu1d, for_. cbn. unfold lu_step, array_absmax. cbn. unfold poor_absmax, line_absmax. cbn. rdec2.
  eexists. split; [reflexivity|]. auto.
Qed.
Lemma stale_inv x : 0 <= x -> pivot_inverse svd2 (1 / 10) mvA1 [0%nat] [x] = Ok ([1 / (2 + 2 * x)], 1%nat).
Proof.
  intros Hx. unfold pivot_inverse, pivot_matrix, for_. cbn. unfold pinv. cbn. unfold for_. cbn.
  rewrite Rabs_Rabsolu, (Rabs_pos_eq (2 + 2 * x)) by lra. rewrite Rltb_f by lra. destruct (Req_EM_T (2 + 2 * x) 0); [exfalso; lra|]. cbn.
  destruct (Rlt_dec (2 + 2 * x) 0); [exfalso; lra|]. cbn. do 2 f_equal. change (@cons (car Rring)) with (@cons R). apply (f_equal (fun y : R => [y])). field. lra.
Qed.
Lemma stale_max c : exists B, qmam mvA1 (@cons R c (@nil R)) 1 = Ok B /\ qmarray_absmax1d poor_absmax B = Ok (snd (poor_absmax (2 * c, 2 * c)), 0%nat, 0%nat, fst (poor_absmax (2 * c, 2 * c))).
Proof.
  unfold qmam, for_. cbn. eexists. split; [reflexivity|]. unfold qmarray_absmax1d, array_absmax, for_. cbn.
  match goal with |- context [poor_absmax ?p] => assert (E : p = (2 * c, 2 * c) :> (R * R)) by (apply f_equal2; ring); rewrite E end.
  destruct (poor_absmax (2 * c, 2 * c)) as [v x]. reflexivity.
Qed.
Theorem C71_maxvol1d_stale_inverse_refuted :
  exists absmax1 A X rows xs info, attained absmax1 /\ (0 < nr A)%nat /\ nc A = 1%nat /\ qwf A /\
    lu_laws (U := lineU) lineV (1 / 10) absmax1 (fun _ => false) (fun _ => (0, 0)) line_zpoly (nc A) /\
    mv_run svd2 absmax1 A [0%nat] [0] = Ok (X, rows, xs, info, 1%nat) /\
    at_point A (nth 0 rows 0%nat) (nth 0 xs 0) 0 * nth 0 X 0 <> 1.
Proof.
  exists poor_absmax, mvA1, [1 / (2 + 2 * 1)], [0%nat], [0], 0%Z. split; [|split; [cbn; lia|split; [reflexivity|split; [reflexivity|split]]]].
  - intros f. unfold poor_absmax. destruct (Req_EM_T (fst f) 1).
    + destruct (line_is_absmax f) as (H1 & H2 & _). split; [exact H1|exact H2].
    + cbn. split; [f_equal; ring|lra].
  - destruct (line_lu_laws 1 ltac:(lia)) as (H1 & H2 & H3 & _ & H5 & _). split; [exact H1|]. split; [exact H2|]. split; [exact H3|]. split; [discriminate|]. split; [exact H5|discriminate].
  - split; [|cbn; lra].
    unfold mv_run, qmarray_maxvol1d. destruct stale_lu as (s & E & E1 & E2). cbn [nr nc mvA1] in *. rewrite E. cbn [obind]. rewrite E1, E2. cbn [Z.ltb Z.compare].
    rewrite stale_inv by lra. cbn [obind]. destruct (stale_max (1 / (2 + 2 * 0))) as (B & EB & EM). rewrite EB. cbn [obind]. rewrite EM. cbn [obind].
    assert (P1 : poor_absmax (2 * (1 / (2 + 2 * 0)), 2 * (1 / (2 + 2 * 0))) = (2, 1)).
    { replace (2 * (1 / (2 + 2 * 0))) with 1 by field. unfold poor_absmax. cbn. destruct (Req_EM_T 1 1); [|contradiction].
      unfold line_absmax. cbn. rewrite (Rabs_pos_eq 1), (Rabs_pos_eq (1 + 1)) by lra. rewrite Rltb_t by lra. f_equal; ring. }
    rewrite P1. cbn [fst snd].
    assert (P2 : poor_absmax (2 * (1 / (2 + 2 * 1)), 2 * (1 / (2 + 2 * 1))) = (1 / 2, 0)).
    { replace (2 * (1 / (2 + 2 * 1))) with (1 / 2) by field. unfold poor_absmax. cbn. destruct (Req_EM_T (1 / 2) 1); [exfalso; lra|].
      rewrite Rabs_pos_eq by lra. reflexivity. }
    destruct (stale_max (1 / (2 + 2 * 1))) as (B' & EB' & EM'). rewrite P2 in EM'. cbn [fst snd] in EM'.
    assert (EL : maxvol_loop svd2 (1 / 10) poor_absmax 34 mvA1 (mkmv [0%nat] [0] [1 / (2 + 2 * 0)] 1 1 0 0 2 0) = Ok (mkmv [0%nat] [1] [1 / (2 + 2 * 1)] 1 0 0 0 (1 / 2) 1)).
    { cbn [maxvol_loop mv_val mv_pivi mv_pivx mv_col mv_row mv_x mv_iter]. rewrite Rltb_t by lra. 
      assert (A1 : aset [0%nat] 0 0%nat = Ok [0%nat]) by reflexivity. assert (A2 : aset [0] 0 1 = Ok [1]) by reflexivity.
      rewrite A1, A2. cbn [obind]. rewrite stale_inv by lra. cbn [obind]. change (nc mvA1) with 1%nat. rewrite EB'. cbn [obind]. rewrite EM'. cbn [obind].
      cbn [Nat.ltb Nat.leb]. rewrite Rltb_f by lra. reflexivity. }
    rewrite EL. cbn. reflexivity.
Qed.

(** ** Moving equal pivots apart need not end
    (qmarray.c:2061-2105): on a domain narrower than the threshold the pivots of one row stay
    too close for ever. *)
Theorem C71_remove_duplicates_refuted zt lb ub : ub - lb < zt ->
  forall fuel x y, lb <= x <= ub -> lb <= y <= ub -> remove_duplicates zt fuel 2 [0%nat; 0%nat] [x; y] lb ub = OutOfFuel.
Proof.
  intros H. induction fuel as [|fuel IH]; intros x y Hx Hy; [reflexivity|].
  cbn [remove_duplicates dup_outer dup_inner Nat.sub Nat.add]. cbn [aget nth_error obind Nat.eqb].
  rewrite Rltb_t by (unfold Rabs; destruct Rcase_abs; lra). cbn.
  apply IH; [exact Hx|]. destruct (Rltb _ _); lra.
Qed.
Print Assumptions C71_maxvol1d.
Print Assumptions C71_maxvol1d_stale_inverse_refuted.
Print Assumptions C71_remove_duplicates_refuted.
