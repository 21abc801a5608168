(** C92: derivative checks; C93: the history of the optimizer; C94: copies. *)
From Verif Require Import OptFacts OptMiscModel.
From Coq Require Import ZArith Reals Lra Psatz.
Open Scope R_scope.

(** ** Specification *)
(** the point with [h] added to coordinate [i] *)
Definition bump (d : nat) (x : list R) (i : nat) (h : R) : list R :=
  tab d (fun j => if (j =? i)%nat then nth j x 0 + h else nth j x 0).
Definition central (d : nat) (f : list R -> R) (x : list R) (eps : R) (i : nat) : R :=
  (f (bump d x i eps) - f (bump d x i (- eps))) / (2 * eps).
Definition sumsq (d : nat) (u : nat -> R) : R := rs d (fun i => u i ^ 2).

Lemma upd_bump d (x : list R) i h : length x = d -> (i < d)%nat -> upd x i (nth i x 0 + h) = bump d x i h.
Proof.
  intros L Hi. apply (nth_ext _ _ 0 0); [rewrite upd_length; unfold bump; now rewrite tab_length|].
  rewrite upd_length. intros j Hj. unfold bump. rewrite nth_tab by lia. rewrite nth_upd by lia.
  destruct (Nat.eqb_spec j i) as [->|]; reflexivity.
Qed.
Lemma upd_back (x : list R) i a b : nth i x 0 = b -> (i < length x)%nat -> upd (upd x i a) i b = x.
Proof.
  intros E L. apply (nth_ext _ _ 0 0); [now rewrite !upd_length|]. rewrite !upd_length. intros j Hj.
  destruct (Nat.eq_dec j i) as [->|N].
  - rewrite nth_upd by (rewrite ?upd_length; lia). rewrite Nat.eqb_refl. congruence.
  - rewrite !nth_upd by (rewrite ?upd_length; lia). destruct (Nat.eqb_spec j i); [congruence|reflexivity].
Qed.
Lemma blit_new d (x : list R) : length x = d -> blit (repeat 0 d) 0 x 0 d = Ok x.
Proof.
  intros L. rewrite blit_ok by (rewrite ?repeat_length; lia). cbn [skipn]. unfold splice. replace (firstn d x) with x by (symmetry; apply firstn_all2; lia). rewrite L. cbn [firstn app Nat.add].
  rewrite skipn_all2 by (rewrite repeat_length; lia). now rewrite app_nil_r.
Qed.

(** The number returned is the length of the difference between the central
    differences and the gradient, divided by the length of the former when this is
    larger than one. *)
Theorem C92_check d f g (x : list R) eps (l : list R) :
  length x = d -> length (g x) = d -> length l = d -> eps <> 0 ->
  let fd := central d f x eps in
  let err := sqrt (sumsq d (fun i => fd i - nth i (g x) 0) / Rmax 1 (sumsq d fd)) in
  check_deriv RO sqrt f g d x eps (Some l) = Ok (err, Some (tab d (fun i => fd i - nth i (g x) 0)), (2 * d + 1)%nat) /\
  check_deriv RO sqrt f g d x eps None = Ok (err, None, (2 * d + 1)%nat).
Proof.
  intros Lx Lg Ll He fd err.
  assert (Step : forall (dl : option (list R)) (upd_dl : nat -> option (list R)), upd_dl 0%nat = dl ->
    (forall i gi, (i < d)%nat -> gi = nth i (g x) 0 -> match upd_dl i with None => Ok None | Some l => do l <- aset l i (fd i - gi); Ok (Some l) end = Ok (upd_dl (S i))) ->
    check_deriv RO sqrt f g d x eps dl = Ok (err, upd_dl d, (2 * d + 1)%nat)).
  { intros dl U U0 US. unfold check_deriv. cbn [f0 Rops].
    match goal with |- obind (blit ?a 0 ?b 0 ?c) ?k = _ => refine (eq_trans (f_equal (fun z => obind z k) (blit_new d x Lx)) _) end. cbn [obind].
    match goal with |- obind (blit ?a 0 ?b 0 ?c) ?k = _ => refine (eq_trans (f_equal (fun z => obind z k) (blit_new d x Lx)) _) end. cbn [obind].
    match goal with |- obind (blit ?a 0 ?b 0 ?c) ?k = _ => refine (eq_trans (f_equal (fun z => obind z k) (blit_new d (g x) Lg)) _) end. cbn [obind].
    rewrite <- U0.
    match goal with |- obind (for_ d ?b ?s) ?k = _ => refine (eq_trans (f_equal (fun z => obind z k) (for_det (fun n => (x, x, rs n (fun i => (fd i - nth i (g x) 0) ^ 2), rs n (fun i => fd i ^ 2), U n, (2 * n + 1)%nat)) b d _)) _) end.
    - intros i Hi. cbv beta iota. rnorm. rewrite (aget_nth x i) by lia. cbn [obind fadd fsub fdiv fmul fnat Rops].
      rewrite !aset_ok by lia. cbn [obind]. rewrite (aget_nth (g x) i) by lia. cbn [obind].
      change (nth i x 0 - eps) with (nth i x 0 + - eps). rewrite !(upd_bump d) by auto.
      assert (E : (f (bump d x i eps) - f (bump d x i (- eps))) / INR 2 / eps = fd i).
      { unfold fd, central. cbn [INR]. field. exact He. }
      rewrite E, (US i _ Hi eq_refl). cbn [obind].
      rewrite <- !upd_bump by auto. rewrite !aget_nth by (rewrite upd_length; lia). cbn [obind]. rewrite !nth_upd, !Nat.eqb_refl by lia.
      rewrite !aset_ok by (rewrite upd_length; lia). cbn [obind]. rewrite !upd_back by (auto; lra || lia).
      cbn [rs]. do 2 f_equal; [|lia]. f_equal. f_equal; [f_equal; ring|ring].
    - cbn [obind f1 fltb fdiv Rops]. unfold err. do 3 f_equal. unfold sumsq. destruct (Rltb_spec 1 (rs d (fun i => fd i ^ 2))) as [H|H].
      + rewrite Rmax_right by lra. reflexivity.
      + rewrite Rmax_left by lra. f_equal. rnorm. lra. }
  split.
  - rewrite (Step (Some l) (fun n => Some (tab n (fun i => fd i - nth i (g x) 0) ++ skipn n l))); [|reflexivity|].
    + rewrite skipn_all2 by lia. now rewrite app_nil_r.
    + intros i gi Hi ->. rewrite aset_ok by (rewrite app_length, tab_length, skipn_length; lia). cbn [obind]. do 2 f_equal.
      assert (F := fill1 (fun i => fd i - nth i (g x) 0) (S i) l ltac:(lia)). rewrite for_S in F. rewrite fill1 in F by lia. cbn [obind] in F.
      rewrite aset_ok in F by (rewrite app_length, tab_length, skipn_length; lia). now injection F.
  - exact (Step None (fun _ => None) eq_refl (fun _ _ _ _ => eq_refl)).
Qed.
Print Assumptions C92_check.

Lemma sumsq_nonneg d u : 0 <= sumsq d u.
Proof. unfold sumsq. rewrite <- (rs_zero d (fun _ => 0)) by auto. induction d; cbn [rs]; [lra|]. pose proof (pow2_ge_0 (u d)). lra. Qed.
Lemma sumsq_zero d u : sumsq d u = 0 -> forall i, (i < d)%nat -> u i = 0.
Proof.
  unfold sumsq. induction d as [|d IH]; intros H i Hi; [lia|]. cbn [rs] in H. assert (A := pow2_ge_0 (u d)). assert (B := sumsq_nonneg d u). unfold sumsq in B.
  destruct (Nat.eq_dec i d) as [->|]; [|apply IH; [lra|lia]]. assert (C : u d ^ 2 = 0) by lra. cbn [pow] in C. nra.
Qed.

Lemma sumsq_bound n u r : (forall i, (i < n)%nat -> Rabs (u i) < r) -> sumsq n u <= INR n * r ^ 2.
Proof.
  unfold sumsq. induction n as [|n IH]; intros H; [cbn [rs]; rewrite Rmult_0_l; apply Rle_refl|]. cbn [rs]. rewrite S_INR.
  assert (IH' := IH ltac:(intros i Hi; apply H; lia)). assert (A := H n ltac:(lia)). assert (Q : u n ^ 2 <= r ^ 2).
  { rewrite <- (pow2_abs (u n)). apply pow_incr. split; [apply Rabs_pos|lra]. }
  lra.
Qed.

(** For an objective that is quadratic in each coordinate at the point, the check is
    exact for every step: the differences vanish exactly if the gradient is right. *)
Theorem C92_quadratic d f g (x : list R) eps (a b c : nat -> R) :
  length x = d -> length (g x) = d -> eps <> 0 ->
  (forall i h, (i < d)%nat -> f (bump d x i h) = a i * h ^ 2 + b i * h + c i) ->
  exists err n, check_deriv RO sqrt f g d x eps None = Ok (err, None, n) /\
    0 <= err /\ (err = 0 <-> forall i, (i < d)%nat -> nth i (g x) 0 = b i).
Proof.
  intros Lx Lg He H. destruct (C92_check d f g x eps (repeat 0 d) Lx Lg (repeat_length _ _) He) as (_ & E).
  eexists _, _. split; [exact E|]. split; [apply sqrt_pos|].
  assert (C : forall i, (i < d)%nat -> central d f x eps i = b i) by (intros i Hi; unfold central; rewrite !H by auto; field; exact He).
  assert (M : 0 < Rmax 1 (sumsq d (central d f x eps))) by (pose proof (Rmax_l 1 (sumsq d (central d f x eps))); lra).
  split; intros Q.
  - assert (S0 : sumsq d (fun i => central d f x eps i - nth i (g x) 0) = 0).
    { apply sqrt_eq_0 in Q.
      - apply (Rmult_eq_reg_r (/ Rmax 1 (sumsq d (central d f x eps)))); [rewrite Rmult_0_l; exact Q|]. apply Rgt_not_eq, Rinv_0_lt_compat, M.
      - apply Rmult_le_pos; [apply sumsq_nonneg|]. apply Rlt_le, Rinv_0_lt_compat, M. }
    intros i Hi. pose proof (sumsq_zero d _ S0 i Hi) as Z. cbv beta in Z. rewrite C in Z by auto. lra.
  - unfold sumsq at 1. rewrite rs_zero; [unfold Rdiv; rewrite Rmult_0_l; apply sqrt_0|]. intros i Hi. rewrite C, Q by auto. ring.
Qed.
Print Assumptions C92_quadratic.

(** When the gradient is made of the partial derivatives, the number returned tends
    to zero with the step. *)
Theorem C92_limit d f g (x : list R) : length x = d -> length (g x) = d ->
  (forall i, (i < d)%nat -> derivable_pt_lim (fun h => f (bump d x i h)) 0 (nth i (g x) 0)) ->
  forall e, 0 < e -> exists delta, 0 < delta /\ forall eps, eps <> 0 -> Rabs eps < delta ->
    exists err n, check_deriv RO sqrt f g d x eps None = Ok (err, None, n) /\ 0 <= err < e.
Proof.
  intros Lx Lg D e He. set (r := e / (INR d + 1)). assert (Hd : 0 <= INR d) by apply pos_INR.
  assert (Hr : 0 < r) by (apply Rmult_lt_0_compat; [lra|apply Rinv_0_lt_compat; lra]).
  assert (Delta : forall n, (n <= d)%nat -> exists delta, 0 < delta /\ forall eps, eps <> 0 -> Rabs eps < delta -> forall i, (i < n)%nat -> Rabs (central d f x eps i - nth i (g x) 0) < r).
  { induction n as [|n IH]; intros Hn; [exists 1; split; [lra|lia]|]. destruct IH as (d1 & P1 & H1); [lia|].
    destruct (D n ltac:(lia) r Hr) as [[d2 P2] H2]. cbn [pos] in H2. exists (Rmin d1 d2). split; [now apply Rmin_glb_lt|].
    intros eps He0 Hs i Hi. assert (A1 : Rabs eps < d1) by (apply (Rlt_le_trans _ _ _ Hs), Rmin_l). assert (A2 : Rabs eps < d2) by (apply (Rlt_le_trans _ _ _ Hs), Rmin_r).
    destruct (Nat.eq_dec i n) as [->|]; [|apply H1; auto; lia].
    assert (B1 := H2 eps He0 A2). assert (B2 := H2 (- eps) ltac:(lra) ltac:(now rewrite Rabs_Ropp)). rewrite !Rplus_0_l in B1, B2.
    replace (central d f x eps n - nth n (g x) 0) with (/ 2 * ((f (bump d x n eps) - f (bump d x n 0)) / eps - nth n (g x) 0) + / 2 * ((f (bump d x n (- eps)) - f (bump d x n 0)) / - eps - nth n (g x) 0))
      by (unfold central; field; exact He0).
    eapply Rle_lt_trans; [apply Rabs_triang|]. rewrite !Rabs_mult, (Rabs_right (/ 2)) by lra. lra. }
  destruct (Delta d (le_n d)) as (delta & Pd & H). exists delta. split; [exact Pd|]. intros eps He0 Hs. specialize (H eps He0 Hs).
  destruct (C92_check d f g x eps (repeat 0 d) Lx Lg (repeat_length _ _) He0) as (_ & E). eexists _, _. split; [exact E|]. split; [apply sqrt_pos|].
  assert (S1 : sumsq d (fun i => central d f x eps i - nth i (g x) 0) <= INR d * r ^ 2).
  { apply sumsq_bound. exact H. }
  set (S := sumsq d (fun i => central d f x eps i - nth i (g x) 0)) in *. set (N := Rmax 1 (sumsq d (central d f x eps))).
  assert (N1 : 1 <= N) by apply Rmax_l. assert (S0 : 0 <= S) by apply sumsq_nonneg.
  assert (Q : S / N <= S). { apply (Rmult_le_reg_r N); [lra|]. unfold Rdiv. rewrite Rmult_assoc, Rinv_l by lra. nra. }
  apply (Rle_lt_trans _ (sqrt (INR d * r ^ 2))); [apply sqrt_le_1_alt; lra|].
  rewrite <- (sqrt_pow2 e) by lra. apply sqrt_lt_1_alt. split; [apply Rmult_le_pos; [lra|apply pow2_ge_0]|].
  assert (Er : r * (INR d + 1) = e) by (unfold r; field; lra). rewrite <- Er. cbn [pow]. nra.
Qed.
Print Assumptions C92_limit.

(** The documented quotient is not formed for short gradients: for the function x / 2
    and the gradient 0 the relative error is 1, one half is returned. *)
Theorem C92_relative_refuted : exists d f g (x : list R) eps err n, length x = d /\ length (g x) = d /\ eps <> 0 /\
  check_deriv RO sqrt f g d x eps None = Ok (err, None, n) /\
  sumsq d (central d f x eps) <> 0 /\
  err <> sqrt (sumsq d (fun i => central d f x eps i - nth i (g x) 0)) / sqrt (sumsq d (central d f x eps)).
Proof.
  set (f := fun y : list R => nth 0 y 0 / 2). set (g := fun _ : list R => [0]).
  exists 1%nat, f, g, [0], 1. destruct (C92_check 1 f g [0] 1 [0] eq_refl eq_refl eq_refl) as (_ & E); [lra|]. eexists _, _.
  split; [reflexivity|]. split; [reflexivity|]. split; [lra|]. split; [exact E|].
  assert (C : central 1 f [0] 1 0 = / 2) by (unfold central, f, bump; rewrite !nth_tab by lia; cbn; field).
  unfold sumsq. cbn [rs]. unfold g. cbn [nth]. rewrite C. split; [lra|]. rewrite Rmax_left by lra.
  replace ((0 + (/ 2 - 0) ^ 2) / 1) with (/ 2 * / 2) by field. replace (0 + (/ 2 - 0) ^ 2) with (/ 2 * / 2) by field. replace (0 + (/ 2) ^ 2) with (/ 2 * / 2) by field.
  rewrite sqrt_square by lra. lra.
Qed.
Print Assumptions C92_relative_refuted.
(** a case of C92_quadratic: x^2 at the point 3, whose derivative is 6 *)
Example C92_quadratic_case : forall g : list R -> list R, length (g [3]) = 1%nat ->
  exists err n, check_deriv RO sqrt (fun y => nth 0 y 0 ^ 2) g 1 [3] (/ 10) None = Ok (err, None, n) /\ (err = 0 <-> nth 0 (g [3]) 0 = 6).
Proof.
  intros g Lg. destruct (C92_quadratic 1 (fun y => nth 0 y 0 ^ 2) g [3] (/ 10) (fun _ => 1) (fun _ => 6) (fun _ => 9)) as (err & n & E & _ & H); auto; [lra| |].
  - intros i h Hi. replace i with 0%nat by lia. unfold bump. rewrite nth_tab by lia. cbn [Nat.eqb nth]. ring.
  - exists err, n. split; [exact E|]. rewrite H. split; [intros Q; apply Q; lia|]. intros Q i Hi. now replace i with 0%nat by lia.
Qed.
