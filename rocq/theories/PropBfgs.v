(** C87: the update of the inverse Hessian in the BFGS method. *)
From Verif Require Import BfgsFacts.
From Coq Require Import ZArith Reals Lra Psatz.
Open Scope R_scope.

Lemma ip_vec d a b f g : (forall i, (i < d)%nat -> vec a i = f i) -> (forall i, (i < d)%nat -> vec b i = g i) -> ip d (vec a) (vec b) = ip d f g.
Proof. intros. now apply ip_ext. Qed.
Lemma vec_tab d (f : nat -> R) i : (i < d)%nat -> vec (tab d f) i = f i.
Proof. intros. unfold vec. now rewrite nth_tab. Qed.

(** From the points [xold], [x] and the gradients [gold], [gnew] at them the code
    computes exactly the textbook update of the symmetric matrix whose upper
    triangle is stored, leaves the rest of the storage alone, puts the new gradient
    in place of the old one, and the next direction is minus the updated matrix
    times the new gradient.  If the curvature [s . y] is tiny nothing is updated. *)
Theorem C87_bfgs_update d (lit16 : R) (x xold gnew w gold dir H : list R) : 0 < lit16 ->
  length x = d -> length xold = d -> length gnew = d -> length w = d -> length gold = d -> length dir = d -> length H = (d * d)%nat ->
  let s := fun i => vec x i - vec xold i in
  let y := fun i => vec gnew i - vec gold i in
  exists H' dir', bfgs_step RO d lit16 x xold gnew w gold dir H = Ok (H', gnew, dir') /\
    length H' = (d * d)%nat /\ length dir' = d /\
    (lit16 < Rabs (ip d s y) -> forall i j, (i < d)%nat -> (j < d)%nat -> upper d H' i j = bfgs d (upper d H) s y i j) /\
    (Rabs (ip d s y) <= lit16 -> H' = H) /\
    (forall i j, (j < i < d)%nat -> nth (i + j * d) H' 0 = nth (i + j * d) H 0) /\
    forall i, (i < d)%nat -> vec dir' i = - mv d (upper d H') (vec gnew) i.
Proof.
  intros H16 Lx Lo Ln Lw Lg Ld LH s y. unfold bfgs_step. cbn [fsub fadd fmul fdiv f0 f1 fabs fltb Rops].
  replace (0 - 1) with (-1) by ring.
  rewrite (vscal_ok d (-1) xold Lo). cbn [obind]. set (w0 := tab d _). assert (L0 : length w0 = d) by apply tab_length.
  rewrite (vaxpy_ok d 1 x w0 Lx L0). cbn [obind]. set (sv := tab d _). assert (Ls : length sv = d) by apply tab_length.
  assert (Es : forall i, (i < d)%nat -> vec sv i = s i).
  { intros i Hi. unfold sv. rewrite vec_tab by auto. unfold w0. rewrite nth_tab by auto. unfold s, vec. ring. }
  rewrite (vaxpy_ok d (-1) gold gnew Lg Ln). cbn [obind]. set (yv := tab d _). assert (Ly : length yv = d) by apply tab_length.
  assert (Ey : forall i, (i < d)%nat -> vec yv i = y i).
  { intros i Hi. unfold yv. rewrite vec_tab by auto. unfold y, vec. ring. }
  rewrite (dsymv_ok d 1 H yv w LH Ly Lw). cbn [obind]. set (By := tab d _). assert (LB : length By = d) by apply tab_length.
  assert (EB : forall i, (i < d)%nat -> vec By i = mv d (upper d H) y i).
  { intros i Hi. unfold By. rewrite vec_tab by auto. rewrite Rmult_1_l. now apply mv_ext. }
  rewrite (vdot_ok d sv yv Ls Ly). cbn [obind]. rewrite (vdot_ok d yv By Ly LB). cbn [obind].
  rewrite (ip_vec d sv yv s y), (ip_vec d yv By y (mv d (upper d H) y)) by auto.
  set (sty := ip d s y). set (yBy := ip d y (mv d (upper d H) y)).
  assert (R : forall H', length H' = (d * d)%nat ->
    exists dir', (do grad <- vaxpy RO d 1 yv gold; do dir' <- dsymv RO d (-1) H' grad dir; Ok (H', grad, dir')) = Ok (H', gnew, dir') /\
      length dir' = d /\ forall i, (i < d)%nat -> vec dir' i = - mv d (upper d H') (vec gnew) i).
  { intros H' LH'. rewrite (vaxpy_ok d 1 yv gold Ly Lg). cbn [obind].
    replace (tab d (fun i => nth i gold 0 + 1 * nth i yv 0)) with gnew.
    2:{ apply (nth_ext _ _ 0 0); [rewrite tab_length; auto|]. intros i Hi. rewrite Ln in Hi. rewrite nth_tab by auto.
        change (nth i yv 0) with (vec yv i). rewrite Ey by auto. unfold y, vec. ring. }
    rewrite (dsymv_ok d (-1) H' gnew dir LH' Ln Ld). cbn [obind]. eexists. split; [reflexivity|]. split; [apply tab_length|].
    intros i Hi. rewrite vec_tab by auto. ring. }
  destruct (Rltb_spec lit16 (Rabs sty)) as [Q|Q].
  - destruct (dsyr_ok d ((sty + yBy) / (sty * sty)) sv H LH Ls) as (H1 & E1 & L1 & N1).
    refine (eq_ind _ (fun z => exists H' dir', obind z _ = _ /\ _) _ _ (eq_sym (f_equal (fun z => obind z _) E1))). cbn [obind].
    destruct (dsyr2_ok d (-1 / sty) By sv H1 L1 LB Ls) as (H2 & E2 & L2 & N2).
    refine (eq_ind _ (fun z => exists H' dir', obind z _ = _ /\ _) _ _ (eq_sym E2)). cbn [obind].
    destruct (R H2 L2) as (dir' & E & Ld' & D). exists H2, dir'. split; [exact E|]. split; auto. split; auto.
    assert (Z : sty <> 0). { intros Z. rewrite Z, Rabs_R0 in Q. lra. }
    split; [|split; [intros; lra|split; [|exact D]]].
    + intros _. assert (U : forall i j, (i <= j)%nat -> (j < d)%nat -> upper d H2 i j = bfgs d (upper d H) s y i j).
      { intros i j Hij Hj. unfold upper at 1. rewrite Nat.min_l, Nat.max_r by lia. rewrite N2, N1 by lia.
        replace (i <=? j)%nat with true by (symmetry; now apply Nat.leb_le).
        rewrite bfgs_expand by (try apply upper_sym; lia).
        rewrite !Es, !EB by lia. unfold upper at 3. rewrite Nat.min_l, Nat.max_r by lia. fold sty. fold yBy. field. auto. }
      intros i j Hi Hj. destruct (Nat.le_ge_cases i j); [now apply U|].
      rewrite (upper_sym d H2 i j), U by auto. apply bfgs_sym; auto. apply upper_sym.
    + intros i j Hij. rewrite N2, N1 by lia. replace (i <=? j)%nat with false by (symmetry; apply Nat.leb_gt; lia). reflexivity.
  - cbn [obind]. destruct (R H LH) as (dir' & E & Ld' & D). exists H, dir'. split; [exact E|]. split; auto. split; auto.
    split; [intros; lra|]. auto.
Qed.
Print Assumptions C87_bfgs_update.

(** Consequences: the secant equation holds, a positive definite matrix stays so
    when the curvature is positive, and then the direction is one of descent. *)
Theorem C87_secant d (lit16 : R) (x xold gnew w gold dir H : list R) : 0 < lit16 ->
  length x = d -> length xold = d -> length gnew = d -> length w = d -> length gold = d -> length dir = d -> length H = (d * d)%nat ->
  let s := fun i => vec x i - vec xold i in
  let y := fun i => vec gnew i - vec gold i in
  lit16 < Rabs (ip d s y) ->
  exists H' dir', bfgs_step RO d lit16 x xold gnew w gold dir H = Ok (H', gnew, dir') /\
    (forall i, (i < d)%nat -> mv d (upper d H') y i = s i) /\
    (posdef d (upper d H) -> 0 < ip d s y -> posdef d (upper d H') /\
      ((exists i, (i < d)%nat /\ vec gnew i <> 0) -> ip d (vec gnew) (vec dir') < 0)).
Proof.
  intros H16 Lx Lo Ln Lw Lg Ld LH s y Q.
  destruct (C87_bfgs_update d lit16 x xold gnew w gold dir H H16 Lx Lo Ln Lw Lg Ld LH) as (H' & dir' & E & LH' & Ld' & U & _ & _ & D).
  specialize (U Q). fold s y in U. exists H', dir'. split; [exact E|].
  assert (Z : ip d s y <> 0). { intros Z. rewrite Z, Rabs_R0 in Q. lra. }
  split.
  - intros i Hi. rewrite (mv_ext d _ (bfgs d (upper d H) s y) y y); auto. now apply bfgs_secant.
  - intros P C. assert (P' : posdef d (upper d H')).
    { intros v Hv. rewrite (ip_ext d v v _ (mv d (bfgs d (upper d H) s y) v)); auto.
      - now apply bfgs_posdef.
      - intros i Hi. apply mv_ext; auto. }
    split; [exact P'|]. intros Hn. specialize (P' _ Hn).
    rewrite (ip_ext d _ (vec gnew) _ (fun i => -1 * mv d (upper d H') (vec gnew) i)); auto.
    + rewrite ip_scal_r. lra.
    + intros i Hi. rewrite D by auto. ring.
Qed.
Print Assumptions C87_secant.

(** Negative curvature is not guarded against: with it the updated matrix is not
    positive definite and the next direction is one of ascent. *)
Theorem C87_descent_refuted :
  exists d (x xold gnew w gold dir H H' dir' : list R),
    (length x = d /\ length xold = d /\ length gnew = d /\ length w = d /\ length gold = d /\ length dir = d /\ length H = (d * d)%nat) /\
    posdef d (upper d H) /\ ip d (vec gold) (fun i => vec x i - vec xold i) < 0 /\
    bfgs_step RO d (/ 10 ^ 16) x xold gnew w gold dir H = Ok (H', gnew, dir') /\
    ~ posdef d (upper d H') /\ 0 < ip d (vec gnew) (vec dir').
Proof.
  destruct (C87_bfgs_update 1 (/ 10 ^ 16) [1] [0] [-2] [0] [-1] [0] [1]) as (H' & dir' & E & LH' & Ld' & U & _ & _ & D); auto.
  { apply Rinv_0_lt_compat, pow_lt. lra. }
  assert (S : ip 1 (fun i => vec [1] i - vec [0] i) (fun i => vec [-2] i - vec [-1] i) = -1) by (unfold ip, vec; cbn [rs nth]; ring).
  rewrite S in U. rewrite Rabs_left in U by lra.
  assert (T : / 10 ^ 16 < - -1).
  { replace (- -1) with (/ 1) by lra. apply Rinv_lt_contravar.
    - apply Rmult_lt_0_compat; [lra|apply pow_lt; lra].
    - apply Rlt_pow_R1; [lra|lia]. }
  specialize (U T 0%nat 0%nat ltac:(lia) ltac:(lia)).
  assert (V : upper 1 H' 0 0 = -1).
  { rewrite U, bfgs_expand; [|lia|lia|apply upper_sym]. rewrite S. unfold upper, mv, ip, vec. cbn [rs nth Nat.min Nat.max Nat.mul Nat.add]. lra. }
  exists 1%nat, [1], [0], [-2], [0], [-1], [0], [1], H', dir'. split; [cbn; intuition|]. split.
  { intros v (i & Hi & Hv). replace i with 0%nat in Hv by lia. unfold ip, mv, upper. cbn [rs nth Nat.min Nat.max Nat.mul Nat.add]. nra. }
  split; [unfold ip, vec; cbn [rs nth]; lra|]. split; [exact E|]. split.
  - intros P. specialize (P (fun _ => 1)). assert (0 < ip 1 (fun _ => 1) (mv 1 (upper 1 H') (fun _ => 1))) as C.
    { apply P. exists 0%nat. split; [lia|lra]. }
    unfold ip, mv in C. cbn [rs] in C. rewrite V in C. lra.
  - unfold ip. cbn [rs]. rewrite D by lia. unfold mv. cbn [rs]. rewrite V. unfold vec. cbn [nth]. lra.
Qed.
Print Assumptions C87_descent_refuted.

(** a case with positive curvature *)
Example C87_case : exists H' dir',
  bfgs_step RO 2 (/ 10 ^ 16) [1; 1] [0; 0] [2; 0] [0; 0] [-1; -1] [0; 0] [1; 0; 0; 1] = Ok (H', [2; 0], dir') /\
  vec dir' 0 = - (mv 2 (upper 2 H') (vec [2; 0]) 0) /\ posdef 2 (upper 2 H').
Proof.
  destruct (C87_secant 2 (/ 10 ^ 16) [1; 1] [0; 0] [2; 0] [0; 0] [-1; -1] [0; 0] [1; 0; 0; 1]) as (H' & dir' & E & S & P); auto.
  { apply Rinv_0_lt_compat, pow_lt. lra. }
  { unfold ip, vec. cbn [rs nth]. rewrite Rabs_right by lra. apply (Rlt_trans _ (/ 1)); [|lra]. apply Rinv_lt_contravar.
    - apply Rmult_lt_0_compat; [lra|apply pow_lt; lra].
    - apply Rlt_pow_R1; [lra|lia]. }
  destruct (C87_bfgs_update 2 (/ 10 ^ 16) [1; 1] [0; 0] [2; 0] [0; 0] [-1; -1] [0; 0] [1; 0; 0; 1]) as (H2 & dir2 & E2 & _ & _ & _ & _ & _ & D); auto.
  { apply Rinv_0_lt_compat, pow_lt. lra. }
  assert (HH : H' = H2 /\ dir' = dir2) by (rewrite E in E2; injection E2; auto). destruct HH as [-> ->].
  exists H2, dir2. split; [exact E|]. split; [apply D; lia|]. apply P.
  - intros v (i & Hi & Hv). unfold ip, mv, upper. cbn [rs nth Nat.min Nat.max Nat.mul Nat.add].
    assert (v 0%nat <> 0 \/ v 1%nat <> 0) as [C|C] by (destruct i as [|[|i]]; [auto|auto|lia]); nra.
  - unfold ip, vec. cbn [rs nth]. lra.
Qed.
