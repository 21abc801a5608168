(** C82: the backtracking line search of the optimizer. *)
From Verif Require Import OptFacts OptBox.
From Coq Require Import ZArith QArith Qcanon Reals Lra Psatz.
Open Scope R_scope.

(** ** Settings of a line search: bounds of the right length and in order *)
Definition box_wf (o : lsopt RO) : Prop :=
  length (ls_lb RO o : list R) = ls_d RO o /\ length (ls_ub RO o : list R) = ls_d RO o /\
  forall i, (i < ls_d RO o)%nat -> nth i (ls_lb RO o : list R) 0 <= nth i (ls_ub RO o : list R) 0.

(** The largest number of steps is given, the objective is [f], the search starts
    at [x] with value [fx] and gradient [grad] and goes in direction [dir]; [newx]
    and [newf] are whatever the output buffers hold.  The step is the first of
    [1, beta, beta^2, ...] with sufficient decrease unless the point came too
    close to [x] or the steps ran out, and the return code tells which. *)
Theorem C82_line_search f o x fx grad dir newx newf :
  let d := ls_d RO o in
  let enough t y := f y <= fx + ls_alpha RO o * t * dotv d grad dir in
  box_wf o -> 0 < ls_alpha RO o < 1 / 2 -> inbox d (ls_lb RO o) (ls_ub RO o) x ->
  length grad = d -> length dir = d -> length newx = d ->
  exists r k, let t := (ls_beta RO o : R) ^ k in
    ls_box RO sqrt f o x fx grad dir newx newf = Ok r /\
    r_step RO r = t * ls_alpha RO o /\
    reached d (ls_lb RO o) (ls_ub RO o) x dir t (r_x RO r) /\ inbox d (ls_lb RO o) (ls_ub RO o) (r_x RO r) /\
    r_f RO r = f (r_x RO r) /\ r_g RO r = grad /\
    (k + 2 <= Nat.max 2 (ls_max RO o))%nat /\ (r_nf RO r <= Nat.max 1 (ls_max RO o))%nat /\ r_ng RO r = 0%nat /\
    (forall j y, (j < k)%nat -> reached d (ls_lb RO o) (ls_ub RO o) x dir (ls_beta RO o ^ j) y ->
       ~ enough (ls_beta RO o ^ j) y /\ ls_absx RO o <= distv d y x) /\
    ((r_info RO r = 0%Z /\ (enough t (r_x RO r) \/ distv d (r_x RO r) x < ls_absx RO o)) \/
     (r_info RO r = 1%Z /\ ~ enough t (r_x RO r) /\ k = (ls_max RO o - 2)%nat)).
Proof.
  intros d enough (Hlb & Hub & Hle) Ha Hx Lg Ld Ln. assert (Lx := proj1 Hx).
  pose proof (box_loop_ok f o Hlb Hub Hle x dir fx (dotv d grad dir) Lx Ld (S (ls_max RO o)) 1 (moved o x dir 1) (f (moved o x dir 1))) as P.
  cbv zeta in P. cbn [Nat.sub pow] in P.
  destruct P as (r & k & E & P); [lia|lia|lia|lia|apply moved_length|reflexivity|reflexivity|intros; lia|intros; lia|].
  destruct r as ((((t & nx) & nv) & info) & nf). destruct P as (-> & -> & -> & Hk & Hn1 & Hn2 & HA & HI).
  unfold ls_box. rewrite (ls_check_pass o Hlb Hub x Ha Hx). cbn [obind].
  rewrite (odot_ok o grad dir Lg Ld). cbn [obind].
  rewrite (x_move_ok o Hlb Hub Hle 1 x dir newx Lx Ld Ln : x_move RO o (@f1 RO) dir x newx = _). cbn [obind].
  refine (ex_intro _ _ (ex_intro _ k (conj (f_equal (fun r => obind r _) E) _))). cbn [r_step r_x r_f r_g r_info r_nf r_ng].
  assert (Re : reached d (ls_lb RO o) (ls_ub RO o) x dir (ls_beta RO o ^ k) (moved o x dir (ls_beta RO o ^ k))) by apply moved_reached.
  split; [reflexivity|]. split; [exact Re|]. split; [apply (reached_inbox _ _ _ _ _ _ _ Hle Re)|].
  split; [reflexivity|]. split; [reflexivity|]. split; [exact Hk|]. split; [exact Hn2|]. split; [reflexivity|]. split; [|exact HI].
  intros j y Hj Ry. rewrite (reached_unique _ _ _ _ _ _ _ _ Ry (moved_reached o x dir (ls_beta RO o ^ j))). exact (HA j Hj).
Qed.
Print Assumptions C82_line_search.

(** Bad settings and starting points outside of the box change nothing. *)
Theorem C82_rejects f o x fx grad dir newx newf :
  let d := ls_d RO o in
  box_wf o -> length x = d ->
  (~ 0 < ls_alpha RO o < 1 / 2 -> ls_box RO sqrt f o x fx grad dir newx newf = Ok (mkres RO 0 newx newf grad (-1) 0 0)) /\
  (0 < ls_alpha RO o < 1 / 2 -> ~ inbox d (ls_lb RO o) (ls_ub RO o) x ->
   ls_box RO sqrt f o x fx grad dir newx newf = Ok (mkres RO 0 newx newf grad (-3) 0 0)).
Proof.
  intros d (Hlb & Hub & Hle) Lx. split.
  - intros Ha. unfold ls_box. rewrite (ls_check_alpha o x Ha). reflexivity.
  - intros Ha Hb. unfold ls_box. rewrite (ls_check_box o Hlb Hub x Ha Lx Hb). reflexivity.
Qed.
Print Assumptions C82_rejects.

(** ** A descent direction inside of the box: enough iterations always succeed *)
Definition straight (d : nat) (x dir : list R) (t : R) : list R := tab d (fun i => nth i x 0 + t * nth i dir 0).

Lemma stay_inside n (lb ub x dir : list R) : (forall i, (i < n)%nat -> nth i lb 0 < nth i x 0 < nth i ub 0) ->
  exists e, 0 < e /\ forall i t, (i < n)%nat -> 0 <= t < e -> nth i lb 0 <= nth i x 0 + t * nth i dir 0 <= nth i ub 0.
Proof.
  induction n as [|n IH]; intros H; [exists 1; split; [lra|intros; lia]|].
  destruct IH as (e & He & I); [intros; apply H; lia|]. specialize (H n ltac:(lia)).
  set (v := nth n dir 0). set (m := Rmin (nth n x 0 - nth n lb 0) (nth n ub 0 - nth n x 0)).
  assert (Hm : 0 < m) by (apply Rmin_glb_lt; lra).
  assert (M1 : m <= nth n x 0 - nth n lb 0) by apply Rmin_l. assert (M2 : m <= nth n ub 0 - nth n x 0) by apply Rmin_r.
  assert (Hv : 0 < Rabs v + 1) by (pose proof (Rabs_pos v); lra).
  exists (Rmin e (m / (Rabs v + 1))). split; [apply Rmin_glb_lt; auto; now apply Rdiv_lt_0_compat|].
  intros i t Hi Ht. assert (T1 : t < e) by (pose proof (Rmin_l e (m / (Rabs v + 1))); lra).
  assert (T2 : t < m / (Rabs v + 1)) by (pose proof (Rmin_r e (m / (Rabs v + 1))); lra).
  destruct (Nat.eq_dec i n) as [->|]; [|apply I; [lia|lra]]. fold v.
  assert (Rabs (t * v) <= m).
  { rewrite Rabs_mult, (Rabs_right t) by lra. apply (Rmult_lt_compat_r (Rabs v + 1)) in T2; auto.
    replace (m / (Rabs v + 1) * (Rabs v + 1)) with m in T2 by (field; lra). pose proof (Rabs_pos v). nra. }
  pose proof (Rle_abs (t * v)). pose proof (Rle_abs (- (t * v))) as H2. rewrite Rabs_Ropp in H2. lra.
Qed.

Lemma moved_straight o x dir : (forall i, (i < ls_d RO o)%nat -> nth i (ls_lb RO o : list R) 0 < nth i x 0 < nth i (ls_ub RO o : list R) 0) ->
  exists e, 0 < e /\ forall t, 0 <= t < e -> moved o x dir t = straight (ls_d RO o) x dir t.
Proof.
  intros H. destruct (stay_inside (ls_d RO o) (ls_lb RO o) (ls_ub RO o) x dir H) as (e & He & I). exists e. split; auto.
  intros t Ht. unfold moved, straight. apply tab_ext. intros i Hi. specialize (I i t Hi Ht). unfold clip.
  rewrite Rmin_right by lra. apply Rmax_right. lra.
Qed.

Lemma straight_zero d x dir : length x = d -> straight d x dir 0 = x.
Proof.
  intros H. apply (nth_ext _ _ 0 0); [unfold straight; now rewrite tab_length|]. unfold straight. intros i Hi. rewrite tab_length in Hi.
  rewrite nth_tab by auto. ring.
Qed.

Theorem C82_succeeds f o x grad dir :
  let d := ls_d RO o in
  box_wf o -> 0 < ls_alpha RO o < 1 / 2 -> 0 < ls_beta RO o < 1 ->
  length x = d -> (forall i, (i < d)%nat -> nth i (ls_lb RO o : list R) 0 < nth i x 0 < nth i (ls_ub RO o : list R) 0) ->
  length grad = d -> length dir = d ->
  derivable_pt_lim (fun t => f (straight d x dir t)) 0 (dotv d grad dir) -> dotv d grad dir < 0 ->
  exists N, forall mx newx newf, (N <= mx)%nat -> length newx = d ->
  exists r, ls_box RO sqrt f (mkls RO d (ls_alpha RO o) (ls_beta RO o) mx (ls_lb RO o) (ls_ub RO o) (ls_absx RO o)) x (f x) grad dir newx newf = Ok r /\
    r_info RO r = 0%Z /\ (ls_absx RO o <= 0 -> f (r_x RO r) < f x).
Proof.
  intros d W Ha Hb Lx Hin Lg Ld D Hneg. set (dg := dotv d grad dir) in *.
  destruct (moved_straight o x dir Hin) as (e & He & Hs).
  destruct (D ((1 - ls_alpha RO o) * - dg)) as (del & Hdel); [nra|].
  assert (S0 : straight d x dir 0 = x) by now apply straight_zero.
  assert (A : forall t, 0 < t < Rmin e del -> f (moved o x dir t) <= f x + ls_alpha RO o * t * dg).
  { intros t Ht. rewrite Hs by (pose proof (Rmin_l e del); lra).
    specialize (Hdel t ltac:(lra)). rewrite Rplus_0_l, S0 in Hdel.
    assert (Hd2 : Rabs t < del) by (rewrite Rabs_right; [pose proof (Rmin_r e del); lra|lra]).
    specialize (Hdel Hd2). apply Rabs_def2 in Hdel. destruct Hdel as (Hu & _). fold d.
    assert ((f (straight d x dir t) - f x) / t < ls_alpha RO o * dg) by lra.
    apply (Rmult_lt_compat_r t) in H; [|lra]. replace ((f (straight d x dir t) - f x) / t * t) with (f (straight d x dir t) - f x) in H by (field; lra). lra. }
  assert (Hm : 0 < Rmin e del) by (apply Rmin_glb_lt; [auto|apply cond_pos]).
  destruct (pow_lt_1_zero (ls_beta RO o)) with (y := Rmin e del) as (K & HK); [rewrite Rabs_right; lra|auto|].
  exists (K + 3)%nat. intros mx newx newf Hmx Ln.
  set (o2 := mkls RO d (ls_alpha RO o) (ls_beta RO o) mx (ls_lb RO o) (ls_ub RO o) (ls_absx RO o)).
  assert (Ib : inbox d (ls_lb RO o) (ls_ub RO o) x) by (split; auto; intros i Hi; specialize (Hin i Hi); lra).
  destruct (C82_line_search f o2 x (f x) grad dir newx newf W Ha Ib Lg Ld Ln) as (r & k & E & _ & Rr & _ & _ & _ & Hk & _ & _ & Hj & HI).
  cbn [ls_d ls_alpha ls_beta ls_max ls_lb ls_ub ls_absx o2] in *. fold dg in Hj, HI.
  assert (Pw : forall n, 0 < ls_beta RO o ^ n) by (intros; apply pow_lt; lra).
  assert (AK : forall n, (K <= n)%nat -> f (moved o x dir (ls_beta RO o ^ n)) <= f x + ls_alpha RO o * ls_beta RO o ^ n * dg).
  { intros n Hn. apply A. split; auto. specialize (HK n Hn). rewrite Rabs_right in HK; auto. apply Rle_ge, Rlt_le, Pw. }
  exists r. split; [exact E|]. destruct HI as [(I0 & HI)|(_ & NI & Hkk)].
  - split; auto. intros Hax. destruct HI as [HI|HI].
    + pose proof (Pw k) as Pk. assert (0 < ls_alpha RO o * ls_beta RO o ^ k) by (apply Rmult_lt_0_compat; [apply Ha|exact Pk]).
      assert (Hz : ls_alpha RO o * ls_beta RO o ^ k * dg < 0) by (rewrite <- (Rmult_0_r (ls_alpha RO o * ls_beta RO o ^ k)); now apply Rmult_lt_compat_l).
      clear - HI Hz. rnorm. apply (Rle_lt_trans _ _ _ HI). apply (Rplus_lt_compat_l (f x)) in Hz. rewrite Rplus_0_r in Hz. exact Hz.
    + exfalso. pose proof (sqrt_pos (rs d (fun i => (nth i (r_x RO r) 0 - nth i x 0) ^ 2))). unfold distv in HI. rnorm. lra.
  - exfalso. apply NI. rewrite (reached_unique _ _ _ _ _ _ _ _ Rr (moved_reached o x dir (ls_beta RO o ^ k))). apply AK. lia.
Qed.
Print Assumptions C82_succeeds.

(** ** Cases *)
Definition sq4 (y : list R) : R := 4 * nth 0 y 0 ^ 2.
Definition ls_case (beta absx : R) (mx : nat) : lsopt RO := mkls RO 1 (1 / 4) beta mx [-2] [2] absx.

Lemma ls_case_wf beta absx mx : box_wf (ls_case beta absx mx).
Proof. split; [reflexivity|]. split; [reflexivity|]. intros i Hi. cbn [ls_case ls_d ls_lb ls_ub] in *. replace i with 0%nat by lia. cbn [nth]. lra. Qed.
Lemma ls_case_in beta absx mx : inbox 1 (ls_lb RO (ls_case beta absx mx)) (ls_ub RO (ls_case beta absx mx)) [1].
Proof. split; [reflexivity|]. intros i Hi. cbn [ls_case ls_lb ls_ub]. replace i with 0%nat by lia. cbn [nth]. lra. Qed.
Lemma sq4_dir : dotv 1 [8] [-8] = -64.
Proof. unfold dotv. cbn [rs nth]. ring. Qed.

(** the hypotheses of both theorems are met: [4 y^2] at [1] along [-8] *)
Example C82_hyps :
  box_wf (ls_case (1 / 2) 0 20) /\ 0 < ls_alpha RO (ls_case (1 / 2) 0 20) < 1 / 2 /\ 0 < ls_beta RO (ls_case (1 / 2) 0 20) < 1 /\
  inbox 1 (ls_lb RO (ls_case (1 / 2) 0 20)) (ls_ub RO (ls_case (1 / 2) 0 20)) [1] /\
  (forall i, (i < 1)%nat -> nth i [-2] 0 < nth i [1] 0 < nth i [2] 0) /\
  derivable_pt_lim (fun t => sq4 (straight 1 [1] [-8] t)) 0 (dotv 1 [8] [-8]) /\ dotv 1 [8] [-8] < 0.
Proof.
  split; [apply ls_case_wf|]. split; [cbn [ls_case ls_alpha]; lra|]. split; [cbn [ls_case ls_beta]; lra|]. split; [apply ls_case_in|].
  split; [intros i Hi; replace i with 0%nat by lia; cbn [nth]; lra|]. rewrite sq4_dir. split; [|lra].
  intros e He. exists (mkposreal (e / 256) ltac:(lra)). cbn [pos]. intros h H0 Hh.
  unfold sq4, straight. cbn [tab map seq nth]. rewrite Rplus_0_l.
  replace ((4 * (1 + h * -8) ^ 2 - 4 * (1 + 0 * -8) ^ 2) / h - -64) with (256 * h) by (field; auto).
  rewrite Rabs_mult, (Rabs_right 256) by lra. lra.
Qed.

(** "success" is reported although the value has grown: the test of the distance
    to the starting point ends the search whatever the value is *)
Theorem C82_decrease_refuted : exists f o x grad dir r,
  box_wf o /\ 0 < ls_alpha RO o < 1 / 2 /\ 0 < ls_beta RO o < 1 /\ inbox (ls_d RO o) (ls_lb RO o) (ls_ub RO o) x /\
  length grad = ls_d RO o /\ length dir = ls_d RO o /\
  derivable_pt_lim (fun t => f (straight (ls_d RO o) x dir t)) 0 (dotv (ls_d RO o) grad dir) /\ dotv (ls_d RO o) grad dir < 0 /\
  ls_box RO sqrt f o x (f x) grad dir x (f x) = Ok r /\ r_info RO r = 0%Z /\ f x < r_f RO r.
Proof.
  destruct C82_hyps as (_ & _ & _ & _ & _ & D & N).
  set (o := ls_case (1 / 2) 4 20). destruct (ls_case_wf (1 / 2) 4 20) as (Hlb & Hub & Hle). fold o in Hlb, Hub, Hle.
  exists sq4, o, [1], [8], [-8], (mkres RO (1 * (1 / 4)) (moved o [1] [-8] 1) (sq4 (moved o [1] [-8] 1)) [8] 0 2 0).
  assert (M : moved o [1] [-8] 1 = [-2]).
  { unfold moved. cbn [ls_d ls_case o tab map seq ls_lb ls_ub nth]. f_equal. unfold clip. rewrite Rmin_right by lra. rewrite Rmax_left; lra. }
  split; [repeat split; auto|]. split; [cbn [o ls_case ls_alpha]; lra|]. split; [cbn [o ls_case ls_beta]; lra|].
  split; [apply ls_case_in|]. split; [reflexivity|]. split; [reflexivity|]. split; [exact D|]. split; [exact N|].
  split; [|split; [reflexivity|]].
  - unfold ls_box. rewrite (ls_check_pass o Hlb Hub [1]) by (first [apply ls_case_in|cbn [o ls_case ls_alpha]; lra]). cbn [obind].
    rewrite (odot_ok o [8] [-8] eq_refl eq_refl). cbn [obind].
    rewrite (x_move_ok o Hlb Hub Hle 1 [1] [-8] [1] eq_refl eq_refl eq_refl : x_move RO o (@f1 RO) [-8] [1] [1] = _). cbn [obind].
    cbn [box_loop]. cbn [fltb Rops fadd fmul f1]. change (ls_d RO o) with 1%nat. rewrite sq4_dir.
    change (ls_alpha RO o) with (1 / 4). destruct (Rltb_spec (sq4 [1] + 1 / 4 * 1 * -64) (sq4 (moved o [1] [-8] 1))) as [_|C].
    2:{ exfalso. apply C. rewrite M. unfold sq4. cbn [nth]. lra. }
    cbn [negb]. change (ls_max RO o <=? 1)%nat with false. cbv iota. change (1 <? 1)%nat with false. cbv iota.
    rewrite (x_move_ok o Hlb Hub Hle 1 [1] [-8] (moved o [1] [-8] 1) eq_refl eq_refl eq_refl). cbn [obind].
    rewrite (norm2diff_ok o (moved o [1] [-8] 1) [1] eq_refl eq_refl). cbn [obind].
    destruct (Rltb_spec (distv (ls_d RO o) (moved o [1] [-8] 1) [1]) (ls_absx RO o)) as [_|C]; [reflexivity|].
    exfalso. apply C. rewrite M. unfold distv. cbn [o ls_case ls_d ls_absx rs nth].
    replace (0 + (-2 - 1) ^ 2) with (3 * 3) by ring. rewrite sqrt_square; lra.
  - cbn [r_f]. rewrite M. unfold sq4. cbn [nth]. lra.
Qed.
Print Assumptions C82_decrease_refuted.

(** the return code -2 for a contraction factor outside of (0,1) is documented but
    no factor is ever rejected *)
Theorem C82_beta_refuted : exists f o x fx grad dir newx newf,
  box_wf o /\ 0 < ls_alpha RO o < 1 / 2 /\ inbox (ls_d RO o) (ls_lb RO o) (ls_ub RO o) x /\
  ~ (0 < ls_beta RO o < 1) /\ exists r, ls_box RO sqrt f o x fx grad dir newx newf = Ok r /\ (0 <= r_info RO r)%Z.
Proof.
  exists sq4, (ls_case 2 0 20), [1], 4, [8], [-8], [0], 0.
  split; [apply ls_case_wf|]. split; [cbn [ls_case ls_alpha]; lra|]. split; [apply ls_case_in|]. split; [cbn [ls_case ls_beta]; lra|].
  destruct (C82_line_search sq4 (ls_case 2 0 20) [1] 4 [8] [-8] [0] 0 (ls_case_wf _ _ _) ltac:(cbn [ls_case ls_alpha]; lra) (ls_case_in _ _ _) eq_refl eq_refl eq_refl)
    as (r & k & E & _ & _ & _ & _ & _ & _ & _ & _ & _ & HI).
  exists r. split; [exact E|]. destruct HI as [(-> & _)|(-> & _)]; lia.
Qed.
Print Assumptions C82_beta_refuted.
