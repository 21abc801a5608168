(** C83, C84: the line searches for the weak and the strong Wolfe conditions. *)
From Verif Require Import OptFacts OptBox OptWolfe PropOpt.
From Coq Require Import ZArith Reals Lra Psatz.
Open Scope R_scope.

Definition sq4g (y : list R) : list R := [8 * nth 0 y 0].

(** ** C83: bisection for the weak Wolfe conditions *)
(** [g] is whatever the objective reports as its gradient. *)
Theorem C83_weak_wolfe f g o x fx grad dir newx newf :
  let d := ls_d RO o in
  let dg := dotv d grad dir in
  let wolfe t y := f y <= fx + ls_alpha RO o * t * dg /\ ls_beta RO o * dg <= dotv d (g y) dir in
  box_wf o -> 0 < ls_alpha RO o < 1 / 2 -> inbox d (ls_lb RO o) (ls_ub RO o) x ->
  (forall y, length y = d -> length (g y) = d) ->
  length grad = d -> length dir = d -> length newx = d -> dg <= tol15 -> (2 <= ls_max RO o)%nat ->
  exists r t, ls_wolfe_bisect RO f g o x fx grad dir newx newf = Ok r /\
    0 < t /\ reached d (ls_lb RO o) (ls_ub RO o) x dir t (r_x RO r) /\ inbox d (ls_lb RO o) (ls_ub RO o) (r_x RO r) /\
    r_f RO r = f (r_x RO r) /\ r_g RO r = g (r_x RO r) /\ (r_nf RO r <= 2 * ls_max RO o)%nat /\ (r_ng RO r <= ls_max RO o)%nat /\
    ((r_info RO r = 0%Z /\ wolfe t (r_x RO r) /\ r_step RO r = t * ls_alpha RO o) \/
     (r_info RO r = 1%Z /\ ~ wolfe t (r_x RO r))).
Proof.
  intros d dg wolfe (Hlb & Hub & Hle) Ha Hx Hg Lg Ld Ln Hdg Hm. assert (Lx := proj1 Hx).
  unfold ls_wolfe_bisect. rewrite (odot_ok o grad dir Lg Ld). cbn [obind]. fold d dg.
  rewrite (ls_check_pass o Hlb Hub x Ha Hx). cbn [obind]. cbn [fltb ftol Rops]. destruct (Rltb_spec tol15 dg); [lra|].
  destruct (bis_loop_ok f g o Hlb Hub Hle Hg x dir fx dg Lx Ld (S (ls_max RO o)) 1 1 0 0 newx grad newf 0 0) as (r & E & P & N1 & N2);
    auto; try lia; try lra. { pose proof tol15_pos. lra. }
  assert (R1 : forall t, reached d (ls_lb RO o) (ls_ub RO o) x dir t (moved o x dir t)) by (intros; apply moved_reached).
  destruct P as [(I & t & T & S & X & F & G & W)|(I & t & T & X & F & G & W)]; exists r, t; (split; [exact E|]); (split; [exact T|]); rewrite X, F, G.
  - do 2 (split; [first [apply R1|apply (reached_inbox _ _ _ _ _ _ _ Hle (R1 t))]|]). do 4 (split; [auto|]). left. auto.
  - do 2 (split; [first [apply R1|apply (reached_inbox _ _ _ _ _ _ _ Hle (R1 t))]|]). do 4 (split; [auto|]). right. auto.
Qed.
Print Assumptions C83_weak_wolfe.

(** A direction of ascent: back to the starting point, code -4. *)
Theorem C83_ascent f g o x fx grad dir newx newf :
  let d := ls_d RO o in
  box_wf o -> 0 < ls_alpha RO o < 1 / 2 -> inbox d (ls_lb RO o) (ls_ub RO o) x ->
  length grad = d -> length dir = d -> length newx = d -> tol15 < dotv d grad dir ->
  ls_wolfe_bisect RO f g o x fx grad dir newx newf = Ok (mkres RO 0 x fx grad (-4) 0 0) /\
  forall z20 n, ls_strong_wolfe RO sqrt z20 f g o n x fx grad dir newx newf = Ok (mkres RO 0 x fx grad (-4) 0 0).
Proof.
  intros d (Hlb & Hub & Hle) Ha Hx Lg Ld Ln Hdg. assert (Lx := proj1 Hx).
  unfold ls_wolfe_bisect, ls_strong_wolfe. rewrite (odot_ok o grad dir Lg Ld). cbn [obind]. fold d.
  rewrite (ls_check_pass o Hlb Hub x Ha Hx). cbn [obind]. cbn [fltb ftol Rops]. destruct (Rltb_spec tol15 (dotv d grad dir)); [|lra].
  pose proof (blit_all o newx x Ln Lx) as B.
  exact (conj (f_equal (fun r => obind r _) B) (fun _ _ => f_equal (fun r => obind r _) B)).
Qed.
Print Assumptions C83_ascent.

Theorem C83_rejects f g o x fx grad dir newx newf :
  let d := ls_d RO o in
  box_wf o -> length x = d -> length grad = d -> length dir = d ->
  forall code, code = (-1)%Z /\ ~ 0 < ls_alpha RO o < 1 / 2 \/ code = (-3)%Z /\ 0 < ls_alpha RO o < 1 / 2 /\ ~ inbox d (ls_lb RO o) (ls_ub RO o) x ->
  ls_wolfe_bisect RO f g o x fx grad dir newx newf = Ok (mkres RO 0 newx newf grad code 0 0) /\
  forall z20 n, ls_strong_wolfe RO sqrt z20 f g o n x fx grad dir newx newf = Ok (mkres RO 0 newx newf grad code 0 0).
Proof.
  intros d (Hlb & Hub & Hle) Lx Lg Ld code H. unfold ls_wolfe_bisect, ls_strong_wolfe. rewrite (odot_ok o grad dir Lg Ld). cbn [obind].
  destruct H as [(-> & Ha)|(-> & Ha & Hb)].
  - rewrite (ls_check_alpha o x Ha). split; reflexivity.
  - rewrite (ls_check_box o Hlb Hub x Ha Lx Hb). split; reflexivity.
Qed.
Print Assumptions C83_rejects.

(** Without any iteration the search reports success and leaves the buffers as
    they were, here with a point outside of the box and a wrong value. *)
Theorem C83_no_iteration_refuted : exists f g o x grad dir newx newf r,
  box_wf o /\ 0 < ls_alpha RO o < 1 / 2 /\ inbox (ls_d RO o) (ls_lb RO o) (ls_ub RO o) x /\
  grad = g x /\ length newx = ls_d RO o /\ dotv (ls_d RO o) grad dir < 0 /\
  ls_wolfe_bisect RO f g o x (f x) grad dir newx newf = Ok r /\ r_info RO r = 0%Z /\
  ~ inbox (ls_d RO o) (ls_lb RO o) (ls_ub RO o) (r_x RO r) /\ r_f RO r <> f (r_x RO r).
Proof.
  exists sq4, sq4g, (ls_case (1 / 2) 0 0), [1], [8 * 1], [-8], [77], 5, (mkres RO (1 * (1 / 4)) [77] 5 [8 * 1] 0 0 0).
  destruct (ls_case_wf (1 / 2) 0 0) as (Hlb & Hub & Hle).
  assert (E : dotv 1 [8 * 1] [-8] = -64) by (unfold dotv; cbn [rs nth]; ring).
  split; [repeat split; auto|]. split; [cbn [ls_case ls_alpha]; lra|]. split; [apply ls_case_in|]. split; [reflexivity|]. split; [reflexivity|].
  change (ls_d RO (ls_case (1 / 2) 0 0)) with 1%nat. rewrite E. split; [lra|]. split; [|split; [reflexivity|split]].
  - unfold ls_wolfe_bisect. rewrite (odot_ok (ls_case (1 / 2) 0 0) [8 * 1] [-8] eq_refl eq_refl). cbn [obind].
    rewrite (ls_check_pass _ Hlb Hub [1]) by (first [apply ls_case_in|cbn [ls_case ls_alpha]; lra]). cbn [obind]. cbn [fltb ftol Rops].
    change (ls_d RO (ls_case (1 / 2) 0 0)) with 1%nat. rewrite E. destruct (Rltb_spec tol15 (-64)); [pose proof tol15_pos; lra|]. reflexivity.
  - intros (_ & H). specialize (H 0%nat ltac:(lia)). cbn [nth r_x ls_case ls_lb ls_ub] in H. lra.
  - cbn [r_f r_x]. unfold sq4. cbn [nth]. lra.
Qed.
Print Assumptions C83_no_iteration_refuted.

(** When the iterations run out, the returned step is the next trial, not the one
    that led to the reported point. *)
Theorem C83_step_refuted : exists f g o x grad dir r,
  box_wf o /\ 0 < ls_alpha RO o < 1 / 2 /\ inbox (ls_d RO o) (ls_lb RO o) (ls_ub RO o) x /\
  grad = g x /\ dotv (ls_d RO o) grad dir < 0 /\
  ls_wolfe_bisect RO f g o x (f x) grad dir x (f x) = Ok r /\ r_info RO r = 1%Z /\
  forall t, r_step RO r = t * ls_alpha RO o -> ~ reached (ls_d RO o) (ls_lb RO o) (ls_ub RO o) x dir t (r_x RO r).
Proof.
  set (o := ls_case (1 / 2) 0 2). destruct (ls_case_wf (1 / 2) 0 2) as (Hlb & Hub & Hle). fold o in Hlb, Hub, Hle.
  assert (E : dotv 1 [8 * 1] [-2] = -16) by (unfold dotv; cbn [rs nth]; ring).
  assert (M : moved o [1] [-2] 1 = [-1]).
  { unfold moved. cbn [ls_d ls_case o tab map seq ls_lb ls_ub nth]. f_equal. unfold clip. rewrite Rmin_right by lra. rewrite Rmax_right; lra. }
  exists sq4, sq4g, o, [1], [8 * 1], [-2],
    (mkres RO (1 / 2 * (0 + 1) * (1 / 4)) (moved o [1] [-2] 1) (sq4 (moved o [1] [-2] 1)) (sq4g (moved o [1] [-2] 1)) 1 2 1).
  split; [repeat split; auto|]. split; [cbn [o ls_case ls_alpha]; lra|]. split; [apply ls_case_in|]. split; [reflexivity|].
  change (ls_d RO o) with 1%nat. rewrite E. split; [lra|]. split; [|split; [reflexivity|]].
  - unfold ls_wolfe_bisect. rewrite (odot_ok o [8 * 1] [-2] eq_refl eq_refl). cbn [obind].
    rewrite (ls_check_pass o Hlb Hub [1]) by (first [apply ls_case_in|cbn [o ls_case ls_alpha]; lra]). cbn [obind]. cbn [fltb ftol Rops].
    change (ls_d RO o) with 1%nat. rewrite E. destruct (Rltb_spec tol15 (-16)); [pose proof tol15_pos; lra|].
    cbn [bis_loop]. change (ls_max RO o) with 2%nat. cbn [Nat.ltb Nat.leb negb].
    rewrite (x_move_ok o Hlb Hub Hle 1 [1] [-2] [1] eq_refl eq_refl eq_refl : x_move RO o (@f1 RO) [-2] [1] [1] = _). cbn [obind].
    cbn [fltb fadd fmul f1 Rops]. change (ls_alpha RO o) with (1 / 4).
    destruct (Rltb_spec (sq4 [1] + 1 / 4 * 1 * -16) (sq4 (moved o [1] [-2] 1))) as [_|C].
    2:{ exfalso. apply C. rewrite M. unfold sq4. cbn [nth]. lra. }
    cbn [Nat.add Nat.eqb]. refine (eq_trans (f_equal (fun r => obind r _) (eval_grad_ok o sq4g (moved o [1] [-2] 1) [8 * 1] eq_refl eq_refl)) _). cbn [obind].
    unfold fhalf. cbn [f0 f1 fdiv fnat Rops]. change (INR 2) with 2. reflexivity.
  - cbn [r_step r_x]. change (ls_alpha RO o) with (1 / 4). intros t Ht (_ & H). specialize (H 0%nat ltac:(lia)). rewrite M in H.
    cbn [o ls_case ls_lb ls_ub nth] in H. assert (t = 1 / 2) by lra. subst t.
    rewrite Rmin_right in H by lra. rewrite Rmax_right in H; lra.
Qed.
Print Assumptions C83_step_refuted.

Example C83_hyps :
  let o := ls_case (1 / 2) 0 20 in
  box_wf o /\ 0 < ls_alpha RO o < 1 / 2 /\ inbox 1 (ls_lb RO o) (ls_ub RO o) [1] /\
  (forall y, length y = 1%nat -> length (sq4g y) = 1%nat) /\ dotv 1 (sq4g [1]) [-8] <= tol15 /\ (2 <= ls_max RO o)%nat.
Proof.
  split; [apply ls_case_wf|]. split; [cbn [ls_case ls_alpha]; lra|]. split; [apply ls_case_in|]. split; [reflexivity|].
  split; [|cbn [ls_case ls_max]; lia]. unfold dotv, sq4g. cbn [rs nth]. pose proof tol15_pos. lra.
Qed.

(** ** C84: the strong Wolfe conditions *)
(** The literal 1e-20 of the code *)
Definition lit20 : R := / 10 ^ 20.
Lemma lit20_pos : 0 < lit20.
Proof. unfold lit20. apply Rinv_0_lt_compat, pow_lt. lra. Qed.
Lemma lit20_fuel n : (67 <= n)%nat -> 1 <= lit20 * 2 ^ n.
Proof.
  intros H. unfold lit20. assert (P : 0 < 10 ^ 20) by (apply pow_lt; lra).
  assert (10 ^ 20 <= 2 ^ n).
  { apply (Rle_trans _ (2 ^ 67)); [|apply Rle_pow; [lra|lia]].
    change 10 with (IZR 10). change 2 with (IZR 2). rewrite !pow_IZR. apply IZR_le. vm_compute. discriminate. }
  apply (Rmult_le_reg_l (10 ^ 20)); auto. rewrite Rmult_1_r, <- Rmult_assoc, Rinv_r, Rmult_1_l by lra. exact H0.
Qed.

(** The search comes to an end whatever the objective.  It either reports a step
    with the strong conditions (or a point too close to [x]), or, also with code 0,
    a step with sufficient decrease or none together with the data of some other
    trial; or the steps ran out while the objective still decreased; or the
    program is stopped by an assertion, and then some trial had decreased the
    objective. *)
Theorem C84_strong_wolfe f g o x fx grad dir newx newf n :
  let d := ls_d RO o in
  let dg := dotv d grad dir in
  let enough t y := f y <= fx + ls_alpha RO o * t * dg in
  let strong t y := enough t y /\ Rabs (dotv d (g y) dir) <= - ls_beta RO o * dg in
  let at_ t y := reached d (ls_lb RO o) (ls_ub RO o) x dir t y in
  box_wf o -> 0 < ls_alpha RO o < 1 / 2 -> inbox d (ls_lb RO o) (ls_ub RO o) x ->
  (forall y, length y = d -> length (g y) = d) ->
  length grad = d -> length dir = d -> length newx = d -> dg < 0 -> (1 <= ls_max RO o)%nat -> (68 <= n)%nat ->
  (exists r u, ls_strong_wolfe RO sqrt lit20 f g o n x fx grad dir newx newf = Ok r /\
     at_ u (r_x RO r) /\ inbox d (ls_lb RO o) (ls_ub RO o) (r_x RO r) /\ r_f RO r = f (r_x RO r) /\ r_g RO r = g (r_x RO r) /\
     ((r_info RO r = 0%Z /\ 0 < u < 1 /\ r_step RO r = u * ls_alpha RO o /\ (strong u (r_x RO r) \/ distv d (r_x RO r) x < ls_absx RO o)) \/
      (r_info RO r = 0%Z /\ exists t y, r_step RO r = t * ls_alpha RO o /\ (t = 0 \/ 0 < t < 1 /\ at_ t y /\ enough t y)) \/
      (r_info RO r = 1%Z /\ 0 < u < 1 /\ enough u (r_x RO r) /\ dotv d (r_g RO r) dir < 0 /\ ~ strong u (r_x RO r)))) \/
  (ls_strong_wolfe RO sqrt lit20 f g o n x fx grad dir newx newf = Abort /\
   exists u y, 0 < u < 1 /\ at_ u y /\ ~ enough u y /\ f y < fx).
Proof.
  intros d dg enough strong at_ (Hlb & Hub & Hle) Ha Hx Hg Lg Ld Ln Hdg Hm Hn. assert (Lx := proj1 Hx).
  assert (T15 := tol15_pos).
  unfold ls_strong_wolfe. rewrite (ls_check_pass o Hlb Hub x Ha Hx). cbn [obind]. rewrite (odot_ok o grad dir Lg Ld). cbn [obind]. fold d dg.
  cbn [fltb ftol Rops]. destruct (Rltb_spec tol15 dg); [lra|]. cbn [f0 f1 fdiv fnat Rops].
  replace (INR 10) with 10 by (rewrite INR_IZR_INZ; reflexivity).
  destruct n as [|n]; [lia|].
  assert (R1 : forall t, at_ t (moved o x dir t)) by (intros; apply moved_reached).
  assert (R2 : forall t, inbox d (ls_lb RO o) (ls_ub RO o) (moved o x dir t)) by (intros t; apply (reached_inbox _ _ _ _ _ _ _ Hle (R1 t))).
  pose proof (sw_loop_ok f g lit20 o Hlb Hub Hle Hg x dir fx dg Lx Ld n (S (ls_max RO o)) 1 (1 / 10) 0 fx newx grad newf 0 0 lit20_pos
    (lit20_fuel n ltac:(lia)) Hdg (proj1 Ha) ltac:(lia) Hm ltac:(lia) ltac:(lia) ltac:(lra) ltac:(lra) ltac:(lra) Ln Lg ltac:(auto) ltac:(intros; lia)) as P.
  destruct P as [(r & E & P)|(E & u & U & U1 & U2)].
  - left. destruct P as [(I & t & T & S & (X & F & G) & W)|[(I & t & u & S & W & (X & F & G))|(I & u & U & (X & F & G) & W1 & W2 & W3)]].
    + exists r, t. split; [exact E|]. rewrite X, F, G. do 4 (split; [auto|]). left. auto.
    + exists r, u. split; [exact E|]. rewrite X, F, G. do 4 (split; [auto|]). right. left. split; [exact I|]. exists t, (moved o x dir t). split; [exact S|].
      destruct W as [W|(W1 & W2)]; [now left|right; auto].
    + exists r, u. split; [exact E|]. rewrite X, F, G. do 4 (split; [auto|]). right. right. auto.
  - right. split; [exact E|]. exists u, (moved o x dir u). auto.
Qed.
Print Assumptions C84_strong_wolfe.

Example C84_hyps :
  let o := ls_case (1 / 2) 0 20 in
  box_wf o /\ 0 < ls_alpha RO o < 1 / 2 /\ inbox 1 (ls_lb RO o) (ls_ub RO o) [1] /\
  (forall y, length y = 1%nat -> length (sq4g y) = 1%nat) /\ dotv 1 (sq4g [1]) [-8] < 0 /\ (1 <= ls_max RO o)%nat.
Proof.
  split; [apply ls_case_wf|]. split; [cbn [ls_case ls_alpha]; lra|]. split; [apply ls_case_in|]. split; [reflexivity|].
  split; [|cbn [ls_case ls_max]; lia]. unfold dotv, sq4g. cbn [rs nth]. lra.
Qed.

(** A first trial that decreases the objective, but not enough, stops the program:
    the assertion contradicts the test around it. *)
Theorem C84_abort f g o x fx grad dir newx newf n y :
  let d := ls_d RO o in
  let dg := dotv d grad dir in
  box_wf o -> 0 < ls_alpha RO o < 1 / 2 -> inbox d (ls_lb RO o) (ls_ub RO o) x ->
  (forall y, length y = d -> length (g y) = d) ->
  length grad = d -> length dir = d -> length newx = d -> dg < 0 -> (1 <= ls_max RO o)%nat ->
  reached d (ls_lb RO o) (ls_ub RO o) x dir (1 / 10) y -> ls_absx RO o <= distv d y x ->
  fx + ls_alpha RO o * (1 / 10) * dg < f y < fx ->
  ls_strong_wolfe RO sqrt lit20 f g o n x fx grad dir newx newf = Abort.
Proof.
  intros d dg (Hlb & Hub & Hle) Ha Hx Hg Lg Ld Ln Hdg Hm Ry Hy Hf. assert (Lx := proj1 Hx). assert (T15 := tol15_pos).
  unfold ls_strong_wolfe. rewrite (ls_check_pass o Hlb Hub x Ha Hx). cbn [obind]. rewrite (odot_ok o grad dir Lg Ld). cbn [obind]. fold d dg.
  cbn [fltb ftol Rops]. destruct (Rltb_spec tol15 dg); [lra|]. cbn [f0 f1 fdiv fnat Rops].
  replace (INR 10) with 10 by (rewrite INR_IZR_INZ; reflexivity).
  rewrite (reached_unique _ _ _ _ _ _ _ _ Ry (moved_reached o x dir (1 / 10))) in *.
  assert (Lp := moved_length o x dir (1 / 10)).
  cbn [sw_loop]. destruct (Nat.leb_spec 1 (ls_max RO o)); [|lia]. cbn [negb].
  rewrite (x_move_ok o Hlb Hub Hle (1 / 10) x dir newx Lx Ld Ln). cbn [obind].
  rewrite (eval_grad_ok o g (moved o x dir (1 / 10)) grad (Hg _ Lp) Lg). cbn [obind].
  rewrite (norm2diff_ok o (moved o x dir (1 / 10)) x Lp Lx). cbn [obind]. cbn [fltb fleb fadd fmul Rops]. fold d.
  destruct (Rltb_spec (distv d (moved o x dir (1 / 10)) x) (ls_absx RO o)) as [C|_]; [rnorm; lra|].
  destruct (Rltb_spec (fx + ls_alpha RO o * (1 / 10) * dg) (f (moved o x dir (1 / 10)))) as [_|C]; [|rnorm; lra].
  cbn [orb]. destruct (Rltb_spec (f (moved o x dir (1 / 10))) fx) as [_|C]; [|lra].
  unfold cassert. destruct (Rltb_spec fx (f (moved o x dir (1 / 10)))) as [C|_]; [lra|]. reflexivity.
Qed.
Print Assumptions C84_abort.

(** A first trial that decreases a smooth objective, but not enough, stops the
    program: the assertion contradicts the test around it. *)
Theorem C84_abort_refuted : exists f g o x dir,
  box_wf o /\ 0 < ls_alpha RO o < 1 / 2 /\ 0 < ls_beta RO o < 1 /\ inbox (ls_d RO o) (ls_lb RO o) (ls_ub RO o) x /\
  (forall y, derivable_pt_lim (fun t => f (straight (ls_d RO o) y dir t)) 0 (dotv (ls_d RO o) (g y) dir)) /\
  dotv (ls_d RO o) (g x) dir < 0 /\
  forall n, ls_strong_wolfe RO sqrt lit20 f g o n x (f x) (g x) dir x (f x) = Abort.
Proof.
  set (o := ls_case (1 / 2) 0 20). destruct (ls_case_wf (1 / 2) 0 20) as (Hlb & Hub & Hle). fold o in Hlb, Hub, Hle.
  exists sq4, sq4g, o, [1], [-19]. assert (E : dotv 1 (sq4g [1]) [-19] = -152) by (unfold dotv, sq4g; cbn [rs nth]; ring).
  assert (M : moved o [1] [-19] (1 / 10) = [-9 / 10]).
  { unfold moved. cbn [ls_d ls_case o tab map seq ls_lb ls_ub nth]. f_equal. unfold clip. rewrite Rmin_right by lra. rewrite Rmax_right; lra. }
  split; [repeat split; auto|]. split; [cbn [o ls_case ls_alpha]; lra|]. split; [cbn [o ls_case ls_beta]; lra|]. split; [apply ls_case_in|].
  change (ls_d RO o) with 1%nat. split; [|split; [lra|]].
  - intros y e He. exists (mkposreal (e / 1444) ltac:(lra)). cbn [pos]. intros h H0 Hh.
    unfold sq4, straight, sq4g, dotv. cbn [tab map seq nth rs]. rewrite Rplus_0_l.
    replace ((4 * (nth 0 y 0 + h * -19) ^ 2 - 4 * (nth 0 y 0 + 0 * -19) ^ 2) / h - (0 + 8 * nth 0 y 0 * -19)) with (1444 * h) by (field; auto).
    rewrite Rabs_mult, (Rabs_right 1444) by lra. lra.
  - intros n. apply (C84_abort sq4 sq4g o [1] (sq4 [1]) (sq4g [1]) [-19] [1] (sq4 [1]) n (moved o [1] [-19] (1 / 10))).
    + repeat split; auto.
    + cbn [o ls_case ls_alpha]; lra.
    + apply ls_case_in.
    + reflexivity.
    + reflexivity.
    + reflexivity.
    + reflexivity.
    + change (ls_d RO o) with 1%nat. rewrite E. lra.
    + cbn [o ls_case ls_max]. lia.
    + apply moved_reached.
    + change (ls_absx RO o) with 0. apply sqrt_pos.
    + change (ls_d RO o) with 1%nat. rewrite E, M. change (ls_alpha RO o) with (1 / 4). unfold sq4. cbn [nth]. lra.
Qed.
Print Assumptions C84_abort_refuted.

(** ** A zoom that finds nothing *)
Section Fail.
  Variable f : list R -> R.
  Variable g : list R -> list R.
  Variable o : lsopt RO.
  Hypothesis W : box_wf o.
  Variables (x dir : list R) (fx dg fl : R).
  Hypothesis Hx : length x = ls_d RO o.
  Hypothesis Hd : length dir = ls_d RO o.
  Hypothesis Hg : forall y, length y = ls_d RO o -> length (g y) = ls_d RO o.
  Hypothesis Hfail : forall t, lit20 / 2 <= t -> fl < f (moved o x dir t).

  Lemma zoom_halve n th (newx grad : list R) fval nf ng :
    0 < th < lit20 * 2 ^ n -> length newx = ls_d RO o -> length grad = ls_d RO o -> fl < fval ->
    exists nx gr fv nf' ng', ls_zoom RO lit20 f g o (S n) 0 0 th fl x dir fx dg newx grad fval nf ng = Ok (0, nx, gr, fv, nf', ng') /\ fl < fv.
  Proof using W Hx Hd Hg Hfail.
    destruct W as (Hlb & Hub & Hle). assert (Lp := lit20_pos).
    revert th newx grad fval nf ng. induction n as [|n IH]; intros th newx grad fval nf ng Hth Ln Lg Hf.
    - cbn [ls_zoom]. cbn [fleb fabs fsub Rops]. destruct (Rleb_spec lit20 (Rabs (th - 0))) as [C|C]; [rewrite Rabs_right in C by lra; cbn [pow] in Hth; lra|].
      cbn [negb]. do 5 eexists. split; [reflexivity|exact Hf].
    - set (F := S n) in *. cbn [ls_zoom]. cbn [fleb fltb fabs fsub fadd fmul fdiv fnat Rops]. change (INR 2) with 2.
      destruct (Rleb_spec lit20 (Rabs (th - 0))) as [C|C]; cbn [negb]; [|do 5 eexists; split; [reflexivity|exact Hf]].
      rewrite Rabs_right in C by lra.
      assert (Lq := moved_length o x dir ((0 + th) / 2)).
      rewrite (x_move_ok o Hlb Hub Hle ((0 + th) / 2) x dir _ Hx Hd Ln). cbn [obind].
      rewrite (eval_grad_ok o g (moved o x dir ((0 + th) / 2)) grad (Hg _ Lq) Lg). cbn [obind].
      assert (Q := Hfail ((0 + th) / 2) ltac:(lra)).
      destruct (Rleb_spec fl (f (moved o x dir ((0 + th) / 2)))) as [_|C2]; [|lra]. rewrite orb_true_r.
      apply IH; auto. unfold F in Hth. cbn [pow] in Hth. lra.
  Qed.
End Fail.

(** When no trial decreases the objective, the search reports code 0 and step 0
    together with a point where the objective is larger. *)
Theorem C84_nothing_found f g o x fx grad dir newx newf n :
  let d := ls_d RO o in
  box_wf o -> 0 < ls_alpha RO o < 1 / 2 -> inbox d (ls_lb RO o) (ls_ub RO o) x ->
  (forall y, length y = d -> length (g y) = d) ->
  length grad = d -> length dir = d -> length newx = d -> dotv d grad dir < 0 -> (1 <= ls_max RO o)%nat -> (68 <= n)%nat ->
  ls_absx RO o <= 0 -> (forall t y, lit20 / 2 <= t -> reached d (ls_lb RO o) (ls_ub RO o) x dir t y -> fx < f y) ->
  exists r, ls_strong_wolfe RO sqrt lit20 f g o n x fx grad dir newx newf = Ok r /\ r_info RO r = 0%Z /\ r_step RO r = 0 /\ fx < r_f RO r.
Proof.
  intros d W Ha Hx Hg Lg Ld Ln Hdg Hm Hn Hax Hf. assert (W' := W). destruct W' as (Hlb & Hub & Hle). assert (Lx := proj1 Hx). assert (T15 := tol15_pos).
  assert (Hf' : forall t, lit20 / 2 <= t -> fx < f (moved o x dir t)) by (intros t Ht; apply (Hf t _ Ht), moved_reached).
  destruct n as [|n]; [lia|].
  assert (L10 : lit20 / 2 <= 1 / 10).
  { unfold lit20. assert (/ 10 ^ 20 <= / 10 ^ 1) by (apply Rinv_le_contravar; [lra|apply Rle_pow; [lra|lia]]). lra. }
  assert (Q := Hf' (1 / 10) L10).
  unfold ls_strong_wolfe. rewrite (ls_check_pass o Hlb Hub x Ha Hx). cbn [obind]. rewrite (odot_ok o grad dir Lg Ld). cbn [obind]. fold d.
  cbn [fltb ftol Rops]. destruct (Rltb_spec tol15 (dotv d grad dir)); [lra|]. cbn [f0 f1 fdiv fnat Rops].
  replace (INR 10) with 10 by (rewrite INR_IZR_INZ; reflexivity).
  assert (Lp := moved_length o x dir (1 / 10)).
  cbn [sw_loop]. destruct (Nat.leb_spec 1 (ls_max RO o)); [|lia]. cbn [negb].
  rewrite (x_move_ok o Hlb Hub Hle (1 / 10) x dir newx Lx Ld Ln). cbn [obind].
  rewrite (eval_grad_ok o g (moved o x dir (1 / 10)) grad (Hg _ Lp) Lg). cbn [obind].
  rewrite (norm2diff_ok o (moved o x dir (1 / 10)) x Lp Lx). cbn [obind]. cbn [fltb fleb fadd fmul Rops]. fold d.
  assert (D0 : 0 <= distv d (moved o x dir (1 / 10)) x) by apply sqrt_pos.
  destruct (Rltb_spec (distv d (moved o x dir (1 / 10)) x) (ls_absx RO o)) as [C|_]; [rnorm; lra|].
  destruct (Rltb_spec (fx + ls_alpha RO o * (1 / 10) * dotv d grad dir) (f (moved o x dir (1 / 10)))) as [_|C].
  2:{ exfalso. apply C. assert (0 < ls_alpha RO o * (1 / 10) * - dotv d grad dir) by (apply Rmult_lt_0_compat; [apply Rmult_lt_0_compat; [apply Ha|lra]|lra]). rnorm. lra. }
  cbn [orb]. destruct (Rltb_spec (f (moved o x dir (1 / 10))) fx) as [C|_]; [lra|]. cbn [obind].
  destruct (zoom_halve f g o W x dir fx (dotv d grad dir) fx Lx Ld Hg Hf' n (1 / 10)
    (moved o x dir (1 / 10)) (g (moved o x dir (1 / 10))) (f (moved o x dir (1 / 10))) 1 1) as (nx & gr & fv & nf' & ng' & Z & Hz); auto.
  { pose proof (lit20_fuel n ltac:(lia)). lra. }
  rewrite Z. cbn [obind].
  eexists. split; [reflexivity|]. cbn [r_info r_step r_f]. split; [reflexivity|]. split; [|exact Hz].
  cbn [fmul Rops]. rnorm. ring.
Qed.
Print Assumptions C84_nothing_found.

(** A smooth objective of large curvature: code 0, step 0, but the reported point
    is not the starting point and the value there is larger. *)
Theorem C84_decrease_refuted : exists f g o x dir,
  box_wf o /\ 0 < ls_alpha RO o < 1 / 2 /\ 0 < ls_beta RO o < 1 /\ inbox (ls_d RO o) (ls_lb RO o) (ls_ub RO o) x /\
  (forall y, derivable_pt_lim (fun t => f (straight (ls_d RO o) y dir t)) 0 (dotv (ls_d RO o) (g y) dir)) /\
  dotv (ls_d RO o) (g x) dir < 0 /\
  forall n, (68 <= n)%nat -> exists r, ls_strong_wolfe RO sqrt lit20 f g o n x (f x) (g x) dir x (f x) = Ok r /\
    r_info RO r = 0%Z /\ r_step RO r = 0 /\ f x < r_f RO r.
Proof.
  assert (Lp := lit20_pos). set (c := 4 / lit20).
  assert (Hc : 0 < c) by (unfold c; apply Rdiv_lt_0_compat; lra).
  set (o := ls_case (1 / 2) 0 20). assert (W := ls_case_wf (1 / 2) 0 20). fold o in W. destruct W as (Hlb & Hub & Hle).
  set (f := fun y : list R => c * nth 0 y 0 ^ 2 - nth 0 y 0). set (g := fun y : list R => [2 * c * nth 0 y 0 - 1]).
  assert (Ib : inbox 1 (ls_lb RO o) (ls_ub RO o) [0]).
  { split; [reflexivity|]. intros i Hi. cbn [o ls_case ls_lb ls_ub]. replace i with 0%nat by lia. cbn [nth]. lra. }
  assert (E : dotv 1 (g [0]) [1] = -1) by (unfold dotv, g; cbn [rs nth]; ring).
  assert (M : forall t, 0 <= t -> moved o [0] [1] t = [Rmin 2 t]).
  { intros t Ht. unfold moved. cbn [ls_d ls_case o tab map seq ls_lb ls_ub nth]. f_equal. unfold clip.
    replace (0 + t * 1) with t by ring. apply Rmax_right. apply Rmin_glb; lra. }
  assert (L4 : lit20 <= 1).
  { unfold lit20. rewrite <- Rinv_1. apply Rinv_le_contravar; [lra|]. apply pow_R1_Rle. lra. }
  assert (Hf : forall t, lit20 / 2 <= t -> f [0] < f (moved o [0] [1] t)).
  { intros t Ht. rewrite M by lra. unfold f. cbn [nth]. set (s := Rmin 2 t).
    assert (Hs : lit20 / 2 <= s) by (unfold s; apply Rmin_glb; lra).
    assert (2 <= c * s). { unfold c. apply (Rmult_le_reg_l lit20); auto. replace (lit20 * (4 / lit20 * s)) with (4 * s) by (field; lra). lra. }
    nra. }
  exists f, g, o, [0], [1].
  split; [repeat split; auto|]. split; [cbn [o ls_case ls_alpha]; lra|]. split; [cbn [o ls_case ls_beta]; lra|]. split; [exact Ib|].
  change (ls_d RO o) with 1%nat. split; [|split; [lra|]].
  - intros y e He. assert (Hec : 0 < e / c) by (apply Rdiv_lt_0_compat; lra). exists (mkposreal (e / c) Hec). cbn [pos]. intros h H0 Hh.
    unfold f, straight, g, dotv. cbn [tab map seq nth rs]. rewrite Rplus_0_l. set (a := nth 0 y 0).
    replace ((c * (a + h * 1) ^ 2 - (a + h * 1) - (c * (a + 0 * 1) ^ 2 - (a + 0 * 1))) / h - (0 + (2 * c * a - 1) * 1)) with (c * h) by (field; auto).
    rewrite Rabs_mult, (Rabs_right c) by lra. apply (Rmult_lt_compat_l c) in Hh; auto. replace (c * (e / c)) with e in Hh by (field; lra). exact Hh.
  - intros n Hn. apply (C84_nothing_found f g o [0] (f [0]) (g [0]) [1] [0] (f [0]) n).
    + repeat split; auto.
    + cbn [o ls_case ls_alpha]; lra.
    + exact Ib.
    + reflexivity.
    + reflexivity.
    + reflexivity.
    + reflexivity.
    + change (ls_d RO o) with 1%nat. rewrite E. lra.
    + cbn [o ls_case ls_max]. lia.
    + exact Hn.
    + change (ls_absx RO o) with 0. lra.
    + intros t y Ht Ry. rewrite (reached_unique _ _ _ _ _ _ _ _ Ry (moved_reached o [0] [1] t)). now apply Hf.
Qed.
Print Assumptions C84_decrease_refuted.
