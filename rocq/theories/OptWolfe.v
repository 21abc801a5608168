(** The line searches for the weak and the strong Wolfe conditions. *)
From Verif Require Export OptFacts.
From Coq Require Import ZArith Reals Lra Psatz.
Open Scope R_scope.

Section OptWolfe.
  Variable f : list R -> R.
  Variable g : list R -> list R.
  Variable z20 : R.
  Variable o : lsopt RO.
  Notation d := (ls_d RO o).
  Notation lb := (ls_lb RO o : list R).
  Notation ub := (ls_ub RO o : list R).
  Notation alpha := (ls_alpha RO o : R).
  Notation beta := (ls_beta RO o : R).
  Hypothesis Hlb : length lb = d.
  Hypothesis Hub : length ub = d.
  Hypothesis Hle : forall i, (i < d)%nat -> nth i lb 0 <= nth i ub 0.
  Hypothesis Hg : forall y, length y = d -> length (g y) = d.
  Variables (x dir : list R) (fx dg : R).
  Hypothesis Hx : length x = d.
  Hypothesis Hd : length dir = d.

  Notation pt := (moved o x dir).
  Definition enough (t : R) : Prop := f (pt t) <= fx + alpha * t * dg.
  Definition slope (t : R) : R := dotv d (g (pt t)) dir.

  Definition weak_post (r : lsres RO) : Prop :=
    (r_info RO r = 0%Z /\ exists t, 0 < t /\ r_step RO r = t * alpha /\ r_x RO r = pt t /\ r_f RO r = f (pt t) /\ r_g RO r = g (pt t) /\
       enough t /\ beta * dg <= slope t) \/
    (r_info RO r = 1%Z /\ exists t, 0 < t /\ r_x RO r = pt t /\ r_f RO r = f (pt t) /\ r_g RO r = g (pt t) /\
       ~ (enough t /\ beta * dg <= slope t)).

  Lemma bis_loop_ok fuel iter t tmin tmax (newx grad : list R) newf nf ng :
    ((2 <= iter)%nat -> exists t0, 0 < t0 /\ newx = pt t0 /\ ~ (enough t0 /\ beta * dg <= slope t0)) ->
    (1 <= iter)%nat -> (2 <= ls_max RO o)%nat -> (iter <= ls_max RO o)%nat -> (ls_max RO o < fuel + iter)%nat ->
    0 <= tmin -> tmin < t -> (tol15 <= tmax -> t < tmax) -> 0 <= tmax ->
    length newx = d -> length grad = d -> (nf <= 2 * (iter - 1))%nat -> (ng <= iter - 1)%nat ->
    exists r, bis_loop RO f g o fuel iter x dir fx dg t tmin tmax newx grad newf nf ng = Ok r /\ weak_post r /\
      (r_nf RO r <= 2 * ls_max RO o)%nat /\ (r_ng RO r <= ls_max RO o)%nat.
  Proof using Hg Hd Hx Hle Hub Hlb.
    pose proof tol15_pos as Ht15.
    revert iter t tmin tmax newx grad newf nf ng.
    induction fuel as [|fuel IH]; intros iter t tmin tmax newx grad newf nf ng H2 H1 Hm Hmi Hf T0 T1 T2 T3 Ln Lg N1 N2; [lia|].
    cbn [bis_loop]. destruct (Nat.ltb_spec iter (ls_max RO o)) as [L|L]; cbn [negb].
    2:{ replace iter with (ls_max RO o) by lia. rewrite Nat.eqb_refl.
        destruct (H2 ltac:(lia)) as (t0 & P0 & E0 & W0). subst newx.
        rewrite (eval_grad_ok o g (pt t0) grad (Hg _ (moved_length o x dir t0)) Lg). cbn [obind].
        eexists. split; [reflexivity|]. cbn [r_nf r_ng]. split; [|lia]. right. split; [reflexivity|]. exists t0. cbn [r_x r_f r_g]. auto. }
    rewrite (x_move_ok o Hlb Hub Hle t x dir newx Hx Hd Ln). cbn [obind]. cbn [fltb fadd fmul Rops].
    assert (Lp : length (pt t) = d) by apply moved_length.
    destruct (Rltb_spec (fx + alpha * t * dg) (f (pt t))) as [A|A].
    { unfold fhalf. cbn [f1 fdiv fnat Rops]. change (INR 2) with 2.
      apply IH; auto; try lia; try lra.
      intros _. exists t. split; [lra|]. split; auto. intros (E & _). unfold enough in E. lra. }
    rewrite (eval_grad_ok o g (pt t) grad (Hg _ Lp) Lg). cbn [obind].
    rewrite (odot_ok o (g (pt t)) dir (Hg _ Lp) Hd). cbn [obind]. fold (slope t).
    destruct (Rltb_spec (slope t) (beta * dg)) as [C|C].
    { unfold fhalf. cbn [fabs f1 fdiv fnat Rops ftol]. change (INR 2) with 2.
      assert (W : ~ (enough t /\ beta * dg <= slope t)) by (intros (_ & E); lra).
      destruct (Rltb_spec (Rabs tmax) tol15) as [Z|Z].
      - apply IH; auto; try lia; try lra. { intros _. exists t. split; [lra|]. auto. } rewrite Rabs_right in Z by lra. lra.
      - rewrite Rabs_right in Z by lra. apply IH; auto; try lia; try lra. intros _. exists t. split; [lra|]. auto. }
    eexists. split; [reflexivity|]. cbn [r_nf r_ng]. split; [|lia]. left. split; [reflexivity|]. exists t.
    cbn [r_step r_x r_f r_g]. split; [lra|]. do 4 (split; [reflexivity|]). split; [unfold enough; lra|lra].
  Qed.

  (** ** The strong conditions *)
  Definition strong (t : R) : Prop := enough t /\ Rabs (slope t) <= - beta * dg.

  (** Zoom: when it finds a step, the strong conditions hold there; the buffers
      always hold the value and the gradient at some trial. *)
  Definition zoom_post (tlow : R) (r : R * list R * list R * R * nat * nat) : Prop :=
    let '(t, newx, grad, fval, nf, ng) := r in
    (exists u, newx = pt u /\ fval = f (pt u) /\ grad = g (pt u)) /\
    ((0 < t < 1 /\ newx = pt t /\ fval = f (pt t) /\ grad = g (pt t) /\ strong t) \/ t = tlow).

  Lemma zoom_ok fuel tlow tl th fl (newx grad : list R) fval nf ng :
    0 < z20 -> Rabs (th - tl) < z20 * 2 ^ fuel -> 0 <= tl <= 1 -> 0 <= th <= 1 ->
    (exists u, newx = pt u /\ fval = f (pt u) /\ grad = g (pt u)) ->
    exists r, ls_zoom RO z20 f g o (S fuel) tlow tl th fl x dir fx dg newx grad fval nf ng = Ok r /\ zoom_post tlow r.
  Proof using Hg Hd Hx Hle Hub Hlb.
    intros Hz. revert tl th fl newx grad fval nf ng.
    induction fuel as [|fuel IH]; intros tl th fl newx grad fval nf ng Hw Htl Hth (u & -> & -> & ->).
    { cbn [ls_zoom]. cbn [fleb fabs fsub Rops]. destruct (Rleb_spec z20 (Rabs (th - tl))) as [C|C]; [cbn [pow] in Hw; lra|].
      cbn [negb]. eexists. split; [reflexivity|]. split; [eauto|]. now right. }
    set (F := S fuel) in *. cbn [ls_zoom]. cbn [fleb fltb fabs fsub fadd fmul fdiv fnat Rops]. change (INR 2) with 2.
    destruct (Rleb_spec z20 (Rabs (th - tl))) as [C|C]; cbn [negb].
    2:{ eexists. split; [reflexivity|]. split; [eauto|]. now right. }
    set (t := (tl + th) / 2).
    assert (Ht : 0 < t < 1) by (unfold t; revert C; unfold Rabs; destruct (Rcase_abs (th - tl)); intros; lra).
    assert (Lp : length (pt t) = d) by apply moved_length.
    rewrite (x_move_ok o Hlb Hub Hle t x dir _ Hx Hd (moved_length o x dir u)). cbn [obind].
    rewrite (eval_grad_ok o g (pt t) _ (Hg _ Lp) (Hg _ (moved_length o x dir u))). cbn [obind].
    assert (W1 : Rabs (t - tl) < z20 * 2 ^ fuel).
    { replace (t - tl) with ((th - tl) / 2) by (unfold t; field). unfold Rdiv. rewrite Rabs_mult, (Rabs_right (/ 2)) by lra.
      unfold F in Hw. cbn [pow] in Hw. lra. }
    assert (W2 : Rabs (th - t) < z20 * 2 ^ fuel).
    { replace (th - t) with (t - tl) by (unfold t; field). exact W1. }
    destruct ((Rltb (fx + alpha * t * dg) (f (pt t)) || Rleb fl (f (pt t)))%bool) eqn:B.
    { apply IH; eauto; lra. }
    apply orb_false_elim in B. destruct B as (B1 & B2).
    destruct (Rltb_spec (fx + alpha * t * dg) (f (pt t))); [discriminate|].
    rewrite (odot_ok o (g (pt t)) dir (Hg _ Lp) Hd). cbn [obind]. fold (slope t).
    unfold fneg. cbn [fsub f0 Rops].
    destruct (Rleb_spec (Rabs (slope t)) ((0 - beta) * dg)) as [S|S].
    { eexists. split; [reflexivity|]. split; [eauto|]. left. split; [exact Ht|]. do 3 (split; [reflexivity|]). split; [unfold enough; lra|lra]. }
    destruct (Rleb 0 (slope t * (th - tl))).
    - apply IH; eauto; [rewrite Rabs_minus_sym; exact W1|lra].
    - apply IH; eauto; lra.
  Qed.

  Definition at_trial (r : lsres RO) (u : R) : Prop := r_x RO r = pt u /\ r_f RO r = f (pt u) /\ r_g RO r = g (pt u).
  Definition sw_post (r : lsres RO) : Prop :=
    (r_info RO r = 0%Z /\ exists t, 0 < t < 1 /\ r_step RO r = t * alpha /\ at_trial r t /\ (strong t \/ distv d (pt t) x < ls_absx RO o)) \/
    (r_info RO r = 0%Z /\ exists t u, r_step RO r = t * alpha /\ (t = 0 \/ 0 < t < 1 /\ enough t) /\ at_trial r u) \/
    (r_info RO r = 1%Z /\ exists u, 0 < u < 1 /\ at_trial r u /\ enough u /\ slope u < 0 /\ ~ strong u).

  Lemma sw_loop_ok n fuel iter t t_prev f_prev (newx grad : list R) newf nf ng :
    0 < z20 -> 1 <= z20 * 2 ^ n -> dg < 0 -> 0 < alpha ->
    (1 <= iter)%nat -> (1 <= ls_max RO o)%nat -> (iter <= ls_max RO o + 1)%nat -> (ls_max RO o + 1 < fuel + iter)%nat ->
    0 <= t_prev -> t_prev < t -> t < 1 -> length newx = d -> length grad = d ->
    (iter = 1%nat -> t_prev = 0 /\ f_prev = fx) ->
    ((2 <= iter)%nat -> 0 < t_prev /\ f_prev = f (pt t_prev) /\ enough t_prev /\ newx = pt t_prev /\ newf = f (pt t_prev) /\ grad = g (pt t_prev) /\
        slope t_prev < 0 /\ ~ strong t_prev) ->
    (exists r, sw_loop RO sqrt z20 f g o (S n) fuel iter x dir fx dg t t_prev f_prev newx grad newf nf ng = Ok r /\ sw_post r) \/
    (sw_loop RO sqrt z20 f g o (S n) fuel iter x dir fx dg t t_prev f_prev newx grad newf nf ng = Abort /\
     exists u, 0 < u < 1 /\ ~ enough u /\ f (pt u) < fx).
  Proof using Hg Hd Hx Hle Hub Hlb.
    intros Hz Hn Hneg Ha0. revert iter t t_prev f_prev newx grad newf nf ng.
    induction fuel as [|fuel IH]; intros iter t t_prev f_prev newx grad newf nf ng I1 M1 I2 I3 T0 T1 T2 Ln Lg P1 P2; [lia|].
    cbn [sw_loop]. destruct (Nat.leb_spec iter (ls_max RO o)) as [L|L]; cbn [negb].
    2:{ left. eexists. split; [reflexivity|]. destruct (P2 ltac:(lia)) as (Q1 & Q2 & Q3 & Q4 & Q5 & Q6 & Q7 & Q8).
        right. right. split; [reflexivity|]. exists t_prev. cbn [r_x r_f r_g]. unfold at_trial. cbn [r_x r_f r_g]. repeat (split; auto); lra. }
    assert (Lp : length (pt t) = d) by apply moved_length.
    rewrite (x_move_ok o Hlb Hub Hle t x dir newx Hx Hd Ln). cbn [obind].
    rewrite (eval_grad_ok o g (pt t) grad (Hg _ Lp) Lg). cbn [obind].
    rewrite (norm2diff_ok o (pt t) x Lp Hx). cbn [obind]. cbn [fltb fleb fadd fmul fsub fdiv fnat fabs f0 f1 Rops].
    destruct (Rltb_spec (distv d (pt t) x) (ls_absx RO o)) as [D|D].
    { left. eexists. split; [reflexivity|]. left. split; [reflexivity|]. exists t. split; [lra|]. split; [reflexivity|].
      split; [repeat split|]. right. exact D. }
    assert (Pt : t_prev = 0 \/ 0 < t_prev < 1 /\ enough t_prev).
    { destruct (Nat.eq_dec iter 1) as [E|E]; [left; now apply P1|]. right. destruct (P2 ltac:(lia)) as (Q1 & _ & Q3 & _). split; [lra|exact Q3]. }
    assert (Zz : forall (tlow a b fl : R) nf' ng', Rabs (b - a) < 1 -> 0 <= a <= 1 -> 0 <= b <= 1 -> (tlow = 0 \/ 0 < tlow < 1 /\ enough tlow) ->
      exists r, (do (t, newx, grad, newf, nf, ng) <- ls_zoom RO z20 f g o (S n) tlow a b fl x dir fx dg (pt t) (g (pt t)) (f (pt t)) nf' ng';
          Ok (mkres RO (t * alpha) newx newf grad 0 nf ng)) = Ok r /\ sw_post r).
    { intros tlow a b fl nf' ng' Hab Ha Hb Hlow.
      destruct (zoom_ok n tlow a b fl (pt t) (g (pt t)) (f (pt t)) nf' ng' Hz ltac:(lra) Ha Hb) as (r & E & P); [exists t; auto|].
      rewrite E. destruct r as (((((t' & nx) & gr) & fv) & nf2) & ng2). cbn [obind]. eexists. split; [reflexivity|].
      destruct P as ((u & U1 & U2 & U3) & [(V0 & V1 & V2 & V3 & V4)|V]).
      - left. split; [reflexivity|]. exists t'. split; [lra|]. split; [reflexivity|]. split; [repeat split; auto|]. now left.
      - right. left. split; [reflexivity|]. exists t', u. split; [reflexivity|]. split; [now rewrite V|]. repeat split; auto. }
    assert (Fp : f_prev <= fx).
    { destruct (Nat.eq_dec iter 1) as [E|E]; [destruct (P1 E) as (_ & ->); lra|].
      destruct (P2 ltac:(lia)) as (Q1 & Q2 & Q3 & _). unfold enough in Q3. rewrite Q2. clear - Q3 Q1 Ha0 Hneg.
      assert (0 < alpha * t_prev) by (apply Rmult_lt_0_compat; auto). rnorm. nra. }
    destruct (Rltb_spec (fx + alpha * t * dg) (f (pt t))) as [A|A]; cbn [orb].
    { destruct (Rltb_spec (f (pt t)) f_prev) as [B|B].
      - right. unfold cassert. destruct (Rltb_spec f_prev (f (pt t))); [lra|]. split; [reflexivity|]. exists t. split; [lra|].
        split; [unfold enough; lra|lra].
      - left. cbn [obind]. apply Zz; auto; try lra. rewrite Rabs_right; lra. }
    destruct (Rleb_spec f_prev (f (pt t))) as [B|B]; destruct (Nat.ltb_spec 1 iter) as [C|C]; cbn [andb].
    { left. destruct (Rltb_spec (f (pt t)) f_prev); [lra|]. cbn [obind]. apply Zz; auto; try lra. rewrite Rabs_right; lra. }
    { exfalso. destruct (P1 ltac:(lia)) as (_ & ->). assert (0 < alpha * t) by (apply Rmult_lt_0_compat; [auto|lra]). rnorm. nra. }
    all: rewrite (odot_ok o (g (pt t)) dir (Hg _ Lp) Hd); cbn [obind]; fold (slope t); unfold fneg, fhalf; cbn [fsub fdiv fnat f0 f1 Rops]; change (INR 2) with 2;
      (destruct (Rleb_spec (Rabs (slope t)) ((0 - beta) * dg)) as [S|S];
      [left; eexists; split; [reflexivity|]; left; split; [reflexivity|]; exists t; split; [lra|]; split; [reflexivity|]; split; [repeat split|]; left; split; [unfold enough; lra|lra]|]);
      (assert (NS : ~ strong t) by (intros (_ & W); lra));
      (destruct (Rleb_spec 0 (slope t)) as [Q|Q];
      [left; destruct (Rltb_spec (f (pt t)) f_prev); [|lra]; cbn [cassert obind]; apply Zz; try lra; [rewrite Rabs_left; lra|right; split; [lra|unfold enough; lra]]|]).
    all: apply IH; auto; try lia; try lra.
    all: intros _; split; [lra|]; split; [reflexivity|]; split; [unfold enough; lra|]; repeat (split; [first [reflexivity|lra]|]); exact NS.
  Qed.
End OptWolfe.
