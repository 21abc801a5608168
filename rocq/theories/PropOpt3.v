(** C85, C86: the projected gradient method and the exhaustive search. *)
From Verif Require Import OptFacts OptBox OptWolfe PropOpt PropOpt2.
From Coq Require Import ZArith Reals Lra Psatz.
Open Scope R_scope.

(** ** C85: the gradient method *)
Definition lit10 : R := / 10 ^ 10.

Section Grad.
  Variable f : list R -> R.
  Variable g : list R -> list R.
  Variable o : lsopt RO.
  Variable go : gopt RO.
  Notation d := (ls_d RO o).
  Notation lb := (ls_lb RO o : list R).
  Notation ub := (ls_ub RO o : list R).
  Hypothesis W : box_wf o.
  Hypothesis Ha : 0 < ls_alpha RO o < 1 / 2.
  Hypothesis Hg : forall y, length y = d -> length (g y) = d.
  Hypothesis Halg : g_alg RO go = BACKTRACK \/ g_alg RO go = WEAKWOLFE /\ (2 <= ls_max RO o)%nat.

  Definition ginv (s : gstate RO) : Prop :=
    inbox d lb ub (s_x RO s) /\ s_f RO s = f (s_x RO s) /\ s_g RO s = g (s_x RO s) /\ length (s_base RO s) = d /\ length (s_dir RO s) = d.
  (** one step of the method that backtracks is a step of the line search *)
  Definition gstep (x y : list R) : Prop :=
    g_alg RO go = BACKTRACK ->
    exists k, let t := (ls_beta RO o : R) ^ k in
      reached d lb ub x (map Ropp (g x)) t y /\ (k + 2 <= Nat.max 2 (ls_max RO o))%nat /\
      (forall j z, (j < k)%nat -> reached d lb ub x (map Ropp (g x)) (ls_beta RO o ^ j) z ->
         ~ f z <= f x - ls_alpha RO o * ls_beta RO o ^ j * dotv d (g x) (g x) /\ ls_absx RO o <= distv d z x) /\
      (f y <= f x - ls_alpha RO o * t * dotv d (g x) (g x) \/ distv d y x < ls_absx RO o \/ k = (ls_max RO o - 2)%nat).

  Lemma neg_dir (dir gr : list R) : length dir = d -> length gr = d ->
    for_ d (fun ii dir => do a <- aget gr ii; aset dir ii (fneg RO a)) dir = Ok (map Ropp gr).
  Proof using.
    clear W Ha Hg Halg. intros L1 L2. rewrite (for_ext _ (fun ii dir => aset dir ii (- nth ii gr 0))).
    - rewrite fill1_all by auto. f_equal. apply (nth_ext _ _ 0 0); [now rewrite tab_length, map_length|].
      rewrite tab_length. intros i Hi. rewrite nth_tab by auto. replace 0 with (- 0) at 2 by ring. now rewrite map_nth.
    - intros i s Hi. rewrite aget_nth by lia. cbn [obind]. f_equal. unfold fneg. cbn [fsub f0 Rops]. rnorm. ring.
  Qed.
  Lemma neg_dot (gr : list R) : length gr = d -> dotv d gr (map Ropp gr) = - dotv d gr gr.
  Proof using.
    clear W Ha Hg Halg. intros L. unfold dotv. replace (- rs d (fun i => nth i gr 0 * nth i gr 0)) with (-1 * rs d (fun i => nth i gr 0 * nth i gr 0)) by ring.
    rewrite <- rs_scal. apply rs_ext. intros i Hi. replace 0 with (- 0) at 2 by ring. rewrite map_nth. ring.
  Qed.
  Lemma dot_nonneg (a : list R) : 0 <= dotv d a a.
  Proof using. clear. unfold dotv. induction (ls_d RO o) as [|n IH]; cbn [rs]; [lra|]. nra. Qed.

  Lemma grad_search_ok zf s : ginv s ->
    exists s', grad_search RO sqrt lit20 f g o go zf s = Ok s' /\ ginv s' /\ s_base RO s' = s_x RO s /\ s_tr RO s' = s_tr RO s /\ gstep (s_x RO s) (s_x RO s').
  Proof using W Ha Hg Halg.
    intros (Ib & Ef & Eg & Lb & Ld). assert (Lx := proj1 Ib). assert (W' := W). destruct W' as (Hlb & Hub & Hle).
    assert (Lgx : length (s_g RO s) = d) by (rewrite Eg; auto).
    assert (Lm : length (map Ropp (s_g RO s)) = d) by now rewrite map_length.
    unfold grad_search. rewrite (blit_all o (s_base RO s) (s_x RO s) Lb Lx : blit (s_base RO s) 0 (s_x RO s) 0 d = _). cbn [obind].
    pose proof (neg_dir (s_dir RO s) (s_g RO s) Ld Lgx) as ND.
    match type of ND with ?a = ?b => match goal with |- context [for_ ?n ?bd (s_dir RO s)] => change (for_ n bd (s_dir RO s)) with a end end.
    rewrite ND. clear ND. cbn [obind].
    destruct Halg as [A|(A & Hm)]; rewrite A.
    - destruct (C82_line_search f o (s_x RO s) (s_f RO s) (s_g RO s) (map Ropp (s_g RO s)) (s_x RO s) (s_f RO s) W Ha Ib Lgx Lm Lx)
        as (r & k & E & _ & Rr & Ir & Fr & Gr & Hk & _ & _ & Hj & HI).
      rewrite E. cbn [obind]. rewrite Gr.
      rewrite (eval_grad_ok o g (r_x RO r) (s_g RO s) (Hg _ (proj1 Ir)) Lgx : eval_grad RO g o _ _ = _). cbn [obind].
      eexists. split; [reflexivity|]. cbn [s_x s_f s_g s_base s_dir s_tr].
      split; [split; [exact Ir|]; repeat split; auto|]. split; [reflexivity|]. split; [reflexivity|].
      intros _. exists k. rewrite Eg in Rr. split; [exact Rr|]. split; [exact Hk|].
      rewrite (neg_dot _ Lgx), Ef, Eg in Hj. rewrite (neg_dot _ Lgx), Ef, Eg in HI. split.
      + intros j z Hjk Rz. destruct (Hj j z Hjk Rz) as (Hz1 & Hz2). split; [|exact Hz2]. intros Hz. apply Hz1. rnorm. lra.
      + destruct HI as [(_ & [HI|HI])|(_ & _ & HI)]; [left; rnorm; lra|right; left; exact HI|right; right; exact HI].
    - destruct (C83_weak_wolfe f g o (s_x RO s) (s_f RO s) (s_g RO s) (map Ropp (s_g RO s)) (s_x RO s) (s_f RO s) W Ha Ib Hg Lgx Lm Lx)
        as (r & t & E & _ & Rr & Ir & Fr & Gr & _); [|exact Hm|].
      { rewrite (neg_dot _ Lgx). pose proof (dot_nonneg (s_g RO s)). pose proof tol15_pos. lra. }
      rewrite E. cbn [obind]. eexists. split; [reflexivity|]. cbn [s_x s_f s_g s_base s_dir s_tr].
      split; [split; [exact Ir|]; repeat split; auto|]. split; [reflexivity|]. split; [reflexivity|]. intros C. congruence.
  Qed.

  Lemma on_bound_ok (x : list R) : length x = d -> exists b, on_bound RO o x = Ok b.
  Proof using W.
    clear Halg Ha Hg. destruct W as (Hlb & Hub & _). intros Lx. unfold on_bound.
    destruct (for_inv (fun _ (_ : bool) => True) (fun ii (b : bool) => if b then Ok b else do a <- aget x ii; do l <- aget lb ii;
      if @fleb RO a l then Ok true else do u <- aget ub ii; Ok (@fleb RO u a)) d false) as (b & E & _); auto.
    - intros i b Hi _. destruct b; [eauto|]. rewrite !aget_nth by lia. cbn [obind]. destruct (fleb _ _); eauto.
    - exists b. exact E.
  Qed.

  (** the tests at the end of a step, from the previous point and value to the present ones *)
  Definition stop (code : Z) (fold : R) (x0 x : list R) : Prop :=
    (code = 3%Z /\ dotv d (g x) (g x) < g_gtol RO go ^ 2) \/
    (code = 1%Z /\ (if Rltb lit10 (Rabs fold) then Rabs (f x - fold) / Rabs fold else Rabs (f x - fold)) < g_relf RO go) \/
    (code = 2%Z /\ distv d x x0 < ls_absx RO o).

  Lemma grad_test_ok fold s : ginv s -> exists c, grad_test RO sqrt o go lit10 fold s = Ok c /\
    forall code, c = Some code -> stop code fold (s_base RO s) (s_x RO s).
  Proof using W Hg.
    intros (Ib & Ef & Eg & Lb & Ld). unfold grad_test.
    assert (Lgx : length (s_g RO s) = d) by (rewrite Eg; apply Hg, Ib).
    rewrite (odot_ok o _ _ Lgx Lgx). cbn [obind]. destruct (on_bound_ok _ (proj1 Ib)) as (b & Eb). rewrite Eb. cbn [obind].
    rewrite (norm2diff_ok o _ _ (proj1 Ib) Lb). cbn [obind]. cbn [fltb fabs fsub fdiv fmul Rops]. rewrite Ef, Eg.
    unfold stop, GTOL_REACHED, FTOL_REACHED, XTOL_REACHED.
    assert (Sq : g_gtol RO go ^ 2 = g_gtol RO go * g_gtol RO go) by (rnorm; ring). rewrite Sq.
    destruct b.
    - match goal with |- context [Rltb ?a (g_relf RO go)] => destruct (Rltb_spec a (g_relf RO go)) end.
      { eexists. split; [reflexivity|]. intros code [= <-]. auto. }
      destruct (Rltb_spec (distv d (s_x RO s) (s_base RO s)) (ls_absx RO o)); eexists; (split; [reflexivity|]); intros code [= <-]; auto.
    - destruct (Rltb_spec (dotv d (g (s_x RO s)) (g (s_x RO s))) (g_gtol RO go * g_gtol RO go)).
      { eexists. split; [reflexivity|]. intros code [= <-]. auto. }
      match goal with |- context [Rltb ?a (g_relf RO go)] => destruct (Rltb_spec a (g_relf RO go)) end.
      { eexists. split; [reflexivity|]. intros code [= <-]. auto. }
      destruct (Rltb_spec (distv d (s_x RO s) (s_base RO s)) (ls_absx RO o)); eexists; (split; [reflexivity|]); intros code [= <-]; auto.
  Qed.

  (** [path tr xs]: [xs] are the points whose values are stored, steps of the method *)
  Fixpoint path (xs : list (list R)) : Prop :=
    match xs with x :: ((y :: _) as l) => inbox d lb ub x /\ gstep x y /\ path l | [x] => inbox d lb ub x | [] => True end.
  Lemma path_snoc xs x y : path (xs ++ [x]) -> gstep x y -> inbox d lb ub y -> path ((xs ++ [x]) ++ [y]).
  Proof using.
    clear. revert x. induction xs as [|a [|b xs] IH]; intros x H G I; cbn in *.
    - auto.
    - intuition.
    - destruct H as (H1 & H2 & H3). split; auto. split; auto. apply (IH x); auto.
  Qed.

  Definition finish (code : Z) (xs : list (list R)) : Prop :=
    exists ys x0 x, xs = ys ++ [x0; x] /\
      (code = (-1)%Z /\ length xs = S (Nat.max 1 (g_max RO go)) \/ stop code (f x0) x0 x).

  Lemma grad_loop_ok zf fuel iter s (xs : list (list R)) : ginv s -> path (xs ++ [s_x RO s]) -> s_tr RO s = map f (xs ++ [s_x RO s]) ->
    (1 <= iter)%nat -> length xs = (iter - 1)%nat -> (iter <= Nat.max 1 (g_max RO go))%nat -> (Nat.max 1 (g_max RO go) < fuel + iter)%nat ->
    exists code s' ys, grad_loop RO sqrt lit20 f g o go lit10 zf fuel iter s = Ok (code, s') /\ ginv s' /\
      path (ys ++ [s_x RO s']) /\ s_tr RO s' = map f (ys ++ [s_x RO s']) /\ (exists q, ys ++ [s_x RO s'] = xs ++ [s_x RO s] ++ q) /\
      (length ys <= Nat.max 1 (g_max RO go))%nat /\ finish code (ys ++ [s_x RO s']).
  Proof using W Ha Hg Halg.
    revert iter s xs. induction fuel as [|fuel IH]; intros iter s xs I P T H1 Lx Hi Hf; [lia|].
    cbn [grad_loop]. destruct (grad_search_ok zf s I) as (s' & E & I' & B & Tr & G). rewrite E. cbn [obind s_f s_x s_g s_base s_dir s_nf s_ng s_tr].
    set (s2 := mkgs _ _ _ _ _ _ _ _ _).
    assert (I2 : ginv s2) by exact I'.
    assert (P2 : path ((xs ++ [s_x RO s]) ++ [s_x RO s2])) by (apply path_snoc; auto; apply I').
    assert (T2 : s_tr RO s2 = map f ((xs ++ [s_x RO s]) ++ [s_x RO s2])).
    { refine (eq_trans _ (eq_sym (map_app f _ _))). refine (eq_trans _ (f_equal (fun l => l ++ _) T)).
      unfold s2. cbn [s_tr s_f s_x map]. rewrite Tr. f_equal. f_equal. apply I'. }
    destruct (Nat.ltb_spec (g_max RO go) (iter + 1)) as [L|L].
    { exists (-1)%Z, s2, (xs ++ [s_x RO s]). split; [reflexivity|]. split; auto. split; auto. split; auto.
      split; [exists [s_x RO s2]; now rewrite <- app_assoc|]. split; [rewrite app_length; cbn [length]; rnorm; lia|].
      exists xs, (s_x RO s), (s_x RO s2). split; [now rewrite <- app_assoc|]. left. split; auto. rewrite !app_length. cbn [length]. rnorm. lia. }
    destruct (grad_test_ok (s_f RO s) s2 I2) as (c & Ec & Hc). rewrite Ec. cbn [obind]. destruct c as [code|].
    { exists code, s2, (xs ++ [s_x RO s]). split; [reflexivity|]. split; auto. split; auto. split; auto.
      split; [exists [s_x RO s2]; now rewrite <- app_assoc|]. split; [rewrite app_length; cbn [length]; rnorm; lia|].
      exists xs, (s_x RO s), (s_x RO s2). split; [now rewrite <- app_assoc|]. right. specialize (Hc code eq_refl).
      unfold s2 in Hc at 1. cbn [s_base] in Hc. rewrite B in Hc. rewrite <- (proj1 (proj2 I)). exact Hc. }
    destruct (IH (iter + 1)%nat s2 (xs ++ [s_x RO s])) as (code & s3 & ys & E3 & I3 & P3 & T3 & (q & Q) & L3 & F3); auto; try lia.
    { rewrite app_length. cbn [length]. rnorm. lia. }
    exists code, s3, ys. split; [exact E3|]. split; auto. split; auto. split; auto. split; [|split; auto].
    exists (s_x RO s2 :: q). rewrite Q, <- !app_assoc. reflexivity.
  Qed.
End Grad.

(** The points visited are [xs]: they start at [x] and end at the reported point,
    all of them are in the box, their values are what is stored, consecutive ones
    are steps of the line search, the reported value and gradient belong to the
    reported point, and the return code says why the method stopped. *)
Theorem C85_gradient f g o go zf x grad base dir :
  let d := ls_d RO o in
  box_wf o -> 0 < ls_alpha RO o < 1 / 2 -> (forall y, length y = d -> length (g y) = d) ->
  g_alg RO go = BACKTRACK \/ g_alg RO go = WEAKWOLFE /\ (2 <= ls_max RO o)%nat ->
  inbox d (ls_lb RO o) (ls_ub RO o) x -> length grad = d -> length base = d -> length dir = d ->
  exists code s xs, opt_gradient RO sqrt lit20 f g o go lit10 zf x grad base dir = Ok (code, s) /\
    inbox d (ls_lb RO o) (ls_ub RO o) (s_x RO s) /\ s_f RO s = f (s_x RO s) /\ s_g RO s = g (s_x RO s) /\
    path f g o go xs /\ s_tr RO s = map f xs /\ (exists q, xs = x :: q) /\ (exists p, xs = p ++ [s_x RO s]) /\
    (length xs <= S (Nat.max 1 (g_max RO go)))%nat /\
    (code = 3%Z /\ xs = [x] /\ sqrt (dotv d (g x) (g x)) < g_gtol RO go \/ finish f g o go code xs).
Proof.
  intros d W Ha Hg Halg Ib L1 L2 L3. assert (Lx := proj1 Ib). assert (Lgx : length (g x) = d) by auto. unfold opt_gradient.
  rewrite (eval_grad_ok o g x grad Lgx L1 : eval_grad RO g o x grad = _). cbn [obind]. rewrite (odot_ok o (g x) (g x) Lgx Lgx). cbn [obind]. cbn [fltb Rops].
  set (s := mkgs RO x (f x) (g x) base dir 1 1 [f x]).
  assert (I : ginv f g o s) by (split; [exact Ib|]; repeat split; auto).
  destruct (Rltb_spec (sqrt (dotv (ls_d RO o) (g x) (g x))) (g_gtol RO go)) as [Q|Q].
  - exists 3%Z, s, [x]. split; [reflexivity|]. split; [apply Ib|]. do 2 (split; [reflexivity|]). split; [exact Ib|]. split; [reflexivity|].
    split; [now exists []|]. split; [now exists []|]. split; [cbn [length]; lia|]. left. auto.
  - destruct (grad_loop_ok f g o go W Ha Hg Halg zf (S (g_max RO go)) 1 s []) as (code & s2 & ys & E & I2 & P & T & (q & Hq) & L & F); auto; try lia.
    exists code, s2, (ys ++ [s_x RO s2]). split; [exact E|]. destruct I2 as (J1 & J2 & J3 & _). do 3 (split; [assumption|]). split; [exact P|]. split; [exact T|].
    split; [exists q; exact Hq|]. split; [now exists ys|]. split; [rewrite app_length; cbn [length]; rnorm; lia|]. right. exact F.
Qed.
Print Assumptions C85_gradient.

(** ** Descent *)
(** When backtracking can succeed within its iterations from every point of the
    box, no value is larger than the one before and the squared norms of all
    gradients on the way are paid for by the decrease of the objective. *)
Definition searchable (f : list R -> R) (g : list R -> list R) (o : lsopt RO) : Prop :=
  forall y, inbox (ls_d RO o) (ls_lb RO o) (ls_ub RO o) y ->
  exists k, (k + 2 <= ls_max RO o)%nat /\
    forall z, reached (ls_d RO o) (ls_lb RO o) (ls_ub RO o) y (map Ropp (g y)) ((ls_beta RO o : R) ^ k) z ->
      f z <= f y - ls_alpha RO o * ls_beta RO o ^ k * dotv (ls_d RO o) (g y) (g y).

Lemma step_descent f g o go x y : 0 < ls_alpha RO o -> 0 < ls_beta RO o <= 1 -> ls_absx RO o <= 0 -> g_alg RO go = BACKTRACK ->
  searchable f g o -> inbox (ls_d RO o) (ls_lb RO o) (ls_ub RO o) x -> gstep f g o go x y ->
  f y <= f x - ls_alpha RO o * ls_beta RO o ^ (ls_max RO o - 2) * dotv (ls_d RO o) (g x) (g x).
Proof.
  intros Ha Hb Hax A S I G. destruct (G A) as (k & Rk & Hk & Hj & H).
  assert (E : f y <= f x - ls_alpha RO o * ls_beta RO o ^ k * dotv (ls_d RO o) (g x) (g x)).
  { destruct H as [H|[H|H]]; [exact H| |].
    - exfalso. pose proof (sqrt_pos (rs (ls_d RO o) (fun i => (nth i y 0 - nth i x 0) ^ 2))). unfold distv in H. rnorm. lra.
    - destruct (S x I) as (k' & Hk' & F). destruct (Nat.eq_dec k' k) as [->|N]; [now apply F|].
      exfalso. refine (proj1 (Hj k' (moved o x (map Ropp (g x)) (ls_beta RO o ^ k')) _ _) _); [lia|apply moved_reached|]. apply F, moved_reached. }
  assert (P : ls_beta RO o ^ (ls_max RO o - 2) <= ls_beta RO o ^ k).
  { assert (k <= ls_max RO o - 2)%nat by (destruct (S x I) as (k' & Hk' & _); lia).
    replace (ls_max RO o - 2)%nat with (k + (ls_max RO o - 2 - k))%nat by lia. rewrite pow_add.
    assert (0 < ls_beta RO o ^ k) by (apply pow_lt; apply Hb).
    assert (ls_beta RO o ^ (ls_max RO o - 2 - k) <= 1).
    { rewrite <- (pow1 (ls_max RO o - 2 - k)). apply pow_incr. split; [apply Rlt_le, Hb|apply Hb]. }
    rnorm. nra. }
  pose proof (dot_nonneg o (g x)) as Q. assert (Z : ls_alpha RO o * (ls_beta RO o ^ (ls_max RO o - 2) * dotv (ls_d RO o) (g x) (g x)) <=
    ls_alpha RO o * (ls_beta RO o ^ k * dotv (ls_d RO o) (g x) (g x))).
  { apply Rmult_le_compat_l; [apply Rlt_le, Ha|]. apply Rmult_le_compat_r; auto. }
  rnorm. lra.
Qed.

Theorem C85_descent f g o go zf x grad base dir :
  let d := ls_d RO o in
  box_wf o -> 0 < ls_alpha RO o < 1 / 2 -> 0 < ls_beta RO o <= 1 -> ls_absx RO o <= 0 -> (forall y, length y = d -> length (g y) = d) ->
  g_alg RO go = BACKTRACK -> searchable f g o ->
  inbox d (ls_lb RO o) (ls_ub RO o) x -> length grad = d -> length base = d -> length dir = d ->
  exists code s xs, opt_gradient RO sqrt lit20 f g o go lit10 zf x grad base dir = Ok (code, s) /\
    s_tr RO s = map f xs /\ hd x xs = x /\ last xs x = s_x RO s /\
    (forall i, (S i < length xs)%nat -> f (nth (S i) xs []) <= f (nth i xs [])) /\
    ls_alpha RO o * ls_beta RO o ^ (ls_max RO o - 2) * rs (length xs - 1) (fun i => dotv d (g (nth i xs [])) (g (nth i xs []))) <= f x - f (s_x RO s).
Proof.
  intros d W Ha Hb Hax Hg A S Ib L1 L2 L3.
  destruct (C85_gradient f g o go zf x grad base dir W Ha Hg (or_introl A) Ib L1 L2 L3) as (code & s & xs & E & _ & _ & _ & P & T & (q & Hq) & (p & Hp) & _).
  exists code, s, xs. split; [exact E|]. split; [exact T|]. split; [now rewrite Hq|]. split; [rewrite Hp; apply last_last|].
  set (c := ls_alpha RO o * ls_beta RO o ^ (ls_max RO o - 2)).
  assert (Hc : 0 < c) by (unfold c; apply Rmult_lt_0_compat; [apply Ha|apply pow_lt, Hb]).
  assert (G : forall l, path f g o go l ->
    (forall i, (Datatypes.S i < length l)%nat -> f (nth (Datatypes.S i) l []) <= f (nth i l []) - c * dotv d (g (nth i l [])) (g (nth i l [])))).
  { induction l as [|a [|b l] IH]; intros Hl i Hi; [cbn in Hi; lia|cbn in Hi; lia|]. destruct Hl as (K1 & K2 & K3). destruct i as [|i].
    - cbn [nth]. exact (step_descent f g o go a b (proj1 Ha) Hb Hax A S K1 K2).
    - apply (IH K3 i). cbn [length] in *. lia. }
  specialize (G xs P). split.
  - intros i Hi. specialize (G i Hi). pose proof (dot_nonneg o (g (nth i xs []))) as Q. fold d in Q.
    assert (0 <= c * dotv d (g (nth i xs [])) (g (nth i xs []))) by (apply Rmult_le_pos; lra). lra.
  - assert (N : forall n, (n < length xs)%nat -> c * rs n (fun i => dotv d (g (nth i xs [])) (g (nth i xs []))) <= f (nth 0 xs []) - f (nth n xs [])).
    { induction n as [|n IH]; intros Hn; [cbn [rs]; lra|]. specialize (G n Hn). specialize (IH ltac:(lia)). cbn [rs]. lra. }
    assert (Ln : (0 < length xs)%nat) by (rewrite Hq; cbn; lia).
    specialize (N (length xs - 1)%nat ltac:(lia)).
    replace (nth 0 xs []) with x in N by now rewrite Hq.
    replace (nth (length xs - 1) xs []) with (s_x RO s : list R) in N; [exact N|].
    rewrite Hp, app_length. cbn [length]. rewrite app_nth2 by lia. replace (length p + 1 - 1 - length p)%nat with 0%nat by lia. reflexivity.
Qed.
Print Assumptions C85_descent.

(** the hypotheses are met: [4 y^2] on [-2, 2] *)
Example C85_hyps : searchable sq4 sq4g (ls_case (1 / 2) 0 20).
Proof.
  intros y (Ly & Hy). exists 3%nat. split; [cbn [ls_case ls_max]; lia|]. intros z (Lz & Hz).
  specialize (Hy 0%nat ltac:(cbn; lia)). specialize (Hz 0%nat ltac:(cbn; lia)). cbn [ls_case ls_lb ls_ub ls_beta ls_alpha ls_d sq4g map nth] in *.
  set (a := nth 0 y 0) in *. replace (a + (1 / 2) ^ 3 * - (8 * a)) with 0 in Hz by field.
  rewrite Rmin_right, Rmax_right in Hz by lra. unfold sq4, dotv, sq4g. cbn [rs nth]. rewrite Hz. fold a. pose proof (pow2_ge_0 a). cbn [pow] in *. lra.
Qed.

(** Without that, the method may end at a larger value. *)
Theorem C85_monotone_refuted : exists f g o go x,
  box_wf o /\ 0 < ls_alpha RO o < 1 / 2 /\ 0 < ls_beta RO o < 1 /\ inbox (ls_d RO o) (ls_lb RO o) (ls_ub RO o) x /\
  g_alg RO go = BACKTRACK /\
  (forall y dir, derivable_pt_lim (fun t => f (straight (ls_d RO o) y dir t)) 0 (dotv (ls_d RO o) (g y) dir)) /\
  exists code s, opt_gradient RO sqrt lit20 f g o go lit10 0 x [0] [0] [0] = Ok (code, s) /\ f x < s_f RO s.
Proof.
  set (o := ls_case (1 / 2) 4 20). assert (W := ls_case_wf (1 / 2) 4 20). fold o in W. assert (W' := W). destruct W' as (Hlb & Hub & Hle).
  set (go := mkg RO 1 0 0 BACKTRACK). exists sq4, sq4g, o, go, [1].
  assert (Ib : inbox 1 (ls_lb RO o) (ls_ub RO o) [1]) by apply ls_case_in.
  split; [exact W|]. split; [cbn [o ls_case ls_alpha]; lra|]. split; [cbn [o ls_case ls_beta]; lra|]. split; [exact Ib|]. split; [reflexivity|].
  change (ls_d RO o) with 1%nat. split.
  { intros y dir e He. set (b := nth 0 dir 0). assert (Hb : 0 < 4 * b ^ 2 + 1) by nra.
    assert (Hec : 0 < e / (4 * b ^ 2 + 1)) by (apply Rdiv_lt_0_compat; lra). exists (mkposreal _ Hec). cbn [pos]. intros h H0 Hh.
    unfold sq4, straight, sq4g, dotv. cbn [tab map seq nth rs]. rewrite Rplus_0_l. set (a := nth 0 y 0). fold b.
    replace ((4 * (a + h * b) ^ 2 - 4 * (a + 0 * b) ^ 2) / h - (0 + 8 * a * b)) with (4 * b ^ 2 * h) by (field; auto).
    rewrite Rabs_mult, (Rabs_right (4 * b ^ 2)) by nra. apply (Rmult_lt_compat_r (4 * b ^ 2 + 1)) in Hh; auto.
    replace (e / (4 * b ^ 2 + 1) * (4 * b ^ 2 + 1)) with e in Hh by (field; lra). pose proof (Rabs_pos h). nra. }
  destruct (C85_gradient sq4 sq4g o go 0 [1] [0] [0] [0] W ltac:(cbn [o ls_case ls_alpha]; lra) (fun _ _ => eq_refl) (or_introl eq_refl) Ib eq_refl eq_refl eq_refl)
    as (code & s & xs & E & _ & Ef & _ & P & T & (q & Hq) & (p & Hp) & L & F).
  exists code, s. split; [exact E|]. destruct F as [(_ & _ & F)|F].
  { exfalso. pose proof (sqrt_pos (dotv 1 (sq4g [1]) (sq4g [1]))). cbn [go g_gtol ls_d ls_case o] in F. rnorm. lra. }
  destruct F as (ys & x0 & x1 & Hx & _). cbn [go g_max] in L. change (Nat.max 1 1) with 1%nat in L.
  assert (ys = []) by (rewrite Hx, app_length in L; destruct ys; auto; cbn in L; lia). subst ys. cbn [app] in Hx.
  rewrite Hx in Hq. injection Hq as -> _. rewrite Hx in Hp. change [[1]; x1] with ([[1]] ++ [x1]) in Hp. apply app_inj_tail in Hp. destruct Hp as (_ & Hs).
  rewrite Hx in P. destruct P as (_ & G & _). rewrite Ef, <- Hs. destruct (G eq_refl) as (k & (Lx1 & Rk) & _ & Hj & _).
  assert (M : moved o [1] (map Ropp (sq4g [1])) ((1 / 2) ^ 0) = [-2]).
  { unfold moved, sq4g. cbn [ls_d ls_case o tab map seq ls_lb ls_ub nth pow]. f_equal. unfold clip. rewrite Rmin_right by lra. rewrite Rmax_left; lra. }
  destruct k as [|k].
  - specialize (Rk 0%nat ltac:(cbn; lia)). cbn [o ls_case ls_lb ls_ub nth pow sq4g map ls_beta] in Rk. unfold sq4. rewrite Rk. cbn [nth].
    rewrite Rmin_right by lra. rewrite Rmax_left by lra. lra.
  - exfalso. destruct (Hj 0%nat (moved o [1] (map Ropp (sq4g [1])) ((1 / 2) ^ 0)) ltac:(lia) (moved_reached _ _ _ _)) as (_ & D).
    rewrite M in D. unfold distv in D. cbn [o ls_case ls_d ls_absx rs nth] in D.
    replace (0 + (-2 - 1) ^ 2) with (3 * 3) in D by ring. rewrite sqrt_square in D; lra.
Qed.
Print Assumptions C85_monotone_refuted.

(** ** C86: exhaustive search *)
(** The first of the points with the smallest value. *)
Theorem C86_brute (f : list R -> R) o nlocs (locs start : list R) :
  let d := ls_d RO o in
  let loc k := firstn d (skipn (k * d) locs) in
  (1 <= nlocs)%nat -> (nlocs * d <= length locs)%nat -> length start = d ->
  exists k, (k < nlocs)%nat /\ opt_brute RO f o nlocs locs start = Ok (f (loc k), loc k, nlocs) /\
    (forall j, (j < nlocs)%nat -> f (loc k) <= f (loc j)) /\ (forall j, (j < k)%nat -> f (loc k) < f (loc j)).
Proof.
  intros d loc Hn HL Hs. unfold opt_brute. fold d.
  assert (El : forall ii, (ii < nlocs)%nat -> blit (repeat 0 d) 0 locs (ii * d) d = Ok (loc ii)).
  { intros ii Hi. assert ((ii * d + d <= length locs)%nat) by nia. rewrite blit_ok by (rewrite ?repeat_length; lia). f_equal.
    unfold splice. cbn [firstn app Nat.add]. rewrite (skipn_all2 (repeat 0 d)) by (rewrite repeat_length, firstn_length, skipn_length; lia).
    rewrite app_nil_r. reflexivity. }
  assert (E0 : blit (repeat (@f0 RO) d) 0 (locs : list RO) (0 * d) d = Ok (loc 0%nat)) by exact (El 0%nat ltac:(lia)).
  rewrite E0. cbn [obind].
  destruct (for_from_inv (fun n (s : R * nat) => let '(m, k) := s in (k < n)%nat /\ m = f (loc k) /\
      (forall j, (j < n)%nat -> f (loc k) <= f (loc j)) /\ (forall j, (j < k)%nat -> f (loc k) < f (loc j)))
    (fun ii (s : R * nat) => let '(minf, minind) := s in
       do x <- (do w <- blit (repeat 0 d) 0 locs (ii * d) d; Ok w);
       if Rltb (f x) minf then Ok (f x, ii) else Ok (minf, minind)) 1 (nlocs - 1) (f (loc 0%nat), 0%nat)) as ((m & k) & E & I1 & I2 & I3 & I4).
  { split; [lia|]. split; [reflexivity|]. split; [|intros; lia]. intros j Hj. replace j with 0%nat by lia. lra. }
  { intros i (m & k) Hi (I1 & -> & I3 & I4). rewrite El by lia. cbn [obind]. destruct (Rltb_spec (f (loc i)) (f (loc k))) as [L|L].
    - exists (f (loc i), i). split; [reflexivity|]. split; [lia|]. split; [reflexivity|]. split.
      + intros j Hj. destruct (Nat.eq_dec j i) as [->|]; [lra|]. specialize (I3 j ltac:(lia)). lra.
      + intros j Hj. specialize (I3 j Hj). lra.
    - exists (f (loc k), k). split; [reflexivity|]. split; [lia|]. split; [reflexivity|]. split; [|exact I4].
      intros j Hj. destruct (Nat.eq_dec j i) as [->|]; [lra|]. apply I3. lia. }
  replace (1 + (nlocs - 1))%nat with nlocs in * by lia.
  refine (ex_intro _ k (conj I1 (conj _ (conj I3 I4)))). refine (eq_trans (f_equal (fun r => obind r _) E) _). cbn [obind].
  rewrite (for_ext _ (fun ii st => aset st ii (nth (k * d + ii) locs 0))).
  - rewrite fill1_all by auto. cbn [obind]. rewrite I2. f_equal. f_equal; [|lia]. f_equal.
    apply (nth_ext _ _ 0 0).
    + unfold loc. rewrite tab_length, firstn_length, skipn_length. nia.
    + rewrite tab_length. intros i Hi. rewrite nth_tab by auto. unfold loc.
      assert (Q : nth i (skipn (k * d) locs) 0 = nth (k * d + i) locs 0).
      { clear. revert locs. induction (k * d)%nat as [|n IH]; intros l; [reflexivity|]. destruct l as [|a l]; [destruct i; reflexivity|]. cbn [skipn]. rewrite IH. reflexivity. }
      rewrite <- Q. rewrite <- (firstn_skipn d (skipn (k * d) locs)) at 1. rewrite app_nth1; [reflexivity|].
      rewrite firstn_length, skipn_length. nia.
  - intros i s Hi. rewrite aget_nth by nia. reflexivity.
Qed.
Print Assumptions C86_brute.

Example C86_hyps : (1 <= 2)%nat /\ (2 * ls_d RO (ls_case (1 / 2) 0 20) <= length [1%R; (-1)%R])%nat /\ length [0] = ls_d RO (ls_case (1 / 2) 0 20).
Proof. cbn. lia. Qed.
