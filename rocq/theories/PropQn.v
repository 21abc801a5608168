(** C89: the BFGS method; C90: the limited-memory method. *)
From Verif Require Import OptFacts OptBox OptWolfe PropOpt PropOpt2 PropOpt3 BfgsFacts PropBfgs LbfgsFacts PropLbfgs QnModel.
From Coq Require Import ZArith Reals Lra Psatz.
Open Scope R_scope.

Definition lit16 : R := / 10 ^ 16.
Lemma lit16_pos : 0 < lit16.
Proof. apply Rinv_0_lt_compat, pow_lt. lra. Qed.

Lemma dotv_ip d a b : dotv d a b = ip d (vec a) (vec b).
Proof. reflexivity. Qed.

Section Qn.
  Variable f : list R -> R.
  Variable g : list R -> list R.
  Variable o : lsopt RO.
  Variable go : gopt RO.
  Notation d := (ls_d RO o).
  Notation lb := (ls_lb RO o : list R).
  Notation ub := (ls_ub RO o : list R).
  Hypothesis W : box_wf o.
  Hypothesis Ha : 0 < ls_alpha RO o < 1 / 2.
  Hypothesis Hg : forall y, length y = d -> length (g y) = d.
  Hypothesis Halg : g_alg RO go = BACKTRACK \/ g_alg RO go = WEAKWOLFE /\ (2 <= ls_max RO o)%nat.

  (** A step from [x] to [y] along [p]: for the method that backtracks, the first
      power of beta that decreases the objective enough, or moves by less than the
      tolerance, or the last one; for bisection, some positive step
      ([C83] says more about it), the direction not being one of ascent. *)
  Definition moves (x p y : list R) : Prop :=
    (g_alg RO go = BACKTRACK /\ exists k, let t := (ls_beta RO o : R) ^ k in
      reached d lb ub x p t y /\ (k + 2 <= Nat.max 2 (ls_max RO o))%nat /\
      (f y <= f x + ls_alpha RO o * t * dotv d (g x) p \/ distv d y x < ls_absx RO o \/ k = (ls_max RO o - 2)%nat)) \/
    (g_alg RO go = WEAKWOLFE /\ exists t, 0 < t /\ reached d lb ub x p t y /\ dotv d (g x) p <= tol15).

  Lemma neg_grad_ok (gr dir : list R) : length dir = d -> length gr = d -> neg_grad RO o gr dir = Ok (map Ropp gr).
  Proof using. clear. intros L1 L2. exact (neg_dir o dir gr L1 L2). Qed.

  (** the search without the second try *)
  Lemma search_ok zf (x w2 dir : list R) : inbox d lb ub x -> length w2 = d -> length dir = d ->
    exists y w res, qn_search RO sqrt lit20 f g o go false zf x (f x) (g x) w2 dir x = Ok (y, f y, w, dir, res) /\
      (((0 <= res)%Z /\ inbox d lb ub y /\ w = g y /\ moves x dir y) \/
       ((res = -4)%Z /\ g_alg RO go = WEAKWOLFE /\ tol15 < dotv d (g x) dir /\ y = x /\ w = g x)).
  Proof using W Ha Hg Halg.
    intros Ib L2 Ld. assert (Lx := proj1 Ib). assert (Lg : length (g x) = d) by auto. unfold qn_search.
    destruct Halg as [A|(A & Hm)]; rewrite A.
    - destruct (C82_line_search f o x (f x) (g x) dir x (f x) W Ha Ib Lg Ld Lx) as (r & k & E & _ & Rr & Ir & Fr & Gr & Hk & _ & _ & Hj & HI).
      refine (eq_ind _ (fun z => exists y w res, obind z _ = _ /\ _) _ _ (eq_sym E)). cbn [obind].
      refine (eq_ind _ (fun z => exists y w res, obind z _ = _ /\ _) _ _ (eq_sym (eval_grad_ok o g (r_x RO r) w2 (Hg _ (proj1 Ir)) L2))). cbn [obind].
      exists (r_x RO r), (g (r_x RO r)), (r_info RO r). rewrite Fr. split; [reflexivity|]. left.
      split; [destruct HI as [(-> & _)|(-> & _)]; lia|]. split; [exact Ir|]. split; [reflexivity|]. left. split; [exact A|]. exists k.
      split; [exact Rr|]. split; [exact Hk|]. destruct HI as [(_ & [HI|HI])|(_ & _ & HI)]; auto.
    - refine (eq_ind _ (fun z => exists y w res, obind z _ = _ /\ _) _ _ (eq_sym (blit_all o w2 (g x) L2 Lg))). cbn [obind].
      destruct (Rle_lt_dec (dotv d (g x) dir) tol15) as [D|D].
      + destruct (C83_weak_wolfe f g o x (f x) (g x) dir x (f x) W Ha Ib Hg Lg Ld Lx D Hm) as (r & t & E & Ht & Rr & Ir & Fr & Gr & _ & _ & HI).
        refine (eq_ind _ (fun z => exists y w res, obind z _ = _ /\ _) _ _ (eq_sym E)). cbn [obind].
        exists (r_x RO r), (g (r_x RO r)), (r_info RO r). rewrite Fr, Gr. split; [reflexivity|]. left.
        split; [destruct HI as [(-> & _)|(-> & _)]; lia|]. split; [exact Ir|]. split; [reflexivity|]. right. split; [exact A|]. exists t.
        split; [exact Ht|]. split; [exact Rr|]. exact D.
      + destruct (C83_ascent f g o x (f x) (g x) dir x (f x) W Ha Ib Lg Ld Lx D) as (E & _).
        refine (eq_ind _ (fun z => exists y w res, obind z _ = _ /\ _) _ _ (eq_sym E)). cbn [obind].
        exists x, (g x), (-4)%Z. split; [reflexivity|]. right. auto.
  Qed.

  (** with the second try *)
  Lemma search_retry_ok zf (x w2 dir : list R) : inbox d lb ub x -> length w2 = d -> length dir = d ->
    exists y dir' res, qn_search RO sqrt lit20 f g o go true zf x (f x) (g x) w2 dir x = Ok (y, f y, g y, dir', res) /\
      inbox d lb ub y /\ length dir' = d /\ moves x dir' y /\
      (dir' = dir \/ g_alg RO go = WEAKWOLFE /\ tol15 < dotv d (g x) dir /\ dir' = map Ropp (g x)).
  Proof using W Ha Hg Halg.
    intros Ib L2 Ld. assert (Lx := proj1 Ib). assert (Lg : length (g x) = d) by auto. unfold qn_search.
    destruct Halg as [A|(A & Hm)]; rewrite A.
    - destruct (search_ok zf x w2 dir Ib L2 Ld) as (y & w & res & E & [(H1 & H2 & -> & H4)|(_ & C & _)]); [|congruence].
      unfold qn_search in E. rewrite A in E. exists y, dir, res. split; [exact E|]. auto.
    - refine (eq_ind _ (fun z => exists y dir' res, obind z _ = _ /\ _) _ _ (eq_sym (blit_all o w2 (g x) L2 Lg))). cbn [obind].
      assert (One : forall p fuel, length p = d -> dotv d (g x) p <= tol15 -> exists y res,
        weak_retry RO f g o (S fuel) x (f x) (g x) (g x) p x (f x) = Ok (y, f y, g y, p, res) /\ inbox d lb ub y /\ moves x p y).
      { intros p fuel Lp D. cbn [weak_retry].
        destruct (C83_weak_wolfe f g o x (f x) (g x) p x (f x) W Ha Ib Hg Lg Lp Lx D Hm) as (r & t & E & Ht & Rr & Ir & Fr & Gr & _ & _ & HI).
        refine (eq_ind _ (fun z => exists y res, obind z _ = _ /\ _) _ _ (eq_sym E)). cbn [obind].
        replace (r_info RO r =? -4)%Z with false by (symmetry; apply Z.eqb_neq; destruct HI as [(-> & _)|(-> & _)]; lia).
        replace (r_info RO r <? 0)%Z with false by (symmetry; apply Z.ltb_ge; destruct HI as [(-> & _)|(-> & _)]; lia).
        exists (r_x RO r), (r_info RO r). rewrite Fr, Gr. split; [reflexivity|]. split; [exact Ir|]. right. split; [exact A|]. exists t.
        split; [exact Ht|]. split; [exact Rr|]. exact D. }
      destruct (Rle_lt_dec (dotv d (g x) dir) tol15) as [D|D].
      + destruct (One dir 2%nat Ld D) as (y & res & E & H1 & H2). exists y, dir, res. split; [exact E|]. auto.
      + destruct (C83_ascent f g o x (f x) (g x) dir x (f x) W Ha Ib Lg Ld Lx D) as (E & _).
        assert (Ln : length (map Ropp (g x)) = d) by now rewrite map_length.
        assert (D2 : dotv d (g x) (map Ropp (g x)) <= tol15).
        { rewrite (neg_dot o (g x) Lg). pose proof (dot_nonneg o (g x)). pose proof tol15_pos. lra. }
        destruct (One (map Ropp (g x)) 1%nat Ln D2) as (y & res & E2 & H1 & H2). exists y, (map Ropp (g x)), res.
        split; [|split; [exact H1|]; split; [exact Ln|]; split; [exact H2|]; right; auto].
        change 3%nat with (S 2). cbn [weak_retry]. cbn [weak_retry] in E2.
        refine (eq_trans (f_equal (fun z => obind z _) E) _). cbn [obind r_info Z.eqb Pos.eqb r_g r_x r_f].
        refine (eq_trans (f_equal (fun z => obind z _) (neg_grad_ok (g x) dir Ld Lg)) _). cbn [obind]. exact E2.
  Qed.

  (** ** The tests *)
  Definition stops (late : bool) (code : Z) (eta : R) (x0 x : list R) : Prop :=
    (code = 3%Z /\ eta * eta / 2 < g_gtol RO go ^ 2) \/
    (code = 1%Z /\ (if Rltb lit10 (Rabs (f x0)) then Rabs (f x - f x0) / Rabs (f x0) else Rabs (f x - f x0)) < g_relf RO go) \/
    (code = 2%Z /\ distv d x x0 < ls_absx RO o /\ (late = true \/ exists i, (i < d)%nat /\ (nth i x 0 <= nth i lb 0 \/ nth i ub 0 <= nth i x 0))).

  Lemma on_bound_ok2 (x : list R) : length x = d -> exists b, on_bound RO o x = Ok b /\
    (b = true -> exists i, (i < d)%nat /\ (nth i x 0 <= nth i lb 0 \/ nth i ub 0 <= nth i x 0)).
  Proof using W.
    clear Halg Ha Hg. destruct W as (Hlb & Hub & _). intros Lx. unfold on_bound.
    destruct (for_inv (fun n (b : bool) => b = true -> exists i, (i < n)%nat /\ (nth i x 0 <= nth i lb 0 \/ nth i ub 0 <= nth i x 0))
      (fun ii (b : bool) => if b then Ok b else do a <- aget x ii; do l <- aget lb ii;
      if @fleb RO a l then Ok true else do u <- aget ub ii; Ok (@fleb RO u a)) d false) as (b & E & H).
    - discriminate.
    - intros i b Hi H. destruct b.
      + eexists. split; [reflexivity|]. intros _. destruct (H eq_refl) as (j & Hj & C). exists j. split; [lia|auto].
      + rewrite !aget_nth by lia. cbn [obind fleb Rops]. destruct (Rleb_spec (nth i x 0) (nth i lb 0)).
        { eexists. split; [reflexivity|]. intros _. exists i. split; [lia|auto]. }
        destruct (Rleb_spec (nth i ub 0) (nth i x 0)); eexists; (split; [reflexivity|]); [|discriminate]. intros _. exists i. split; [lia|auto].
    - exists b. split; [exact E|exact H].
  Qed.

  Lemma qn_test_ok late (x0 x : list R) (eta : R) : length x = d ->
    exists c, qn_test RO lit10 o go late (f x0) (f x) eta (distv d x x0) x = Ok c /\ forall code, c = Some code -> stops late code eta x0 x.
  Proof using W.
    intros Lx. unfold qn_test. destruct (on_bound_ok2 x Lx) as (b & Eb & Hb). rewrite Eb. cbn [obind]. cbn [fltb fabs fsub fdiv fmul fnat Rops].
    unfold stops, GTOL_REACHED, FTOL_REACHED, XTOL_REACHED.
    assert (Sq : g_gtol RO go ^ 2 = g_gtol RO go * g_gtol RO go) by (rnorm; ring). rewrite Sq.
    replace (INR 2) with 2 by (cbn; lra).
    destruct b.
    - match goal with |- context [Rltb ?a (g_relf RO go)] => destruct (Rltb_spec a (g_relf RO go)) end.
      { eexists. split; [reflexivity|]. intros code [= <-]. auto. }
      destruct (Rltb_spec (distv d x x0) (ls_absx RO o)); eexists; (split; [reflexivity|]); intros code [= <-]. right. right. auto.
    - destruct (Rltb_spec (eta * eta / 2) (g_gtol RO go * g_gtol RO go)).
      { eexists. split; [reflexivity|]. intros code [= <-]. auto. }
      match goal with |- context [Rltb ?a (g_relf RO go)] => destruct (Rltb_spec a (g_relf RO go)) end.
      { eexists. split; [reflexivity|]. intros code [= <-]. auto. }
      destruct (Rltb_spec (distv d x x0) (ls_absx RO o)); destruct late; cbn [andb]; eexists; (split; [reflexivity|]); intros code [= <-]. right. right. auto.
  Qed.

  (** ** BFGS *)
  (** the textbook update with the step from [x] to [y], left out when the curvature is tiny *)
  Definition next_h (M : nat -> nat -> R) (x y : list R) : nat -> nat -> R :=
    let s := fun i => vec y i - vec x i in let w := fun i => vec (g y) i - vec (g x) i in
    if Rltb lit16 (Rabs (ip d s w)) then bfgs d M s w else M.
  (** the direction at [x]: minus the matrix times the gradient, or minus the gradient
      when that is a direction of ascent and bisection is used *)
  Definition qn_dir (M : nat -> nat -> R) (x p : list R) : Prop :=
    length p = d /\
    ((forall i, (i < d)%nat -> vec p i = - mv d M (vec (g x)) i) \/
     (g_alg RO go = WEAKWOLFE /\ ip d (vec (g x)) (mv d M (vec (g x))) < - tol15 /\ forall i, (i < d)%nat -> vec p i = - vec (g x) i)).
  (** [run M0 xs M]: the points [xs] (oldest first) are visited, the matrix is [M] in the end *)
  Inductive run (M0 : nat -> nat -> R) : list (list R) -> (nat -> nat -> R) -> Prop :=
  | run_start x : inbox d lb ub x -> run M0 [x] M0
  | run_step xs x y p M : run M0 (xs ++ [x]) M -> qn_dir M x p -> moves x p y -> inbox d lb ub y -> run M0 (xs ++ [x; y]) (next_h M x y).

  Definition qinv (M0 : nat -> nat -> R) (s : qstate RO) (xs : list (list R)) (x : list R) : Prop :=
    q_x RO s = x /\ q_f RO s = f x /\ q_g RO s = g x /\ inbox d lb ub x /\ length (q_dir RO s) = d /\ length (q_h RO s : list R) = (d * d)%nat /\
    q_tx RO s = xs ++ [x] /\ q_tf RO s = map f (xs ++ [x]) /\
    exists M, run M0 (xs ++ [x]) M /\ (forall i j, (i < d)%nat -> (j < d)%nat -> upper d (q_h RO s) i j = M i j) /\
      forall i, (i < d)%nat -> vec (q_dir RO s) i = - mv d M (vec (g x)) i.

  Lemma bfgs_loop_ok zf fuel iter (w0 w2 w3 : list R) s xs x M0 :
    length w0 = d -> length w2 = d -> length w3 = d -> qinv M0 s xs x -> length xs = iter ->
    (iter <= g_max RO go)%nat -> (g_max RO go < fuel + iter)%nat ->
    exists code s' ys y, bfgs_loop RO sqrt lit20 lit10 lit16 f g o go zf fuel iter w0 w2 w3 s = Ok (code, s') /\ qinv M0 s' ys y /\
      (exists q, ys = xs ++ x :: q) /\ (length ys <= S (g_max RO go))%nat /\
      exists zs x0, ys = zs ++ [x0] /\
        (code = (-1)%Z /\ length ys = S (g_max RO go) \/ stops (3 <? length zs) code (dotv d (g y) (q_dir RO s')) x0 y).
  Proof using W Ha Hg Halg.
    intros L0 L2 L3. revert iter s xs x. induction fuel as [|fuel IH]; intros iter s xs x I Li Hi Hf; [lia|].
    destruct I as (E1 & E2 & E3 & Ib & Ld & Lh & E4 & E5 & M & HM & HU & HD). assert (Lx := proj1 Ib). assert (Lgx : length (g x) = d) by auto.
    cbn [bfgs_loop]. rewrite E1, E2, E3.
    refine (eq_ind _ (fun z => exists code s' ys y, obind z _ = _ /\ _) _ _ (eq_sym (blit_all o w0 x L0 Lx))). cbn [obind].
    destruct (search_retry_ok zf x w2 (q_dir RO s) Ib L2 Ld) as (y & p & res & E & Iy & Lp & Mv & Hp).
    refine (eq_ind _ (fun z => exists code s' ys y, obind z _ = _ /\ _) _ _ (eq_sym E)). cbn [obind].
    assert (Ly := proj1 Iy). assert (Lgy : length (g y) = d) by auto.
    rewrite (norm2diff_ok o y x Ly Lx). cbn [obind].
    destruct (C87_bfgs_update d lit16 y x (g y) w3 (g x) p (q_h RO s) lit16_pos Ly Lx Lgy L3 Lgx Lp Lh) as (H' & dir' & Eb & LH' & Ld' & U & U0 & _ & D').
    refine (eq_ind _ (fun z => exists code s' ys y, obind z _ = _ /\ _) _ _ (eq_sym Eb)). cbn [obind].
    rewrite (odot_ok o (g y) dir' Lgy Ld'). cbn [obind].
    destruct (qn_test_ok (3 <? iter)%nat x y (dotv d (g y) dir') Ly) as (c & Ec & Hc). rewrite Ec. cbn [obind].
    set (s2 := mkqs RO y (f y) (g y) dir' H' (q_tx RO s ++ [y]) (q_tf RO s ++ [f y])).
    assert (Qd : qn_dir M x p).
    { split; [exact Lp|]. destruct Hp as [->|(A & Hd & ->)]; [left; exact HD|right]. split; [exact A|]. split.
      - rewrite dotv_ip in Hd. rewrite (ip_ext d _ (vec (g x)) _ (fun i => -1 * mv d M (vec (g x)) i)) in Hd; auto.
        + rewrite ip_scal_r in Hd. lra.
        + intros i Hi'. rewrite HD by auto. ring.
      - intros i Hi'. unfold vec. replace 0 with (- 0) at 1 by ring. apply map_nth. }
    assert (UH : forall i j, (i < d)%nat -> (j < d)%nat -> upper d H' i j = next_h M x y i j).
    { intros i j Hi' Hj'. unfold next_h. match goal with |- context [Rltb lit16 ?a] => destruct (Rltb_spec lit16 a) as [Q|Q] end.
      - rewrite (U Q) by auto. apply bfgs_ext; auto.
      - rewrite U0 by lra. auto. }
    assert (I2 : qinv M0 s2 (xs ++ [x]) y).
    { split; [reflexivity|]. split; [reflexivity|]. split; [reflexivity|]. split; [exact Iy|]. split; [exact Ld'|]. split; [exact LH'|].
      split; [cbn [q_tx s2]; now rewrite E4|]. split; [cbn [q_tf s2]; rewrite E5; rewrite (map_app f (xs ++ [x]) [y]); reflexivity|].
      exists (next_h M x y). split; [rewrite <- app_assoc; apply (run_step M0 xs x y p M); auto|]. split; [exact UH|].
      intros i Hi'. cbn [q_dir s2]. rewrite D' by auto. f_equal. apply mv_ext; auto. }
    assert (Lxs : length (xs ++ [x]) = S iter) by (rewrite app_length; cbn [length]; lia).
    destruct (Nat.ltb_spec (g_max RO go) (iter + 1)) as [Lm|Lm].
    { exists (-1)%Z, s2, (xs ++ [x]), y. split; [reflexivity|]. split; [exact I2|]. split; [now exists []|]. split; [lia|]. exists xs, x. split; [reflexivity|].
      left. split; [reflexivity|lia]. }
    destruct c as [code|].
    { exists code, s2, (xs ++ [x]), y. split; [reflexivity|]. split; [exact I2|]. split; [now exists []|]. split; [lia|]. exists xs, x. split; [reflexivity|].
      right. rewrite Li. apply Hc. reflexivity. }
    destruct (IH (iter + 1)%nat s2 (xs ++ [x]) y) as (code & s3 & ys & y3 & E6 & I6 & (q & Q) & R6); auto; try lia.
    exists code, s3, ys, y3. split; [exact E6|]. split; [exact I6|]. split; [|exact R6]. exists (y :: q). rewrite Q, <- app_assoc. reflexivity.
  Qed.
End Qn.

(** The BFGS method.  The stored points [xs] start at [x] and end at the reported
    point; all are in the box; the stored values belong to them; each is reached
    from the one before along minus the current matrix times the gradient (or minus
    the gradient); the matrix is the textbook one from the initial one and all these
    steps, as is the matrix handed back; the reported value and gradient belong to
    the reported point; the return code says why the method stopped. *)
Theorem C89_bfgs f g o go zf (x grad h w0 w1 w2 w3 : list R) :
  let d := ls_d RO o in
  box_wf o -> 0 < ls_alpha RO o < 1 / 2 -> (forall y, length y = d -> length (g y) = d) ->
  g_alg RO go = BACKTRACK \/ g_alg RO go = WEAKWOLFE /\ (2 <= ls_max RO o)%nat ->
  inbox d (ls_lb RO o) (ls_ub RO o) x -> length grad = d -> length h = (d * d)%nat ->
  length w0 = d -> length w1 = d -> length w2 = d -> length w3 = d ->
  exists code s M, let xs := q_tx RO s in let y := q_x RO s in
    opt_bfgs RO sqrt lit20 lit10 lit16 f g o go zf x grad h w0 w1 w2 w3 = Ok (code, s) /\
    run f g o go (upper d h) xs M /\ (exists q, xs = x :: q) /\ (exists zs, xs = zs ++ [y]) /\ (2 <= length xs <= g_max RO go + 2)%nat /\
    q_tf RO s = map f xs /\ q_f RO s = f y /\ q_g RO s = g y /\
    (forall i j, (i < d)%nat -> (j < d)%nat -> upper d (q_h RO s) i j = M i j) /\
    (forall i, (i < d)%nat -> vec (q_dir RO s) i = - mv d M (vec (g y)) i) /\
    exists zs x0, xs = zs ++ [x0; y] /\
      (code = (-1)%Z /\ length xs = (g_max RO go + 2)%nat \/ stops f o go (3 <? length zs) code (dotv d (g y) (q_dir RO s)) x0 y).
Proof.
  intros d W Ha Hg Halg Ib Lgr Lh L0 L1 L2 L3. assert (Lx := proj1 Ib). assert (Lgx : length (g x) = d) by auto. unfold opt_bfgs.
  refine (eq_ind _ (fun z => exists code s M, obind z _ = _ /\ _) _ _ (eq_sym (eval_grad_ok o g x grad Lgx Lgr))). cbn [obind].
  cbn [fsub f0 f1 Rops]. replace (0 - 1) with (-1) by ring.
  refine (eq_ind _ (fun z => exists code s M, obind z _ = _ /\ _) _ _ (eq_sym (dsymv_ok d (-1) h (g x) w1 Lh Lgx L1))). cbn [obind].
  destruct (bfgs_loop_ok f g o go W Ha Hg Halg zf (S (g_max RO go)) 0 w0 w2 w3
    (mkqs RO x (f x) (g x) (tab d (fun i => -1 * mv d (upper d h) (vec (g x)) i)) h [x] [f x]) [] x (upper d h)) as (code & s & ys & y & E & I & (q & Q) & Ly & zs & x0 & Ez & Hs);
    auto; try lia.
  { split; [reflexivity|]. split; [reflexivity|]. split; [reflexivity|]. split; [exact Ib|]. split; [apply tab_length|]. split; [exact Lh|].
    split; [reflexivity|]. split; [reflexivity|]. exists (upper d h). split; [now apply run_start|]. split; [auto|].
    intros i Hi. cbn [q_dir]. rewrite vec_tab' by auto. unfold d in *. rnorm. lra. }
  destruct I as (E1 & E2 & E3 & Iy & Ld & LH & E4 & E5 & M & HM & HU & HD). exists code, s, M. cbv zeta. rewrite E4, E1.
  split; [exact E|]. split; [exact HM|].
  split; [exists (q ++ [y]); rewrite Q; reflexivity|]. split; [now exists ys|].
  split; [rewrite app_length, Q; rewrite Q in Ly; cbn [length app] in *; rnorm; lia|].
  split; [exact E5|]. split; [exact E2|]. split; [exact E3|]. split; [exact HU|]. split; [exact HD|].
  exists zs, x0. split; [rewrite Ez, <- app_assoc; reflexivity|]. destruct Hs as [(-> & Hs)|Hs]; [left|right; exact Hs].
  split; [reflexivity|]. rewrite app_length, Hs. cbn [length]. rnorm. lia.
Qed.
Print Assumptions C89_bfgs.

(** ** Convex objectives *)
(** the gradient is monotone on the box *)
Definition monotone (g : list R -> list R) (o : lsopt RO) : Prop :=
  forall x y, inbox (ls_d RO o) (ls_lb RO o) (ls_ub RO o) x -> inbox (ls_d RO o) (ls_lb RO o) (ls_ub RO o) y ->
    0 <= ip (ls_d RO o) (fun i => vec y i - vec x i) (fun i => vec (g y) i - vec (g x) i).

Lemma run_inbox f g o go M0 xs M : run f g o go M0 xs M -> forall x, In x xs -> inbox (ls_d RO o) (ls_lb RO o) (ls_ub RO o) x.
Proof.
  induction 1 as [x Hx|xs x y p M Hr IH Hd Hm Hy]; intros z Hz.
  - destruct Hz as [<-|[]]. exact Hx.
  - apply in_app_or in Hz. destruct Hz as [Hz|[<-|[<-|[]]]]; auto; apply IH; apply in_or_app; auto. right. now left.
Qed.
Lemma run_posdef f g o go M0 xs M : monotone g o -> posdef (ls_d RO o) M0 -> run f g o go M0 xs M -> posdef (ls_d RO o) M.
Proof.
  intros Mo P. induction 1 as [x Hx|xs x y p M Hr IH Hd Hm Hy]; auto. unfold next_h.
  match goal with |- context [Rltb lit16 ?a] => destruct (Rltb_spec lit16 a) as [Q|Q] end; auto.
  apply bfgs_posdef; auto. assert (Ix : inbox (ls_d RO o) (ls_lb RO o) (ls_ub RO o) x).
  { apply (run_inbox _ _ _ _ _ _ _ Hr). apply in_or_app. right. now left. }
  specialize (Mo x y Ix Hy). rewrite Rabs_right in Q by (apply Rle_ge; exact Mo). pose proof lit16_pos. lra.
Qed.

(** For a convex objective and a positive definite initial matrix, the matrix stays
    positive definite, and the last direction is one of descent unless the gradient
    vanishes. *)
Theorem C89_convex f g o go zf (x grad h w0 w1 w2 w3 : list R) :
  let d := ls_d RO o in
  box_wf o -> 0 < ls_alpha RO o < 1 / 2 -> (forall y, length y = d -> length (g y) = d) ->
  g_alg RO go = BACKTRACK \/ g_alg RO go = WEAKWOLFE /\ (2 <= ls_max RO o)%nat ->
  inbox d (ls_lb RO o) (ls_ub RO o) x -> length grad = d -> length h = (d * d)%nat ->
  length w0 = d -> length w1 = d -> length w2 = d -> length w3 = d ->
  monotone g o -> posdef d (upper d h) ->
  exists code s, opt_bfgs RO sqrt lit20 lit10 lit16 f g o go zf x grad h w0 w1 w2 w3 = Ok (code, s) /\
    posdef d (upper d (q_h RO s)) /\
    ((exists i, (i < d)%nat /\ vec (g (q_x RO s)) i <> 0) -> ip d (vec (g (q_x RO s))) (vec (q_dir RO s)) < 0).
Proof.
  intros d W Ha Hg Halg Ib Lgr Lh L0 L1 L2 L3 Mo P.
  destruct (C89_bfgs f g o go zf x grad h w0 w1 w2 w3 W Ha Hg Halg Ib Lgr Lh L0 L1 L2 L3) as (code & s & M & E & Hr & _ & _ & _ & _ & _ & _ & HU & HD & _).
  exists code, s. split; [exact E|]. assert (PM := run_posdef _ _ _ _ _ _ _ Mo P Hr). split.
  - intros v Hv. fold d in PM. rewrite (ip_ext d v v _ (mv d M v)); auto. intros i Hi. apply mv_ext; auto.
  - intros Hn. specialize (PM _ Hn). rewrite (ip_ext d _ (vec (g (q_x RO s))) _ (fun i => -1 * mv d M (vec (g (q_x RO s))) i)); auto.
    + rewrite ip_scal_r. fold d in PM. lra.
    + intros i Hi. rewrite HD by auto. unfold d. rnorm. lra.
Qed.
Print Assumptions C89_convex.

(** a case: the function 4 x^2 on the interval [-2, 2] *)
Example C89_case : exists code s,
  opt_bfgs RO sqrt lit20 lit10 lit16 sq4 sq4g (ls_case (1 / 2) 0 20) (mkg RO 5 0 0 WEAKWOLFE) 0 [1] [0] [1] [0] [0] [0] [0] = Ok (code, s) /\
  posdef 1 (upper 1 (q_h RO s)).
Proof.
  destruct (C89_convex sq4 sq4g (ls_case (1 / 2) 0 20) (mkg RO 5 0 0 WEAKWOLFE) 0 [1] [0] [1] [0] [0] [0] [0]) as (code & s & E & P & _); auto.
  - apply ls_case_wf.
  - cbn [ls_case ls_alpha]. lra.
  - right. split; [reflexivity|]. cbn. lia.
  - apply ls_case_in.
  - intros x y Hx Hy. unfold ip, vec, sq4g. cbn [ls_case ls_d rs nth].
    change (0 <= 0 + (nth 0 y 0 - nth 0 x 0) * (8 * nth 0 y 0 - 8 * nth 0 x 0)). generalize (nth 0 y 0) (nth 0 x 0). intros a b.
    replace (0 + (a - b) * (8 * a - 8 * b)) with (8 * ((a - b) * (a - b))) by ring. pose proof (Rle_0_sqr (a - b)) as Q. unfold Rsqr in Q. lra.
  - intros v (i & Hi & Hv). cbn [ls_case ls_d] in *. replace i with 0%nat in Hv by lia. unfold ip, mv, upper. cbn [rs nth Nat.min Nat.max Nat.mul Nat.add]. nra.
  - exists code, s. split; [exact E|exact P].
Qed.
