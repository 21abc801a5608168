(** C90: the limited-memory BFGS method. *)
From Verif Require Import OptFacts OptBox OptWolfe PropOpt PropOpt2 PropOpt3 BfgsFacts PropBfgs LbfgsFacts PropLbfgs QnModel PropQn.
From Coq Require Import ZArith Reals Lra Psatz.
Open Scope R_scope.

(** the matrix and the list depend only on the points inserted *)
Lemma linv_ext d m X X' G G' k l : (forall i, (i <= k)%nat -> X i = X' i) -> (forall i, (i <= k)%nat -> G i = G' i) ->
  linv d m X G k l -> linv d m X' G' k l.
Proof.
  intros HX HG (A & B & C & D & E). do 4 (split; [assumption|]). intros i Hi. destruct (E i Hi) as (n & En & N1 & N2 & N3 & N4 & N).
  exists n. split; [exact En|]. rewrite (HX (i + 1)%nat), (HX i), (HG (i + 1)%nat), (HG i) in * by lia.
  split; [exact N1|]. split; [exact N2|]. split; [exact N3|]. split; [exact N4|exact N].
Qed.

Section Lb.
  Variable f : list R -> R.
  Variable g : list R -> list R.
  Variable o : lsopt RO.
  Variable go : gopt RO.
  Variable m : nat.
  Variable scale : bool.
  Notation d := (ls_d RO o).
  Notation lb := (ls_lb RO o : list R).
  Notation ub := (ls_ub RO o : list R).
  Hypothesis W : box_wf o.
  Hypothesis Ha : 0 < ls_alpha RO o < 1 / 2.
  Hypothesis Hg : forall y, length y = d -> length (g y) = d.
  Hypothesis Halg : g_alg RO go = BACKTRACK \/ g_alg RO go = WEAKWOLFE /\ (2 <= ls_max RO o)%nat.
  Hypothesis Hm : (2 <= m)%nat.

  (** The matrix after the points [xs] (oldest first): the textbook update, with the
      last [m] steps, of a multiple of the identity; the identity at the start. *)
  Definition pts (xs : list (list R)) : nat -> list R := fun i => nth i xs (nth 0 xs []).
  Definition lmat (xs : list (list R)) : nat -> nat -> R :=
    let k := (length xs - 1)%nat in let X := pts xs in let G := fun i => g (X i) in
    limited d (if (k =? 0)%nat then 1 else first_scale d X G k 1 scale) (last_pairs X G k (Nat.min k m)).
  Inductive lrun : list (list R) -> Prop :=
  | lrun_start x : inbox d lb ub x -> lrun [x]
  | lrun_step xs x y p : lrun (xs ++ [x]) -> length p = d -> (forall i, (i < d)%nat -> vec p i = - mv d (lmat (xs ++ [x])) (vec (g x)) i) ->
      moves f g o go x p y -> inbox d lb ub y -> lrun (xs ++ [x; y]).
  Lemma lrun_inbox xs : lrun xs -> forall x, In x xs -> inbox d lb ub x.
  Proof using.
    clear. induction 1 as [x Hx|xs x y p Hr IH Lp Hd Hm Hy]; intros z Hz.
    - destruct Hz as [<-|[]]. exact Hx.
    - apply in_app_or in Hz. destruct Hz as [Hz|[<-|[<-|[]]]]; auto; apply IH; apply in_or_app; auto. right. now left.
  Qed.

  Definition lbinv (s : lstate RO) (xs : list (list R)) (x : list R) : Prop :=
    l_x RO s = x /\ l_f RO s = f x /\ l_g RO s = g x /\ length (l_dir RO s) = d /\ length (l_alpha RO s : list R) = m /\
    l_tx RO s = xs ++ [x] /\ l_tf RO s = map f (xs ++ [x]) /\ lrun (xs ++ [x]) /\
    linv d m (pts (xs ++ [x])) (fun i => g (pts (xs ++ [x]) i)) (length xs) (l_list RO s) /\
    forall i, (i < d)%nat -> vec (l_dir RO s) i = - mv d (lmat (xs ++ [x])) (vec (g x)) i.

  (** a failed assertion: the direction is one of ascent *)
  Definition ascent (xs : list (list R)) (x : list R) : Prop :=
    lrun (xs ++ [x]) /\ g_alg RO go = WEAKWOLFE /\ ip d (vec (g x)) (mv d (lmat (xs ++ [x])) (vec (g x))) < - tol15.

  Lemma lbfgs_loop_ok zf fuel iter (w0 w2 : list R) s xs x :
    length w0 = d -> length w2 = d -> lbinv s xs x -> length xs = iter ->
    (iter <= g_max RO go)%nat -> (g_max RO go < fuel + iter)%nat ->
    (exists code s' ys y, lbfgs_loop RO sqrt lit20 lit10 f g o go zf fuel iter m scale w0 w2 s = Ok (code, s') /\ lbinv s' ys y /\
      (exists q, ys = xs ++ x :: q) /\ (length ys <= S (g_max RO go))%nat /\
      exists zs x0, ys = zs ++ [x0] /\
        (code = (-1)%Z /\ length ys = S (g_max RO go) \/ stops f o go true code (dotv d (g y) (l_dir RO s')) x0 y)) \/
    (lbfgs_loop RO sqrt lit20 lit10 f g o go zf fuel iter m scale w0 w2 s = Abort /\
      exists ys y, (exists q, ys ++ [y] = xs ++ x :: q) /\ ascent ys y).
  Proof using W Ha Hg Halg Hm.
    intros L0 L2. revert iter s xs x. induction fuel as [|fuel IH]; intros iter s xs x I Li Hi Hf; [lia|].
    destruct I as (E1 & E2 & E3 & Ld & La & E4 & E5 & Hr & HL & HD).
    assert (Ib : inbox d lb ub x) by (apply (lrun_inbox _ Hr); apply in_or_app; right; now left).
    assert (Lx := proj1 Ib). assert (Lgx : length (g x) = d) by auto.
    cbn [lbfgs_loop]. rewrite E1, E2, E3.
    match goal with |- context [obind (blit w0 0 x 0 d) ?k] => set (K1 := k) end.
    assert (EK : obind (blit w0 0 x 0 d) K1 = K1 x) by (exact (f_equal (fun z => obind z K1) (blit_all o w0 x L0 Lx))).
    refine (eq_ind _ (fun z => (exists code s' ys y, z = _ /\ _) \/ (z = _ /\ _)) _ _ (eq_sym EK)). unfold K1. clear EK K1.
    destruct (search_ok f g o go W Ha Hg Halg zf x w2 (l_dir RO s) Ib L2 Ld) as (y & w & res & E & HS).
    match goal with |- context [obind (qn_search _ _ _ _ _ _ _ _ _ _ _ _ _ _ _) ?k] => set (K2 := k) end.
    assert (EK : obind (qn_search RO sqrt lit20 f g o go false zf x (f x) (g x) w2 (l_dir RO s) x) K2 = K2 (y, f y, w, l_dir RO s, res))
      by (exact (f_equal (fun z => obind z K2) E)).
    refine (eq_ind _ (fun z => (exists code s' ys y, z = _ /\ _) \/ (z = _ /\ _)) _ _ (eq_sym EK)). unfold K2. clear EK K2. cbv beta iota.
    destruct HS as [(Hres & Iy & -> & Mv)|(-> & A & Hasc & -> & ->)].
    2:{ right. cbn [Z.ltb Z.compare cassert obind]. split; [reflexivity|]. exists xs, x. split; [now exists []|]. split; [exact Hr|]. split; [exact A|].
        rewrite dotv_ip in Hasc. rewrite (ip_ext d _ (vec (g x)) _ (fun i => -1 * mv d (lmat (xs ++ [x])) (vec (g x)) i)) in Hasc; auto.
        - rewrite ip_scal_r in Hasc. lra.
        - intros i Hi'. rewrite HD by auto. rnorm. lra. }
    assert (Ly := proj1 Iy). assert (Lgy : length (g y) = d) by auto.
    replace (-1 <? res)%Z with true by (symmetry; apply Z.ltb_lt; lia). cbn [cassert obind].
    set (zs := (xs ++ [x]) ++ [y]). set (X := pts zs). set (G := fun i => g (X i)).
    assert (Hr2 : lrun zs). { unfold zs. rewrite <- app_assoc. apply (lrun_step xs x y (l_dir RO s)); auto. }
    assert (Lz : length zs = (iter + 2)%nat) by (unfold zs; rewrite !app_length; cbn [length]; lia).
    assert (LX : forall i, length (X i) = d).
    { intros i. unfold X, pts. destruct (nth_in_or_default i zs (nth 0 zs [])) as [H|H].
      - apply (lrun_inbox _ Hr2). exact H.
      - rewrite H. apply (lrun_inbox _ Hr2). apply nth_In. lia. }
    assert (LG : forall i, length (G i) = d) by (intros; apply Hg, LX).
    assert (X0 : forall i, (i <= iter)%nat -> pts (xs ++ [x]) i = X i).
    { intros i Hi'. unfold X, pts, zs. generalize (nth 0 ((xs ++ [x]) ++ [y]) []). intros e. rewrite (@app_nth1 _ (xs ++ [x]) [y] e i) by (rewrite app_length; cbn [length]; lia).
      apply nth_indep. rewrite app_length. cbn [length]. lia. }
    assert (Xx : X iter = x). { unfold X, pts, zs. rewrite <- app_assoc. rewrite app_nth2 by lia. rewrite Li, Nat.sub_diag. reflexivity. }
    assert (Xy : X (iter + 1)%nat = y).
    { unfold X, pts, zs. rewrite app_nth2 by (rewrite app_length; cbn [length]; lia). rewrite app_length. cbn [length]. replace (iter + 1 - (length xs + 1))%nat with 0%nat by lia. reflexivity. }
    rewrite Li in HL. apply (linv_ext d m _ X _ G) in HL; [|exact X0|intros i Hi'; unfold G; now rewrite X0].
    destruct (insert_ok d m X G Hm LX LG iter (l_list RO s) HL) as (l2 & El & HL2).
    unfold G in El at 1 2. rewrite Xx, Xy in El. rewrite El. cbn [obind].
    match goal with |- context [obind (blit (g x) 0 (g y) 0 d) ?k] => set (K3 := k) end.
    assert (EK : obind (blit (g x) 0 (g y) 0 d) K3 = K3 (g y)) by (exact (f_equal (fun z => obind z K3) (blit_all o (g x) (g y) Lgx Lgy))).
    refine (eq_ind _ (fun z => (exists code s' ys y, z = _ /\ _) \/ (z = _ /\ _)) _ _ (eq_sym EK)). unfold K3. clear EK K3.
    destruct (hg_ok d m X G Hm (iter + 1) ltac:(lia) (g y) Lgy l2 1 scale (l_alpha RO s) (l_dir RO s) HL2 La Ld) as (q & al & l3 & Eh & HL3 & La3 & Lq & Hq).
    cbn [f1 Rops]. rewrite Eh. cbn [obind]. rewrite (vscal_ok d _ q Lq). cbn [obind fsub f0 f1 Rops].
    set (dir := tab d (fun i => (0 - 1) * nth i q 0)). assert (Ldir : length dir = d) by apply tab_length.
    match goal with |- context [obind (odot ?a ?b ?c ?e) ?k] => set (K4 := k) end.
    assert (EK : obind (odot RO o (g y) dir) K4 = K4 (dotv d (g y) dir)) by (exact (f_equal (fun z => obind z K4) (odot_ok o (g y) dir Lgy Ldir))).
    refine (eq_ind _ (fun z => (exists code s' ys y, z = _ /\ _) \/ (z = _ /\ _)) _ _ (eq_sym EK)). unfold K4. clear EK K4.
    rewrite (norm2diff_ok o y x Ly Lx). cbn [obind].
    destruct (qn_test_ok f o go W true x y (dotv d (g y) dir) Ly) as (c & Ec & Hc). rewrite Ec. cbn [obind].
    match goal with |- context [mklst RO ?y0 ?f0 ?g0 ?d0 ?a0 ?l0 ?a ?b] => change (mklst RO y0 f0 g0 d0 a0 l0 a b) with (mklst RO y (f y) (g y) dir al l3 a b); set (s2 := mklst RO y (f y) (g y) dir al l3 a b) end.
    assert (Ml : forall i, (i < d)%nat -> vec dir i = - mv d (lmat zs) (vec (g y)) i).
    { intros i Hi'. unfold dir. rewrite vec_tab' by auto. change (nth i q 0) with (vec q i). rewrite Hq by auto.
      replace (mv d (lmat zs) (vec (g y)) i) with (mv d (dense d m X G (iter + 1) (scaling d X G (iter + 1) 1 scale) (Nat.min (iter + 1) m)) (vec (g y)) i); [rnorm; lra|].
      apply mv_ext; auto. intros j Hj. rewrite scaled_limited by (auto; lia). unfold lmat. rewrite Lz. replace (iter + 2 - 1)%nat with (iter + 1)%nat by lia.
      replace (iter + 1 =? 0)%nat with false by (symmetry; apply Nat.eqb_neq; lia). reflexivity. }
    assert (I2 : lbinv s2 (xs ++ [x]) y).
    { split; [reflexivity|]. split; [reflexivity|]. split; [reflexivity|]. split; [exact Ldir|]. split; [exact La3|].
      split; [cbn [l_tx s2]; now rewrite E4|]. split; [cbn [l_tf s2]; rewrite E5; rewrite (map_app f (xs ++ [x]) [y]); reflexivity|].
      split; [exact Hr2|]. split; [|exact Ml]. rewrite app_length. cbn [length l_list s2]. rewrite Li. exact HL3. }
    assert (Lxs : length (xs ++ [x]) = S iter) by (rewrite app_length; cbn [length]; lia).
    destruct (Nat.ltb_spec (g_max RO go) (iter + 1)) as [Lm|Lm].
    { left. exists (-1)%Z, s2, (xs ++ [x]), y. split; [reflexivity|]. split; [exact I2|]. split; [now exists []|]. split; [lia|]. exists xs, x. split; [reflexivity|].
      left. split; [reflexivity|lia]. }
    destruct c as [code|].
    { left. exists code, s2, (xs ++ [x]), y. split; [reflexivity|]. split; [exact I2|]. split; [now exists []|]. split; [lia|]. exists xs, x. split; [reflexivity|].
      right. apply Hc. reflexivity. }
    destruct (IH (iter + 1)%nat s2 (xs ++ [x]) y) as [(code & s3 & ys & y3 & E6 & I6 & (q6 & Q) & R6)|(E6 & ys & y3 & (q6 & Q) & R6)]; auto; try lia.
    - left. exists code, s3, ys, y3. split; [exact E6|]. split; [exact I6|]. split; [|exact R6]. exists (y :: q6). rewrite Q, <- app_assoc. reflexivity.
    - right. split; [exact E6|]. exists ys, y3. split; [|exact R6]. exists (y :: q6). rewrite Q, <- app_assoc. reflexivity.
  Qed.
End Lb.

(** The limited-memory method, with room for at least two pairs.  The stored points
    start at [x] and end at the reported point; all are in the box; the stored values
    belong to them; each is reached from the one before along minus the matrix times
    the gradient, and this matrix is the textbook one from the last [m] steps; the
    reported value and gradient belong to the reported point; the return code says why
    the method stopped.  The only other possibility is a failed assertion, with the
    weak Wolfe search only, when such a direction is one of ascent. *)
Theorem C90_lbfgs f g o go m scale zf (x grad w0 w1 w2 : list R) :
  let d := ls_d RO o in
  box_wf o -> 0 < ls_alpha RO o < 1 / 2 -> (forall y, length y = d -> length (g y) = d) ->
  g_alg RO go = BACKTRACK \/ g_alg RO go = WEAKWOLFE /\ (2 <= ls_max RO o)%nat -> (2 <= m)%nat ->
  inbox d (ls_lb RO o) (ls_ub RO o) x -> length grad = d -> length w0 = d -> length w1 = d -> length w2 = d ->
  (exists code s, let xs := l_tx RO s in let y := l_x RO s in
    opt_lbfgs RO sqrt lit20 lit10 f g o go zf m scale x grad w0 w1 w2 = Ok (code, s) /\
    lrun f g o go m scale xs /\ (exists q, xs = x :: q) /\ (exists zs, xs = zs ++ [y]) /\ (2 <= length xs <= g_max RO go + 2)%nat /\
    l_tf RO s = map f xs /\ l_f RO s = f y /\ l_g RO s = g y /\
    (forall i, (i < d)%nat -> vec (l_dir RO s) i = - mv d (lmat g o m scale xs) (vec (g y)) i) /\
    exists zs x0, xs = zs ++ [x0; y] /\
      (code = (-1)%Z /\ length xs = (g_max RO go + 2)%nat \/ stops f o go true code (dotv d (g y) (l_dir RO s)) x0 y)) \/
  (opt_lbfgs RO sqrt lit20 lit10 f g o go zf m scale x grad w0 w1 w2 = Abort /\
    exists ys y, (exists q, ys ++ [y] = x :: q) /\ ascent f g o go m scale ys y).
Proof.
  intros d W Ha Hg Halg Hm Ib Lgr L0 L1 L2. assert (Lx := proj1 Ib). assert (Lgx : length (g x) = d) by auto. unfold opt_lbfgs.
  refine (eq_ind _ (fun z => (exists code s, obind z _ = _ /\ _) \/ (obind z _ = _ /\ _)) _ _ (eq_sym (eval_grad_ok o g x grad Lgx Lgr))). cbn [obind].
  refine (eq_ind _ (fun z => (exists code s, obind z _ = _ /\ _) \/ (obind z _ = _ /\ _)) _ _ (eq_sym (blit_all o w1 (g x) L1 Lgx))). cbn [obind].
  cbn [fsub f0 f1 Rops]. replace (0 - 1) with (-1) by ring.
  refine (eq_ind _ (fun z => (exists code s, obind z _ = _ /\ _) \/ (obind z _ = _ /\ _)) _ _ (eq_sym (vscal_ok d (-1) (g x) Lgx))). cbn [obind].
  set (s0 := mklst RO x (f x) (g x) (tab d (fun i => -1 * nth i (g x) 0)) (repeat 0 m) (list_alloc RO m) [x] [f x]).
  assert (I0 : lbinv f g o go m scale s0 [] x).
  { split; [reflexivity|]. split; [reflexivity|]. split; [reflexivity|]. split; [apply tab_length|]. split; [apply repeat_length|].
    split; [reflexivity|]. split; [reflexivity|]. split; [now apply lrun_start|]. split; [apply linv_0; exact Hm|].
    intros i Hi. cbn [l_dir s0]. rewrite vec_tab' by auto. unfold lmat. cbn [length app Nat.sub Nat.eqb Nat.min last_pairs seq map limited].
    unfold mv. rewrite (rs_single _ i _ Hi).
    - rewrite Nat.eqb_refl. unfold vec. rnorm. lra.
    - intros j Hj Hne. destruct (Nat.eqb_spec i j); [congruence|]. ring. }
  destruct (lbfgs_loop_ok f g o go m scale W Ha Hg Halg Hm zf (S (g_max RO go)) 0 w0 w2 s0 [] x) as [(code & s & ys & y & E & I & (q & Q) & Ly & zs & x0 & Ez & Hs)|(E & ys & y & (q & Q) & A)]; auto; try lia.
  - left. destruct I as (E1 & E2 & E3 & Ld & La & E4 & E5 & HM & HL & HD). exists code, s. cbv zeta. rewrite E4, E1.
    split; [exact E|]. split; [exact HM|].
    split; [exists (q ++ [y]); rewrite Q; reflexivity|]. split; [now exists ys|].
    split; [rewrite app_length, Q; rewrite Q in Ly; cbn [length app] in *; rnorm; lia|].
    split; [exact E5|]. split; [exact E2|]. split; [exact E3|]. split; [exact HD|].
    exists zs, x0. split; [rewrite Ez, <- app_assoc; reflexivity|]. destruct Hs as [(-> & Hs)|Hs]; [left|right; exact Hs].
    split; [reflexivity|]. rewrite app_length, Hs. cbn [length]. rnorm. lia.
  - right. split; [exact E|]. exists ys, y. split; [|exact A]. exists q. exact Q.
Qed.
Print Assumptions C90_lbfgs.

(** ** Strictly convex objectives *)
Definition strictly_monotone (g : list R -> list R) (o : lsopt RO) : Prop :=
  forall x y, inbox (ls_d RO o) (ls_lb RO o) (ls_ub RO o) x -> inbox (ls_d RO o) (ls_lb RO o) (ls_ub RO o) y ->
    (exists i, (i < ls_d RO o)%nat /\ vec y i - vec x i <> 0) ->
    0 < ip (ls_d RO o) (fun i => vec y i - vec x i) (fun i => vec (g y) i - vec (g x) i).

Lemma bfgs_posdef0 d M s y : posdef d M -> 0 < ip d s y \/ (forall i, (i < d)%nat -> s i = 0) -> posdef d (bfgs d M s y).
Proof.
  intros P [H|H]; [now apply bfgs_posdef|]. intros v Hv. rewrite bfgs_quad. cbv zeta.
  assert (Z : ip d s v = 0) by (apply rs_zero; intros i Hi; rewrite H by auto; ring). rewrite Z, !Rmult_0_r.
  match goal with |- 0 < ?a + _ => assert (0 < a) end; [|lra]. apply P. destruct Hv as (i & Hi & Hv). exists i. split; auto. rewrite Rmult_0_l. lra.
Qed.
Lemma limited_posdef0 d c ps : 0 < c -> (forall s y, In (s, y) ps -> 0 < ip d s y \/ (forall i, (i < d)%nat -> s i = 0)) -> posdef d (limited d c ps).
Proof.
  intros Hc. induction ps as [|[s y] ps IH]; intros H.
  - now apply scaled_id_posdef.
  - cbn [limited]. apply bfgs_posdef0; [|apply H; now left]. apply IH. intros. apply H. now right.
Qed.
Lemma curv_dec g o x y : strictly_monotone g o -> inbox (ls_d RO o) (ls_lb RO o) (ls_ub RO o) x -> inbox (ls_d RO o) (ls_lb RO o) (ls_ub RO o) y ->
  0 < ip (ls_d RO o) (fun i => vec y i - vec x i) (fun i => vec (g y) i - vec (g x) i) \/ (forall i, (i < ls_d RO o)%nat -> vec y i - vec x i = 0).
Proof.
  intros Mo Ix Iy. destruct (zero_or_not (ls_d RO o) (fun i => vec y i - vec x i)) as [H|H]; [left; now apply Mo|right; exact H].
Qed.
(** the matrix used is positive definite *)
Lemma lmat_posdef f g o go m scale xs : strictly_monotone g o -> lrun f g o go m scale xs -> posdef (ls_d RO o) (lmat g o m scale xs).
Proof.
  intros Mo Hr. assert (Hl : (0 < length xs)%nat) by (destruct Hr; [cbn; lia|rewrite app_length; cbn [length]; lia]).
  assert (IX : forall i, inbox (ls_d RO o) (ls_lb RO o) (ls_ub RO o) (pts xs i)).
  { intros i. unfold pts. destruct (nth_in_or_default i xs (nth 0 xs [])) as [H|H].
    - apply (lrun_inbox _ _ _ _ _ _ _ Hr). exact H.
    - rewrite H. apply (lrun_inbox _ _ _ _ _ _ _ Hr). now apply nth_In. }
  unfold lmat. cbv zeta. set (k := (length xs - 1)%nat). apply limited_posdef0.
  - destruct (k =? 0)%nat; [lra|]. unfold first_scale.
    match goal with |- context [Rltb tol15 ?a] => destruct (Rltb_spec tol15 a) as [T|T] end; cbn [andb]; [|lra]. destruct scale; [|lra].
    pose proof tol15_pos. destruct (curv_dec g o (pts xs (k - 1)) (pts xs k) Mo (IX _) (IX _)) as [C|C].
    + match goal with |- 0 < ?a => match a with _ * ?c / ?b => assert (0 < b) by lra end end.
      apply Rmult_lt_0_compat; [apply Rmult_lt_0_compat; [lra|exact C]|now apply Rinv_0_lt_compat].
    + exfalso. assert (E : pts xs k = pts xs (k - 1)).
      { apply (nth_ext _ _ 0 0); [rewrite (proj1 (IX k)), (proj1 (IX (k - 1)%nat)); reflexivity|].
        intros i Hi. rewrite (proj1 (IX k)) in Hi. specialize (C i Hi). unfold vec in C. lra. }
      rewrite E in T. rewrite (ip_ext _ _ (fun _ => 0) _ (fun _ => 0)) in T by (intros; lra).
      unfold ip in T. rewrite rs_zero in T by (intros; ring). lra.
  - intros s y Hin. destruct (last_pairs_in _ _ _ _ _ _ Hin) as (t & Ht & -> & ->). apply curv_dec; auto.
Qed.

(** For a strictly convex objective the assertion never fails, and the last direction
    is one of descent unless the gradient vanishes.  (Where two successive points
    coincide the curvature is zero and the code divides by it; over the reals the
    quotient is multiplied by zero.) *)
Theorem C90_convex f g o go m scale zf (x grad w0 w1 w2 : list R) :
  let d := ls_d RO o in
  box_wf o -> 0 < ls_alpha RO o < 1 / 2 -> (forall y, length y = d -> length (g y) = d) ->
  g_alg RO go = BACKTRACK \/ g_alg RO go = WEAKWOLFE /\ (2 <= ls_max RO o)%nat -> (2 <= m)%nat ->
  inbox d (ls_lb RO o) (ls_ub RO o) x -> length grad = d -> length w0 = d -> length w1 = d -> length w2 = d ->
  strictly_monotone g o ->
  exists code s, opt_lbfgs RO sqrt lit20 lit10 f g o go zf m scale x grad w0 w1 w2 = Ok (code, s) /\
    lrun f g o go m scale (l_tx RO s) /\ inbox d (ls_lb RO o) (ls_ub RO o) (l_x RO s) /\ l_f RO s = f (l_x RO s) /\
    ((exists i, (i < d)%nat /\ vec (g (l_x RO s)) i <> 0) -> ip d (vec (g (l_x RO s))) (vec (l_dir RO s)) < 0).
Proof.
  intros d W Ha Hg Halg Hm Ib Lgr L0 L1 L2 Mo.
  destruct (C90_lbfgs f g o go m scale zf x grad w0 w1 w2 W Ha Hg Halg Hm Ib Lgr L0 L1 L2) as [(code & s & E & Hr & _ & (zs & Ez) & _ & _ & Ef & _ & HD & _)|(E & ys & y & _ & Hr & _ & A)].
  - exists code, s. split; [exact E|]. split; [exact Hr|]. split; [|split; [exact Ef|]].
    + apply (lrun_inbox _ _ _ _ _ _ _ Hr). rewrite Ez. apply in_or_app. right. now left.
    + intros Hn. assert (PM := lmat_posdef _ _ _ _ _ _ _ Mo Hr _ Hn). fold d in PM.
      rewrite (ip_ext d _ (vec (g (l_x RO s))) _ (fun i => -1 * mv d (lmat g o m scale (l_tx RO s)) (vec (g (l_x RO s))) i)); auto.
      * rewrite ip_scal_r. lra.
      * intros i Hi. rewrite HD by auto. unfold d. rnorm. lra.
  - exfalso. pose proof tol15_pos. destruct (zero_or_not d (vec (g y))) as [N|N].
    + assert (PM := lmat_posdef _ _ _ _ _ _ _ Mo Hr _ N). fold d in PM, A. lra.
    + fold d in A. unfold ip in A. rewrite rs_zero in A; [lra|]. intros i Hi. rewrite N by auto. ring.
Qed.
Print Assumptions C90_convex.

(** a case: the function 4 x^2 on the interval [-2, 2], room for two pairs *)
Example C90_case : exists code s,
  opt_lbfgs RO sqrt lit20 lit10 sq4 sq4g (ls_case (1 / 2) 0 20) (mkg RO 5 0 0 WEAKWOLFE) 0 2 true [1] [0] [0] [0] [0] = Ok (code, s).
Proof.
  destruct (C90_convex sq4 sq4g (ls_case (1 / 2) 0 20) (mkg RO 5 0 0 WEAKWOLFE) 2 true 0 [1] [0] [0] [0] [0]) as (code & s & E & _); auto.
  - apply ls_case_wf.
  - cbn [ls_case ls_alpha]. lra.
  - right. split; [reflexivity|]. cbn. lia.
  - apply ls_case_in.
  - intros x y Hx Hy (i & Hi & Hv). cbn [ls_case ls_d] in Hi. replace i with 0%nat in Hv by lia. unfold ip, vec, sq4g in *. cbn [ls_case ls_d rs nth] in *.
    change (0 < 0 + (nth 0 y 0 - nth 0 x 0) * (8 * nth 0 y 0 - 8 * nth 0 x 0)). change (nth 0 y 0 - nth 0 x 0 <> 0) in Hv. revert Hv. generalize (nth 0 y 0) (nth 0 x 0). intros a b Hv.
    replace (0 + (a - b) * (8 * a - 8 * b)) with (8 * ((a - b) * (a - b))) by ring. assert (Q := Rsqr_pos_lt _ Hv). unfold Rsqr in Q. lra.
  - exists code, s. exact E.
Qed.

(** With no room for pairs the first step follows a null pointer, from every start. *)
Theorem C90_no_room_refuted f g o go scale zf (x grad w0 w1 w2 : list R) :
  let d := ls_d RO o in
  box_wf o -> 0 < ls_alpha RO o < 1 / 2 -> (forall y, length y = d -> length (g y) = d) ->
  g_alg RO go = BACKTRACK \/ g_alg RO go = WEAKWOLFE /\ (2 <= ls_max RO o)%nat ->
  inbox d (ls_lb RO o) (ls_ub RO o) x -> length grad = d -> length w0 = d -> length w1 = d -> length w2 = d ->
  opt_lbfgs RO sqrt lit20 lit10 f g o go zf 0 scale x grad w0 w1 w2 = UB.
Proof.
  intros d W Ha Hg Halg Ib Lgr L0 L1 L2. assert (Lx := proj1 Ib). assert (Lgx : length (g x) = d) by auto. unfold opt_lbfgs.
  refine (eq_trans (f_equal (fun z => obind z _) (eval_grad_ok o g x grad Lgx Lgr)) _). cbn [obind].
  refine (eq_trans (f_equal (fun z => obind z _) (blit_all o w1 (g x) L1 Lgx)) _). cbn [obind].
  cbn [fsub f0 f1 Rops]. replace (0 - 1) with (-1) by ring.
  refine (eq_trans (f_equal (fun z => obind z _) (vscal_ok d (-1) (g x) Lgx)) _). cbn [obind lbfgs_loop l_x l_f l_g l_dir l_list].
  refine (eq_trans (f_equal (fun z => obind z _) (blit_all o w0 x L0 Lx)) _). cbn [obind].
  destruct (search_ok f g o go W Ha Hg Halg zf x w2 (tab d (fun i => -1 * nth i (g x) 0)) Ib L2 ltac:(apply tab_length)) as (y & w & res & E & [(Hres & _)|(_ & _ & Hasc & _)]).
  - refine (eq_trans (f_equal (fun z => obind z _) E) _). cbn [obind]. replace (-1 <? res)%Z with true by (symmetry; apply Z.ltb_lt; lia). reflexivity.
  - exfalso. rewrite dotv_ip in Hasc. rewrite (ip_ext _ _ (vec (g x)) _ (fun i => -1 * vec (g x) i)) in Hasc; auto; [|intros i Hi; now rewrite vec_tab'].
    rewrite ip_scal_r in Hasc. assert (Q : 0 <= ip (ls_d RO o) (vec (g x)) (vec (g x))).
    { rewrite <- dotv_ip. apply (dot_nonneg o). }
    pose proof tol15_pos. lra.
Qed.
Print Assumptions C90_no_room_refuted.
