(** C102: creating, evaluating and differentiating kernel expansions, also with respect to
    their parameters.  C103: their integrals, inner products, sums and norms. *)
From Coq Require Import Reals Lra.
From Verif Require Import Base BaseFacts FOps RIntLib ErfSpec KernModel KernSpec KernFacts.
Open Scope R_scope.

(** ** C102 creation *)
Definition kinv (e : kexp) (ts : list bump) : Prop :=
  holds e ts /\ length (e_coeff e) = e_alloc e /\ length (e_kern e) = e_alloc e /\
  (0 < e_alloc e)%nat /\ (e_n e <= e_alloc e)%nat.

Lemma put_ok al n cs ks lb ub inc ts t :
  kinv (mkkexp al n cs ks lb ub inc) ts -> (n < al)%nat -> forall f,
  exists e', kexp_add f (mkkexp al n cs ks lb ub inc) (b_a t) (gk t) = Ok e' /\
    kinv e' (ts ++ [t]) /\ e_lb e' = lb /\ e_ub e' = ub /\ e_inc e' = inc.
Proof.
  intros ((Hn & H) & L1 & L2 & Ha & Hle) Hlt f. cbn in *.
  eexists. split; [|split; [|repeat split]].
  - destruct f; cbn; (destruct (Nat.eqb_spec n al); [lia|]);
      rewrite !aset_ok by lia; reflexivity.
  - split; [|cbn; rewrite !upd_length; repeat split; try lia].
    split; [cbn; rewrite app_length; cbn; lia|]. cbn. intros i u Hi.
    destruct (Nat.eq_dec i n) as [->|Hne].
    + rewrite Hn, nth_error_app2, Nat.sub_diag in Hi by lia. injection Hi as <-.
      now rewrite !nth_error_upd_same by lia.
    + rewrite !nth_error_upd_other by lia. apply H.
      destruct (Nat.lt_ge_cases i (length ts)) as [A|A]; [now rewrite nth_error_app1 in Hi by lia|].
      assert (nth_error (ts ++ [t]) i = None); [|congruence].
      apply nth_error_None. rewrite app_length. cbn. lia.
  - reflexivity.
  - reflexivity.
  - reflexivity.
Qed.

Lemma grow f al n cs ks lb ub inc w k : n = al ->
  kexp_add (S f) (mkkexp al n cs ks lb ub inc) w k =
  kexp_add f (mkkexp (2 * al) n (cs ++ repeat 0 al) (ks ++ repeat None al) lb ub inc) w k.
Proof. intros ->. cbn [kexp_add e_n e_alloc]. rewrite Nat.eqb_refl. reflexivity. Qed.

Lemma add_ok e ts t : kinv e ts ->
  exists e', kexp_add 1 e (b_a t) (gk t) = Ok e' /\ kinv e' (ts ++ [t]) /\
    e_lb e' = e_lb e /\ e_ub e' = e_ub e /\ e_inc e' = e_inc e.
Proof.
  intros K. destruct e as [al n cs ks lb ub inc].
  destruct (Nat.eq_dec n al) as [->|Hne].
  - destruct K as ((Hn & H) & L1 & L2 & Ha & Hle). cbn in Hn, H, L1, L2, Ha, Hle.
    rewrite grow by reflexivity. apply put_ok; [|lia].
    split; [|cbn; rewrite !app_length, !repeat_length; repeat split; lia].
    split; [exact Hn|]. cbn. intros i u Hi. destruct (H i u Hi) as [A B].
    assert (i < length ts)%nat by (apply nth_error_Some; congruence).
    now rewrite !nth_error_app1 by lia.
  - destruct K as (Hh & L1 & L2 & Ha & Hle). cbn in L1, L2, Ha, Hle. apply put_ok; [|lia].
    split; [exact Hh|]. cbn. repeat split; assumption.
Qed.

(** the bumps that the options describe, with weight zero *)
Definition opt_bumps (o : kopts) : list bump :=
  map (fun c => mkbump 0 (ko_scale o) (ko_width o * ko_width o) c) (ko_centers o).

Theorem C102_init dbl_max o : ko_type o = KernGauss ->
  exists e, kexp_init dbl_max o = Ok e /\ kinv e (opt_bumps o) /\
    e_lb e = ko_lb o /\ e_ub e = ko_ub o /\ e_inc e = ko_adapt o.
Proof.
  intros Ht. unfold kexp_init, kexp_alloc. cbn [cassert obind Nat.ltb Nat.leb].
  rewrite Ht.
  destruct (for_inv (fun i e => kinv e (firstn i (opt_bumps o)))
    (fun i e => do c <- aget (ko_centers o) i; kexp_add 1 e 0 (kernel_gaussian (ko_scale o) (ko_width o) c))
    (length (ko_centers o))
    (mkkexp 1 0 (repeat 0 1) (repeat None 1) (- dbl_max) dbl_max false)) as (e & E & K).
  - split; [|cbn; repeat split; lia]. split; [reflexivity|]. intros [|i] t; discriminate.
  - intros i e Hi K. destruct (aget_lt (ko_centers o) i Hi) as (c & Hc & ->). cbn [obind].
    destruct (add_ok e _ (mkbump 0 (ko_scale o) (ko_width o * ko_width o) c) K) as (e' & E & K' & _).
    exists e'. split; [exact E|].
    replace (firstn (S i) (opt_bumps o))
      with (firstn i (opt_bumps o) ++ [mkbump 0 (ko_scale o) (ko_width o * ko_width o) c]); [exact K'|].
    symmetry. assert (Q : nth_error (opt_bumps o) i = Some (mkbump 0 (ko_scale o) (ko_width o * ko_width o) c)).
    { unfold opt_bumps. now rewrite nth_error_map, Hc. }
    clear - Q. revert i Q. generalize (opt_bumps o). induction l as [|h l IH]; intros [|i] Q; try discriminate.
    + injection Q as ->. reflexivity.
    + cbn [firstn app]. f_equal. now apply IH.
  - rewrite E. cbn [obind]. eexists. split; [reflexivity|].
    rewrite firstn_all2 in K by (unfold opt_bumps; rewrite map_length; lia).
    destruct K as ((A & B) & C). split; [|repeat split].
    split; [split; [exact A | exact B] | exact C].
Qed.
Print Assumptions C102_init.

(** a loop that writes entry i of an array at iteration i *)
Lemma write_loop {A} (h : nat -> A) (body : nat -> list A -> outcome (list A)) n l :
  (n <= length l)%nat ->
  (forall i l', (i < n)%nat -> length l' = length l ->
     (forall j, (i <= j)%nat -> nth_error l' j = nth_error l j) -> body i l' = Ok (upd l' i (h i))) ->
  exists l', for_ n body l = Ok l' /\ length l' = length l /\
    (forall j, (j < n)%nat -> nth_error l' j = Some (h j)) /\
    (forall j, (n <= j)%nat -> nth_error l' j = nth_error l j).
Proof.
  intros Hn Hb.
  destruct (for_inv (fun i l' => length l' = length l /\
    (forall j, (j < i)%nat -> nth_error l' j = Some (h j)) /\
    (forall j, (i <= j)%nat -> nth_error l' j = nth_error l j)) body n l) as (l' & E & P).
  - repeat split; auto. intros j Hj. lia.
  - intros i l' Hi (P1 & P2 & P3). exists (upd l' i (h i)). split; [now apply Hb|].
    rewrite upd_length. split; [exact P1|]. split; intros j Hj.
    + destruct (Nat.eq_dec j i) as [->|]; [rewrite nth_error_upd_same by lia; auto|].
      rewrite nth_error_upd_other by lia. apply P2. lia.
    + rewrite nth_error_upd_other by lia. apply P3. lia.
  - exists l'. auto.
Qed.

Lemma copy_first_ok n src dst : (n <= length src)%nat -> (n <= length dst)%nat ->
  exists d, copy_first n src dst = Ok d /\ length d = length dst /\
    (forall j, (j < n)%nat -> nth_error d j = nth_error src j).
Proof.
  intros H1 H2.
  destruct (write_loop (fun i => nth i src 0) (fun i d => do v <- aget src i; aset d i v) n dst H2) as (d & E & L & P & _).
  - intros i l' Hi Hl _. rewrite (aget_ok src i (nth i src 0)) by (apply nth_error_nth'; lia). cbn [obind].
    apply aset_ok. lia.
  - exists d. repeat split; auto. intros j Hj. rewrite P by lia. symmetry. apply nth_error_nth'. lia.
Qed.

(** Giving n parameters replaces the weights. *)
Theorem C102_update_weights e ts param : kinv e ts -> length param = length ts ->
  exists e', kexp_update_params e param = Ok e' /\
    kinv e' (map (fun p => with_a (snd p) (fst p)) (combine param ts)) /\
    e_lb e' = e_lb e /\ e_ub e' = e_ub e /\ e_inc e' = e_inc e.
Proof.
  intros ((Hn & H) & L1 & L2 & Ha & Hle) Hp.
  destruct (copy_first_ok (length param) param (e_coeff e)) as (d & Ed & Ld & Pd); [lia|lia|].
  exists (mkkexp (e_alloc e) (e_n e) d (e_kern e) (e_lb e) (e_ub e) (e_inc e)).
  split; [|split; [|repeat split]].
  - unfold kexp_update_params. rewrite Ed.
    destruct (Nat.eqb_spec (e_n e) (length param)); [|lia].
    destruct (Nat.eqb_spec (length param) (e_n e)); [|lia]. destruct (e_inc e); reflexivity.
  - split; [|cbn; repeat split; lia]. split; [cbn; rewrite map_length, combine_length; lia|].
    cbn. intros i t Hi. rewrite nth_error_map in Hi.
    destruct (nth_error (combine param ts) i) as [[a u]|] eqn:E; [|discriminate]. injection Hi as <-. cbn.
    assert (A : nth_error param i = Some a /\ nth_error ts i = Some u).
    { clear - E. revert ts i E. induction param as [|p param IH]; intros [|t ts] [|i] E; try discriminate.
      - injection E as -> ->. now split.
      - cbn in *. now apply IH. }
    destruct A as [A1 A2]. destruct (H i u A2) as [_ B]. split; [|exact B].
    rewrite Pd; [exact A1|]. apply nth_error_Some. congruence.
Qed.
Print Assumptions C102_update_weights.

(** With adaptive centres, giving 2n parameters replaces weights and centres. *)
Theorem C102_update_centres e ts ws cs : kinv e ts -> e_inc e = true -> ts <> [] ->
  length ws = length ts -> length cs = length ts ->
  exists e', kexp_update_params e (ws ++ cs) = Ok e' /\
    holds e' (map (fun p => with_c (with_a (snd p) (fst (fst p))) (snd (fst p))) (combine (combine ws cs) ts)).
Proof.
  intros ((Hn & H) & L1 & L2 & Ha & Hle) Hinc Hne Hw Hc.
  assert (0 < length ts)%nat by (destruct ts; [congruence | cbn; lia]).
  assert (Hd : (length (ws ++ cs) / 2 = length ts)%nat).
  { rewrite app_length, Hw, Hc. replace (length ts + length ts)%nat with (length ts * 2)%nat by lia.
    apply Nat.div_mul. lia. }
  destruct (copy_first_ok (length ts) (ws ++ cs) (e_coeff e)) as (d & Ed & Ld & Pd); [rewrite app_length; lia|lia|].
  destruct (write_loop (fun i => Some (gk (with_c (nth i ts (mkbump 0 0 0 0)) (nth i cs 0))))
    (fun i ks => do k <- pget ks i; do c <- aget (ws ++ cs) (i + length ts); do k <- kernel_update_center k c;
        aset ks i (Some k)) (length ts) (e_kern e)) as (ks & Ek & Lk & Pk & _); [lia| |].
  { intros i l' Hi Hl Hsame. specialize (Hsame i (le_n i)).
    assert (Q : nth_error ts i = Some (nth i ts (mkbump 0 0 0 0))) by (apply nth_error_nth'; lia).
    destruct (H i _ Q) as [_ B]. rewrite <- Hsame in B. rewrite (pget_some _ _ _ B). cbn [obind].
    rewrite (aget_ok (ws ++ cs) (i + length ts) (nth i cs 0)).
    2:{ rewrite nth_error_app2 by lia. replace (i + length ts - length ws)%nat with i by lia. apply nth_error_nth'. lia. }
    cbn. apply aset_ok. lia. }
  exists (mkkexp (e_alloc e) (length ts) d ks (e_lb e) (e_ub e) (e_inc e)). split.
  - unfold kexp_update_params. rewrite Hinc, Hd. cbn [negb].
    destruct (Nat.eqb_spec (length (ws ++ cs)) (e_n e)) as [X|X]; [rewrite app_length in X; lia|].
    destruct (Nat.eqb_spec (length ts) 0); [lia|]. cbn [negb cassert obind]. rewrite Ed. cbn [obind].
    rewrite Ek. reflexivity.
  - split; [cbn; rewrite map_length, !combine_length; lia|]. cbn. intros i t Hi.
    rewrite nth_error_map in Hi.
    destruct (nth_error (combine (combine ws cs) ts) i) as [[[a c] u]|] eqn:E; [|discriminate].
    injection Hi as <-. cbn.
    assert (Comb : forall X Y (l : list X) (m : list Y) i x y, nth_error (combine l m) i = Some (x, y) ->
       nth_error l i = Some x /\ nth_error m i = Some y).
    { clear. induction l as [|p l IH]; intros [|q m] [|i] x y E; try discriminate.
      - injection E as -> ->. now split.
      - cbn in *. now apply IH. }
    destruct (Comb _ _ _ _ _ _ _ E) as [E1 E2]. destruct (Comb _ _ _ _ _ _ _ E1) as [E3 E4].
    assert (i < length ts)%nat by (apply nth_error_Some; congruence). split.
    + rewrite Pd by lia. rewrite nth_error_app1 by lia. exact E3.
    + rewrite Pk by lia. rewrite (nth_error_nth _ _ _ E2), (nth_error_nth _ _ _ E4). reflexivity.
Qed.
Print Assumptions C102_update_centres.

(** ** C102 evaluation *)
Theorem C102_eval e ts x : holds e ts -> kexp_eval e x = Ok (kfun ts x).
Proof. apply eval_holds. Qed.
Print Assumptions C102_eval.

(** The function made from options and weights is the weighted sum of Gaussians. *)
Theorem C102_create dbl_max o ws : ko_type o = KernGauss -> length ws = length (ko_centers o) ->
  exists e0 e, kexp_init dbl_max o = Ok e0 /\ kexp_update_params e0 ws = Ok e /\
    e_lb e = ko_lb o /\ e_ub e = ko_ub o /\
    forall x, kexp_eval e x =
      Ok (sumF (fun p => fst p * (ko_scale o * exp (- ((x - snd p) * (x - snd p)) / (ko_width o * ko_width o))))
            (combine ws (ko_centers o))).
Proof.
  intros Ht Hl. destruct (C102_init dbl_max o Ht) as (e0 & E0 & K0 & B1 & B2 & _).
  destruct (C102_update_weights e0 (opt_bumps o) ws K0) as (e & E & K & C1 & C2 & _).
  { unfold opt_bumps. now rewrite map_length. }
  exists e0, e. rewrite C1, C2, B1, B2. repeat split; auto. intros x.
  rewrite (eval_holds e _ x (proj1 K)). f_equal. unfold kfun, opt_bumps. clear.
  revert ws. generalize (ko_centers o). induction l as [|c l IH]; intros [|a ws]; try reflexivity.
  cbn. cbn in IH. unfold sumF in *. rewrite IH. unfold bump_val. cbn. ring.
Qed.
Print Assumptions C102_create.

Theorem C102_evalN e ts N x incx y incy : holds e ts ->
  (0 < incy)%nat -> (forall i, (i < N)%nat -> (i * incx < length x)%nat /\ (i * incy < length y)%nat) ->
  exists y', kexp_evalN e N x incx y incy = Ok y' /\ length y' = length y /\
    (forall i, (i < N)%nat -> nth_error y' (i * incy) = Some (kfun ts (nth (i * incx) x 0))) /\
    (forall j, (forall i, (i < N)%nat -> j <> (i * incy)%nat) -> nth_error y' j = nth_error y j).
Proof.
  intros Hh Hy Hb. unfold kexp_evalN.
  destruct (for_inv (fun k y' => length y' = length y /\
    (forall i, (i < k)%nat -> nth_error y' (i * incy) = Some (kfun ts (nth (i * incx) x 0))) /\
    (forall j, (forall i, (i < k)%nat -> j <> (i * incy)%nat) -> nth_error y' j = nth_error y j))
    (fun i y => do a <- aget x (i * incx); do v <- kexp_eval e a; aset y (i * incy) v) N y) as (y' & E & P).
  - repeat split; auto. intros i Hi. lia.
  - intros i y' Hi (P1 & P2 & P3). destruct (Hb i Hi) as [B1 B2].
    rewrite (aget_ok x (i * incx) (nth (i * incx) x 0)) by (apply nth_error_nth'; lia). cbn [obind].
    rewrite (eval_holds e ts _ Hh). cbn [obind]. rewrite aset_ok by lia. eexists. split; [reflexivity|].
    rewrite upd_length. split; [exact P1|]. split.
    + intros k Hk. destruct (Nat.eq_dec k i) as [->|]; [rewrite nth_error_upd_same by lia; auto|].
      rewrite nth_error_upd_other by nia. apply P2. lia.
    + intros j Hj. rewrite nth_error_upd_other by (specialize (Hj i (le_n _)); lia).
      apply P3. intros k Hk. apply Hj. lia.
  - exists y'. tauto.
Qed.
Print Assumptions C102_evalN.

(** The derivative that is returned is the derivative of the function that is evaluated. *)
Theorem C102_deriv e ts x : holds e ts -> widths_pos ts ->
  exists d, kexp_deriv_eval e x = Ok d /\ derivable_pt_lim (kfun ts) x d.
Proof.
  intros Hh Hw. exists (sumF (fun t => b_a t * bump_slope t x) ts). split; [now apply deriv_holds|].
  unfold kfun. apply (sum_deriv (fun t y => b_a t * bump_val t y) (fun t x => b_a t * bump_slope t x)).
  intros t Ht. apply derivable_pt_lim_scal. apply bump_slope_ok. now apply Hw.
Qed.
Print Assumptions C102_deriv.

Lemma sumF_firstn_S {A} (F : A -> R) : forall (l : list A) i t, nth_error l i = Some t ->
  sumF F (firstn (S i) l) = sumF F (firstn i l) + F t.
Proof.
  induction l as [|h l IH]; intros [|i] t Ht; try discriminate.
  - injection Ht as ->. cbn. ring.
  - specialize (IH i t Ht).
    change (F h + sumF F (firstn (S i) l) = F h + sumF F (firstn i l) + F t). rewrite IH. ring.
Qed.

(** Value and gradient with respect to weights, and to centres when those adapt. *)
Theorem C102_param_grad e ts x grad : holds e ts -> widths_pos ts ->
  ((if e_inc e then 2 * length ts else length ts) <= length grad)%nat ->
  exists g, kexp_param_grad_eval2 e x grad = Ok (kfun ts x, g) /\
    forall i t, nth_error ts i = Some t ->
      (exists d, nth_error g i = Some d /\
         derivable_pt_lim (fun a => kfun (upd ts i (with_a t a)) x) (b_a t) d) /\
      (e_inc e = true -> exists d, nth_error g (i + length ts) = Some d /\
         derivable_pt_lim (fun c => kfun (upd ts i (with_c t c)) x) (b_c t) d).
Proof.
  intros [Hn H] Hw Hg.
  assert (D1 : forall i t, nth_error ts i = Some t ->
    derivable_pt_lim (fun a => kfun (upd ts i (with_a t a)) x) (b_a t) (bump_val t x)).
  { intros i t Hi.
    assert (Eq : forall a, kfun (upd ts i (with_a t a)) x = kfun ts x - b_a t * bump_val t x + a * bump_val t x).
    { intros a. unfold kfun. rewrite (sumF_upd _ _ _ _ _ Hi). reflexivity. }
    assert (Z : derivable_pt_lim (fun a => kfun ts x - b_a t * bump_val t x + a * bump_val t x) (b_a t) (bump_val t x)).
    { eapply dl_eq; [dl|]. cbv beta. ring. }
    intros eps He. destruct (Z eps He) as [del Hd]. exists del. intros h. rewrite !Eq. apply Hd. }
  assert (D2 : forall i t, nth_error ts i = Some t ->
    derivable_pt_lim (fun c => kfun (upd ts i (with_c t c)) x) (b_c t) (b_a t * - bump_slope t x)).
  { intros i t Hi.
    assert (Eq : forall c, kfun (upd ts i (with_c t c)) x = kfun ts x - b_a t * bump_val t x + b_a t * bump_val (with_c t c) x).
    { intros c. unfold kfun. rewrite (sumF_upd _ _ _ _ _ Hi). reflexivity. }
    assert (Z : derivable_pt_lim (fun c => kfun ts x - b_a t * bump_val t x + b_a t * bump_val (with_c t c) x) (b_c t) (b_a t * - bump_slope t x)).
    { eapply dl_eq.
      - apply (derivable_pt_lim_plus (fun _ => kfun ts x - b_a t * bump_val t x)); [apply dl_const|].
        apply derivable_pt_lim_scal. apply centre_slope. apply Hw. eapply nth_error_In; eauto.
      - ring. }
    intros eps He. destruct (Z eps He) as [del Hd]. exists del. intros h. rewrite !Eq. apply Hd. }
  set (n := length ts) in *.
  assert (Hgn : (n <= length grad)%nat) by (destruct (e_inc e); lia).
  (* first loop *)
  destruct (for_inv (fun k st => let (ev, g) := (st : R * list R) in
     ev = sumF (fun t => b_a t * bump_val t x) (firstn k ts) /\ length g = length grad /\
     forall i t, (i < k)%nat -> nth_error ts i = Some t -> nth_error g i = Some (bump_val t x))
    (fun j st => let (ev, g) := (st : R * list R) in
      do k <- pget (e_kern e) j; do v <- kernel_eval k x; do g <- aset g j v;
      do gj <- aget g j; do c <- aget (e_coeff e) j; Ok (ev + gj * c, g)) n (0, grad))
    as ((ev & g) & E & P1 & P2 & P3).
  { cbn. repeat split; auto. intros i t Hi. lia. }
  { intros i [ev g] Hi (P1 & P2 & P3).
    assert (Ht : exists t, nth_error ts i = Some t).
    { destruct (nth_error ts i) eqn:Q; [eauto|]. apply nth_error_None in Q. unfold n in Hi. lia. }
    destruct Ht as [t Ht]. destruct (H i t Ht) as [H1 H2].
    rewrite (pget_some _ _ _ H2). cbn [obind]. rewrite keval_gk. cbn [obind].
    rewrite aset_ok by lia. cbn [obind].
    rewrite (aget_ok _ _ (bump_val t x)) by (apply nth_error_upd_same; lia). cbn [obind].
    rewrite (aget_ok _ _ _ H1). cbn [obind]. eexists. split; [reflexivity|].
    split; [|split].
    - rewrite P1, (sumF_firstn_S _ _ _ _ Ht). ring.
    - rewrite upd_length. exact P2.
    - intros j u Hj Hu. destruct (Nat.eq_dec j i) as [->|].
      + rewrite nth_error_upd_same by lia. congruence.
      + rewrite nth_error_upd_other by lia. apply P3; [lia | exact Hu]. }
  unfold n in P1; rewrite firstn_all in P1. unfold kexp_param_grad_eval2. rewrite Hn. fold n. rewrite E. cbn [obind].
  destruct (e_inc e) eqn:Einc.
  - destruct (for_inv (fun k g' => length g' = length grad /\
      (forall i, (i < n)%nat -> nth_error g' i = nth_error g i) /\
      forall i t, (i < k)%nat -> nth_error ts i = Some t -> nth_error g' (i + n) = Some (b_a t * - bump_slope t x))
      (fun j g => do c <- aget (e_coeff e) j; do k <- pget (e_kern e) j; do v <- kernel_grad_center k x;
        aset g (j + n) (c * v)) n g) as (g' & E' & Q1 & Q2 & Q3).
    { repeat split; auto. intros i t Hi. lia. }
    { intros i g' Hi (Q1 & Q2 & Q3).
      assert (Ht : exists t, nth_error ts i = Some t).
      { destruct (nth_error ts i) eqn:Q; [eauto|]. apply nth_error_None in Q. unfold n in Hi. lia. }
      destruct Ht as [t Ht]. destruct (H i t Ht) as [H1 H2].
      rewrite (aget_ok _ _ _ H1). cbn [obind]. rewrite (pget_some _ _ _ H2). cbn [obind].
      rewrite kgc_gk by (apply Hw; eapply nth_error_In; eauto). cbn [obind].
      rewrite aset_ok by lia. eexists. split; [reflexivity|]. rewrite upd_length. split; [exact Q1|]. split.
      - intros j Hj. rewrite nth_error_upd_other by lia. now apply Q2.
      - intros j u Hj Hu. destruct (Nat.eq_dec j i) as [->|].
        + rewrite nth_error_upd_same by lia. congruence.
        + rewrite nth_error_upd_other by lia. apply Q3; [lia | exact Hu]. }
    rewrite E'. cbn [obind]. exists g'. split; [rewrite P1; reflexivity|].
    intros i t Hi. assert (Hin : (i < n)%nat) by (apply nth_error_Some; congruence). split.
    + exists (bump_val t x). split; [rewrite Q2 by lia; now apply P3 | now apply D1].
    + intros _. exists (b_a t * - bump_slope t x). split; [now apply Q3 | now apply D2].
  - exists g. split; [rewrite P1; reflexivity|].
    intros i t Hi. assert (Hin : (i < n)%nat) by (apply nth_error_Some; congruence). split; [|discriminate].
    exists (bump_val t x). split; [now apply P3 | now apply D1].
Qed.
Print Assumptions C102_param_grad.

(** With adaptive centres the number of kernels silently becomes half the number of
    parameters given: two kernels, three parameters, and one kernel is left. *)
Theorem C102_update_refuted : exists e ts param e',
  kinv e ts /\ e_inc e = true /\ length ts = 2%nat /\ length param = 3%nat /\
  kexp_update_params e param = Ok e' /\ e_n e' = 1%nat.
Proof.
  set (ts := [mkbump 1 1 1 0; mkbump 1 1 1 1]).
  exists (mkkexp 2 2 [1; 1] [Some (gk (mkbump 1 1 1 0)); Some (gk (mkbump 1 1 1 1))] 0 1 true), ts, [5; 6; 7].
  eexists. split; [|cbn; repeat split; reflexivity].
  split; [|cbn; repeat split; lia]. split; [reflexivity|].
  intros [|[|i]] t Hi; try (injection Hi as <-; cbn; now split). destruct i; discriminate.
Qed.
Print Assumptions C102_update_refuted.

(** a case for the theorems above *)
Example C102_example : exists e0 e, kexp_init 1000 (mkkopts KernGauss [0; 1; 3] 2 (1 / 2) (- 1) 4 false) = Ok e0 /\
  kexp_update_params e0 [1; 0; 5] = Ok e /\ kexp_eval e 1 =
  Ok (1 * (2 * exp (- ((1 - 0) * (1 - 0)) / (1 / 2 * (1 / 2)))) + (0 * (2 * exp (- ((1 - 1) * (1 - 1)) / (1 / 2 * (1 / 2))))
     + (5 * (2 * exp (- ((1 - 3) * (1 - 3)) / (1 / 2 * (1 / 2)))) + 0))).
Proof.
  destruct (C102_create 1000 (mkkopts KernGauss [0; 1; 3] 2 (1 / 2) (- 1) 4 false) [1; 0; 5] eq_refl eq_refl)
    as (e0 & e & E0 & E & _ & _ & V). exists e0, e. repeat split; auto. rewrite V. reflexivity.
Qed.
