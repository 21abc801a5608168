(** Proofs about piecewise approximation, fixed and adaptive. *)
From Coq Require Import Reals Lra Lia.
From Verif Require Import Base BaseFacts FOps PwModel PwSpec PwFacts PwMatch.
Open Scope R_scope.

Section Adapt.
  Context {L : Type} (K : leafops L).
  Notation lb := (l_lb K).
  Notation ub := (l_ub K).
  Context (f : R -> outcome R) (coeff : L -> nat -> R).

  Lemma tiles_app u a b v : tiles lb ub u (a ++ b) v <-> exists p, tiles lb ub u a p /\ tiles lb ub p b v.
  Proof.
    revert u; induction a as [|l r IH]; intros u; simpl.
    - split; [intros H; exists u; auto|intros (p & -> & H); auto].
    - split.
      + intros (H1 & H2 & H3). apply IH in H3. destruct H3 as (p & H3 & H4). exists p; auto.
      + intros (p & (H1 & H2 & H3) & H4). repeat split; auto. apply IH. exists p; auto.
  Qed.

  (** a loop that makes a leaf for every interval of a grid *)
  Lemma fit_loop (g : R -> R -> outcome L) (P : R -> R -> L -> Prop) u m v : up u m v ->
    (forall c d, c < d -> exists l, g c d = Ok l /\ lb l = c /\ ub l = d /\ P c d l) ->
    exists ls, for_ (length m) (fun ii bs =>
        do a <- aget (u :: m) ii; do b <- aget (u :: m) (ii + 1); do l <- g a b; Ok (bs ++ Leaf l :: nil)) nil = Ok (map Leaf ls) /\
      tiles lb ub u ls v /\ map ub ls = m /\ Forall (fun l => P (lb l) (ub l) l) ls.
  Proof.
    intros Hup Hg.
    assert (G : forall m u pre ls0, up u m v -> length pre = length ls0 ->
      exists ls, for_from (length pre) (length m) (fun ii bs =>
        do a <- aget (pre ++ u :: m) ii; do b <- aget (pre ++ u :: m) (ii + 1); do l <- g a b; Ok (bs ++ Leaf l :: nil)) (map Leaf ls0) = Ok (map Leaf (ls0 ++ ls)) /\
      tiles lb ub u ls v /\ map ub ls = m /\ Forall (fun l => P (lb l) (ub l) l) ls).
    { clear u m Hup. induction m as [|d m IH]; intros u pre ls0 Hup Hlen.
      - exists nil. simpl. rewrite app_nil_r. auto.
      - simpl in Hup. destruct Hup as [H1 H2]. destruct (Hg u d H1) as (l & El & L1 & L2 & L3).
        destruct (IH d (pre ++ u :: nil) (ls0 ++ l :: nil)) as (ls & E & T & M & F); auto; [rewrite !app_length; simpl; lia|].
        exists (l :: ls). split.
        + cbn [length for_from]. rewrite (aget_ok _ _ u) by (rewrite nth_error_app2, Nat.sub_diag by lia; reflexivity). cbn [obind].
          rewrite (aget_ok _ _ d) by (rewrite nth_error_app2 by lia; replace (length pre + 1 - length pre)%nat with 1%nat by lia; reflexivity).
          cbn [obind]. rewrite El. cbn [obind].
          rewrite <- !app_assoc in E. cbn [app] in E. rewrite app_length in E. simpl length in E. rewrite Nat.add_1_r in E.
          rewrite map_app in E. exact E.
        + simpl. rewrite L1, L2, M. repeat split; auto. constructor; auto. rewrite L1, L2; auto. }
    destruct (G m u nil nil Hup eq_refl) as (ls & E & H). exists ls. split; auto.
  Qed.

  Lemma upd_at {A} (pre : list A) x post i y : length pre = i -> upd (pre ++ x :: post) i y = pre ++ y :: post.
  Proof. intros <-. rewrite <- (Nat.add_0_r (length pre)), upd_app_r. reflexivity. Qed.

  (** equally spaced nodes *)
  Definition node (a b : R) (k i : nat) : R := INR i * ((b - a) / INR k) + a.
  Lemma linspace_ok a b k : (1 <= k)%nat -> rlinspace a b (k + 1) = Ok (map (node a b k) (seq 0 (k + 1))).
  Proof.
    intros Hk. unfold rlinspace. destruct (Nat.eqb_spec (k + 1) 0); [lia|]. replace (k + 1 - 1)%nat with k by lia.
    assert (Hr : node a b k k = b). { unfold node. field. apply not_0_INR. lia. }
    assert (G : forall i, (i <= k)%nat -> for_ i (fun ii a0 => aset a0 ii (INR ii * ((b - a) / INR k) + a)) (repeat 0 (k + 1)) =
      Ok (map (node a b k) (seq 0 i) ++ repeat 0 (k + 1 - i))).
    { induction i as [|i IH]; intros Hi; [simpl; rewrite Nat.sub_0_r; reflexivity|]. rewrite for_S, IH by lia. cbn [obind].
      rewrite aset_ok by (rewrite app_length, map_length, seq_length, repeat_length; lia). f_equal.
      replace (k + 1 - i)%nat with (S (k - i)) by lia. cbn [repeat].
      rewrite upd_at by (rewrite map_length, seq_length; lia). rewrite seq_S, map_app, <- app_assoc. simpl. do 3 f_equal. replace (k + 1 - S i)%nat with (k - i)%nat by lia. reflexivity. }
    rewrite G by lia. cbn [obind]. replace (k + 1 - k)%nat with 1%nat by lia. cbn [repeat].
    rewrite aset_ok by (rewrite app_length, map_length, seq_length; simpl; lia). f_equal.
    rewrite upd_at by (rewrite map_length, seq_length; lia). rewrite Nat.add_1_r, seq_S, map_app. simpl. rewrite Hr. reflexivity.
  Qed.
  Lemma nodes_up a b k : (1 <= k)%nat -> a < b -> exists m, map (node a b k) (seq 0 (k + 1)) = a :: m /\ up a m b /\ length m = k /\
    forall pre c d post, a :: m = pre ++ c :: d :: post -> d - c = (b - a) / INR k.
  Proof.
    intros Hk Hab. assert (Hpos : 0 < INR k) by (apply lt_0_INR; lia).
    assert (Hd : 0 < (b - a) / INR k) by (apply Rdiv_lt_0_compat; lra).
    assert (Hstep : forall i, node a b k (S i) = node a b k i + (b - a) / INR k) by (intros i; unfold node; rewrite S_INR; lra).
    exists (map (node a b k) (seq 1 k)). rewrite Nat.add_1_r. cbn [seq map].
    assert (H0 : node a b k 0 = a) by (unfold node; simpl; lra). rewrite H0. split; [reflexivity|].
    assert (Hr : node a b k k = b). { unfold node. field. lra. }
    split; [|split; [rewrite map_length, seq_length; auto|]].
    - assert (G : forall n i, up (node a b k i) (map (node a b k) (seq (S i) n)) (node a b k (i + n))).
      { induction n as [|n IH]; intros i; simpl; [rewrite Nat.add_0_r; auto|]. split; [rewrite Hstep; lra|]. replace (i + S n)%nat with (S i + n)%nat by lia. apply IH. }
      specialize (G k 0%nat). rewrite H0, Nat.add_0_l, Hr in G. exact G.
    - intros pre c d post E.
      assert (G : forall n i pre c d post, map (node a b k) (seq i n) = pre ++ c :: d :: post -> d - c = (b - a) / INR k).
      { clear E pre c d post. induction n as [|n IH]; intros i [|p pre] c d post E; simpl in E; try discriminate.
        - destruct n as [|n]; [discriminate|]. simpl in E. injection E as <- <- _. rewrite Hstep. lra.
        - injection E as _ E. eapply IH; exact E. }
      apply (G (S k) 0%nat pre c d post). cbn [seq map]. rewrite H0. exact E.
  Qed.

  Section Fixed.
    Context (o : pwopts).
    Notation N := (q_maxorder o + 1)%nat.
    Context (Hfit : forall c d, c < d -> exists l, l_fit K N c d f = Ok l /\ lb l = c /\ ub l = d /\
      forall k, (k < N)%nat -> l_coeff K l k = Ok (coeff l k)).

    Definition fitted (l : L) : Prop := l_fit K N (lb l) (ub l) f = Ok l /\ forall k, (k < N)%nat -> l_coeff K l k = Ok (coeff l k).

    Lemma fitP c d : c < d -> exists l, l_fit K N c d f = Ok l /\ lb l = c /\ ub l = d /\ fitted l.
    Proof. intros H. destruct (Hfit c d H) as (l & E & H1 & H2 & H3). exists l. unfold fitted. rewrite H1, H2. auto. Qed.

    Lemma approx_nodes b c m v : q_nregions o <> 1%nat -> up c m v ->
      (match q_pts o with None => rlinspace b v (q_nregions o + 1) = Ok (c :: m) | Some pts => pts = c :: m end) ->
      exists ls, pw_approx1 K (q_bounds o b v) f = Ok (Node (map Leaf ls)) /\ tiles lb ub c ls v /\ map ub ls = m /\ Forall fitted ls.
    Proof.
      intros Hr Hup Hpts. unfold pw_approx1. cbn [q_maxorder q_nregions q_lb q_ub q_pts q_bounds].
      destruct (Nat.eqb_spec (q_nregions o) 1); [congruence|].
      destruct (fit_loop (fun c d => l_fit K N c d f) (fun _ _ l => fitted l) c m v Hup fitP) as (ls & E & H).
      exists ls. split; [|tauto].
      destruct (q_pts o) as [pts|].
      - subst pts. cbn [length Nat.eqb obind]. rewrite Nat.sub_succ, Nat.sub_0_r, E. reflexivity.
      - rewrite Hpts. cbn [obind length]. rewrite Nat.sub_succ, Nat.sub_0_r, E. reflexivity.
    Qed.

    Lemma approx_regions c d : (2 <= q_nregions o)%nat -> q_pts o = None -> c < d ->
      exists ls, pw_approx1 K (q_bounds o c d) f = Ok (Node (map Leaf ls)) /\ tiles lb ub c ls d /\ Forall fitted ls /\ ls <> nil /\
        Forall (fun l => ub l - lb l = (d - c) / INR (q_nregions o)) ls.
    Proof.
      intros Hr Hp Hcd. destruct (nodes_up c d (q_nregions o)) as (m & E & Hup & Hl & Hw); [lia|auto|].
      destruct (approx_nodes c c m d) as (ls & Ea & T & M & F); [lia|auto| |].
      { rewrite Hp, linspace_ok by lia. rewrite E. reflexivity. }
      exists ls. repeat split; auto.
      - intros ->. simpl in M. subst m. simpl in Hl. lia.
      - apply Forall_forall. intros l Hin. apply in_split in Hin. destruct Hin as (l1 & l2 & ->).
        apply tiles_app in T. destruct T as (p & T1 & T2). simpl in T2. destruct T2 as (T2 & _ & _). rewrite T2.
        rewrite map_app in M. simpl in M.
        assert (Hpre : exists pre, c :: map ub l1 = pre ++ p :: nil).
        { clear - T1. revert c T1. induction l1 as [|k r IH]; simpl; intros c T1; [exists nil; subst; auto|].
          destruct T1 as (_ & _ & T1). destruct (IH _ T1) as (pre & Ep). exists (c :: pre). rewrite Ep. reflexivity. }
        destruct Hpre as (pre & Ep). apply (Hw pre p (ub l) (map ub l2)).
        rewrite <- M. change (c :: map ub l1 ++ ub l :: map ub l2) with ((c :: map ub l1) ++ ub l :: map ub l2). rewrite Ep, <- app_assoc. reflexivity.
    Qed.

    (** the check of the last coefficients *)
    Lemma tail_ok l n bound : (n <= N)%nat -> fitted l -> exists b, tail_big K l N n bound = Ok b /\
      (b = false -> forall jj, (jj < n)%nat -> (coeff l (N - 1 - jj)) * (coeff l (N - 1 - jj)) <= bound) /\
      (b = true -> exists jj, (jj < n)%nat /\ bound < (coeff l (N - 1 - jj)) * (coeff l (N - 1 - jj))).
    Proof.
      intros Hn [_ Hc]. unfold tail_big.
      apply (for_inv (fun i b => (b = false -> forall jj, (jj < i)%nat -> (coeff l (N - 1 - jj)) * (coeff l (N - 1 - jj)) <= bound) /\
        (b = true -> exists jj, (jj < i)%nat /\ bound < (coeff l (N - 1 - jj)) * (coeff l (N - 1 - jj))))).
      - split; [intros _ jj Hj; lia|discriminate].
      - intros i b Hi [I1 I2]. destruct b.
        + exists true. split; auto. split; [discriminate|]. intros _. destruct I2 as (jj & Hj & Hb); auto. exists jj; split; auto; lia.
        + rewrite Hc by lia. cbn [obind]. eexists; split; [reflexivity|].
          destruct (Rltb_spec bound (coeff l (N - 1 - i) * coeff l (N - 1 - i))) as [Hb|Hb]; (split; [intros Hf|intros Hf]); try discriminate.
          * exists i; split; auto; lia.
          * intros jj Hj. destruct (Nat.eq_dec jj i) as [->|]; [lra|]. apply I1; auto; lia.
    Qed.

    (** the decision of one round about one piece *)
    Definition chk (l : L) : outcome bool :=
      if (Rltb (ub l - lb l) (q_minsize o) || (q_nregions o =? 1)%nat)%bool then Ok false
      else tail_big K l N (ncheck o N) (q_eps o * 1).
    Lemma ncheck_le n : (ncheck o n <= n)%nat.
    Proof. unfold ncheck. destruct (Nat.ltb_spec (q_check o) n); lia. Qed.
    Lemma chk_ok l : fitted l -> exists b, chk l = Ok b.
    Proof.
      intros H. unfold chk. destruct (_ || _)%bool; [eauto|].
      destruct (tail_ok l (ncheck o N) (q_eps o * 1) (ncheck_le N) H) as (b & E & _). eauto.
    Qed.

    (** a piece that is not refined any more *)
    Definition finished (l : L) : Prop := ub l - lb l < q_minsize o \/
      forall jj, (jj < q_check o)%nat -> (jj < N)%nat -> (coeff l (N - 1 - jj)) * (coeff l (N - 1 - jj)) <= q_eps o.
    Lemma chk_false l : (2 <= q_nregions o)%nat -> fitted l -> chk l = Ok false -> finished l.
    Proof.
      intros Hr H. unfold chk. destruct (Rltb_spec (ub l - lb l) (q_minsize o)) as [Hs|Hs]; [left; auto|].
      destruct (Nat.eqb_spec (q_nregions o) 1); [lia|]. cbn [orb].
      destruct (tail_ok l (ncheck o N) (q_eps o * 1) (ncheck_le N) H) as (b & E & Hb & _). rewrite E. intros Eb. injection Eb as ->.
      right. intros jj Hj Hj'. rewrite <- (Rmult_1_r (q_eps o)). apply Hb; auto. unfold ncheck. destruct (Nat.ltb_spec (q_check o) N); lia.
    Qed.

    Context (Hr : (2 <= q_nregions o)%nat) (Hpts : q_pts o = None) (Hms : 0 < q_minsize o).
    Notation k := (INR (q_nregions o)).
    Lemma k2 : 2 <= k. Proof. change 2 with (INR 2). apply le_INR; auto. Qed.

    (** one round *)
    Lemma round_ok u v ls : q_lb o = u -> q_ub o = v -> tiles lb ub u ls v -> Forall fitted ls ->
      exists bs once, for_ (length (branches (Node (map Leaf ls)))) (fun ii s =>
          let '(bs, o, once) := s in
          do b <- aget (branches (Node (map Leaf ls))) ii;
          do _ <- cassert (is_leaf b);
          do lb <- pw_lb K b;
          do ub <- pw_ub K b;
          do refine <- (if (Rltb (ub - lb) (q_minsize o) || (q_nregions o =? 1)%nat)%bool then Ok false
                        else do l <- leaf_of b; tail_big K l N (ncheck o N) (q_eps o * 1));
          if refine : bool then
            do c <- pw_approx1 K (q_bounds o lb ub) f;
            Ok (bs ++ c :: nil, q_bounds o u v, true)
          else Ok (bs ++ b :: nil, o, once)) (nil, o, false) = Ok (bs, o, once) /\
        length bs = length ls /\
        let ls' := flat_map pieces bs in
        tiles lb ub u ls' v /\ Forall fitted ls' /\
        Forall (fun l' => (In l' ls /\ chk l' = Ok false) \/ exists l, In l ls /\ chk l = Ok true /\ ub l' - lb l' = (ub l - lb l) / k) ls' /\
        (once = false -> ls' = ls /\ Forall (fun l => chk l = Ok false) ls).
    Proof.
      intros Hu Hv T F. assert (Ho : q_bounds o u v = o) by (destruct o; simpl in *; subst; auto).
      cbn [branches].
      destruct (for_inv (fun i s => let '(bs, o', once) := s in o' = o /\ length bs = i /\ exists p, tiles lb ub u (firstn i ls) p /\
          tiles lb ub u (flat_map pieces bs) p /\ Forall fitted (flat_map pieces bs) /\
          Forall (fun l' => (In l' ls /\ chk l' = Ok false) \/ exists l, In l ls /\ chk l = Ok true /\ ub l' - lb l' = (ub l - lb l) / k) (flat_map pieces bs) /\
          (once = false -> flat_map pieces bs = firstn i ls /\ Forall (fun l => chk l = Ok false) (firstn i ls)))
        (fun ii s => let '(bs, o, once) := s in
          do b <- aget (map Leaf ls) ii;
          do _ <- cassert (is_leaf b);
          do lb <- pw_lb K b;
          do ub <- pw_ub K b;
          do refine <- (if (Rltb (ub - lb) (q_minsize o) || (q_nregions o =? 1)%nat)%bool then Ok false
                        else do l <- leaf_of b; tail_big K l N (ncheck o N) (q_eps o * 1));
          if refine : bool then
            do c <- pw_approx1 K (q_bounds o lb ub) f;
            Ok (bs ++ c :: nil, q_bounds o u v, true)
          else Ok (bs ++ b :: nil, o, once)) (length (map Leaf ls)) (nil, o, false)) as (s & E & H).
      - split; auto. split; auto. exists u. simpl. repeat split; auto.
      - rewrite map_length. intros i ((bs, o'), once) Hi (-> & Hlen & p & T1 & T2 & F2 & Q & Hon).
        destruct (nth_error ls i) as [l|] eqn:El; [|apply nth_error_None in El; lia].
        assert (Hsplit : ls = firstn i ls ++ l :: skipn (S i) ls /\ firstn (S i) ls = firstn i ls ++ l :: nil).
        { clear - El. revert i El; induction ls as [|a r IH]; intros [|i] El; simpl in *; try discriminate; [injection El as ->; auto|].
          destruct (IH i El) as [E1 E2]. split; f_equal; auto. }
        destruct Hsplit as [Hs1 Hs2]. rewrite Hs2.
        assert (Hl : In l ls) by (eapply nth_error_In; eauto).
        assert (Fl : fitted l) by (rewrite Forall_forall in F; auto).
        assert (Hlp : lb l = p /\ lb l < ub l).
        { pose proof T as T'. rewrite Hs1 in T'. apply tiles_app in T'. destruct T' as (p' & T3 & T4). simpl in T4.
          assert (p' = p); [|subst; tauto]. clear - T1 T3. revert u T1 T3. induction (firstn i ls) as [|a r IH]; simpl; intros u T1 T3; [congruence|].
          eapply IH; [apply T1|apply T3]. }
        destruct Hlp as [Hlp Hlt].
        rewrite (aget_ok _ _ (Leaf l)) by (rewrite nth_error_map, El; reflexivity). cbn [obind is_leaf cassert pw_lb pw_ub leaf_of].
        change (if (Rltb (ub l - lb l) (q_minsize o) || (q_nregions o =? 1)%nat)%bool then Ok false else tail_big K l N (ncheck o N) (q_eps o * 1)) with (chk l).
        destruct (chk_ok l Fl) as (b & Eb). rewrite Eb. cbn [obind]. destruct b.
        + destruct (approx_regions (lb l) (ub l) Hr Hpts Hlt) as (sub & Es & Ts & Fs & Ns & Ws). rewrite Es. cbn [obind].
          eexists; split; [reflexivity|]. rewrite Ho. split; auto. split; [rewrite app_length; simpl; lia|].
          exists (ub l). rewrite flat_map_app. cbn [flat_map pieces]. rewrite flat_leaves, app_nil_r.
          repeat split.
          * apply tiles_app. exists p. split; auto. simpl. auto.
          * apply tiles_app. exists p. split; auto. rewrite <- Hlp. auto.
          * apply Forall_app; auto.
          * apply Forall_app. split; auto. eapply Forall_impl; [|exact Ws]. cbv beta. intros l' E'. right. exists l. auto.
          * discriminate.
          * discriminate.
        + eexists; split; [reflexivity|]. split; auto. split; [rewrite app_length; simpl; lia|].
          exists (ub l). rewrite flat_map_app. cbn [flat_map pieces]. rewrite app_nil_r.
          repeat split.
          * apply tiles_app. exists p. split; auto. simpl. auto.
          * apply tiles_app. exists p. split; auto. simpl. auto.
          * apply Forall_app; auto.
          * apply Forall_app. split; auto.
          * f_equal. apply Hon; auto.
          * apply Forall_app. split; [apply Hon; auto|auto].
      - destruct s as ((bs, o'), once). destruct H as (-> & Hlen & p & T1 & T2 & F2 & Q & Hon). exists bs, once.
        rewrite map_length in *. rewrite firstn_all in *.
        assert (p = v). { clear - T T1. revert u T T1. induction ls as [|a r IH]; simpl; intros u T1 T3; [congruence|]. eapply IH; [apply T1|apply T3]. }
        subst p. split; [exact E|]. split; auto.
    Qed.

    (** what holds of the result *)
    Definition adapted (u v : R) (ls : list L) : Prop :=
      tiles lb ub u ls v /\ Forall fitted ls /\ Forall finished ls /\ Forall (fun l => q_minsize o / k <= ub l - lb l) ls.

    Lemma help_ok r : forall fuel u v ls, q_lb o = u -> q_ub o = v -> ls <> nil -> tiles lb ub u ls v -> Forall fitted ls ->
      Forall (fun l => q_minsize o / k <= ub l - lb l) ls ->
      Forall (fun l => chk l = Ok true -> ub l - lb l < q_minsize o * k ^ r) ls -> (r < fuel)%nat ->
      exists ls', adapt_help K fuel (Node (map Leaf ls)) o f = Ok (Node (map Leaf ls'), o) /\ adapted u v ls'.
    Proof.
      assert (Hk := k2).
      induction r as [|r IH]; intros [|fuel] u v ls Hu Hv Hne T F Hmin Hw Hf; try lia.
      all: cbn [adapt_help].
      all: destruct (pw_lb_first K (Node (map Leaf ls)) (proper_leaves _ Hne)) as (l0 & r0 & E0 & Elb).
      all: destruct (pw_ub_last K (Node (map Leaf ls)) (proper_leaves _ Hne)) as (l1 & r1 & E1 & Eub).
      all: simpl pieces in E0, E1; rewrite flat_leaves in E0, E1.
      all: assert (Hlb0 : lb l0 = u) by (rewrite E0 in T; simpl in T; tauto).
      all: assert (Hub1 : ub l1 = v) by (rewrite E1 in T; apply tiles_app in T; destruct T as (p & _ & T); simpl in T; tauto).
      all: rewrite Elb, Eub, Hlb0, Hub1; cbn [obind is_leaf negb cassert].
      all: destruct (round_ok u v ls Hu Hv T F) as (bs & once & E & Hlen & T' & F' & Q & Hon); rewrite E; cbn [obind].
      all: rewrite flatten_form; cbn [pieces].
      all: assert (Hdone : once = false -> exists ls', Node (map Leaf (flat_map pieces bs)) = Node (map Leaf ls') /\ adapted u v ls').
      1,3: intros Ho; destruct (Hon Ho) as [-> Hc]; exists ls; split; auto; repeat split; auto;
           apply Forall_forall; intros l Hl; rewrite Forall_forall in Hc, F; apply chk_false; auto.
      all: destruct once; [|destruct (Hdone eq_refl) as (ls' & -> & Ha); exists ls'; auto].
      - (* nothing is wide enough *)
        exfalso. clear Hdone.
        assert (Hall : Forall (fun l => chk l = Ok false) ls).
        { apply Forall_forall. intros l Hl. rewrite Forall_forall in Hw, F. destruct (chk_ok l (F l Hl)) as (b & Eb). destruct b; auto. exfalso.
          specialize (Hw l Hl Eb). simpl in Hw. unfold chk in Eb. rewrite Rltb_t in Eb by lra. discriminate. }
        assert (Hnot : forall l, In l ls -> chk l <> Ok true) by (intros l Hl; rewrite Forall_forall in Hall; rewrite (Hall l Hl); discriminate).
        clear - E Hnot F. revert E.
        assert (G : forall i s, (i <= length ls)%nat -> for_ i (fun ii s =>
          let '(bs, o, once) := s in
          do b <- aget (branches (Node (map Leaf ls))) ii;
          do _ <- cassert (is_leaf b);
          do lb <- pw_lb K b;
          do ub <- pw_ub K b;
          do refine <- (if (Rltb (ub - lb) (q_minsize o) || (q_nregions o =? 1)%nat)%bool then Ok false
                        else do l <- leaf_of b; tail_big K l N (ncheck o N) (q_eps o * 1));
          if refine : bool then
            do c <- pw_approx1 K (q_bounds o lb ub) f;
            Ok (bs ++ c :: nil, q_bounds o u v, true)
          else Ok (bs ++ b :: nil, o, once)) (nil, o, false) = Ok s -> snd s = false /\ snd (fst s) = o).
        { induction i as [|i IH]; intros s Hi; [intros E; injection E as <-; auto|]. rewrite for_S. intros (((bs1, o1), once1) & F1 & F2)%obind_ok.
          destruct (IH _ ltac:(lia) F1) as [G1 G2]. simpl in G1, G2. subst once1 o1.
          destruct (nth_error ls i) as [l|] eqn:El; [|apply nth_error_None in El; lia].
          assert (Hl : In l ls) by (eapply nth_error_In; eauto).
          cbn [branches] in F2. rewrite (aget_ok _ _ (Leaf l)) in F2 by (rewrite nth_error_map, El; reflexivity). cbn [obind is_leaf cassert pw_lb pw_ub leaf_of] in F2.
          change (if (Rltb (ub l - lb l) (q_minsize o) || (q_nregions o =? 1)%nat)%bool then Ok false else tail_big K l N (ncheck o N) (q_eps o * 1)) with (chk l) in F2.
          rewrite Forall_forall in F. destruct (chk_ok l (F l Hl)) as (b & Eb). rewrite Eb in F2. destruct b; [destruct (Hnot l Hl Eb)|].
          cbn [obind] in F2. injection F2 as <-. auto. }
        intros E. apply G in E; [destruct E as [E _]; discriminate|]. cbn [branches]. rewrite map_length. auto.
      - (* another round *)
        clear Hdone. assert (Hne' : flat_map pieces bs <> nil).
        { intros En. rewrite En in T'. simpl in T'. destruct ls as [|a q]; [congruence|]. simpl in T. destruct T as (A1 & A2 & A3). apply tiles_le in A3. lra. }
        destruct (IH fuel u v (flat_map pieces bs)) as (ls' & Els & Ha); auto; [| |lia|eauto].
        + apply Forall_forall. intros l' Hl'. rewrite Forall_forall in Q, Hmin. destruct (Q l' Hl') as [[Hl _]|(l & Hl & Hc & Hwd)]; [auto|].
          rewrite Hwd. unfold chk in Hc. destruct (Rltb_spec (ub l - lb l) (q_minsize o)) as [Hs|Hs]; [discriminate|].
          apply Rmult_le_compat_r; [left; apply Rinv_0_lt_compat; lra|lra].
        + apply Forall_forall. intros l' Hl' Hc'. rewrite Forall_forall in Q, Hw. destruct (Q l' Hl') as [[_ Hl]|(l & Hl & Hc & Hwd)]; [congruence|].
          rewrite Hwd. specialize (Hw l Hl Hc). simpl in Hw. apply Rmult_lt_reg_r with k; [lra|]. unfold Rdiv. rewrite Rmult_assoc, Rinv_l by lra. lra.
    Qed.

    Lemma pow_big (c : R) : exists r, c < q_minsize o * k ^ r.
    Proof.
      assert (Hk := k2). destruct (Pow_x_infinity k ltac:(rewrite Rabs_pos_eq by lra; lra) (c / q_minsize o + 1)) as (r & Hpow).
      exists r. specialize (Hpow r (le_n _)). rewrite Rabs_pos_eq in Hpow by (apply pow_le; lra).
      apply Rge_le in Hpow. apply (Rmult_le_compat_l (q_minsize o)) in Hpow; [|lra]. rewrite Rmult_plus_distr_l in Hpow.
      unfold Rdiv in Hpow. rewrite (Rmult_comm c), <- Rmult_assoc, Rinv_r in Hpow by lra. lra.
    Qed.

    Theorem adapt_ok : q_lb o < q_ub o -> exists n, forall fuel, (n <= fuel)%nat -> exists t,
      pw_approx1_adapt K fuel o f = Ok (t, o) /\ on K (q_lb o) (q_ub o) t /\
      ((exists l, t = Leaf l /\ fitted l /\ (ub l - lb l < q_minsize o \/
          forall jj, (jj < q_check o)%nat -> (jj < N)%nat -> (coeff l (N - 1 - jj)) * (coeff l (N - 1 - jj)) <= q_eps o * fold_right Rplus 0 (map (fun i => coeff l i * coeff l i) (seq 0 N)))) \/
       (exists ls, t = Node (map Leaf ls) /\ adapted (q_lb o) (q_ub o) ls)).
    Proof.
      intros Hab. assert (Hk := k2). destruct (pow_big (q_ub o - q_lb o)) as (r & Hrr). exists (S r). intros fuel Hf.
      unfold pw_approx1_adapt. rewrite Hpts. cbn [cassert obind].
      destruct (fitP _ _ Hab) as (l & El & L1 & L2 & Fl). rewrite El. cbn [obind].
      assert (Hleaf : on K (q_lb o) (q_ub o) (Leaf l)) by (split; [exact I|simpl; rewrite L1, L2; auto]).
      destruct (Rltb_spec (q_ub o - q_lb o) (q_minsize o)) as [Hs|Hs]; cbn [orb obind].
      { exists (Leaf l). split; auto. split; auto. left. exists l. split; auto. split; auto. left. rewrite L1, L2. auto. }
      destruct (Nat.eqb_spec (q_nregions o) 1); [lia|].
      assert (Hnorm : for_ N (fun ii s => do c <- l_coeff K l ii; Ok (s + c * c)) 0 = Ok (fold_right Rplus 0 (map (fun i => coeff l i * coeff l i) (seq 0 N)))).
      { destruct Fl as [_ Hc]. assert (G : forall n, (n <= N)%nat -> for_ n (fun ii s => do c <- l_coeff K l ii; Ok (s + c * c)) 0 = Ok (fold_right Rplus 0 (map (fun i => coeff l i * coeff l i) (seq 0 n)))).
        { induction n0 as [|n0 IHn]; intros Hn; [reflexivity|]. rewrite for_S, IHn by lia. cbn [obind]. rewrite Hc by lia. cbn [obind]. f_equal.
          rewrite seq_S, map_app, fold_right_app. simpl.
          assert (G : forall xs z, fold_right Rplus z xs = fold_right Rplus 0 xs + z) by (clear; induction xs as [|x xs IH]; intros z; simpl; [lra|rewrite IH; lra]).
          rewrite (G _ (_ + 0)). lra. }
        apply G; auto. }
      rewrite Hnorm. cbn [obind]. set (nm := fold_right Rplus 0 (map (fun i => coeff l i * coeff l i) (seq 0 N))).
      destruct (tail_ok l (ncheck o N) (q_eps o * nm) (ncheck_le N) Fl) as (b & Eb & Hb & _). rewrite Eb. cbn [obind]. destruct b.
      - assert (Ho : q_bounds o (q_lb o) (q_ub o) = o) by (destruct o; auto).
        destruct (approx_regions (q_lb o) (q_ub o) Hr Hpts Hab) as (ls & Es & Ts & Fs & Ns & Ws). rewrite Ho in Es. rewrite Es. cbn [obind].
        destruct (help_ok r fuel (q_lb o) (q_ub o) ls) as (ls' & E' & Ha); auto.
        + eapply Forall_impl; [|exact Ws]. cbv beta. intros l' Hw. rewrite Hw. apply Rmult_le_compat_r; [left; apply Rinv_0_lt_compat; lra|lra].
        + eapply Forall_impl; [|exact Ws]. cbv beta. intros l' Hw _. rewrite Hw. apply Rmult_lt_reg_r with k; [lra|]. unfold Rdiv. rewrite Rmult_assoc, Rinv_l by lra.
          assert (0 < q_minsize o * k ^ r) by (apply Rmult_lt_0_compat; [lra|apply pow_lt; lra]). nra.
        + rewrite E'. exists (Node (map Leaf ls')). split; auto. split; [|right; eauto].
          destruct Ha as (T' & _). split; [apply proper_leaves|simpl; rewrite flat_leaves; auto].
          intros ->. simpl in T'. lra.
      - exists (Leaf l). split; auto. split; auto. left. exists l. split; auto. split; auto. right.
        intros jj Hj Hj'. apply Hb; auto. unfold ncheck. destruct (Nat.ltb_spec (q_check o) N); lia.
    Qed.
  End Fixed.
End Adapt.
