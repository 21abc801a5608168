(** Values of the trains built by the constructors of ft.c. *)
From Verif Require Export FTMore FTCtorModel.

(** * Arrays in table form *)
Lemma aset_tab {A} n (f : nat -> A) i v :
  i < n -> aset (tab n f) i v = Ok (tab n (fun k => if k =? i then v else f k)).
Proof.
  intros Hi. rewrite aset_ok by (now rewrite tab_length). f_equal.
  apply tab_eq_intro; [now rewrite upd_length, tab_length|].
  intros k Hk. rewrite nth_error_upd by (now rewrite tab_length).
  rewrite (Nat.eqb_sym i k). destruct (Nat.eqb_spec k i); auto. now apply nth_error_tab.
Qed.

Lemma loop_tab2 {A B} N M (r : nat -> A) (c : nat -> B) (Rf : nat -> A) (Cf : nat -> B) body lo n :
  (forall k r c, lo <= k < lo + n ->
     body k (tab N r, tab M c)
     = Ok (tab N (fun i => if i =? k then Rf k else r i), tab M (fun i => if i =? k then Cf k else c i))) ->
  for_from lo n body (tab N r, tab M c)
  = Ok (tab N (fun i => if (lo <=? i) && (i <? lo + n) then Rf i else r i),
        tab M (fun i => if (lo <=? i) && (i <? lo + n) then Cf i else c i)).
Proof.
  induction n as [|n IH]; intros H.
  - cbn [for_from]. f_equal. f_equal; apply tab_ext; intros i Hi;
      destruct (Nat.leb_spec lo i), (Nat.ltb_spec i (lo + 0)); simpl; auto; lia.
  - rewrite for_from_S, IH by (intros; apply H; lia). cbn [obind]. rewrite H by lia.
    f_equal. f_equal; apply tab_ext; intros i Hi;
      destruct (Nat.eqb_spec i (lo + n)); subst;
      repeat match goal with
      | |- context [?a <=? ?b] => destruct (Nat.leb_spec a b)
      | |- context [?a <? ?b] => destruct (Nat.ltb_spec a b)
      end; simpl; auto; lia.
Qed.

Lemma loop_tab1 {A} N (r : nat -> A) (Rf : nat -> A) body lo n :
  (forall k r, lo <= k < lo + n ->
     body k (tab N r) = Ok (tab N (fun i => if i =? k then Rf k else r i))) ->
  for_from lo n body (tab N r)
  = Ok (tab N (fun i => if (lo <=? i) && (i <? lo + n) then Rf i else r i)).
Proof.
  induction n as [|n IH]; intros H.
  - cbn [for_from]. f_equal. apply tab_ext; intros i Hi;
      destruct (Nat.leb_spec lo i), (Nat.ltb_spec i (lo + 0)); simpl; auto; lia.
  - rewrite for_from_S, IH by (intros; apply H; lia). cbn [obind]. rewrite H by lia.
    f_equal. apply tab_ext; intros i Hi;
      destruct (Nat.eqb_spec i (lo + n)); subst;
      repeat match goal with
      | |- context [?a <=? ?b] => destruct (Nat.leb_spec a b)
      | |- context [?a <? ?b] => destruct (Nat.ltb_spec a b)
      end; simpl; auto; lia.
Qed.

Ltac natcase :=
  repeat (match goal with
  | |- context [?a <=? ?b] => destruct (Nat.leb_spec a b)
  | |- context [?a <? ?b] => destruct (Nat.ltb_spec a b)
  | |- context [?a =? ?b] => destruct (Nat.eqb_spec a b)
  end; cbn [andb orb negb]; try lia).

Section Build.
  Context {R : CRing} {U : uops R}.
  Open Scope cr_scope.
  Add Ring Rr11 : (rth R).

  Lemma sum_2 (f : nat -> R) : sum 2 f = f 0 +! f 1.
  Proof. cbn [sum]. ring. Qed.

  Lemma sum_S_r n (f : nat -> R) : sum (S n) f = sum n f +! f n.
  Proof. reflexivity. Qed.

  (** The train with given rank and core tables. *)
  Definition tft (d : nat) (r : nat -> nat) (C : nat -> qma U) : ftrain U :=
    mkft d (tab (d + 1) r) (tab d C).

  Lemma build_fin d (r : nat -> nat) (c : nat -> option (qma U)) (r' : nat -> nat) (C : nat -> qma U) :
    (forall k, k <= d -> r k = r' k) -> (forall k, k < d -> c k = Some (C k)) ->
    (do cs' <- freeze (tab d c); Ok (mkft d (tab (d + 1) r) cs')) = Ok (tft d r' C).
  Proof.
    intros Hr Hc. rewrite (tab_ext d c (fun k => Some (C k))) by auto.
    rewrite freeze_tab. cbn [obind]. unfold tft. do 2 f_equal. apply tab_ext. intros; apply Hr; lia.
  Qed.

  Lemma tft_wf d (r : nat -> nat) (C : nat -> qma U) :
    0 < d -> r 0 = 1 -> r d = 1 ->
    (forall k, k < d -> qwf (C k) /\ 0 < nr (C k) /\ 0 < nc (C k) /\ nr (C k) = r k /\ nc (C k) = r (S k)) ->
    ft_wf (tft d r C).
  Proof.
    intros Hd R0 Rd H. apply (ft_wf_intro d _ _ r); auto; try apply tab_length.
    - intros k Hk. apply nth_error_tab. lia.
    - intros k c Hc.
      assert (Hk : k < d). { rewrite <- (tab_length d C). apply nth_error_Some. congruence. }
      rewrite nth_error_tab in Hc by auto. assert (c = C k) as -> by congruence. auto.
  Qed.

  (** Suffix values at a point. *)
  Definition pv (d : nat) (C : nat -> qma U) (x : list R) (k i : nat) : R :=
    sval (map (fun xk (g : U) => uev g xk) x) (tab d C) k i.

  Lemma tft_value d r C x : length x = d -> train_value (tft d r C) x = pv d C x 0 0.
  Proof.
    intros Hx. unfold train_value, pv. rewrite sval_0. simpl. apply tsum_val.
    rewrite map_length, tab_length. auto.
  Qed.

  Lemma pv_step d C x k i :
    length x = d -> k < d ->
    pv d C x k i
    = sum (nc (C k)) (fun j => ent (fun g : U => uev g (nth k x r0)) (C k) i j *! pv d C x (S k) j).
  Proof.
    intros Hx Hk. unfold pv. apply sval_step.
    - rewrite nth_error_map, (nth_error_nth' x r0) by lia. reflexivity.
    - now apply nth_error_tab.
  Qed.

  Lemma pv_end d C x i : pv d C x d i = r1.
  Proof. apply sval_end. now rewrite tab_length. Qed.

  (** Rank-one trains. *)
  Lemma rankone_value d r (f : nat -> U) x :
    length x = d ->
    train_value (tft d r (fun k => mkq 1 1 [f k])) x
    = lprod (tab d (fun k => uev (f k) (nth k x r0))).
  Proof.
    intros Hx. rewrite tft_value by auto. set (C := fun k => mkq 1 1 [f k]).
    assert (H : forall n k, k + n = d ->
              pv d C x k 0 = lprod (map (fun k => uev (f k) (nth k x r0)) (seq k n))).
    { induction n as [|n IH]; intros k Hk.
      - assert (k = d) as -> by lia. rewrite pv_end. reflexivity.
      - rewrite pv_step by lia. cbn [C nc]. rewrite sum_1. rewrite IH by lia. reflexivity. }
    rewrite (H d 0) by lia. reflexivity.
  Qed.

  Lemma tft_ext d r r' C C' :
    (forall k, k <= d -> r k = r' k) -> (forall k, k < d -> C k = C' k) -> tft d r C = tft d r' C'.
  Proof.
    intros Hr HC. unfold tft. f_equal; apply tab_ext; intros; [apply Hr; lia|auto].
  Qed.

  (** Trains of rank two that add univariate functions. *)
  Definition sumcore (d : nat) (f one zero one' : nat -> U) (k : nat) : qma U :=
    if k =? 0 then mkq 1 2 [f 0; one 0]
    else if k =? d - 1 then mkq 2 1 [one k; f k]
    else mkq 2 2 [one k; f k; zero k; one' k].
  Definition sumrank (d k : nat) : nat := if (k =? 0) || (k =? d) then 1 else 2.

  Lemma sumcore_wf d f one zero one' : 2 <= d -> ft_wf (tft d (sumrank d) (sumcore d f one zero one')).
  Proof.
    intros Hd. apply tft_wf; [lia|reflexivity| |].
    - unfold sumrank. rewrite Nat.eqb_refl, orb_true_r. reflexivity.
    - intros k Hk. unfold sumcore, sumrank.
      destruct (Nat.eqb_spec k 0) as [->|].
      + natcase; unfold qwf; simpl; repeat split; lia.
      + natcase; unfold qwf; simpl; repeat split; lia.
  Qed.

  Lemma sumcore_value d f one zero one' x :
    2 <= d -> length x = d ->
    (forall k, k < d -> uev (one k) (nth k x r0) = r1) ->
    (forall k, 0 < k < d - 1 -> uev (zero k) (nth k x r0) = r0) ->
    (forall k, 0 < k < d - 1 -> uev (one' k) (nth k x r0) = r1) ->
    train_value (tft d (sumrank d) (sumcore d f one zero one')) x
    = sum d (fun k => uev (f k) (nth k x r0)).
  Proof.
    intros Hd Hx H1 H0 H1'. rewrite tft_value by auto.
    set (C := sumcore d f one zero one').
    assert (H : forall n k, k + S n = d -> 1 <= k ->
       pv d C x k 0 = r1 /\ pv d C x k 1 = sum (S n) (fun i => uev (f (k + i)) (nth (k + i) x r0))).
    { induction n as [|n IH]; intros k Hk H1k.
      - assert (k = d - 1) as -> by lia.
        rewrite !pv_step by lia. replace (S (d - 1)) with d by lia.
        assert (EC : C (d - 1) = mkq 2 1 [one (d - 1); f (d - 1)]).
        { unfold C, sumcore. natcase. reflexivity. }
        rewrite EC. cbn [nc sum]. rewrite !pv_end. unfold ent, entry. cbn [nr fs Nat.mul Nat.add nth_error].
        rewrite H1 by lia. rewrite Nat.add_0_r. split; ring.
      - rewrite !pv_step by lia.
        assert (EC : C k = mkq 2 2 [one k; f k; zero k; one' k]).
        { unfold C, sumcore. natcase. reflexivity. }
        rewrite EC. cbn [nc]. rewrite !sum_2. unfold ent, entry. cbn [nr fs Nat.mul Nat.add nth_error].
        destruct (IH (S k)) as [E0 E1]; [lia|lia|]. rewrite E0, E1, H1, H0, H1' by lia.
        split; [ring|]. rewrite (sum_S_l R (S n)), Nat.add_0_r.
        rewrite (sum_ext R (S n) (fun i => uev (f (k + S i)) (nth (k + S i) x r0))
                   (fun i => uev (f (S k + i)) (nth (S k + i) x r0))).
        + ring.
        + intros i Hi. now replace (k + S i) with (S k + i) by lia. }
    rewrite pv_step by lia.
    assert (EC : C 0 = mkq 1 2 [f 0; one 0]) by reflexivity.
    rewrite EC. cbn [nc]. rewrite !sum_2. unfold ent, entry. cbn [nr fs Nat.mul Nat.add nth_error].
    destruct (H (d - 2) 1) as [E0 E1]; [lia|lia|]. rewrite E0, E1, H1 by lia.
    replace d with (S (S (d - 2))) at 2 by lia. rewrite (sum_S_l R (S (d - 2))).
    rewrite (sum_ext R (S (d - 2)) (fun i => uev (f (1 + i)) (nth (1 + i) x r0))
       (fun i => uev (f (S i)) (nth (S i) x r0))) by (intros; reflexivity). ring.
  Qed.
End Build.

Section Ctors.
  Context {R : CRing} {U : uops R} (K : uctor U).
  Open Scope cr_scope.
  Add Ring Rr12 : (rth R).

  (** What the univariate constructors must satisfy; [dom k x] : the point [x]
      lies in the domain given by the options of dimension [k]. *)
  Definition law_const (dom : nat -> R -> Prop) : Prop :=
    forall k a x, dom k x -> uev (uconst K k a) x = a.
  Definition law_linear (dom : nat -> R -> Prop) : Prop :=
    forall k a b x, dom k x -> uev (ulin K k a b) x = a *! x +! b.
  Definition law_quad (dom : nat -> R -> Prop) : Prop :=
    forall k a m x, dom k x -> uev (uquad K k a m) x = a *! ((x -! m) *! (x -! m)).
  Definition law_zero (dom : nat -> R -> Prop) : Prop :=
    forall k x, dom k x -> uev (uzero K k) x = r0.
  Definition in_dom (dom : nat -> R -> Prop) (d : nat) (x : list R) : Prop :=
    length x = d /\ forall k, k < d -> dom k (nth k x r0).

  Lemma set_11 (a : U) : set_funcs 1 1 [(0, a)] = Ok (mkq 1 1 [a]).
  Proof. reflexivity. Qed.
  Lemma set_12 (a b : U) : set_funcs 1 2 [(0, a); (1, b)] = Ok (mkq 1 2 [a; b]).
  Proof. reflexivity. Qed.
  Lemma set_21 (a b : U) : set_funcs 2 1 [(0, a); (1, b)] = Ok (mkq 2 1 [a; b]).
  Proof. reflexivity. Qed.
  Lemma set_22 (a b c d : U) : set_funcs 2 2 [(0, a); (1, b); (2, c); (3, d)] = Ok (mkq 2 2 [a; b; c; d]).
  Proof. reflexivity. Qed.

  Ltac start := unfold alloc_ranks, alloc_cores; rewrite ?(repeat_tab 0), ?(repeat_tab (@None (qma U))).
  Ltac finish_tab := intros; cbv beta; natcase; try reflexivity; auto.

  Lemma ft_rankone_ok d :
    ft_rankone K d = Ok (tft d (fun _ => 1) (fun k => mkq 1 1 [uappr K k k])).
  Proof.
    unfold ft_rankone, for_. start.
    rewrite (loop_tab2 _ _ _ _ (fun _ => 1) (fun k => Some (mkq 1 1 [uappr K k k]))).
    - cbn [obind]. rewrite aset_tab by lia. cbn [obind]. apply build_fin; finish_tab.
    - intros k r c Hk. cbn [fst snd]. rewrite aset_tab by lia. cbn [obind]. rewrite ?set_11, ?set_12, ?set_21, ?set_22. cbn [obind]. rewrite aset_tab by lia. reflexivity.
  Qed.

  Lemma ft_initsum_ok d :
    2 <= d ->
    ft_initsum K d = Ok (tft d (sumrank d) (sumcore d (fun k => uappr K k k) (fun k => uconst K k r1)
                           (fun k => uconst K k r0) (fun k => uconst K k r1))).
  Proof.
    intros Hd. unfold ft_initsum. start.
    rewrite aset_tab by lia. cbn [obind]. destruct (Nat.eqb_spec d 1); [lia|]. 
    rewrite ?set_11, ?set_12, ?set_21, ?set_22. cbn [obind]. rewrite aset_tab by lia. cbn [obind].
    destruct (Nat.ltb_spec 1 d); [|lia].
    rewrite (loop_tab2 _ _ _ _ (fun _ => 2) (fun k => Some (mkq 2 2 [uconst K k r1; uappr K k k; uconst K k r0; uconst K k r1]))).
    - cbn [obind]. rewrite aset_tab by lia. cbn [obind]. rewrite aset_tab by lia. cbn [obind].
      rewrite ?set_11, ?set_12, ?set_21, ?set_22. cbn [obind]. rewrite aset_tab by lia. cbn [obind].
      apply build_fin; unfold sumrank, sumcore; finish_tab. now subst k.
    - intros k r c Hk. cbn [fst snd]. rewrite aset_tab by lia. cbn [obind]. rewrite ?set_11, ?set_12, ?set_21, ?set_22. cbn [obind]. rewrite aset_tab by lia. reflexivity.
  Qed.

  Lemma ft_initsum_dim1 : ft_initsum K 1 = UB.
  Proof. reflexivity. Qed.

  Lemma ft_constant_ok sign apow d :
    0 < d ->
    ft_constant K sign apow d
    = Ok (tft d (fun _ => 1) (fun k => mkq 1 1 [uconst K k (if k =? 0 then sign *! apow else apow)])).
  Proof.
    intros Hd. unfold ft_constant. start.
    rewrite aset_tab by lia. cbn [obind].
    rewrite ?set_11, ?set_12, ?set_21, ?set_22. cbn [obind]. rewrite aset_tab by lia. cbn [obind].
    rewrite (loop_tab2 _ _ _ _ (fun _ => 1) (fun k => Some (mkq 1 1 [uconst K k apow]))).
    - cbn [obind]. rewrite aset_tab by lia. cbn [obind].
      apply build_fin; finish_tab. now subst k.
    - intros k r c Hk. cbn [fst snd]. rewrite aset_tab by lia. cbn [obind]. rewrite ?set_11, ?set_12, ?set_21, ?set_22. cbn [obind]. rewrite aset_tab by lia. reflexivity.
  Qed.

  Lemma ft_linear_ok c ldc a lda d (fc fa : nat -> R) :
    2 <= d ->
    (forall k, k < d -> nth_error c (k * ldc) = Some (fc k)) ->
    (forall k, k < d -> nth_error a (k * lda) = Some (fa k)) ->
    ft_linear K c ldc a lda d
    = Ok (tft d (sumrank d) (sumcore d (fun k => ulin K k (fc k) (fa k)) (fun k => uconst K k r1)
                           (fun k => uconst K k r0) (fun k => uconst K k r1))).
  Proof.
    intros Hd Hc Ha. unfold ft_linear. start.
    rewrite aset_tab by lia. cbn [obind].
    rewrite (aget_ok _ _ _ (Hc 0 ltac:(lia))), (aget_ok _ _ _ (Ha 0 ltac:(lia))). cbn [obind].
    destruct (Nat.eqb_spec d 1); [lia|].
    rewrite ?set_11, ?set_12, ?set_21, ?set_22. cbn [obind]. rewrite aset_tab by lia. cbn [obind].
    destruct (Nat.ltb_spec 1 d); [|lia].
    rewrite (loop_tab2 _ _ _ _ (fun _ => 2) (fun k => Some (mkq 2 2 [uconst K k r1; ulin K k (fc k) (fa k); uconst K k r0; uconst K k r1]))).
    - cbn [obind]. rewrite aset_tab by lia. cbn [obind]. rewrite aset_tab by lia. cbn [obind].
      rewrite (aget_ok _ _ _ (Hc (d - 1) ltac:(lia))), (aget_ok _ _ _ (Ha (d - 1) ltac:(lia))). cbn [obind].
      rewrite ?set_11, ?set_12, ?set_21, ?set_22. cbn [obind]. rewrite aset_tab by lia. cbn [obind].
      apply build_fin; unfold sumrank, sumcore; finish_tab. now subst k.
    - intros k r q Hk. cbn [fst snd]. rewrite aset_tab by lia. cbn [obind].
      rewrite (aget_ok _ _ _ (Hc k ltac:(lia))), (aget_ok _ _ _ (Ha k ltac:(lia))). cbn [obind]. rewrite ?set_11, ?set_12, ?set_21, ?set_22. cbn [obind].
      rewrite aset_tab by lia. reflexivity.
  Qed.

  Lemma ft_rankone_prod_ok c d (fc : nat -> R) :
    2 <= d -> (forall k, k < d -> nth_error c k = Some (fc k)) ->
    ft_rankone_prod K c d = Ok (tft d (fun _ => 1) (fun k => mkq 1 1 [ulin K k (fc k) r0])).
  Proof.
    intros Hd Hc. unfold ft_rankone_prod. start.
    destruct (Nat.ltb_spec 1 d); [|lia]. cbn [cassert obind].
    rewrite aset_tab by lia. cbn [obind].
    rewrite (aget_ok _ _ _ (Hc 0 ltac:(lia))). cbn [obind].
    rewrite ?set_11, ?set_12, ?set_21, ?set_22. cbn [obind]. rewrite aset_tab by lia. cbn [obind].
    rewrite (loop_tab2 _ _ _ _ (fun _ => 1) (fun k => Some (mkq 1 1 [ulin K k (fc k) r0]))).
    - cbn [obind]. rewrite aset_tab by lia. cbn [obind].
      rewrite (aget_ok _ _ _ (Hc (d - 1) ltac:(lia))). cbn [obind].
      rewrite ?set_11, ?set_12, ?set_21, ?set_22. cbn [obind]. rewrite aset_tab by lia. cbn [obind].
      rewrite aset_tab by lia. cbn [obind].
      apply build_fin; finish_tab; now subst k.
    - intros k r q Hk. cbn [fst snd]. rewrite aset_tab by lia. cbn [obind].
      rewrite (aget_ok _ _ _ (Hc k ltac:(lia))). cbn [obind]. rewrite ?set_11, ?set_12, ?set_21, ?set_22. cbn [obind].
      rewrite aset_tab by lia. reflexivity.
  Qed.

  Lemma ft_quadratic_aligned_ok c m d (fc fm : nat -> R) :
    2 <= d ->
    (forall k, k < d -> nth_error c k = Some (fc k)) ->
    (forall k, k < d -> nth_error m k = Some (fm k)) ->
    ft_quadratic_aligned K c m d
    = Ok (tft d (sumrank d) (sumcore d
           (fun k => uquad K (if k =? d - 1 then d - 2 else k) (fc k) (fm k))
           (fun k => uconst K (if k =? d - 1 then d - 2 else k) r1)
           (fun k => uconst K k r0) (fun k => uconst K k r1))).
  Proof.
    intros Hd Hc Ha. unfold ft_quadratic_aligned. start.
    rewrite aset_tab by lia. cbn [obind].
    destruct (Nat.ltb_spec 1 d); [|lia].
    rewrite (aget_ok _ _ _ (Hc 0 ltac:(lia))), (aget_ok _ _ _ (Ha 0 ltac:(lia))). cbn [obind].
    rewrite ?set_11, ?set_12, ?set_21, ?set_22. cbn [obind]. rewrite aset_tab by lia. cbn [obind].
    rewrite (loop_tab2 _ _ _ _ (fun _ => 2) (fun k => Some (mkq 2 2 [uconst K k r1; uquad K k (fc k) (fm k); uconst K k r0; uconst K k r1]))).
    - cbn [obind]. rewrite aset_tab by lia. cbn [obind]. rewrite aset_tab by lia. cbn [obind].
      rewrite (aget_ok _ _ _ (Hc (d - 1) ltac:(lia))), (aget_ok _ _ _ (Ha (d - 1) ltac:(lia))). cbn [obind].
      rewrite ?set_11, ?set_12, ?set_21, ?set_22. cbn [obind]. rewrite aset_tab by lia. cbn [obind].
      apply build_fin; unfold sumrank, sumcore; finish_tab. now subst k.
    - intros k r q Hk. cbn [fst snd]. rewrite aset_tab by lia. cbn [obind].
      rewrite (aget_ok _ _ _ (Hc k ltac:(lia))), (aget_ok _ _ _ (Ha k ltac:(lia))). cbn [obind]. rewrite ?set_11, ?set_12, ?set_21, ?set_22. cbn [obind].
      rewrite aset_tab by lia. reflexivity.
  Qed.

  Lemma copy_ranks d ranks :
    d + 1 <= length ranks ->
    for_ (d + 1) (fun i rk => do r <- aget ranks i; aset rk i r) (tab (d + 1) (fun _ => 0))
    = Ok (tab (d + 1) (fun i => nth i ranks 0)).
  Proof.
    intros HL. unfold for_. rewrite (loop_tab1 _ _ (fun i => nth i ranks 0)).
    - f_equal. apply tab_ext. intros i Hi. natcase.
    - intros k r Hk. rewrite (aget_ok ranks k (nth k ranks 0)) by (apply nth_error_nth'; lia). cbn [obind].
      apply aset_tab. lia.
  Qed.

  Lemma ft_zeros_ok d ranks :
    d + 1 <= length ranks ->
    ft_zeros K d ranks
    = Ok (tft d (fun i => nth i ranks 0)
            (fun k => mkq (nth k ranks 0) (nth (k + 1) ranks 0)
                          (repeat (uzero K k) (nth k ranks 0 * nth (k + 1) ranks 0)))).
  Proof.
    intros HL. unfold ft_zeros. start. rewrite copy_ranks by auto. cbn [obind]. unfold for_ at 1.
    rewrite (loop_tab1 _ _ (fun k => Some (mkq (nth k ranks 0) (nth (k + 1) ranks 0)
                          (repeat (uzero K k) (nth k ranks 0 * nth (k + 1) ranks 0))))).
    - cbn [obind]. apply build_fin; finish_tab.
    - intros k c Hk.
      rewrite (aget_ok ranks k (nth k ranks 0)) by (apply nth_error_nth'; lia). cbn [obind].
      rewrite (aget_ok ranks (k + 1) (nth (k + 1) ranks 0)) by (apply nth_error_nth'; lia). cbn [obind].
      unfold slots. rewrite (repeat_tab (@None U)). unfold for_.
      rewrite (loop_tab1 _ _ (fun _ => Some (uzero K k))).
      + cbn [obind]. rewrite (tab_ext _ _ (fun _ => Some (uzero K k))) by finish_tab.
        rewrite freeze_tab. cbn [obind]. rewrite repeat_tab. apply aset_tab. lia.
      + intros j r Hj. apply aset_tab. lia.
  Qed.

  (** * The full quadratic form *)
  Section Quad.
    Variables (Q m : list R) (d : nat).
    Let fQ i j := nth (i * d + j) Q r0.
    Let fm k := nth k m r0.

    (** the function at row [ll], column [kk] of core [k] *)
    Definition qe (k kk ll : nat) : U :=
      if (ll =? 0) && (kk =? 0) then uconst K k r1
      else if (kk =? 0) && (ll =? 1) then ulin K k r1 (r0 -! fm k)
      else if ll =? kk + 1 then uconst K k r1
      else if (ll =? d - k + 1) && (kk =? 0) then uquad K k (fQ k k) (fm k)
      else if ll =? d - k + 1 then
        ulin K k (fQ k (k + kk) +! fQ (k + kk) k) ((r0 -! (fQ k (k + kk) +! fQ (k + kk) k)) *! fm k)
      else uconst K k r0.

    Definition q0e (kk : nat) : U :=
      if kk =? 0 then uquad K 0 (fQ 0 0) (fm 0)
      else if kk =? d then uconst K 0 r1
      else ulin K 0 (fQ 0 kk +! fQ kk 0) ((r0 -! (fQ 0 kk +! fQ kk 0)) *! fm 0).

    Definition qcore (k : nat) : qma U :=
      if k =? 0 then mkq 1 (d + 1) (tab (d + 1) q0e)
      else if k =? d - 1 then
        mkq 3 1 [uconst K k r1; ulin K k r1 (r0 -! fm k); uquad K k (fQ k k) (fm k)]
      else mkq (d - k + 2) (d - k + 1)
               (tab ((d - k + 1) * (d - k + 2)) (fun p => qe k (p / (d - k + 2)) (p mod (d - k + 2)))).

    Definition qrank (k : nat) : nat := if (k =? 0) || (k =? d) then 1 else d - k + 2.

    Hypothesis HQ : length Q = d * d.
    Hypothesis Hm : length m = d.
    Hypothesis Hd : 2 <= d.

    Lemma getQ i j : i < d -> j < d -> aget Q (i * d + j) = Ok (fQ i j).
    Proof. intros Hi Hj. apply aget_ok. apply nth_error_nth'. nia. Qed.

    Lemma getm k : k < d -> aget m k = Ok (fm k).
    Proof. intros Hk. apply aget_ok. apply nth_error_nth'. lia. Qed.

    Lemma quad_entry_ok k kk ll :
      0 < k < d - 1 -> kk < d - k + 1 -> ll < d - k + 2 ->
      quad_entry K Q m d k kk ll = Ok (qe k kk ll).
    Proof.
      intros Hk Hkk Hll. unfold quad_entry, qe.
      destruct ((ll =? 0) && (kk =? 0)); [reflexivity|].
      destruct ((kk =? 0) && (ll =? 1)); [rewrite getm by lia; reflexivity|].
      destruct (Nat.eqb_spec ll (kk + 1)); [reflexivity|].
      destruct ((ll =? d - k + 1) && (kk =? 0)); [rewrite getQ by lia; cbn [obind]; rewrite getm by lia; reflexivity|].
      destruct (Nat.eqb_spec ll (d - k + 1)); [|reflexivity].
      rewrite <- Nat.add_assoc. rewrite getQ by lia. cbn [obind]. rewrite getQ by lia. cbn [obind].
      rewrite getm by lia. reflexivity.
    Qed.

    Lemma set_31 (a b c : U) : set_funcs 3 1 [(0, a); (1, b); (2, c)] = Ok (mkq 3 1 [a; b; c]).
    Proof. reflexivity. Qed.

    Lemma ft_quadratic_ok : ft_quadratic K Q m d = Ok (tft d qrank qcore).
    Proof.
      unfold ft_quadratic. start.
      destruct (Nat.ltb_spec 1 d); [|lia]. cbn [cassert obind].
      rewrite aset_tab by lia. cbn [obind].
      rewrite getQ, getm by lia. cbn [obind].
      replace (1 * (d + 1)) with (d + 1) by lia. unfold slots at 1. rewrite (repeat_tab (@None U)).
      rewrite aset_tab by lia. cbn [obind].
      rewrite (loop_tab1 _ _ (fun kk => Some (q0e kk))).
      2:{ intros k r Hk. rewrite getQ by lia. cbn [obind]. rewrite getQ by lia. cbn [obind].
          rewrite aset_tab by lia. do 2 f_equal.
          unfold q0e. natcase. reflexivity. }
      cbn [obind]. rewrite aset_tab by lia. cbn [obind].
      rewrite (tab_ext (d + 1) _ (fun kk => Some (q0e kk))).
      2:{ intros i Hi. unfold q0e. natcase; reflexivity. }
      rewrite freeze_tab. cbn [obind]. rewrite aset_tab by lia. cbn [obind].
      rewrite (loop_tab2 _ _ _ _ (fun k => d - k + 2) (fun k => Some (qcore k))).
      - cbn [obind]. rewrite aset_tab by lia. cbn [obind]. rewrite getm by lia. cbn [obind].
        rewrite getQ by lia. cbn [obind].
        replace (d - (d - 1) + 2) with 3 by lia. rewrite set_31. cbn [obind].
        rewrite aset_tab by lia. cbn [obind]. rewrite aset_tab by lia. cbn [obind].
        apply build_fin.
        + unfold qrank. finish_tab.
        + unfold qcore. finish_tab. now subst k.
      - intros k r c Hk. cbn [fst snd]. rewrite aset_tab by lia. cbn [obind].
        rewrite (fill2 (fun kk ll => Some (qe k kk ll)) (d - k + 1) (d - k + 2)).
        + cbn [obind]. rewrite freeze_tab. cbn [obind]. rewrite aset_tab by lia. cbn [obind].
          do 2 f_equal. apply tab_ext. intros i Hi. destruct (Nat.eqb_spec i k) as [->|]; auto.
          unfold qcore. natcase. reflexivity.
        + unfold slots. rewrite repeat_length. lia.
        + intros j i l' Hj Hi HL. rewrite quad_entry_ok by lia. reflexivity.
    Qed.

    Lemma qcore_wf : ft_wf (tft d qrank qcore).
    Proof.
      apply tft_wf; [lia|reflexivity| |].
      - unfold qrank. rewrite Nat.eqb_refl, orb_true_r. reflexivity.
      - intros k Hk. unfold qcore, qrank.
        destruct (Nat.eqb_spec k 0) as [->|].
        + cbn [nr nc orb]. natcase. unfold qwf; cbn [nr nc fs]. rewrite tab_length. repeat split; lia.
        + destruct (Nat.eqb_spec k (d - 1)) as [->|].
          * cbn [nr nc orb]. natcase. unfold qwf; cbn [nr nc fs length]. repeat split; lia.
          * cbn [nr nc orb]. natcase. unfold qwf; cbn [nr nc fs]. rewrite tab_length. repeat split; lia.
    Qed.

    Variables (dom : nat -> R -> Prop) (x : list R).
    Hypothesis HLc : law_const dom.
    Hypothesis HLl : law_linear dom.
    Hypothesis HLq : law_quad dom.
    Hypothesis Hx : in_dom dom d x.
    Let y k := nth k x r0 -! fm k.

    (** the quadratic form restricted to the coordinates [k..d-1] *)
    Definition qform (k : nat) : R :=
      sum (d - k) (fun i => sum (d - k) (fun j => fQ (k + i) (k + j) *! (y (k + i) *! y (k + j)))).

    Lemma qform_step k : k < d ->
      qform k = fQ k k *! (y k *! y k)
        +! sum (d - S k) (fun j => (fQ k (k + S j) +! fQ (k + S j) k) *! (y k *! y (k + S j)))
        +! qform (S k).
    Proof.
      intros Hk. unfold qform. replace (d - k) with (S (d - S k)) by lia.
      rewrite sum_S_l. rewrite (sum_S_l R (d - S k)). rewrite !Nat.add_0_r.
      rewrite (sum_ext R (d - S k)
         (fun i => sum (S (d - S k)) (fun j => fQ (k + S i) (k + j) *! (y (k + S i) *! y (k + j))))
         (fun i => fQ (k + S i) k *! (y k *! y (k + S i)) +!
            sum (d - S k) (fun j => fQ (S k + i) (S k + j) *! (y (S k + i) *! y (S k + j))))).
      - rewrite sum_add.
        rewrite (sum_ext R (d - S k) (fun j => (fQ k (k + S j) +! fQ (k + S j) k) *! (y k *! y (k + S j)))
          (fun j => fQ k (k + S j) *! (y k *! y (k + S j)) +! fQ (k + S j) k *! (y k *! y (k + S j)))).
        + rewrite sum_add. ring.
        + intros; ring.
      - intros i Hi. rewrite sum_S_l. rewrite Nat.add_0_r. f_equal; [ring|].
        apply sum_ext. intros j Hj. now replace (k + S i) with (S k + i) by lia; replace (k + S j) with (S k + j) by lia.
    Qed.

    Lemma qe_ev k kk ll : k < d ->
      uev (qe k kk ll) (nth k x r0) =
      if (ll =? 0) && (kk =? 0) then r1
      else if (kk =? 0) && (ll =? 1) then y k
      else if ll =? kk + 1 then r1
      else if (ll =? d - k + 1) && (kk =? 0) then fQ k k *! (y k *! y k)
      else if ll =? d - k + 1 then (fQ k (k + kk) +! fQ (k + kk) k) *! y k
      else r0.
    Proof.
      intros Hk. destruct Hx as [_ HD]. specialize (HD k Hk). unfold qe.
      destruct ((ll =? 0) && (kk =? 0)); [now apply HLc|].
      destruct ((kk =? 0) && (ll =? 1)); [rewrite HLl by auto; unfold y; ring|].
      destruct (ll =? kk + 1); [now apply HLc|].
      destruct ((ll =? d - k + 1) && (kk =? 0)); [rewrite HLq by auto; unfold y; ring|].
      destruct (ll =? d - k + 1); [rewrite HLl by auto; unfold y; ring|].
      now apply HLc.
    Qed.

    Lemma qcore_ent k i j :
      0 < k < d - 1 -> i < d - k + 2 -> j < d - k + 1 ->
      ent (fun g : U => uev g (nth k x r0)) (qcore k) i j = uev (qe k j i) (nth k x r0).
    Proof.
      intros Hk Hi Hj. unfold ent, entry, qcore.
      destruct (Nat.eqb_spec k 0); [lia|]. destruct (Nat.eqb_spec k (d - 1)); [lia|].
      cbn [nr fs]. rewrite nth_error_tab by (apply idx_lt; lia).
      rewrite idx_div, idx_mod by lia. reflexivity.
    Qed.

    Lemma quad_suffix : forall n k, k + S n = d -> 1 <= k ->
      pv d qcore x k 0 = r1 /\ (forall j, 1 <= j <= d - k -> pv d qcore x k j = y (k + j - 1)) /\ pv d qcore x k (d - k + 1) = qform k.
    Proof.
      destruct Hx as [Lx HD].
      induction n as [|n IH]; intros k Hk H1k.
      - assert (k = d - 1) as -> by lia.
        assert (EC : qcore (d - 1) = mkq 3 1 [uconst K (d - 1) r1; ulin K (d - 1) r1 (r0 -! fm (d - 1));
                      uquad K (d - 1) (fQ (d - 1) (d - 1)) (fm (d - 1))]).
        { unfold qcore. natcase. reflexivity. }
        assert (HDk : dom (d - 1) (nth (d - 1) x r0)) by (apply HD; lia).
        split; [|split].
        + rewrite pv_step by lia. replace (S (d - 1)) with d by lia. rewrite EC. cbn [nc]. rewrite sum_1.
          rewrite pv_end. unfold ent, entry. cbn [nr fs Nat.mul Nat.add nth_error]. rewrite HLc by auto. ring.
        + intros j Hj. assert (j = 1) as -> by lia.
          rewrite pv_step by lia. replace (S (d - 1)) with d by lia. rewrite EC. cbn [nc]. rewrite sum_1.
          rewrite pv_end. unfold ent, entry. cbn [nr fs Nat.mul Nat.add nth_error]. rewrite HLl by auto.
          replace (d - 1 + 1 - 1) with (d - 1) by lia. unfold y. ring.
        + replace (d - (d - 1) + 1) with 2 by lia.
          rewrite pv_step by lia. replace (S (d - 1)) with d by lia. rewrite EC. cbn [nc]. rewrite sum_1.
          rewrite pv_end. unfold ent, entry. cbn [nr fs Nat.mul Nat.add nth_error]. rewrite HLq by auto.
          unfold qform. replace (d - (d - 1)) with 1 by lia. rewrite !sum_1, !Nat.add_0_r. unfold y. ring.
      - destruct (IH (S k)) as (E0 & Ej & Eq); [lia|lia|].
        replace (d - S k + 1) with (d - k) in Eq by lia.
        assert (EN : nc (qcore k) = d - k + 1).
        { unfold qcore. destruct (Nat.eqb_spec k 0); [lia|]. destruct (Nat.eqb_spec k (d - 1)); [lia|]. reflexivity. }
        assert (ST : forall i, i < d - k + 2 -> pv d qcore x k i =
           sum (d - k + 1) (fun j => uev (qe k j i) (nth k x r0) *! pv d qcore x (S k) j)).
        { intros i Hi. rewrite pv_step by lia. rewrite EN. apply sum_ext. intros j Hj. now rewrite qcore_ent by lia. }
        split; [|split].
        + rewrite ST by lia. rewrite (sum_single R (d - k + 1) _ 0); [|lia|].
          * rewrite qe_ev, E0 by lia. simpl. ring.
          * intros i Hi Hne. rewrite qe_ev by lia. natcase. ring.
        + intros j Hj. rewrite ST by lia. rewrite (sum_single R (d - k + 1) _ (j - 1)); [| lia |].
          * rewrite qe_ev by lia. natcase.
            -- rewrite e, E0. replace (k + j - 1) with k by lia. ring.
            -- rewrite Ej by lia. replace (S k + (j - 1) - 1) with (k + j - 1) by lia. ring.
          * intros i Hi Hne. rewrite qe_ev by lia. natcase; ring.
        + rewrite ST by lia.
          replace (d - k + 1) with (S (S (d - S k))) at 1 by lia. rewrite sum_S_r.
          rewrite sum_S_l.
          rewrite qform_step by lia.
          assert (A1 : uev (qe k (S (d - S k)) (d - k + 1)) (nth k x r0) = r1).
          { rewrite qe_ev by lia. natcase; auto. }
          assert (A2 : uev (qe k 0 (d - k + 1)) (nth k x r0) = fQ k k *! (y k *! y k)).
          { rewrite qe_ev by lia. natcase; auto. }
          rewrite A1, A2, E0.
          rewrite (sum_ext R (d - S k) _ (fun j => (fQ k (k + S j) +! fQ (k + S j) k) *! (y k *! y (k + S j)))).
          * replace (S (d - S k)) with (d - k) by lia. rewrite Eq. ring.
          * intros j Hj. rewrite qe_ev by lia. natcase.
            rewrite Ej by lia. replace (S k + S j - 1) with (k + S j) by lia. ring.
    Qed.

    Lemma quad_value : train_value (tft d qrank qcore) x = qform 0.
    Proof.
      destruct Hx as [Lx HD]. assert (HD0 : dom 0 (nth 0 x r0)) by (apply HD; lia).
      rewrite tft_value by auto. rewrite pv_step by lia.
      destruct (quad_suffix (d - 2) 1) as (E0 & Ej & Eq); [lia|lia|].
      replace (d - 1 + 1) with d in Eq by lia.
      assert (EN : nc (qcore 0) = d + 1) by reflexivity. rewrite EN.
      rewrite (sum_ext R (d + 1) _ (fun j => uev (q0e j) (nth 0 x r0) *! pv d qcore x 1 j)).
      2:{ intros j Hj. f_equal. unfold ent, entry, qcore. simpl Nat.eqb. cbv iota. cbn [nr fs].
          replace (j * 1 + 0) with j by lia. now rewrite nth_error_tab by lia. }
      replace (d + 1) with (S (S (d - 1))) by lia. rewrite sum_S_r, sum_S_l.
      replace (S (d - 1)) with d by lia. rewrite Eq, E0, (qform_step 0) by lia.
      assert (A1 : uev (q0e d) (nth 0 x r0) = r1).
      { unfold q0e. natcase. now apply HLc. }
      assert (A2 : uev (q0e 0) (nth 0 x r0) = fQ 0 0 *! (y 0 *! y 0)).
      { unfold q0e. simpl. rewrite HLq by auto. unfold y. ring. }
      rewrite A1, A2.
      rewrite (sum_ext R (d - 1) _ (fun j => (fQ 0 (0 + S j) +! fQ (0 + S j) 0) *! (y 0 *! y (0 + S j)))).
      - ring.
      - intros j Hj. unfold q0e. natcase. rewrite HLl by auto. rewrite Ej by lia.
        replace (1 + S j - 1) with (S j) by lia. simpl Nat.add. unfold y. ring.
    Qed.
  End Quad.
End Ctors.
