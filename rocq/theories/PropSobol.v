(** C106: the Sobol sensitivity analysis. *)
From Verif Require Import SobolModel SobolFacts SobolTree Instances.
From Coq Require Import ZArith.

(** * The enumeration of index sequences *)
Lemma in_ch_seq : forall c k s l, In l (ch k (seq s c)) <-> incr s (s + c) l /\ length l = k.
Proof.
  induction c as [|c IH]; intros k s l.
  - destruct k; simpl.
    + split; [intros [<-|[]]; simpl; auto|]. intros (_ & H). destruct l; [auto|discriminate].
    + split; [tauto|]. intros (H & Hl). destruct l; [discriminate|]. simpl in H. lia.
  - cbn [seq]. destruct k as [|k].
    + simpl. split; [intros [<-|[]]; simpl; auto|]. intros (_ & H). destruct l; [auto|discriminate].
    + cbn [ch]. rewrite in_app_iff, in_map_iff. split.
      * intros [(l' & <- & H)|H]; apply IH in H as (H & Hl).
        -- replace (s + S c) with (S s + c) by lia. simpl in *. repeat split; auto; lia.
        -- split; auto. replace (s + S c) with (S s + c) by lia. now apply (incr_weaken _ (S s)); [lia|].
      * intros (H & Hl). destruct l as [|x l]; [discriminate|]. simpl in H, Hl.
        destruct (Nat.eq_dec x s) as [->|Hne].
        -- left. exists l. split; auto. apply IH. split; [|lia]. replace (S s + c) with (s + S c) by lia. tauto.
        -- right. apply IH. split; [|simpl; lia]. replace (S s + c) with (s + S c) by lia. simpl. split; [lia|tauto].
Qed.

Lemma NoDup_app_ {A} (l1 l2 : list A) : NoDup l1 -> NoDup l2 -> (forall x, In x l1 -> ~ In x l2) -> NoDup (l1 ++ l2).
Proof.
  induction 1 as [|x l1 Hx H IH]; intros H2 Hd; simpl; auto. constructor.
  - rewrite in_app_iff. intros [Hc|Hc]; [auto|]. apply (Hd x); simpl; auto.
  - apply IH; auto. intros y Hy. apply Hd. simpl. auto.
Qed.

Lemma NoDup_map_cons {A} (x : A) l : NoDup l -> NoDup (map (cons x) l).
Proof.
  induction 1 as [|y l Hy H IH]; simpl; constructor; auto. rewrite in_map_iff. intros (z & E & Hz). injection E as ->. auto.
Qed.

Lemma NoDup_ch_seq : forall c k s, NoDup (ch k (seq s c)).
Proof.
  induction c as [|c IH]; intros k s.
  - destruct k; simpl; repeat constructor; auto.
  - cbn [seq]. destruct k as [|k]; [simpl; repeat constructor; auto|]. cbn [ch]. apply NoDup_app_; auto; [now apply NoDup_map_cons|].
    intros x Hx. apply in_map_iff in Hx as (l & <- & _). intros H. apply in_ch_seq in H as (H & _). simpl in H. lia.
Qed.

(** Every strictly increasing sequence of [k >= 1] indices below [n], once each. *)
Theorem C106_index_lists W fuel n k : n < fuel -> 1 <= k ->
  exists r, n_choose_k W fuel 0 n k [] [] = Ok r /\ NoDup r /\
    forall c, In c r <-> incr 0 n c /\ length c = k.
Proof.
  intros Hf Hk. rewrite n_choose_k_ok by lia. cbn [app]. rewrite Nat.sub_0_r, map_id.
  eexists. split; [reflexivity|]. split; [apply NoDup_ch_seq|]. intros c. apply in_ch_seq.
Qed.
Print Assumptions C106_index_lists.

Example index_lists_example : n_choose_k 100 5 0 4 2 [] [] = Ok [[0;1]; [0;2]; [0;3]; [1;2]; [1;3]; [2;3]].
Proof. reflexivity. Qed.

(** * The variables that are integrated out *)
Theorem C106_integrated_out dim vars : NoDup vars -> (forall x, In x vars -> x < dim) ->
  exists c, sobol_contract dim vars = Ok c /\ incr 0 dim c /\ forall i, i < dim -> (In i c <-> ~ In i vars).
Proof.
  intros HN HR. rewrite sobol_contract_ok by auto. eexists. split; [reflexivity|]. split.
  - unfold others. assert (H : forall n s d, s + n <= d -> incr s d (filter (fun i => negb (existsb (Nat.eqb i) vars)) (seq s n))).
    { induction n as [|n IH]; intros s d Hd; simpl; auto. destruct (negb _).
      - simpl. split; [lia|]. apply IH. lia.
      - apply (incr_weaken _ (S s)); auto. apply IH. lia. }
    apply H. lia.
  - intros i Hi. unfold others. rewrite filter_In, in_seq, negb_true_iff, <- not_true_iff_false, existsb_in.
    split; [tauto|]. intros Hn. split; auto. lia.
Qed.
Print Assumptions C106_integrated_out.


Example integrated_out_example : sobol_contract 5 [1; 3] = Ok [0; 2; 4] /\ NoDup [1; 3].
Proof. split; [reflexivity|]. repeat constructor; simpl; intuition discriminate. Qed.

(** A variable that is named twice: the array is too short. *)
Theorem C106_repeated_refuted : exists dim vars, (forall x, In x vars -> x < dim) /\ sobol_contract dim vars = UB.
Proof. exists 3, [1; 1]. split; [intros x [<-|[<-|[]]]; lia|reflexivity]. Qed.
Print Assumptions C106_repeated_refuted.

(** * Interactions *)
Section Interactions.
  Context {R : CRing}.
  Open Scope cr_scope.
  Add Ring Rr54 : (rth R).

  (** [IV c] is the variance after integrating out [c].  For every nonempty set of at
      most [order] variables an interaction can be read; the interactions of all
      nonempty subsets add up to the variance of the conditional expectation.  An
      order below two means every order. *)
  Theorem C106_interactions W (IV : list nat -> R) dim order : dim <= W ->
    exists m g, sobol_tree W IV dim order = Ok m /\
      forall vars, vars <> [] -> incr 0 dim vars -> (length vars <= order \/ order <= 1) ->
        get_interaction m vars = Ok (g vars) /\
        lsum (map g (nsubs vars)) = IV (others dim vars).
  Proof.
    intros HW. destruct (tree_ok W IV dim HW order) as (m & E & H).
    exists m, (gmob (fun L => IV (others dim L))). split; [exact E|]. intros vars Hne HI Hl. split.
    - apply good_get with (dim := dim) (IV := IV), H; auto. unfold eff. destruct order as [|[|o]]; simpl in *.
      + pose proof (inc_len W dim HW vars HI). destruct W; simpl; lia.
      + pose proof (inc_len W dim HW vars HI). lia.
      + lia.
    - now rewrite gmob_total.
  Qed.

  (** The main effect of a variable, and the interaction of that variable alone, is the variance of the
      expectation given that variable. *)
  Theorem C106_main W (IV : list nat -> R) dim order : dim <= W ->
    exists m, sobol_tree W IV dim order = Ok m /\
      forall a, a < dim -> get_main m a = Ok (IV (others dim [a])) /\ get_interaction m [a] = Ok (IV (others dim [a])).
  Proof.
    intros HW. destruct (C106_interactions W IV dim order HW) as (m & g & E & H). exists m. split; auto. intros a Ha.
    assert (G : get_interaction m [a] = Ok (IV (others dim [a]))).
    { destruct (H [a]) as (H1 & H2); [discriminate|simpl; auto with arith|simpl; lia|].
      rewrite H1, <- H2. f_equal. unfold lsum. simpl. ring. }
    split; exact G.
  Qed.

  (** ** Total effects *)
  Definition has (x : nat) (l : list nat) : bool := existsb (Nat.eqb x) l.

  Lemma nsubs_in (l : list nat) : forall s x, In s (nsubs l) -> In x s -> In x l.
  Proof.
    induction l as [|y l IH]; intros s x Hs Hx; [destruct Hs|]. cbn [nsubs] in Hs.
    apply in_app_or in Hs as [Hs|Hs].
    - apply in_map_iff in Hs as (s' & <- & Hs). destruct Hx as [->|Hx]; [now left|].
      destruct Hs as [<-|Hs]; [destruct Hx|right; now apply (IH s')].
    - right. now apply (IH s).
  Qed.

  Lemma lsum_filter (h : list nat -> R) (f : list nat -> bool) l :
    lsum (map h l) = lsum (map h (filter f l)) +! lsum (map h (filter (fun s => negb (f s)) l)).
  Proof.
    induction l as [|s l IH]; [unfold lsum; simpl; ring|]. unfold lsum in *. simpl. destruct (f s); simpl; rewrite IH; ring.
  Qed.

  Lemma filter_id {A} (f : A -> bool) l : (forall x, In x l -> f x = true) -> filter f l = l.
  Proof. induction l as [|x l IH]; intros H; simpl; auto. rewrite H by (now left). f_equal. apply IH. intros; apply H; now right. Qed.
  Lemma filter_nil {A} (f : A -> bool) l : (forall x, In x l -> f x = false) -> filter f l = [].
  Proof. induction l as [|x l IH]; intros H; simpl; auto. rewrite H by (now left). apply IH. intros; apply H; now right. Qed.
  Lemma filter_map_ {A B} (f : B -> bool) (h : A -> B) l : filter f (map h l) = map h (filter (fun x => f (h x)) l).
  Proof. induction l as [|x l IH]; simpl; auto. destruct (f (h x)); simpl; now rewrite IH. Qed.

  Lemma nsubs_without x l2 : forall l1, ~ In x l1 -> ~ In x l2 ->
    filter (fun s => negb (has x s)) (nsubs (l1 ++ x :: l2)) = nsubs (l1 ++ l2).
  Proof.
    induction l1 as [|y l1 IH]; intros H1 H2; cbn [app nsubs].
    - rewrite filter_app, filter_nil, filter_id; auto.
      + intros s Hs. apply negb_true_iff, not_true_iff_false. unfold has. rewrite existsb_in. intros Hc. apply H2. now apply (nsubs_in l2 s).
      + intros s Hs. apply in_map_iff in Hs as (s' & <- & _). unfold has. simpl. now rewrite Nat.eqb_refl.
    - assert (Hy : (x =? y) = false) by (apply Nat.eqb_neq; intros ->; apply H1; now left).
      rewrite filter_app, filter_map_. f_equal; [|apply IH; auto; intros Hc; apply H1; now right].
      f_equal. rewrite (filter_ext _ (fun s => negb (has x s))) by (intros s; unfold has; simpl; now rewrite Hy).
      cbn [filter has existsb negb]. f_equal. apply IH; auto. intros Hc. apply H1. now right.
  Qed.

  (** The total effect of a variable, before the division by the variance, is the sum
      of the interactions of all sets of variables that contain it. *)
  Theorem C106_total_effects W (IV : list nat -> R) dim order : dim <= W -> 2 <= dim -> (dim <= order \/ order <= 1) ->
    exists m g, sobol_tree W IV dim order = Ok m /\
      (forall vars, vars <> [] -> incr 0 dim vars -> get_interaction m vars = Ok (g vars)) /\
      sobol_variance IV = lsum (map g (nsubs (seq 0 dim))) /\
      forall a, a < dim -> nth_error (sobol_total_numerators IV dim) a
        = Some (lsum (map g (filter (has a) (nsubs (seq 0 dim))))).
  Proof.
    intros HW Hd Ho. destruct (C106_interactions W IV dim order HW) as (m & g & E & H). exists m, g. split; auto.
    assert (HS : forall n s d, s + n <= d -> incr s d (seq s n)).
    { induction n as [|n IH]; intros s d H1; simpl; auto. split; [lia|]. apply IH. lia. }
    assert (Hall : forall vars, incr 0 dim vars -> length vars <= order \/ order <= 1).
    { intros vars HI. pose proof (inc_len W dim HW vars HI). lia. }
    split; [intros vars Hn HI; now apply H; auto|].
    assert (Hfull : sobol_variance IV = lsum (map g (nsubs (seq 0 dim)))).
    { destruct (H (seq 0 dim)) as (_ & H2); [destruct dim; [lia|discriminate]|apply HS; lia|apply Hall, HS; lia|].
      rewrite H2. unfold sobol_variance. f_equal. symmetry. unfold others. apply filter_nil. intros x Hx.
      apply negb_false_iff, existsb_in. exact Hx. }
    split; [exact Hfull|]. intros a Ha. unfold sobol_total_numerators. rewrite nth_error_tab by auto. f_equal.
    assert (Es : seq 0 dim = seq 0 a ++ a :: seq (S a) (dim - S a)).
    { replace dim with (a + S (dim - S a)) at 1 by lia. rewrite seq_app. reflexivity. }
    assert (HI : incr 0 dim (seq 0 a ++ seq (S a) (dim - S a))).
    { assert (G : forall n s, s + n <= a -> incr s dim (seq s n ++ seq (S a) (dim - S a))).
      { induction n as [|n IH]; intros s Hs; simpl; [apply (incr_weaken _ (S a)); [lia|apply HS; lia]|]. split; [lia|]. apply IH. lia. }
      apply G. lia. }
    assert (Hne : seq 0 a ++ seq (S a) (dim - S a) <> []).
    { intros Hc. apply (f_equal (@length nat)) in Hc. rewrite app_length, !seq_length in Hc. simpl in Hc. lia. }
    destruct (H _ Hne HI (Hall _ HI)) as (_ & H2).
    assert (Eo : others dim (seq 0 a ++ seq (S a) (dim - S a)) = [a]).
    { unfold others. rewrite Es. rewrite filter_app. cbn [filter].
      rewrite (filter_nil _ (seq 0 a)), (filter_nil _ (seq (S a) _)).
      - destruct (existsb _ _) eqn:Ex; [|reflexivity]. apply existsb_in in Ex. rewrite in_app_iff, !in_seq in Ex. lia.
      - intros x Hx. apply negb_false_iff, existsb_in. apply in_or_app. auto.
      - intros x Hx. apply negb_false_iff, existsb_in. apply in_or_app. auto. }
    rewrite Eo in H2. rewrite Hfull, <- H2.
    rewrite (lsum_filter g (has a) (nsubs (seq 0 dim))). rewrite Es at 2.
    rewrite nsubs_without by (rewrite in_seq; lia). ring.
  Qed.

  (** ** The maximum order *)
  Lemma for_pres {S} (I : S -> Prop) (b : nat -> S -> outcome S) : (forall i s s', I s -> b i s = Ok s' -> I s') ->
    forall n lo s s', I s -> for_from lo n b s = Ok s' -> I s'.
  Proof.
    intros H. induction n as [|n IH]; intros lo s s' Hs E; simpl in E; [now injection E as <-|].
    destruct (b lo s) as [s1| | |] eqn:E1; try discriminate. apply (IH (Datatypes.S lo) s1); auto. now apply (H lo s).
  Qed.

  Lemma cvs_frame W (m m' : smem (R := R)) p : compute_var_subtract W m p = Ok m' -> forall q, q <> p -> m' q = m q.
  Proof.
    unfold compute_var_subtract. destruct (snode_at m p); try discriminate. cbn [obind].
    match goal with |- context [for_ ?n ?b r0] => destruct (for_ n b r0) end; try discriminate. cbn [obind].
    intros [= <-] q Hq. now apply sput_other.
  Qed.
  Lemma push_frame IV dim (m m' : smem (R := R)) p v w nl : sinteract_push IV dim m p v w nl = Ok m' ->
    forall q, q <> p ++ [w] -> m' q = m q.
  Proof.
    unfold sinteract_push. destruct (snode_at m p); try discriminate. cbn [obind].
    destruct (sinteract_create _ _ _ _ _); try discriminate. cbn [obind]. destruct (_ <? _); [|discriminate].
    intros [= <-] q Hq. now apply sput_other.
  Qed.

  Lemma comb_frame W IV dim : forall fuel left start p (m m' : smem (R := R)), 1 <= left ->
    get_combination W IV fuel dim left start p m = Ok m' ->
    forall q, length p + left < length q -> m' q = m q.
  Proof.
    induction fuel as [|fuel IH]; intros left start p m m' Hl E q Hq; [discriminate|]. cbn [get_combination] in E.
    destruct (compute_var_subtract W m p) as [m1| | |] eqn:E1; try discriminate. cbn [obind] in E.
    assert (F1 : m1 q = m q) by (apply (cvs_frame _ _ _ _ E1); intros ->; lia).
    rewrite <- F1. clear E1 F1.
    destruct (Nat.eqb_spec left 1) as [->|Hl1].
    - revert E. apply (for_pres (fun s => s q = m1 q)); auto. intros i s s' Hs Es. rewrite <- Hs.
      destruct (sinteract_push _ _ s p _ _ _) as [s1| | |] eqn:E2; try discriminate. cbn [obind] in Es.
      rewrite (cvs_frame _ _ _ _ Es), (push_frame _ _ _ _ _ _ _ _ E2); auto; intros ->; rewrite app_length in Hq; simpl in Hq; lia.
    - destruct (start =? 0); [discriminate|]. revert E. apply (for_pres (fun s => s q = m1 q)); auto. intros i s s' Hs Es. rewrite <- Hs.
      destruct (sinteract_push _ _ s p _ _ _) as [s1| | |] eqn:E2; try discriminate. cbn [obind] in Es.
      assert (Hp : spred W left = left - 1) by (destruct left; simpl; lia).
      assert (Hp1 : 1 <= spred W left) by lia. rewrite (IH _ _ _ _ _ Hp1 Es); [|rewrite app_length, Hp; simpl; lia].
      apply (push_frame _ _ _ _ _ _ _ _ E2). intros ->. rewrite app_length in Hq. simpl in Hq. lia.
  Qed.

  Lemma sens_none (m : smem (R := R)) k : (forall q, k < length q -> m q = None) ->
    forall vars p, k < length p + length vars -> get_sensitivity m p vars = UB.
  Proof.
    intros H. induction vars as [|x vars IH]; intros p Hk; cbn [get_sensitivity]; unfold snode_at.
    - rewrite H by (simpl in Hk; lia). reflexivity.
    - destruct (m p); [|reflexivity]. cbn [obind]. destruct (_ && _); [|reflexivity].
      apply IH. rewrite app_length. simpl in *. lia.
  Qed.

  Lemma tree_depth W (IV : list nat -> R) dim order m : 2 <= order ->
    sobol_tree W IV dim order = Ok m -> forall q, order < length q -> m q = None.
  Proof.
    intros Ho. unfold sobol_tree. apply (for_pres (fun s : smem (R := R) => forall q, order < length q -> s q = None)); auto.
    intros i s s' Hs Es q Hq. destruct (sinteract_create _ _ _ _ _) as [nd| | |]; try discriminate. cbn [obind] in Es.
    assert (Hp : spred W order = order - 1) by (destruct order; simpl; lia).
    assert (Hp1 : 1 <= spred W order) by lia. rewrite (comb_frame _ _ _ _ _ _ _ _ _ Hp1 Es) by (simpl; lia).
    rewrite sput_other by (intros ->; simpl in Hq; lia). now apply Hs.
  Qed.

  (** Nothing of a higher order than asked for, when at least two is asked for. *)
  Theorem C106_max_order W (IV : list nat -> R) dim order m : 2 <= order ->
    sobol_tree W IV dim order = Ok m -> forall vars, order < length vars -> get_interaction m vars = UB.
  Proof.
    intros Ho E vars Hv.
    pose proof (tree_depth W IV dim order m Ho E) as H.
    destruct vars as [|a [|b l]]; simpl in Hv; [lia|lia|]. cbn [get_interaction].
    apply (sens_none m order H). simpl. lia.
  Qed.
End Interactions.
Print Assumptions C106_interactions.
Print Assumptions C106_main.
Print Assumptions C106_total_effects.
Print Assumptions C106_max_order.

(** A product of four independent factors of mean one and variances 1, 2, 3, 4. *)
Definition IVx (c : list nat) : Zring :=
  (fold_right (fun i r => (2 + Z.of_nat i) * r) 1 (others 4 c) - 1)%Z.

(** The first-order analysis computes interactions of every order. *)
Theorem C106_order_one_refuted : exists (IV : list nat -> Zring) m v,
  sobol_tree 50 IV 4 1 = Ok m /\ get_interaction m [0; 1; 2] = Ok v.
Proof.
  destruct (C106_interactions 50 IVx 4 1) as (m & g & E & H); [lia|].
  exists IVx, m, (g [0; 1; 2]). split; auto. apply H; [discriminate|simpl; lia|right; lia].
Qed.
Print Assumptions C106_order_one_refuted.

Example interactions_example :
  (do m <- sobol_tree 50 IVx 4 3; get_interaction m [0; 1; 3]) = Ok 8%Z /\
  (do m <- sobol_tree 50 IVx 4 3; get_interaction m [0; 1; 2; 3]) = UB.
Proof. split; vm_compute; reflexivity. Qed.
