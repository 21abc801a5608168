(** The tree that the Sobol sensitivity analysis builds. *)
From Verif Require Import SobolModel SobolFacts FTCtor.

Section Mob.
  Context {R : CRing}.
  Open Scope cr_scope.
  Add Ring Rr52 : (rth R).

  Lemma lsum_app (l1 l2 : list R) : lsum (l1 ++ l2) = lsum l1 +! lsum l2.
  Proof. induction l1 as [|x l IH]; simpl; [unfold lsum; simpl; ring|]. unfold lsum in *. simpl. rewrite IH. ring. Qed.

  Lemma nsubs_sum (L : list nat) : forall h : list nat -> R,
    lsum (map h (nsubs L)) = sum (length L) (fun k => lsum (map h (ch (S k) L))).
  Proof.
    induction L as [|x l IH]; intros h; [reflexivity|].
    cbn [nsubs length]. rewrite map_app, lsum_app. cbn [map]. rewrite !map_map.
    rewrite (sum_ext R (S (length l)) _ (fun k => lsum (map (fun s => h (x :: s)) (ch k l)) +! lsum (map h (ch (S k) l)))).
    2:{ intros k _. cbn [ch]. rewrite map_app, lsum_app, map_map. reflexivity. }
    rewrite sum_add. f_equal.
    - rewrite sum_S_l, ch_0. rewrite <- (IH (fun s => h (x :: s))). unfold lsum. simpl. ring.
    - rewrite IH. cbn [sum]. rewrite (ch_long l (S (length l))) by lia. unfold lsum at 3. simpl. ring.
  Qed.

  Variable V : list nat -> R.

  (** Sum over the nonempty proper sublists, as accumulated by the code. *)
  Definition psum (g : list nat -> R) (L : list nat) : R :=
    sum (length L) (fun k => if k =? 0 then r0 else lsum (map g (ch k L))).

  Fixpoint gm (n : nat) (L : list nat) : R :=
    match n with
    | 0 => r0
    | S n' => V L -! psum (gm n') L
    end.
  Definition gmob (L : list nat) : R := gm (length L) L.

  Lemma psum_ext g g' L : (forall s, length s < length L -> 1 <= length s -> g s = g' s) -> psum g L = psum g' L.
  Proof.
    intros H. apply sum_ext. intros k Hk. destruct (Nat.eqb_spec k 0); auto. f_equal. apply map_ext_in.
    intros s Hs. apply ch_len in Hs. apply H; lia.
  Qed.

  Lemma gm_fuel : forall n m L, length L <= n -> length L <= m -> 1 <= length L -> gm n L = gm m L.
  Proof.
    induction n as [|n IH]; intros [|m] L Hn Hm H1; try lia. simpl. f_equal. apply psum_ext.
    intros s Hs H1'. apply IH; lia.
  Qed.

  Lemma gmob_eq L : L <> [] -> gmob L = V L -! psum gmob L.
  Proof.
    intros HL. unfold gmob at 1. destruct L as [|x l]; [congruence|]. cbn [length gm]. f_equal.
    apply psum_ext. intros s Hs H1. unfold gmob. apply gm_fuel; simpl in *; lia.
  Qed.

  Lemma gmob_one a : gmob [a] = V [a].
  Proof. rewrite gmob_eq by discriminate. unfold psum. simpl. ring. Qed.

  Lemma gmob_total L : L <> [] -> lsum (map gmob (nsubs L)) = V L.
  Proof.
    intros HL. rewrite nsubs_sum. destruct L as [|x l] eqn:E; [congruence|]. rewrite <- E.
    assert (Hl : length L = S (length l)) by (now rewrite E). rewrite Hl. cbn [sum].
    rewrite <- Hl, ch_full. cbn [map]. unfold lsum at 2. cbn [fold_right]. rewrite gmob_eq by (now rewrite E).
    unfold psum. rewrite Hl, sum_S_l. cbn [Nat.eqb]. ring.
  Qed.
End Mob.

Section Tree.
  Context {R : CRing}.
  Variable W : nat.
  Variable IV : list nat -> R.
  Variable dim : nat.
  Hypothesis HW : dim <= W.
  Open Scope cr_scope.
  Add Ring Rr53 : (rth R).

  Notation V := (fun L => IV (others dim L)).
  Notation g := (gmob V).
  Notation smem := (smem (R := R)).
  Notation snode := (snode (R := R)).

  Lemma interact_var_ok L : incr 0 dim L -> interact_var IV dim L = Ok (V L).
  Proof.
    intros HL. pose proof (incr_NoDup _ _ _ HL) as HN.
    assert (HR : forall x, In x L -> x < dim) by (intros x Hx; apply (incr_in _ _ _ _ HL) in Hx; lia).
    pose proof (others_len dim L HN HR) as Hlen. unfold interact_var.
    destruct (Nat.eqb_spec dim (length L)).
    - destruct (others dim L); [reflexivity|]. simpl in Hlen. lia.
    - destruct (Nat.ltb_spec dim (length L)); [lia|]. rewrite sobol_contract_ok by auto. reflexivity.
  Qed.

  (** * Walking down the tree *)
  Fixpoint walk (m : smem) (p l : list nat) : option (list nat * snode) :=
    match m p with
    | None => None
    | Some nd =>
        match l with
        | [] => Some (p, nd)
        | x :: l' => if (sn_val nd <? x) && (x - sn_val nd - 1 <? sn_nl nd)
                     then walk m (p ++ [x - sn_val nd - 1]) l' else None
        end
    end.
  Definition locate (m : smem) (L : list nat) : option (list nat * snode) :=
    match L with [] => None | a :: l => walk m [a] l end.

  Lemma walk_at m : forall l p q nd, walk m p l = Some (q, nd) -> m q = Some nd.
  Proof.
    induction l as [|x l IH]; intros p q nd; simpl; destruct (m p) as [nd0|] eqn:E; try discriminate.
    - intros [= <- <-]. auto.
    - destruct (_ && _); [apply IH|discriminate].
  Qed.
  Lemma locate_at m L q nd : locate m L = Some (q, nd) -> m q = Some nd.
  Proof. destruct L as [|a l]; [discriminate|]. apply walk_at. Qed.

  Lemma walk_snoc m x nd' : forall l p q nd, walk m p l = Some (q, nd) ->
    sn_val nd < x -> x - sn_val nd - 1 < sn_nl nd -> m (q ++ [x - sn_val nd - 1]) = Some nd' ->
    walk m p (l ++ [x]) = Some (q ++ [x - sn_val nd - 1], nd').
  Proof.
    induction l as [|y l IH]; intros p q nd H H1 H2 H3; simpl in *; destruct (m p) as [nd0|] eqn:E; try discriminate.
    - injection H as <- <-. rewrite (proj2 (Nat.ltb_lt _ _) H1), (proj2 (Nat.ltb_lt _ _) H2). simpl. now rewrite H3.
    - destruct (_ && _); [now apply IH with (1 := H)|discriminate].
  Qed.
  Lemma locate_snoc m x nd' L q nd : locate m L = Some (q, nd) ->
    sn_val nd < x -> x - sn_val nd - 1 < sn_nl nd -> m (q ++ [x - sn_val nd - 1]) = Some nd' ->
    locate m (L ++ [x]) = Some (q ++ [x - sn_val nd - 1], nd').
  Proof. destruct L as [|a l]; [discriminate|]. apply walk_snoc. Qed.

  Lemma sens_walk m : forall l p q nd, walk m p l = Some (q, nd) ->
    get_sensitivity m p l = Ok (match sn_sub nd with Some s => sn_vari nd -! s | None => sn_vari nd end).
  Proof.
    induction l as [|x l IH]; intros p q nd; cbn [walk get_sensitivity]; unfold snode_at; destruct (m p) as [nd0|] eqn:E; try discriminate.
    - intros [= <- <-]. simpl. now destruct (sn_sub nd0).
    - cbn [obind]. destruct (_ && _); [apply IH|discriminate].
  Qed.

  Definition same (nd nd' : snode) : Prop :=
    sn_val nd' = sn_val nd /\ sn_nl nd' = sn_nl nd /\ sn_label nd' = sn_label nd /\ sn_vari nd' = sn_vari nd /\
    (forall s, sn_sub nd = Some s -> sn_sub nd' = Some s).
  Definition le (m m' : smem) : Prop := forall p nd, m p = Some nd -> exists nd', m' p = Some nd' /\ same nd nd'.

  Lemma same_refl nd : same nd nd.
  Proof. unfold same. auto 6. Qed.
  Lemma le_refl m : le m m.
  Proof. intros p nd H. exists nd. split; auto. apply same_refl. Qed.
  Lemma le_trans m1 m2 m3 : le m1 m2 -> le m2 m3 -> le m1 m3.
  Proof.
    intros H1 H2 p nd H. destruct (H1 p nd H) as (nd1 & E1 & a1 & a2 & a3 & a4 & a5).
    destruct (H2 p nd1 E1) as (nd2 & E2 & b1 & b2 & b3 & b4 & b5). exists nd2. split; auto.
    unfold same. rewrite b1, b2, b3, b4. repeat split; auto.
  Qed.

  Lemma sput_same (m : smem) p nd : sput m p nd p = Some nd.
  Proof. unfold sput. destruct (list_eq_dec _ p p); congruence. Qed.
  Lemma sput_other (m : smem) p nd q : q <> p -> sput m p nd q = m q.
  Proof. unfold sput. destruct (list_eq_dec _ q p); congruence. Qed.
  Lemma sput_le_new (m : smem) p nd : m p = None -> le m (sput m p nd).
  Proof.
    intros H q nd0 Hq. exists nd0. split; [|apply same_refl]. rewrite sput_other; auto. intros ->. congruence.
  Qed.
  Lemma sput_le_old (m : smem) p nd nd' : m p = Some nd -> same nd nd' -> le m (sput m p nd').
  Proof.
    intros H HS q nd0 Hq. destruct (list_eq_dec Nat.eq_dec q p) as [->|Hne].
    - exists nd'. rewrite sput_same. split; auto. congruence.
    - exists nd0. rewrite sput_other by auto. split; auto. apply same_refl.
  Qed.

  Lemma walk_le m m' : le m m' -> forall l p q nd, walk m p l = Some (q, nd) ->
    exists nd', walk m' p l = Some (q, nd') /\ same nd nd'.
  Proof.
    intros HL. induction l as [|x l IH]; intros p q nd; simpl; destruct (m p) as [nd0|] eqn:E; try discriminate;
      destruct (HL _ _ E) as (nd1 & E1 & HS); rewrite E1.
    - intros [= <- <-]. exists nd1. auto.
    - destruct HS as (a1 & a2 & _). rewrite a1, a2. destruct (_ && _); [apply IH|discriminate].
  Qed.
  Lemma locate_le m m' L q nd : le m m' -> locate m L = Some (q, nd) ->
    exists nd', locate m' L = Some (q, nd') /\ same nd nd'.
  Proof. intros H. destruct L as [|a l]; [discriminate|]. now apply walk_le. Qed.

  (** The node of [L] is there and holds the right values. *)
  Definition good (m : smem) (L : list nat) : Prop :=
    exists q nd, locate m L = Some (q, nd) /\ sn_vari nd = V L /\ sn_sub nd = Some (psum g L).

  Lemma good_le m m' L : le m m' -> good m L -> good m' L.
  Proof.
    intros H (q & nd & H1 & H2 & H3). destruct (locate_le _ _ _ _ _ H H1) as (nd' & H4 & a1 & a2 & a3 & a4 & a5).
    exists q, nd'. split; auto. rewrite a4. auto.
  Qed.

  Lemma good_get m L : good m L -> get_interaction m L = Ok (g L).
  Proof.
    intros (q & nd & H1 & H2 & H3). destruct L as [|a [|b l]]; [discriminate| |].
    - cbn [get_interaction locate walk] in *. unfold snode_at. destruct (m [a]); [|discriminate].
      injection H1 as <- <-. cbn [obind]. rewrite H2, gmob_one. reflexivity.
    - cbn [get_interaction locate] in *. rewrite (sens_walk _ _ _ _ _ H1), H3, H2. f_equal.
      symmetry. apply (gmob_eq V). discriminate.
  Qed.

  (** * The variance to subtract *)
  Lemma pick_vars (L c : list nat) : (forall i, In i c -> i < length L) ->
    for_ (length c) (fun kk a => do i <- aget c kk; do x <- aget L i; aset a kk x) (repeat 0 (length c))
    = Ok (map (fun i => nth i L 0) c).
  Proof.
    intros H. rewrite repeat_tab. unfold for_.
    rewrite (loop_tab1 (length c) (fun _ => 0) (fun k => nth (nth k c 0) L 0)).
    - f_equal. rewrite (list_eq_tab_nth 0 c) at 2. rewrite map_tab. apply tab_ext. intros i Hi.
      destruct (Nat.ltb_spec i (0 + length c)); [reflexivity|lia].
    - intros k r Hk. rewrite (aget_ok c k (nth k c 0)) by (apply nth_error_nth'; lia). cbn [obind].
      rewrite (aget_ok L _ (nth (nth k c 0) L 0)) by (apply nth_error_nth', H, nth_In; lia). cbn [obind].
      apply aset_tab. lia.
  Qed.

  Lemma sum_loop_list (F : list nat -> R) body (il : list (list nat)) : forall vs,
    (forall t c vs, nth_error il t = Some c -> body t vs = Ok (vs +! F c)) ->
    for_ (length il) body vs = Ok (vs +! lsum (map F il)).
  Proof.
    intros vs H. destruct (for_inv (fun i v => v = vs +! lsum (map F (firstn i il))) body (length il) vs) as (v & E & ->).
    - unfold lsum. simpl. ring.
    - intros i v Hi ->. destruct (nth_error il i) as [c|] eqn:Ec; [|apply nth_error_None in Ec; lia].
      rewrite (H i c) by auto. eexists. split; [reflexivity|].
      assert (Ef : firstn (S i) il = firstn i il ++ [c]).
      { clear -Ec. revert i Ec. induction il as [|a il IH]; intros [|i] E; simpl in *; try discriminate; [congruence|]. f_equal. now apply IH. }
      rewrite Ef, map_app, lsum_app. unfold lsum at 3. simpl. ring.
    - rewrite E. now rewrite firstn_all.
  Qed.

  Lemma cvs_ok m p nd : m p = Some nd -> length (sn_label nd) <= W ->
    (forall k s, 1 <= k < length (sn_label nd) -> In s (ch k (sn_label nd)) -> get_interaction m s = Ok (g s)) ->
    compute_var_subtract W m p = Ok (sput m p (mksn (sn_val nd) (sn_nl nd) (sn_label nd) (sn_vari nd) (Some (psum g (sn_label nd))))).
  Proof.
    intros Hp HLW Hg. unfold compute_var_subtract, snode_at. rewrite Hp. cbn [obind].
    set (L := sn_label nd) in *.
    match goal with |- context [for_ (length L) ?b r0] =>
      destruct (for_inv (fun i v => v = sum i (fun k => if k =? 0 then r0 else lsum (map g (ch k L)))) b (length L) r0) as (v & E & ->) end.
    - reflexivity.
    - intros jj v Hj ->. destruct (Nat.eqb_spec jj 0) as [->|Hj0].
      + rewrite n_choose_k_zero by lia. cbn. eexists. split; [reflexivity|]. ring.
      + rewrite n_choose_k_ok by lia. cbn [obind app]. rewrite Nat.sub_0_r, map_id.
        set (il := ch jj (seq 0 (length L))).
        eexists. split.
        * apply (sum_loop_list (fun c => g (map (fun i => nth i L 0) c))).
          intros t c vs Ht. rewrite (aget_ok _ _ _ Ht). cbn [obind].
          apply nth_error_In in Ht.
          rewrite pick_vars.
          2:{ intros i Hi. assert (Hs : forall (l : list nat) s, In s (subs l) -> incl s l).
              { induction l as [|y l IHl]; intros s Hs; simpl in Hs; [destruct Hs as [<-|[]]; intros z Hz; auto|].
                apply in_app_or in Hs as [Hs|Hs]; [apply in_map_iff in Hs as (s' & <- & Hs)|].
                - intros z [->|Hz]; [now left|right; now apply (IHl s')].
                - intros z Hz. right. now apply (IHl s). }
              apply ch_subs in Ht. apply (Hs _ _ Ht) in Hi. apply in_seq in Hi. lia. }
          cbn [obind]. rewrite (Hg jj); [reflexivity|lia|].
          assert (EL : L = map (fun i => nth i L 0) (seq 0 (length L))) by (apply (list_eq_tab_nth 0 L)).
          pose proof (in_map (map (fun i => nth i L 0)) _ _ Ht) as Hm. unfold il in Hm. rewrite <- ch_map, <- EL in Hm. exact Hm.
        * cbn [sum]. destruct (Nat.eqb_spec jj 0); [lia|]. f_equal. f_equal.
          rewrite <- (map_map (map (fun i => nth i L 0)) g). f_equal. unfold il. rewrite <- ch_map. f_equal. symmetry. apply (list_eq_tab_nth 0 L).
    - rewrite E. reflexivity.
  Qed.

  (** * One node and everything below it *)
  Definition eff (left : nat) : nat := if left =? 0 then S W else left.

  Definition node_of (E : list nat) (e nl : nat) (nd : snode) : Prop :=
    sn_label nd = E /\ sn_val nd = e /\ sn_vari nd = V E /\ nl <= sn_nl nd.

  Lemma node_same E e nl nd nd' : same nd nd' -> node_of E e nl nd -> node_of E e nl nd'.
  Proof. intros (a1 & a2 & a3 & a4 & _) (b1 & b2 & b3 & b4). unfold node_of. rewrite a1, a2, a3, a4. auto. Qed.

  Lemma inc_len E : incr 0 dim E -> length E <= dim.
  Proof.
    intros H. assert (HR : forall x, In x E -> x < dim) by (intros x Hx; apply (incr_in _ _ _ _ H) in Hx; lia).
    pose proof (others_len dim E (incr_NoDup _ _ _ H) HR). lia.
  Qed.

  (** [compute_var_subtract] on a new node *)
  Lemma subtract_node m E e nl p nd : incr 0 dim E -> locate m E = Some (p, nd) -> node_of E e nl nd -> sn_sub nd = None ->
    (forall s, In s (subs E) -> length s < length E -> s <> [] -> good m s) ->
    exists m' nd', compute_var_subtract W m p = Ok m' /\ le m m' /\ good m' E /\
      (forall q, q <> p -> m' q = m q) /\ locate m' E = Some (p, nd') /\ node_of E e nl nd'.
  Proof.
    intros HE HL (N1 & N2 & N3 & N4) HS Hg. pose proof (locate_at _ _ _ _ HL) as Hp.
    pose proof (inc_len E HE) as Hlen.
    set (nd' := mksn (sn_val nd) (sn_nl nd) (sn_label nd) (sn_vari nd) (Some (psum g (sn_label nd)))).
    exists (sput m p nd'), nd'.
    assert (Hle : le m (sput m p nd')).
    { apply (sput_le_old m p nd); auto. unfold same, nd'. simpl. repeat split; auto. intros s Hs. congruence. }
    assert (HL' : locate (sput m p nd') E = Some (p, nd')).
    { destruct (locate_le _ _ _ _ _ Hle HL) as (nd2 & H2 & _). rewrite H2. apply locate_at in H2.
      rewrite sput_same in H2. now injection H2 as <-. }
    split; [|split; [exact Hle|split; [|split; [|split; [exact HL'|]]]]].
    - apply cvs_ok; auto; [rewrite N1; lia|]. rewrite N1. intros k s Hk Hs. apply good_get, Hg.
      + now apply (ch_subs _ k).
      + apply ch_len in Hs. lia.
      + apply ch_len in Hs. intros ->. simpl in Hs. lia.
    - exists p, nd'. split; [exact HL'|]. unfold nd'. simpl. rewrite N1. auto.
    - intros q Hq. now apply sput_other.
    - unfold node_of, nd'. simpl. auto.
  Qed.

  (** Adding a leaf *)
  Lemma push_node m E0 e p nd ii nl : let E := E0 ++ [e] in
    incr 0 dim E -> locate m E = Some (p, nd) -> node_of E e (dim - S e) nd -> S e <= ii < dim ->
    m (p ++ [ii - S e]) = None ->
    exists m' nd', sinteract_push IV dim m p ii (ii - S e) nl = Ok m' /\ le m m' /\
      locate m' (E ++ [ii]) = Some (p ++ [ii - S e], nd') /\ node_of (E ++ [ii]) ii nl nd' /\ sn_sub nd' = None /\
      (forall q, q <> p ++ [ii - S e] -> m' q = m q) /\ incr 0 dim (E ++ [ii]).
  Proof.
    intros E HE HL (N1 & N2 & N3 & N4) Hii HN. pose proof (locate_at _ _ _ _ HL) as Hp.
    assert (HI : incr 0 dim (E ++ [ii])) by (apply incr_app; split; auto; simpl; split; auto; lia).
    set (nd' := mksn ii nl (E ++ [ii]) (V (E ++ [ii])) None).
    exists (sput m (p ++ [ii - S e]) nd'), nd'.
    assert (Hle : le m (sput m (p ++ [ii - S e]) nd')) by (now apply sput_le_new).
    split; [|split; [exact Hle|split; [|split; [|split; [reflexivity|split; [|exact HI]]]]]].
    - unfold sinteract_push, snode_at, sinteract_create. rewrite Hp. cbn [obind]. rewrite N1, interact_var_ok by exact HI.
      cbn [obind]. destruct (Nat.ltb_spec (ii - S e) (sn_nl nd)); [reflexivity|lia].
    - destruct (locate_le _ _ _ _ _ Hle HL) as (nd2 & H2 & a1 & a2 & _).
      replace (ii - S e) with (ii - sn_val nd2 - 1) in * by lia.
      apply locate_snoc with (1 := H2); try lia. now rewrite sput_same.
    - unfold node_of, nd'. simpl. auto.
    - intros q Hq. now apply sput_other.
  Qed.

  Lemma path_ne (p : list nat) i j q r : i <> j -> p ++ j :: q <> (p ++ [i]) ++ r.
  Proof. intros H E. rewrite <- app_assoc in E. apply app_inv_head in E. simpl in E. congruence. Qed.

  Lemma combination_ok : forall fuel left E0 e p m nd,
    let E := E0 ++ [e] in
    incr 0 dim E -> e < dim -> dim - e < fuel ->
    locate m E = Some (p, nd) -> node_of E e (dim - S e) nd -> sn_sub nd = None ->
    (forall j q, m (p ++ j :: q) = None) ->
    (forall s T, In s (subs E) -> length s < length E -> incr (S e) dim T -> length T <= eff left -> s ++ T <> [] -> good m (s ++ T)) ->
    exists m', get_combination W IV fuel dim left (S e) p m = Ok m' /\ le m m' /\
      (forall q, (forall r, q <> p ++ r) -> m' q = m q) /\
      (forall T, incr (S e) dim T -> length T <= eff left -> good m' (E ++ T)).
  Proof.
    induction fuel as [|fuel IH]; intros left E0 e p m nd E HE He Hf HL HN HS Hempty Hpre; [lia|].
    cbn [get_combination].
    destruct (subtract_node m E e (dim - S e) p nd HE HL HN HS) as (m1 & nd1 & -> & Hle1 & Hgood1 & Hfr1 & HL1 & HN1).
    { intros s Hs Hlt Hne. rewrite <- (app_nil_r s). apply Hpre; auto; [exact I|simpl; lia|now rewrite app_nil_r]. }
    cbn [obind].
    assert (Hempty1 : forall j q, m1 (p ++ j :: q) = None).
    { intros j q. rewrite Hfr1, Hempty; auto. intros Hc. rewrite <- (app_nil_r p) in Hc at 2. apply app_inv_head in Hc. discriminate. }
    assert (Hpre1 : forall s T, In s (subs E) -> length s < length E -> incr (S e) dim T -> length T <= eff left -> s ++ T <> [] -> good m1 (s ++ T)).
    { intros s T Hs Hl HT HTl Hne. apply (good_le m); auto. }
    assert (Hlen : length E = S (length E0)) by (unfold E; rewrite app_length; simpl; lia).
    destruct (Nat.eqb_spec left 1) as [->|Hleft].
    - (* the last level *)
      match goal with |- context [for_from (S e) _ ?b m1] =>
      destruct (for_from_inv (fun i m' => le m1 m' /\ (forall q, (forall r, q <> p ++ r) -> m' q = m1 q) /\
          (forall j q, i - S e <= j -> m' (p ++ j :: q) = None) /\ (forall x, S e <= x < i -> good m' (E ++ [x])))
          b (S e) (dim - S e) m1) as (m2 & Em & J1 & J2 & J3 & J4) end.
      + split; [apply le_refl|]. split; [auto|]. split; [auto|]. intros x Hx. lia.
      + intros ii m2 Hii (J1 & J2 & J3 & J4).
        destruct (locate_le _ _ _ _ _ J1 HL1) as (nd2 & HL2 & HS2).
        destruct (push_node m2 E0 e p nd2 ii 0 HE HL2 (node_same _ _ _ _ _ HS2 HN1)) as (m3 & nd3 & -> & K1 & K2 & K3 & K4 & K5 & K6); [lia|apply J3; lia|].
        cbn [obind].
        destruct (subtract_node m3 (E ++ [ii]) ii 0 (p ++ [ii - S e]) nd3 K6 K2 K3 K4) as (m4 & nd4 & -> & M1 & M2 & M3 & _).
        { intros s Hs Hlt Hne. apply (good_le m2); auto. apply subs_snoc in Hs as (s' & Hs & Hc).
          pose proof (subs_len _ _ Hs) as Hsl.
          destruct (Nat.eq_dec (length s') (length E)) as [Hfull|Hpart].
          - assert (s' = E) by (apply subs_full; auto; lia). subst s'.
            destruct Hc as [->| ->]; [apply (good_le m1); auto|lia].
          - apply (good_le m1); auto. destruct Hc as [->| ->].
            + rewrite <- (app_nil_r s'). apply Hpre1; auto; [lia|exact I|simpl; lia|now rewrite app_nil_r].
            + apply Hpre1; auto; [lia|simpl; split; auto; lia]. }
        eexists. split; [reflexivity|]. split; [|split; [|split]].
        * apply (le_trans _ m2); auto. apply (le_trans _ m3); auto.
        * intros q Hq. rewrite M3, K5, J2; auto.
        * intros j q Hj. rewrite M3, K5, J3 by first [lia | (rewrite <- (app_nil_r (p ++ [_])); apply path_ne; lia)]. reflexivity.
        * intros x Hx. destruct (Nat.eq_dec x ii) as [->|]; auto.
          apply (good_le m3); auto. apply (good_le m2); auto. apply J4. lia.
      + rewrite Em. exists m2. split; auto. split; [now apply (le_trans _ m1)|]. split.
        * intros q Hq. rewrite J2 by auto. apply Hfr1. specialize (Hq []). now rewrite app_nil_r in Hq.
        * intros T HT Hl. destruct T as [|x [|y T]]; [rewrite app_nil_r; now apply (good_le m1)| |unfold eff in Hl; simpl in Hl; lia].
          apply J4. simpl in HT. lia.
    - (* the other levels *)
      cbn [Nat.eqb].
      assert (Heff : 2 <= eff left /\ eff (spred W left) = eff left - 1).
      { unfold eff. destruct left as [|[|l]]; simpl; try lia. destruct W; simpl; lia. }
      match goal with |- context [for_ _ ?b m1] =>
      destruct (for_inv (fun t m' => le m1 m' /\ (forall q, (forall r, q <> p ++ r) -> m' q = m1 q) /\
          (forall j q, j < dim - S e - t -> m' (p ++ j :: q) = None) /\
          (forall x T, S e <= x -> dim - t <= x < dim -> incr (S x) dim T -> length T <= eff left - 1 -> good m' (E ++ x :: T)))
          b (dim - S e) m1) as (m2 & Em & J1 & J2 & J3 & J4) end.
      + split; [apply le_refl|]. split; [auto|]. split; [auto|]. intros x T _ Hx. lia.
      + intros t m2 Ht (J1 & J2 & J3 & J4). set (ii := dim - 1 - t).
        destruct (locate_le _ _ _ _ _ J1 HL1) as (nd2 & HL2 & HS2).
        destruct (push_node m2 E0 e p nd2 ii (dim - ii - 1) HE HL2 (node_same _ _ _ _ _ HS2 HN1)) as (m3 & nd3 & -> & K1 & K2 & K3 & K4 & K5 & K6); [unfold ii; lia|apply J3; unfold ii; lia|].
        cbn [obind]. rewrite (Nat.add_1_r ii).
        assert (Hii : S e <= ii < dim) by (unfold ii; lia).
        destruct (IH (spred W left) E ii (p ++ [ii - S e]) m3 nd3) as (m4 & -> & M1 & M2 & M3); auto; try lia.
        { replace (dim - S ii) with (dim - ii - 1) by lia. exact K3. }
        { intros j q. rewrite K5.
          - rewrite <- app_assoc. simpl. apply J3. unfold ii. lia.
          - rewrite <- (app_nil_r (p ++ [ii - S e])) at 2. intros Hc. apply app_inv_head in Hc. discriminate. }
        { intros s T Hs Hlt HT HTl Hne. rewrite (proj2 Heff) in HTl. apply (good_le m2); auto.
          apply subs_snoc in Hs as (s' & Hs & Hc). pose proof (subs_len _ _ Hs) as Hsl. rewrite app_length in Hlt. simpl in Hlt.
          assert (HT' : incr (S e) dim T) by (apply (incr_weaken _ (S ii)); auto; lia).
          destruct (Nat.eq_dec (length s') (length E)) as [Hfull|Hpart].
          - assert (s' = E) by (apply subs_full; auto; lia). subst s'.
            destruct Hc as [->| ->]; [|rewrite app_length in Hlt; simpl in Hlt; lia].
            destruct T as [|x T]; [rewrite app_nil_r; now apply (good_le m1)|].
            simpl in HT. apply J4; try (unfold ii in *; lia); [tauto|simpl in HTl; lia].
          - apply (good_le m1); auto. destruct Hc as [->| ->].
            + apply Hpre1; auto; lia.
            + rewrite <- app_assoc. apply Hpre1; auto; [lia|simpl; split; auto; lia|simpl; lia|].
              intros Hc. apply app_eq_nil in Hc as [_ Hc]. discriminate. }
        eexists. split; [reflexivity|]. split; [|split; [|split]].
        * apply (le_trans _ m2); auto. apply (le_trans _ m3); auto.
        * intros q Hq. rewrite M2, K5, J2; auto. intros r. rewrite <- app_assoc. apply Hq.
        * intros j q Hj. rewrite M2 by (intros r; apply path_ne; unfold ii; lia).
          rewrite K5 by (rewrite <- (app_nil_r (p ++ [_])); apply path_ne; unfold ii; lia). apply J3. lia.
        * intros x T Hx1 Hx2 HT HTl. destruct (Nat.eq_dec x ii) as [->|Hne].
          -- replace (E ++ ii :: T) with ((E ++ [ii]) ++ T) by (now rewrite <- app_assoc). apply M3; auto. lia.
          -- apply (good_le m3); auto. apply (good_le m2); auto. apply J4; auto. unfold ii in *. lia.
      + rewrite Em. exists m2. split; auto. split; [now apply (le_trans _ m1)|]. split.
        * intros q Hq. rewrite J2 by auto. apply Hfr1. specialize (Hq []). now rewrite app_nil_r in Hq.
        * intros T HT Hl. destruct T as [|x T]; [rewrite app_nil_r; now apply (good_le m1)|].
          simpl in HT, Hl. apply J4; [lia|lia|tauto|lia].
  Qed.

  (** * The whole tree *)
  Lemma tree_ok order : exists m, sobol_tree W IV dim order = Ok m /\
    forall L, L <> [] -> incr 0 dim L -> length L <= S (eff (spred W order)) -> good m L.
  Proof.
    unfold sobol_tree.
    match goal with |- context [for_ dim ?b ?m0] =>
    destruct (for_inv (fun i m => (forall a q, a < dim - i -> m (a :: q) = None) /\
        (forall L, L <> [] -> incr (dim - i) dim L -> length L <= S (eff (spred W order)) -> good m L)) b dim m0) as (m & Em & J1 & J2) end.
    - split; auto. intros [|x L] HL Hi; [congruence|]. simpl in Hi. lia.
    - intros i m Hi (J1 & J2). set (a := dim - 1 - i).
      assert (HE : incr 0 dim [a]) by (simpl; unfold a; split; auto; lia).
      unfold sinteract_create. cbn [app]. rewrite interact_var_ok by exact HE. cbn [obind].
      set (nd := mksn a (dim - 1) [a] (IV (others dim [a])) None).
      assert (Hle : le m (sput m [a] nd)) by (apply sput_le_new, J1; unfold a; lia).
      replace (dim - i) with (S a) by (unfold a; lia).
      destruct (combination_ok (S dim) (spred W order) [] a [a] (sput m [a] nd) nd) as (m' & -> & M1 & M2 & M3); auto.
      + unfold a; lia.
      + lia.
      + cbn [app locate walk]. now rewrite sput_same.
      + unfold node_of, nd. simpl. repeat split; auto. lia.
      + intros j q. rewrite sput_other by discriminate. apply J1. unfold a. lia.
      + intros s T Hs Hlt HT HTl Hne. destruct s; [|simpl in Hlt; lia]. apply (good_le m); auto.
        apply J2; auto. replace (dim - i) with (S a) by (unfold a; lia). exact HT.
      + eexists. split; [reflexivity|]. split.
        * intros b q Hb. rewrite M2, sput_other; [apply J1; lia| |].
          -- intros Hc. injection Hc as Hc _. unfold a in *. lia.
          -- intros r Hc. injection Hc as Hc _. unfold a in *. lia.
        * intros [|x L] HL HI Hl; [congruence|]. destruct HI as (Hx & HI). destruct (Nat.eq_dec x a) as [->|Hne].
          -- apply (M3 L); auto. simpl in Hl. lia.
          -- apply (good_le (sput m [a] nd)); auto. apply (good_le m); auto. apply J2; auto. split; auto. unfold a in *. lia.
    - exists m. split; [exact Em|]. intros L HL HI Hl. apply J2; auto. rewrite Nat.sub_diag. exact HI.
  Qed.
End Tree.
