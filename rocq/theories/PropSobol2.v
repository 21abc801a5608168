(** C106, continued: the calls made by c3_sobol_sensitivity_apply_external. *)
From Verif Require Import SobolModel SobolFacts SobolTree PropSobol Instances.
From Coq Require Import ZArith.

Section Calls.
  Context {R : CRing}.
  Variable W : nat.
  Variable IV : list nat -> R.
  Variable dim : nat.
  Open Scope cr_scope.
  Notation smem := (smem (R := R)).
  Notation snode := (snode (R := R)).

  (** The address of the node of a set of variables. *)
  Fixpoint pth (v : nat) (l : list nat) : list nat :=
    match l with [] => [] | x :: l' => (x - S v) :: pth x l' end.
  Definition addr (L : list nat) : list nat := match L with [] => [] | a :: l => a :: pth a l end.

  Lemma pth_inj : forall l l' v, incr (S v) dim l -> incr (S v) dim l' -> pth v l = pth v l' -> l = l'.
  Proof.
    induction l as [|x l IH]; intros [|y l'] v H H' E; simpl in *; try discriminate; auto.
    injection E as E1 E2. assert (x = y) by lia. subst y. f_equal. apply (IH l' x); tauto.
  Qed.
  Lemma addr_inj L L' : incr 0 dim L -> incr 0 dim L' -> addr L = addr L' -> L = L'.
  Proof.
    destruct L as [|a l], L' as [|b l']; simpl; try discriminate; auto. intros (_ & H) (_ & H') [= <- E].
    f_equal. now apply (pth_inj l l' a).
  Qed.
  Lemma last_cons (a : nat) l d : last (a :: l) d = last l a.
  Proof. revert a d. induction l as [|b l IH]; intros a d; [reflexivity|]. change (last (b :: l) d = last (b :: l) a). now rewrite !IH. Qed.
  Lemma pth_snoc x : forall l v, pth v (l ++ [x]) = pth v l ++ [x - S (last l v)].
  Proof.
    induction l as [|y l IH]; intros v; [reflexivity|]. cbn [app pth]. rewrite IH, last_cons. reflexivity.
  Qed.
  Lemma addr_snoc L x : L <> [] -> addr (L ++ [x]) = addr L ++ [x - S (last L 0)].
  Proof. destruct L as [|a l]; [congruence|]. intros _. cbn [app addr]. rewrite pth_snoc, last_cons. reflexivity. Qed.
  Lemma pth_len : forall l v, length (pth v l) = length l.
  Proof. induction l; simpl; auto. Qed.
  Lemma addr_len L : length (addr L) = length L.
  Proof. destruct L; simpl; auto. now rewrite pth_len. Qed.

  Lemma incr_last L x T : L <> [] -> (incr 0 dim (L ++ x :: T) <-> incr 0 dim L /\ incr (S (last L 0)) dim (x :: T)).
  Proof.
    intros H. destruct (exists_last H) as (l & e & ->). rewrite incr_app. rewrite last_last. reflexivity.
  Qed.

  (** Every node sits at the address of its label. *)
  Definition placed (m : smem) : Prop := forall p nd, m p = Some nd ->
    sn_label nd <> [] /\ incr 0 dim (sn_label nd) /\ p = addr (sn_label nd) /\ sn_val nd = last (sn_label nd) 0.
  Definition keeps (m m' : smem) : Prop := forall p nd, m p = Some nd -> exists nd', m' p = Some nd' /\ sn_label nd' = sn_label nd.

  Lemma keeps_refl m : keeps m m.
  Proof. intros p nd H. eauto. Qed.
  Lemma keeps_trans m1 m2 m3 : keeps m1 m2 -> keeps m2 m3 -> keeps m1 m3.
  Proof. intros H1 H2 p nd H. destruct (H1 _ _ H) as (n1 & E1 & F1). destruct (H2 _ _ E1) as (n2 & E2 & F2). exists n2. split; auto. congruence. Qed.

  Lemma cvs_placed m m' p : placed m -> compute_var_subtract W m p = Ok m' -> placed m' /\ keeps m m'.
  Proof.
    intros HP. unfold compute_var_subtract, snode_at. destruct (m p) as [nd|] eqn:Ep; [|discriminate]. cbn [obind].
    match goal with |- context [for_ ?n ?b r0] => destruct (for_ n b r0) end; try discriminate. cbn [obind]. intros [= <-].
    split; intros q nd0; (destruct (list_eq_dec Nat.eq_dec q p) as [->|Hq]; [rewrite sput_same|rewrite sput_other by auto]).
    - intros [= <-]. simpl. now apply HP.
    - apply HP.
    - rewrite Ep. intros [= <-]. eexists. split; [reflexivity|reflexivity].
    - eauto.
  Qed.

  Lemma push_placed m m' p nd ii nl : placed m -> m p = Some nd -> S (last (sn_label nd) 0) <= ii < dim ->
    sinteract_push IV dim m p ii (ii - S (last (sn_label nd) 0)) nl = Ok m' ->
    placed m' /\ keeps m m' /\ exists nd', m' (p ++ [ii - S (last (sn_label nd) 0)]) = Some nd' /\ sn_label nd' = sn_label nd ++ [ii].
  Proof.
    intros HP Ep Hii. unfold sinteract_push, snode_at, sinteract_create. rewrite Ep. cbn [obind].
    destruct (interact_var _ _ _) as [v| | |]; try discriminate. cbn [obind]. destruct (_ <? _); [|discriminate]. intros [= <-].
    destruct (HP _ _ Ep) as (N1 & N2 & N3 & N4). set (E := sn_label nd) in *. set (w := ii - S (last E 0)).
    assert (HI : incr 0 dim (E ++ [ii])) by (apply incr_last; auto; split; auto; simpl; split; auto; lia).
    assert (HA : p ++ [w] = addr (E ++ [ii])) by (rewrite addr_snoc by auto; now rewrite N3).
    split; [|split].
    - intros q nd0. destruct (list_eq_dec Nat.eq_dec q (p ++ [w])) as [->|Hq]; [rewrite sput_same|rewrite sput_other by auto; apply HP].
      intros [= <-]. simpl. rewrite last_last. repeat split; auto. destruct E; discriminate.
    - intros q nd0 H0. destruct (list_eq_dec Nat.eq_dec q (p ++ [w])) as [->|Hq]; [rewrite sput_same|rewrite sput_other by auto; eauto].
      eexists. split; [reflexivity|]. simpl. destruct (HP _ _ H0) as (_ & M2 & M3 & _).
      apply addr_inj; auto. congruence.
    - eexists. split; [apply sput_same|reflexivity].
  Qed.

  Lemma for_pres_ {S} (I : S -> Prop) (b : nat -> S -> outcome S) n : forall lo s s',
    (forall i s s', lo <= i < lo + n -> I s -> b i s = Ok s' -> I s') -> I s -> for_from lo n b s = Ok s' -> I s'.
  Proof.
    induction n as [|n IH]; intros lo s s' H Hs E; simpl in E; [now injection E as <-|].
    destruct (b lo s) as [s1| | |] eqn:E1; try discriminate. apply (IH (Datatypes.S lo) s1); auto.
    - intros i t t' Hi. apply H. lia.
    - apply (H lo s); auto. lia.
  Qed.

  Lemma comb_placed : forall fuel left p m m' nd, placed m -> m p = Some nd ->
    get_combination W IV fuel dim left (S (last (sn_label nd) 0)) p m = Ok m' -> placed m' /\ keeps m m'.
  Proof.
    induction fuel as [|fuel IH]; intros left p m m' nd HP Ep E; [discriminate|]. cbn [get_combination] in E.
    destruct (compute_var_subtract W m p) as [m1| | |] eqn:E1; try discriminate. cbn [obind] in E.
    destruct (cvs_placed _ _ _ HP E1) as (P1 & K1). clear E1.
    set (s := S (last (sn_label nd) 0)) in *.
    destruct (left =? 1).
    - revert E. apply (for_pres_ (fun t => placed t /\ keeps m t)); [|auto].
      intros i t t' Hi (Pt & Kt) Et. destruct (Kt _ _ Ep) as (ndt & Ept & Elt).
      assert (Es : s = S (last (sn_label ndt) 0)) by (unfold s; now rewrite Elt).
      destruct (sinteract_push _ _ t p _ _ _) as [t1| | |] eqn:E2; try discriminate. cbn [obind] in Et. rewrite Es in *.
      assert (Hr : S (last (sn_label ndt) 0) <= i < dim) by lia.
      destruct (push_placed _ _ _ _ _ _ Pt Ept Hr E2) as (P2 & K2 & _).
      destruct (cvs_placed _ _ _ P2 Et) as (P3 & K3). split; auto. eapply keeps_trans; [|exact K3]. eapply keeps_trans; eauto.
    - destruct (s =? 0); [discriminate|]. revert E. apply (for_pres_ (fun t => placed t /\ keeps m t)); [|auto].
      intros i t t' Hi (Pt & Kt) Et. destruct (Kt _ _ Ep) as (ndt & Ept & Elt).
      assert (Es : s = S (last (sn_label ndt) 0)) by (unfold s; now rewrite Elt).
      cbv zeta in Et.
      destruct (sinteract_push _ _ t p _ _ _) as [t1| | |] eqn:E2; try discriminate. cbn [obind] in Et. rewrite Es in *.
      assert (Hr : S (last (sn_label ndt) 0) <= dim - 1 - i < dim) by lia.
      destruct (push_placed _ _ _ _ _ _ Pt Ept Hr E2) as (P2 & K2 & nd2 & Ep2 & El2).
      assert (Est : dim - 1 - i + 1 = S (last (sn_label nd2) 0)) by (rewrite El2, last_last; lia). rewrite Est in Et.
      destruct (IH _ _ _ _ _ P2 Ep2 Et) as (P3 & K3). split; auto. eapply keeps_trans; [|exact K3]. eapply keeps_trans; eauto.
  Qed.

  Lemma tree_placed order m : sobol_tree W IV dim order = Ok m -> placed m.
  Proof.
    unfold sobol_tree. apply (for_pres_ placed); [|intros p nd; discriminate].
    intros i s s' Hi HP Es. unfold sinteract_create in Es. cbn [app] in Es.
    destruct (interact_var _ _ _) as [v| | |]; try discriminate. cbn [obind] in Es.
    set (a := dim - 1 - i) in *. set (nd := mksn a (dim - 1) [a] v None) in *.
    assert (P1 : placed (sput s [a] nd)).
    { intros p n. destruct (list_eq_dec Nat.eq_dec p [a]) as [->|Hp]; [rewrite sput_same|rewrite sput_other by auto; apply HP].
      intros [= <-]. unfold nd. simpl. repeat split; auto; [discriminate|lia|unfold a; lia]. }
    assert (Est : dim - i = S (last (sn_label nd) 0)) by (unfold nd, a; simpl; lia). rewrite Est in Es.
    eapply comb_placed; [exact P1|apply sput_same|exact Es].
  Qed.

  (** * Where the nodes are *)
  Lemma walk_addr (m : smem) : placed m -> forall l L q nd, L <> [] -> incr 0 dim (L ++ l) -> walk m (addr L) l = Some (q, nd) ->
    q = addr (L ++ l).
  Proof.
    intros HP. induction l as [|x l IH]; intros L q nd HL HI; simpl; destruct (m (addr L)) as [n0|] eqn:E; try discriminate.
    - intros [= <- _]. now rewrite app_nil_r.
    - destruct (HP _ _ E) as (A1 & A2 & A3 & A4). pose proof HI as HI'. apply incr_last in HI' as (B1 & B2); auto.
      assert (L = sn_label n0) by (apply addr_inj; auto). subst L.
      destruct (_ && _); [|discriminate]. replace (x - sn_val n0 - 1) with (x - S (last (sn_label n0) 0)) by lia.
      rewrite <- addr_snoc by auto. intros H. apply IH in H; [|destruct (sn_label n0); discriminate|now rewrite <- app_assoc].
      now rewrite <- app_assoc in H.
  Qed.

  Lemma walk_snoc_inv (m : smem) x : forall l p r, walk m p (l ++ [x]) = Some r ->
    exists q (nd : snode), walk m p l = Some (q, nd) /\ x - sn_val nd - 1 < sn_nl nd.
  Proof.
    induction l as [|y l IH]; intros p r; simpl; destruct (m p) as [n0|] eqn:E; try discriminate.
    - destruct ((sn_val n0 <? x) && _) eqn:Eb; [|discriminate]. apply andb_prop in Eb as (_ & Eb). apply Nat.ltb_lt in Eb. eauto.
    - destruct (_ && _); [apply IH|discriminate].
  Qed.

  Lemma good_at (m : smem) L : placed m -> incr 0 dim L -> good IV dim m L ->
    exists nd, m (addr L) = Some nd /\ sn_label nd = L /\ sn_val nd = last L 0 /\
      (match sn_sub nd with Some s => sn_vari nd -! s | None => sn_vari nd end) = gmob (fun L => IV (others dim L)) L.
  Proof.
    intros HP HI (q & nd & H1 & H2 & H3). destruct L as [|a l]; [discriminate|]. cbn [locate] in H1.
    pose proof (walk_addr m HP l [a] q nd ltac:(discriminate) HI H1) as ->. apply walk_at in H1.
    change ([a] ++ l) with (a :: l) in H1. exists nd. split; auto. destruct (HP _ _ H1) as (A1 & A2 & A3 & A4).
    assert (E : sn_label nd = a :: l) by (apply addr_inj; auto). split; auto. split; [now rewrite <- E|].
    rewrite H3, H2. symmetry. apply (gmob_eq (fun L => IV (others dim L))). discriminate.
  Qed.

  Lemma good_child (m : smem) L x nd : placed m -> L <> [] -> incr 0 dim (L ++ [x]) -> good IV dim m (L ++ [x]) -> m (addr L) = Some nd ->
    x - S (last L 0) < sn_nl nd.
  Proof.
    intros HP HL HI (q & n1 & H1 & _) Hm. destruct L as [|a l]; [congruence|]. cbn [app locate] in H1.
    apply walk_snoc_inv in H1 as (q0 & n0 & H0 & Hlt).
    assert (HI0 : incr 0 dim (a :: l)) by (apply (incr_last (a :: l) x []) in HI; [tauto|discriminate]).
    pose proof (walk_addr m HP l [a] q0 n0 ltac:(discriminate) HI0 H0) as ->. apply walk_at in H0.
    change ([a] ++ l) with (a :: l) in H0. rewrite H0 in Hm. injection Hm as <-.
    destruct (HP _ _ H0) as (A1 & A2 & A3 & A4). assert (E : a :: l = sn_label n0) by (apply addr_inj; auto).
    rewrite E, <- A4. lia.
  Qed.

  (** * The calls below a node *)
  Variable order : nat.
  Definition allowed (L : list nat) : Prop := length L <= order \/ order <= 1.
  Notation g := (gmob (fun L => IV (others dim L))).

  Definition below (L : list nat) (c : R * list nat) : Prop :=
    exists T, snd c = L ++ T /\ incr (S (last L 0)) dim T /\ allowed (snd c) /\ fst c = g (snd c).

  Lemma visit_ok (m : smem) : placed m ->
    (forall L, L <> [] -> incr 0 dim L -> allowed L -> good IV dim m L) ->
    (forall L, incr 0 dim L -> ~ allowed L -> m (addr L) = None) ->
    forall fuel L calls, dim <= fuel + last L 0 -> L <> [] -> incr 0 dim L -> allowed L ->
    exists r, apply_external fuel m (addr L) calls = Ok (calls ++ r) /\ NoDup (map snd r) /\ forall c, In c r <-> below L c.
  Proof.
    intros HP Hgood Hdeep. induction fuel as [|fuel IH]; intros L calls Hf HL HI HA;
      destruct (good_at m L HP HI (Hgood L HL HI HA)) as (nd & Em & El & Ev & Eg); cbn [apply_external]; rewrite Em.
    { exfalso. assert (H : last L 0 < dim); [|simpl in Hf; lia]. destruct (exists_last HL) as (l & e & ->). rewrite last_last.
      apply (incr_in _ _ _ e) in HI; [lia|]. apply in_or_app. right. now left. }
    cbv zeta. rewrite Eg, El. set (e := last L 0) in *.
    match goal with |- context [for_ (sn_nl nd) ?b ?c0] =>
    destruct (for_inv (fun j cs => exists r, cs = (calls ++ [(g L, L)]) ++ r /\ NoDup (map snd r) /\
        forall c, In c r <-> exists x T, snd c = L ++ x :: T /\ x - S e < j /\ incr (S e) dim (x :: T) /\ allowed (snd c) /\ fst c = g (snd c))
        b (sn_nl nd) c0) as (cs & E & r & -> & N & C) end.
    - exists []. rewrite app_nil_r. split; auto. split; [constructor|]. intros c. split; [intros []|]. intros (x & T & _ & H & _). lia.
    - intros j cs Hj (r & -> & N & C). set (x := S e + j).
      assert (Ex : x - S e = j) by (unfold x; lia).
      assert (Eadd : addr L ++ [j] = addr (L ++ [x])) by (rewrite addr_snoc by auto; fold e; now rewrite Ex).
      assert (Hx : (x < dim /\ allowed (L ++ [x])) \/ m (addr L ++ [j]) = None).
      { destruct (lt_dec x dim) as [Hd|Hd].
        - assert (HI' : incr 0 dim (L ++ [x])) by (apply incr_last; auto; split; auto; fold e; simpl; split; auto; unfold x; lia).
          destruct (le_dec (length (L ++ [x])) order) as [Ha|Ha]; [left; split; auto; now left|].
          destruct (le_dec order 1) as [Hb|Hb]; [left; split; auto; now right|].
          right. rewrite Eadd. apply Hdeep; auto. intros [Hc|Hc]; lia.
        - right. destruct (m (addr L ++ [j])) as [n0|] eqn:En; auto. exfalso.
          destruct (HP _ _ En) as (A1 & A2 & A3 & A4).
          destruct (exists_last A1) as (l & y & El'). rewrite El' in *.
          destruct l as [|b l0].
          { apply (f_equal (@length nat)) in A3. rewrite app_length, !addr_len in A3. destruct L; [congruence|simpl in A3; lia]. }
          set (l := b :: l0) in *. assert (Hl : l <> []) by discriminate.
          rewrite addr_snoc in A3 by auto. apply app_inj_tail in A3 as (B1 & B2).
          apply incr_last in A2 as (C1 & C2); auto. apply addr_inj in B1; auto. subst l. rewrite <- B1 in *. fold e in B2, C2. simpl in C2. unfold x in Hd. lia. }
      destruct Hx as [(Hx & Hax)|Hx].
      + rewrite Eadd.
        assert (HI' : incr 0 dim (L ++ [x])) by (apply incr_last; auto; split; auto; fold e; simpl; split; auto; unfold x; lia).
        destruct (IH (L ++ [x]) ((calls ++ [(g L, L)]) ++ r)) as (r2 & E2 & N2 & C2); auto.
        { rewrite last_last. unfold x. lia. }
        { destruct L; discriminate. }
        eexists. split; [exact E2|]. exists (r ++ r2). split; [now rewrite app_assoc|]. split.
        * rewrite map_app. apply NoDup_app_; auto. intros s Hs1 Hs2.
          apply in_map_iff in Hs1 as (c1 & <- & Hc1). apply in_map_iff in Hs2 as (c2 & Hc & Hc2).
          apply C in Hc1 as (y & T & D1 & D2 & D3 & _). apply C2 in Hc2 as (T2 & F1 & _).
          rewrite Hc, D1, <- app_assoc in F1. apply app_inv_head in F1. injection F1 as F1 _. simpl in D3. unfold x in *. lia.
        * intros c. rewrite in_app_iff, C, C2. split.
          -- intros [(y & T & D1 & D2 & D3 & D4)|(T & D1 & D2 & D3)].
             ++ exists y, T. repeat split; auto; try tauto; try apply D3; lia.
             ++ rewrite last_last in D2. exists x, T. rewrite <- app_assoc in D1. repeat split; auto; try tauto; unfold x; lia.
          -- intros (y & T & D1 & D2 & D3 & D4). destruct (Nat.eq_dec (y - S e) j) as [Hy|Hy].
             ++ right. assert (y = x) by (simpl in D3; unfold x; lia). subst y. exists T. rewrite last_last, <- app_assoc. simpl in D3. tauto.
             ++ left. exists y, T. repeat split; auto; try tauto; try apply D3; lia.
      + eexists. split; [destruct fuel; cbn [apply_external]; rewrite Hx; reflexivity|]. exists r. split; auto. split; auto.
        intros c. rewrite C. split; intros (y & T & D1 & D2 & D3 & D4 & D5).
        * exists y, T. repeat split; auto; try apply D3.
        * exists y, T. repeat split; auto; try apply D3. destruct (Nat.eq_dec (y - S e) j) as [Hy|Hy]; [|lia]. exfalso.
          assert (y = x) by (simpl in D3; unfold x; lia). subst y.
          assert (HI' : incr 0 dim (L ++ [x])) by (apply incr_last; auto; split; auto; fold e; simpl in *; tauto).
          assert (HA' : allowed (L ++ [x])) by (destruct D4 as [D4|D4]; [left|now right]; rewrite D1 in D4; rewrite app_length in *; simpl in *; lia).
          destruct (Hgood (L ++ [x])) as (q & n0 & G1 & G2); auto; [destruct L; discriminate|].
          destruct (good_at m (L ++ [x]) HP HI') as (n1 & G3 & _); [exists q, n0; auto|]. rewrite <- Eadd in G3. congruence.
    - exists ((g L, L) :: r). rewrite E. split; [f_equal; now rewrite <- app_assoc|]. split.
      + simpl. constructor; auto. intros Hc. apply in_map_iff in Hc as (c & Hc & Hin). apply C in Hin as (x & T & D1 & _).
        rewrite Hc in D1. rewrite <- (app_nil_r L) in D1 at 1. apply app_inv_head in D1. discriminate.
      + intros c. simpl. rewrite C. split.
        * intros [<-|(x & T & D1 & D2 & D3 & D4)].
          -- exists []. simpl. rewrite app_nil_r. auto.
          -- exists (x :: T). fold e. tauto.
        * intros (T & D1 & D2 & D3 & D4). destruct T as [|x T].
          -- left. rewrite app_nil_r in D1. destruct c as (v, s). simpl in *. now subst.
          -- right. exists x, T. fold e in D2. split; auto. split; auto.
             assert (HI' : incr 0 dim (L ++ [x])) by (apply incr_last; auto; split; auto; fold e; simpl in *; tauto).
             assert (HA' : allowed (L ++ [x])) by (destruct D3 as [D3|D3]; [left|now right]; rewrite D1 in D3; rewrite app_length in *; simpl in *; lia).
             apply (good_child m L x nd HP HL HI'); auto. apply Hgood; auto. destruct L; discriminate.
  Qed.
End Calls.

(** The given function is called exactly once for every nonempty set of at most
    [order] variables (of any size for an order below two), with the interaction of that set. *)
Theorem C106_calls {R : CRing} W (IV : list nat -> R) dim order : dim <= W ->
  exists m g r, sobol_tree W IV dim order = Ok m /\ sobol_apply_external dim m = Ok r /\
    NoDup (map snd r) /\
    (forall v L, In (v, L) r <-> L <> [] /\ incr 0 dim L /\ (length L <= order \/ order <= 1) /\ v = g L) /\
    (forall v L, In (v, L) r -> get_interaction m L = Ok v).
Proof.
  intros HW. destruct (tree_ok W IV dim HW order) as (m & E & H).
  set (g := gmob (fun L => IV (others dim L))).
  pose proof (tree_placed W IV dim order m E) as HP.
  assert (Hgood : forall L, L <> [] -> incr 0 dim L -> allowed order L -> good IV dim m L).
  { intros L HL HI HA. apply H; auto. pose proof (inc_len W dim HW L HI). unfold eff. destruct order as [|[|o]]; simpl in *.
    - destruct W; simpl; lia.
    - lia.
    - destruct HA; lia. }
  assert (Hdeep : forall L, incr 0 dim L -> ~ allowed order L -> m (addr L) = None).
  { intros L HI HA. unfold allowed in HA. apply (tree_depth W IV dim order m); auto; [lia|]. rewrite addr_len. lia. }
  destruct (for_inv (fun i r => NoDup (map snd r) /\ forall c, In c r <-> exists a T, snd c = a :: T /\ a < i /\ incr 0 dim (a :: T) /\ allowed order (snd c) /\ fst c = g (snd c))
    (fun ii calls => apply_external dim m [ii] calls) dim []) as (r & Er & N & C).
  - split; [constructor|]. intros c. split; [intros []|]. intros (a & T & _ & Ha & _). lia.
  - intros i r Hi (N & C).
    assert (HA : allowed order [i]) by (unfold allowed; simpl; lia).
    assert (HI : incr 0 dim [i]) by (simpl; auto with arith).
    destruct (visit_ok IV dim order m HP Hgood Hdeep dim [i] r) as (r2 & E2 & N2 & C2); auto; [simpl; lia|discriminate|].
    exists (r ++ r2). split; [exact E2|]. split.
    + rewrite map_app. apply NoDup_app_; auto. intros s Hs1 Hs2.
      apply in_map_iff in Hs1 as (c1 & <- & Hc1). apply in_map_iff in Hs2 as (c2 & Hc & Hc2).
      apply C in Hc1 as (a & T & D1 & D2 & _). apply C2 in Hc2 as (T2 & F1 & _). rewrite Hc, D1 in F1. simpl in F1. injection F1 as F1 _. lia.
    + intros c. rewrite in_app_iff, C, C2. split.
      * intros [(a & T & D1 & D2 & D3)|(T & D1 & D2 & D3)].
        -- exists a, T. split; auto.
        -- exists i, T. simpl in *. repeat split; auto; try tauto; lia.
      * intros (a & T & D1 & D2 & D3 & D4). destruct (Nat.eq_dec a i) as [->|Hne].
        -- right. exists T. simpl in *. tauto.
        -- left. exists a, T. split; auto. split; [lia|auto].
  - exists m, g, r. split; auto. split; [exact Er|]. split; auto.
    assert (C' : forall v L, In (v, L) r <-> L <> [] /\ incr 0 dim L /\ (length L <= order \/ order <= 1) /\ v = g L).
    { intros v L. rewrite C. split.
      - intros (a & T & D1 & D2 & D3 & D4 & D5). simpl in D1, D4, D5. subst L. split; [discriminate|auto].
      - intros (D1 & D2 & D3 & D4). destruct L as [|a T]; [congruence|]. exists a, T. split; auto. split; [simpl in D2; lia|]. auto. }
    split; auto. intros v L HL. apply C' in HL as (D1 & D2 & D3 & ->). apply good_get. now apply Hgood.
Qed.
Print Assumptions C106_calls.

Example calls_example :
  (do m <- sobol_tree 50 IVx 4 2; do r <- sobol_apply_external 4 m; Ok (map snd r, length r))
  = Ok ([[0]; [0;1]; [0;2]; [0;3]; [1]; [1;2]; [1;3]; [2]; [2;3]; [3]], 10).
Proof. vm_compute. reflexivity. Qed.
