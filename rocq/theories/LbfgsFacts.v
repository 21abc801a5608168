(** The circular list of the limited-memory method and its two-loop recursion. *)
From Verif Require Export BfgsFacts.
From Coq Require Import ZArith Reals Lra Psatz.
Open Scope nat_scope.

(** positions in a ring of [m] *)
Lemma ring_inj m i j : m <> 0 -> i <= j < i + m -> i mod m = j mod m -> i = j.
Proof.
  intros Hm H E. pose proof (Nat.div_mod i m Hm). pose proof (Nat.div_mod j m Hm). rewrite E in H0.
  destruct (Nat.lt_trichotomy (i / m) (j / m)) as [C|[C|C]]; nia.
Qed.
Lemma ring_bound m k i : m <> 0 -> i < k -> i mod m < Nat.min k m.
Proof.
  intros Hm H. pose proof (Nat.mod_upper_bound i m Hm). pose proof (Nat.mod_le i m Hm). lia.
Qed.
Lemma ring_wrap m i : m <> 0 -> (i + m) mod m = i mod m.
Proof. intros Hm. replace (i + m) with (i + 1 * m) by lia. now rewrite Nat.mod_add. Qed.

Lemma vec_tab' d (f : nat -> R) i : i < d -> vec (tab d f) i = f i.
Proof. intros. unfold vec. now rewrite nth_tab. Qed.

Section Ring.
  Variable d m : nat.
  Variables (X G : nat -> list R).             (* the points and the gradients *)
  Hypothesis Hm : 2 <= m.
  Hypothesis LX : forall i, length (X i) = d.
  Hypothesis LG : forall i, length (G i) = d.
  (** the pair stored by insertion number [i] *)
  Definition vsub (a b : list R) : list R := tab d (fun i => nth i a 0 - nth i b 0)%R.
  Notation S i := (vsub (X (i + 1)) (X i)).
  Notation Y i := (vsub (G (i + 1)) (G i)).
  Lemma vsub_length a b : length (vsub a b) = d.
  Proof. apply tab_length. Qed.
  Let rho (i : nat) : R := ip d (vec (S i)) (vec (Y i)).

  (** node of insertion [i] after [k] insertions *)
  Definition is_node (k i : nat) (n : node RO) : Prop :=
    n_iter RO n = i /\ n_s RO n = S i /\ n_y RO n = Y i /\ n_rhoinv RO n = rho i /\
    (k - Nat.min k m < i -> n_next RO n = Some ((i - 1) mod m)) /\
    (k <= m -> i = 0 -> n_next RO n = None) /\
    n_prev RO n = (if (i =? k - 1) && (k <? m) then None else Some ((i + 1) mod m)).
  Definition linv (k : nat) (l : blist RO) : Prop :=
    b_m RO l = m /\ b_size RO l = Nat.min k m /\ length (b_nodes RO l) = Nat.min k m /\
    b_recent RO l = (if k =? 0 then None else Some ((k - 1) mod m)) /\
    forall i, k - Nat.min k m <= i < k -> exists n, nth_error (b_nodes RO l) (i mod m) = Some n /\ is_node k i n.

  Lemma linv_0 : linv 0 (list_alloc RO m).
  Proof. repeat split; cbn; auto; intros; lia. Qed.
  Lemma deref_node k l i : linv k l -> k - Nat.min k m <= i < k ->
    exists n, deref RO l (Some (i mod m)) = Ok (i mod m, n) /\ is_node k i n.
  Proof.
    intros (_ & _ & _ & _ & H) Hi. destruct (H i Hi) as (n & E & N). exists n. split; auto.
    unfold deref. rewrite (aget_ok _ _ _ E). reflexivity.
  Qed.
  Lemma linv_reset k l : linv k l -> linv k (list_reset RO l).
  Proof. auto. Qed.

  Lemma chain_end_ok (l : blist RO) k (i : nat) fuel :
    (forall j, j < k -> exists n, nth_error (b_nodes RO l) j = Some n /\ n_next RO n = if j =? 0 then None else Some (j - 1)) ->
    i < k -> i < fuel -> chain_end RO l fuel (Some i) = Ok 0.
  Proof using.
    clear. intros I. revert fuel. induction i as [|i IH]; intros fuel Hi Hf; (destruct fuel as [|fuel]; [lia|]); cbn [chain_end deref].
    - destruct (I 0 Hi) as (n & E & N). rewrite (aget_ok _ _ _ E). cbn [obind]. rewrite N. reflexivity.
    - destruct (I _ Hi) as (n & E & N). rewrite (aget_ok _ _ _ E). cbn [obind]. rewrite N. cbn [Nat.eqb].
      replace (Datatypes.S i - 1) with i by lia. apply IH; lia.
  Qed.

  Lemma vsub_ok a b : length a = d -> length b = d -> vaxpy RO d (f0 -^ f1)%fop b a = Ok (vsub a b).
  Proof using.
    clear. intros La Lb. rewrite (vaxpy_ok d _ b a Lb La). f_equal. apply tab_ext. intros i Hi. cbn [fsub f0 f1 Rops]. rnorm. ring.
  Qed.
  Lemma set_node_ok (l : blist RO) i n : i < length (b_nodes RO l) ->
    set_node RO l i n = Ok (mkblist RO (b_m RO l) (b_size RO l) (b_recent RO l) (b_step RO l) (b_cstep RO l) (upd (b_nodes RO l) i n)).
  Proof using. clear. intros H. unfold set_node. rewrite aset_ok by auto. reflexivity. Qed.

  Theorem insert_ok k l : linv k l ->
    exists l', list_insert RO d l k (X (k + 1)) (X k) (G (k + 1)) (G k) = Ok l' /\ linv (k + 1) l'.
  Proof using Hm LX LG.
    intros I. assert (I0 := I). destruct I0 as (Em & Es & El & Er & En). unfold list_insert.
    assert (HS := vsub_ok (X (k + 1)) (X k) (LX _) (LX _)). assert (HY := vsub_ok (G (k + 1)) (G k) (LG _) (LG _)).
    assert (HR := vdot_ok d (S k) (Y k) (vsub_length _ _) (vsub_length _ _)).
    rewrite Em, Es. destruct (Nat.lt_ge_cases k m) as [C|C].
    - (* a new node *)
      rewrite (proj2 (Nat.leb_gt m (Nat.min k m))) by lia. cbn [obind]. unfold deref at 1. cbn [b_nodes].
      rewrite (aget_ok _ (length (b_nodes RO l)) (mknode RO 0 [] [] f0 None None)) by (rewrite nth_error_app2, Nat.sub_diag by lia; reflexivity).
      cbn [obind]. rewrite HS, HY. cbn [obind]. rewrite HR. cbn [obind n_next n_prev].
      rewrite set_node_ok by (cbn [b_nodes]; rewrite app_length; cbn; lia). cbn [obind b_m b_size b_recent b_step b_cstep b_nodes].
      rewrite (proj2 (Nat.leb_gt m (Nat.min k m))) by lia.
      assert (Ek : Nat.min k m = k) by lia. rewrite Ek in *. rewrite El.
      destruct (Nat.ltb_spec 0 k) as [P|P].
      + rewrite Er. replace (k =? 0) with false by (symmetry; apply Nat.eqb_neq; lia). unfold deref at 1. cbn [b_nodes].
        rewrite Nat.mod_small by lia.
        destruct (En (k - 1)) as (h & Eh & Nh); [lia|]. rewrite Nat.mod_small in Eh by lia.
        rewrite (aget_ok _ (k - 1) h); [|rewrite nth_error_upd_other by lia; rewrite nth_error_app1 by lia; exact Eh]. cbn [obind].
        rewrite set_node_ok by (cbn [b_nodes]; rewrite upd_length, app_length; cbn; lia). cbn [obind b_m b_size b_recent b_step b_cstep b_nodes].
        rewrite set_node_ok by (cbn [b_nodes]; rewrite !upd_length, app_length; cbn; lia). cbn [obind b_m b_size b_recent b_step b_cstep b_nodes].
        match goal with |- context [mkblist RO m (Datatypes.S k) (Some k) _ _ ?ns] => set (nodes := ns) end.
        assert (Ln : length nodes = k + 1) by (unfold nodes; rewrite !upd_length, app_length; cbn; lia).
        assert (N0 : forall j, j < k - 1 -> nth_error nodes j = nth_error (b_nodes RO l) j).
        { intros j Hj. unfold nodes. rewrite !nth_error_upd_other by lia. now rewrite nth_error_app1 by lia. }
        assert (N1 : nth_error nodes (k - 1) = Some (mknode RO (n_iter RO h) (n_s RO h) (n_y RO h) (n_rhoinv RO h) (n_next RO h) (Some k))).
        { unfold nodes. rewrite nth_error_upd_other by lia. rewrite nth_error_upd_same; auto. rewrite upd_length, app_length. cbn. lia. }
        assert (N2 : nth_error nodes k = Some (mknode RO k (S k) (Y k) (rho k) (Some (k - 1)) None)).
        { unfold nodes. rewrite nth_error_upd_same; auto. rewrite !upd_length, app_length. cbn. lia. }
        assert (Fin : forall ns pv, length ns = k + 1 -> (forall j, j < k -> nth_error ns j = nth_error nodes j) ->
          nth_error ns k = Some (mknode RO k (S k) (Y k) (rho k) (Some (k - 1)) pv) ->
          pv = (if k + 1 <? m then None else Some ((k + 1) mod m)) ->
          linv (k + 1) (mkblist RO m (Datatypes.S k) (Some k) 0 (b_cstep RO l) ns)).
        { intros ns pv Lns A B Epv. split; [reflexivity|]. split; [cbn [b_size]; lia|]. split; [cbn [b_nodes]; lia|]. split.
          { cbn [b_recent]. replace (k + 1 =? 0) with false by (symmetry; apply Nat.eqb_neq; lia).
            replace (k + 1 - 1) with k by lia. now rewrite Nat.mod_small by lia. }
          cbn [b_nodes]. intros i Hi. rewrite (Nat.mod_small i) by lia.
          destruct (Nat.eq_dec i k) as [->|Hik].
          { eexists. split; [exact B|]. split; [reflexivity|]. do 3 (split; [reflexivity|]). cbn [n_next n_prev].
            split; [intros; now rewrite Nat.mod_small by lia|]. split; [lia|].
            replace (k =? k + 1 - 1) with true by (symmetry; apply Nat.eqb_eq; lia). exact Epv. }
          rewrite A by lia. destruct (Nat.eq_dec i (k - 1)) as [->|Hik2].
          { eexists. split; [exact N1|]. destruct Nh as (H1 & H2 & H3 & H4 & H5 & H6 & H7).
            split; [exact H1|]. split; [exact H2|]. split; [exact H3|]. split; [exact H4|]. cbn [n_next n_prev].
            split; [intros; apply H5; lia|]. split; [intros; apply H6; lia|].
            replace (k - 1 =? k + 1 - 1) with false by (symmetry; apply Nat.eqb_neq; lia). cbn [andb].
            replace (k - 1 + 1) with k by lia. now rewrite Nat.mod_small by lia. }
          rewrite N0 by lia. destruct (En i) as (n & E & H1 & H2 & H3 & H4 & H5 & H6 & H7); [lia|]. rewrite Nat.mod_small in E by lia.
          exists n. split; [exact E|]. split; [exact H1|]. split; [exact H2|]. split; [exact H3|]. split; [exact H4|].
          split; [intros; apply H5; lia|]. split; [intros; apply H6; lia|]. rewrite H7.
          replace (i =? k - 1) with false by (symmetry; apply Nat.eqb_neq; lia).
          replace (i =? k + 1 - 1) with false by (symmetry; apply Nat.eqb_neq; lia). reflexivity. }
        destruct (Nat.eqb_spec (Datatypes.S k) m) as [F|F].
        * rewrite (chain_end_ok _ k).
          2:{ cbn [b_nodes]. intros j Hj. destruct (Nat.eq_dec j (k - 1)) as [->|].
              - eexists. split; [exact N1|]. cbn [n_next]. destruct Nh as (_ & _ & _ & _ & H5 & H6 & _).
                destruct (Nat.eqb_spec (k - 1) 0); [apply H6; lia|]. rewrite H5 by lia. now rewrite Nat.mod_small by lia.
              - rewrite N0 by lia. destruct (En j) as (n' & E & _ & _ & _ & _ & H5 & H6 & _); [lia|]. rewrite Nat.mod_small in E by lia.
                exists n'. split; [exact E|]. destruct (Nat.eqb_spec j 0); [apply H6; lia|]. rewrite H5 by lia. now rewrite Nat.mod_small by lia. }
          2,3: cbn [b_nodes]; lia.
          cbn [obind]. rewrite set_node_ok by (cbn [b_nodes]; lia). cbn [obind b_m b_size b_recent b_step b_cstep b_nodes].
          eexists. split; [reflexivity|]. apply (Fin _ (Some 0)).
          -- now rewrite upd_length.
          -- intros j Hj. now rewrite nth_error_upd_other by lia.
          -- rewrite nth_error_upd_same by lia. reflexivity.
          -- replace (k + 1 <? m) with false by (symmetry; apply Nat.ltb_ge; lia). replace (k + 1) with m by lia. now rewrite Nat.mod_same by lia.
        * cbn [obind b_m b_size b_recent b_step b_cstep b_nodes]. eexists. split; [reflexivity|]. apply (Fin _ None); auto.
          replace (k + 1 <? m) with true by (symmetry; apply Nat.ltb_lt; lia). reflexivity.
      + destruct k as [|k']; [|lia]. rewrite set_node_ok by (cbn [b_nodes]; rewrite upd_length, app_length; cbn; lia).
        cbn [obind b_m b_size b_recent b_step b_cstep b_nodes]. eexists. split; [reflexivity|].
        destruct (b_nodes RO l) as [|? ?]; [|cbn in El; lia]. cbn [app upd firstn skipn].
        split; [reflexivity|]. split; [cbn [b_size]; lia|]. split; [cbn [b_nodes length]; rewrite ?upd_length; cbn [length]; lia|].
        split; [cbn [b_recent]; replace (0 + 1 - 1) with 0 by lia; rewrite Nat.mod_0_l by lia; reflexivity|].
        intros i Hi. replace i with 0 by lia. rewrite Nat.mod_0_l by lia. eexists. split; [reflexivity|].
        split; [reflexivity|]. do 3 (split; [reflexivity|]). cbn [n_next n_prev]. split; [lia|]. split; auto.
        replace (0 + 1 <? m) with true by (symmetry; apply Nat.ltb_lt; lia). reflexivity.
    - (* the oldest node is used again *)
      assert (Ek : Nat.min k m = m) by lia. rewrite Ek in *.
      rewrite (proj2 (Nat.leb_le m m)) by lia. rewrite Er. replace (k =? 0) with false by (symmetry; apply Nat.eqb_neq; lia).
      destruct (deref_node k l (k - 1) I) as (h & Eh & Nh); [lia|]. rewrite Eh. cbn [obind].
      destruct Nh as (_ & _ & _ & _ & _ & _ & Ph). rewrite Ph. replace (k <? m) with false by (symmetry; apply Nat.ltb_ge; lia).
      rewrite Bool.andb_false_r. replace (k - 1 + 1) with (k - m + m) by lia. rewrite ring_wrap by lia.
      destruct (deref_node k l (k - m) I) as (n & E & Nn); [lia|]. rewrite E. cbn [obind]. rewrite E. cbn [obind].
      rewrite HS, HY. cbn [obind]. rewrite HR. cbn [obind n_next n_prev].
      assert (Hb : (k - m) mod m < length (b_nodes RO l)) by (rewrite El; apply Nat.mod_upper_bound; lia).
      rewrite set_node_ok by exact Hb. cbn [obind b_m b_size b_recent b_step b_cstep b_nodes].
      rewrite Em, Es. rewrite (proj2 (Nat.leb_le m m)) by lia.
      rewrite set_node_ok by (cbn [b_nodes]; now rewrite upd_length). cbn [obind b_m b_size b_recent b_step b_cstep b_nodes].
      eexists. split; [reflexivity|]. split; [reflexivity|]. split; [cbn; lia|]. split; [cbn; rewrite !upd_length; lia|]. split.
      { cbn [b_recent]. replace (k + 1 =? 0) with false by (symmetry; apply Nat.eqb_neq; lia). replace (k + 1 - 1) with (k - m + m) by lia.
        now rewrite ring_wrap by lia. }
      cbn [b_nodes]. intros i Hi. destruct (Nat.eq_dec i k) as [->|Hik].
      + replace (k mod m) with ((k - m) mod m) by (rewrite <- (ring_wrap m (k - m)) by lia; f_equal; lia).
        rewrite nth_error_upd_same by (now rewrite upd_length). eexists. split; [reflexivity|].
        split; [reflexivity|]. do 3 (split; [reflexivity|]). cbn [n_next n_prev]. rewrite Er.
        split; [intros; replace (k =? 0) with false by (symmetry; apply Nat.eqb_neq; lia); reflexivity|]. split; [lia|].
        destruct Nn as (_ & _ & _ & _ & _ & _ & Pn). rewrite Pn.
        replace (k <? m) with false by (symmetry; apply Nat.ltb_ge; lia). replace (k + 1 <? m) with false by (symmetry; apply Nat.ltb_ge; lia).
        rewrite !Bool.andb_false_r. f_equal. rewrite <- (ring_wrap m (k - m + 1)) by lia. f_equal. lia.
      + assert (i mod m <> (k - m) mod m).
        { intros Q. symmetry in Q. apply ring_inj in Q; lia. }
        rewrite !nth_error_upd_other by auto. destruct (En i) as (n' & E' & H1 & H2 & H3 & H4 & H5 & H6 & H7); [lia|].
        exists n'. split; [exact E'|]. split; [exact H1|]. split; [exact H2|]. split; [exact H3|]. split; [exact H4|].
        split; [intros; apply H5; lia|]. split; [lia|]. rewrite H7.
        replace (k <? m) with false by (symmetry; apply Nat.ltb_ge; lia). replace (k + 1 <? m) with false by (symmetry; apply Nat.ltb_ge; lia).
        rewrite !Bool.andb_false_r. reflexivity.
  Qed.

  Lemma step_ok k l t : linv k l -> t < Nat.min k m -> b_step RO l = t -> (0 < t -> b_cstep RO l = Some ((k - t) mod m)) ->
    exists l' nd, list_step RO l = Ok (l', nd) /\ is_node k (k - 1 - t) nd /\ linv k l' /\
      (t + 1 < Nat.min k m -> b_step RO l' = t + 1) /\ b_cstep RO l' = Some ((k - 1 - t) mod m).
  Proof using Hm.
    intros I Ht Es Ec. assert (I0 := I). destruct I0 as (Em & Ez & El & Er & En). unfold list_step. rewrite Es.
    destruct (Nat.eqb_spec (t + 1) 1) as [T|T].
    - cbn [obind]. rewrite Er. replace (k =? 0) with false by (symmetry; apply Nat.eqb_neq; lia).
      destruct (deref_node k l (k - 1) I) as (n & E & N); [lia|].
      exists (mkblist RO (b_m RO l) (b_size RO l) (if k =? 0 then None else Some ((k - 1) mod m)) (t + 1) (Some ((k - 1) mod m)) (b_nodes RO l)), n.
      replace (k - 1 - t) with (k - 1) by lia. split.
      { cbn [deref b_nodes] in *. replace (k =? 0) with false by (symmetry; apply Nat.eqb_neq; lia). rewrite E. reflexivity. }
      split; [exact N|]. split; [split; [exact Em|]; split; [exact Ez|]; split; [exact El|]; split; [reflexivity|exact En]|]. split; auto.
    - rewrite Ec by lia. destruct (deref_node k l (k - t) I) as (n & E & N); [lia|]. rewrite E. cbn [obind].
      destruct N as (_ & _ & _ & _ & H5 & _). rewrite H5 by lia. replace (k - t - 1) with (k - 1 - t) by lia.
      destruct (deref_node k l (k - 1 - t) I) as (n2 & E2 & N2); [lia|].
      eexists _, n2. split; [cbn [deref b_nodes] in *; rewrite E2; reflexivity|]. split; [exact N2|].
      split; [split; [exact Em|]; split; [exact Ez|]; split; [exact El|]; split; [exact Er|exact En]|]. split; [|reflexivity].
      intros Hlt. cbn [b_step]. rewrite Ez. replace (t + 1 =? Nat.min k m) with false by (symmetry; apply Nat.eqb_neq; lia). reflexivity.
  Qed.

  Lemma walk_ok k l n : linv k l -> n < Nat.min k m ->
    for_from 1 n (fun _ c => do (_, x) <- deref RO l c; Ok (n_next RO x)) (Some ((k - 1) mod m)) = Ok (Some ((k - 1 - n) mod m)).
  Proof using Hm.
    intros I Hn. replace (k - 1 - n) with (k - (1 + n)) by lia.
    apply (for_from_det (fun i => Some ((k - i) mod m)) _ 1 n). intros i Hi. destruct (deref_node k l (k - i) I) as (x & E & N); [lia|]. cbv beta. rewrite E. cbn [obind].
    destruct N as (_ & _ & _ & _ & H5 & _). rewrite H5 by lia. do 3 f_equal. lia.
  Qed.
  Lemma step_back_ok k l t : linv k l -> t < Nat.min k m -> b_step RO l = t -> (0 < t -> b_cstep RO l = Some ((k - Nat.min k m + t - 1) mod m)) ->
    exists l' nd, list_step_back RO l = Ok (l', nd) /\ is_node k (k - Nat.min k m + t) nd /\ linv k l' /\
      (t + 1 < Nat.min k m -> b_step RO l' = t + 1) /\ b_cstep RO l' = Some ((k - Nat.min k m + t) mod m).
  Proof using Hm.
    intros I Ht Es Ec. assert (I0 := I). destruct I0 as (Em & Ez & El & Er & En). unfold list_step_back. rewrite Es.
    destruct (Nat.eqb_spec (t + 1) 1) as [T|T].
    - rewrite Er. replace (k =? 0) with false by (symmetry; apply Nat.eqb_neq; lia). rewrite Ez.
      rewrite (walk_ok k l (Nat.min k m - 1) I) by lia. cbn [obind].
      replace (k - 1 - (Nat.min k m - 1)) with (k - Nat.min k m + t) by lia.
      destruct (deref_node k l (k - Nat.min k m + t) I) as (n & E & N); [lia|].
      eexists _, n. split; [cbn [deref b_nodes] in *; rewrite E; reflexivity|]. split; [exact N|].
      split; [split; [exact Em|]; split; [exact eq_refl|]; split; [exact El|]; split; [|exact En]|].
      { cbn [b_recent]. replace (k =? 0) with false by (symmetry; apply Nat.eqb_neq; lia). reflexivity. }
      split; auto.
    - rewrite Ec by lia. destruct (deref_node k l (k - Nat.min k m + t - 1) I) as (n & E & N); [lia|]. rewrite E. cbn [obind].
      destruct N as (_ & _ & _ & _ & _ & _ & H7). rewrite H7.
      replace (k - Nat.min k m + t - 1 =? k - 1) with false by (symmetry; apply Nat.eqb_neq; lia). cbn [andb].
      replace (k - Nat.min k m + t - 1 + 1) with (k - Nat.min k m + t) by lia.
      destruct (deref_node k l (k - Nat.min k m + t) I) as (n2 & E2 & N2); [lia|].
      eexists _, n2. split; [cbn [deref b_nodes] in *; rewrite E2; reflexivity|]. split; [exact N2|].
      split; [split; [exact Em|]; split; [exact Ez|]; split; [exact El|]; split; [exact Er|exact En]|]. split; [|reflexivity].
      intros Hlt. cbn [b_step]. rewrite Ez. replace (t + 1 =? Nat.min k m) with false by (symmetry; apply Nat.eqb_neq; lia). reflexivity.
  Qed.

  (** ** The two loops *)
  Variable k : nat.
  Hypothesis Hk : 0 < k.
  Notation n := (Nat.min k m).
  Notation vs i := (vec (S i)).
  Notation vy i := (vec (Y i)).
  Variable g0 : list R.
  Hypothesis Lg0 : length g0 = d.
  Open Scope R_scope.
  (** the vector of the first loop after [t] steps *)
  Fixpoint qv (t : nat) : list R :=
    match t with
    | 0%nat => g0
    | Datatypes.S t => let i := (k - 1 - t)%nat in tab d (fun j => nth j (qv t) 0 + (- (1 / rho i * ip d (vs i) (vec (qv t)))) * nth j (Y i) 0)
    end.
  Definition av (t : nat) : R := let i := (k - 1 - t)%nat in 1 / rho i * ip d (vs i) (vec (qv t)).
  Lemma qv_length t : length (qv t) = d.
  Proof using Lg0. destruct t; [exact Lg0|apply tab_length]. Qed.
  (** the dense matrix: the oldest [t] of the last [n] pairs applied to a multiple of the identity *)
  Fixpoint dense (c : R) (t : nat) : nat -> nat -> R :=
    match t with
    | 0%nat => fun i j => c * delta i j
    | Datatypes.S t => bfgs d (dense c t) (vs (k - n + t)) (vy (k - n + t))
    end.

  Definition scaling (hoscale : R) (scale : bool) : R :=
    let yy := ip d (vy (k - 1)) (vy (k - 1)) in if (Rltb tol15 yy && scale)%bool then hoscale * rho (k - 1) / yy else hoscale.

  Theorem hg_ok l hoscale scale (alpha q : list R) : linv k l -> length alpha = m -> length q = d ->
    exists q' alpha' l', lbfgs_hg RO d k m hoscale scale alpha g0 q l = Ok (q', alpha', l') /\ linv k l' /\ length alpha' = m /\ length q' = d /\
      forall i, (i < d)%nat -> vec q' i = mv d (dense (scaling hoscale scale) n) (vec g0) i.
  Proof using Hm Hk Lg0.
    intros I La Lq. unfold lbfgs_hg.
    replace (if (k <=? m)%nat then (0%nat, k) else ((k - m)%nat, m)) with ((k - n)%nat, n)
      by (destruct (Nat.leb_spec k m); f_equal; lia).
    refine (eq_ind _ (fun z => exists q' alpha' l', obind z _ = _ /\ _) _ _ (eq_sym (blit_all (mkls RO d 0 0 0 [] [] 0) q g0 Lq Lg0))). cbn [obind].
    match goal with |- context [for_ n ?b (?l0, alpha, g0, ?z0, ?z1)] =>
      destruct (for_inv (fun t s => let '(l1, al, q1, den, num) := s in linv k l1 /\ length al = m /\ q1 = qv t /\
        ((t < n)%nat -> b_step RO l1 = t) /\ ((0 < t)%nat -> b_cstep RO l1 = Some ((k - t) mod m)) /\
        ((0 < t)%nat -> den = ip d (vy (k - 1)) (vy (k - 1)) /\ num = rho (k - 1)) /\
        forall j, (j < t)%nat -> nth (n - 1 - j) al 0 = av j) b n (l0, alpha, g0, z0, z1)) as ([[[[l1 al] q1] den] num] & E1 & I1 & La1 & Eq1 & _ & _ & Hdn & Hal) end.
    { split; [apply linv_reset; exact I|]. split; [exact La|]. split; [reflexivity|]. split; [reflexivity|]. split; [lia|]. split; [lia|]. intros; lia. }
    { intros t [[[[l1 al] q1] den] num] Ht (I1 & La1 & Eq1 & Es & Ec & Hdn & Hal). cbv beta iota.
      destruct (step_ok k l1 t I1 Ht (Es Ht) Ec) as (l2 & nd & E & Nd & I2 & Es2 & Ec2). rewrite E. cbn [obind].
      destruct Nd as (N1 & N2 & N3 & N4 & _).
      match goal with |- context [if (n - 1 - t =? n - 1)%nat then ?a else ?b] =>
        assert (D : exists den' num', (if (n - 1 - t =? n - 1)%nat then a else b) = Ok (den', num') /\
        den' = ip d (vy (k - 1)) (vy (k - 1)) /\ num' = rho (k - 1)) end.
      { destruct (Nat.eqb_spec (n - 1 - t) (n - 1)).
        - assert (t = 0)%nat by lia. subst t. rewrite N3, N4. rewrite vdot_ok by apply tab_length. cbn [obind]. do 2 eexists. split; [reflexivity|].
          rewrite Nat.sub_0_r. auto.
        - do 2 eexists. split; [reflexivity|]. apply Hdn. lia. }
      destruct D as (den' & num' & D1 & D2). rewrite D1. cbn [obind].
      replace (n_iter RO nd =? n - 1 - t + (k - n))%nat with true by (symmetry; apply Nat.eqb_eq; rewrite N1; lia). cbn [cassert obind].
      rewrite N2, N3, N4, Eq1. rewrite (vdot_ok d _ _ (vsub_length _ _) (qv_length t)). cbn [obind].
      cbn [fdiv fmul f1 fsub f0 Rops]. change (1 / rho (k - 1 - t) * ip d (vs (k - 1 - t)) (vec (qv t))) with (av t).
      assert (Hb : (n - 1 - t < length al)%nat) by (rewrite La1; lia).
      match goal with |- context [@aset ?A al ?i ?v] => rewrite (@aset_ok A al i v Hb) end. cbn [obind].
      rewrite (vaxpy_ok d (0 - av t) _ _ (vsub_length _ _) (qv_length t)). cbn [obind].
      eexists. split; [reflexivity|]. split; [exact I2|]. split; [now rewrite upd_length|]. split.
      { cbn [qv]. apply tab_ext. intros j Hj. unfold av. ring. }
      split; [intros; rewrite Es2 by lia; lia|]. split; [intros _; rewrite Ec2; do 2 f_equal; lia|]. split; [auto|].
      intros j Hj. rewrite nth_upd by lia. destruct (Nat.eqb_spec (n - 1 - j) (n - 1 - t)).
      - f_equal. lia.
      - apply Hal. lia. }
    refine (eq_ind _ (fun z => exists q' alpha' l', obind z _ = _ /\ _) _ _ (eq_sym E1)). cbn [obind]. destruct Hdn as [-> ->]; [lia|]. subst q1.
    set (yy := ip d (vy (k - 1)) (vy (k - 1))). set (sc := scaling hoscale scale).
    match goal with |- context [for_ d ?b (qv n)] => assert (E2 : for_ d b (qv n) = Ok (tab d (fun i => nth i (qv n) 0 * sc))) end.
    { apply (upd_tab d (fun i v => v * sc)); [apply qv_length|]. intros i c' Hi L. rewrite aget_nth by lia. cbn [obind].
      unfold sc, scaling. fold yy. cbn [fltb fmul fdiv ftol Rops]. destruct (Rltb tol15 yy && scale)%bool; reflexivity. }
    refine (eq_ind _ (fun z => exists q' alpha' l', obind z _ = _ /\ _) _ _ (eq_sym E2)). cbn [obind].
    match goal with |- context [for_ n ?b (?l0, ?q0)] =>
      destruct (for_inv (fun t s => let '(l2, q2) := s in linv k l2 /\ length q2 = d /\
        ((t < n)%nat -> b_step RO l2 = t) /\ ((0 < t)%nat -> b_cstep RO l2 = Some ((k - n + t - 1) mod m)) /\
        forall i, (i < d)%nat -> vec q2 i = mv d (dense sc t) (vec (qv (n - t))) i) b n (l0, q0)) as ([l2 q2] & E3 & I2 & L2 & _ & _ & H2) end.
    { split; [apply linv_reset; exact I1|]. split; [apply tab_length|]. split; [reflexivity|]. split; [lia|].
      intros i Hi. rewrite vec_tab' by auto. rewrite Nat.sub_0_r. cbn [dense]. unfold mv.
      rewrite (rs_ext _ _ (fun j => delta i j * (sc * vec (qv n) j))) by (intros; ring). rewrite delta_sum by auto. unfold vec. ring. }
    { intros t [l2 q2] Ht (I2 & L2 & Es & Ec & H2). cbv beta iota.
      destruct (step_back_ok k l2 t I2 Ht (Es Ht) Ec) as (l3 & nd & E & Nd & I3 & Es3 & Ec3). rewrite E. cbn [obind].
      destruct Nd as (N1 & N2 & N3 & N4 & _). rewrite N2, N3, N4. rewrite (vdot_ok d _ _ (vsub_length _ _) L2). cbn [obind].
      assert (Hb : (t < length al)%nat) by (rewrite La1; lia).
      match goal with |- context [@aget ?A al t] => rewrite (aget_nth al t Hb : @aget A al t = _) end. cbn [obind]. cbn [fdiv fmul f1 fsub Rops].
      set (i0 := (k - n + t)%nat) in *.
      rewrite (vaxpy_ok d _ _ _ (vsub_length _ _) L2). cbn [obind].
      eexists. split; [reflexivity|]. split; [exact I3|]. split; [apply tab_length|].
      split; [intros; rewrite Es3 by lia; lia|]. split; [intros _; rewrite Ec3; unfold i0; do 2 f_equal; lia|].
      intros i Hi. rewrite vec_tab' by auto. cbn [dense]. fold i0.
      rewrite bfgs_mv by auto. cbv zeta.
      assert (Eq : forall j, (j < d)%nat -> vec (qv (n - t)) j = vec (qv (n - Datatypes.S t)) j - / rho i0 * ip d (vs i0) (vec (qv (n - Datatypes.S t))) * vy i0 j).
      { intros j Hj. replace (n - t)%nat with (Datatypes.S (n - Datatypes.S t)) by lia. cbn [qv]. rewrite vec_tab' by auto.
        replace (k - 1 - (n - Datatypes.S t))%nat with i0 by (unfold i0; lia). unfold vec, Rdiv. ring. }
      assert (Hq : forall j, (j < d)%nat -> vec q2 j = mv d (dense sc t) (fun j => vec (qv (n - Datatypes.S t)) j - / rho i0 * ip d (vs i0) (vec (qv (n - Datatypes.S t))) * vy i0 j) j).
      { intros j Hj. rewrite H2 by auto. apply mv_ext; auto. }
      change (ip d (vs i0) (vy i0)) with (rho i0).
      match goal with |- context [ip d (vy i0) (mv d ?M ?v)] => replace (ip d (vy i0) (mv d M v)) with (ip d (vy i0) (vec q2)) by (apply ip_ext; auto) end.
      assert (Ha : nth t al 0 = / rho i0 * ip d (vs i0) (vec (qv (n - Datatypes.S t)))).
      { replace t with (n - 1 - (n - Datatypes.S t))%nat at 1 by lia. rewrite Hal by lia. unfold av.
        replace (k - 1 - (n - Datatypes.S t))%nat with i0 by (unfold i0; lia). unfold Rdiv. ring. }
      rewrite <- (Hq i Hi). change (nth i q2 0) with (vec q2 i). change (nth i (S i0) 0) with (vs i0 i). rnorm. rewrite <- Ha.
      unfold Rdiv. ring. }
    refine (eq_ind _ (fun z => exists q' alpha' l', obind z _ = _ /\ _) _ _ (eq_sym E3)). cbn [obind]. exists q2, al, l2. split; [reflexivity|]. split; [exact I2|]. split; [exact La1|]. split; [exact L2|].
    intros i Hi. rewrite H2 by auto. rewrite Nat.sub_diag. reflexivity.
  Qed.
End Ring.
