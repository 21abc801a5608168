(** C104: the canonical decomposition and its conversion to a tensor train. *)
From Verif Require Import TTMain Instances CdModel.
From Coq Require Import ZArith.

(** * Specification: a sum of products of factor entries *)
Section CdSpec.
  Context {R : CRing}.
  Open Scope cr_scope.

  (** Product of the entries of one term. *)
  Fixpoint cd_term (cs : list (mat R)) (idx : list nat) (r : nat) : R :=
    match cs, idx with
    | c :: cs', e :: idx' => ment c e r *! cd_term cs' idx' r
    | _, _ => r1
    end.

  Definition cd_value (cd : candecomp R) (idx : list nat) : R :=
    sum (cd_rank cd) (fun r => cd_term (cd_cores cd) idx r).

  (** One factor matrix per mode, each with one column per term. *)
  Definition cd_wf (cd : candecomp R) : Prop :=
    length (cd_cores cd) = cd_dim cd /\
    Forall (fun c => mat_wf c /\ m_ncols c = cd_rank cd) (cd_cores cd).
End CdSpec.

Section CdFacts.
  Context {R : CRing}.
  Open Scope cr_scope.
  Add Ring Rr50 : (rth R).

  Lemma v3_aset n0 n1 n2 (f : nat -> nat -> nat -> R) i j k x :
    i < n0 -> j < n1 -> k < n2 ->
    aset (v3 n0 n1 n2 f) (i + j * n0 + k * n0 * n1) x
    = Ok (v3 n0 n1 n2 (fun i' j' k' => if (i' =? i) && (j' =? j) && (k' =? k) then x else f i' j' k')).
  Proof.
    intros Hi Hj Hk. unfold v3 at 1. rewrite aset_tab by (now apply idx3_lt). f_equal. unfold v3.
    apply tab_ext. intros p Hp. destruct (idx3_split n0 n1 n2 p Hp) as (a & b & c & Ha & Hb & Hc & ->).
    rewrite idx3_0, idx3_1, idx3_2 by auto.
    destruct (Nat.eqb_spec (a + b * n0 + c * n0 * n1) (i + j * n0 + k * n0 * n1)) as [E|E].
    - assert (a = i) by (rewrite <- (idx3_0 n0 n1 a b c Ha), E; now apply idx3_0).
      assert (b = j) by (rewrite <- (idx3_1 n0 n1 a b c Ha Hb), E; now apply idx3_1).
      assert (c = k) by (rewrite <- (idx3_2 n0 n1 a b c Ha Hb), E; now apply idx3_2).
      subst. now rewrite !Nat.eqb_refl.
    - destruct (Nat.eqb_spec a i), (Nat.eqb_spec b j), (Nat.eqb_spec c k); cbn; auto. subst. now elim E.
  Qed.

  (** Writing the entries of a factor matrix at positions (a jj, ii, c jj). *)
  Lemma fill_core n0 n1 n2 m (pos : nat -> nat -> nat) (a c : nat -> nat) (src : list R) (g : nat -> nat -> nat -> R) :
    (forall jj, jj < m -> a jj < n0 /\ c jj < n2) ->
    (forall ii jj, ii < n1 -> jj < m -> pos ii jj = a jj + ii * n0 + c jj * n0 * n1) ->
    (forall ii jj, ii < n1 -> jj < m -> aget src (ii * m + jj) = Ok (g (a jj) ii (c jj))) ->
    (forall i e k, i < n0 -> e < n1 -> k < n2 -> (exists jj, jj < m /\ a jj = i /\ c jj = k) \/ g i e k = r0) ->
    for_ n1 (fun ii vals =>
      for_ m (fun jj vals => do v <- aget src (ii * m + jj); aset vals (pos ii jj) v) vals)
      (t_vals (init_tensor [n0; n1; n2])) = Ok (v3 n0 n1 n2 g).
  Proof.
    intros Hac Hpos Hsrc Hdec.
    assert (D : forall ii jj f, ii < n1 -> jj < m -> 
      (do v <- aget src (ii * m + jj); aset (v3 n0 n1 n2 f) (pos ii jj) v)
      = Ok (v3 n0 n1 n2 (fun i' j' k' => if (i' =? a jj) && (j' =? ii) && (k' =? c jj)
                                        then g (a jj) ii (c jj) else f i' j' k'))).
    { intros ii jj f Hi Hj. destruct (Hac jj Hj). rewrite Hsrc by auto. cbn [obind].
      rewrite Hpos by auto. now apply v3_aset. }
    set (Inv := fun ii jj (v : list R) => exists f, v = v3 n0 n1 n2 f /\
       (forall i e k, f i e k = g i e k \/ f i e k = r0) /\
       (forall e j, e < ii -> j < m -> f (a j) e (c j) = g (a j) e (c j)) /\
       (forall j, j < jj -> f (a j) ii (c j) = g (a j) ii (c j))).
    assert (St : forall ii jj v, ii < n1 -> jj < m -> Inv ii jj v ->
       exists v', (do x <- aget src (ii * m + jj); aset v (pos ii jj) x) = Ok v' /\ Inv ii (S jj) v').
    { intros ii jj v Hi Hj (f & -> & F1 & F2 & F3). rewrite D by auto. eexists. split; [reflexivity|].
      eexists. split; [reflexivity|].
      assert (K : forall i' j' k', f i' j' k' = g i' j' k' ->
         (if (i' =? a jj) && (j' =? ii) && (k' =? c jj) then g (a jj) ii (c jj) else f i' j' k') = g i' j' k').
      { intros i' j' k' E. destruct (Nat.eqb_spec i' (a jj)), (Nat.eqb_spec j' ii), (Nat.eqb_spec k' (c jj));
          subst; cbn [andb]; auto. }
      split; [|split].
      - intros i e k. destruct (Nat.eqb_spec i (a jj)), (Nat.eqb_spec e ii), (Nat.eqb_spec k (c jj));
          subst; cbn [andb]; auto.
      - intros e j He Hj'. apply K. auto.
      - intros j Hj'. destruct (Nat.eq_dec j jj) as [->|]; [now rewrite !Nat.eqb_refl|].
        apply K. apply F3. lia. }
    destruct (for_inv (fun ii v => Inv ii 0 v) (fun ii vals =>
      for_ m (fun jj vals => do v <- aget src (ii * m + jj); aset vals (pos ii jj) v) vals) n1
      (t_vals (init_tensor [n0; n1; n2]))) as (v & E & f & -> & F1 & F2 & _).
    - exists (fun _ _ _ => r0). unfold init_tensor. cbn [t_vals]. rewrite iprod3. split; [apply zeros_v3|].
      repeat split; auto; intros; lia.
    - intros ii v Hi Hv.
      destruct (for_inv (fun jj v => Inv ii jj v)
        (fun jj vals => do v <- aget src (ii * m + jj); aset vals (pos ii jj) v) m v) as (v' & E & f & -> & F1 & F2 & F3); auto.
      eexists. split; [exact E|]. exists f. repeat split; auto; [|intros; lia].
      intros e j He Hj. destruct (Nat.eq_dec e ii) as [->|]; [auto|]. apply F2; lia.
    - rewrite E. f_equal. apply v3_ext. intros i e k Hi He Hk.
      destruct (Hdec i e k Hi He Hk) as [(jj & Hj & <- & <-)|G]; [auto|]. destruct (F1 i e k); congruence.
  Qed.

  Lemma mat_aget (c : mat R) e j : mat_wf c -> e < m_nrows c -> j < m_ncols c ->
    aget (m_vals c) (e * m_ncols c + j) = Ok (ment c e j).
  Proof.
    intros W He Hj. apply aget_ok. unfold ment. apply nth_error_nth'. rewrite W. nia.
  Qed.

  Lemma corem_ok (c : mat R) : mat_wf c ->
    cd2tt_corem c = Ok (mk3 (m_ncols c) (m_nrows c) (m_ncols c)
                          (fun i e k => if i =? k then ment c e i else r0)).
  Proof.
    intros W. unfold cd2tt_corem.
    rewrite (fill_core _ _ _ _ (fun ii jj => jj + ii * m_ncols c + jj * m_ncols c * m_nrows c)
               (fun j => j) (fun j => j) (m_vals c) (fun i e k => if i =? k then ment c e i else r0)); auto.
    - intros. rewrite Nat.eqb_refl. now apply mat_aget.
    - intros i e k Hi He Hk. destruct (Nat.eqb_spec i k); [left; exists i; auto|auto].
  Qed.

  Lemma corel_ok (c : mat R) : mat_wf c ->
    cd2tt_corel c = Ok (mk3 1 (m_nrows c) (m_ncols c) (fun _ e k => ment c e k)).
  Proof.
    intros W. unfold cd2tt_corel.
    rewrite (fill_core 1 (m_nrows c) (m_ncols c) (m_ncols c) (fun ii jj => 0 + ii * 1 + jj * 1 * m_nrows c)
               (fun _ => 0) (fun j => j) (m_vals c) (fun _ e k => ment c e k)); auto.
    - intros. now apply mat_aget.
    - intros i e k Hi He Hk. left. exists k. repeat split; auto; lia.
  Qed.

  Lemma corer_ok (c : mat R) : mat_wf c ->
    cd2tt_corer c = Ok (mk3 (m_ncols c) (m_nrows c) 1 (fun i e _ => ment c e i)).
  Proof.
    intros W. unfold cd2tt_corer.
    rewrite (fill_core (m_ncols c) (m_nrows c) 1 (m_ncols c) (fun ii jj => jj + ii * m_ncols c)
               (fun j => j) (fun _ => 0) (m_vals c) (fun i e _ => ment c e i)); auto.
    - intros. now apply mat_aget.
    - intros i e k Hi He Hk. left. exists i. repeat split; auto; lia.
  Qed.

  (** * Element access *)
  Lemma cd_term_snoc (cs : list (mat R)) c idx e r : length cs = length idx ->
    cd_term (cs ++ [c]) (idx ++ [e]) r = cd_term cs idx r *! ment c e r.
  Proof.
    revert idx. induction cs as [|c' cs IH]; intros [|e' idx] H; try discriminate; cbn [app cd_term].
    - ring.
    - rewrite IH by (cbn in H; lia). ring.
  Qed.

  Lemma firstn_snoc {A} (l : list A) k x : nth_error l k = Some x -> firstn (S k) l = firstn k l ++ [x].
  Proof.
    revert k. induction l as [|a l IH]; intros [|k] H; cbn in *; try discriminate; [congruence|].
    f_equal. now apply IH.
  Qed.

  Lemma cdelem_ok (cd : candecomp R) idx :
    cd_wf cd -> valid_idx (map (@m_nrows R) (cd_cores cd)) idx -> cdelem cd idx = Ok (cd_value cd idx).
  Proof.
    intros [L W] V. unfold cdelem, cd_value.
    assert (Li : length idx = cd_dim cd).
    { assert (HL : length idx = length (map (@m_nrows R) (cd_cores cd))) by (clear - V; induction V; cbn; congruence).
      rewrite HL, map_length. exact L. }
    assert (T : forall r, r < cd_rank cd ->
      for_ (cd_dim cd) (fun jj temp =>
          do c <- aget (cd_cores cd) jj;
          do e <- aget idx jj;
          do v <- aget (m_vals c) (e * cd_rank cd + r);
          Ok (temp *! v)) r1 = Ok (cd_term (cd_cores cd) idx r)).
    { intros r Hr.
      match goal with |- for_ _ ?b ?s = _ =>
        destruct (for_inv (fun k t => t = cd_term (firstn k (cd_cores cd)) (firstn k idx) r) b (cd_dim cd) s)
          as (t & E & ->) end.
      - reflexivity.
      - intros k t Hk ->.
        destruct (nth_error (cd_cores cd) k) as [c|] eqn:Ec; [|apply nth_error_None in Ec; lia].
        destruct (nth_error idx k) as [e|] eqn:Ee; [|apply nth_error_None in Ee; lia].
        rewrite (aget_ok _ _ _ Ec), (aget_ok _ _ _ Ee). cbn [obind].
        destruct (proj1 (Forall_forall _ _) W c (nth_error_In _ _ Ec)) as [Wc Cc].
        assert (He : e < m_nrows c).
        { clear - V Ec Ee. revert k Ec Ee. remember (map (@m_nrows R) (cd_cores cd)) as ns eqn:En.
          generalize dependent (cd_cores cd). induction V as [|x y l l' Hxy HV IH]; intros cs En k Ec Ee.
          - destruct k; discriminate.
          - destruct cs as [|c' cs]; [discriminate|]. cbn in En. injection En as -> En.
            destruct k; cbn in *; [congruence|]. eapply IH; eauto. }
        rewrite <- Cc, mat_aget by (auto; lia). cbn [obind]. eexists. split; [reflexivity|].
        rewrite (firstn_snoc _ _ _ Ec), (firstn_snoc _ _ _ Ee), cd_term_snoc; [reflexivity|].
        rewrite !firstn_length. lia.
      - rewrite E. do 2 f_equal; [rewrite <- L; apply firstn_all|rewrite <- Li; apply firstn_all]. }
    match goal with |- for_ _ ?b ?s = _ =>
      destruct (for_inv (fun k t => t = sum k (fun r => cd_term (cd_cores cd) idx r)) b (cd_rank cd) s)
        as (t & E & ->) end; auto.
    intros k t Hk ->. rewrite T by auto. cbn [obind]. eexists. split; reflexivity.
  Qed.

  (** * Conversion *)
  Definition rcd (d rk k : nat) : nat := if (k =? 0) || (k =? d) then 1 else rk.
  Definition ecd (d : nat) (M : nat -> mat R) (k i e j : nat) : R :=
    if k =? 0 then ment (M k) e j
    else if k =? d - 1 then ment (M k) e i
    else if i =? j then ment (M k) e i else r0.

  Lemma cd2tt_ok d rk (M : nat -> mat R) :
    2 <= d -> (forall k, k < d -> mat_wf (M k) /\ m_ncols (M k) = rk) ->
    cd2tt (mkcd d rk (tab d M)) = Ok (ttt d (fun k => m_nrows (M k)) (rcd d rk) (ecd d M)).
  Proof.
    intros Hd W. unfold cd2tt. cbn [cd_dim cd_cores].
    rewrite repeat_tab, alloc_ranks_tab, alloc_cores_tab. unfold for_.
    rewrite (loop_tab1 _ _ (fun k => m_nrows (M k))).
    2:{ intros k r Hk. rewrite aget_tab by lia. cbn [obind]. apply aset_tab. lia. }
    cbn [obind]. rewrite aget_tab by lia. cbn [obind].
    destruct (W 0) as [W0 C0]; [lia|]. rewrite corel_ok by auto. cbn [obind].
    rewrite !aset_tab by lia. cbn [obind].
    rewrite (loop_tab2 (d + 1) d _ _ (fun _ => rk)
      (fun k => Some (mk3 rk (m_nrows (M k)) rk (fun i e j => if i =? j then ment (M k) e i else r0)))).
    - cbn [obind]. rewrite aget_tab by lia. cbn [obind].
      destruct (W (d - 1)) as [Wd Cd]; [lia|]. rewrite corer_ok by auto. cbn [obind].
      rewrite aset_tab by lia. cbn [obind mk3 t_nvals]. unfold aget at 1. cbn [nth_error obind].
      repeat (rewrite aset_tab by lia; cbn [obind]).
      replace (tab d (fun i => if (0 <=? i) && (i <? 0 + d) then m_nrows (M i) else 0))
        with (tab d (fun k => m_nrows (M k))) by (apply tab_ext; intros k Hk; natcase; reflexivity).
      apply tt_fin.
      + intros k Hk. unfold rcd. rewrite Cd. natcase; subst; auto; lia.
      + intros k Hk. unfold rcd, ecd. rewrite ?Cd, ?C0. natcase; subst; try lia; try reflexivity.
    - intros k r c Hk. cbn [fst snd]. rewrite aget_tab by lia. cbn [obind].
      destruct (W k) as [Wk Ck]; [lia|]. rewrite corem_ok by auto. cbn [obind].
      rewrite aset_tab by lia. cbn [obind mk3 t_nvals]. unfold aget at 1. cbn [nth_error obind].
      rewrite aset_tab by lia. cbn [obind]. now rewrite Ck.
  Qed.

  (** The rest of one term, from mode [k] on. *)
  Lemma ps_cd d rk (M : nat -> mat R) m : forall k idx i,
    0 < k -> k + S m = d -> i < rk ->
    vld (fun k => m_nrows (M k)) k (S m) idx ->
    ps (fun k => m_nrows (M k)) (rcd d rk) (ecd d M) (S m) k idx i
    = cd_term (map M (seq k (S m))) idx i.
  Proof.
    induction m as [|m IH]; intros k idx i Hk Hd Hi V;
      destruct (vld_inv _ _ _ _ V) as (e & idx' & -> & He & V');
      (rewrite ps_step; [|unfold rcd; natcase; lia|exact He]).
    - cbn [seq map cd_term]. destruct (vld_nil _ _ _ V'). 
      assert (Er : rcd d rk (S k) = 1) by (unfold rcd; natcase; reflexivity).
      rewrite Er, sum_1. unfold ecd. natcase. cbn. reflexivity.
    - assert (Er : rcd d rk (S k) = rk) by (unfold rcd; natcase; reflexivity).
      rewrite Er, (sum_single R rk _ i Hi).
      + rewrite IH by (auto; lia). unfold ecd. natcase. reflexivity.
      + intros j Hj Hne. unfold ecd. natcase. ring.
  Qed.

  Lemma cd_canon (cd : candecomp R) : cd_wf cd ->
    exists M, cd = mkcd (cd_dim cd) (cd_rank cd) (tab (cd_dim cd) M) /\
      forall k, k < cd_dim cd -> mat_wf (M k) /\ m_ncols (M k) = cd_rank cd.
  Proof.
    intros [L W]. destruct cd as [d r cs]. cbn [cd_dim cd_rank cd_cores] in *.
    exists (fun k => nth k cs (mkmat 0 0 [])). split.
    - f_equal. rewrite <- L. apply list_eq_tab_nth.
    - intros k Hk. rewrite Forall_forall in W. apply W. apply nth_In. lia.
  Qed.
End CdFacts.

(** * C104 *)
(** The element accessor of the canonical form returns the sum over the terms of
    the products of the factor entries. *)
Theorem C104_cdelem :
  forall (R : CRing) (cd : candecomp R) idx,
  cd_wf cd -> valid_idx (map (@m_nrows R) (cd_cores cd)) idx ->
  cdelem cd idx = Ok (cd_value cd idx).
Proof. exact @cdelem_ok. Qed.
Print Assumptions C104_cdelem.

(** The converted train has the same mode sizes, the number of terms as each
    interior rank, and the same elements. *)
Theorem C104_convert_partial :
  forall (R : CRing) (cd : candecomp R),
  cd_wf cd -> 2 <= cd_dim cd -> 0 < cd_rank cd ->
  exists t, cd2tt cd = Ok t /\ tt_wf t /\ tt_dim t = cd_dim cd /\
    tt_nvals t = map (@m_nrows R) (cd_cores cd) /\
    (forall k, 0 < k -> k < cd_dim cd -> rk t k = cd_rank cd) /\
    forall idx, valid_idx (tt_nvals t) idx -> cdelem cd idx = Ok (tt_value t idx).
Proof.
  intros R cd W Hd Hr. destruct (cd_canon cd W) as (M & E & HM).
  remember (cd_dim cd) as d. remember (cd_rank cd) as r.
  assert (Em : map (@m_nrows R) (cd_cores cd) = tab d (fun k => m_nrows (M k))).
  { rewrite E. cbn [cd_cores]. unfold tab. now rewrite map_map. }
  exists (ttt d (fun k => m_nrows (M k)) (rcd d r) (ecd d M)).
  split; [rewrite E; now apply cd2tt_ok|].
  split. { apply ttt_wf; try lia; unfold rcd; [reflexivity|now rewrite Nat.eqb_refl, Bool.orb_true_r|].
           intros k Hk. natcase. }
  split; [reflexivity|]. split; [now rewrite Em|].
  split. { intros k H1 H2. unfold rk. cbn [ttt tt_ranks]. rewrite nth_tab by lia. unfold rcd. natcase; reflexivity. }
  cbn [ttt tt_nvals]. intros idx V. rewrite cdelem_ok by (auto; now rewrite Em). f_equal.
  change (tt_value _ idx) with (ps (fun k => m_nrows (M k)) (rcd d r) (ecd d M) d 0 idx 0).
  unfold cd_value. rewrite <- Heqr. rewrite E. cbn [cd_cores].
  change (valid_idx _ idx) with (vld (fun k => m_nrows (M k)) 0 d idx) in V.
  destruct d as [|[|m]]; try lia.
  destruct (vld_inv _ _ _ _ V) as (e & idx' & -> & He & V').
  rewrite ps_step; [|cbn; lia|exact He]. replace (rcd (S (S m)) r 1) with r by (unfold rcd; natcase; reflexivity).
  apply sum_ext. intros j Hj. rewrite ps_cd by (auto; lia). reflexivity.
Qed.
Print Assumptions C104_convert_partial.

(** Through the element accessor of trains, where that accessor is right (C15). *)
Theorem C104_elements_partial :
  forall (R : CRing) (cd : candecomp R) idx,
  cd_wf cd -> 2 <= cd_dim cd -> 0 < cd_rank cd ->
  (forall k, 2 <= k -> k < cd_dim cd - 1 ->
     nth k (map (@m_nrows R) (cd_cores cd)) 0 = nth 1 (map (@m_nrows R) (cd_cores cd)) 0) ->
  valid_idx (map (@m_nrows R) (cd_cores cd)) idx ->
  (do t <- cd2tt cd; ttelem t idx) = cdelem cd idx.
Proof.
  intros R cd idx W Hd Hr Hk V.
  destruct (C104_convert_partial R cd W Hd Hr) as (t & -> & Wt & Dt & Nt & _ & Vt). cbn [obind].
  rewrite Vt by now rewrite Nt. apply ttelem_spec; auto; [lia| |now rewrite Nt].
  unfold nv. rewrite Nt, Dt. exact Hk.
Qed.
Print Assumptions C104_elements_partial.

(** One mode: the first core is overwritten by the one made for the last mode,
    so the train starts with as many rows as there are terms, and only the
    first term is left.  No mode at all: an array is read out of bounds. *)
Theorem C104_one_mode :
  forall (R : CRing) (c : mat R),
  mat_wf c ->
  exists t, cd2tt (mkcd 1 (m_ncols c) [c]) = Ok t /\ rk t 0 = m_ncols c /\
    (forall e, e < m_nrows c -> 0 < m_ncols c -> tt_value t [e] = ment c e 0).
Proof.
  intros R c W. unfold cd2tt. cbn [cd_dim cd_cores]. cbn [for_ for_from repeat tt_alloc_cores tt_alloc_ranks Nat.sub].
  unfold aget at 1 2. cbn [nth_error obind]. unfold for_. cbn [for_from]. unfold aget at 1. cbn [nth_error obind].
  unfold aset at 1. cbn. rewrite corel_ok by auto. cbn. rewrite corer_ok by auto. cbn.
  eexists. split; [reflexivity|]. split; [reflexivity|]. intros e He Hc.
  unfold tt_value. cbn [tt_cores path_sum].
  change (nth 2 (t_nvals (mk3 (m_ncols c) (m_nrows c) 1 (fun i e _ => ment c e i))) 0) with 1.
  rewrite sum_1, tent_mk3 by auto. pose proof (rth R) as T. rewrite (Rmul_comm T). apply (Rmul_1_l T).
Qed.
Print Assumptions C104_one_mode.

Theorem C104_convert_refuted :
  (exists (cd : candecomp Zring) t idx v,
     cd_wf cd /\ cd_dim cd = 1 /\ cd2tt cd = Ok t /\ ~ tt_wf t /\
     valid_idx (map (@m_nrows Zring) (cd_cores cd)) idx /\
     cdelem cd idx = Ok v /\ v <> tt_value t idx) /\
  (forall R : CRing, cd2tt (R := R) (mkcd 0 1 []) = UB).
Proof.
  split; [|reflexivity].
  exists (mkcd 1 2 [mkmat (R := Zring) 1 2 [3; 4]%Z]). eexists. exists [0], 7%Z.
  split. { split; [reflexivity|]. repeat constructor. }
  split; [reflexivity|]. split; [reflexivity|].
  split. { intros (_ & _ & _ & _ & H & _). discriminate H. }
  split; [repeat constructor|]. split; [reflexivity|]. vm_compute. discriminate.
Qed.
Print Assumptions C104_convert_refuted.

(** Three modes of sizes 2, 3, 1 and two terms. *)
Definition cd_231 : candecomp Zring :=
  mkcd 3 2 [mkmat (R := Zring) 2 2 [1; 2; 3; 4]%Z; mkmat (R := Zring) 3 2 [5; 6; 7; 8; 9; 10]%Z;
            mkmat (R := Zring) 1 2 [11; 12]%Z].
Example C104_example :
  cd_wf cd_231 /\ valid_idx (map (@m_nrows Zring) (cd_cores cd_231)) [1; 2; 0] /\
  cdelem cd_231 [1; 2; 0] = Ok (777%Z : Zring) /\
  (do t <- cd2tt cd_231; ttelem t [1; 2; 0]) = Ok (777%Z : Zring).
Proof.
  split; [split; [reflexivity|repeat constructor]|]. split; [repeat constructor|].
  split; reflexivity.
Qed.
