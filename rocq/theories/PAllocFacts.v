(** The life cycle of parameterized function trains: facts. *)
From Verif Require Export PAllocModel PGradApp ParamBad PropParam.

(** * Loops over lists *)
Fixpoint foldM {A S} (body : A -> S -> outcome S) (l : list A) (s : S) : outcome S :=
  match l with [] => Ok s | a :: l => do s <- body a s; foldM body l s end.

Section FoldM.
  Context {A S : Type}.
  Lemma for_from_foldM (B : nat -> S -> outcome S) lo n s : for_from lo n B s = foldM B (seq lo n) s.
  Proof. revert lo s. induction n as [|n IH]; intros lo s; cbn [for_from seq foldM]; auto. destruct (B lo s); cbn [obind]; auto. Qed.
  Lemma for_foldM (B : nat -> S -> outcome S) n s : for_ n B s = foldM B (seq 0 n) s.
  Proof. apply for_from_foldM. Qed.
  Lemma foldM_app (B : A -> S -> outcome S) l1 l2 s : foldM B (l1 ++ l2) s = do s <- foldM B l1 s; foldM B l2 s.
  Proof. revert s. induction l1 as [|a l IH]; intros s; cbn [app foldM obind]; auto. destruct (B a s); cbn [obind]; auto. Qed.
  Lemma foldM_ext (B B' : A -> S -> outcome S) l s : (forall a s, In a l -> B a s = B' a s) -> foldM B l s = foldM B' l s.
  Proof.
    revert s. induction l as [|a l IH]; intros s H; cbn [foldM]; auto. rewrite H by now left.
    destruct (B' a s); cbn [obind]; auto. apply IH. intros. apply H. now right.
  Qed.
  Lemma foldM_map {C} (f : C -> A) (B : A -> S -> outcome S) l s : foldM B (map f l) s = foldM (fun c => B (f c)) l s.
  Proof. revert s. induction l as [|a l IH]; intros s; cbn [map foldM]; auto. destruct (B (f a) s); cbn [obind]; auto. Qed.
  Lemma foldM_flat_map {C} (f : C -> list A) (B : A -> S -> outcome S) l s :
    foldM B (flat_map f l) s = foldM (fun c => foldM B (f c)) l s.
  Proof.
    revert s. induction l as [|a l IH]; intros s; cbn [flat_map foldM]; auto. rewrite foldM_app.
    destruct (foldM B (f a) s); cbn [obind]; auto.
  Qed.
  (** Invariant over a list *)
  Lemma foldM_inv (I : list A -> S -> Prop) (B : A -> S -> outcome S) l pre s :
    I pre s -> (forall p a q s, l = p ++ a :: q -> I (pre ++ p) s -> exists s', B a s = Ok s' /\ I (pre ++ p ++ [a]) s') ->
    exists s', foldM B l s = Ok s' /\ I (pre ++ l) s'.
  Proof.
    revert pre s. induction l as [|a l IH]; intros pre s H0 H; cbn [foldM].
    - exists s. now rewrite app_nil_r.
    - destruct (H [] a l s eq_refl) as (s1 & E & H1); [now rewrite app_nil_r|]. rewrite E. cbn [obind app] in *.
      destruct (IH (pre ++ [a]) s1 H1) as (s2 & E2 & H2).
      + intros p b q s' -> Hs. rewrite <- app_assoc in Hs. destruct (H (a :: p) b q s' eq_refl Hs) as (s3 & E3 & H3).
        exists s3. split; auto. rewrite <- !app_assoc. cbn [app] in *. exact H3.
      + exists s2. split; auto. now rewrite <- app_assoc in H2.
  Qed.
End FoldM.

(** The positions (core, row, column) of the functions, in the order in which
    they are stored. *)
Definition positions (r : nat -> nat) (d : nat) : list (nat * nat * nat) :=
  flat_map (fun k => flat_map (fun j => map (fun i => (k, i, j)) (seq 0 (r k))) (seq 0 (r (S k)))) (seq 0 d).

Lemma over_funs_ok {S} d ranks r (body : nat -> nat -> nat -> S -> outcome S) s :
  (forall k, k <= d -> aget ranks k = Ok (r k)) ->
  over_funs d ranks body s = foldM (fun q => body (fst (fst q)) (snd (fst q)) (snd q)) (positions r d) s.
Proof.
  intros H. unfold over_funs, positions. rewrite for_foldM, foldM_flat_map. apply foldM_ext.
  intros k s1 Hk. apply in_seq in Hk. rewrite H by lia. cbn [obind]. replace (k + 1) with (Datatypes.S k) by lia.
  rewrite for_foldM, foldM_flat_map. apply foldM_ext. intros j s2 Hj. rewrite H by lia. cbn [obind].
  now rewrite for_foldM, foldM_map.
Qed.

Lemma flat_map_const_length {A B} (f : A -> list B) l n : (forall a, In a l -> length (f a) = n) -> length (flat_map f l) = length l * n.
Proof.
  intros H. induction l as [|a l IH]; cbn [flat_map length]; auto. rewrite app_length, H by now left.
  rewrite IH; [lia|]. intros. apply H. now right.
Qed.

Lemma positions_length r d : length (positions r d) = offs (fun q => r q * r (S q)) d.
Proof.
  induction d as [|d IH]; auto. unfold positions in *. rewrite seq_S, flat_map_app, app_length, IH. cbn [offs flat_map].
  rewrite app_nil_r, (flat_map_const_length _ _ (r d)).
  - rewrite seq_length. cbn [Nat.add]. lia.
  - intros j _. now rewrite map_length, seq_length.
Qed.

(** * Structure *)
Section Struct.
  Context {R : CRing} {F : Type}.
  Open Scope cr_scope.
  Variable bad : R -> bool.
  Notation G := (gfn R F).

  Lemma ftp_npu_eq (ftp : ftparam R G) : ftp_ok ftp -> fp_npu ftp = map gf_num (flat_map fs (ft_cores (fp_ft ftp))).
  Proof.
    intros (W & O & _ & E & _). rewrite E. apply map_ext_in. intros u Hu.
    pose proof (funs_wf _ O) as Wf. rewrite Forall_forall in Wf. apply gf_params_length. apply Wf. exact Hu.
  Qed.
  Lemma ftp_nparams_eq (ftp : ftparam R G) : ftp_ok ftp -> fp_nparams ftp = lnum (ft_funs (fp_ft ftp)).
  Proof. intros (W & O & _ & _ & _ & E & _). rewrite E. now apply (train_params_length (fp_ft ftp)). Qed.
  Lemma ftp_params_eq (ftp : ftparam R G) : ftp_ok ftp -> fp_params ftp = lparams (ft_funs (fp_ft ftp)).
  Proof. intros (W & O & _ & _ & _ & _ & E). rewrite E. apply (train_params_lparams (fp_ft ftp)). Qed.
  Lemma ftp_params_length (ftp : ftparam R G) : ftp_ok ftp -> length (fp_params ftp) = fp_nparams ftp.
  Proof. intros (W & O & _ & _ & _ & E & E'). now rewrite E, E'. Qed.

  (** Writing new parameters into the train and the copy in the structure *)
  Theorem ftp_set (ftp : ftparam R G) p : ftp_ok ftp -> length p = fp_nparams ftp ->
    (forall v, In v p -> bad v = false) ->
    exists g, ft_update bad r0 (fp_ft ftp) p = Ok (fp_nparams ftp, g) /\
      ftp_ok (set_ftp ftp g p) /\ same_structure (fp_ft ftp) g /\ g = ft_with (fp_ft ftp) p.
  Proof.
    intros O L Hb. pose proof (ftp_nparams_eq ftp O) as EN. pose proof (ftp_npu_eq ftp O) as EU. pose proof O as (W & Of & Ed & _ & Ec & E1 & E2).
    set (f := fp_ft ftp) in *.
    destruct (C10_get_update bad r0 f p Of) as (g & Eg & Og & Sg & Pg & _).
    { unfold train_params. rewrite <- E1. lia. }
    { intros v Hv. apply Hb. rewrite <- (firstn_skipn (length (train_params f)) p). apply in_or_app. now left. }
    assert (Egw : g = ft_with f p).
    { rewrite ft_update_ok in Eg; auto. { congruence. } { lia. }
      intros i v Hi Hv. apply Hb. eapply nth_error_In; eauto. }
    exists g. split; [rewrite Eg; unfold train_params; now rewrite <- E1|]. split; [|split; auto].
    assert (Wg : ft_wf g) by (rewrite Egw; now apply ft_with_wf).
    assert (Fg : flat_map fs (ft_cores g) = lwith (flat_map fs (ft_cores f)) p).
    { rewrite Egw. apply cfuns_cwith. }
    assert (Pg' : train_params g = p).
    { rewrite Pg. apply firstn_all2. unfold train_params. rewrite <- E1. lia. }
    unfold ftp_ok, set_ftp. cbn [fp_ft fp_dim fp_npu fp_npc fp_nparams fp_params].
    split; [auto|]. split; [auto|]. split; [rewrite Ed, Egw; reflexivity|]. split; [|split; [|split]].
    - rewrite EU, Fg, <- (lwith_num _ p). apply map_ext_in. intros u Hu. symmetry. apply gf_params_length.
      pose proof (funs_wf _ Og) as Wfu. rewrite Forall_forall in Wfu. apply Wfu. unfold ft_funs, cfuns. now rewrite Fg.
    - rewrite Ec. destruct Sg as (_ & _ & S3). clear -S3 Of Og.
      destruct Of as [_ Of]. destruct Og as [_ Og]. revert S3 Og. generalize (ft_cores g) as cs'.
      induction Of as [|c cs [Q Wc] _ IH]; intros [|c' cs'] S3 Og; try discriminate; auto.
      cbn [map] in *. injection S3 as _ _ S3 S4. inversion Og as [|? ? [Q' Wc'] Og']; subst. f_equal; [|now apply IH].
      clear -S3 Wc Wc'. revert S3 Wc'. generalize (fs c') as l'. induction Wc as [|u l Wu _ IH]; intros [|u' l'] S3 Wc'; try discriminate; auto.
      cbn [map flat_map] in *. injection S3 as Sa Sb. inversion Wc'; subst. rewrite !app_length. f_equal; [|now apply IH].
      rewrite !gf_params_length by auto.
      destruct u, u'; cbn [gf_rest] in Sa; try discriminate; injection Sa; intros; subst; reflexivity.
    - change (fp_nparams ftp = length (train_params g)). rewrite Pg'. auto.
    - symmetry. exact Pg'.
  Qed.
End Struct.

Lemma nth_error_flat_map_const {A B} (f : A -> list B) l n i j a b :
  (forall a, In a l -> length (f a) = n) -> nth_error l i = Some a -> nth_error (f a) j = Some b ->
  nth_error (flat_map f l) (i * n + j) = Some b.
Proof.
  intros H. revert i. induction l as [|c l IH]; intros [|i] Ea Eb; try discriminate; cbn [flat_map nth_error] in *.
  - injection Ea as ->. cbn [Nat.mul Nat.add]. rewrite nth_error_app1; auto. apply nth_error_Some. congruence.
  - assert (Lc : length (f c) = n) by (apply H; now left).
    rewrite nth_error_app2 by (cbn [Nat.mul]; lia). rewrite Lc.
    replace (S i * n + j - n) with (i * n + j) by (cbn [Nat.mul]; lia). apply IH; auto. intros. apply H. now right.
Qed.

Lemma nth_error_seq0 n i : i < n -> nth_error (seq 0 n) i = Some i.
Proof. intros H. rewrite (nth_error_nth' _ 0) by (rewrite seq_length; lia). f_equal. now apply seq_nth. Qed.

Lemma positions_nth r d k i j : k < d -> i < r k -> j < r (S k) ->
  nth_error (positions r d) (offs (fun q => r q * r (S q)) k + (j * r k + i)) = Some (k, i, j).
Proof.
  intros Hk Hi Hj. assert (E : positions r d = positions r k ++
      flat_map (fun j => map (fun i => (k, i, j)) (seq 0 (r k))) (seq 0 (r (S k))) ++
      flat_map (fun k => flat_map (fun j => map (fun i => (k, i, j)) (seq 0 (r k))) (seq 0 (r (S k)))) (seq (S k) (d - S k))).
  { unfold positions. replace d with (k + S (d - S k)) at 1 by lia. rewrite seq_app, flat_map_app. reflexivity. }
  rewrite E, nth_error_app2; rewrite positions_length; [|lia].
  replace (offs (fun q => r q * r (S q)) k + (j * r k + i) - offs (fun q => r q * r (S q)) k) with (j * r k + i) by lia.
  assert (N : nth_error (flat_map (fun j => map (fun i => (k, i, j)) (seq 0 (r k))) (seq 0 (r (S k)))) (j * r k + i) = Some (k, i, j)).
  { apply (nth_error_flat_map_const _ _ (r k) j i j).
    - intros a _. now rewrite map_length, seq_length.
    - now apply nth_error_seq0.
    - exact (map_nth_error (fun i => (k, i, j)) i (seq 0 (r k)) (nth_error_seq0 _ _ Hi)). }
  rewrite nth_error_app1; auto. apply nth_error_Some. congruence.
Qed.

Lemma positions_split r d p k i j s : positions r d = p ++ (k, i, j) :: s ->
  k < d /\ i < r k /\ j < r (S k) /\ length p = offs (fun q => r q * r (S q)) k + (j * r k + i).
Proof.
  intros E. assert (Hn : nth_error (positions r d) (length p) = Some (k, i, j)).
  { rewrite E, nth_error_app2, Nat.sub_diag by lia. reflexivity. }
  assert (Hl : length p < offs (fun q => r q * r (S q)) d).
  { rewrite <- positions_length. apply nth_error_Some. congruence. }
  destruct (offs_locate _ _ _ Hl) as (k' & l & Hk & Hlt & El).
  assert (0 < r k') by (destruct (r k'); lia).
  assert (Hi : l mod r k' < r k') by (apply Nat.mod_upper_bound; lia).
  assert (Hj : l / r k' < r (S k')) by (apply Nat.div_lt_upper_bound; lia).
  assert (Ed : l = l / r k' * r k' + l mod r k') by (rewrite Nat.mul_comm; apply Nat.div_mod; lia).
  pose proof (positions_nth r d k' (l mod r k') (l / r k') Hk Hi Hj) as N. rewrite <- Ed, <- El, Hn in N.
  injection N as -> -> ->. repeat split; auto. rewrite <- Ed. exact El.
Qed.

Lemma aset_app_repeat {A} (pre : list A) (z v : A) n :
  aset (pre ++ repeat z (S n)) (length pre) v = Ok (pre ++ v :: repeat z n).
Proof.
  rewrite aset_ok by (rewrite app_length, repeat_length; lia). f_equal.
  replace (length pre) with (length pre + 0) by lia. now rewrite upd_app_r.
Qed.

Lemma aset_app_repeat' {A} (pre : list A) (z v : A) n k : k = length pre ->
  aset (pre ++ repeat z (S n)) k v = Ok (pre ++ v :: repeat z n).
Proof. intros ->. apply aset_app_repeat. Qed.

Lemma repeat_snoc {A} (a : A) n : repeat a n ++ [a] = repeat a (S n).
Proof. induction n as [|n IH]; cbn [repeat app]; auto. now rewrite IH. Qed.

Lemma map_repeat' {A B} (f : A -> B) a n : map f (repeat a n) = repeat (f a) n.
Proof. induction n as [|n IH]; cbn [repeat map]; auto. now rewrite IH. Qed.

(** * Allocation *)
Section Alloc.
  Context {R : CRing} {F : Type}.
  Open Scope cr_scope.
  Variable bad : R -> bool.
  Notation G := (gfn R F).
  Notation aopt := (aopt R F).

  Variables (aopts : list aopt) (ranks : list nat).
  Let d := length aopts.
  Hypothesis Lr : d + 1 <= length ranks.
  Let r k := nth k ranks 0.
  Let e k := r k * r (S k).
  Let oz := APw (R := R) (F := F).
  Hypothesis Hd : 0 < d.
  Variable a0 : aopt.
  Let op k := nth k aopts a0.

  Lemma al_rk k : k <= d -> aget ranks k = Ok (r k).
  Proof. intros H. apply aget_ok. apply nth_error_nth'. lia. Qed.
  Lemma al_op k : k < d -> aget aopts k = Ok (op k).
  Proof. intros H. apply aget_ok. apply nth_error_nth'. exact H. Qed.

  Definition zcore k : qma G := mkq (r k) (r (S k)) (repeat (opt_zero (op k)) (e k)).

  Lemma al_zeros : ft_zeros aopts ranks = Ok (mkft d (firstn (d + 1) ranks) (tab d zcore)).
  Proof.
    unfold ft_zeros. fold d. rewrite blit_ok by (rewrite ?repeat_length; lia). cbn [obind skipn].
    rewrite splice_full by (rewrite firstn_length, repeat_length; lia).
    match goal with |- context [for_ d ?B ?S0] => assert (E : for_ d B S0 = Ok (map zcore (seq 0 d))) end.
    { match goal with |- for_ d ?B ?S0 = _ => apply (for_det (fun k => map zcore (seq 0 k)) B d) end.
      intros k Hk. rewrite al_op, !al_rk by lia. cbn [obind]. replace (k + 1) with (S k) by lia.
      match goal with |- context [for_ (r k * r (S k)) ?B ?S0] =>
        assert (E : for_ (r k * r (S k)) B S0 = Ok (repeat (opt_zero (op k)) (r k * r (S k)))) end.
      { match goal with |- for_ ?n ?B ?S0 = _ => apply (for_det (fun k0 => repeat (opt_zero (op k)) k0) B n) end.
        intros i Hi. now rewrite repeat_snoc. }
      rewrite E. cbn [obind]. rewrite seq_S, map_app. reflexivity. }
    rewrite E. reflexivity.
  Qed.

  Lemma al_count (o : nat -> outcome aopt) : (forall k, k < d -> o k = Ok (op k)) ->
    for_ d (fun jj (s : list nat * nat * nat) =>
        let '(npc, nparams, nuni) := s in
        do a <- aget ranks jj;
        do b <- aget ranks (jj + 1);
        do o <- o jj;
        do npc <- aset npc jj (a * b * opt_np o);
        do n <- aget npc jj;
        Ok (npc, nparams + n, nuni + a * b)) (repeat 0 d, 0, 0)
    = Ok (map (fun k => e k * opt_np (op k)) (seq 0 d), offs (fun k => e k * opt_np (op k)) d, offs e d).
  Proof.
    intros Ho.
    set (st := fun k => (map (fun k => e k * opt_np (op k)) (seq 0 k) ++ repeat 0 (d - k),
                       offs (fun k => e k * opt_np (op k)) k, offs e k)).
    match goal with |- for_ d ?B ?S0 = _ => transitivity (for_ d B (st 0)) end.
    { f_equal. unfold st. cbn [seq map app offs]. now rewrite Nat.sub_0_r. }
    etransitivity; [apply for_det|]; unfold st.
    - intros k Hk. cbv beta iota. rewrite al_rk by lia. cbn [obind]. replace (k + 1) with (S k) by lia.
      rewrite al_rk, Ho by lia. cbn [obind]. replace (d - k) with (S (d - S k)) by lia.
      set (L := map _ (seq 0 k)). assert (EL : k = length L) by (unfold L; now rewrite map_length, seq_length).
      rewrite (aset_app_repeat' L) by exact EL. cbn [obind]. rewrite (aget_ok _ k (r k * r (S k) * opt_np (op k))).
      2:{ rewrite nth_error_app2 by lia. rewrite <- EL, Nat.sub_diag. reflexivity. }
      cbn [obind offs]. do 3 f_equal. rewrite seq_S, map_app, <- app_assoc. reflexivity.
    - rewrite Nat.sub_diag. cbn [repeat]. now rewrite app_nil_r.
  Qed.

  Definition npus : list nat := flat_map (fun k => repeat (opt_np (op k)) (e k)) (seq 0 d).

  Lemma npus_upto k : length (flat_map (fun k => repeat (opt_np (op k)) (e k)) (seq 0 k)) = offs e k.
  Proof.
    induction k as [|k IH]; auto. rewrite seq_S, flat_map_app, app_length, IH. cbn [flat_map offs].
    rewrite app_nil_r, repeat_length. reflexivity.
  Qed.

  Lemma al_npu :
    for_ d (fun jj (s : list nat * nat) =>
        do a <- aget ranks jj;
        do b <- aget ranks (jj + 1);
        for_ (a * b) (fun _ (s : list nat * nat) =>
          let '(npu, onind) := s in
          do o <- aget aopts jj;
          do npu <- aset npu onind (opt_np o);
          Ok (npu, onind + 1)) s) (repeat 0 (offs e d), 0)
    = Ok (npus, offs e d).
  Proof.
    set (P := fun k => flat_map (fun k => repeat (opt_np (op k)) (e k)) (seq 0 k)).
    set (st := fun k => (P k ++ repeat 0 (offs e d - offs e k), offs e k)).
    match goal with |- for_ d ?B ?S0 = _ => transitivity (for_ d B (st 0)) end.
    { f_equal. unfold st. cbn [seq flat_map app offs P]. now rewrite Nat.sub_0_r. }
    etransitivity; [apply for_det|]; unfold st.
    - intros k Hk. cbv beta iota. rewrite al_rk by lia. cbn [obind]. replace (k + 1) with (S k) by lia.
      rewrite al_rk by lia. cbn [obind]. fold (e k).
      assert (M : offs e (S k) <= offs e d) by (apply offs_mono; lia). cbn [offs] in M.
      set (st2 := fun i => (P k ++ repeat (opt_np (op k)) i ++ repeat 0 (offs e d - offs e k - i), offs e k + i)).
      match goal with |- for_ (e k) ?B ?S0 = _ => transitivity (for_ (e k) B (st2 0)) end.
      { f_equal. unfold st2. cbn [repeat app]. now rewrite Nat.sub_0_r, Nat.add_0_r. }
      etransitivity; [apply for_det|]; unfold st2.
      + intros i Hi. cbv beta iota. rewrite al_op by lia. cbn [obind].
        replace (offs e d - offs e k - i) with (S (offs e d - offs e k - S i)) by lia. rewrite app_assoc.
        rewrite (aset_app_repeat' (P k ++ repeat (opt_np (op k)) i)) by (rewrite app_length, repeat_length; unfold P; now rewrite npus_upto).
        cbn [obind].
        do 2 f_equal; [|lia]. rewrite <- repeat_snoc, <- !app_assoc. reflexivity.
      + cbn [offs]. replace (offs e d - offs e k - e k) with (offs e d - (offs e k + e k)) by lia. do 2 f_equal.
        unfold P. rewrite seq_S, flat_map_app, <- app_assoc. cbn [flat_map Nat.add]. now rewrite app_nil_r.
    - rewrite Nat.sub_diag. cbn [repeat]. now rewrite app_nil_r.
  Qed.

  Hypothesis Hpos : forall k, k <= d -> 0 < r k.
  Hypothesis Hr0 : r 0 = 1.
  Hypothesis Hrd : r d = 1.
  Hypothesis Hop : forall a, In a aopts -> opt_np a = gf_num (opt_zero a).
  Hypothesis Lr' : length ranks = d + 1.

  Lemma opt_zero_wf (a : aopt) : gf_wf (opt_zero a).
  Proof.
    destruct a as [o s|o l lb ub [|n nodes]|o ad n c|o]; cbn [opt_zero gf_wf]; auto.
    - rewrite repeat_length. lia.
    - cbn [length]. now rewrite repeat_length.
    - now rewrite repeat_length.
  Qed.
  Lemma al_in k : k < d -> In (op k) aopts.
  Proof. intros H. now apply nth_In. Qed.

  Definition zft : ftrain G := mkft d ranks (tab d zcore).
  Lemma zft_chain lo n : lo + n <= d -> chain (r lo) (map zcore (seq lo n)) (r (lo + n)).
  Proof.
    revert lo. induction n as [|n IH]; intros lo H; cbn [seq map chain]; [now rewrite Nat.add_0_r|].
    split; [reflexivity|]. split; [unfold qwf; cbn [zcore fs nr nc]; now rewrite repeat_length|].
    cbn [zcore nr nc]. split; [apply Hpos; lia|]. split; [apply Hpos; lia|].
    replace (lo + S n) with (S lo + n) by lia. apply IH. lia.
  Qed.
  Lemma zft_wf : ft_wf zft.
  Proof.
    split; [cbn; now rewrite tab_length|]. split; [exact Hd|]. split.
    - cbn [zft ft_ranks ft_cores]. apply nth_error_ext; [unfold tab; cbn [length]; rewrite !map_length, seq_length; lia|].
      intros i Hi. rewrite (nth_error_nth' ranks 0) by lia. destruct i as [|i].
      + cbn [nth_error]. f_equal. exact Hr0.
      + symmetry. cbn [nth_error]. unfold tab. rewrite map_map.
        rewrite (map_nth_error _ i _ (nth_error_seq0 d i ltac:(lia))). reflexivity.
    - pose proof (zft_chain 0 d ltac:(lia)) as C. rewrite Hr0 in C. cbn [Nat.add] in C. rewrite Hrd in C. exact C.
  Qed.
  Lemma zft_ok : ft_ok zft.
  Proof.
    split; [cbn; now rewrite tab_length|]. cbn [zft ft_cores]. apply Forall_forall. intros c Hc.
    unfold tab in Hc. apply in_map_iff in Hc as (k & <- & Hk). split.
    - unfold qwf. cbn [zcore fs nr nc]. now rewrite repeat_length.
    - cbn [zcore fs]. apply Forall_forall. intros u Hu. apply repeat_spec in Hu. subst u. apply opt_zero_wf.
  Qed.
  Lemma zft_funs : flat_map fs (ft_cores zft) = flat_map (fun k => repeat (opt_zero (op k)) (e k)) (seq 0 d).
  Proof. cbn [zft ft_cores]. unfold tab. generalize (seq 0 d) as l. induction l as [|k l IH]; cbn [map flat_map]; auto. now rewrite IH. Qed.

  Definition zftp : ftparam R G :=
    mkftp zft d npus (map (fun k => e k * opt_np (op k)) (seq 0 d)) (offs (fun k => e k * opt_np (op k)) d) (train_params zft).

  Lemma lparams_repeat (u : G) n : gf_wf u -> length (flat_map gf_params (repeat u n)) = n * gf_num u.
  Proof.
    intros W. rewrite (flat_map_const_length _ _ (gf_num u)); [now rewrite repeat_length|].
    intros a Ha. apply repeat_spec in Ha. subst a. now apply gf_params_length.
  Qed.

  Lemma zftp_ok : ftp_ok zftp.
  Proof.
    unfold ftp_ok. cbn [zftp fp_ft fp_dim fp_npu fp_npc fp_nparams fp_params].
    split; [exact zft_wf|]. split; [exact zft_ok|]. split; [reflexivity|]. split; [|split; [|split]].
    - rewrite zft_funs. unfold npus. assert (H : forall k, In k (seq 0 d) -> k < d) by (intros k Hk; apply in_seq in Hk; lia).
      revert H. generalize (seq 0 d) as l. induction l as [|k l IH]; intros H; cbn [flat_map map]; auto.
      rewrite map_app, <- IH by (intros; apply H; now right). f_equal.
      rewrite map_repeat'. f_equal. rewrite gf_params_length by apply opt_zero_wf. apply Hop, al_in, H. now left.
    - cbn [zft ft_cores]. unfold tab. rewrite map_map. apply map_ext_in. intros k Hk. apply in_seq in Hk.
      cbn [zcore fs]. rewrite lparams_repeat by apply opt_zero_wf. f_equal. apply Hop, al_in. lia.
    - cbn [zft ft_cores]. unfold tab. assert (H : forall n, n <= d ->
        offs (fun k => e k * opt_np (op k)) n = length (flat_map (fun c : qma G => flat_map gf_params (fs c)) (map zcore (seq 0 n)))).
      { induction n as [|n IH]; intros Hn; auto. cbn [offs]. rewrite seq_S, map_app, flat_map_app, app_length, <- IH by lia.
        cbn [map flat_map Nat.add]. rewrite app_nil_r. cbn [zcore fs]. rewrite lparams_repeat by apply opt_zero_wf.
        do 2 f_equal. apply Hop, al_in. lia. }
      now apply H.
    - reflexivity.
  Qed.

  Theorem alloc_none : ftp_alloc bad d aopts None ranks
    = Ok (mkftp zft d (fp_npu zftp) (fp_npc zftp) (fp_nparams zftp) (repeat r0 (fp_nparams zftp))).
  Proof.
    unfold ftp_alloc. rewrite (al_count (aget aopts) al_op). cbn [obind]. rewrite al_npu. cbn [obind].
    rewrite al_zeros. cbn [obind]. rewrite firstn_all2 by lia. reflexivity.
  Qed.

  Theorem alloc_some p : fp_nparams zftp <= length p ->
    (forall v, In v (firstn (fp_nparams zftp) p) -> bad v = false) ->
    exists ftp, ftp_alloc bad d aopts (Some p) ranks = Ok ftp /\ ftp_ok ftp /\
      same_structure zft (fp_ft ftp) /\ fp_params ftp = firstn (fp_nparams zftp) p /\ fp_nparams ftp = fp_nparams zftp /\
      ft_ranks (fp_ft ftp) = ranks.
  Proof.
    intros Lp Hb. unfold ftp_alloc. rewrite (al_count (aget aopts) al_op). cbn [obind]. rewrite al_npu. cbn [obind].
    rewrite al_zeros. cbn [obind]. rewrite (firstn_all2 ranks) by lia. fold zft.
    change (offs (fun k => e k * opt_np (op k)) d) with (fp_nparams zftp).
    rewrite blit_ok by (rewrite ?repeat_length; lia). cbn [obind skipn].
    rewrite splice_full by (rewrite firstn_length, repeat_length; lia).
    destruct (ftp_set bad zftp (firstn (fp_nparams zftp) p) zftp_ok) as (g & Eg & Og & Sg & _); auto.
    { rewrite firstn_length. lia. }
    change (fp_ft zftp) with zft in Eg. rewrite Eg. cbn [obind]. eexists. split; [reflexivity|]. split; [exact Og|].
    split; [exact Sg|]. split; [reflexivity|]. split; [reflexivity|]. apply Sg.
  Qed.
End Alloc.
