(** Proofs about matrix_util.c and the grid generators. *)
From Verif Require Import Base BaseFacts Fill CRing IdxModel IdxFacts GridModel.
From Coq Require Import ZArith QArith Qcanon Qround.
Close Scope Qc_scope.
Close Scope Q_scope.
Close Scope Z_scope.
Open Scope nat_scope.

Lemma copyn_wrf {A} (T : nat -> A) N n src os od :
  (forall k, k < n -> nth_error src (os + k) = Some (T (od + k))) -> od + n <= N ->
  wrf T N (fun i => od <= i < od + n) (fun d => copyn n src os d od).
Proof.
  intros Hs HN l Hl.
  assert (W : wrf T N (fun i => exists k, k < n /\ od + k = i)
     (fun d => for_ n (fun k d => do v <- aget src (os + k); aset d (od + k) v) d)).
  { apply (wrf_for T N (fun k => eq (od + k))). intros k Hk.
    apply (wrf_get T N _ (aget src (os + k)) (T (od + k)) (fun v d => aset d (od + k) v)).
    - now apply aget_ok, Hs.
    - apply wrf_aset; [lia|reflexivity]. }
  destruct (W l Hl) as (l' & E & Wr). exists l'. split; [exact E|].
  eapply wr_equiv; [|exact Wr]. intros i. split.
  - intros (k & Hk & <-). lia.
  - intros Hi. exists (i - od). lia.
Qed.

Section Mat.
  Context {R : CRing}.

  Definition mat_wf (m : mat R) : Prop := length (m_v R m) = m_r R m * m_c R m.
  (** Entry (i,j) of a row-major matrix. *)
  Definition mat_at (m : mat R) (i j : nat) : R := nth (i * m_c R m + j) (m_v R m) r0.

  Lemma v2m_ok n (arr : list R) asrow : length arr = n ->
    exists m, v2m R n arr asrow = Ok m /\ mat_wf m
      /\ m_r R m = (if asrow then 1 else n) /\ m_c R m = (if asrow then n else 1)
      /\ m_v R m = arr.
  Proof.
    intros L. unfold v2m.
    rewrite (copyn_mid' _ _ _ [] arr [] [] (repeat r0 n) []); auto.
    - cbn [obind app]. rewrite app_nil_r.
      destruct asrow; eexists; (split; [reflexivity|]); cbn; unfold mat_wf; cbn;
        (split; [lia|auto]).
    - now rewrite app_nil_r.
    - now rewrite app_nil_r.
    - now rewrite repeat_length.
  Qed.

  Lemma diagv2m_ok n (arr : list R) : length arr = n ->
    exists m, diagv2m R n arr = Ok m /\ mat_wf m /\ m_r R m = n /\ m_c R m = n
      /\ forall i j, i < n -> j < n ->
           mat_at m i j = if i =? j then nth i arr r0 else r0.
  Proof.
    intros L. unfold diagv2m.
    match goal with |- context [for_ n ?b00 ?s00] =>
      destruct (for_inv (fun k v => length v = n * n /\
         forall i j, i < n -> j < n -> nth (i * n + j) v r0
           = if (i =? j) && (i <? k) then nth i arr r0 else r0) b00 n s00)
        as (v & E & Lv & I) end.
    - split; [apply repeat_length|]. intros i j Hi Hj. rewrite nth_repeat.
      rewrite andb_false_r. reflexivity.
    - intros k v Hk (Lv & I).
      rewrite (aget_ok arr k (nth k arr r0)) by (apply nth_error_nth'; lia). cbn [obind].
      rewrite aset_ok by nia. eexists. split; [reflexivity|].
      split; [now rewrite upd_length|]. intros i j Hi Hj.
      assert (U : forall p, nth p (upd v (k * n + k) (nth k arr r0)) r0
                = if p =? k * n + k then nth k arr r0 else nth p v r0).
      { intros p. destruct (Nat.eqb_spec p (k * n + k)) as [->|Hp].
        - apply nth_error_nth. apply nth_error_upd_same. nia.
        - destruct (nth_error v p) as [y|] eqn:Y.
          + rewrite (nth_error_nth v p r0 Y). apply nth_error_nth.
            now rewrite nth_error_upd_other by auto.
          + rewrite !nth_overflow; auto; [|rewrite upd_length]; now apply nth_error_None. }
      rewrite U, I by auto.
      destruct (Nat.eqb_spec (i * n + j) (k * n + k)) as [Ep|Ep].
      + assert (i = k /\ j = k) as [-> ->].
        { split.
          - rewrite <- (idx_div i n j Hj), Ep. now apply idx_div.
          - rewrite <- (idx_mod i n j Hj), Ep. now apply idx_mod. }
        rewrite Nat.eqb_refl, (proj2 (Nat.ltb_lt _ _)) by lia. reflexivity.
      + destruct (Nat.eqb_spec i j) as [->|Hij]; cbn [andb]; [|reflexivity].
        destruct (Nat.ltb_spec j k), (Nat.ltb_spec j (S k)); try lia; try reflexivity.
        assert (j = k) by lia. subst. lia.
    - rewrite E. cbn [obind]. eexists. split; [reflexivity|]. unfold mat_wf, mat_at. cbn.
      split; [exact Lv|]. split; [reflexivity|]. split; [reflexivity|].
      intros i j Hi Hj. rewrite I by auto. rewrite (proj2 (Nat.ltb_lt i n)) by auto.
      now rewrite andb_true_r.
  Qed.

  Lemma horizcat_ok (a b : mat R) : mat_wf a -> mat_wf b -> m_r R a = m_r R b ->
    exists m, horizcat R a b = Ok m /\ mat_wf m
      /\ m_r R m = m_r R a /\ m_c R m = m_c R a + m_c R b
      /\ (forall i j, i < m_r R a -> j < m_c R a -> mat_at m i j = mat_at a i j)
      /\ (forall i j, i < m_r R a -> j < m_c R b -> mat_at m i (m_c R a + j) = mat_at b i j).
  Proof.
    intros Wa Wb Hr. unfold horizcat.
    set (ca := m_c R a). set (cb := m_c R b). set (nc := ca + cb). set (nr := m_r R a).
    set (T := fun p => if p mod nc <? ca then mat_at a (p / nc) (p mod nc)
                       else mat_at b (p / nc) (p mod nc - ca)).
    assert (W : wrf T (nr * nc)
       (fun p => exists i, i < nr /\ (i * nc <= p < i * nc + ca
                                      \/ i * nc + ca <= p < i * nc + ca + cb))
       (for_ nr (fun ii v =>
          do v <- copyn ca (m_v R a) (ii * ca) v (ii * nc);
          copyn cb (m_v R b) (ii * cb) v (ii * nc + ca)))).
    { apply (wrf_for T (nr * nc) (fun i p => i * nc <= p < i * nc + ca
                                      \/ i * nc + ca <= p < i * nc + ca + cb)).
      intros i Hi. assert (Hb : i * nc + nc <= nr * nc) by nia.
      apply wrf_bind.
      - apply (copyn_wrf T (nr * nc) ca).
        + intros k Hk. unfold T. rewrite idx_mod, idx_div by lia.
          rewrite (proj2 (Nat.ltb_lt _ _)) by lia. unfold mat_at. fold ca.
          apply nth_error_nth'. unfold mat_wf in Wa. fold ca in Wa. fold nr in Wa.
          rewrite Wa. nia.
        + lia.
      - apply (copyn_wrf T (nr * nc) cb).
        + intros k Hk. unfold T. rewrite <- Nat.add_assoc, idx_mod, idx_div by lia.
          rewrite (proj2 (Nat.ltb_ge _ _)) by lia. unfold mat_at. fold cb.
          replace (ca + k - ca) with k by lia.
          apply nth_error_nth'. unfold mat_wf in Wb. fold cb in Wb. rewrite <- Hr in Wb.
          fold nr in Wb. rewrite Wb. nia.
        + lia. }
    rewrite (wrf_full T (nr * nc) _ _ (repeat r0 (nr * nc)) W (repeat_length _ _)).
    2:{ intros p Hp. destruct (idx_split p nc nr Hp) as (i & j & Hi & Hj & ->).
        exists i. split; [exact Hi|]. lia. }
    cbn [obind]. eexists. split; [reflexivity|]. unfold mat_wf, mat_at. cbn.
    rewrite tab_length. split; [reflexivity|]. split; [reflexivity|].
    split; [reflexivity|]. fold ca cb nc.
    split; intros i j Hi Hj; fold nr in Hi; fold ca in Hj || fold cb in Hj.
    - rewrite nth_tab by (apply idx_lt; lia). unfold T. rewrite idx_mod, idx_div by lia.
      rewrite (proj2 (Nat.ltb_lt _ _)) by lia. reflexivity.
    - rewrite nth_tab by (apply idx_lt; lia). unfold T. rewrite idx_mod, idx_div by lia.
      rewrite (proj2 (Nat.ltb_ge _ _)) by lia.
      now replace (ca + j - ca) with j by lia.
  Qed.

  Lemma for_stuck {S} (b : nat -> S -> outcome S) n s : 0 < n -> b 0 s = UB -> for_ n b s = UB.
  Proof. intros Hn E. unfold for_. destruct n; [lia|]. cbn. now rewrite E. Qed.

  (** Fewer rows on the right: reads past the end of the right matrix. *)
  Lemma horizcat_ub (a b : mat R) : mat_wf a -> mat_wf b ->
    m_r R b < m_r R a -> 0 < m_c R b -> horizcat R a b = UB.
  Proof.
    intros Wa Wb Hr Hc. unfold horizcat.
    set (ca := m_c R a). set (cb := m_c R b). set (nc := ca + cb). set (nr := m_r R a).
    assert (Cp : forall n (src : list R) os dst od, os + n <= length src -> od + n <= length dst ->
       exists d, copyn n src os dst od = Ok d /\ length d = length dst).
    { intros n src os dst od H1 H2.
      destruct (copyn_wrf (fun p => nth (p - od + os) src r0) (length dst) n src os od)
        with (l := dst) as (d & E & Wr); auto.
      - intros k Hk. replace (od + k - od + os) with (os + k) by lia. apply nth_error_nth'. lia.
      - exists d. split; [exact E|]. apply Wr. }
    assert (E : for_ nr (fun ii v =>
          do v <- copyn ca (m_v R a) (ii * ca) v (ii * nc);
          copyn cb (m_v R b) (ii * cb) v (ii * nc + ca)) (repeat r0 (nr * nc)) = UB).
    { assert (Bad : forall i v, i < nr -> m_r R b <= i -> length v = nr * nc ->
          (do v <- copyn ca (m_v R a) (i * ca) v (i * nc);
           copyn cb (m_v R b) (i * cb) v (i * nc + ca)) = UB).
      { intros i v Hi Hb Hv.
        unfold mat_wf in Wa, Wb. fold ca nr in Wa. fold cb in Wb.
        destruct (Cp ca (m_v R a) (i * ca) v (i * nc)) as (v1 & E1 & L1); [nia|nia|].
        rewrite E1. cbn [obind]. unfold copyn. fold cb in Hc.
        apply for_stuck; [exact Hc|]. unfold aget.
        rewrite (proj2 (nth_error_None _ _)); [reflexivity|nia]. }
      fold nr in Hr.
      apply (for_ub (fun v => length v = nr * nc) _ nr _ (m_r R b)).
      - apply repeat_length.
      - intros i v Hi Hv. destruct (le_lt_dec (m_r R b) i) as [Hb|Hb].
        { left. now apply Bad. }
        right. unfold mat_wf in Wa, Wb. fold ca nr in Wa. fold cb in Wb.
        destruct (Cp ca (m_v R a) (i * ca) v (i * nc)) as (v1 & E1 & L1); [nia|nia|].
        rewrite E1. cbn [obind].
        destruct (Cp cb (m_v R b) (i * cb) v1 (i * nc + ca)) as (v2 & E2 & L2); [nia|nia|].
        rewrite E2. eexists. split; [reflexivity|]. congruence.
      - exact Hr.
      - intros v Hv. now apply Bad. }
    rewrite E. reflexivity.
  Qed.

  (** ** block_diag *)
  (** Entry (r,c) of the block diagonal matrix of the list. *)
  Fixpoint bd_entry (mats : list (mat R)) (r c : nat) : R :=
    match mats with
    | [] => r0
    | m :: ms =>
        if r <? m_r R m then (if c <? m_c R m then mat_at m r c else r0)
        else (if c <? m_c R m then r0 else bd_entry ms (r - m_r R m) (c - m_c R m))
    end.
  Definition nrows (mats : list (mat R)) : nat := fold_right (fun m s => m_r R m + s) 0 mats.
  Definition ncols (mats : list (mat R)) : nat := fold_right (fun m s => m_c R m + s) 0 mats.

  Lemma nrows_app a b : nrows (a ++ b) = nrows a + nrows b.
  Proof. unfold nrows. induction a as [|m a IH]; cbn; [reflexivity|]. rewrite IH. lia. Qed.
  Lemma ncols_app a b : ncols (a ++ b) = ncols a + ncols b.
  Proof. unfold ncols. induction a as [|m a IH]; cbn; [reflexivity|]. rewrite IH. lia. Qed.

  Lemma bd_entry_at pre m post i c : i < m_r R m ->
    bd_entry (pre ++ m :: post) (nrows pre + i) c
    = if (ncols pre <=? c) && (c <? ncols pre + m_c R m)
      then mat_at m i (c - ncols pre) else r0.
  Proof.
    intros Hi. revert c. induction pre as [|p pre IH]; intros c.
    - change (nrows []) with 0. change (ncols []) with 0. cbn [app bd_entry Nat.add Nat.leb andb].
      rewrite (proj2 (Nat.ltb_lt i _)) by lia. now rewrite Nat.sub_0_r.
    - change (nrows (p :: pre)) with (m_r R p + nrows pre).
      change (ncols (p :: pre)) with (m_c R p + ncols pre). cbn [app bd_entry].
      rewrite (proj2 (Nat.ltb_ge _ _)) by lia.
      destruct (Nat.ltb_spec c (m_c R p)) as [Hc|Hc].
      + rewrite (proj2 (Nat.leb_gt _ _)) by lia. reflexivity.
      + replace (m_r R p + nrows pre + i - m_r R p) with (nrows pre + i) by lia.
        rewrite IH.
        replace (c - m_c R p - ncols pre) with (c - (m_c R p + ncols pre)) by lia.
        destruct (Nat.leb_spec (ncols pre) (c - m_c R p)),
                 (Nat.leb_spec (m_c R p + ncols pre) c); try lia; cbn [andb]; auto.
        destruct (Nat.ltb_spec (c - m_c R p) (ncols pre + m_c R m)),
                 (Nat.ltb_spec c (m_c R p + ncols pre + m_c R m)); try lia; auto.
  Qed.

  Lemma block_diag_ok (mats : list (mat R)) : Forall mat_wf mats ->
    exists m, block_diag R mats = Ok m /\ mat_wf m
      /\ m_r R m = nrows mats /\ m_c R m = ncols mats
      /\ forall r c, r < nrows mats -> c < ncols mats -> mat_at m r c = bd_entry mats r c.
  Proof.
    intros F. unfold block_diag.
    assert (S1 : for_ (length mats) (fun ii s =>
        do m <- aget mats ii; Ok (fst s + m_r R m, snd s + m_c R m)) (0, 0)
        = Ok (nrows mats, ncols mats)).
    { destruct (for_inv (fun k s => s = (nrows (firstn k mats), ncols (firstn k mats)))
        (fun ii s => do m <- aget mats ii; Ok (fst s + m_r R m, snd s + m_c R m))
        (length mats) (0, 0)) as (s & E & I).
      - reflexivity.
      - intros i s Hi ->. destruct (aget_lt mats i Hi) as (m & Nm & Gm). rewrite Gm. cbn [obind].
        eexists. split; [reflexivity|]. cbn [fst snd].
        assert (Sf : firstn (S i) mats = firstn i mats ++ [m]).
        { clear - Nm. revert i Nm. induction mats as [|x l IH]; intros [|i] H; cbn in *; try congruence.
          now rewrite <- (IH i H). }
        rewrite Sf, nrows_app, ncols_app. cbn. f_equal; lia.
      - rewrite E, I, firstn_all. reflexivity. }
    rewrite S1. cbn [obind]. clear S1.
    set (nr := nrows mats). set (nc := ncols mats).
    set (good := fun v row => length v = nr * nc /\
        (forall r c, r < nr -> c < nc ->
           nth (r * nc + c) v r0 = if r <? row then bd_entry mats r c else r0)).
    match goal with |- context [for_ (length mats) ?b00 ?s00] =>
      destruct (for_inv (fun k st => let '(v, row, cols) := st in
          row = nrows (firstn k mats) /\ cols = ncols (firstn k mats) /\ good v row)
          b00 (length mats) s00) as ([[v row] cols] & E & I) end.
    - split; [reflexivity|]. split; [reflexivity|]. split; [apply repeat_length|].
      intros r c Hr Hc. now rewrite nth_repeat.
    - intros k [[v row] cols] Hk (-> & -> & G).
      destruct (aget_lt mats k Hk) as (m & Nm & Gm). rewrite Gm. cbn [obind].
      destruct (nth_error_split mats k Nm) as (pre & post & Em & Lp).
      assert (Fk : firstn k mats = pre).
      { rewrite Em, firstn_app, Lp, Nat.sub_diag. cbn. rewrite app_nil_r.
        rewrite <- Lp. apply firstn_all. }
      rewrite Fk in *.
      assert (Wm : mat_wf m).
      { rewrite Forall_forall in F. apply F. now apply nth_error_In in Nm. }
      assert (Hnr : nrows pre + m_r R m <= nr)
        by (unfold nr; rewrite Em, nrows_app; cbn; lia).
      assert (Hnc : ncols pre + m_c R m <= nc)
        by (unfold nc; rewrite Em, ncols_app; cbn; lia).
      match goal with |- context [for_ (m_r R m) ?b00 ?s00] =>
        destruct (for_inv (fun j st => snd st = nrows pre + j /\ good (fst st) (snd st))
          b00 (m_r R m) s00) as ([v' row'] & E & Erow & G') end.
      + cbn. split; [lia|exact G].
      + intros j [v' row'] Hj [Erow [Lv G']]. cbn [fst snd] in *. subst row'.
        set (row := nrows pre + j) in *.
        destruct (copyn_wrf (fun p => bd_entry mats row (p - row * nc)) (nr * nc) (m_c R m)
                    (m_v R m) (j * m_c R m) (row * nc + ncols pre))
          with (l := v') as (v2 & E2 & L2 & A2 & P2 & N2); auto.
        * intros q Hq. rewrite Em.
          replace (row * nc + ncols pre + q - row * nc) with (ncols pre + q) by lia.
          unfold row. rewrite bd_entry_at by auto.
          rewrite (proj2 (Nat.leb_le _ _)), (proj2 (Nat.ltb_lt _ _)) by lia. cbn [andb].
          replace (ncols pre + q - ncols pre) with q by lia. unfold mat_at.
          apply nth_error_nth'. rewrite Wm. nia.
        * assert (row + 1 <= nr) by (unfold row; lia). nia.
        * rewrite E2. cbn [obind]. eexists. split; [reflexivity|]. cbn [fst snd].
          split; [unfold row; lia|]. split; [congruence|].
          intros r c Hr Hc.
          assert (Hp : r * nc + c < length v') by (rewrite Lv; nia).
          destruct (Nat.eq_dec r row) as [->|Hne].
          -- rewrite (proj2 (Nat.ltb_lt row (row + 1))) by lia.
             destruct (Nat.leb_spec (ncols pre) c) as [H1|H1];
               [destruct (Nat.ltb_spec c (ncols pre + m_c R m)) as [H2|H2]|].
             ++ apply nth_error_nth. rewrite P2 by lia. f_equal. f_equal. lia.
             ++ transitivity (nth (row * nc + c) v' r0).
                { apply nth_error_nth. rewrite N2 by lia. apply nth_error_nth'. lia. }
                rewrite G', (proj2 (Nat.ltb_ge row row)) by lia.
                rewrite Em. unfold row. rewrite bd_entry_at by auto.
                rewrite (proj2 (Nat.ltb_ge c _)) by lia. now rewrite andb_false_r.
             ++ transitivity (nth (row * nc + c) v' r0).
                { apply nth_error_nth. rewrite N2 by lia. apply nth_error_nth'. lia. }
                rewrite G', (proj2 (Nat.ltb_ge row row)) by lia.
                rewrite Em. unfold row. rewrite bd_entry_at by auto.
                rewrite (proj2 (Nat.leb_gt _ _)) by lia. reflexivity.
          -- transitivity (nth (r * nc + c) v' r0).
             { apply nth_error_nth. rewrite N2.
               - apply nth_error_nth'. lia.
               - intros Hin. apply Hne.
                 assert (row * nc <= r * nc + c < (row + 1) * nc) by lia. nia. }
             rewrite G' by auto.
             destruct (Nat.ltb_spec r row), (Nat.ltb_spec r (row + 1)); lia || reflexivity.
      + rewrite E. cbn [obind]. cbn [fst snd] in *. eexists. split; [reflexivity|].
        assert (Sf : firstn (S k) mats = pre ++ [m]).
        { rewrite Em, firstn_app, Lp. rewrite firstn_all2 by lia.
          now replace (S k - k) with 1 by lia. }
        rewrite Sf, nrows_app, ncols_app. cbn. split; [lia|]. split; [lia|]. exact G'.
    - rewrite E. cbn [obind]. eexists. split; [reflexivity|].
      destruct I as (-> & -> & Lv & G). unfold mat_wf, mat_at. cbn.
      split; [exact Lv|]. split; [reflexivity|]. split; [reflexivity|].
      intros r c Hr Hc. fold nc. rewrite G by auto. rewrite firstn_all.
      now rewrite (proj2 (Nat.ltb_lt _ _)) by auto.
  Qed.

  Lemma mat_ones_ok nr nc :
    exists m, mat_ones R nr nc = Ok m /\ mat_wf m /\ m_r R m = nr /\ m_c R m = nc
      /\ forall i j, i < nr -> j < nc -> mat_at m i j = r1.
  Proof.
    unfold mat_ones.
    assert (W : wrf (fun _ : nat => r1 (c:=R)) (nr * nc)
      (fun p => exists i, i < nr /\ exists j, j < nc /\ i * nc + j = p)
      (for_ nr (fun ii v => for_ nc (fun jj v => aset v (ii * nc + jj) (r1 (c:=R))) v))).
    { apply (wrf_for _ _ (fun i p => exists j, j < nc /\ i * nc + j = p)). intros i Hi.
      apply (wrf_for _ _ (fun j => eq (i * nc + j))). intros j Hj.
      apply wrf_aset; [apply idx_lt; auto|reflexivity]. }
    rewrite (wrf_full _ _ _ _ (repeat r0 (nr * nc)) W (repeat_length _ _)).
    2:{ intros p Hp. destruct (idx_split p nc nr Hp) as (i & j & Hi & Hj & ->). eauto. }
    cbn [obind]. eexists. split; [reflexivity|]. unfold mat_wf, mat_at. cbn.
    rewrite tab_length. repeat split. intros i j Hi Hj.
    now rewrite nth_tab by (apply idx_lt; auto).
  Qed.

  Lemma dconcat_cols_ok rows c1 c2 (a1 a2 : list R) :
    length a1 = rows * c1 -> length a2 = rows * c2 ->
    dconcat_cols R rows c1 c2 a1 a2 = Ok (a1 ++ a2).
  Proof.
    intros L1 L2. unfold dconcat_cols.
    replace (rows * (c1 + c2)) with (rows * c1 + rows * c2) by lia. rewrite repeat_app.
    rewrite (copyn_mid' _ _ _ [] a1 [] [] (repeat r0 (rows * c1)) (repeat r0 (rows * c2))); auto;
      [|now rewrite app_nil_r|now rewrite repeat_length].
    cbn [obind app].
    rewrite (copyn_mid' _ _ _ [] a2 [] a1 (repeat r0 (rows * c2)) []); auto;
      [|now rewrite app_nil_r|now rewrite app_nil_r|now rewrite repeat_length].
    now rewrite app_nil_r.
  Qed.

  Lemma dprod_ok n (x : list R) : length x = n ->
    dprod R n x = Ok (fold_left rmul x r1).
  Proof.
    intros L. unfold dprod.
    destruct (for_inv (fun k p => p = fold_left rmul (firstn k x) r1)
       (fun i p => do v <- aget x i; Ok (rmul p v)) n r1) as (p & E & I).
    - reflexivity.
    - intros i p Hi ->. destruct (aget_lt x i) as (v & Nv & Gv); [lia|]. rewrite Gv.
      cbn [obind]. eexists. split; [reflexivity|].
      assert (Sf : firstn (S i) x = firstn i x ++ [v]).
      { clear - Nv. revert i Nv. induction x as [|y l IH]; intros [|i] H; cbn in *; try congruence.
        now rewrite <- (IH i H). }
      rewrite Sf, fold_left_app. reflexivity.
    - rewrite E, I. rewrite firstn_all2 by lia. reflexivity.
  Qed.
End Mat.

(** ** Grids *)
Local Open Scope Qc_scope.

Lemma nat2qc_S n : nat2qc (S n) = nat2qc n + 1.
Proof.
  unfold nat2qc. apply Qc_is_canon. unfold Qcplus. rewrite !this_Q2Qc || idtac.
  cbn [this Q2Qc]. rewrite !Qred_correct.
  rewrite Nat2Z.inj_succ. unfold Z.succ. rewrite inject_Z_plus. reflexivity.
Qed.

Lemma nat2qc_nonneg n : 0 <= nat2qc n.
Proof.
  unfold nat2qc, Qcle. cbn [this Q2Qc]. rewrite !Qred_correct.
  change 0%Q with (inject_Z 0). rewrite <- Zle_Qle. lia.
Qed.

Lemma nat2qc_pos n : (0 < n)%nat -> 0 < nat2qc n.
Proof.
  intros H. unfold nat2qc, Qclt. cbn [this Q2Qc]. rewrite !Qred_correct.
  change 0%Q with (inject_Z 0). rewrite <- Zlt_Qlt. lia.
Qed.

Lemma linspace_ok mn mx N : (2 <= N)%nat ->
  exists a, linspace mn mx N = Ok a /\ length a = N
    /\ nth_error a 0 = Some mn /\ nth_error a (N - 1) = Some mx
    /\ forall i x y, nth_error a i = Some x -> nth_error a (S i) = Some y ->
         (y - x) * nat2qc (N - 1) = mx - mn.
Proof.
  intros HN. unfold linspace. rewrite (proj2 (Nat.eqb_neq _ _)) by lia.
  set (dx := (mx - mn) / nat2qc (N - 1)).
  assert (Hpos : nat2qc (N - 1) <> 0).
  { intros C. pose proof (nat2qc_pos (N - 1)) as P. rewrite C in P.
    specialize (P ltac:(lia)). revert P. apply Qcle_not_lt, Qcle_refl. }
  assert (Hdx : nat2qc (N - 1) * dx = mx - mn) by (unfold dx; field; exact Hpos).
  pose proof (fill1 (fun i => nat2qc i * dx + mn) (N - 1) (repeat 0 N)) as F.
  match goal with |- context [for_ (N - 1)%nat ?b00 ?s00] =>
    destruct (for_inv (fun k a => length a = N /\
       forall i, (i < k)%nat -> nth_error a i = Some (nat2qc i * dx + mn)) b00 (N - 1)%nat s00)
      as (a & E & La & I) end.
  - split; [apply repeat_length|]. intros i Hi. lia.
  - intros k a Hk (La & I). rewrite aset_ok by lia. eexists. split; [reflexivity|].
    split; [now rewrite upd_length|]. intros i Hi.
    destruct (Nat.eq_dec i k) as [->|Hne].
    + apply nth_error_upd_same. lia.
    + rewrite nth_error_upd_other by auto. apply I. lia.
  - rewrite E. cbn [obind]. rewrite aset_ok by lia. eexists. split; [reflexivity|].
    assert (V : forall i, (i < N)%nat ->
        nth_error (upd a (N - 1) mx) i = Some (nat2qc i * dx + mn)).
    { intros i Hi. destruct (Nat.eq_dec i (N - 1)) as [->|Hne].
      - rewrite nth_error_upd_same by lia. f_equal. rewrite Hdx. ring.
      - rewrite nth_error_upd_other by auto. apply I. lia. }
    split; [now rewrite upd_length|]. split; [|split].
    + rewrite V by lia. f_equal. change (nat2qc 0) with 0. ring.
    + now rewrite nth_error_upd_same by lia.
    + intros i x y Hx Hy.
      assert (Hi : (S i < N)%nat).
      { rewrite <- La, <- (upd_length a (N - 1)%nat mx). apply nth_error_Some. congruence. }
      rewrite V in Hx by lia. rewrite V in Hy by lia.
      injection Hx as <-. injection Hy as <-. rewrite nat2qc_S, <- Hdx. ring.
Qed.

Lemma linspace_1 mn mx : linspace mn mx 1 = Ok [mx].
Proof. reflexivity. Qed.

Lemma Qfloor_Qc (q : Qc) : (inject_Z (Qfloor q) <= q)%Q /\ (q < inject_Z (Qfloor q + 1))%Q.
Proof. split; [apply Qfloor_le|apply Qlt_floor]. Qed.

(** Upward steps. *)
Lemma arange_up start stop step : 0 < step -> start <= stop ->
  exists a N, arange start stop step = Ok (a, N) /\ length a = N /\ (1 <= N)%nat
    /\ (forall k, (k < N)%nat -> nth_error a k = Some (start + step * nat2qc k))
    /\ (forall k, (k < N)%nat <-> start + step * nat2qc k <= stop).
Proof.
  intros Hs Hle. unfold arange.
  destruct (Qc_eq_dec step 0) as [C|Hne].
  { exfalso. rewrite C in Hs. revert Hs. apply Qcle_not_lt, Qcle_refl. }
  set (q := (stop - start) / step).
  assert (Eq : step * q = stop - start) by (unfold q; field; exact Hne).
  destruct (Qfloor_Qc q) as [F1 F2].
  assert (Hq : 0 <= q).
  { unfold q. apply Qcmult_lt_0_le_reg_r with (z := step); auto.
    rewrite Qcmult_0_l. replace ((stop - start) / step * step) with (stop - start)
      by (field; exact Hne).
    apply -> Qcle_minus_iff. exact Hle. }
  assert (Hf : (0 <= Qfloor q)%Z).
  { assert (0 < inject_Z (Qfloor q + 1))%Q.
    { eapply Qle_lt_trans; [|exact F2]. exact Hq. }
    change 0%Q with (inject_Z 0) in H. rewrite <- Zlt_Qlt in H. lia. }
  destruct (Z.ltb_spec (Qfloor q + 1) 0) as [C|_]; [lia|].
  set (N := Z.to_nat (Qfloor q + 1)).
  match goal with |- context [for_ N ?b00 ?s00] =>
    destruct (for_inv (fun k a => length a = N /\
       forall i, (i < k)%nat -> nth_error a i = Some (start + step * nat2qc i)) b00 N s00)
      as (a & E & La & I) end.
  - split; [apply repeat_length|]. intros i Hi. lia.
  - intros k a Hk (La & I). rewrite aset_ok by lia. eexists. split; [reflexivity|].
    split; [now rewrite upd_length|]. intros i Hi.
    destruct (Nat.eq_dec i k) as [->|Hne'].
    + apply nth_error_upd_same. lia.
    + rewrite nth_error_upd_other by auto. apply I. lia.
  - rewrite E. cbn [obind]. exists a, N. split; [reflexivity|]. split; [exact La|].
    split; [unfold N; lia|]. split; [exact I|]. intros k.
    assert (K : (k < N)%nat <-> nat2qc k <= q).
    { unfold Qcle, nat2qc. cbn [this Q2Qc]. rewrite Qred_correct. split.
      - intros Hk. eapply Qle_trans; [|exact F1]. rewrite <- Zle_Qle. unfold N in Hk. lia.
      - intros Hk. assert (H : (inject_Z (Z.of_nat k) < inject_Z (Qfloor q + 1))%Q)
          by (eapply Qle_lt_trans; [exact Hk|exact F2]).
        rewrite <- Zlt_Qlt in H. unfold N. lia. }
    rewrite K. split; intros H.
    + replace stop with (start + step * q) by (rewrite Eq; ring).
      apply Qcplus_le_compat; [apply Qcle_refl|].
      rewrite !(Qcmult_comm step). apply Qcmult_le_compat_r; auto. now apply Qclt_le_weak.
    + apply Qcmult_lt_0_le_reg_r with (z := step); auto.
      rewrite (Qcmult_comm q step), Eq. apply Qcle_minus_iff.
      apply -> Qcle_minus_iff in H.
      replace (stop - start + - (nat2qc k * step)) with (stop + - (start + step * nat2qc k)) by ring.
      exact H.
Qed.

(** Downward steps. *)
Lemma arange_down start stop step : step < 0 -> stop <= start ->
  exists a N, arange start stop step = Ok (a, N) /\ length a = N /\ (1 <= N)%nat
    /\ (forall k, (k < N)%nat -> nth_error a k = Some (start + step * nat2qc k))
    /\ (forall k, (k < N)%nat <-> stop <= start + step * nat2qc k).
Proof.
  intros Hs Hle.
  assert (Hpos : 0 < - step).
  { apply Qclt_minus_iff in Hs. now rewrite Qcplus_0_l in Hs. }
  destruct (arange_up (- start) (- stop) (- step) Hpos) as (a & N & E & L & H1 & _ & Hk).
  { now apply Qcopp_le_compat. }
  assert (Hne : step <> 0).
  { intros ->. revert Hs. apply Qcle_not_lt, Qcle_refl. }
  unfold arange in *.
  destruct (Qc_eq_dec (- step) 0) as [C|_]; [discriminate|].
  destruct (Qc_eq_dec step 0) as [C|_]; [congruence|].
  replace ((- stop - - start) / - step) with ((stop - start) / step) in E.
  2:{ field. split; auto. intros C. apply Hne.
      replace step with (- - step) by ring. rewrite C. ring. }
  destruct (_ <? 0)%Z; [discriminate|].
  set (M := Z.to_nat (Qfloor ((stop - start) / step)%Qc + 1)) in *.
  assert (HM : M = N).
  { destruct (@for_ (list Qc) M _ _) as [b| | |]; cbn [obind] in E; congruence. }
  rewrite HM in *. clear E.
  match goal with |- context [for_ N ?b00 ?s00] =>
    destruct (for_inv (fun k a => length a = N /\
       forall i, (i < k)%nat -> nth_error a i = Some (start + step * nat2qc i)) b00 N s00)
      as (b & E & Lb & I) end.
  - split; [apply repeat_length|]. intros i Hi. lia.
  - intros k b Hb (Lb & I). rewrite aset_ok by lia. eexists. split; [reflexivity|].
    split; [now rewrite upd_length|]. intros i Hi.
    destruct (Nat.eq_dec i k) as [->|Hne'].
    + apply nth_error_upd_same. lia.
    + rewrite nth_error_upd_other by auto. apply I. lia.
  - rewrite E. cbn [obind]. exists b, N. split; [reflexivity|]. split; [exact Lb|].
    split; [exact H1|]. split; [exact I|]. intros k. rewrite Hk.
    split; intros H; apply Qcopp_le_compat in H.
    + replace (- - stop) with stop in H by ring.
      replace (- (- start + - step * nat2qc k)) with (start + step * nat2qc k) in H by ring.
      exact H.
    + replace (- (start + step * nat2qc k)) with (- start + - step * nat2qc k) in H by ring.
      exact H.
Qed.
