(** Proofs about index sets. *)
From Verif Require Import Base BaseFacts Fill IdxModel.

Lemma nth_error_app_at {A} (a x : list A) i : nth_error (a ++ x) (length a + i) = nth_error x i.
Proof. rewrite nth_error_app2 by lia. now replace (length a + i - length a) with i by lia. Qed.

Lemma upd_app_at {A} (a x : list A) i v : upd (a ++ x) (length a + i) v = a ++ upd x i v.
Proof. induction a as [|c a IH]; cbn; [reflexivity|]. now rewrite IH. Qed.

(** Copying a segment over a segment of the same length. *)
Lemma copyn_mid {A} (s1 b s2 a m c : list A) :
  length m = length b ->
  copyn (length b) (s1 ++ b ++ s2) (length s1) (a ++ m ++ c) (length a)
  = Ok (a ++ b ++ c).
Proof.
  intros Hm. unfold copyn.
  destruct (for_inv (fun k d => d = a ++ firstn k b ++ skipn k m ++ c)
      (fun k d => do v <- aget (s1 ++ b ++ s2) (length s1 + k); aset d (length a + k) v)
      (length b) (a ++ m ++ c)) as (r & E & I).
  - reflexivity.
  - intros i d Hi ->.
    destruct (nth_error b i) as [v|] eqn:Ev; [|apply nth_error_None in Ev; lia].
    assert (G : aget (s1 ++ b ++ s2) (length s1 + i) = Ok v).
    { apply aget_ok. rewrite nth_error_app_at, nth_error_app1 by lia. exact Ev. }
    rewrite G. cbn [obind].
    rewrite aset_ok by (rewrite !app_length, firstn_length, skipn_length; lia).
    eexists. split; [reflexivity|].
    rewrite upd_app_at. f_equal.
    assert (Lf : length (firstn i b) = i) by (rewrite firstn_length; lia).
    replace i with (length (firstn i b) + 0) at 3 by lia.
    rewrite upd_app_at.
    destruct (nth_error m i) as [y|] eqn:Ey; [|apply nth_error_None in Ey; lia].
    assert (Sk : forall (l : list A) j z, nth_error l j = Some z ->
               skipn j l = z :: skipn (S j) l).
    { clear. induction l as [|w l IH]; intros [|j] z H; cbn in *; try congruence.
      exact (IH j z H). }
    assert (Sf : forall (l : list A) j z, nth_error l j = Some z ->
               firstn (S j) l = firstn j l ++ [z]).
    { clear. induction l as [|w l IH]; intros [|j] z H; cbn in *; try congruence.
      now rewrite <- (IH j z) by auto. }
    rewrite (Sk m i y Ey), (Sf b i v Ev). cbn [app upd]. now rewrite <- app_assoc.
  - rewrite E, I. rewrite firstn_all. rewrite <- Hm, skipn_all. reflexivity.
Qed.

Lemma copyn_mid' {A} n (src dst s1 b s2 a m c : list A) os od :
  src = s1 ++ b ++ s2 -> dst = a ++ m ++ c -> os = length s1 -> od = length a ->
  n = length b -> length m = length b ->
  copyn n src os dst od = Ok (a ++ b ++ c).
Proof. intros -> -> -> -> -> H. now apply copyn_mid. Qed.

Section Idx.
  Context {X : Type} (zero : X).

  (** A well-formed set: as many nodes as announced, of the announced length. *)
  Definition ci_wf (c : cidx X) : Prop :=
    length (ci_nodes c) = ci_n c /\ Forall (fun x => length x = ci_d c) (ci_nodes c).

  (** Extending an entry by one coordinate, on the left or on the right. *)
  Definition extend (left : bool) (o : list X) (v : X) : list X :=
    if left then v :: o else o ++ [v].

  Lemma extend_length left o v : length (extend left o v) = S (length o).
  Proof. destruct left; cbn; [reflexivity|]. rewrite app_length. cbn. lia. Qed.

  Lemma extend_inj left o v o' v' :
    extend left o v = extend left o' v' -> o = o' /\ v = v'.
  Proof.
    destruct left; cbn; intros H.
    - now inversion H.
    - apply app_inj_tail in H. tauto.
  Qed.

  Lemma add_index_ok c x :
    length x = ci_d c ->
    cross_index_add_index zero c (length x) x
    = Ok (mkci (ci_d c) (ci_n c + 1) (ci_nodes c ++ [x])).
  Proof.
    intros H. unfold cross_index_add_index. rewrite H, Nat.eqb_refl. cbn [cassert obind].
    rewrite (copyn_mid' _ _ _ [] x [] [] (repeat zero (ci_d c)) []); auto.
    - cbn [obind]. cbn [app]. now rewrite app_nil_r.
    - now rewrite app_nil_r.
    - now rewrite app_nil_r.
    - now rewrite repeat_length.
  Qed.

  Lemma add_nested_ok c left o v :
    S (length o) = ci_d c ->
    cross_index_add_nested zero c left (length o) o 1 [v]
    = Ok (mkci (ci_d c) (ci_n c + 1) (ci_nodes c ++ [extend left o v])).
  Proof.
    intros H. unfold cross_index_add_nested.
    rewrite (proj2 (Nat.eqb_eq _ _)) by lia. cbn [cassert obind].
    rewrite repeat_app. destruct left; cbn [negb].
    - rewrite (copyn_mid' _ _ _ [] [v] [] [] [zero] (repeat zero (length o))); auto.
      + cbn [obind app].
        rewrite (copyn_mid' _ _ _ [] o [] [v] (repeat zero (length o)) []); auto.
        * cbn. now rewrite app_nil_r.
        * now rewrite app_nil_r.
        * cbn. now rewrite app_nil_r.
        * now rewrite repeat_length.
      + cbn. clear. induction (length o) as [|n IH]; cbn; [reflexivity|]. now rewrite IH.
    - rewrite (copyn_mid' _ _ _ [] o [] [] (repeat zero (length o)) [zero]); auto.
      + cbn [obind app].
        rewrite (copyn_mid' _ _ _ [] [v] [] o [zero] []); auto.
      + now rewrite app_nil_r.
      + now rewrite repeat_length.
  Qed.

  Lemma nest1_ok left opts oc o jj v ci :
    hd_error oc = Some o -> nth_error opts jj = Some v -> S (length o) = ci_d ci ->
    nest1 zero left opts oc jj ci
    = Ok (mkci (ci_d ci) (ci_n ci + 1) (ci_nodes ci ++ [extend left o v])).
  Proof.
    intros Ho Hv Hl. unfold nest1. destruct oc as [|o' oc]; [discriminate|].
    cbn in Ho. injection Ho as ->. cbn [deref obind].
    rewrite (aget_ok _ _ _ Hv). cbn [obind]. now apply add_nested_ok.
  Qed.

  Lemma skipn_hd (l : list (list X)) i : hd_error (skipn i l) = nth_error l i.
  Proof.
    revert i. induction l as [|x l IH]; intros [|i]; cbn; auto.
  Qed.

  Lemma tl_skipn {A} (l : list A) i : tl (skipn i l) = skipn (S i) l.
  Proof.
    revert i. induction l as [|x l IH]; intros [|i]; cbn; auto.
    exact (IH i).
  Qed.

  (** The set holding the first [k] values of [g]. *)
  Definition ci_tab (d k : nat) (g : nat -> list X) : cidx X := mkci d k (tab k g).

  Lemma ci_tab_S d k g o v left :
    extend left o v = g k ->
    mkci (ci_d (ci_tab d k g)) (ci_n (ci_tab d k g) + 1)
         (ci_nodes (ci_tab d k g) ++ [extend left o v]) = ci_tab d (S k) g.
  Proof.
    intros E. unfold ci_tab. cbn [ci_d ci_n ci_nodes]. rewrite E, tab_S. f_equal. lia.
  Qed.

  Section Nested.
    Context (old : cidx X) (Wf : ci_wf old) (opts : list X) (left : bool) (sizenew : nat).
    Notation n := (ci_n old).
    Notation m := (length opts).
    Context (Hs : 1 <= sizenew) (Hle : sizenew <= n * m).

    Let nodei i := nth i (ci_nodes old) [].
    Let opti j := nth j opts zero.

    Lemma nested_node i : i < n -> nth_error (ci_nodes old) i = Some (nodei i)
      /\ S (length (nodei i)) = ci_d old + 1.
    Proof using Wf.
      clear Hs Hle. intros Hi. destruct Wf as [L F].
      assert (E : nth_error (ci_nodes old) i = Some (nodei i))
        by (apply nth_error_nth'; lia).
      split; [exact E|]. rewrite Forall_forall in F. rewrite (F (nodei i)); [lia|].
      now apply nth_error_In in E.
    Qed.

    Lemma nested_opt j : j < m -> nth_error opts j = Some (opti j).
    Proof. intros Hj. now apply nth_error_nth'. Qed.

    (** The set after [k] additions, and whether the loops have returned. *)
    Definition nst (g : nat -> list X) (k : nat) : cidx X * bool :=
      (ci_tab (ci_d old + 1) (min k sizenew) g, sizenew <=? k).

    Lemma create_nested_1 :
      cross_index_create_nested zero 1 left sizenew m opts old
      = Ok (Some (ci_tab (ci_d old + 1) sizenew
                    (fun k => extend left (nodei (k / m)) (opti (k mod m))))).
    Proof.
      unfold cross_index_create_nested.
      rewrite (proj2 (Nat.leb_le _ _)) by lia. cbn [cassert obind Nat.eqb].
      set (g := fun k => extend left (nodei (k / m)) (opti (k mod m))).
      match goal with |- context [for_ n ?b00 ?s00] =>
        destruct (for_inv (fun ii st => (sizenew <= ii * m \/ fst (fst st) = skipn ii (ci_nodes old))
                      /\ (snd (fst st), snd st) = nst g (ii * m)) b00 n s00) as (r & E & I) end.
      - split; [now right|]. cbn. unfold nst. cbn.
        destruct sizenew; [lia|]. reflexivity.
      - intros i [[oc ci] stop] Hi [Hoc Hst]. cbn [fst snd] in *.
        unfold nst in Hst. injection Hst as -> ->.
        destruct (Nat.leb_spec sizenew (i * m)) as [Hd|Hd].
        + eexists. split; [reflexivity|]. cbn [fst snd]. split; [left; nia|].
          unfold nst. rewrite (proj2 (Nat.leb_le _ _)) by nia. f_equal.
          f_equal. nia.
        + destruct Hoc as [Hoc|Hoc]; [lia|].
          destruct (nested_node i Hi) as [Nd Ld].
          match goal with |- context [for_ m ?b00 ?s00] =>
            destruct (for_inv (fun jj st => st = nst g (i * m + jj)) b00 m s00) as (r & E & I) end.
          * unfold nst. rewrite Nat.add_0_r, (proj2 (Nat.leb_gt _ _)) by lia. reflexivity.
          * intros j st Hj ->. unfold nst. cbn [fst snd].
            destruct (Nat.leb_spec sizenew (i * m + j)) as [Hd'|Hd'].
            -- eexists. split; [reflexivity|].
               rewrite (proj2 (Nat.leb_le _ _)) by lia. f_equal. f_equal. lia.
            -- rewrite (nest1_ok left opts oc (nodei i) j (opti j)).
               ++ cbn [obind]. rewrite (ci_tab_S _ _ g).
                  2:{ unfold g. replace (min (i * m + j) sizenew) with (i * m + j) by lia.
                      now rewrite idx_div, idx_mod. }
                  eexists. split; [reflexivity|]. cbn [ci_n ci_tab]. f_equal.
                  ** f_equal. lia.
                  ** replace (min (i * m + j) sizenew) with (i * m + j) by lia.
                     destruct (Nat.eqb_spec (S (i * m + j)) sizenew) as [He|He];
                       destruct (Nat.leb_spec sizenew (i * m + S j)); lia || reflexivity.
               ++ rewrite Hoc. now rewrite skipn_hd.
               ++ now apply nested_opt.
               ++ exact Ld.
          * rewrite E, I. cbn [obind]. unfold nst.
            eexists. split; [reflexivity|]. cbn [fst snd]. split.
            -- right. rewrite Hoc. apply tl_skipn.
            -- unfold nst. now replace (S i * m) with (i * m + m) by lia.
      - rewrite E. cbn [obind]. destruct r as [[oc ci] stop]. cbn [fst snd] in I.
        destruct I as [_ I]. unfold nst in I. injection I as -> ->.
        now replace (min (n * m) sizenew) with sizenew by lia.
    Qed.

    Lemma create_nested_0 :
      cross_index_create_nested zero 0 left sizenew m opts old
      = Ok (Some (ci_tab (ci_d old + 1) sizenew
                    (fun k => extend left (nodei (k mod n)) (opti (k / n))))).
    Proof.
      unfold cross_index_create_nested.
      rewrite (proj2 (Nat.leb_le _ _)) by lia. cbn [cassert obind Nat.eqb].
      set (g := fun k => extend left (nodei (k mod n)) (opti (k / n))).
      match goal with |- context [for_ m ?b00 ?s00] =>
        destruct (for_inv (fun jj st => st = nst g (jj * n)) b00 m s00) as (r & E & I) end.
      - unfold nst. cbn. destruct sizenew; [lia|]. reflexivity.
      - intros j st Hj ->. unfold nst. cbn [fst snd].
        destruct (Nat.leb_spec sizenew (j * n)) as [Hd|Hd].
        + eexists. split; [reflexivity|].
          rewrite (proj2 (Nat.leb_le _ _)) by nia. f_equal. f_equal. nia.
        + match goal with |- context [for_ n ?b00 ?s00] =>
            destruct (for_inv (fun ii st =>
                (sizenew <= j * n + ii \/ fst (fst st) = skipn ii (ci_nodes old))
                /\ (snd (fst st), snd st) = nst g (j * n + ii)) b00 n s00) as (r & E & I) end.
          * split; [now right|]. cbn [fst snd]. unfold nst.
            rewrite Nat.add_0_r, (proj2 (Nat.leb_gt _ _)) by lia. reflexivity.
          * intros i [[oc ci] stop] Hi [Hoc Hst]. cbn [fst snd] in *.
            unfold nst in Hst. injection Hst as -> ->.
            destruct (Nat.leb_spec sizenew (j * n + i)) as [Hd'|Hd'].
            -- eexists. split; [reflexivity|]. cbn [fst snd]. split; [left; lia|].
               unfold nst. rewrite (proj2 (Nat.leb_le _ _)) by lia. f_equal. f_equal. lia.
            -- destruct Hoc as [Hoc|Hoc]; [lia|].
               destruct (nested_node i Hi) as [Nd Ld].
               rewrite (nest1_ok left opts oc (nodei i) j (opti j)).
               ++ cbn [obind]. rewrite (ci_tab_S _ _ g).
                  2:{ unfold g. replace (min (j * n + i) sizenew) with (j * n + i) by lia.
                      now rewrite idx_div, idx_mod. }
                  eexists. split; [reflexivity|]. cbn [fst snd ci_n ci_tab].
                  split; [right; rewrite Hoc; apply tl_skipn|]. unfold nst. f_equal.
                  ** f_equal. lia.
                  ** replace (min (j * n + i) sizenew) with (j * n + i) by lia.
                     destruct (Nat.eqb_spec (S (j * n + i)) sizenew) as [He|He];
                       destruct (Nat.leb_spec sizenew (j * n + S i)); lia || reflexivity.
               ++ rewrite Hoc. now rewrite skipn_hd.
               ++ now apply nested_opt.
               ++ exact Ld.
          * rewrite E. cbn [obind]. destruct r as [[oc ci] stop]. cbn [fst snd] in I.
            destruct I as [_ I]. unfold nst in I. injection I as -> ->.
            eexists. split; [reflexivity|].
            now replace (S j * n) with (j * n + n) by lia.
      - rewrite E, I. cbn [obind]. unfold nst.
        now replace (min (m * n) sizenew) with sizenew by lia.
    Qed.
  End Nested.

  (** Method 2 pairs entry [k] (or entry 0 when the old ones run out) with option
      [k]; it also works for an empty request. *)
  Lemma create_nested_2 (old : cidx X) (opts : list X) left sizenew :
    ci_wf old -> sizenew <= length opts -> (1 <= ci_n old \/ sizenew = 0) ->
    cross_index_create_nested zero 2 left sizenew (length opts) opts old
    = Ok (Some (ci_tab (ci_d old + 1) sizenew
          (fun k => extend left (nth (if k <? ci_n old then k else 0) (ci_nodes old) [])
                                (nth k opts zero)))).
  Proof.
    intros Wf Hle Hn. unfold cross_index_create_nested.
    rewrite (proj2 (Nat.leb_le _ _)) by (destruct Hn; nia). cbn [cassert obind Nat.eqb].
    rewrite (proj2 (Nat.leb_le _ _)) by lia. cbn [cassert obind].
    set (g := fun k => extend left (nth (if k <? ci_n old then k else 0) (ci_nodes old) [])
                                   (nth k opts zero)).
    assert (Loop : forall K, K <= ci_n old -> K <= sizenew ->
      for_ K (fun jj st =>
            let '(oc, ci) := st in
            do ci <- nest1 zero left opts oc jj ci; Ok (tl oc, ci))
          (ci_nodes old, cross_index_alloc (ci_d old + 1))
      = Ok (skipn K (ci_nodes old), ci_tab (ci_d old + 1) K g)).
    { intros K HK HKs.
      match goal with |- for_ K ?b00 ?s00 = _ =>
        destruct (for_inv (fun jj st => st = (skipn jj (ci_nodes old),
                      ci_tab (ci_d old + 1) jj g)) b00 K s00) as (r & E & I) end.
      - reflexivity.
      - intros j st Hj ->.
        destruct (nested_node old Wf j) as [Nd Ld]; [lia|].
        rewrite (nest1_ok left opts _ (nth j (ci_nodes old) []) j (nth j opts zero)).
        + cbn [obind]. rewrite (ci_tab_S _ _ g).
          2:{ unfold g. now rewrite (proj2 (Nat.ltb_lt _ _)) by lia. }
          eexists. split; [reflexivity|]. now rewrite tl_skipn.
        + now rewrite skipn_hd.
        + apply nth_error_nth'. lia.
        + exact Ld.
      - now rewrite E, I. }
    destruct (Nat.ltb_spec (ci_n old) sizenew) as [Hlt|Hge].
    - destruct Hn as [Hn|Hn]; [|lia].
      rewrite Loop by lia. cbn [obind].
      match goal with |- context [for_from ?lo ?k ?b00 ?s00] =>
        destruct (for_from_inv (fun jj c => c = ci_tab (ci_d old + 1) jj g) b00 lo k s00)
          as (r & E & I) end.
      + reflexivity.
      + intros j c Hj ->.
        destruct (nested_node old Wf 0) as [Nd Ld]; [lia|].
        rewrite (nest1_ok left opts _ (nth 0 (ci_nodes old) []) j (nth j opts zero)).
        * eexists. split; [reflexivity|]. apply ci_tab_S.
          unfold g. now rewrite (proj2 (Nat.ltb_ge _ _)) by lia.
        * rewrite <- Nd. destruct (ci_nodes old); reflexivity.
        * apply nth_error_nth'. lia.
        * exact Ld.
      + rewrite E, I. cbn [obind]. do 3 f_equal. lia.
    - rewrite Loop by lia. reflexivity.
  Qed.

  (** For an empty request methods 0 and 1 never stop early. *)
  Lemma create_nested_zero (old : cidx X) o v left :
    ci_nodes old = [o] -> ci_n old = 1 -> length o = ci_d old ->
    cross_index_create_nested zero 1 left 0 1 [v] old
    = Ok (Some (mkci (ci_d old + 1) 1 [extend left o v])).
  Proof.
    intros Hn Hc Hl. unfold cross_index_create_nested. rewrite Hn, Hc.
    cbn [Nat.mul Nat.leb cassert obind Nat.eqb for_ for_from].
    rewrite (nest1_ok left [v] [o] o 0 v); auto.
    cbn. lia.
  Qed.

  (** What the tables mean: size, origin of the entries, distinctness. *)
  Lemma extend_tab_nodup (old : cidx X) (opts : list X) left sizenew (a b : nat -> nat) :
    (forall k, k < sizenew -> a k < ci_n old /\ b k < length opts) ->
    length (ci_nodes old) = ci_n old ->
    (forall k k', k < sizenew -> k' < sizenew -> a k = a k' -> b k = b k' -> k = k') ->
    NoDup (ci_nodes old) -> NoDup opts ->
    NoDup (tab sizenew (fun k => extend left (nth (a k) (ci_nodes old) []) (nth (b k) opts zero))).
  Proof.
    intros Hab L Hinj N1 N2. rewrite NoDup_nth_error. intros i j Hi E.
    rewrite tab_length in Hi. rewrite nth_error_tab in E by auto.
    assert (Hj : j < sizenew).
    { destruct (Nat.lt_ge_cases j sizenew) as [H|H]; auto.
      exfalso. assert (C : nth_error (tab sizenew (fun k => extend left (nth (a k) (ci_nodes old) []) (nth (b k) opts zero))) j = None)
        by (apply nth_error_None; rewrite tab_length; lia). congruence. }
    rewrite nth_error_tab in E by auto. injection E as E. apply extend_inj in E as [E1 E2].
    destruct (Hab i Hi), (Hab j Hj).
    apply Hinj; auto.
    - rewrite NoDup_nth in N1. apply N1; try lia. exact E1.
    - rewrite NoDup_nth in N2. apply N2; try lia. exact E2.
  Qed.

  Lemma extend_tab_in (old : cidx X) (opts : list X) left sizenew (a b : nat -> nat) e :
    (forall k, k < sizenew -> a k < ci_n old /\ b k < length opts) ->
    length (ci_nodes old) = ci_n old ->
    In e (tab sizenew (fun k => extend left (nth (a k) (ci_nodes old) []) (nth (b k) opts zero))) ->
    exists o v, In o (ci_nodes old) /\ In v opts /\ e = extend left o v.
  Proof.
    intros Hab L He. apply In_nth_error in He as [k Hk].
    assert (Hlt : k < sizenew)
      by (rewrite <- (tab_length sizenew (fun k => extend left (nth (a k) (ci_nodes old) [])
             (nth (b k) opts zero))); apply nth_error_Some; congruence).
    rewrite nth_error_tab in Hk by auto. injection Hk as <-.
    destruct (Hab k Hlt). do 2 eexists. split; [|split; [|reflexivity]]; apply nth_In; lia.
  Qed.

  (** The full statement about cross_index_create_nested. *)
  Theorem create_nested_correct (old : cidx X) (opts : list X) method left sizenew :
    ci_wf old -> method <= 2 -> 1 <= sizenew -> sizenew <= ci_n old * length opts ->
    (method = 2 -> sizenew <= length opts) ->
    exists ci, cross_index_create_nested zero method left sizenew (length opts) opts old
               = Ok (Some ci)
      /\ ci_wf ci /\ ci_d ci = ci_d old + 1 /\ ci_n ci = sizenew
      /\ (forall e, In e (ci_nodes ci) ->
            exists o v, In o (ci_nodes old) /\ In v opts /\ e = extend left o v)
      /\ (NoDup (ci_nodes old) -> NoDup opts -> NoDup (ci_nodes ci)).
  Proof.
    intros Wf Hm Hs Hle H2.
    assert (Hn : 1 <= ci_n old) by nia.
    assert (Ho : 1 <= length opts) by nia.
    assert (Main : exists a b : nat -> nat,
      cross_index_create_nested zero method left sizenew (length opts) opts old
      = Ok (Some (ci_tab (ci_d old + 1) sizenew
              (fun k => extend left (nth (a k) (ci_nodes old) []) (nth (b k) opts zero))))
      /\ (forall k, k < sizenew -> a k < ci_n old /\ b k < length opts)
      /\ (forall k k', k < sizenew -> k' < sizenew -> a k = a k' -> b k = b k' -> k = k')).
    { destruct method as [|[|[|]]]; [| | |lia].
      - exists (fun k => k mod ci_n old), (fun k => k / ci_n old).
        split; [now apply create_nested_0|]. split.
        + intros k Hk. split; [apply Nat.mod_upper_bound; lia|].
          apply Nat.div_lt_upper_bound; nia.
        + intros k k' _ _ E1 E2. rewrite (Nat.div_mod k (ci_n old)) by lia.
          rewrite (Nat.div_mod k' (ci_n old)) by lia. now rewrite E1, E2.
      - exists (fun k => k / length opts), (fun k => k mod length opts).
        split; [now apply create_nested_1|]. split.
        + intros k Hk. split; [|apply Nat.mod_upper_bound; lia].
          apply Nat.div_lt_upper_bound; nia.
        + intros k k' _ _ E1 E2. rewrite (Nat.div_mod k (length opts)) by lia.
          rewrite (Nat.div_mod k' (length opts)) by lia. now rewrite E1, E2.
      - exists (fun k => if k <? ci_n old then k else 0), (fun k => k).
        split; [apply create_nested_2; auto|]. split.
        + intros k Hk. specialize (H2 eq_refl).
          destruct (Nat.ltb_spec k (ci_n old)); lia.
        + auto. }
    destruct Main as (a & b & E & Hab & Hinj).
    eexists. split; [exact E|]. split; [|split; [|split; [|split]]]; try reflexivity.
    - split; [apply tab_length|]. cbn. rewrite Forall_forall. intros e He.
      apply extend_tab_in in He as (o & v & Hin & _ & ->); auto; [|apply Wf].
      rewrite extend_length. destruct Wf as [_ F]. rewrite Forall_forall in F.
      rewrite (F o Hin). lia.
    - intros e He. cbn in He. apply extend_tab_in in He; auto. apply Wf.
    - intros N1 N2. cbn. apply extend_tab_nodup; auto. apply Wf.
  Qed.

  (** ** create_nested_ind, copy, copylast *)
  Lemma get_node_ok (c : cidx X) i : ci_wf c -> i < ci_n c ->
    cross_index_get_node c i = Ok (nth i (ci_nodes c) [])
    /\ length (nth i (ci_nodes c) []) = ci_d c.
  Proof.
    intros [L F] Hi. unfold cross_index_get_node.
    rewrite (proj2 (Nat.ltb_lt _ _)) by auto. cbn [cassert obind].
    assert (E : nth_error (ci_nodes c) i = Some (nth i (ci_nodes c) []))
      by (apply nth_error_nth'; lia).
    split; [now apply aget_ok|]. rewrite Forall_forall in F. apply F.
    now apply nth_error_In in E.
  Qed.

  Lemma create_nested_ind_ok (old : cidx X) left inds newx :
    ci_wf old -> length newx = length inds -> Forall (fun i => i < ci_n old) inds ->
    cross_index_create_nested_ind zero left (length inds) inds newx old
    = Ok (ci_tab (ci_d old + 1) (length inds)
            (fun k => extend left (nth (nth k inds 0) (ci_nodes old) []) (nth k newx zero))).
  Proof.
    intros Wf L F. unfold cross_index_create_nested_ind.
    set (g := fun k => extend left (nth (nth k inds 0) (ci_nodes old) []) (nth k newx zero)).
    match goal with |- for_ ?n00 ?b00 ?s00 = _ =>
      destruct (for_inv (fun k c => c = ci_tab (ci_d old + 1) k g) b00 n00 s00)
        as (r & E & I) end.
    - reflexivity.
    - intros k c Hk ->.
      rewrite (aget_ok inds k (nth k inds 0)) by (apply nth_error_nth'; lia). cbn [obind].
      assert (Hi : nth k inds 0 < ci_n old).
      { rewrite Forall_forall in F. apply F, nth_In. lia. }
      destruct (get_node_ok old _ Wf Hi) as [G Ld]. rewrite G. cbn [obind].
      rewrite (aget_ok newx k (nth k newx zero)) by (apply nth_error_nth'; lia). cbn [obind].
      rewrite add_nested_ok by (cbn; lia).
      eexists. split; [reflexivity|]. now apply ci_tab_S.
    - now rewrite E, I.
  Qed.

  Lemma cross_index_copy_ok (c : cidx X) : ci_wf c ->
    cross_index_copy zero (Some c) = Ok (Some c).
  Proof.
    intros Wf. unfold cross_index_copy.
    set (g := fun k => nth k (ci_nodes c) []).
    match goal with |- context [for_ ?n00 ?b00 ?s00] =>
      destruct (for_inv (fun k r => r = ci_tab (ci_d c) k g) b00 n00 s00)
        as (r & E & I) end.
    - reflexivity.
    - intros k r Hk ->. destruct (get_node_ok c k Wf Hk) as [G L]. rewrite G. cbn [obind].
      rewrite add_index_ok by exact L. eexists. split; [reflexivity|].
      unfold ci_tab. cbn [ci_d ci_n ci_nodes]. rewrite tab_S. f_equal. lia.
    - rewrite E, I. cbn [obind]. do 2 f_equal. unfold ci_tab, g.
      destruct Wf as [L _]. rewrite <- L, <- list_eq_tab_nth. rewrite L.
      now destruct c.
  Qed.

  Lemma copylast_ok (c : cidx X) ntimes : ci_wf c -> 0 < ci_n c ->
    cross_index_copylast zero c ntimes
    = Ok (mkci (ci_d c) (ci_n c + ntimes)
            (ci_nodes c ++ repeat (last (ci_nodes c) []) ntimes)).
  Proof.
    intros Wf Hn. unfold cross_index_copylast.
    rewrite (proj2 (Nat.eqb_neq _ _)) by lia.
    destruct (get_node_ok c (ci_n c - 1) Wf) as [G L]; [lia|]. rewrite G. cbn [obind].
    assert (El : nth (ci_n c - 1) (ci_nodes c) [] = last (ci_nodes c) []).
    { destruct Wf as [Lc _]. rewrite <- Lc. clear. induction (ci_nodes c) as [|x l IH]; [reflexivity|].
      cbn [length]. destruct l as [|y l]; [reflexivity|]. cbn [length] in *.
      replace (S (S (length l)) - 1) with (S (S (length l) - 1)) by lia. exact IH. }
    rewrite El in *.
    match goal with |- for_ ?n00 ?b00 ?s00 = _ =>
      destruct (for_inv (fun k r => r = mkci (ci_d c) (ci_n c + k)
                   (ci_nodes c ++ repeat (last (ci_nodes c) []) k)) b00 n00 s00)
        as (r & E & I) end.
    - cbn. rewrite app_nil_r, Nat.add_0_r. now destruct c.
    - intros k r Hk ->. rewrite add_index_ok by exact L. eexists. split; [reflexivity|].
      cbn [ci_d ci_n ci_nodes]. rewrite <- app_assoc.
      f_equal; [lia|]. f_equal. change [last (ci_nodes c) []] with (repeat (last (ci_nodes c) []) 1).
      rewrite <- repeat_app. f_equal. lia.
    - now rewrite E, I.
  Qed.

  (** ** merging *)
  Lemma row_space_ok l r (xl xr : list X) :
    length xl = l -> length xr = r ->
    (do v <- copyn l xl 0 (repeat zero (l + r + 1)) 0;
     copyn r xr 0 v (l + 1)) = Ok (xl ++ zero :: xr).
  Proof.
    intros <- <-.
    replace (repeat zero (length xl + length xr + 1))
      with (repeat zero (length xl) ++ zero :: repeat zero (length xr)).
    2:{ rewrite <- Nat.add_assoc, repeat_app, (Nat.add_comm _ 1). reflexivity. }
    rewrite (copyn_mid' _ _ _ [] xl [] [] (repeat zero (length xl))
               (zero :: repeat zero (length xr))); auto.
    - cbn [obind app].
      rewrite (copyn_mid' _ _ _ [] xr [] (xl ++ [zero]) (repeat zero (length xr)) []); auto.
      + rewrite app_nil_r, <- app_assoc. reflexivity.
      + now rewrite app_nil_r.
      + rewrite <- app_assoc, app_nil_r. reflexivity.
      + rewrite app_length. reflexivity.
      + now rewrite repeat_length.
    - now rewrite app_nil_r.
    - now rewrite repeat_length.
  Qed.

  Lemma aset_tab_fill {A} (T : nat -> A) N k : k < N ->
    aset (tab k (fun i => Some (T i)) ++ repeat None (N - k)) k (Some (T k))
    = Ok (tab (S k) (fun i => Some (T i)) ++ repeat None (N - S k)).
  Proof.
    intros Hk. rewrite aset_ok by (rewrite app_length, tab_length, repeat_length; lia).
    f_equal. pose proof (upd_app_at (tab k (fun i => Some (T i))) (repeat None (N - k)) 0
                           (Some (T k))) as U.
    rewrite tab_length, Nat.add_0_r in U. rewrite U. rewrite tab_S, <- app_assoc. f_equal.
    replace (N - k) with (S (N - S k)) by lia. reflexivity.
  Qed.

  Lemma merge_wspace_ok (l r : cidx X) : ci_wf l -> ci_wf r ->
    cross_index_merge_wspace zero (Some l) (Some r)
    = Ok (tab (ci_n r * ci_n l) (fun k =>
            nth (k mod ci_n l) (ci_nodes l) [] ++ zero :: nth (k / ci_n l) (ci_nodes r) [])).
  Proof.
    intros Wl Wr. unfold cross_index_merge_wspace.
    set (T := fun k => nth (k mod ci_n l) (ci_nodes l) [] ++ zero
                       :: nth (k / ci_n l) (ci_nodes r) []).
    set (N := ci_n r * ci_n l).
    assert (St : forall k, k = N -> tab k (fun i => Some (T i)) ++ repeat None (N - k)
                 = tab N (fun i => Some (T i))).
    { intros k ->. rewrite Nat.sub_diag. cbn. apply app_nil_r. }
    match goal with |- context [for_ (ci_n r) ?b00 ?s00] =>
      destruct (for_inv (fun i st => st = (skipn i (ci_nodes r),
          tab (i * ci_n l) (fun k => Some (T k)) ++ repeat None (N - i * ci_n l)))
          b00 (ci_n r) s00) as (q & E & I) end.
    - cbn. now rewrite Nat.sub_0_r.
    - intros i st Hi ->.
      assert (Nr : hd_error (skipn i (ci_nodes r)) = Some (nth i (ci_nodes r) [])).
      { rewrite skipn_hd. apply nth_error_nth'. destruct Wr. lia. }
      assert (Lr : length (nth i (ci_nodes r) []) = ci_d r)
        by (destruct (get_node_ok r i Wr Hi); auto).
      match goal with |- context [for_ (ci_n l) ?b00 ?s00] =>
        destruct (for_inv (fun j st => st = (skipn j (ci_nodes l),
          tab (i * ci_n l + j) (fun k => Some (T k)) ++ repeat None (N - (i * ci_n l + j))))
          b00 (ci_n l) s00) as (q & E & I) end.
      + now rewrite Nat.add_0_r.
      + intros j st Hj ->.
        assert (Nl : hd_error (skipn j (ci_nodes l)) = Some (nth j (ci_nodes l) [])).
        { rewrite skipn_hd. apply nth_error_nth'. destruct Wl. lia. }
        assert (Ll : length (nth j (ci_nodes l) []) = ci_d l)
          by (destruct (get_node_ok l j Wl Hj); auto).
        destruct (skipn j (ci_nodes l)) as [|xl cl] eqn:El; [discriminate|].
        cbn in Nl. injection Nl as ->. cbn [deref obind].
        destruct (skipn i (ci_nodes r)) as [|xr cr] eqn:Er; [discriminate|].
        cbn in Nr. injection Nr as ->. cbn [deref obind].
        pose proof (row_space_ok (ci_d l) (ci_d r) _ _ Ll Lr) as Row.
        destruct (copyn (ci_d l) (nth j (ci_nodes l) []) 0
                    (repeat zero (ci_d l + ci_d r + 1)) 0) as [v| | |]; try discriminate.
        cbn [obind] in Row |- *. rewrite Row. cbn [obind].
        assert (HT : nth j (ci_nodes l) [] ++ zero :: nth i (ci_nodes r) []
                     = T (i * ci_n l + j)).
        { unfold T. now rewrite idx_div, idx_mod. }
        rewrite HT, aset_tab_fill by (unfold N; nia). cbn [obind].
        eexists. split; [reflexivity|].
        replace (i * ci_n l + S j) with (S (i * ci_n l + j)) by lia.
        f_equal. now rewrite <- tl_skipn, El.
      + rewrite E, I. cbn [obind]. eexists. split; [reflexivity|].
        replace (i * ci_n l + ci_n l) with (S i * ci_n l) by lia.
        f_equal. now rewrite tl_skipn.
    - rewrite E, I. cbn [obind]. rewrite St by reflexivity. apply freeze_tab.
  Qed.

  Lemma merge_wspace_left (l : cidx X) : ci_wf l ->
    cross_index_merge_wspace zero (Some l) None
    = Ok (map (fun x => x ++ [zero]) (ci_nodes l)).
  Proof.
    intros Wl. unfold cross_index_merge_wspace.
    set (T := fun k => nth k (ci_nodes l) [] ++ [zero]).
    match goal with |- context [for_ (ci_n l) ?b00 ?s00] =>
      destruct (for_inv (fun i st => st = (skipn i (ci_nodes l),
          tab i (fun k => Some (T k)) ++ repeat None (ci_n l - i)))
          b00 (ci_n l) s00) as (q & E & I) end.
    - cbn. now rewrite Nat.sub_0_r.
    - intros i st Hi ->.
      assert (Nl : hd_error (skipn i (ci_nodes l)) = Some (nth i (ci_nodes l) [])).
      { rewrite skipn_hd. apply nth_error_nth'. destruct Wl. lia. }
      assert (Ll : length (nth i (ci_nodes l) []) = ci_d l)
        by (destruct (get_node_ok l i Wl Hi); auto).
      destruct (skipn i (ci_nodes l)) as [|xl cl] eqn:El; [discriminate|].
      cbn in Nl. injection Nl as ->. cbn [deref obind].
      replace (ci_d l + 1 - 1) with (ci_d l) by lia. rewrite repeat_app.
      rewrite (copyn_mid' _ _ _ [] (nth i (ci_nodes l) []) [] [] (repeat zero (ci_d l)) [zero]);
        auto; [|now rewrite app_nil_r|now rewrite repeat_length].
      cbn [obind app]. change (nth i (ci_nodes l) [] ++ [zero]) with (T i).
      rewrite aset_tab_fill by lia. cbn [obind]. eexists. split; [reflexivity|].
      f_equal. now rewrite <- tl_skipn, El.
    - rewrite E, I. cbn [obind]. rewrite Nat.sub_diag. cbn [repeat].
      rewrite app_nil_r, freeze_tab. f_equal. unfold T. rewrite <- (map_tab (fun x => x ++ [zero])).
      f_equal. destruct Wl as [L _]. rewrite <- L. now rewrite <- list_eq_tab_nth.
  Qed.

  Lemma merge_wspace_right (r : cidx X) : ci_wf r ->
    cross_index_merge_wspace zero None (Some r)
    = Ok (map (fun x => zero :: x) (ci_nodes r)).
  Proof.
    intros Wl. unfold cross_index_merge_wspace.
    set (T := fun k => zero :: nth k (ci_nodes r) []).
    match goal with |- context [for_ (ci_n r) ?b00 ?s00] =>
      destruct (for_inv (fun i st => st = (skipn i (ci_nodes r),
          tab i (fun k => Some (T k)) ++ repeat None (ci_n r - i)))
          b00 (ci_n r) s00) as (q & E & I) end.
    - cbn. now rewrite Nat.sub_0_r.
    - intros i st Hi ->.
      assert (Nl : hd_error (skipn i (ci_nodes r)) = Some (nth i (ci_nodes r) [])).
      { rewrite skipn_hd. apply nth_error_nth'. destruct Wl. lia. }
      assert (Ll : length (nth i (ci_nodes r) []) = ci_d r)
        by (destruct (get_node_ok r i Wl Hi); auto).
      destruct (skipn i (ci_nodes r)) as [|xl cl] eqn:El; [discriminate|].
      cbn in Nl. injection Nl as ->. cbn [deref obind].
      replace (ci_d r + 1 - 1) with (ci_d r) by lia. rewrite (Nat.add_comm (ci_d r) 1).
      rewrite (copyn_mid' _ _ _ [] (nth i (ci_nodes r) []) [] [zero] (repeat zero (ci_d r)) []);
        auto; [|now rewrite app_nil_r|cbn; now rewrite app_nil_r|now rewrite repeat_length].
      cbn [obind app]. rewrite app_nil_r.
      change (zero :: nth i (ci_nodes r) []) with (T i).
      rewrite aset_tab_fill by lia. cbn [obind]. eexists. split; [reflexivity|].
      f_equal. now rewrite <- tl_skipn, El.
    - rewrite E, I. cbn [obind]. rewrite Nat.sub_diag. cbn [repeat].
      rewrite app_nil_r, freeze_tab. f_equal. unfold T. rewrite <- (map_tab (fun x => zero :: x)).
      f_equal. destruct Wl as [L _]. rewrite <- L. now rewrite <- list_eq_tab_nth.
  Qed.

  (** cross_index_merge pairs every right entry with the first left entry. *)
  Lemma merge_first (l r : cidx X) : ci_wf l -> ci_wf r -> ci_n l = ci_n r ->
    cross_index_merge zero (Some l) (Some r)
    = Ok (map (fun x => nth 0 (ci_nodes l) [] ++ x) (ci_nodes r)).
  Proof.
    intros Wl Wr En. unfold cross_index_merge.
    rewrite (proj2 (Nat.eqb_eq _ _)) by auto. cbn [cassert obind].
    set (T := fun k => nth 0 (ci_nodes l) [] ++ nth k (ci_nodes r) []).
    match goal with |- context [for_ (ci_n r) ?b00 ?s00] =>
      destruct (for_inv (fun i st => st = (skipn i (ci_nodes r),
          tab i (fun k => Some (T k)) ++ repeat None (ci_n r - i)))
          b00 (ci_n r) s00) as (q & E & I) end.
    - cbn. now rewrite Nat.sub_0_r.
    - intros i st Hi ->.
      assert (Nl : hd_error (skipn i (ci_nodes r)) = Some (nth i (ci_nodes r) [])).
      { rewrite skipn_hd. apply nth_error_nth'. destruct Wr. lia. }
      assert (Lr : length (nth i (ci_nodes r) []) = ci_d r)
        by (destruct (get_node_ok r i Wr Hi); auto).
      destruct (get_node_ok l 0 Wl) as [_ Ll]; [lia|].
      destruct (ci_nodes l) as [|x0 nl] eqn:El.
      { destruct Wl as [L _]. rewrite El in L. cbn in L. lia. }
      cbn [deref obind]. cbn [nth] in Ll.
      rewrite repeat_app.
      rewrite (copyn_mid' _ _ _ [] x0 [] [] (repeat zero (ci_d l)) (repeat zero (ci_d r)));
        auto; [|now rewrite app_nil_r|now rewrite repeat_length].
      cbn [obind app].
      destruct (skipn i (ci_nodes r)) as [|xr cr] eqn:Er; [discriminate|].
      cbn in Nl. injection Nl as ->. cbn [deref obind].
      rewrite (copyn_mid' _ _ _ [] (nth i (ci_nodes r) []) [] x0 (repeat zero (ci_d r)) []);
        auto; [|now rewrite app_nil_r|now rewrite app_nil_r|now rewrite repeat_length].
      cbn [obind]. rewrite app_nil_r.
      change (x0 ++ nth i (ci_nodes r) []) with (T i).
      rewrite aset_tab_fill by lia. cbn [obind]. eexists. split; [reflexivity|].
      f_equal. now rewrite <- tl_skipn, Er.
    - rewrite E, I. cbn [obind]. rewrite Nat.sub_diag. cbn [repeat].
      rewrite app_nil_r, freeze_tab. f_equal. unfold T.
      rewrite <- (map_tab (fun x => nth 0 (ci_nodes l) [] ++ x)).
      f_equal. destruct Wr as [L _]. rewrite <- L. now rewrite <- list_eq_tab_nth.
  Qed.
End Idx.

(** ** cross_index_array_initialize *)
Section Init.
  Context {X : Type} (zero : X).
  Context (vals : list (list X)).
  Let vl k := nth k vals [].
  Let sz k := length (vl k).

  (** Entry [j] of the set with [k] coordinates, counted from the first dimension;
      when the previous set has run out of entries its first one is used. *)
  Fixpoint fwd_entry (k j : nat) : list X :=
    match k with
    | O => []
    | S k' =>
        match k' with
        | O => [nth j (vl 0) zero]
        | S k'' => fwd_entry k' (if j <? sz k'' then j else 0) ++ [nth j (vl k') zero]
        end
    end.

  (** The same counted from the last of [dim] dimensions. *)
  Fixpoint bwd_entry (dim k j : nat) : list X :=
    match k with
    | O => []
    | S k' =>
        match k' with
        | O => [nth j (vl (dim - 1)) zero]
        | S _ => nth j (vl (dim - 1 - k')) zero
                 :: bwd_entry dim k' (if j <? sz (dim - k') then j else 0)
        end
    end.

  Lemma fwd_entry_S k j :
    fwd_entry (S (S k)) j
    = fwd_entry (S k) (if j <? sz k then j else 0) ++ [nth j (vl (S k)) zero].
  Proof. reflexivity. Qed.

  Lemma bwd_entry_S dim k j :
    bwd_entry dim (S (S k)) j
    = nth j (vl (dim - 1 - S k)) zero
      :: bwd_entry dim (S k) (if j <? sz (dim - S k) then j else 0).
  Proof. reflexivity. Qed.

  Lemma fwd_entry_length k : forall j, length (fwd_entry k j) = k.
  Proof.
    induction k as [|[|k] IH]; intros j; [reflexivity|reflexivity|].
    rewrite fwd_entry_S, app_length, IH. cbn. lia.
  Qed.

  Lemma bwd_entry_length dim k : forall j, length (bwd_entry dim k j) = k.
  Proof.
    induction k as [|[|k] IH]; intros j; [reflexivity|reflexivity|].
    rewrite bwd_entry_S. cbn [length]. now rewrite IH.
  Qed.

  (** Every coordinate comes from the values of its own dimension. *)
  Lemma fwd_entry_in k : forall j i v,
    (forall t, t < k -> 1 <= sz t) -> j < sz (k - 1) ->
    nth_error (fwd_entry k j) i = Some v -> In v (vl i).
  Proof.
    induction k as [|[|k] IH]; intros j i v Hs Hj Hv.
    - destruct i; discriminate.
    - cbn in Hv. destruct i as [|i]; [|destruct i; discriminate].
      cbn in Hv. injection Hv as <-. apply nth_In. exact Hj.
    - rewrite fwd_entry_S in Hv.
      assert (L : length (fwd_entry (S k) (if j <? sz k then j else 0)) = S k)
        by apply fwd_entry_length.
      destruct (Nat.lt_ge_cases i (S k)) as [Hi|Hi].
      + rewrite nth_error_app1 in Hv by lia. eapply IH; [| |exact Hv].
        * intros t Ht. apply Hs. lia.
        * replace (S k - 1) with k by lia. destruct (Nat.ltb_spec j (sz k)); auto.
      + rewrite nth_error_app2 in Hv by lia. rewrite L in Hv.
        destruct (i - S k) as [|q] eqn:Q; [|destruct q; discriminate].
        cbn in Hv. injection Hv as <-. replace i with (S k) by lia.
        apply nth_In. exact Hj.
  Qed.

  Lemma bwd_entry_in dim k : forall j i v,
    k <= dim -> (forall t, t < dim -> 1 <= sz t) -> j < sz (dim - k) ->
    nth_error (bwd_entry dim k j) i = Some v -> In v (vl (dim - k + i)).
  Proof.
    induction k as [|[|k] IH]; intros j i v Hk Hs Hj Hv.
    - destruct i; discriminate.
    - cbn in Hv. destruct i as [|i]; [|destruct i; discriminate].
      cbn in Hv. injection Hv as <-. rewrite Nat.add_0_r. apply nth_In. exact Hj.
    - rewrite bwd_entry_S in Hv. destruct i as [|i].
      + cbn in Hv. injection Hv as <-.
        replace (dim - 1 - S k) with (dim - S (S k)) by lia.
        rewrite Nat.add_0_r. apply nth_In. exact Hj.
      + cbn [nth_error] in Hv.
        replace (dim - S (S k) + S i) with (dim - S k + i) by lia.
        eapply IH; [lia|exact Hs| |exact Hv].
        destruct (Nat.ltb_spec j (sz (dim - S k))); auto. apply Hs. lia.
  Qed.

  Lemma first_index_ok v :
    first_index zero (length v) v
    = Ok (ci_tab 1 (length v) (fun j => [nth j v zero])).
  Proof.
    unfold first_index.
    match goal with |- for_ ?n00 ?b00 ?s00 = _ =>
      destruct (for_inv (fun k c => c = ci_tab 1 k (fun j => [nth j v zero])) b00 n00 s00)
        as (r & E & I) end.
    - reflexivity.
    - intros k c Hk ->. rewrite (aget_ok v k (nth k v zero)) by now apply nth_error_nth'.
      cbn [obind]. rewrite (add_index_ok zero _ [nth k v zero]) by reflexivity.
      eexists. split; [reflexivity|]. unfold ci_tab. cbn [ci_d ci_n ci_nodes].
      rewrite tab_S. f_equal. lia.
    - now rewrite E, I.
  Qed.

  Lemma ci_tab_wf d k (g : nat -> list X) :
    (forall j, length (g j) = d) -> ci_wf (ci_tab d k g).
  Proof.
    intros H. split; [apply tab_length|]. cbn. rewrite Forall_forall. intros e He.
    unfold tab in He. apply in_map_iff in He as (j & <- & _). apply H.
  Qed.

  Lemma ci_tab_ext d k (g g' : nat -> list X) :
    (forall j, j < k -> g j = g' j) -> ci_tab d k g = ci_tab d k g'.
  Proof. intros H. unfold ci_tab. f_equal. now apply tab_ext. Qed.

  Context (dim : nat) (Hdim : 2 <= dim) (Lv : length vals = dim)
          (Hne : forall k, k < dim -> 1 <= sz k).
  Let sizes := map (@length X) vals.

  Lemma sizes_get k : k < dim -> aget sizes k = Ok (sz k).
  Proof.
    intros Hk. apply aget_ok. unfold sizes. rewrite nth_error_map.
    rewrite (nth_error_nth' vals []) by lia. reflexivity.
  Qed.

  Lemma vals_get k : k < dim -> aget vals k = Ok (vl k).
  Proof. intros Hk. apply aget_ok, nth_error_nth'. lia. Qed.

  Theorem array_initialize_forward ci0 :
    length ci0 = dim ->
    exists r, cross_index_array_initialize zero dim false false sizes vals ci0 = Ok r
      /\ length r = dim /\ nth_error r 0 = Some (Some None)
      /\ forall k, 1 <= k < dim ->
           nth_error r k = Some (Some (Some (ci_tab k (sz (k - 1)) (fwd_entry k)))).
  Proof.
    intros L0. unfold cross_index_array_initialize.
    rewrite aset_ok by lia. cbn [obind].
    rewrite sizes_get by lia. cbn [obind]. rewrite vals_get by lia. cbn [obind].
    unfold sz. rewrite first_index_ok. cbn [obind].
    rewrite aset_ok by (rewrite upd_length; lia). cbn [obind].
    match goal with |- context [for_from 2 (dim - 2) ?b00 ?s00] =>
      destruct (for_from_inv (fun ii r => length r = dim /\ nth_error r 0 = Some (Some None)
         /\ forall k, 1 <= k < ii ->
           nth_error r k = Some (Some (Some (ci_tab k (sz (k - 1)) (fwd_entry k)))))
         b00 2 (dim - 2) s00) as (r & E & L & Z & I) end.
    - split; [now rewrite !upd_length|]. split.
      + rewrite nth_error_upd_other by lia. apply nth_error_upd_same. lia.
      + intros k Hk. replace k with 1 by lia.
        rewrite nth_error_upd_same by (rewrite upd_length; lia). reflexivity.
    - intros i r Hi (L & Z & I).
      rewrite sizes_get by lia. cbn [obind]. rewrite vals_get by lia. cbn [obind].
      rewrite (pget_ok _ _ _ (I (i - 1) ltac:(lia))). cbn [obind].
      unfold sz at 1 2. rewrite create_nested_2.
      + cbn [obind]. rewrite aset_ok by lia. eexists. split; [reflexivity|].
        split; [now rewrite upd_length|]. split; [now rewrite nth_error_upd_other by lia|].
        intros k Hk. destruct (Nat.eq_dec k i) as [->|Hki].
        * rewrite nth_error_upd_same by lia. do 3 f_equal.
          cbn [ci_d ci_n ci_nodes ci_tab].
          destruct i as [|[|i]]; [lia|lia|].
          replace (S (S i) - 1 + 1) with (S (S i)) by lia.
          apply ci_tab_ext. intros j Hj. rewrite fwd_entry_S.
          cbn [Nat.sub extend]. rewrite !Nat.sub_0_r. f_equal.
          assert (HS : 1 <= sz i) by (apply Hne; lia).
          assert (Hlt : (if j <? sz i then j else 0) < sz i)
            by (destruct (Nat.ltb_spec j (sz i)); lia).
          change (nth (if j <? sz i then j else 0) (tab (sz i) (fwd_entry (S i))) []
                  = fwd_entry (S i) (if j <? sz i then j else 0)).
          now rewrite nth_tab by exact Hlt.
        * rewrite nth_error_upd_other by lia. apply I. lia.
      + apply ci_tab_wf. intros j. apply fwd_entry_length.
      + lia.
      + left. cbn. apply Hne. lia.
    - exists r. split; [exact E|]. split; [exact L|]. split; [exact Z|].
      intros k Hk. apply I. lia.
  Qed.

  Theorem array_initialize_reverse ci0 :
    length ci0 = dim ->
    exists r, cross_index_array_initialize zero dim false true sizes vals ci0 = Ok r
      /\ length r = dim /\ nth_error r (dim - 1) = Some (Some None)
      /\ forall k, 1 <= k < dim ->
           nth_error r (dim - 1 - k)
           = Some (Some (Some (ci_tab k (sz (dim - k)) (bwd_entry dim k)))).
  Proof.
    intros L0. unfold cross_index_array_initialize.
    rewrite (proj2 (Nat.ltb_lt 1 dim)) by lia. cbn [cassert obind].
    rewrite aset_ok by lia. cbn [obind].
    rewrite sizes_get by lia. cbn [obind]. rewrite vals_get by lia. cbn [obind].
    unfold sz. rewrite first_index_ok. cbn [obind].
    rewrite aset_ok by (rewrite upd_length; lia). cbn [obind].
    match goal with |- context [for_ (dim - 2) ?b00 ?s00] =>
      destruct (for_inv (fun ii r => length r = dim /\ nth_error r (dim - 1) = Some (Some None)
         /\ forall k, 1 <= k < ii + 2 ->
           nth_error r (dim - 1 - k)
           = Some (Some (Some (ci_tab k (sz (dim - k)) (bwd_entry dim k)))))
         b00 (dim - 2) s00) as (r & E & L & Z & I) end.
    - split; [now rewrite !upd_length|]. split.
      + rewrite nth_error_upd_other by lia. apply nth_error_upd_same. lia.
      + intros k Hk. replace k with 1 by lia.
        replace (dim - 1 - 1) with (dim - 2) by lia.
        rewrite nth_error_upd_same by (rewrite upd_length; lia). reflexivity.
    - intros i r Hi (L & Z & I).
      rewrite sizes_get by lia. cbn [obind]. rewrite vals_get by lia. cbn [obind].
      pose proof (I (i + 1) ltac:(lia)) as Hp.
      replace (dim - 1 - (i + 1)) with (dim - 2 - i - 1 + 1) in Hp by lia.
      rewrite (pget_ok _ _ _ Hp). cbn [obind].
      unfold sz at 1 2. rewrite create_nested_2.
      + cbn [obind]. rewrite aset_ok by lia. eexists. split; [reflexivity|].
        split; [now rewrite upd_length|].
        split; [now rewrite nth_error_upd_other by lia|].
        intros k Hk. destruct (Nat.eq_dec k (i + 2)) as [->|Hki].
        * replace (dim - 1 - (i + 2)) with (dim - 2 - i - 1) by lia.
          rewrite nth_error_upd_same by lia. do 3 f_equal.
          cbn [ci_d ci_n ci_nodes ci_tab].
          replace (i + 1 + 1) with (S (S i)) by lia.
          replace (i + 2) with (S (S i)) by lia. replace (i + 1) with (S i) by lia.
          replace (dim - 2 - i - 1 + 1) with (dim - S (S i)) by lia.
          apply ci_tab_ext. intros j Hj. rewrite bwd_entry_S.
          cbn [extend]. replace (dim - 1 - S i) with (dim - S (S i)) by lia. f_equal.
          assert (HS : 1 <= sz (dim - S i)) by (apply Hne; lia).
          assert (Hlt : (if j <? sz (dim - S i) then j else 0) < sz (dim - S i))
            by (destruct (Nat.ltb_spec j (sz (dim - S i))); lia).
          change (nth (if j <? sz (dim - S i) then j else 0)
                      (tab (sz (dim - S i)) (bwd_entry dim (S i))) []
                  = bwd_entry dim (S i) (if j <? sz (dim - S i) then j else 0)).
          now rewrite nth_tab by exact Hlt.
        * rewrite nth_error_upd_other by lia. apply I. lia.
      + apply ci_tab_wf. intros j. apply bwd_entry_length.
      + lia.
      + left. cbn. apply Hne. lia.
    - exists r. split; [exact E|]. split; [exact L|]. split; [exact Z|].
      intros k Hk. apply I. lia.
  Qed.
End Init.
