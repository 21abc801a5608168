(** The hash table is a finite map; the monitor. *)
From Verif Require Import Base BaseFacts StrModel StrFacts SerModel SerFacts PackModel PackFacts MonModel MonText.
From Coq Require Import NArith ZArith.

Definition leqb : list nat -> list nat -> bool :=
  fun a b => if list_eq_dec Nat.eq_dec a b then true else false.
Lemma leqb_eq : forall a b, leqb a b = true <-> a = b.
Proof. intros a b. unfold leqb. destruct list_eq_dec; split; congruence. Qed.
Lemma leqb_refl : forall a, leqb a a = true.
Proof. intros. now apply leqb_eq. Qed.

Lemma streq_ok : forall a b r r', ~ In 0 a -> ~ In 0 b ->
  streq (a ++ 0 :: r) (b ++ 0 :: r') = Ok (leqb a b).
Proof.
  induction a as [|x a IH]; destruct b as [|y b]; intros r r' Ha Hb; cbn [app streq].
  - cbn. auto.
  - destruct y; [exfalso; apply Hb; left; auto|]. cbn [Nat.eqb negb].
    unfold leqb. destruct list_eq_dec; [discriminate|auto].
  - destruct x; [exfalso; apply Ha; left; auto|]. cbn [Nat.eqb negb].
    unfold leqb. destruct list_eq_dec; [discriminate|auto].
  - destruct (Nat.eqb_spec x y) as [->|N]; cbn [negb].
    + destruct (Nat.eqb_spec y 0) as [->|N0]; [exfalso; apply Ha; left; auto|].
      rewrite IH; [|intros C; apply Ha; right; auto|intros C; apply Hb; right; auto].
      unfold leqb. destruct (list_eq_dec Nat.eq_dec a b), (list_eq_dec Nat.eq_dec (y :: a) (y :: b)); congruence.
    + unfold leqb. destruct list_eq_dec; congruence.
Qed.

(** The hash depends on the string only. *)
Lemma hash_loop_ok : forall a h r r', ~ In 0 a ->
  exists v, hash_loop h (a ++ 0 :: r) = Ok v /\ hash_loop h (a ++ 0 :: r') = Ok v.
Proof.
  induction a as [|x a IH]; intros h r r' Ha; cbn [app hash_loop].
  - exists h. cbn. auto.
  - destruct (Nat.eqb_spec x 0) as [->|N0]; [exfalso; apply Ha; left; auto|].
    apply IH. intros C. apply Ha. right. auto.
Qed.

Definition hsh (size : nat) (a : list nat) : nat :=
  match hashsimple size (a ++ [0]) with Ok v => v | _ => 0 end.

Lemma hashsimple_ok : forall size a r, 1 <= size -> ~ In 0 a ->
  hashsimple size (a ++ 0 :: r) = Ok (hsh size a) /\ hsh size a < size.
Proof.
  intros size a r Hs Ha. unfold hsh, hashsimple.
  destruct (hash_loop_ok a 0%N r [] Ha) as (v & E & E'). rewrite E, E'. cbn [obind].
  destruct (Nat.eqb_spec size 0); [lia|]. split; auto.
  pose proof (N.mod_lt v (N.of_nat size) ltac:(lia)). lia.
Qed.

(** The table represents the list [A] of pairs (key, twelve bytes), the newest
    first. *)
Definition aentry : Type := (list nat * list N)%type.
Definition afind (k : list nat) (A : list aentry) : option (list N) :=
  option_map snd (find (fun p => leqb k (fst p)) A).
Definition goodA (A : list aentry) : Prop :=
  Forall (fun p => ~ In 0 (fst p) /\ length (snd p) = 12) A.
Definition bucket (size v : nat) (A : list aentry) : list cpair :=
  map (fun p => (fst p ++ [0], snd p)) (filter (fun p => hsh size (fst p) =? v) A).
Definition rep (ht : htab) (A : list aentry) : Prop :=
  1 <= ht_size ht /\ goodA A /\
  ht_table ht = tab (ht_size ht) (fun v => bucket (ht_size ht) v A).

Lemma create_rep : forall size, 1 <= size ->
  exists ht, create_hashtable size = Some ht /\ ht_size ht = size /\ rep ht [].
Proof.
  intros size H. unfold create_hashtable. destruct (Nat.ltb_spec size 1); [lia|].
  eexists. split; [reflexivity|]. split; [reflexivity|].
  split; [auto|]. split; [constructor|]. reflexivity.
Qed.

Lemma rd12 : forall b rest, length b = 12 -> rd (b ++ rest) 0 (szI + sz8) = Ok (b, 12).
Proof.
  intros b rest L. change (szI + sz8) with 12. unfold rd. cbn [Nat.add skipn].
  rewrite app_length. destruct (Nat.leb_spec 12 (length b + length rest)); [|lia].
  rewrite firstn_app, L, Nat.sub_diag, firstn_all2 by lia. cbn [firstn]. now rewrite app_nil_r.
Qed.

Lemma rd12' : forall b, length b = 12 -> rd b 0 (szI + sz8) = Ok (b, 12).
Proof. intros b L. pose proof (rd12 b [] L) as H. now rewrite app_nil_r in H. Qed.

Lemma lookup_list_ok : forall size v k A r, ~ In 0 k -> goodA A -> hsh size k = v ->
  lookup_list (k ++ 0 :: r) (bucket size v A) = Ok (afind k A).
Proof.
  intros size v k A r Hk G Hv. induction G as [|(a, b) A (Ha & Hb) _ IH]; auto.
  cbn [fst snd] in Ha, Hb. unfold bucket, afind in *. cbn [filter find fst].
  destruct (Nat.eqb_spec (hsh size a) v) as [E|E].
  - cbn [map fst snd lookup_list]. rewrite streq_ok by auto. cbn [obind].
    destruct (leqb k a); [|exact IH]. rewrite rd12' by auto. auto.
  - destruct (leqb k a) eqn:L; [|exact IH]. apply leqb_eq in L. congruence.
Qed.

Lemma lookup_ok : forall ht A k r, rep ht A -> ~ In 0 k -> lookup_key ht (k ++ 0 :: r) = Ok (afind k A).
Proof.
  intros ht A k r (S1 & G & T) Hk. unfold lookup_key.
  destruct (hashsimple_ok (ht_size ht) k r S1 Hk) as (E & L). rewrite E. cbn [obind].
  rewrite T. unfold aget. rewrite nth_error_tab by auto. cbn [obind].
  apply lookup_list_ok; auto.
Qed.

Lemma cpair_create_ok : forall a r b rest, ~ In 0 a -> length b = 12 ->
  cpair_create (a ++ 0 :: r) (b ++ rest) = Ok (a ++ [0], b).
Proof.
  intros a r b rest Ha Hb. unfold cpair_create. rewrite cstrlen_ok by auto. cbn [obind].
  unfold mread. rewrite app_length. cbn [length skipn Nat.add].
  destruct (Nat.leb_spec (length a) (length a + S (length r))); [|lia]. cbn [obind].
  rewrite rd12 by auto. cbn [obind]. rewrite firstn_app, Nat.sub_diag, firstn_all.
  cbn [firstn]. now rewrite app_nil_r.
Qed.

Lemma add_ok : forall ht A k b r rest, rep ht A -> ~ In 0 k -> length b = 12 ->
  exists ht' c, add_cpair ht (k ++ 0 :: r, b ++ rest) = Ok (ht', c) /\ ht_size ht' = ht_size ht /\
    match afind k A with
    | Some _ => c = 2 /\ ht' = ht
    | None => c = 0 /\ rep ht' ((k, b) :: A)
    end.
Proof.
  intros ht A k b r rest R Hk Hb. pose proof R as (S1 & G & T). unfold add_cpair. cbn [fst snd].
  destruct (hashsimple_ok (ht_size ht) k r S1 Hk) as (E & L). rewrite E. cbn [obind].
  rewrite (lookup_ok ht A k r R Hk). cbn [obind]. destruct (afind k A) eqn:F.
  - exists ht, 2. auto.
  - rewrite cpair_create_ok by auto. cbn [obind].
    assert (Lt : length (ht_table ht) = ht_size ht) by (rewrite T; apply tab_length).
    rewrite T. unfold aget at 1. rewrite nth_error_tab by auto. cbn [obind].
    rewrite aset_ok by (rewrite tab_length; auto). cbn [obind].
    eexists. exists 0. split; [reflexivity|]. cbn [ht_size]. split; [auto|]. split; [auto|].
    split; [auto|]. cbn [ht_size ht_table]. split; [constructor; auto|].
    apply nth_error_ext; [rewrite upd_length, !tab_length; auto|]. intros i Hi.
    rewrite upd_length, tab_length in Hi.
    rewrite nth_error_tab by auto. rewrite nth_error_upd by (rewrite tab_length; auto).
    destruct (Nat.eq_dec (hsh (ht_size ht) k) i) as [<-|N].
    + rewrite Nat.eqb_refl. unfold bucket. cbn [filter fst]. rewrite Nat.eqb_refl. reflexivity.
    + unfold bucket at 3. cbn [filter fst]. destruct (Nat.eqb_spec (hsh (ht_size ht) k) i); [congruence|].
      now rewrite nth_error_tab.
Qed.

Lemma NoDup_app_one : forall {A} (l : list A) a, NoDup l -> ~ In a l -> NoDup (l ++ [a]).
Proof.
  intros A l a H N. induction H as [|b l Hb _ IH]; cbn; [constructor; auto; constructor|].
  constructor.
  - rewrite in_app_iff. cbn. intros [C|[C|[]]]; [auto|]. apply N. left. auto.
  - apply IH. intros C. apply N. right. auto.
Qed.

Lemma nstored_ok : forall ht A, rep ht A -> nstored ht = Ok (length A).
Proof.
  intros ht A (S1 & G & T). unfold nstored.
  match goal with |- for_ ?n ?B ?S0 = _ =>
    destruct (for_inv (fun i s => s = length (filter (fun p => hsh (ht_size ht) (fst p) <? i) A)) B n S0)
      as (r & E & HI); [| |rewrite E, HI] end.
  - clear. induction A as [|(a, b) A IH]; auto.
  - intros i s Hi ->. rewrite T. unfold aget. rewrite nth_error_tab by auto. cbn [obind].
    eexists. split; [reflexivity|]. unfold bucket. rewrite map_length. clear.
    induction A as [|(a, b) A IH]; auto. cbn [filter fst].
    destruct (Nat.ltb_spec (hsh (ht_size ht) a) i), (Nat.eqb_spec (hsh (ht_size ht) a) i),
      (Nat.ltb_spec (hsh (ht_size ht) a) (S i)); try lia; cbn [length]; lia.
  - f_equal. clear - G S1. induction G as [|(a, b) A (Ha & Hb) _ IH]; auto. cbn [filter fst].
    destruct (hashsimple_ok (ht_size ht) a [] S1 Ha) as (_ & L).
    destruct (Nat.ltb_spec (hsh (ht_size ht) a) (ht_size ht)); [|lia]. cbn [length]. now rewrite IH.
Qed.

(** The monitor. *)
Definition text (d : nat) (x : list dbl) := darray_text d x.
Definition ents (f : list dbl -> dbl) (d : nat) (A : list aentry) (cs : list (list dbl)) : Prop :=
  Forall2 (fun p x => text d x = Ok (Some (fst p ++ [0])) /\ ser_packed (f x) = Ok (snd p))
    A (rev cs).

Lemma ents_find : forall f d A cs t, ents f d A cs ->
  match afind t A with
  | Some b => exists y, In y cs /\ text d y = Ok (Some (t ++ [0])) /\ ser_packed (f y) = Ok b
  | None => forall y, In y cs -> text d y <> Ok (Some (t ++ [0]))
  end.
Proof.
  unfold ents. intros f d A cs t H.
  assert (G : match afind t A with
  | Some b => exists y, In y (rev cs) /\ text d y = Ok (Some (t ++ [0])) /\ ser_packed (f y) = Ok b
  | None => forall y, In y (rev cs) -> text d y <> Ok (Some (t ++ [0]))
  end).
  { induction H as [|(a, b) x A l (T & S) _ IH]; [intros y []|].
    unfold afind in *. cbn [find fst]. cbn [fst snd] in T, S. destruct (leqb t a) eqn:L.
    - apply leqb_eq in L. subst a. cbn. exists x. auto.
    - destruct (option_map snd (find _ A)) eqn:F.
      + destruct IH as (y & I & IH). exists y. cbn. auto.
      + intros y [<-|I]; [|auto]. rewrite T. intros C. injection C as C. apply app_inj_tail in C as [C _].
        subst a. now rewrite leqb_refl in L. }
  destruct (afind t A).
  - destruct G as (y & I & G). exists y. split; [now apply in_rev in I|auto].
  - intros y I. apply G. now apply in_rev in I.
Qed.

Lemma mon_run_app : forall f xs fm ys, mon_run f fm (xs ++ ys) =
  do (vs, fm, cs) <- mon_run f fm xs; do (vs', fm, cs') <- mon_run f fm ys;
  Ok (vs ++ vs', fm, cs ++ cs').
Proof.
  intros f xs. induction xs as [|x xs IH]; intros fm ys; cbn [app mon_run].
  - cbn [obind]. destruct (mon_run f fm ys) as [((?, ?), ?)| | |]; reflexivity.
  - destruct (mon_eval f fm x) as [((v, fm'), c)| | |]; cbn [obind]; auto.
    rewrite IH. destruct (mon_run f fm' xs) as [((vs, fm2), cs)| | |]; cbn [obind]; auto.
    destruct (mon_run f fm2 ys) as [((vs', fm3), cs')| | |]; cbn [obind]; auto.
    now rewrite <- !app_assoc.
Qed.

(** [y] is the first point of [xs] with the text of [x], at index [j]. *)
Definition first_like (d : nat) (xs : list (list dbl)) (x : list dbl) (j : nat) (y : list dbl) : Prop :=
  nth_error xs j = Some y /\ text d y = text d x /\
  forall k z, k < j -> nth_error xs k = Some z -> text d z <> text d x.

Lemma first_like_app : forall d xs ys x j y, first_like d xs x j y -> first_like d (xs ++ ys) x j y.
Proof.
  intros d xs ys x j y (A & B & C).
  assert (j < length xs) by (apply nth_error_Some; congruence).
  split; [rewrite nth_error_app1; auto|]. split; auto. intros k z Hk. rewrite nth_error_app1 by lia. eauto.
Qed.

Lemma mon_run_ok : forall f d size xs, 1 <= d -> 1 <= size ->
  Forall (fun x => point d x /\ dvalid (f x) /\ dfinite (f x) = true) xs ->
  exists vs ht cs A,
    mon_run f (mon_init d size) xs = Ok (vs, {| fm_dim := d; fm_evals := Some ht |}, cs) /\
    rep ht A /\ ents f d A cs /\
    length vs = length xs /\
    (forall i x v, nth_error xs i = Some x -> nth_error vs i = Some v ->
       exists j y, j <= i /\ first_like d xs x j y /\
         v = if j =? i then f x else poszero (f y)) /\
    (forall y, In y cs <-> exists j, first_like d xs y j y) /\
    NoDup (map (text d) cs).
Proof.
  intros f d size xs Hd Hs H. induction xs as [|x xs IH] using rev_ind.
  - destruct (create_rep size Hs) as (ht & E & _ & R).
    exists [], ht, [], []. unfold mon_init. rewrite E. split; [reflexivity|]. split; [auto|].
    split; [constructor|]. split; [auto|]. split.
    { intros i x v Hx. destruct i; discriminate. }
    split; [|constructor]. intros y. split; [intros []|].
    intros (j & C & _). destruct j; discriminate.
  - apply Forall_app in H as (H & Hx). inversion Hx as [|? ? (Px & Vx & Fx) _]; subst. clear Hx.
    destruct (IH H) as (vs & ht & cs & A & E & R & En & L & F2 & F3 & ND). clear IH.
    rewrite mon_run_app, E. cbn [obind mon_run].
    destruct (darray_text_point d x Hd Px) as (t & T & Nt).
    unfold mon_eval. cbn [fm_dim fm_evals]. rewrite T. cbn [obind].
    rewrite (lookup_ok ht A t [] R Nt). cbn [obind].
    pose proof (ents_find f d A cs t En) as EF.
    assert (LX : nth_error (xs ++ [x]) (length xs) = Some x)
      by (rewrite nth_error_app2, Nat.sub_diag; auto).
    destruct (afind t A) as [b|] eqn:AF.
    + destruct EF as (y & Iy & Ty & By).
      pose proof Iy as Iy'. apply F3 in Iy' as (j & Fj).
      assert (Hy : dvalid (f y) /\ dfinite (f y) = true).
      { rewrite Forall_forall in H. destruct Fj as (Nj & _). apply nth_error_In in Nj. apply H in Nj. tauto. }
      destruct (packed_roundtrip (f y) (proj1 Hy) (proj2 Hy)) as (b' & B1 & B2 & B3).
      rewrite By in B1. injection B1 as <-. specialize (B3 []). rewrite app_nil_r in B3.
      rewrite B3. cbn [obind app]. rewrite !app_nil_r.
      eexists _, ht, cs, A. split; [reflexivity|]. split; [auto|]. split; [auto|].
      assert (Tyx : text d y = text d x) by (unfold text in *; congruence).
      assert (Fjx : first_like d (xs ++ [x]) x j y).
      { apply first_like_app. destruct Fj as (N1 & _ & N3). split; [auto|]. split; [auto|].
        intros k z Hk Hz. rewrite <- Tyx. eauto. }
      assert (jl : j < length xs) by (apply nth_error_Some; destruct Fj; congruence).
      split; [rewrite !app_length; cbn; lia|]. split; [|split; auto].
      * intros i x0 v Hi Hv. destruct (Nat.lt_ge_cases i (length xs)) as [Li|Li].
        { rewrite nth_error_app1 in Hi, Hv by lia. destruct (F2 i x0 v Hi Hv) as (j0 & y0 & J1 & J2 & J3).
          exists j0, y0. split; [auto|]. split; auto. now apply first_like_app. }
        assert (i = length xs).
        { assert (i < length (xs ++ [x])) by (apply nth_error_Some; congruence).
          rewrite app_length in *. cbn in *. lia. }
        subst i. rewrite LX in Hi. injection Hi as <-.
        rewrite nth_error_app2, L, Nat.sub_diag in Hv by lia. cbn in Hv. injection Hv as <-.
        exists j, y. split; [lia|]. split; [auto|]. destruct (Nat.eqb_spec j (length xs)); [lia|auto].
      * intros z. rewrite F3. split.
        { intros (k & Fk). exists k. now apply first_like_app. }
        intros (k & N1 & _ & N3). destruct (Nat.lt_ge_cases k (length xs)) as [Lk|Lk].
        { exists k. rewrite nth_error_app1 in N1 by auto. split; [auto|]. split; auto.
          intros k' z' Hk' Hz'. apply (N3 k'); auto. rewrite nth_error_app1; auto. lia. }
        assert (k = length xs).
        { assert (k < length (xs ++ [x])) by (apply nth_error_Some; congruence).
          rewrite app_length in *. cbn in *. lia. }
        subst k. rewrite LX in N1. injection N1 as <-. exfalso.
        apply (N3 j y); auto. rewrite nth_error_app1 by auto. now destruct Fj.
    + destruct (packed_roundtrip (f x) Vx Fx) as (b & B1 & B2 & B3). rewrite B1. cbn [obind].
      pose proof (cpair_create_ok t [] b [] Nt B2) as CC. rewrite app_nil_r in CC. rewrite CC. cbn [obind].
      destruct (add_ok ht A t b [] [] R Nt B2) as (ht' & c & AE & _ & AR). rewrite app_nil_r in AE.
      rewrite AE, AF in *. cbn [obind]. destruct AR as (-> & R').
      cbn [app]. eexists _, ht', (cs ++ [x]), ((t, b) :: A). split; [reflexivity|]. split; [auto|].
      split. { unfold ents. rewrite rev_app_distr. constructor; auto. }
      assert (New : forall k z, nth_error xs k = Some z -> text d z <> text d x).
      { intros k z Hz C.
        assert (Lk : k < length vs) by (rewrite L; apply nth_error_Some; congruence).
        destruct (nth_error vs k) as [v|] eqn:Ev; [|apply nth_error_None in Ev; lia].
        destruct (F2 k z v Hz Ev) as (j0 & y0 & J1 & J2 & _).
        assert (I0 : In y0 cs).
        { apply F3. exists j0. destruct J2 as (N1 & N2 & N3). split; [auto|]. split; [auto|].
          intros k' z' Hk' Hz'. rewrite N2. eauto. }
        apply (EF y0 I0). destruct J2 as (_ & N2 & _). unfold text in *. congruence. }
      assert (Fx' : first_like d (xs ++ [x]) x (length xs) x).
      { split; [auto|]. split; [auto|]. intros k z Hk. rewrite nth_error_app1 by auto. apply New. }
      split; [rewrite !app_length; cbn; lia|]. split; [|split].
      * intros i x0 v Hi Hv. destruct (Nat.lt_ge_cases i (length xs)) as [Li|Li].
        { rewrite nth_error_app1 in Hi, Hv by lia. destruct (F2 i x0 v Hi Hv) as (j0 & y0 & J1 & J2 & J3).
          exists j0, y0. split; [auto|]. split; auto. now apply first_like_app. }
        assert (i = length xs).
        { assert (i < length (xs ++ [x])) by (apply nth_error_Some; congruence).
          rewrite app_length in *. cbn in *. lia. }
        subst i. rewrite LX in Hi. injection Hi as <-.
        rewrite nth_error_app2, L, Nat.sub_diag in Hv by lia. cbn in Hv. injection Hv as <-.
        exists (length xs), x. split; [lia|]. split; [auto|]. now rewrite Nat.eqb_refl.
      * intros z. rewrite in_app_iff, F3. split.
        { intros [(k & Fk)|[<-|[]]]; [exists k; now apply first_like_app|eauto]. }
        intros (k & N1 & _ & N3). destruct (Nat.lt_ge_cases k (length xs)) as [Lk|Lk].
        { left. exists k. rewrite nth_error_app1 in N1 by auto. split; [auto|]. split; auto.
          intros k' z' Hk' Hz'. apply (N3 k'); auto. rewrite nth_error_app1; auto. lia. }
        assert (k = length xs).
        { assert (k < length (xs ++ [x])) by (apply nth_error_Some; congruence).
          rewrite app_length in *. cbn in *. lia. }
        subst k. rewrite LX in N1. injection N1 as <-. right. left. auto.
      * rewrite map_app. cbn [map]. apply NoDup_app_one; auto.
        intros C. apply in_map_iff in C as (y & Ey & Iy). apply F3 in Iy as (k & Nk & _).
        apply (New k y); auto.
Qed.
