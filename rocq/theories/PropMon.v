(** C21: the function monitor; C61: its hash table. *)
From Verif Require Import Base BaseFacts StrModel SerModel PackModel PackFacts PropPack MonModel MonText MonFacts.
From Coq Require Import NArith ZArith.

(** A sequence of insertions, with the return codes. *)
Fixpoint add_all (ht : htab) (l : list cpair) : outcome (htab * list nat) :=
  match l with
  | [] => Ok (ht, [])
  | p :: t => do (ht, c) <- add_cpair ht p; do (ht, cs) <- add_all ht t; Ok (ht, c :: cs)
  end.

(** A pair of a C string and a block with at least 12 bytes. *)
Definition is_pair (k : list nat) (b : list N) (p : cpair) : Prop :=
  ~ In 0 k /\ length b = 12 /\ exists r rest, p = (k ++ 0 :: r, b ++ rest).

Lemma first_find : forall k (l : list (list nat * list N)),
  match afind k l with
  | Some b => exists l1 l2, l = l1 ++ (k, b) :: l2 /\ ~ In k (map fst l1)
  | None => ~ In k (map fst l)
  end.
Proof.
  intros k l. unfold afind. induction l as [|(a, b) l IH]; cbn [find fst]; [intros []|].
  destruct (leqb k a) eqn:E.
  - apply leqb_eq in E. subst a. cbn. exists [], l. auto.
  - assert (a <> k) by (intros ->; rewrite leqb_refl in E; discriminate).
    destruct (option_map snd (find _ l)) eqn:F.
    + destruct IH as (l1 & l2 & -> & N). exists ((a, b) :: l1), l2. split; auto.
      cbn. intros [C|C]; auto.
    + cbn. intros [C|C]; auto.
Qed.

(** What the table holds after the insertions: [A] is any list with the same
    finds as the list of insertions, without repeated keys. *)
Lemma add_all_ok : forall kbs ps ht A, rep ht A -> NoDup (map fst A) ->
  Forall2 (fun kb p => is_pair (fst kb) (snd kb) p) kbs ps ->
  exists ht' cs A', add_all ht ps = Ok (ht', cs) /\ rep ht' A' /\ NoDup (map fst A') /\
    (forall k, afind k A' = match afind k A with Some b => Some b | None => afind k kbs end) /\
    (forall k, In k (map fst A') <-> In k (map fst A) \/ In k (map fst kbs)) /\
    length cs = length kbs /\
    (forall i k b, nth_error kbs i = Some (k, b) ->
       nth_error cs i = Some (if in_dec (list_eq_dec Nat.eq_dec) k (map fst A ++ map fst (firstn i kbs))
                              then 2 else 0)).
Proof.
  intros kbs ps ht A R ND H. revert ht A R ND.
  induction H as [|(k, b) p kbs ps (Hk & Hb & r & rest & ->) _ IH]; intros ht A R ND.
  - exists ht, [], A. split; [auto|]. split; [auto|]. split; [auto|]. split.
    { intros k. destruct (afind k A); auto. }
    split; [cbn; tauto|]. split; [auto|]. intros [|i]; discriminate.
  - cbn [fst snd] in *. cbn [add_all].
    destruct (add_ok ht A k b r rest R Hk Hb) as (ht1 & c & E & _ & D). rewrite E. cbn [obind].
    pose proof (first_find k A) as FF.
    assert (X : exists A1, rep ht1 A1 /\ NoDup (map fst A1) /\
      (forall k', afind k' A1 = match afind k' A with Some b' => Some b' | None => afind k' [(k, b)] end) /\
      (forall k', In k' (map fst A1) <-> In k' (map fst A) \/ k' = k) /\
      c = if in_dec (list_eq_dec Nat.eq_dec) k (map fst A) then 2 else 0).
    { destruct (afind k A) as [b0|] eqn:F.
      - destruct D as (-> & ->). exists A. destruct FF as (l1 & l2 & EA & _).
        assert (IA : In k (map fst A)) by (rewrite EA, map_app; apply in_or_app; right; left; auto).
        split; [auto|]. split; [auto|]. split.
        { intros k'. destruct (afind k' A) eqn:F'; auto. unfold afind. cbn [find fst].
          destruct (leqb k' k) eqn:Ek; auto. apply leqb_eq in Ek. congruence. }
        split; [|destruct in_dec; tauto]. intros k'. split; [auto|]. intros [?| ->]; auto.
      - destruct D as (-> & R1). exists ((k, b) :: A). split; [auto|].
        split; [constructor; auto|]. split.
        { intros k'. unfold afind in *. cbn [find fst].
          destruct (leqb k' k) eqn:Ek; [apply leqb_eq in Ek; subst k'; rewrite F; auto|].
          match goal with |- context [option_map snd ?X] => destruct (option_map snd X) end; auto. }
        split; [|destruct in_dec; tauto]. intros k'. cbn. intuition. }
    destruct X as (A1 & R1 & ND1 & F1 & I1 & ->).
    destruct (IH ht1 A1 R1 ND1) as (ht2 & cs & A2 & E2 & R2 & ND2 & F2 & I2 & L2 & C2).
    rewrite E2. cbn [obind]. eexists ht2, _, A2. split; [reflexivity|]. split; [auto|]. split; [auto|].
    split.
    { intros k'. rewrite F2, F1. destruct (afind k' A); auto.
      unfold afind. cbn [find fst]. destruct (leqb k' k); auto. }
    split; [intros k'; rewrite I2, I1; cbn; intuition|].
    split; [cbn; auto|]. intros [|i] k' b'; cbn [nth_error].
    + intros EE. injection EE as <- <-. cbn [firstn map]. now rewrite app_nil_r.
    + intros EE. transitivity (nth_error cs i); [reflexivity|]. rewrite (C2 i k' b' EE). f_equal.
      destruct (in_dec _ k' (map fst A1 ++ _)) as [Y|Y]; destruct (in_dec _ k' (map fst A ++ _)) as [Y'|Y']; auto; exfalso;
        rewrite in_app_iff in Y, Y'; cbn [firstn map In fst] in Y, Y'.
      * apply Y'. destruct Y as [Y|?]; [apply I1 in Y as [?|?]|]; auto.
      * apply Y. destruct Y' as [?|[?|?]]; [left; apply I1|left; apply I1|]; auto.
Qed.

(** The hash table is a finite map: whatever the insertions, a key holds the
    value it was first inserted with; an insertion returns 0 if the key is new and
    2 otherwise; the number of stored pairs is the number of distinct keys. *)
Theorem C61_table : forall size kbs ps, 1 <= size ->
  Forall2 (fun kb p => is_pair (fst kb) (snd kb) p) kbs ps ->
  exists ht0 ht cs, create_hashtable size = Some ht0 /\ add_all ht0 ps = Ok (ht, cs) /\
    (forall k r, ~ In 0 k ->
       (exists b l1 l2, lookup_key ht (k ++ 0 :: r) = Ok (Some b) /\
          kbs = l1 ++ (k, b) :: l2 /\ ~ In k (map fst l1)) \/
       (lookup_key ht (k ++ 0 :: r) = Ok None /\ ~ In k (map fst kbs))) /\
    length cs = length kbs /\
    (forall i k b, nth_error kbs i = Some (k, b) ->
       nth_error cs i = Some 2 /\ In k (map fst (firstn i kbs)) \/
       nth_error cs i = Some 0 /\ ~ In k (map fst (firstn i kbs))) /\
    exists keys, NoDup keys /\ (forall k, In k keys <-> In k (map fst kbs)) /\
      nstored ht = Ok (length keys).
Proof.
  intros size kbs ps Hs H. destruct (create_rep size Hs) as (ht0 & E0 & _ & R0).
  destruct (add_all_ok kbs ps ht0 [] R0 ltac:(constructor) H)
    as (ht & cs & A & E & R & ND & F & I & L & C).
  exists ht0, ht, cs. split; [auto|]. split; [auto|]. split.
  { intros k r Hk. rewrite (lookup_ok ht A k r R Hk), F. cbn [afind find option_map].
    pose proof (first_find k kbs) as FF. destruct (afind k kbs) as [b|]; [left|right; auto].
    destruct FF as (l1 & l2 & ? & ?). exists b, l1, l2. auto. }
  split; [auto|]. split.
  { intros i k b Hi. rewrite (C i k b Hi). cbn [map app]. destruct in_dec; auto. }
  exists (map fst A). split; [auto|]. split.
  { intros k. rewrite I. cbn. tauto. }
  rewrite map_length. now apply nstored_ok.
Qed.
Print Assumptions C61_table.

Definition b12 (x : N) : list N := repeat x 12.
(** Two keys in the same list of a table of size 2, one of them inserted twice. *)
Example C61_table_case :
  hashsimple 2 [97; 0] = hashsimple 2 [99; 0] /\
  exists ht0 ht, create_hashtable 2 = Some ht0 /\
    add_all ht0 [([97; 0; 7], b12 1 ++ [5%N]); ([99; 0], b12 2); ([97; 0], b12 3); ([98; 98; 0], b12 4)]
      = Ok (ht, [0; 0; 2; 0]) /\
    lookup_key ht [97; 0] = Ok (Some (b12 1)) /\ lookup_key ht [99; 0] = Ok (Some (b12 2)) /\
    lookup_key ht [98; 0] = Ok None /\ nstored ht = Ok 3.
Proof.
  split; [vm_compute; reflexivity|]. eexists. eexists. split; [reflexivity|].
  split; [vm_compute; reflexivity|]. split; [vm_compute; reflexivity|].
  split; [vm_compute; reflexivity|]. split; [vm_compute; reflexivity|]. vm_compute; reflexivity.
Qed.

(** No table of size 0: the monitor then dereferences NULL. *)
Theorem C21_no_table : forall f d x, 1 <= d -> point d x ->
  mon_eval f (mon_init d 0) x = UB.
Proof.
  intros f d x Hd P. unfold mon_eval. cbn [mon_init fm_dim fm_evals].
  destruct (darray_text_point d x Hd P) as (t & E & _). rewrite E. reflexivity.
Qed.
Print Assumptions C21_no_table.

(** A point: its coordinates are finite doubles. *)
Definition ok_point (f : list dbl -> dbl) (d : nat) (x : list dbl) : Prop :=
  length x = d /\ Forall (fun v => dvalid v /\ dfinite v = true) x /\
  dvalid (f x) /\ dfinite (f x) = true.

Lemma ok_points : forall f d xs, Forall (ok_point f d) xs ->
  Forall (fun x => point d x /\ dvalid (f x) /\ dfinite (f x) = true) xs.
Proof. intros f d xs H. eapply Forall_impl; [|exact H]. unfold ok_point, point. tauto. Qed.

(** For every sequence of evaluations, the result is the function's value at the
    first point with the same text as the argument (up to the sign of zero); the
    function is called exactly at the first points of each text, and the table has
    one entry for each of these calls. *)
Theorem C21_by_text : forall f d size xs, 1 <= d -> 1 <= size -> Forall (ok_point f d) xs ->
  exists vs ht cs,
    mon_run f (mon_init d size) xs = Ok (vs, {| fm_dim := d; fm_evals := Some ht |}, cs) /\
    length vs = length xs /\
    (forall i x v, nth_error xs i = Some x -> nth_error vs i = Some v ->
       exists j y, j <= i /\ nth_error xs j = Some y /\ darray_text d y = darray_text d x /\
         (forall k z, k < j -> nth_error xs k = Some z -> darray_text d z <> darray_text d x) /\
         same_dbl v (f y) /\ (f y <> S754_zero true -> v = f y)) /\
    (forall y, In y cs -> In y xs) /\
    (forall x, In x xs -> exists y, In y cs /\ darray_text d y = darray_text d x) /\
    NoDup (map (darray_text d) cs) /\
    nstored ht = Ok (length cs).
Proof.
  intros f d size xs Hd Hs H. apply ok_points in H.
  destruct (mon_run_ok f d size xs Hd Hs H) as (vs & ht & cs & A & E & R & En & L & F2 & F3 & ND).
  exists vs, ht, cs. split; [auto|]. split; [auto|]. split.
  { intros i x v Hx Hv. destruct (F2 i x v Hx Hv) as (j & y & J & (N1 & N2 & N3) & V).
    exists j, y. split; [auto|]. split; [auto|]. split; [auto|]. split; [auto|].
    destruct (Nat.eqb_spec j i) as [->|_].
    - assert (y = x) by congruence. subst. split; [left; auto|auto].
    - subst v. destruct (f y) as [[|]| | |]; cbn; split; try (left; reflexivity); auto.
      + right. eauto.
      + congruence. }
  split. { intros y Iy. apply F3 in Iy as (j & N & _). now apply nth_error_In in N. }
  split.
  { intros x Ix. apply In_nth_error in Ix as (i & Hi).
    destruct (nth_error vs i) as [v|] eqn:Ev.
    2:{ apply nth_error_None in Ev. assert (i < length xs) by (apply nth_error_Some; congruence). lia. }
    destruct (F2 i x v Hi Ev) as (j & y & _ & (N1 & N2 & N3) & _). exists y. split; [|auto].
    apply F3. exists j. split; [auto|]. split; [auto|]. intros k z Hk Hz. rewrite N2. eauto. }
  split; [auto|].
  rewrite (nstored_ok ht A R). f_equal. unfold ents in En. apply Forall2_len in En.
  now rewrite rev_length in En.
Qed.
Print Assumptions C21_by_text.

(** The monitor is transparent for points whose coordinates have at most 49
    significant bits (in particular for all integers up to 2^49 and all single
    precision numbers): every result is the value of the function at the point (up
    to the sign of zero), the function is called exactly once per distinct point
    and the table has one entry per distinct point. *)
Theorem C21_transparent_partial : forall f d size xs, 1 <= d -> 1 <= size ->
  Forall (ok_point f d) xs -> Forall (Forall short) xs ->
  exists vs ht cs,
    mon_run f (mon_init d size) xs = Ok (vs, {| fm_dim := d; fm_evals := Some ht |}, cs) /\
    length vs = length xs /\
    (forall i x v, nth_error xs i = Some x -> nth_error vs i = Some v ->
       same_dbl v (f x) /\ (f x <> S754_zero true -> v = f x)) /\
    NoDup cs /\ (forall x, In x cs <-> In x xs) /\
    nstored ht = Ok (length cs).
Proof.
  intros f d size xs Hd Hs H S.
  destruct (C21_by_text f d size xs Hd Hs H) as (vs & ht & cs & E & L & V & I1 & I2 & ND & NS).
  assert (Inj : forall x y, In x xs -> In y xs -> darray_text d x = darray_text d y -> x = y).
  { rewrite Forall_forall in H, S. intros x y Ix Iy T. pose proof (H x Ix) as Px. pose proof (H y Iy) as Py.
    apply (darray_text_inj d); auto; unfold ok_point, point in *; tauto. }
  exists vs, ht, cs. split; [auto|]. split; [auto|]. split.
  { intros i x v Hx Hv. destruct (V i x v Hx Hv) as (j & y & _ & Hy & T & _ & R).
    assert (y = x) by (apply Inj; auto; eapply nth_error_In; eauto). subst y. auto. }
  split. { eapply NoDup_map_inv; eauto. }
  split; [|auto]. intros x. split; [auto|]. intros Ix. destruct (I2 x Ix) as (y & Iy & T).
  assert (y = x) by (apply Inj; auto). now subst y.
Qed.
Print Assumptions C21_transparent_partial.

Definition d_one : dbl := S754_finite false 4503599627370496 (-52).
Definition d_three : dbl := S754_finite false 6755399441055744 (-51).
(** The sum of the two coordinates. *)
Definition sum2 (x : list dbl) : dbl :=
  match x with [a; b] => dadd a b | _ => d_zero end.

Example C21_hyps : Forall (ok_point sum2 2) [[d_one; d_three]; [d_half; d_one]; [d_one; d_three]; [d_three; d_one]]
  /\ Forall (Forall short) [[d_one; d_three]; [d_half; d_one]; [d_one; d_three]; [d_three; d_one]].
Proof.
  assert (S1 : short d_one) by (exists 1%Z, 52%Z; vm_compute; intuition congruence).
  assert (S2 : short d_half) by (exists 1%Z, 52%Z; vm_compute; intuition congruence).
  assert (S3 : short d_three) by (exists 3%Z, 51%Z; vm_compute; intuition congruence).
  split; repeat constructor; auto.
Qed.
Example C21_run : exists ht, mon_run sum2 (mon_init 2 3)
    [[d_one; d_three]; [d_half; d_one]; [d_one; d_three]; [d_three; d_one]] =
  Ok (map sum2 [[d_one; d_three]; [d_half; d_one]; [d_one; d_three]; [d_three; d_one]],
      {| fm_dim := 2; fm_evals := Some ht |},
      [[d_one; d_three]; [d_half; d_one]; [d_three; d_one]]).
Proof. eexists. vm_compute. reflexivity. Qed.

(** In general it is not: 0.5 and the next double have the same text, and the
    monitor of the identity returns 0.5 for both. *)
Definition d_half_next : dbl := S754_finite false 4503599627370497 (-53).
Definition ident (x : list dbl) : dbl := match x with a :: _ => a | [] => d_zero end.
Theorem C21_refuted : exists f d size xs, 1 <= d /\ 1 <= size /\ Forall (ok_point f d) xs /\
  exists vs fm cs, mon_run f (mon_init d size) xs = Ok (vs, fm, cs) /\
    exists i x v, nth_error xs i = Some x /\ nth_error vs i = Some v /\ ~ same_dbl v (f x).
Proof.
  exists ident, 1, 10, [[d_half]; [d_half_next]].
  split; [lia|]. split; [lia|]. split; [repeat constructor|].
  eexists. eexists. eexists. split; [vm_compute; reflexivity|].
  exists 1, [d_half_next], d_half. split; [reflexivity|]. split; [reflexivity|].
  intros [C|(s & t & C & _)]; discriminate.
Qed.
Print Assumptions C21_refuted.

(** The sign of a zero value is lost when it is recalled. *)
Theorem C21_zero_refuted : exists f d size xs, 1 <= d /\ 1 <= size /\ Forall (ok_point f d) xs /\
  Forall (Forall short) xs /\
  exists vs fm cs, mon_run f (mon_init d size) xs = Ok (vs, fm, cs) /\
    exists i x v, nth_error xs i = Some x /\ nth_error vs i = Some v /\ v <> f x.
Proof.
  exists (fun _ => S754_zero true), 1, 1, [[d_half]; [d_half]].
  assert (S2 : short d_half) by (exists 1%Z, 52%Z; vm_compute; intuition congruence).
  split; [lia|]. split; [lia|]. split; [repeat constructor|]. split; [repeat constructor; auto|].
  eexists. eexists. eexists. split; [vm_compute; reflexivity|].
  exists 1, [d_half], (S754_zero false). split; [reflexivity|]. split; [reflexivity|]. discriminate.
Qed.
Print Assumptions C21_zero_refuted.

(** A value that is not finite cannot be stored: undefined behaviour. *)
Theorem C21_not_finite : forall f d size x, 1 <= d -> 1 <= size -> point d x ->
  dfinite (f x) = false -> mon_eval f (mon_init d size) x = UB.
Proof.
  intros f d size x Hd Hs P F. unfold mon_eval. cbn [mon_init fm_dim fm_evals].
  destruct (darray_text_point d x Hd P) as (t & E & N). rewrite E. cbn [obind].
  destruct (create_rep size Hs) as (ht & Eh & _ & R). rewrite Eh.
  rewrite (lookup_ok ht [] t [] R N). cbn [afind find option_map obind].
  now rewrite (C22_not_finite (f x) F).
Qed.
Print Assumptions C21_not_finite.
