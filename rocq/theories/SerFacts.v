(** Serialization: every writer puts exactly the bytes of one encoding at the
    given offset, every reader inverts it. *)
From Verif Require Import Base BaseFacts SerModel.
From Coq Require Import NArith ZArith.

(** ** Bytes of numbers *)

Lemma le_bytes_length : forall k x, length (le_bytes k x) = k.
Proof. induction k; intros; cbn [le_bytes length]; auto. Qed.

Lemma le_val_bytes : forall k x, (x < 2 ^ (8 * N.of_nat k))%N -> le_val (le_bytes k x) = x.
Proof.
  induction k as [|k IH]; intros x H.
  - cbn in *. lia.
  - cbn [le_bytes le_val]. rewrite IH.
    + pose proof (N.div_mod x 256). lia.
    + apply N.div_lt_upper_bound; [lia|].
      replace (8 * N.of_nat (S k))%N with (8 + 8 * N.of_nat k)%N in H by lia.
      rewrite N.pow_add_r in H. exact H.
Qed.

(** ** Blocks *)

Lemma wr_length : forall buf p v b q,
  wr buf p v = Ok (b, q) -> length b = length buf /\ q = p + length v /\ q <= length b.
Proof.
  unfold wr. intros buf p v b q H. destruct (_ <=? _) eqn:E; [|discriminate].
  apply Nat.leb_le in E. inversion H; subst; clear H.
  rewrite !app_length, firstn_length, skipn_length. lia.
Qed.

(** [e] lies at offset [p]. *)
Definition at_ (buf : list N) (p : nat) (e : list N) : Prop :=
  exists pre post, buf = pre ++ e ++ post /\ length pre = p.

Lemma at_app : forall buf p u v, at_ buf p (u ++ v) -> at_ buf p u /\ at_ buf (p + length u) v.
Proof.
  intros buf p u v (pre & post & -> & <-). split.
  - exists pre, (v ++ post). rewrite <- app_assoc. auto.
  - exists (pre ++ u), post. rewrite app_length, <- !app_assoc. auto.
Qed.

Lemma wr_at : forall buf p v b q, wr buf p v = Ok (b, q) -> at_ b p v.
Proof.
  unfold wr. intros buf p v b q H. destruct (_ <=? _) eqn:E; [|discriminate].
  apply Nat.leb_le in E. inversion H; subst; clear H.
  exists (firstn p buf), (skipn (p + length v) buf). split; auto.
  rewrite firstn_length. lia.
Qed.

Lemma rd_at : forall buf p e n, at_ buf p e -> n = length e -> rd buf p n = Ok (e, p + n).
Proof.
  intros buf p e n (pre & post & -> & <-) ->. unfold rd.
  rewrite !app_length.
  replace (length pre + length e <=? length pre + (length e + length post)) with true
    by (symmetry; apply Nat.leb_le; lia).
  rewrite skipn_app, skipn_all, Nat.sub_diag. cbn [app skipn].
  rewrite firstn_app, firstn_all, Nat.sub_diag. cbn [firstn]. rewrite app_nil_r. auto.
Qed.

Lemma at_le : forall buf p e, at_ buf p e -> p + length e <= length buf.
Proof. intros buf p e (pre & post & -> & <-). rewrite !app_length. lia. Qed.

Lemma wr_bind : forall buf p u v k,
  (forall b q, q <= length b -> k b q = wr b q v) ->
  (do (b, q) <- wr buf p u; k b q) = wr buf p (u ++ v).
Proof.
  intros buf p u v k Hk. unfold wr at 1. destruct (_ <=? _) eqn:E; cbn [obind].
  - apply Nat.leb_le in E. rewrite Hk.
    2:{ rewrite !app_length, firstn_length, skipn_length. lia. }
    unfold wr. rewrite !app_length, firstn_length, skipn_length.
    replace (Nat.min p (length buf)) with p by lia.
    replace (p + (length u + (length buf - (p + length u)))) with (length buf) by lia.
    replace (p + (length u + length v)) with (p + length u + length v) by lia.
    destruct (p + length u + length v <=? length buf) eqn:E2; auto.
    apply Nat.leb_le in E2. do 2 f_equal.
    assert (L : length (firstn p buf) = p) by (rewrite firstn_length; lia).
    rewrite (app_assoc (firstn p buf) u).
    rewrite (firstn_app (p + length u)), app_length, L, Nat.sub_diag. cbn [firstn].
    rewrite firstn_all2 by (rewrite app_length, L; lia).
    rewrite app_nil_r, <- !app_assoc. do 3 f_equal.
    rewrite (app_assoc (firstn p buf) u), skipn_app, app_length, L.
    rewrite skipn_all2 by (rewrite app_length, L; lia). cbn [app].
    replace (p + length u + length v - (p + length u)) with (length v) by lia.
    set (w := p + length u). clear - w.
    rewrite <- (firstn_skipn w buf) at 2. rewrite skipn_app.
    rewrite (skipn_all2 (firstn w buf)) by (rewrite firstn_length; lia). cbn [app].
    rewrite firstn_length.
    destruct (Nat.le_gt_cases w (length buf)).
    + f_equal. lia.
    + rewrite (skipn_all2 buf) by lia. rewrite !skipn_nil. auto.
  - apply Nat.leb_gt in E. unfold wr. rewrite app_length.
    replace (p + (length u + length v) <=? length buf) with false; auto.
    symmetry. apply Nat.leb_gt. lia.
Qed.

Lemma wr_nil : forall buf p, p <= length buf -> Ok (buf, p) = wr buf p [].
Proof.
  intros. unfold wr. cbn [length app]. rewrite Nat.add_0_r.
  apply Nat.leb_le in H. rewrite H, firstn_skipn. auto.
Qed.

(** ** The encodings (specification) *)

Definition fits (n : nat) : Prop := (N.of_nat n < 2 ^ 64)%N.
Definition isdbl (x : N) : Prop := (x < 2 ^ 64)%N.
Definition isint (z : Z) : Prop := (- 2 ^ 31 <= z < 2 ^ 31)%Z.

Definition e_sz (n : nat) : list N := le_bytes 8 (N.of_nat n).
Definition e_dbl (x : N) : list N := le_bytes 8 x.
Definition e_int (z : Z) : list N := le_bytes 4 (Z.to_N (Z.modulo z (2 ^ 32))).
Definition e_dblp (v : list N) : list N := e_sz (length v) ++ flat_map e_dbl v.

Lemma des_sz_at : forall buf p n, at_ buf p (e_sz n) -> fits n ->
  des_sz buf p = Ok (n, p + 8).
Proof.
  intros buf p n H F. unfold des_sz. rewrite (rd_at _ _ _ sz8 H eq_refl). cbn [obind].
  unfold e_sz. rewrite le_val_bytes by exact F. rewrite Nat2N.id. auto.
Qed.

Lemma des_dbl_at : forall buf p x, at_ buf p (e_dbl x) -> isdbl x ->
  des_dbl buf p = Ok (x, p + 8).
Proof.
  intros buf p n H F. unfold des_dbl. rewrite (rd_at _ _ _ sz8 H eq_refl). cbn [obind].
  unfold e_dbl. rewrite le_val_bytes by exact F. auto.
Qed.

Lemma int_of_to : forall z, isint z -> int_of (Z.to_N (Z.modulo z (2 ^ 32))) = z.
Proof.
  unfold isint, int_of. intros z H.
  change (2 ^ 31)%Z with 2147483648%Z in *. change (2 ^ 32)%Z with 4294967296%Z in *.
  change (2 ^ 31)%N with 2147483648%N in *.
  pose proof (Z.mod_pos_bound z 4294967296 ltac:(lia)).
  destruct (Z.neg_nonneg_cases z).
  - assert (E : (z mod 4294967296 = z + 4294967296)%Z)
      by (symmetry; apply Z.mod_unique with (-1)%Z; lia).
    rewrite E. replace (_ <? _)%N with false by (symmetry; apply N.ltb_ge; lia). lia.
  - rewrite Z.mod_small by lia.
    replace (_ <? _)%N with true by (symmetry; apply N.ltb_lt; lia). lia.
Qed.

Lemma des_int_at : forall buf p z, at_ buf p (e_int z) -> isint z ->
  des_int buf p = Ok (z, p + 4).
Proof.
  intros buf p z H F. unfold des_int. rewrite (rd_at _ _ _ szI H eq_refl). cbn [obind].
  unfold e_int. rewrite le_val_bytes, int_of_to by
    (try exact F; pose proof (Z.mod_pos_bound z (2 ^ 32) ltac:(lia));
     change (2 ^ (8 * N.of_nat 4))%N with (Z.to_N (2 ^ 32)); lia).
  auto.
Qed.

Lemma dbytes_flat : forall v, dbytes v = flat_map e_dbl v.
Proof. induction v; cbn [dbytes flat_map]; [auto|]. rewrite IHv. auto. Qed.

Lemma flat_dbl_length : forall v, length (flat_map e_dbl v) = length v * 8.
Proof.
  induction v as [|a v IH]; auto. cbn [flat_map length]. rewrite app_length, IH.
  unfold e_dbl. rewrite le_bytes_length. lia.
Qed.

Lemma undbytes_flat : forall v r, Forall isdbl v ->
  undbytes (length v) (flat_map e_dbl v ++ r) = v.
Proof.
  induction v as [|a v IH]; intros r H; auto. inversion H; subst.
  change (undbytes (length (a :: v)) (flat_map e_dbl (a :: v) ++ r))
    with (le_val (firstn sz8 ((e_dbl a ++ flat_map e_dbl v) ++ r)) ::
          undbytes (length v) (skipn sz8 ((e_dbl a ++ flat_map e_dbl v) ++ r))).
  assert (L : length (e_dbl a) = sz8) by (unfold e_dbl; apply le_bytes_length).
  rewrite <- app_assoc, firstn_app, skipn_app, L, Nat.sub_diag.
  rewrite firstn_all2, skipn_all2 by lia.
  change (skipn 0 (flat_map e_dbl v ++ r)) with (flat_map e_dbl v ++ r).
  change (firstn 0 (flat_map e_dbl v ++ r)) with (@nil N).
  rewrite app_nil_r. cbn [app]. rewrite IH by auto. f_equal. unfold e_dbl. apply le_val_bytes. auto.
Qed.

Lemma ser_dblp_eq : forall buf p v n, n <= length v ->
  ser_dblp buf p v n = wr buf p (e_dblp (firstn n v)).
Proof.
  intros. unfold ser_dblp, e_dblp. rewrite firstn_length, Nat.min_l by auto.
  apply wr_bind. intros b q _. apply Nat.leb_le in H. rewrite H, dbytes_flat. auto.
Qed.

Lemma des_dblp_at : forall buf p v, at_ buf p (e_dblp v) -> fits (length v) ->
  Forall isdbl v ->
  des_dblp buf p = Ok (v, length v, p + length (e_dblp v)).
Proof.
  intros buf p v H F D. unfold des_dblp, e_dblp in *. apply at_app in H as [H1 H2].
  rewrite (des_sz_at _ _ _ H1 F). cbn [obind].
  unfold e_sz in H2 at 1. rewrite le_bytes_length in H2.
  rewrite (rd_at _ _ _ (length v * sz8) H2) by (rewrite flat_dbl_length; auto).
  cbn [obind]. pose proof (undbytes_flat v [] D) as U. rewrite app_nil_r in U. rewrite U.
  rewrite app_length, flat_dbl_length. unfold e_sz. rewrite le_bytes_length.
  do 2 f_equal. unfold sz8. lia.
Qed.

(** ** Sequences *)

Lemma ser_arr_eq : forall A (ser : list N -> nat -> A -> outcome (list N * nat))
    (enc : A -> list N) a n buf p,
  n <= length a -> p <= length buf ->
  (forall x, In x (firstn n a) -> forall b q, ser b q x = wr b q (enc x)) ->
  ser_arr ser buf p a n = wr buf p (flat_map enc (firstn n a)).
Proof.
  intros A ser enc a n. unfold ser_arr.
  cut (forall k buf p, k + n <= length a -> p <= length buf ->
    (forall x, In x (firstn n (skipn k a)) -> forall b q, ser b q x = wr b q (enc x)) ->
    for_from k n (fun i '(b, q) => do x <- aget a i; ser b q x) (buf, p) =
    wr buf p (flat_map enc (firstn n (skipn k a)))).
  { intros H buf p Hn Hp Hx. unfold for_. rewrite H; auto. }
  induction n as [|n IH]; intros k buf p Hn Hp Hx.
  - cbn [for_from firstn flat_map]. apply wr_nil. auto.
  - cbn [for_from].
    destruct (nth_error a k) as [x|] eqn:E.
    2:{ apply nth_error_None in E. lia. }
    assert (S1 : skipn k a = x :: skipn (S k) a).
    { clear - E. revert a E. induction k; intros [|y a] E; cbn in *; try discriminate.
      - congruence.
      - apply IHk in E. cbn in E. auto. }
    unfold aget at 1. rewrite E. cbn [obind].
    rewrite S1 in *. cbn [firstn flat_map] in *.
    rewrite Hx by (left; auto).
    transitivity (do (b, q) <- wr buf p (enc x);
      for_from (S k) n (fun i '(b, q) => do x <- aget a i; ser b q x) (b, q)).
    { destruct (wr buf p (enc x)) as [[? ?]| | |]; auto. }
    apply wr_bind. intros b q Hq. apply IH; auto; [lia|].
    intros; apply Hx; right; auto.
Qed.

Lemma des_arr_at : forall A (des : list N -> nat -> outcome (A * nat))
    (enc : A -> list N) (norm : A -> A) l buf p,
  at_ buf p (flat_map enc l) ->
  (forall x, In x l -> forall q, at_ buf q (enc x) -> des buf q = Ok (norm x, q + length (enc x))) ->
  des_arr des buf p (length l) = Ok (map norm l, p + length (flat_map enc l)).
Proof.
  intros A des enc norm l buf p H Hd. unfold des_arr, for_.
  cut (forall k acc p, at_ buf p (flat_map enc l) ->
    for_from k (length l) (fun _ '(acc, q) => do (x, r) <- des buf q; Ok (acc ++ [x], r))
      (acc, p) = Ok (acc ++ map norm l, p + length (flat_map enc l))).
  { intros C. rewrite C; auto. }
  clear p H. revert Hd.
  induction l as [|x l IH]; intros Hd k acc p H.
  - cbn [length for_from map flat_map]. rewrite app_nil_r, Nat.add_0_r. auto.
  - cbn [length for_from map flat_map] in *. apply at_app in H as [H1 H2].
    rewrite (Hd x) by (auto; left; auto). cbn [obind].
    rewrite IH; auto. 2:{ intros; apply Hd; auto. right; auto. }
    rewrite <- app_assoc, app_length. cbn [app]. do 2 f_equal. lia.
Qed.

Lemma size_arr_eq : forall A (size : A -> outcome nat) (enc : A -> list N) a n s,
  n <= length a ->
  (forall x, In x (firstn n a) -> size x = Ok (length (enc x))) ->
  size_arr size s a n = Ok (s + length (flat_map enc (firstn n a))).
Proof.
  intros A size enc a n s. unfold size_arr, for_.
  cut (forall k s, k + n <= length a ->
    (forall x, In x (firstn n (skipn k a)) -> size x = Ok (length (enc x))) ->
    for_from k n (fun i s => do x <- aget a i; do t <- size x; Ok (s + t)) s =
    Ok (s + length (flat_map enc (firstn n (skipn k a))))).
  { intros H Hn Hx. rewrite H; auto. }
  clear s. induction n as [|n IH]; intros k s Hn Hx.
  - cbn [for_from firstn flat_map length]. f_equal. lia.
  - cbn [for_from].
    destruct (nth_error a k) as [x|] eqn:E.
    2:{ apply nth_error_None in E. lia. }
    assert (S1 : skipn k a = x :: skipn (S k) a).
    { clear - E. revert a E. induction k; intros [|y a] E; cbn in *; try discriminate.
      - congruence.
      - apply IHk in E. cbn in E. auto. }
    unfold aget at 1. rewrite E. cbn [obind].
    rewrite S1 in *. cbn [firstn flat_map] in *.
    rewrite Hx by (left; auto). cbn [obind]. rewrite IH; [| lia | intros; apply Hx; right; auto].
    rewrite app_length. f_equal. lia.
Qed.

(** ** Univariate functions *)

Definition wf_ee (f : elemexp) : Prop :=
  fits (ee_n f) /\ ee_n f <= length (ee_nodes f) /\ ee_n f <= length (ee_coeff f) /\
  Forall isdbl (ee_nodes f) /\ Forall isdbl (ee_coeff f).

Definition e_ee (f : elemexp) : list N :=
  e_sz (ee_n f) ++ e_dblp (firstn (ee_n f) (ee_nodes f)) ++ e_dblp (firstn (ee_n f) (ee_coeff f)).

(** What a reader rebuilds: the same object without spare capacity. *)
Definition n_ee (f : elemexp) : elemexp :=
  {| ee_n := ee_n f; ee_nodes := firstn (ee_n f) (ee_nodes f);
     ee_coeff := firstn (ee_n f) (ee_coeff f) |}.

Lemma Forall_firstn : forall A (P : A -> Prop) n l, Forall P l -> Forall P (firstn n l).
Proof.
  intros A P n l H. rewrite Forall_forall in *. intros x Hx. apply H.
  rewrite <- (firstn_skipn n l). apply in_or_app. auto.
Qed.

Lemma e_sz_length : forall n, length (e_sz n) = 8.
Proof. intros. apply le_bytes_length. Qed.
Lemma e_int_length : forall n, length (e_int n) = 4.
Proof. intros. apply le_bytes_length. Qed.
Lemma e_dbl_length : forall n, length (e_dbl n) = 8.
Proof. intros. apply le_bytes_length. Qed.
Lemma e_dblp_length : forall v, length (e_dblp v) = 8 + length v * 8.
Proof. intros. unfold e_dblp. rewrite app_length, e_sz_length, flat_dbl_length. auto. Qed.

Ltac lens := rewrite ?app_length, ?e_sz_length, ?e_int_length, ?e_dbl_length,
  ?e_dblp_length, ?firstn_length_le by assumption.

Lemma size_ee_eq : forall f, wf_ee f -> size_ee f = Ok (length (e_ee f)).
Proof.
  intros f (F & L1 & L2 & _ & _). unfold size_ee, e_ee. lens. f_equal. unfold sz8. lia.
Qed.

Lemma ser_ee_eq : forall f, wf_ee f -> forall b q, ser_ee b q f = wr b q (e_ee f).
Proof.
  intros f (F & L1 & L2 & _ & _) b q. unfold ser_ee, e_ee.
  apply wr_bind. intros b1 q1 _. rewrite ser_dblp_eq by auto.
  apply wr_bind. intros b2 q2 _. apply ser_dblp_eq. auto.
Qed.

Lemma des_ee_at : forall f, wf_ee f -> forall buf p, at_ buf p (e_ee f) ->
  des_ee buf p = Ok (n_ee f, p + length (e_ee f)).
Proof.
  intros f (F & L1 & L2 & D1 & D2) buf p H. unfold des_ee.
  unfold e_ee in *. apply at_app in H as [H1 H]. apply at_app in H as [H2 H3].
  revert H2 H3. lens. intros.
  rewrite (des_sz_at _ _ _ H1 F). cbn [obind].
  assert (Lf : forall v : list N, ee_n f <= length v -> fits (length (firstn (ee_n f) v)))
    by (intros; rewrite firstn_length_le; auto).
  rewrite (des_dblp_at _ _ _ H2) by (auto using Forall_firstn). cbn [obind].
  lens.
  rewrite (des_dblp_at _ _ _ H3) by (auto using Forall_firstn). cbn [obind].
  lens. unfold n_ee. do 2 f_equal. lia.
Qed.

Definition wf_smap (m : smap) : Prop :=
  sm_map m = SM_LINEAR /\ isint (sm_set m) /\ isdbl (sm_ls m) /\ isdbl (sm_lo m) /\
  isdbl (sm_ils m) /\ isdbl (sm_ilo m).

Definition e_smap (m : smap) : list N :=
  e_int (sm_map m) ++ e_int (sm_set m) ++ e_dbl (sm_ls m) ++ e_dbl (sm_lo m) ++
  e_dbl (sm_ils m) ++ e_dbl (sm_ilo m).

Lemma size_smap_eq : forall f, size_smap f = Ok (length (e_smap f)).
Proof. intros f. unfold size_smap, e_smap. lens. auto. Qed.

Lemma ser_smap_eq : forall f b q, ser_smap b q f = wr b q (e_smap f).
Proof.
  intros f b q. unfold ser_smap, e_smap. unfold ser_int, ser_dbl.
  do 5 (apply wr_bind; intros ? ? _). auto.
Qed.

Lemma des_smap_at : forall m, wf_smap m -> forall buf p, at_ buf p (e_smap m) ->
  des_smap buf p = Ok (m, p + length (e_smap m)).
Proof.
  intros m (M & I & D1 & D2 & D3 & D4) buf p H. unfold des_smap, e_smap in *.
  apply at_app in H as [H1 H]. apply at_app in H as [H2 H]. apply at_app in H as [H3 H].
  apply at_app in H as [H4 H]. apply at_app in H as [H5 H6].
  revert H2 H3 H4 H5 H6. lens. intros.
  rewrite (des_int_at _ _ _ H1) by (rewrite M; split; unfold SM_LINEAR; lia).
  cbn [obind]. rewrite M at 1. cbn [cassert SM_LINEAR Z.eqb obind].
  rewrite (des_int_at _ _ _ H2 I). cbn [obind].
  rewrite (des_dbl_at _ _ _ H3 D1). cbn [obind].
  rewrite (des_dbl_at _ _ _ H4 D2). cbn [obind].
  rewrite (des_dbl_at _ _ _ H5 D3). cbn [obind].
  rewrite (des_dbl_at _ _ _ H6 D4). cbn [obind].
  destruct m. cbn. do 2 f_equal. lia.
Qed.

(** Finite imaginary part, and not a negative zero real part: the only complex
    coefficients the reader's [cr + ci * I] reproduces exactly. *)
Definition wf_cplx (c : N * N) : Prop :=
  isdbl (fst c) /\ isdbl (snd c) /\ dspecial (snd c) = false /\
  (fst c = negzero -> dsign (snd c) = true).

Definition known_poly (t : Z) : Prop :=
  t = LEGENDRE \/ t = CHEBYSHEV \/ t = HERMITE \/ t = FOURIER.

Definition wf_ope (f : ope) : Prop :=
  known_poly (op_ptype f) /\ fits (op_n f) /\ isdbl (op_lb f) /\ isdbl (op_ub f) /\
  (if (op_ptype f =? FOURIER)%Z
   then op_n f <= length (op_ccoeff f) /\ Forall wf_cplx (firstn (op_n f) (op_ccoeff f))
   else op_n f <= length (op_coeff f) /\ Forall isdbl (firstn (op_n f) (op_coeff f))) /\
  wf_smap (op_map f) /\ isint (op_krist f).

Definition e_cplx (c : N * N) : list N := e_dbl (fst c) ++ e_dbl (snd c).

Definition e_ope (f : ope) : list N :=
  e_int (op_ptype f) ++ e_dbl (op_lb f) ++ e_dbl (op_ub f) ++
  (if (op_ptype f =? FOURIER)%Z
   then e_sz (op_n f) ++ flat_map e_cplx (firstn (op_n f) (op_ccoeff f))
   else e_dblp (firstn (op_n f) (op_coeff f))) ++
  e_smap (op_map f) ++ e_int (op_krist f).

Definition n_ope (f : ope) : ope :=
  let fo := (op_ptype f =? FOURIER)%Z in
  {| op_ptype := op_ptype f; op_n := op_n f; op_lb := op_lb f; op_ub := op_ub f;
     op_coeff := if fo then [] else firstn (op_n f) (op_coeff f);
     op_ccoeff := if fo then firstn (op_n f) (op_ccoeff f) else [];
     op_nalloc := op_n f; op_map := op_map f; op_krist := op_krist f |}.

Lemma flat_cplx_length : forall v, length (flat_map e_cplx v) = length v * 16.
Proof.
  induction v as [|a v IH]; auto. cbn [flat_map length]. rewrite app_length, IH.
  unfold e_cplx. lens. lia.
Qed.

Lemma e_smap_length : forall m, length (e_smap m) = 40.
Proof. intros. unfold e_smap. lens. auto. Qed.

Lemma size_ope_eq : forall f, wf_ope f -> size_ope f = Ok (length (e_ope f)).
Proof.
  intros f (K & F & L & U & C & M & KR). unfold size_ope, e_ope.
  rewrite size_smap_eq. cbn [obind]. destruct (op_ptype f =? FOURIER)%Z;
  destruct C as [C1 C2]; rewrite ?app_length, e_smap_length; lens;
  rewrite ?flat_cplx_length, ?firstn_length_le by auto; f_equal; unfold sz8, szI; lia.
Qed.

Lemma ser_cplx_eq : forall c b q, ser_cplx b q c = wr b q (e_cplx c).
Proof. intros. unfold ser_cplx, e_cplx. apply wr_bind. auto. Qed.

Lemma ser_ope_eq : forall f, wf_ope f -> forall b q, ser_ope b q f = wr b q (e_ope f).
Proof.
  intros f (K & F & L & U & C & M & KR) b q. unfold ser_ope, e_ope.
  unfold ser_int, ser_dbl.
  do 3 (apply wr_bind; intros ? ? ?).
  destruct (op_ptype f =? FOURIER)%Z; destruct C as [C1 C2].
  - assert (E : (do (b3, q3) <- ser_sz b2 q2 (op_n f);
                 ser_arr ser_cplx b3 q3 (op_ccoeff f) (op_n f)) =
      wr b2 q2 (e_sz (op_n f) ++ flat_map e_cplx (firstn (op_n f) (op_ccoeff f)))).
    { apply (wr_bind b2 q2 (e_sz (op_n f))).
      intros. apply ser_arr_eq; auto. intros. apply ser_cplx_eq. }
    rewrite E.
    apply wr_bind; intros ? ? ?. rewrite ser_smap_eq. apply wr_bind; intros ? ? ?. auto.
  - rewrite ser_dblp_eq by auto.
    apply wr_bind; intros ? ? ?. rewrite ser_smap_eq. apply wr_bind; intros ? ? ?. auto.
Qed.

Lemma cplx_re_id : forall c, wf_cplx c -> cplx_re (fst c) (snd c) = fst c.
Proof.
  intros c (_ & _ & S & Z). unfold cplx_re. rewrite S.
  destruct (fst c =? negzero)%N eqn:E; auto. apply N.eqb_eq in E. rewrite (Z E). auto.
Qed.

Lemma des_cplx_at : forall c, wf_cplx c -> forall buf p, at_ buf p (e_cplx c) ->
  des_cplx buf p = Ok (c, p + length (e_cplx c)).
Proof.
  intros c W buf p H. pose proof (cplx_re_id c W) as R. destruct W as (D1 & D2 & _).
  unfold des_cplx, e_cplx in *.
  apply at_app in H as [H1 H2]. revert H2. lens. intros.
  rewrite (des_dbl_at _ _ _ H1 D1). cbn [obind].
  rewrite (des_dbl_at _ _ _ H2 D2). cbn [obind]. rewrite R.
  destruct c; cbn. do 2 f_equal. lia.
Qed.

Lemma des_orth_poly_at : forall buf p t, known_poly t -> at_ buf p (e_int t) ->
  des_orth_poly buf p = Ok (Some t).
Proof.
  intros buf p t K H. unfold des_orth_poly. rewrite (des_int_at _ _ _ H).
  - cbn [obind]. destruct K as [->|[->|[->| ->]]]; auto.
  - destruct K as [->|[->|[->| ->]]]; split; unfold LEGENDRE, CHEBYSHEV, HERMITE, FOURIER; lia.
Qed.

Lemma des_ope_at : forall f, wf_ope f -> forall buf p, at_ buf p (e_ope f) ->
  des_ope buf p = Ok (n_ope f, p + length (e_ope f)).
Proof.
  intros f (K & F & L & U & C & M & KR) buf p H. unfold des_ope, e_ope, n_ope in *.
  apply at_app in H as [H1 H]. apply at_app in H as [H2 H]. apply at_app in H as [H3 H].
  apply at_app in H as [H4 H]. apply at_app in H as [H5 H6].
  revert H2 H3 H4 H5 H6. lens. intros.
  rewrite (des_orth_poly_at _ _ _ K H1). cbn [obind]. unfold szI.
  rewrite (des_dbl_at _ _ _ H2 L). cbn [obind].
  rewrite (des_dbl_at _ _ _ H3 U). cbn [obind].
  destruct (op_ptype f =? FOURIER)%Z; destruct C as [C1 C2].
  - apply at_app in H4 as [H4a H4b]. revert H4b. lens. intros.
    rewrite (des_sz_at _ _ _ H4a F). cbn [obind].
    pose proof (des_arr_at _ des_cplx e_cplx (fun c => c)
      (firstn (op_n f) (op_ccoeff f)) buf _ H4b) as A.
    rewrite firstn_length_le in A by auto. rewrite A.
    2:{ intros x Hx r Hr. apply des_cplx_at; auto. rewrite Forall_forall in C2. auto. }
    cbn [obind]. rewrite app_length in H5, H6. revert H5 H6. lens. intros.
    rewrite map_id.
    replace (p + 4 + 8 + 8 + 8 + length (flat_map e_cplx (firstn (op_n f) (op_ccoeff f))))
      with (p + 4 + 8 + 8 + (8 + length (flat_map e_cplx (firstn (op_n f) (op_ccoeff f))))) by lia.
    rewrite (des_smap_at _ M _ _ H5). cbn [obind].
    rewrite (des_int_at _ _ _ H6 KR). cbn [obind]. do 2 f_equal. lia.
  - rewrite (des_dblp_at _ _ _ H4) by (try rewrite firstn_length_le; auto).
    cbn [obind]. revert H5 H6. rewrite !e_dblp_length, firstn_length_le by auto. intros.
    rewrite (des_smap_at _ M _ _ H5). cbn [obind].
    rewrite (des_int_at _ _ _ H6 KR). cbn [obind]. do 2 f_equal. lia.
Qed.

(** ** Piecewise polynomials *)

Fixpoint wf_pw (f : pw) : Prop :=
  match f with
  | PLeaf o => wf_ope o
  | PNode nb br =>
      0 < nb /\ nb = length br /\ fits nb /\
      (fix all (l : list pw) : Prop :=
         match l with [] => True | y :: t => wf_pw y /\ all t end) br
  end.

Fixpoint e_pw (f : pw) : list N :=
  match f with
  | PLeaf o => e_int 1 ++ e_ope o
  | PNode nb br => e_int 0 ++ e_sz nb ++ flat_map e_pw br
  end.

Fixpoint n_pw (f : pw) : pw :=
  match f with
  | PLeaf o => PLeaf (n_ope o)
  | PNode nb br => PNode nb (map n_pw br)
  end.

(** Nesting depth. *)
Fixpoint d_pw (f : pw) : nat :=
  match f with
  | PLeaf _ => 1
  | PNode _ br => S (fold_right (fun y m => Nat.max (d_pw y) m) 0 br)
  end.

Section PwInd.
  Variable P : pw -> Prop.
  Hypothesis HL : forall o, P (PLeaf o).
  Hypothesis HN : forall nb br, (forall y, In y br -> P y) -> P (PNode nb br).
  Fixpoint pw_ind' (f : pw) : P f :=
    match f with
    | PLeaf o => HL o
    | PNode nb br =>
        HN nb br
          ((fix go (l : list pw) : forall y, In y l -> P y :=
              match l with
              | [] => fun y H => match H with end
              | x :: t => fun y H =>
                  match H with
                  | or_introl e => match e with eq_refl => pw_ind' x end
                  | or_intror H' => go t y H'
                  end
              end) br)
    end.
End PwInd.

Lemma wf_pw_all : forall nb br, wf_pw (PNode nb br) <->
  0 < nb /\ nb = length br /\ fits nb /\ forall y, In y br -> wf_pw y.
Proof.
  intros nb br. cbn [wf_pw].
  assert (E : (fix all (l : list pw) : Prop :=
         match l with [] => True | y :: t => wf_pw y /\ all t end) br <->
         (forall y, In y br -> wf_pw y)).
  { induction br as [|x t IH]; split.
    - intros _ y [].
    - auto.
    - intros [H1 H2] y [<-|Hy]; auto. apply IH; auto.
    - intros H. split; [apply H; left; auto|]. apply IH. intros; apply H; right; auto. }
  rewrite E. tauto.
Qed.

Lemma size_pw_eq : forall f, wf_pw f -> size_pw f = Ok (length (e_pw f)).
Proof.
  induction f as [o|nb br IH] using pw_ind'; intros W.
  - cbn [size_pw e_pw wf_pw] in *. rewrite size_ope_eq by auto. cbn [obind]. lens. f_equal.
    unfold szI. lia.
  - apply wf_pw_all in W as (W1 & W2 & W3 & W4). cbn [size_pw e_pw].
    destruct br as [|x t]; [cbn in *; lia|].
    rewrite IH by (try apply W4; left; auto). cbn [obind].
    assert (G : forall t' n s, n = length t' ->
      (forall y, In y t' -> size_pw y = Ok (length (e_pw y))) ->
      (fix go (n : nat) (l : list pw) (s : nat) {struct l} : outcome nat :=
               match l, n with
               | _, O => Ok s
               | [], S _ => UB
               | y :: t', S n' => do u <- size_pw y; go n' t' (s + u)
               end) n t' s = Ok (s + length (flat_map e_pw t'))).
    { induction t' as [|y t' IHt]; intros n s Hn Hy.
      - subst n. cbn. f_equal. lia.
      - subst n. cbn [length flat_map]. rewrite Hy by (left; auto). cbn [obind].
        rewrite IHt; auto. 2:{ intros; apply Hy; right; auto. }
        rewrite app_length. f_equal. lia. }
    rewrite G.
    + cbn [obind flat_map]. lens. f_equal. unfold sz8, szI. lia.
    + subst nb. cbn [length]. lia.
    + intros y Hy. apply IH; [|apply W4]; right; auto.
Qed.

Lemma ser_pw_eq : forall f, wf_pw f -> forall b q, ser_pw b q f = wr b q (e_pw f).
Proof.
  induction f as [o|nb br IH] using pw_ind'; intros W b q.
  - cbn [ser_pw e_pw wf_pw] in *. apply wr_bind. intros. apply ser_ope_eq; auto.
  - apply wf_pw_all in W as (W1 & W2 & W3 & W4). cbn [ser_pw e_pw].
    apply wr_bind. intros b1 q1 _. apply wr_bind. intros b2 q2 Hq2.
    clear b q b1 q1 W1 W3. subst nb.
    revert b2 q2 Hq2. induction br as [|x t IHt]; intros b q Hq.
    + cbn. apply wr_nil. auto.
    + cbn [length flat_map]. rewrite IH by (try apply W4; left; auto).
      apply wr_bind. intros b1 q1 Hq1. apply IHt; auto.
      * intros y Hy. apply IH. right; auto.
      * intros y Hy. apply W4. right; auto.
Qed.

Lemma d_pw_in : forall br y, In y br -> d_pw y <= fold_right (fun y m => Nat.max (d_pw y) m) 0 br.
Proof.
  induction br as [|x t IH]; intros y H; [destruct H|]. cbn [fold_right].
  destruct H as [->|H]; [lia|]. apply IH in H. lia.
Qed.

Lemma des_pw_at : forall f, wf_pw f -> forall fuel, d_pw f <= fuel ->
  forall buf p, at_ buf p (e_pw f) ->
  des_pw fuel buf p = Ok (n_pw f, p + length (e_pw f)).
Proof.
  induction f as [o|nb br IH] using pw_ind'; intros W fuel Hf buf p H.
  - destruct fuel as [|fuel]; [cbn in Hf; lia|]. cbn [des_pw e_pw wf_pw] in *.
    apply at_app in H as [H1 H2]. revert H2. lens. intros.
    rewrite (des_int_at _ _ _ H1) by (split; lia). cbn [obind]. cbn [Z.eqb Pos.eqb].
    rewrite (des_ope_at _ W _ _ H2). cbn [obind]. cbn [n_pw]. do 2 f_equal. lia.
  - destruct fuel as [|fuel]; [cbn in Hf; lia|].
    apply wf_pw_all in W as (W1 & W2 & W3 & W4). cbn [des_pw e_pw] in *.
    apply at_app in H as [H1 H]. apply at_app in H as [H2 H3].
    revert H2 H3. lens. intros.
    rewrite (des_int_at _ _ _ H1) by (split; lia). cbn [obind]. cbn [Z.eqb].
    rewrite (des_sz_at _ _ _ H2 W3). cbn [obind].
    rewrite W2 at 1.
    rewrite (des_arr_at _ (des_pw fuel) e_pw n_pw br buf _ H3).
    + cbn [obind n_pw]. do 2 f_equal. lia.
    + intros y Hy r Hr. apply IH; auto. cbn [d_pw] in Hf. apply d_pw_in in Hy. lia.
Qed.

(** ** Kernels *)

Definition wf_kern (k : kern) : Prop :=
  isint (kn_type k) /\ fits (kn_np k) /\ kn_np k <= length (kn_params k) /\
  Forall isdbl (firstn (kn_np k) (kn_params k)).

Definition e_kern (k : kern) : list N :=
  e_int (kn_type k) ++ e_sz (kn_np k) ++ e_dblp (firstn (kn_np k) (kn_params k)).

Definition n_kern (k : kern) : kern :=
  {| kn_type := kn_type k; kn_np := kn_np k; kn_params := firstn (kn_np k) (kn_params k) |}.

Lemma size_kern_eq : forall k, wf_kern k -> size_kern k = Ok (length (e_kern k)).
Proof.
  intros k (T & F & L & D). unfold size_kern, e_kern. lens. f_equal. unfold szI, sz8. lia.
Qed.

Lemma ser_kern_eq : forall k, wf_kern k -> forall b q, ser_kern b q k = wr b q (e_kern k).
Proof.
  intros k (T & F & L & D) b q. unfold ser_kern, e_kern.
  apply wr_bind. intros. apply wr_bind. intros. apply ser_dblp_eq. auto.
Qed.

Lemma des_kern_at : forall k, wf_kern k -> forall buf p, at_ buf p (e_kern k) ->
  des_kern buf p = Ok (n_kern k, p + length (e_kern k)).
Proof.
  intros k (T & F & L & D) buf p H. unfold des_kern, e_kern in *.
  apply at_app in H as [H1 H]. apply at_app in H as [H2 H3]. revert H2 H3. lens. intros.
  rewrite (des_int_at _ _ _ H1 T). cbn [obind].
  rewrite (des_sz_at _ _ _ H2 F). cbn [obind].
  rewrite (des_dblp_at _ _ _ H3) by (try rewrite firstn_length_le; auto). cbn [obind].
  rewrite e_dblp_length, firstn_length_le by auto. unfold n_kern. do 2 f_equal. lia.
Qed.

Definition wf_kexp (k : kexp) : Prop :=
  0 < ke_n k /\ fits (ke_n k) /\ ke_n k <= length (ke_coeff k) /\
  ke_n k <= length (ke_kern k) /\ Forall isdbl (firstn (ke_n k) (ke_coeff k)) /\
  Forall wf_kern (firstn (ke_n k) (ke_kern k)) /\
  isdbl (ke_lb k) /\ isdbl (ke_ub k) /\ fits (ke_incl k).

Definition e_kexp (k : kexp) : list N :=
  e_sz (ke_n k) ++ e_dblp (firstn (ke_n k) (ke_coeff k)) ++
  flat_map e_kern (firstn (ke_n k) (ke_kern k)) ++
  e_dbl (ke_lb k) ++ e_dbl (ke_ub k) ++ e_sz (ke_incl k).

Definition n_kexp (k : kexp) : kexp :=
  {| ke_n := ke_n k; ke_nalloc := ke_n k; ke_coeff := firstn (ke_n k) (ke_coeff k);
     ke_kern := map n_kern (firstn (ke_n k) (ke_kern k));
     ke_lb := ke_lb k; ke_ub := ke_ub k; ke_incl := ke_incl k |}.

Lemma size_kexp_eq : forall k, wf_kexp k -> size_kexp k = Ok (length (e_kexp k)).
Proof.
  intros k (P & F & L1 & L2 & D & K & LB & UB & I). unfold size_kexp, e_kexp.
  apply Nat.ltb_lt in P. rewrite P. cbn [cassert obind].
  rewrite (size_arr_eq _ size_kern e_kern) by
    (auto; intros x Hx; apply size_kern_eq; rewrite Forall_forall in K; auto).
  lens. f_equal. unfold sz8. lia.
Qed.

Lemma ser_kexp_eq : forall k, wf_kexp k -> forall b q, ser_kexp b q k = wr b q (e_kexp k).
Proof.
  intros k W b q. unfold ser_kexp, e_kexp. rewrite size_kexp_eq by auto. cbn [obind].
  destruct W as (P & F & L1 & L2 & D & K & LB & UB & I).
  apply wr_bind. intros. rewrite ser_dblp_eq by auto. apply wr_bind. intros.
  rewrite (ser_arr_eq _ ser_kern e_kern) by
    (auto; intros x Hx; apply ser_kern_eq; rewrite Forall_forall in K; auto).
  do 3 (apply wr_bind; intros). auto.
Qed.

Lemma des_kexp_at : forall k, wf_kexp k -> forall buf p, at_ buf p (e_kexp k) ->
  des_kexp buf p = Ok (n_kexp k, p + length (e_kexp k)).
Proof.
  intros k (P & F & L1 & L2 & D & K & LB & UB & I) buf p H. unfold des_kexp, e_kexp in *.
  apply at_app in H as [H1 H]. apply at_app in H as [H2 H]. apply at_app in H as [H3 H].
  apply at_app in H as [H4 H]. apply at_app in H as [H5 H6].
  revert H2 H3 H4 H5 H6. lens. intros.
  rewrite (des_sz_at _ _ _ H1 F). cbn [obind].
  rewrite (des_dblp_at _ _ _ H2) by (try rewrite firstn_length_le; auto). cbn [obind].
  rewrite e_dblp_length, firstn_length_le by auto.
  pose proof (des_arr_at _ des_kern e_kern n_kern (firstn (ke_n k) (ke_kern k)) buf _ H3) as A.
  rewrite firstn_length_le in A by auto. rewrite A.
  2:{ intros x Hx r Hr. apply des_kern_at; auto. rewrite Forall_forall in K. auto. }
  cbn [obind].
  rewrite (des_dbl_at _ _ _ H4 LB). cbn [obind].
  rewrite (des_dbl_at _ _ _ H5 UB). cbn [obind].
  rewrite (des_sz_at _ _ _ H6 I). cbn [obind]. unfold n_kexp. do 2 f_equal. lia.
Qed.

(** ** Generic functions *)

Definition wf_gfun (f : gfun) : Prop :=
  match f with
  | FPw f => wf_pw f | FPoly f => wf_ope f | FConst f => wf_ee f | FLin f => wf_ee f
  | FKern f => wf_kexp f
  | FNone _ => False
  end.

Definition wf_gf (g : gf) : Prop := fits (g_dim g) /\ wf_gfun (g_f g).

Definition e_gfun (f : gfun) : list N :=
  match f with
  | FPw f => e_pw f | FPoly f => e_ope f | FConst f => e_ee f | FLin f => e_ee f
  | FKern f => e_kexp f
  | FNone _ => []
  end.

Definition n_gfun (f : gfun) : gfun :=
  match f with
  | FPw f => FPw (n_pw f) | FPoly f => FPoly (n_ope f) | FConst f => FConst (n_ee f)
  | FLin f => FLin (n_ee f) | FKern f => FKern (n_kexp f)
  | FNone c => FNone c
  end.

Definition e_gf (g : gf) : list N := e_sz (g_dim g) ++ e_int (fclass (g_f g)) ++ e_gfun (g_f g).
Definition n_gf (g : gf) : gf := {| g_dim := g_dim g; g_f := n_gfun (g_f g) |}.
Definition d_gf (g : gf) : nat := match g_f g with FPw f => d_pw f | _ => 0 end.

Lemma size_gf_eq : forall g, wf_gf g -> size_gf g = Ok (length (e_gf g)).
Proof.
  intros [d f] [F W]. unfold size_gf, e_gf. cbn [g_f g_dim] in *. lens.
  destruct f; cbn [wf_gfun e_gfun] in *;
  rewrite ?size_pw_eq, ?size_ope_eq, ?size_ee_eq, ?size_kexp_eq by auto; cbn [obind]; 
  try contradiction; f_equal; unfold szI, sz8; lia.
Qed.

Lemma ser_gf_eq : forall g, wf_gf g -> forall b q, ser_gf b q g = wr b q (e_gf g).
Proof.
  intros [d f] [F W] b q. unfold ser_gf, e_gf. cbn [g_f g_dim] in *.
  apply wr_bind. intros. apply wr_bind. intros. 
  destruct f; cbn [wf_gfun e_gfun] in *;
  rewrite ?ser_pw_eq, ?ser_ope_eq, ?ser_ee_eq, ?ser_kexp_eq by auto; auto. contradiction.
Qed.

Lemma des_gf_at : forall g, wf_gf g -> forall fuel, d_gf g <= fuel ->
  forall buf p, at_ buf p (e_gf g) ->
  des_gf fuel buf p = Ok (n_gf g, p + length (e_gf g)).
Proof.
  intros [d f] [F W] fuel Hf buf p H. unfold des_gf, e_gf, n_gf, d_gf in *.
  cbn [g_f g_dim] in *.
  apply at_app in H as [H1 H]. apply at_app in H as [H2 H3]. revert H2 H3. lens. intros.
  rewrite (des_sz_at _ _ _ H1 F). cbn [obind].
  rewrite (des_int_at _ _ _ H2) by (destruct f; try contradiction; split; cbn; lia).
  cbn [obind].
  destruct f; cbn [wf_gfun e_gfun n_gfun fclass Z.eqb Pos.eqb] in *; try contradiction.
  - rewrite (des_pw_at _ W _ Hf _ _ H3). cbn [obind]. do 2 f_equal. lia.
  - rewrite (des_ope_at _ W _ _ H3). cbn [obind]. do 2 f_equal. lia.
  - rewrite (des_ee_at _ W _ _ H3). cbn [obind]. do 2 f_equal. lia.
  - rewrite (des_ee_at _ W _ _ H3). cbn [obind]. do 2 f_equal. lia.
  - rewrite (des_kexp_at _ W _ _ H3). cbn [obind]. do 2 f_equal. lia.
Qed.

(** ** Quasimatrices, matrices of functions, trains, arrays of trains *)

Definition wf_qm (a : qmat) : Prop :=
  fits (qm_n a) /\ qm_n a <= length (qm_funcs a) /\ Forall wf_gf (firstn (qm_n a) (qm_funcs a)).
Definition e_qm (a : qmat) : list N := e_sz (qm_n a) ++ flat_map e_gf (firstn (qm_n a) (qm_funcs a)).
Definition n_qm (a : qmat) : qmat :=
  {| qm_n := qm_n a; qm_funcs := map n_gf (firstn (qm_n a) (qm_funcs a)) |}.
Definition d_gfs (l : list gf) : nat := fold_right (fun y m => Nat.max (d_gf y) m) 0 l.

Lemma d_gfs_in : forall l y, In y l -> d_gf y <= d_gfs l.
Proof.
  induction l as [|x t IH]; intros y H; [destruct H|]. unfold d_gfs in *. cbn [fold_right].
  destruct H as [->|H]; [lia|]. apply IH in H. lia.
Qed.

Lemma size_qm_eq : forall a, wf_qm a -> size_qm a = Ok (length (e_qm a)).
Proof.
  intros a (F & L & W). unfold size_qm, e_qm. rewrite Forall_forall in W.
  rewrite (size_arr_eq _ size_gf e_gf) by (auto using size_gf_eq). lens. auto.
Qed.

Lemma ser_qm_eq : forall a, wf_qm a -> forall b q, ser_qm b q a = wr b q (e_qm a).
Proof.
  intros a (F & L & W) b q. unfold ser_qm, e_qm. rewrite Forall_forall in W.
  apply wr_bind. intros. apply ser_arr_eq; auto. intros x Hx. apply ser_gf_eq. auto.
Qed.

Lemma des_qm_at : forall a, wf_qm a -> forall fuel, d_gfs (qm_funcs a) <= fuel ->
  forall buf p, at_ buf p (e_qm a) ->
  des_qm fuel buf p = Ok (n_qm a, p + length (e_qm a)).
Proof.
  intros a (F & L & W) fuel Hf buf p H. unfold des_qm, e_qm in *.
  apply at_app in H as [H1 H2]. revert H2. lens. intros.
  rewrite (des_sz_at _ _ _ H1 F). cbn [obind].
  pose proof (des_arr_at _ (des_gf fuel) e_gf n_gf _ _ _ H2) as A.
  rewrite firstn_length_le in A by auto. rewrite A; clear A.
  - cbn [obind]. unfold n_qm. do 2 f_equal. lia.
  - intros x Hx r Hr. rewrite Forall_forall in W. apply des_gf_at; auto.
    apply Nat.le_trans with (2 := Hf). apply d_gfs_in.
    rewrite <- (firstn_skipn (qm_n a)). apply in_or_app. auto.
Qed.

Definition wf_qa (a : qarr) : Prop :=
  fits (qa_r a) /\ fits (qa_c a) /\ qa_r a * qa_c a <= length (qa_funcs a) /\
  Forall wf_gf (firstn (qa_r a * qa_c a) (qa_funcs a)).
Definition e_qa (a : qarr) : list N :=
  e_sz (qa_r a) ++ e_sz (qa_c a) ++ flat_map e_gf (firstn (qa_r a * qa_c a) (qa_funcs a)).
Definition n_qa (a : qarr) : qarr :=
  {| qa_r := qa_r a; qa_c := qa_c a;
     qa_funcs := map n_gf (firstn (qa_r a * qa_c a) (qa_funcs a)) |}.

Lemma size_qa_eq : forall a, wf_qa a -> size_qa a = Ok (length (e_qa a)).
Proof.
  intros a (F1 & F2 & L & W). unfold size_qa, e_qa. rewrite Forall_forall in W.
  rewrite (size_arr_eq _ size_gf e_gf) by (auto using size_gf_eq). lens. auto.
Qed.

Lemma ser_qa_eq : forall a, wf_qa a -> forall b q, ser_qa b q a = wr b q (e_qa a).
Proof.
  intros a W b q. unfold ser_qa, e_qa. rewrite size_qa_eq by auto. cbn [obind].
  destruct W as (F1 & F2 & L & W). rewrite Forall_forall in W.
  apply wr_bind. intros. apply wr_bind. intros. apply ser_arr_eq; auto.
  intros x Hx. apply ser_gf_eq. auto.
Qed.

Lemma des_qa_at : forall a, wf_qa a -> forall fuel, d_gfs (qa_funcs a) <= fuel ->
  forall buf p, at_ buf p (e_qa a) ->
  des_qa fuel buf p = Ok (n_qa a, p + length (e_qa a)).
Proof.
  intros a (F1 & F2 & L & W) fuel Hf buf p H. unfold des_qa, e_qa in *.
  apply at_app in H as [H1 H]. apply at_app in H as [H2 H3]. revert H2 H3. lens. intros.
  rewrite (des_sz_at _ _ _ H1 F1). cbn [obind].
  rewrite (des_sz_at _ _ _ H2 F2). cbn [obind].
  pose proof (des_arr_at _ (des_gf fuel) e_gf n_gf _ _ _ H3) as A.
  rewrite firstn_length_le in A by auto. rewrite A; clear A.
  - cbn [obind]. unfold n_qa. do 2 f_equal. lia.
  - intros x Hx r Hr. rewrite Forall_forall in W. apply des_gf_at; auto.
    apply Nat.le_trans with (2 := Hf). apply d_gfs_in.
    rewrite <- (firstn_skipn (qa_r a * qa_c a)). apply in_or_app. auto.
Qed.

Definition wf_ft (f : ftr) : Prop :=
  fits (ft_d f) /\ ft_d f + 1 <= length (ft_rk f) /\ Forall fits (firstn (ft_d f + 1) (ft_rk f)) /\
  ft_d f <= length (ft_co f) /\ Forall wf_qa (firstn (ft_d f) (ft_co f)).
Definition e_ft (f : ftr) : list N :=
  e_sz (ft_d f) ++ flat_map e_sz (firstn (ft_d f + 1) (ft_rk f)) ++
  flat_map e_qa (firstn (ft_d f) (ft_co f)).
Definition n_ft (f : ftr) : ftr :=
  {| ft_d := ft_d f; ft_rk := firstn (ft_d f + 1) (ft_rk f);
     ft_co := map n_qa (firstn (ft_d f) (ft_co f)) |}.
Definition d_ft (f : ftr) : nat :=
  fold_right (fun a m => Nat.max (d_gfs (qa_funcs a)) m) 0 (ft_co f).

Lemma d_ft_in : forall l y, In y l ->
  d_gfs (qa_funcs y) <= fold_right (fun a m => Nat.max (d_gfs (qa_funcs a)) m) 0 l.
Proof.
  induction l as [|x t IH]; intros y H; [destruct H|]. cbn [fold_right].
  destruct H as [->|H]; [lia|]. apply IH in H. lia.
Qed.

Lemma flat_sz_length : forall l, length (flat_map e_sz l) = length l * 8.
Proof. induction l; auto. cbn [flat_map length]. lens. rewrite IHl. lia. Qed.

Lemma size_ft_eq : forall f, wf_ft f -> size_ft f = Ok (length (e_ft f)).
Proof.
  intros f (F & L1 & R & L2 & W). unfold size_ft, e_ft. rewrite Forall_forall in W.
  rewrite (size_arr_eq _ size_qa e_qa) by (auto using size_qa_eq). lens.
  rewrite flat_sz_length, firstn_length_le by auto. reflexivity.
Qed.

Lemma ser_ft_eq : forall f, wf_ft f -> forall b q, ser_ft b q f = wr b q (e_ft f).
Proof.
  intros f W b q. unfold ser_ft, e_ft. rewrite size_ft_eq by auto. cbn [obind].
  destruct W as (F & L1 & R & L2 & W). rewrite Forall_forall in W.
  apply wr_bind. intros. rewrite (ser_arr_eq _ ser_sz e_sz) by (auto; intros; reflexivity).
  apply wr_bind. intros. apply ser_arr_eq; auto.
  intros x Hx. apply ser_qa_eq. auto.
Qed.

Lemma des_ft_at : forall f, wf_ft f -> forall fuel, d_ft f <= fuel ->
  forall buf p, at_ buf p (e_ft f) ->
  des_ft fuel buf p = Ok (n_ft f, p + length (e_ft f)).
Proof.
  intros f (F & L1 & R & L2 & W) fuel Hf buf p H. unfold des_ft, e_ft in *.
  apply at_app in H as [H1 H]. apply at_app in H as [H2 H3]. revert H2 H3. lens. intros.
  rewrite (des_sz_at _ _ _ H1 F). cbn [obind].
  pose proof (des_arr_at _ des_sz e_sz (fun x => x) _ _ _ H2) as A.
  rewrite firstn_length_le in A by auto. rewrite A; clear A.
  2:{ intros x Hx r Hr. rewrite Forall_forall in R. rewrite (des_sz_at _ _ x) by auto.
      rewrite e_sz_length. auto. }
  cbn [obind]. rewrite map_id.
  pose proof (des_arr_at _ (des_qa fuel) e_qa n_qa _ _ _ H3) as A.
  rewrite firstn_length_le in A by auto. rewrite A; clear A.
  - cbn [obind]. unfold n_ft. do 2 f_equal. lia.
  - intros x Hx r Hr. rewrite Forall_forall in W. apply des_qa_at; auto.
    apply Nat.le_trans with (2 := Hf). apply d_ft_in.
    rewrite <- (firstn_skipn (ft_d f)). apply in_or_app. auto.
Qed.

Definition wf_fa (f : fta) : Prop :=
  fits (fa_n f) /\ fa_n f <= length (fa_ft f) /\ Forall wf_ft (firstn (fa_n f) (fa_ft f)).
Definition e_fa (f : fta) : list N := e_sz (fa_n f) ++ flat_map e_ft (firstn (fa_n f) (fa_ft f)).
Definition n_fa (f : fta) : fta :=
  {| fa_n := fa_n f; fa_ft := map n_ft (firstn (fa_n f) (fa_ft f)) |}.
Definition d_fa (f : fta) : nat := fold_right (fun a m => Nat.max (d_ft a) m) 0 (fa_ft f).

Lemma d_fa_in : forall l y, In y l ->
  d_ft y <= fold_right (fun a m => Nat.max (d_ft a) m) 0 l.
Proof.
  induction l as [|x t IH]; intros y H; [destruct H|]. cbn [fold_right].
  destruct H as [->|H]; [lia|]. apply IH in H. lia.
Qed.

Lemma size_fa_eq : forall f, wf_fa f -> size_fa f = Ok (length (e_fa f)).
Proof.
  intros a (F & L & W). unfold size_fa, e_fa. rewrite Forall_forall in W.
  rewrite (size_arr_eq _ size_ft e_ft) by (auto using size_ft_eq). lens. auto.
Qed.

Lemma ser_fa_eq : forall f, wf_fa f -> forall b q, ser_fa b q f = wr b q (e_fa f).
Proof.
  intros a W b q. unfold ser_fa, e_fa. rewrite size_fa_eq by auto. cbn [obind].
  destruct W as (F & L & W). rewrite Forall_forall in W.
  apply wr_bind. intros. apply ser_arr_eq; auto. intros x Hx. apply ser_ft_eq. auto.
Qed.

Lemma des_fa_at : forall f, wf_fa f -> forall fuel, d_fa f <= fuel ->
  forall buf p, at_ buf p (e_fa f) ->
  des_fa fuel buf p = Ok (n_fa f, p + length (e_fa f)).
Proof.
  intros a (F & L & W) fuel Hf buf p H. unfold des_fa, e_fa in *.
  apply at_app in H as [H1 H2]. revert H2. lens. intros.
  rewrite (des_sz_at _ _ _ H1 F). cbn [obind].
  pose proof (des_arr_at _ (des_ft fuel) e_ft n_ft _ _ _ H2) as A.
  rewrite firstn_length_le in A by auto. rewrite A; clear A.
  - cbn [obind]. unfold n_fa. do 2 f_equal. lia.
  - intros x Hx r Hr. rewrite Forall_forall in W. apply des_ft_at; auto.
    apply Nat.le_trans with (2 := Hf). apply d_fa_in.
    rewrite <- (firstn_skipn (fa_n a)). apply in_or_app. auto.
Qed.

(** ** Files *)

Lemma wr_exact : forall buf e, length buf = length e -> wr buf 0 e = Ok (e, length e).
Proof.
  intros buf e H. unfold wr. cbn [Nat.add firstn app].
  replace (length e <=? length buf) with true by (symmetry; apply Nat.leb_le; lia).
  rewrite skipn_all2 by lia. rewrite app_nil_r. auto.
Qed.

Lemma save_obj_eq : forall A (size : A -> outcome nat) ser (enc : A -> list N) x junk,
  size x = Ok (length (enc x)) ->
  (forall b q, ser b q x = wr b q (enc x)) ->
  save_obj size ser junk x = Ok (e_sz (length (enc x)) ++ enc x).
Proof.
  intros A size ser enc x junk Hs Hw. unfold save_obj. rewrite Hs. cbn [obind].
  pose proof (wr_bind (tab (length (enc x) + sz8) junk) 0 (e_sz (length (enc x))) (enc x)
    (fun b q => ser b q x)) as B.
  change (ser_sz (tab (length (enc x) + sz8) junk) 0 (length (enc x)))
    with (wr (tab (length (enc x) + sz8) junk) 0 (e_sz (length (enc x)))).
  rewrite (wr_exact _ (e_sz (length (enc x)) ++ enc x)) in B.
  2:{ rewrite tab_length, app_length, e_sz_length. unfold sz8. lia. }
  specialize (B ltac:(intros; apply Hw)).
  destruct (wr _ 0 (e_sz _)) as [[b q]| | |]; cbn [obind] in *; try discriminate.
  rewrite B. auto.
Qed.

Lemma load_obj_eq : forall A (des : list N -> nat -> outcome (A * nat)) (enc : A -> list N) x y rest,
  fits (length (enc x)) ->
  (forall buf p, at_ buf p (enc x) -> des buf p = Ok (y, p + length (enc x))) ->
  load_obj des (e_sz (length (enc x)) ++ enc x ++ rest) = Ok (Some y).
Proof.
  intros A des enc x y rest F D. unfold load_obj.
  rewrite !app_length, e_sz_length.
  replace (8 + (length (enc x) + length rest) <? sz8) with false
    by (symmetry; apply Nat.ltb_ge; unfold sz8; lia).
  rewrite (des_sz_at _ _ (length (enc x))); auto.
  2:{ exists [], (enc x ++ rest). auto. }
  cbn [obind Nat.add].
  rewrite skipn_app, skipn_all2 by (rewrite e_sz_length; lia).
  rewrite e_sz_length. cbn [Nat.sub skipn app].
  rewrite firstn_app, firstn_all, Nat.sub_diag. cbn [firstn]. rewrite app_nil_r.
  rewrite D.
  - auto.
  - exists [], []. rewrite app_nil_r. auto.
Qed.
