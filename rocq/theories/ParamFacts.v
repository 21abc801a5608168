(** Facts about reading and writing parameters. *)
From Verif Require Export ParamModel FTSpec.

(** The list [l] with the entries from [off] on replaced by [p]. *)
Definition splice {A} (off : nat) (p l : list A) : list A :=
  firstn off l ++ p ++ skipn (off + length p) l.

Section Splice.
  Context {A : Type}.

  Lemma splice_length off (p l : list A) : off + length p <= length l -> length (splice off p l) = length l.
  Proof. intros H. unfold splice. rewrite !app_length, firstn_length, skipn_length. lia. Qed.

  Lemma splice_nil off (l : list A) : splice off [] l = l.
  Proof. unfold splice. cbn [app length]. rewrite Nat.add_0_r. apply firstn_skipn. Qed.

  Lemma firstn_S_nth (l : list A) n a : nth_error l n = Some a -> firstn (S n) l = firstn n l ++ [a].
  Proof.
    revert n. induction l as [|b l IH]; intros [|n] H; try discriminate.
    - now injection H as ->.
    - cbn [firstn app]. f_equal. now apply IH.
  Qed.

  Lemma splice_full (p l : list A) : length p = length l -> splice 0 p l = p.
  Proof. intros H. unfold splice. cbn [firstn app]. rewrite skipn_all2 by lia. apply app_nil_r. Qed.

  Lemma skipn_add m n (l : list A) : skipn m (skipn n l) = skipn (n + m) l.
  Proof.
    revert l. induction n as [|n IH]; intros l; [reflexivity|].
    destruct l as [|b l]; cbn [skipn Nat.add]; [apply skipn_nil|apply IH].
  Qed.

  Lemma app_eq_length_head (a b c d : list A) : length a = length c -> a ++ b = c ++ d -> a = c /\ b = d.
  Proof.
    revert c. induction a as [|x a IH]; intros [|y c] L E; try discriminate; auto.
    cbn [app] in E. injection E as -> E. destruct (IH c) as [-> ->]; auto.
  Qed.

  Lemma splice_app off (p q l : list A) : off + length p + length q <= length l ->
    splice (off + length p) q (splice off p l) = splice off (p ++ q) l.
  Proof.
    intros H. unfold splice at 1 3. unfold splice.
    rewrite firstn_app, firstn_firstn, firstn_length.
    replace (Nat.min (off + length p) off) with off by lia.
    replace (off + length p - Nat.min off (length l)) with (length p) by lia.
    rewrite firstn_app, Nat.sub_diag, firstn_all. cbn [firstn]. rewrite app_nil_r.
    rewrite skipn_app, firstn_length, skipn_all2 by (rewrite firstn_length; lia).
    replace (off + length p + length q - Nat.min off (length l)) with (length p + length q) by lia.
    rewrite skipn_app, skipn_all2 by lia.
    replace (length p + length q - length p) with (length q) by lia.
    rewrite skipn_add, app_length. cbn [app].
    rewrite <- !app_assoc. do 4 f_equal. lia.
  Qed.

  Lemma splice_snoc off (p l : list A) a : off + length p < length l ->
    upd (splice off p l) (off + length p) a = splice off (p ++ [a]) l.
  Proof.
    intros H. unfold splice.
    replace (skipn (off + length p) l) with (nth (off + length p) l a :: skipn (S (off + length p)) l).
    - rewrite app_assoc.
      assert (E : off + length p = length (firstn off l ++ p) + 0)
        by (rewrite app_length, firstn_length; lia).
      rewrite (app_length p [a]). rewrite E at 3. rewrite upd_app_r. cbn [upd length]. rewrite <- !app_assoc. cbn [app]. do 4 f_equal. lia.
    - revert H. generalize (off + length p). intros k Hk. revert l Hk.
      induction k as [|k IH]; intros [|b l] Hk; cbn [length] in Hk; try lia.
      + reflexivity.
      + cbn [nth skipn]. apply IH. lia.
  Qed.

  Lemma nth_error_firstn (l : list A) n i : i < n -> nth_error (firstn n l) i = nth_error l i.
  Proof.
    revert n i. induction l as [|b l IH]; intros [|n] [|i] H; try lia; cbn [firstn nth_error]; auto.
    apply IH. lia.
  Qed.

  Lemma slice_nth (l : list A) off n i : i < n -> nth_error (firstn n (skipn off l)) i = nth_error l (off + i).
  Proof.
    intros H. rewrite nth_error_firstn by auto. revert l. induction off as [|off IH]; intros l; [reflexivity|].
    destruct l as [|b l]; cbn [skipn Nat.add nth_error]; auto. now destruct i.
  Qed.

  Lemma slice_length (l : list A) off n : off + n <= length l -> length (firstn n (skipn off l)) = n.
  Proof. intros H. rewrite firstn_length, skipn_length. lia. Qed.

  (** memmove *)
  Lemma blit_ok (dst : list A) od src os n : os + n <= length src -> od + n <= length dst ->
    blit dst od src os n = Ok (splice od (firstn n (skipn os src)) dst).
  Proof.
    intros Hs Hd. unfold blit.
    rewrite <- (splice_nil od dst) at 1. change [] with (firstn 0 (skipn os src)).
    apply (for_det (fun k => splice od (firstn k (skipn os src)) dst)).
    - intros i Hi. destruct (aget_lt src (os + i)) as (v & Ev & Eg); [lia|]. rewrite Eg. cbn [obind].
      assert (Li : length (firstn i (skipn os src)) = i) by (apply slice_length; lia).
      rewrite aset_ok by (rewrite splice_length; rewrite ?Li; lia). f_equal.
      rewrite (firstn_S_nth (skipn os src) i v).
      + rewrite <- splice_snoc by (rewrite Li; lia). now rewrite Li.
      + rewrite <- (slice_nth src os (S i) i) in Ev by lia. rewrite nth_error_firstn in Ev by lia. exact Ev.
  Qed.
End Splice.

Section ParamFacts.
  Context {T F : Type}.
  Variable bad : T -> bool.
  Variable zero : T.
  Notation gfn := (gfn T F).

  (** * Specification *)

  (** Consistent array lengths. *)
  Definition gf_wf (f : gfn) : Prop :=
    match f with
    | GPoly _ num nalloc coeff => num <= nalloc /\ length coeff = nalloc
    | GNod _ _ n nodes coeff => length nodes = n /\ length coeff = n
    | GKern _ _ nk coeff centers => nk <= length coeff /\ length centers = nk
    | GPw _ => True
    end.

  (** The parameters of a function: its coefficients, followed by the centers
      of a kernel expansion whose centers are parameters as well. *)
  Definition gf_params (f : gfn) : list T :=
    match f with
    | GPoly _ num _ coeff => firstn num coeff
    | GNod _ _ n _ coeff => coeff
    | GKern _ incl nk coeff centers => firstn nk coeff ++ (if incl then centers else [])
    | GPw _ => []
    end.

  (** Everything else. *)
  Definition gf_rest (f : gfn) : gfn :=
    match f with
    | GPoly o num nalloc coeff => GPoly o num nalloc (skipn num coeff)
    | GNod o lin n nodes coeff => GNod o lin n nodes []
    | GKern o incl nk coeff centers => GKern o incl nk (skipn nk coeff) (if incl then [] else centers)
    | GPw o => GPw o
    end.

  Lemma params_rest_inj f g :
    gf_wf f -> gf_wf g -> gf_rest f = gf_rest g -> gf_params f = gf_params g -> f = g.
  Proof using. clear bad zero.
    destruct f as [o n a c|o l n x c|o i n c e|o], g as [o' n' a' c'|o' l' n' x' c'|o' i' n' c' e'|o'];
      cbn [gf_wf gf_rest gf_params]; intros Wf Wg E P; try discriminate.
    - injection E as -> -> -> E. f_equal. rewrite <- (firstn_skipn n' c), <- (firstn_skipn n' c'). congruence.
    - injection E as -> -> -> ->. now subst.
    - injection E as -> -> -> E1 E2.
      assert (firstn n' c = firstn n' c' /\ (if i' then e else []) = if i' then e' else []) as [P1 P2].
      { apply app_eq_length_head; auto. rewrite !firstn_length. lia. }
      f_equal.
      + rewrite <- (firstn_skipn n' c), <- (firstn_skipn n' c'). congruence.
      + destruct i'; auto.
    - congruence.
  Qed.

  Lemma gf_params_length f : gf_wf f -> length (gf_params f) = gf_num f.
  Proof using. clear bad zero.
    destruct f as [o n a c|o l n x c|o i n c e|o]; cbn [gf_wf gf_params gf_num]; intros W.
    - rewrite firstn_length. lia.
    - tauto.
    - rewrite app_length, firstn_length. destruct i; cbn [length]; lia.
    - reflexivity.
  Qed.

  (** The function with other parameter values. *)
  Definition gf_with (f : gfn) (p : list T) : gfn :=
    match f with
    | GPoly o num nalloc coeff => GPoly o num nalloc (p ++ skipn num coeff)
    | GNod o lin n nodes coeff => GNod o lin n nodes p
    | GKern o incl nk coeff centers =>
        GKern o incl nk (firstn nk p ++ skipn nk coeff) (if incl then skipn nk p else centers)
    | GPw o => GPw o
    end.

  Lemma gf_with_num f p : gf_num (gf_with f p) = gf_num f.
  Proof using. clear bad zero. now destruct f. Qed.

  Lemma gf_with_spec f p : gf_wf f -> length p = gf_num f ->
    gf_wf (gf_with f p) /\ gf_params (gf_with f p) = p /\ gf_rest (gf_with f p) = gf_rest f.
  Proof using. clear bad zero.
    destruct f as [o n a c|o l n x c|o i n c e|o]; cbn [gf_wf gf_params gf_num gf_rest gf_with]; intros W L.
    - split; [|split].
      + rewrite app_length, skipn_length. lia.
      + rewrite firstn_app, firstn_all2 by lia. replace (n - length p) with 0 by lia. apply app_nil_r.
      + f_equal. rewrite skipn_app, skipn_all2 by lia. replace (n - length p) with 0 by lia. reflexivity.
    - repeat split; try tauto.
    - assert (n <= length p) by (destruct i; lia).
      assert (Lf : length (firstn n p) = n) by (rewrite firstn_length; lia).
      split; [|split].
      + rewrite app_length, Lf, skipn_length. destruct i; [rewrite skipn_length|]; lia.
      + rewrite firstn_app, Lf, firstn_firstn, Nat.min_id, Nat.sub_diag. cbn [firstn].
        rewrite app_nil_r. destruct i; [apply firstn_skipn|].
        rewrite app_nil_r. apply firstn_all2. lia.
      + f_equal; [|now destruct i]. rewrite skipn_app, Lf, skipn_all2 by lia. now rewrite Nat.sub_diag.
    - destruct p; [auto|discriminate].
  Qed.

  (** * The routines of one function *)
  Lemma gf_get_ok f l off : gf_wf f -> off + gf_num f <= length l ->
    gf_get f l off = Ok (gf_num f, splice off (gf_params f) l).
  Proof using. clear bad zero.
    destruct f as [o n a c|o b n x c|o i n c e|o]; cbn [gf_wf gf_num gf_get gf_params]; intros W L.
    - rewrite blit_ok by lia. reflexivity.
    - rewrite blit_ok by lia. cbn [obind skipn]. rewrite firstn_all2 by lia. reflexivity.
    - assert (Lf : length (firstn n c) = n) by (rewrite firstn_length; lia).
      rewrite blit_ok by (destruct i; lia). cbn [obind skipn]. destruct i.
      + assert (E : for_ n (fun ii p => do c0 <- aget e ii; aset p (off + (ii + n)) c0) (splice off (firstn n c) l)
                    = Ok (splice off (firstn n c ++ firstn n e) l)).
        { rewrite <- (app_nil_r (firstn n c)) at 1. change [] with (firstn 0 e).
          apply (for_det (fun k => splice off (firstn n c ++ firstn k e) l)).
          intros k Hk. destruct (aget_lt e k) as (v & Ev & Eg); [lia|]. rewrite Eg. cbn [obind].
          assert (Lk : length (firstn n c ++ firstn k e) = n + k)
            by (rewrite app_length, Lf, firstn_length; lia).
          rewrite aset_ok by (rewrite splice_length; rewrite ?Lk; lia). f_equal.
          rewrite (firstn_S_nth e k v Ev), app_assoc, <- splice_snoc by (rewrite Lk; lia).
          rewrite Lk. f_equal. lia. }
        rewrite E. cbn [obind]. rewrite (firstn_all2 e) by lia. reflexivity.
      + rewrite app_nil_r. reflexivity.
    - now rewrite splice_nil.
  Qed.

  Lemma bad_scan n param off :
    off + n <= length param -> (forall i v, i < n -> nth_error param (off + i) = Some v -> bad v = false) ->
    for_ n (fun ii (_ : unit) => do p <- aget param (off + ii); if bad p then Abort else Ok tt) tt = Ok tt.
  Proof.
    intros L H. apply (for_det (fun _ => tt)). intros i Hi.
    destruct (aget_lt param (off + i)) as (v & Ev & Eg); [lia|]. rewrite Eg. cbn [obind]. now rewrite (H i v).
  Qed.

  Lemma bad_scan_abort n param off i v : i < n -> off + n <= length param ->
    nth_error param (off + i) = Some v -> bad v = true ->
    for_ n (fun ii (_ : unit) => do p <- aget param (off + ii); if bad p then Abort else Ok tt) tt = Abort.
  Proof.
    intros Hi L Ev B. revert Hi L. induction n as [|n IH]; intros Hi L; [lia|].
    rewrite for_S. destruct (Nat.eq_dec i n) as [->|Hne].
    - destruct (for_ n _ tt) as [[]| | |] eqn:E; cbn [obind].
      + rewrite (aget_ok _ _ _ Ev). cbn [obind]. now rewrite B.
      + reflexivity.
      + exfalso. revert E. clear -L. assert (L' : off + n <= length param) by lia. clear L. revert L'.
        induction n as [|n IH]; intros L; [discriminate|]. rewrite for_S.
        destruct (for_ n _ tt) as [[]| | |] eqn:E; cbn [obind]; try discriminate.
        * destruct (aget_lt param (off + n)) as (w & _ & Eg); [lia|]. rewrite Eg. cbn [obind].
          destruct (bad w); discriminate.
        * intros _. apply IH; auto. lia.
      + exfalso. revert E. clear. induction n as [|n IH]; [discriminate|]. rewrite for_S.
        destruct (for_ n _ tt) as [[]| | |] eqn:E; cbn [obind]; try discriminate; auto.
        unfold aget. destruct (nth_error param (off + n)); cbn [obind]; try discriminate.
        destruct (bad t); discriminate.
    - rewrite IH by lia. reflexivity.
  Qed.

  Lemma gf_update_ok f param off : gf_wf f -> off + gf_num f <= length param ->
    (forall i v, i < gf_num f -> nth_error param (off + i) = Some v -> bad v = false) ->
    gf_update bad zero f (gf_num f) param off = Ok (gf_with f (firstn (gf_num f) (skipn off param))).
  Proof.
    intros W L H. unfold gf_update. rewrite bad_scan by auto. cbn [obind].
    destruct f as [o n a c|o b n x c|o i n c e|o]; cbn [gf_wf gf_num gf_with] in *.
    - unfold poly_update. rewrite Nat.leb_refl, blit_ok by lia. cbn [obind].
      rewrite Nat.sub_diag. cbn [for_from obind]. do 2 f_equal. unfold splice. cbn [firstn app Nat.add].
      rewrite slice_length by lia. reflexivity.
    - unfold nod_update. rewrite Nat.eqb_refl. cbn [cassert obind]. rewrite blit_ok by lia. cbn [obind].
      rewrite splice_full; auto. rewrite slice_length by lia. lia.
    - unfold kern_update. destruct i; cbn [negb].
      + destruct (Nat.eqb_spec (2 * n) n) as [E|E].
        * assert (n = 0) by lia. subst n. rewrite blit_ok by lia. cbn [obind].
          replace (2 * 0) with 0 by lia. cbn [firstn]. rewrite splice_nil. cbn [app skipn].
          destruct e; [reflexivity|discriminate (proj2 W)].
        * replace (2 * n / 2) with n by (rewrite Nat.mul_comm, Nat.div_mul; lia).
          destruct (Nat.eqb_spec n 0); [lia|]. cbn [negb cassert obind].
          rewrite blit_ok by lia. cbn [obind].
          assert (Ece : for_ n (fun ii ce => do v <- aget param (off + (ii + n)); aset ce ii v) e
                        = Ok (firstn n (skipn (off + n) param))).
          { replace e with (splice 0 (firstn 0 (skipn (off + n) param)) e) at 1
              by apply splice_nil.
            rewrite (for_det (fun k => splice 0 (firstn k (skipn (off + n) param)) e)).
            - rewrite splice_full; auto. rewrite slice_length by lia. lia.
            - intros k Hk. replace (off + (k + n)) with (off + n + k) by lia.
              destruct (aget_lt param (off + n + k)) as (v & Ev & Eg); [lia|]. rewrite Eg. cbn [obind].
              assert (Lk : length (firstn k (skipn (off + n) param)) = k) by (apply slice_length; lia).
              rewrite aset_ok by (rewrite splice_length; rewrite ?Lk; lia). f_equal.
              rewrite (firstn_S_nth (skipn (off + n) param) k v).
              + rewrite <- splice_snoc by (rewrite Lk; lia). now rewrite Lk.
              + rewrite <- (slice_nth param (off + n) (S k) k) in Ev by lia.
                rewrite nth_error_firstn in Ev by lia. exact Ev. }
          rewrite Ece. cbn [obind]. do 2 f_equal.
          -- unfold splice. cbn [firstn app Nat.add]. rewrite slice_length by lia.
             rewrite firstn_firstn. do 2 f_equal. lia.
          -- rewrite skipn_firstn_comm, skipn_add. f_equal; lia.
      + rewrite Nat.eqb_refl. cbn [cassert obind]. rewrite blit_ok by lia. cbn [obind]. do 2 f_equal.
        unfold splice. cbn [firstn app Nat.add]. rewrite slice_length by lia.
        rewrite firstn_firstn, Nat.min_id. reflexivity.
    - reflexivity.
  Qed.

  Lemma gf_update_bad (f : gfn) param off i v : off + gf_num f <= length param ->
    i < gf_num f -> nth_error param (off + i) = Some v -> bad v = true ->
    gf_update bad zero f (gf_num f) param off = Abort.
  Proof. intros L Hi Ev B. unfold gf_update. now rewrite (bad_scan_abort _ _ _ i v). Qed.

  (** * Lists of functions *)
  Definition lparams (l : list gfn) : list T := flat_map gf_params l.
  Definition lnum (l : list gfn) : nat := list_sum (map gf_num l).

  (** Consecutive blocks of [p] as the parameters of the functions of [l]. *)
  Fixpoint lwith (l : list gfn) (p : list T) : list gfn :=
    match l with
    | [] => []
    | f :: l' => gf_with f (firstn (gf_num f) p) :: lwith l' (skipn (gf_num f) p)
    end.

  Lemma lparams_app a b : lparams (a ++ b) = lparams a ++ lparams b.
  Proof using. clear bad zero. apply flat_map_app. Qed.

  Lemma lnum_app a b : lnum (a ++ b) = lnum a + lnum b.
  Proof using. clear bad zero. unfold lnum. rewrite map_app. apply list_sum_app. Qed.

  Lemma lparams_length l : Forall gf_wf l -> length (lparams l) = lnum l.
  Proof using. clear bad zero.
    induction 1 as [|f l Hf Hl IH]; [reflexivity|]. unfold lparams, lnum in *. cbn [flat_map map list_sum fold_right].
    rewrite app_length, gf_params_length by auto. cbn. f_equal. exact IH.
  Qed.

  Lemma lwith_length l p : length (lwith l p) = length l.
  Proof using. clear bad zero. revert p. induction l as [|f l IH]; intros p; cbn [lwith length]; auto. Qed.

  Lemma lwith_num l p : map gf_num (lwith l p) = map gf_num l.
  Proof using. clear bad zero. revert p. induction l as [|f l IH]; intros p; cbn [lwith map]; auto. rewrite gf_with_num. f_equal. apply IH. Qed.

  Lemma lwith_spec l p : Forall gf_wf l -> lnum l <= length p ->
    Forall gf_wf (lwith l p) /\ lparams (lwith l p) = firstn (lnum l) p /\
    map gf_rest (lwith l p) = map gf_rest l.
  Proof using. clear bad zero.
    intros W. revert p. induction W as [|f l Hf Hl IH]; intros p L.
    - cbn. auto.
    - change (lnum (f :: l)) with (gf_num f + lnum l) in *. cbn [lwith].
      destruct (gf_with_spec f (firstn (gf_num f) p)) as (A & B & C); auto.
      { rewrite firstn_length. lia. }
      destruct (IH (skipn (gf_num f) p)) as (A' & B' & C'). { rewrite skipn_length. lia. }
      repeat split.
      + constructor; auto.
      + unfold lparams in *. cbn [flat_map]. rewrite B, B'.
        rewrite <- (firstn_skipn (gf_num f) p) at 3. rewrite firstn_app.
        assert (E : length (firstn (gf_num f) p) = gf_num f) by (rewrite firstn_length; lia).
        rewrite E, firstn_firstn. f_equal; f_equal; lia.
      + cbn [map]. now rewrite C, C'.
  Qed.

  Lemma lwith_app a b p : lwith (a ++ b) p = lwith a p ++ lwith b (skipn (lnum a) p).
  Proof using. clear bad zero.
    revert p. induction a as [|f a IH]; intros p; cbn [app lwith]; [reflexivity|].
    change (lnum (f :: a)) with (gf_num f + lnum a). rewrite IH, skipn_add. reflexivity.
  Qed.

  Lemma lwith_firstn l p n : lnum l <= n -> lwith l (firstn n p) = lwith l p.
  Proof using. clear bad zero.
    revert p n. induction l as [|f l IH]; intros p n H; cbn [lwith]; [reflexivity|].
    change (lnum (f :: l)) with (gf_num f + lnum l) in H. f_equal.
    - rewrite firstn_firstn. do 2 f_equal. lia.
    - rewrite skipn_firstn_comm. apply IH. lia.
  Qed.

  Lemma lwith_same l p : Forall gf_wf l -> lnum l <= length p -> firstn (lnum l) p = lparams l -> lwith l p = l.
  Proof using. clear bad zero.
    intros W. revert p. induction W as [|f l Hf Hl IH]; intros p L E; [reflexivity|].
    change (lnum (f :: l)) with (gf_num f + lnum l) in *. cbn [lwith].
    destruct (gf_with_spec f (firstn (gf_num f) p)) as (A & B & C); auto.
    { rewrite firstn_length. lia. }
    change (lparams (f :: l)) with (gf_params f ++ lparams l) in E.
    rewrite <- (firstn_skipn (gf_num f) p) in E. rewrite firstn_app, firstn_firstn in E.
    assert (Ef : length (firstn (gf_num f) p) = gf_num f) by (rewrite firstn_length; lia).
    rewrite Ef in E. replace (Nat.min (gf_num f + lnum l) (gf_num f)) with (gf_num f) in E by lia.
    replace (gf_num f + lnum l - gf_num f) with (lnum l) in E by lia.
    apply app_eq_length_head in E as [E1 E2]; [|rewrite Ef; symmetry; now apply gf_params_length].
    f_equal.
    - apply params_rest_inj; auto. now rewrite B.
    - apply IH; auto. rewrite skipn_length. lia.
  Qed.

  Lemma firstn_S_split {A} (l : list A) i a : nth_error l i = Some a ->
    firstn (S i) l = firstn i l ++ [a] /\ l = firstn i l ++ a :: skipn (S i) l.
  Proof using. clear bad zero.
    intros E. split; [now apply firstn_S_nth|].
    revert i E. induction l as [|b l IH]; intros [|i] E; try discriminate.
    - now injection E as ->.
    - cbn [firstn app]. change (skipn (S (S i)) (b :: l)) with (skipn (S i) l). f_equal. now apply IH.
  Qed.

  Lemma lnum_snoc l f : lnum (l ++ [f]) = lnum l + gf_num f.
  Proof using. clear bad zero. rewrite lnum_app. cbn. lia. Qed.

  Lemma lnum_firstn_le l i : lnum (firstn i l) <= lnum l.
  Proof using. clear bad zero. rewrite <- (firstn_skipn i l) at 2. rewrite lnum_app. lia. Qed.

  (** ** One core *)
  Section Core.
    Variable q : qma gfn.
    Hypothesis Q : qwf q.
    Hypothesis W : Forall gf_wf (fs q).

    Lemma core_nth i : i < nr q * nc q -> exists f, nth_error (fs q) i = Some f /\ aget (fs q) i = Ok f /\ gf_wf f.
    Proof using Q W. clear bad zero.
      intros Hi. destruct (aget_lt (fs q) i) as (f & E & G). { red in Q. lia. }
      exists f. repeat split; auto. rewrite Forall_forall in W. apply W. eapply nth_error_In, E.
    Qed.

    Lemma qm_nparams_ok : exists m, qm_nparams q = Ok (lnum (fs q), m) /\
      (forall f, In f (fs q) -> gf_num f <= m) /\
      (fs q <> [] -> exists f, In f (fs q) /\ gf_num f = m).
    Proof using Q W. clear bad zero.
      unfold qm_nparams.
      match goal with |- context [for_ ?n ?B ?S0] =>
        destruct (for_inv (fun i s => fst s = lnum (firstn i (fs q)) /\
            (forall f, In f (firstn i (fs q)) -> gf_num f <= snd s) /\
            (snd s = 0 \/ exists f, In f (firstn i (fs q)) /\ gf_num f = snd s)) B n S0)
          as (r & E & H1 & H2 & H3) end.
      - cbn. repeat split; auto; intros f [].
      - intros i (a, m) Hi (H1 & H2 & H3). cbn [fst snd] in *.
        destruct (core_nth i Hi) as (f & En & Eg & Wf). rewrite Eg. cbn [obind].
        eexists. split; [reflexivity|]. cbn [fst snd].
        destruct (firstn_S_split _ _ _ En) as [Es _]. rewrite Es.
        split; [rewrite lnum_snoc; lia|].
        split.
        + intros g Hg. apply in_app_iff in Hg as [Hg|[<-|[]]].
          * specialize (H2 g Hg). destruct (Nat.ltb_spec m (gf_num f)); lia.
          * destruct (Nat.ltb_spec m (gf_num f)); lia.
        + destruct (Nat.ltb_spec m (gf_num f)).
          * right. exists f. split; auto. apply in_app_iff. right. now left.
          * destruct H3 as [->|(g & Hg & Eq)]; [now left|]. right. exists g. split; auto. apply in_app_iff. now left.
      - destruct r as (a, m). cbn [fst snd] in *. exists m. rewrite E.
        rewrite (firstn_all2 (fs q)) in H1, H2, H3 by (red in Q; lia). subst a. split; [reflexivity|]. split; auto.
        intros Hne. destruct H3 as [->|H3]; auto. destruct (fs q) as [|f l] eqn:Ef; [congruence|].
        exists f. split; [now left|]. specialize (H2 f (or_introl eq_refl)). lia.
    Qed.

    Lemma qm_get_none off : qm_get q None off = Ok (lnum (fs q), None).
    Proof using Q W. clear bad zero.
      unfold qm_get. change 0 with (lnum (firstn 0 (fs q))) at 1.
      rewrite (for_det (fun i => (lnum (firstn i (fs q)), @None (list T)))).
      - rewrite firstn_all2 by (red in Q; lia). reflexivity.
      - intros i Hi. destruct (core_nth i Hi) as (f & En & Eg & Wf). rewrite Eg. cbn [obind].
        destruct (firstn_S_split _ _ _ En) as [Es _]. rewrite Es, lnum_snoc. reflexivity.
    Qed.

    Lemma qm_get_ok l off : off + lnum (fs q) <= length l ->
      qm_get q (Some l) off = Ok (lnum (fs q), Some (splice off (lparams (fs q)) l)).
    Proof using Q W. clear bad zero.
      intros L. unfold qm_get.
      replace l with (splice off (lparams (firstn 0 (fs q))) l) at 1 by apply splice_nil.
      change 0 with (lnum (firstn 0 (fs q))) at 1.
      rewrite (for_det (fun i => (lnum (firstn i (fs q)), Some (splice off (lparams (firstn i (fs q))) l)))).
      - rewrite firstn_all2 by (red in Q; lia). reflexivity.
      - intros i Hi. destruct (core_nth i Hi) as (f & En & Eg & Wf). rewrite Eg. cbn [obind].
        destruct (firstn_S_split _ _ _ En) as [Es Ef]. rewrite Es, lnum_snoc, lparams_app.
        assert (Lp : length (lparams (firstn i (fs q))) = lnum (firstn i (fs q))).
        { apply lparams_length. rewrite Ef in W. apply Forall_app in W. tauto. }
        assert (lnum (firstn i (fs q)) + gf_num f <= lnum (fs q)).
        { rewrite <- lnum_snoc, <- Es. apply lnum_firstn_le. }
        rewrite gf_get_ok; [|auto|rewrite splice_length; rewrite ?Lp; lia].
        cbn [obind]. do 3 f_equal. rewrite <- Lp, splice_app.
        + cbn. now rewrite app_nil_r.
        + rewrite Lp, gf_params_length by auto. lia.
    Qed.

    Lemma qm_update_ok param off : off + lnum (fs q) <= length param ->
      (forall i v, i < lnum (fs q) -> nth_error param (off + i) = Some v -> bad v = false) ->
      qm_update bad zero q (lnum (fs q)) param off
      = Ok (mkq (nr q) (nc q) (lwith (fs q) (skipn off param))).
    Proof.
      intros L H. unfold qm_update.
      set (st := fun i => (lnum (firstn i (fs q)),
                           lwith (firstn i (fs q)) (skipn off param) ++ skipn i (fs q))).
      change (0, fs q) with (st 0).
      rewrite (for_det st).
      - unfold st. rewrite (firstn_all2 (fs q)), (skipn_all2 (fs q)) by (red in Q; lia). cbn [obind].
        rewrite Nat.eqb_refl, app_nil_r. reflexivity.
      - intros i Hi. unfold st at 1. destruct (core_nth i Hi) as (f & En & Eg & Wf).
        destruct (firstn_S_split _ _ _ En) as [Es Ef].
        assert (Li : length (lwith (firstn i (fs q)) (skipn off param)) = i).
        { rewrite lwith_length, firstn_length. red in Q. lia. }
        assert (Esk : skipn i (fs q) = f :: skipn (S i) (fs q)).
        { rewrite Ef at 1. rewrite skipn_app, skipn_all2, firstn_length by (rewrite firstn_length; lia).
          red in Q. replace (i - Nat.min i (length (fs q))) with 0 by lia. reflexivity. }
        rewrite (aget_ok _ i f).
        2:{ rewrite nth_error_app2, Li, Nat.sub_diag by lia. now rewrite Esk. }
        cbn [obind].
        assert (HH : lnum (firstn i (fs q)) + gf_num f <= lnum (fs q)).
        { rewrite <- lnum_snoc, <- Es. apply lnum_firstn_le. }
        rewrite gf_update_ok; [|auto|lia|].
        2:{ intros k v Hk Ev. apply (H (lnum (firstn i (fs q)) + k) v); [lia|].
            rewrite <- Ev. f_equal. lia. }
        cbn [obind]. rewrite aset_ok.
        2:{ rewrite app_length, Li, Esk. cbn [length]. lia. }
        cbn [obind]. unfold st. rewrite Es, lnum_snoc, lwith_app. do 2 f_equal.
        rewrite Esk. set (A := lwith (firstn i (fs q)) (skipn off param)) in *.
        replace (upd (A ++ f :: skipn (S i) (fs q)) i) with (upd (A ++ f :: skipn (S i) (fs q)) (length A + 0))
          by (f_equal; lia).
        rewrite upd_app_r. cbn [upd]. rewrite <- app_assoc. cbn [app lwith].
        rewrite skipn_add. reflexivity.
    Qed.

    Lemma qm_update_wrong_count n param off : n <> lnum (fs q) -> off + lnum (fs q) <= length param ->
      (forall i v, i < lnum (fs q) -> nth_error param (off + i) = Some v -> bad v = false) ->
      qm_update bad zero q n param off = Abort.
    Proof.
      intros Hn L H. assert (E := qm_update_ok param off L H). unfold qm_update in *.
      match type of E with context [for_ ?n ?B ?S0] => destruct (for_ n B S0) as [(a, l)| | |]; cbn [obind] in *;
        try discriminate end.
      destruct (Nat.eqb_spec a (lnum (fs q))) as [->|]; cbn [negb] in E; [|discriminate].
      destruct (Nat.eqb_spec (lnum (fs q)) n); [congruence|reflexivity].
    Qed.
  End Core.

  (** ** Trains *)
  Definition ft_ok (f : ftrain gfn) : Prop :=
    ft_dim f = length (ft_cores f) /\
    Forall (fun c => qwf c /\ Forall gf_wf (fs c)) (ft_cores f).

  (** All functions of a train, core by core. *)
  Definition cfuns (cs : list (qma gfn)) : list gfn := flat_map fs cs.
  Definition ft_funs (f : ftrain gfn) : list gfn := cfuns (ft_cores f).

  Fixpoint cwith (cs : list (qma gfn)) (p : list T) : list (qma gfn) :=
    match cs with
    | [] => []
    | c :: cs' => mkq (nr c) (nc c) (lwith (fs c) p) :: cwith cs' (skipn (lnum (fs c)) p)
    end.

  Lemma cfuns_cwith cs p : cfuns (cwith cs p) = lwith (cfuns cs) p.
  Proof using. clear bad zero.
    revert p. induction cs as [|c cs IH]; intros p; [reflexivity|].
    change (cfuns (c :: cs)) with (fs c ++ cfuns cs). rewrite lwith_app.
    cbn [cwith]. unfold cfuns at 1. cbn [flat_map fs]. f_equal. apply IH.
  Qed.

  Lemma cwith_app a b p : cwith (a ++ b) p = cwith a p ++ cwith b (skipn (lnum (cfuns a)) p).
  Proof using. clear bad zero.
    revert p. induction a as [|c a IH]; intros p; [reflexivity|].
    change (cfuns (c :: a)) with (fs c ++ cfuns a). cbn [app cwith]. rewrite IH, lnum_app, skipn_add. reflexivity.
  Qed.

  Lemma cwith_length cs p : length (cwith cs p) = length cs.
  Proof using. clear bad zero. revert p. induction cs as [|c cs IH]; intros p; cbn [cwith length]; auto. Qed.

  Lemma cwith_dims cs p : map (fun c => (nr c, nc c)) (cwith cs p) = map (fun c => (nr c, nc c)) cs.
  Proof using. clear bad zero. revert p. induction cs as [|c cs IH]; intros p; cbn [cwith map]; [auto|]. f_equal. apply IH. Qed.

  Lemma cfuns_app a b : cfuns (a ++ b) = cfuns a ++ cfuns b.
  Proof using. clear bad zero. apply flat_map_app. Qed.

  Section Train.
    Variable f : ftrain gfn.
    Hypothesis O : ft_ok f.
    Notation cs := (ft_cores f).

    Lemma train_nth i : i < ft_dim f ->
      exists c, nth_error cs i = Some c /\ aget cs i = Ok c /\ qwf c /\ Forall gf_wf (fs c).
    Proof using O. clear bad zero.
      destruct O as [O1 O2]. intros Hi. destruct (aget_lt cs i) as (c & E & G). { lia. }
      exists c. rewrite Forall_forall in O2. destruct (O2 c); [eapply nth_error_In, E|]. auto.
    Qed.

    Lemma funs_wf : Forall gf_wf (ft_funs f).
    Proof using O. clear bad zero.
      destruct O as [_ O2]. unfold ft_funs, cfuns. induction O2 as [|c l [_ Hc] Hl IH]; cbn [flat_map]; auto.
      apply Forall_app. auto.
    Qed.

    Lemma cfuns_snoc i c : nth_error cs i = Some c -> cfuns (firstn (S i) cs) = cfuns (firstn i cs) ++ fs c.
    Proof using O. clear bad zero.
      intros E. destruct (firstn_S_split _ _ _ E) as [Es _]. rewrite Es, cfuns_app. cbn. now rewrite app_nil_r.
    Qed.

    Lemma cfuns_firstn_le i : lnum (cfuns (firstn i cs)) <= lnum (ft_funs f).
    Proof using O. clear bad zero. unfold ft_funs. rewrite <- (firstn_skipn i cs) at 2. rewrite cfuns_app, lnum_app. lia. Qed.

    Lemma ft_nparams_ok : ft_nparams f = Ok (lnum (ft_funs f)).
    Proof using O. clear bad zero.
      unfold ft_nparams. change 0 with (lnum (cfuns (firstn 0 cs))).
      rewrite (for_det (fun i => lnum (cfuns (firstn i cs)))).
      - rewrite firstn_all2 by (destruct O; lia). reflexivity.
      - intros i Hi. destruct (train_nth i Hi) as (c & En & Eg & Qc & Wc). rewrite Eg. cbn [obind].
        destruct (qm_nparams_ok c Qc Wc) as (m & Em & _). rewrite Em. cbn [obind].
        now rewrite (cfuns_snoc i c En), lnum_app.
    Qed.

    Lemma ft_get_ok l : lnum (ft_funs f) <= length l ->
      ft_get f l = Ok (lnum (ft_funs f), splice 0 (lparams (ft_funs f)) l).
    Proof using O. clear bad zero.
      intros L. unfold ft_get.
      replace l with (splice 0 (lparams (cfuns (firstn 0 cs))) l) at 1 by apply splice_nil.
      change 0 with (lnum (cfuns (firstn 0 cs))) at 1.
      rewrite (for_det (fun i => (lnum (cfuns (firstn i cs)), splice 0 (lparams (cfuns (firstn i cs))) l))).
      - rewrite firstn_all2 by (destruct O; lia). reflexivity.
      - intros i Hi. destruct (train_nth i Hi) as (c & En & Eg & Qc & Wc). rewrite Eg. cbn [obind].
        rewrite (cfuns_snoc i c En), lnum_app, lparams_app.
        assert (Lp : length (lparams (cfuns (firstn i cs))) = lnum (cfuns (firstn i cs))).
        { apply lparams_length. assert (F' := funs_wf). unfold ft_funs in F'.
          rewrite <- (firstn_skipn i cs), cfuns_app in F'. apply Forall_app in F'. tauto. }
        assert (HH : lnum (cfuns (firstn i cs)) + lnum (fs c) <= lnum (ft_funs f)).
        { rewrite <- lnum_app, <- (cfuns_snoc i c En). apply cfuns_firstn_le. }
        rewrite qm_get_ok; [|auto|auto|rewrite splice_length; rewrite ?Lp; lia].
        cbn [obind]. do 2 f_equal. rewrite <- Lp. apply (splice_app 0).
        rewrite Lp, lparams_length by auto. lia.
    Qed.

    Definition ft_with (p : list T) : ftrain gfn := mkft (ft_dim f) (ft_ranks f) (cwith cs p).

    Lemma ft_update_ok p : lnum (ft_funs f) <= length p ->
      (forall i v, i < lnum (ft_funs f) -> nth_error p i = Some v -> bad v = false) ->
      ft_update bad zero f p = Ok (lnum (ft_funs f), ft_with p).
    Proof.
      intros L H. unfold ft_update.
      set (st := fun i => (lnum (cfuns (firstn i cs)),
                           mkft (ft_dim f) (ft_ranks f) (cwith (firstn i cs) p ++ skipn i cs))).
      replace (0, f) with (st 0) by (unfold st; destruct f; reflexivity).
      rewrite (for_det st).
      - unfold st. rewrite firstn_all2, skipn_all2 by (destruct O; lia). rewrite app_nil_r. reflexivity.
      - intros i Hi. unfold st at 1. destruct (train_nth i Hi) as (c & En & Eg & Qc & Wc).
        destruct (firstn_S_split _ _ _ En) as [Es Ef].
        assert (Li : length (cwith (firstn i cs) p) = i).
        { rewrite cwith_length, firstn_length. destruct O. lia. }
        assert (Esk : skipn i cs = c :: skipn (S i) cs).
        { rewrite Ef at 1. rewrite skipn_app, skipn_all2, firstn_length by (rewrite firstn_length; lia).
          destruct O. replace (i - Nat.min i (length cs)) with 0 by lia. reflexivity. }
        cbn [ft_cores]. rewrite (aget_ok _ i c).
        2:{ rewrite nth_error_app2, Li, Nat.sub_diag by lia. now rewrite Esk. }
        cbn [obind]. destruct (qm_nparams_ok c Qc Wc) as (m & Em & _). rewrite Em. cbn [obind].
        assert (HH : lnum (cfuns (firstn i cs)) + lnum (fs c) <= lnum (ft_funs f)).
        { rewrite <- lnum_app, <- (cfuns_snoc i c En). apply cfuns_firstn_le. }
        rewrite qm_update_ok; [|auto|auto|lia|].
        2:{ intros k v Hk Ev. apply (H (lnum (cfuns (firstn i cs)) + k) v); [lia|auto]. }
        cbn [obind]. unfold set_core. cbn [ft_cores ft_dim ft_ranks]. rewrite aset_ok.
        2:{ rewrite app_length, Li, Esk. cbn [length]. lia. }
        cbn [obind]. unfold st. rewrite (cfuns_snoc i c En), lnum_app, Es, cwith_app. do 3 f_equal.
        rewrite Esk. set (A := cwith (firstn i cs) p) in *.
        replace (upd (A ++ c :: skipn (S i) cs) i) with (upd (A ++ c :: skipn (S i) cs) (length A + 0))
          by (f_equal; lia).
        rewrite upd_app_r. cbn [upd]. rewrite <- app_assoc. reflexivity.
    Qed.

    Lemma ft_with_ok p : lnum (ft_funs f) <= length p -> ft_ok (ft_with p).
    Proof using O. clear bad zero.
      destruct O as [O1 O2]. intros L. split; cbn [ft_with ft_dim ft_cores].
      - now rewrite cwith_length.
      - clear O O1. unfold ft_funs in L. revert p L. induction O2 as [|c l [Q W] Hl IH]; intros p L; cbn [cwith]; auto.
        change (cfuns (c :: l)) with (fs c ++ cfuns l) in L. rewrite lnum_app in L.
        constructor.
        + split; [red; cbn [fs nr nc]; rewrite lwith_length; exact Q|].
          apply lwith_spec; auto. lia.
        + apply IH. rewrite skipn_length. lia.
    Qed.

    Lemma ft_with_same p : lnum (ft_funs f) <= length p ->
      firstn (lnum (ft_funs f)) p = lparams (ft_funs f) -> ft_with p = f.
    Proof using O. clear bad zero.
      intros L E. unfold ft_with. destruct O as [O1 O2]. destruct f as [d r l]. cbn [ft_dim ft_ranks ft_cores] in *.
      f_equal. unfold ft_funs in *. cbn [ft_cores] in *. clear O O1. revert p L E.
      induction O2 as [|c l [Q W] Hl IH]; intros p L E; cbn [cwith]; auto.
      change (cfuns (c :: l)) with (fs c ++ cfuns l) in *. rewrite lnum_app in *. rewrite lparams_app in E.
      rewrite <- (firstn_skipn (lnum (fs c)) p) in E. rewrite firstn_app, firstn_firstn in E.
      assert (Ef : length (firstn (lnum (fs c)) p) = lnum (fs c)) by (rewrite firstn_length; lia).
      rewrite Ef in E. replace (Nat.min (lnum (fs c) + lnum (cfuns l)) (lnum (fs c))) with (lnum (fs c)) in E by lia.
      replace (lnum (fs c) + lnum (cfuns l) - lnum (fs c)) with (lnum (cfuns l)) in E by lia.
      apply app_eq_length_head in E as [E1 E2]; [|rewrite Ef; symmetry; now apply lparams_length].
      f_equal.
      - rewrite lwith_same; auto; [now destruct c|lia].
      - apply IH; auto. rewrite skipn_length. lia.
    Qed.
  End Train.
End ParamFacts.
