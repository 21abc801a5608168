(** Properties of reading and writing the parameters of a function train: C10. *)
From Verif Require Import ParamBad.
From Coq Require Import ZArith.
Open Scope nat_scope.

Section C10.
  Context {T F : Type}.
  Variable bad : T -> bool.
  Variable zero : T.

  (** The parameters of a train: cores from left to right; in a core the
      functions column by column (the order in which they are stored); for each
      function its parameters. *)
  Definition train_params (f : ftrain (gfn T F)) : list T :=
    flat_map (fun c => flat_map gf_params (fs c)) (ft_cores f).

  Lemma train_params_lparams f : train_params f = lparams (ft_funs f).
  Proof.
    unfold train_params, lparams, ft_funs, cfuns. induction (ft_cores f) as [|c l IH]; cbn [flat_map]; auto.
    now rewrite flat_map_app, IH.
  Qed.

  Lemma train_params_length f : ft_ok f -> length (train_params f) = lnum (ft_funs f).
  Proof. intros O. rewrite train_params_lparams. apply lparams_length. now apply funs_wf. Qed.

  (** Same dimension, ranks and shapes, and the same functions up to the values
      of their parameters. *)
  Definition same_structure (f g : ftrain (gfn T F)) : Prop :=
    ft_dim g = ft_dim f /\ ft_ranks g = ft_ranks f /\
    map (fun c => (nr c, nc c, map gf_rest (fs c))) (ft_cores g)
    = map (fun c => (nr c, nc c, map gf_rest (fs c))) (ft_cores f).

  Theorem C10_get : forall (f : ftrain (gfn T F)) (buf : list T),
    ft_ok f -> length (train_params f) <= length buf ->
    ft_get f buf = Ok (length (train_params f),
                       train_params f ++ skipn (length (train_params f)) buf).
  Proof.
    intros f buf O L. rewrite train_params_length in * by auto. rewrite ft_get_ok by auto.
    rewrite <- train_params_lparams. unfold splice. cbn [firstn app Nat.add].
    now rewrite (train_params_length f O).
  Qed.

  Theorem C10_count : forall f : ftrain (gfn T F), ft_ok f -> ft_nparams f = Ok (length (train_params f)).
  Proof. intros f O. rewrite train_params_length by auto. now apply ft_nparams_ok. Qed.

  (** Reading the parameters into a buffer and updating from that buffer
      changes nothing. *)
  Theorem C10_update_get : forall (f : ftrain (gfn T F)) (buf : list T),
    ft_ok f -> length (train_params f) <= length buf -> (forall v, In v (train_params f) -> bad v = false) ->
    exists n p, ft_get f buf = Ok (n, p) /\ ft_update bad zero f p = Ok (n, f).
  Proof.
    intros f buf O L H. rewrite C10_get by auto. eexists _, _. split; [reflexivity|].
    assert (E := train_params_length f O). rewrite E in *.
    assert (L' : lnum (ft_funs f) <= length (train_params f ++ skipn (lnum (ft_funs f)) buf))
      by (rewrite app_length; lia).
    rewrite ft_update_cases by auto.
    assert (Ef : firstn (lnum (ft_funs f)) (train_params f ++ skipn (lnum (ft_funs f)) buf) = train_params f).
    { rewrite firstn_app, firstn_all2 by lia. rewrite E, Nat.sub_diag. apply app_nil_r. }
    destruct (has_bad _ _ _ _) eqn:B.
    - unfold has_bad in B. cbn [skipn] in B. rewrite Ef in B. apply existsb_exists in B as (v & Hv & B).
      rewrite (H v Hv) in B. discriminate.
    - rewrite ft_with_same; auto. rewrite Ef. apply train_params_lparams.
  Qed.

  (** Updating replaces exactly the parameters, by the given values in the same
      order, and reports the same count. *)
  Theorem C10_get_update : forall (f : ftrain (gfn T F)) (p : list T),
    ft_ok f -> length (train_params f) <= length p ->
    (forall v, In v (firstn (length (train_params f)) p) -> bad v = false) ->
    exists g, ft_update bad zero f p = Ok (length (train_params f), g) /\
      ft_ok g /\ same_structure f g /\
      train_params g = firstn (length (train_params f)) p /\
      forall buf, length (train_params f) <= length buf ->
        ft_get g buf = Ok (length (train_params f),
                           firstn (length (train_params f)) p ++ skipn (length (train_params f)) buf).
  Proof.
    intros f p O L H. assert (E := train_params_length f O). rewrite E in *.
    rewrite ft_update_cases by auto. destruct (has_bad _ _ _ _) eqn:B.
    { unfold has_bad in B. cbn [skipn] in B. apply existsb_exists in B as (v & Hv & B).
      rewrite (H v Hv) in B. discriminate. }
    exists (ft_with f p). split; [reflexivity|].
    assert (Og : ft_ok (ft_with f p)) by now apply ft_with_ok.
    assert (Pg : train_params (ft_with f p) = firstn (lnum (ft_funs f)) p).
    { rewrite train_params_lparams. unfold ft_funs at 1. cbn [ft_with ft_cores]. rewrite cfuns_cwith.
      apply lwith_spec; auto. now apply funs_wf. }
    assert (Lg : length (train_params (ft_with f p)) = lnum (ft_funs f)).
    { rewrite Pg, firstn_length. lia. }
    repeat split; auto; try apply Og.
    - cbn [ft_with ft_cores]. destruct O as [_ O2]. revert L. unfold ft_funs. clear -O2. revert p.
      induction O2 as [|c l [Q W] Hl IH]; intros p L; cbn [cwith map]; auto.
      change (cfuns (c :: l)) with (fs c ++ cfuns l) in L. rewrite lnum_app in L.
      f_equal; [|apply IH; rewrite skipn_length; lia].
      cbn [nr nc fs]. f_equal. apply lwith_spec; auto. lia.
    - intros buf Lb. rewrite C10_get, Lg, Pg; auto. now rewrite Lg.
  Qed.

  (** A NaN or an infinity among the values ends the program. *)
  Theorem C10_rejects_nan : forall (f : ftrain (gfn T F)) (p : list T) v,
    ft_ok f -> length (train_params f) <= length p ->
    In v (firstn (length (train_params f)) p) -> bad v = true ->
    ft_update bad zero f p = Abort.
  Proof.
    intros f p v O L Hv B. rewrite train_params_length in * by auto. rewrite ft_update_cases by auto.
    enough (has_bad bad p 0 (lnum (ft_funs f)) = true) as -> by reflexivity.
    unfold has_bad. cbn [skipn]. apply existsb_exists. eauto.
  Qed.

  (** The train is determined by its structure and its parameters. *)
  Theorem C10_determined : forall f g : ftrain (gfn T F),
    ft_ok f -> ft_ok g -> same_structure f g -> train_params f = train_params g -> f = g.
  Proof.
    intros [d r cs] [d' r' cs'] [_ Of] [_ Og] (E1 & E2 & E3) P.
    cbn [ft_dim ft_ranks ft_cores] in *. subst d' r'. f_equal. unfold train_params in P. cbn [ft_cores] in P.
    revert cs' Og E3 P. induction Of as [|[n m l] cs [Qf Wf] _ IH]; intros [|[n' m' l'] cs'] Og E3 P; try discriminate; auto.
    cbn [map nr nc fs flat_map] in *. injection E3 as -> -> E4 E5.
    inversion Og as [|? ? [Qg Wg] Og']; subst. cbn [fs] in *.
    assert (El : length (flat_map gf_params l) = length (flat_map gf_params l')).
    { clear -E4 Wf Wg. revert l' Wg E4. induction Wf as [|f l Hf _ IH]; intros [|g l'] Wg E; try discriminate; auto.
      inversion Wg; subst. cbn [map flat_map] in *. injection E as Ea Eb. rewrite !app_length.
      rewrite (IH l') by auto. f_equal. rewrite !gf_params_length by auto.
      destruct f, g; cbn [gf_rest] in Ea; try discriminate; injection Ea; intros; subst; reflexivity. }
    apply app_eq_length_head in P as [P1 P2]; auto. f_equal; [|now apply IH].
    f_equal. clear -E4 Wf Wg P1. revert l' Wg E4 P1.
    induction Wf as [|f l Hf _ IH]; intros [|g l'] Wg E P; try discriminate; auto.
    inversion Wg; subst. cbn [map flat_map] in *. injection E as Ea Eb.
    assert (gf_num f = gf_num g).
    { destruct f, g; cbn [gf_rest] in Ea; try discriminate; injection Ea; intros; subst; reflexivity. }
    apply app_eq_length_head in P as [Pa Pb].
    2:{ rewrite !gf_params_length by auto. auto. }
    f_equal; [now apply params_rest_inj|now apply IH].
  Qed.

  (** ** One core and one function *)
  Theorem C10_core : forall (f : ftrain (gfn T F)) k c (p : list T),
    ft_ok f -> nth_error (ft_cores f) k = Some c ->
    length (flat_map gf_params (fs c)) <= length p ->
    (forall v, In v (firstn (length (flat_map gf_params (fs c))) p) -> bad v = false) ->
    exists c', ft_core_update bad zero f k (length (flat_map gf_params (fs c))) p
               = Ok (mkft (ft_dim f) (ft_ranks f) (upd (ft_cores f) k c')) /\
      nr c' = nr c /\ nc c' = nc c /\ map gf_rest (fs c') = map gf_rest (fs c) /\
      flat_map gf_params (fs c') = firstn (length (flat_map gf_params (fs c))) p /\ Forall gf_wf (fs c').
  Proof.
    intros f k c p O E L H. destruct (train_nth f O k) as (c0 & E0 & G & Q & W).
    { destruct O. assert (k < length (ft_cores f)) by (apply nth_error_Some; congruence). lia. }
    assert (c0 = c) by congruence. subst c0.
    assert (EL : length (flat_map gf_params (fs c)) = lnum (fs c)) by exact (lparams_length _ W).
    rewrite EL in *. unfold ft_core_update. rewrite G. cbn [obind].
    rewrite (qm_update_cases bad zero c p 0) by auto. destruct (has_bad _ _ _ _) eqn:B.
    { unfold has_bad in B. cbn [skipn] in B. apply existsb_exists in B as (v & Hv & B).
      rewrite (H v Hv) in B. discriminate. }
    cbn [obind]. unfold set_core. rewrite aset_ok by (apply nth_error_Some; congruence). cbn [obind skipn].
    eexists. split; [reflexivity|]. cbn [nr nc fs].
    destruct (lwith_spec (fs c) p) as (A1 & A2 & A3); auto.
  Qed.

  Theorem C10_core_wrong_count : forall (f : ftrain (gfn T F)) k c n (p : list T),
    ft_ok f -> nth_error (ft_cores f) k = Some c ->
    length (flat_map gf_params (fs c)) <= length p -> n <> length (flat_map gf_params (fs c)) ->
    ft_core_update bad zero f k n p = Abort.
  Proof.
    intros f k c n p O E L Hn. destruct (train_nth f O k) as (c0 & E0 & G & Q & W).
    { destruct O. assert (k < length (ft_cores f)) by (apply nth_error_Some; congruence). lia. }
    assert (c0 = c) by congruence. subst c0.
    assert (EL : length (flat_map gf_params (fs c)) = lnum (fs c)) by exact (lparams_length _ W).
    rewrite EL in *. unfold ft_core_update. rewrite G. cbn [obind].
    rewrite qm_update_cases' by auto. destruct (Nat.eqb_spec n (lnum (fs c))); [contradiction|].
    cbn [negb]. now rewrite orb_true_r.
  Qed.

  (** The same for a single univariate function. *)
  Theorem C10_uni : forall (f : ftrain (gfn T F)) k c row col u (p : list T),
    ft_ok f -> nth_error (ft_cores f) k = Some c -> row < nr c -> col < nc c ->
    nth_error (fs c) (row + col * nr c) = Some u ->
    length (gf_params u) <= length p ->
    (forall v, In v (firstn (length (gf_params u)) p) -> bad v = false) ->
    exists u', ft_uni_update bad zero f k row col (length (gf_params u)) p
               = Ok (mkft (ft_dim f) (ft_ranks f)
                       (upd (ft_cores f) k (mkq (nr c) (nc c) (upd (fs c) (row + col * nr c) u')))) /\
      gf_rest u' = gf_rest u /\ gf_params u' = firstn (length (gf_params u)) p.
  Proof.
    intros f k c row col u p O E Hr Hc Eu L H. destruct (train_nth f O k) as (c0 & E0 & G & Q & W).
    { destruct O. assert (k < length (ft_cores f)) by (apply nth_error_Some; congruence). lia. }
    assert (c0 = c) by congruence. subst c0.
    assert (Wu : gf_wf u). { rewrite Forall_forall in W. eapply W, nth_error_In, Eu. }
    rewrite gf_params_length in * by auto.
    unfold ft_uni_update. rewrite G. cbn [obind]. unfold qm_uni_update.
    replace (col * nr c + row) with (row + col * nr c) by lia.
    rewrite (aget_ok _ _ u) by auto. cbn [obind]. rewrite Nat.eqb_refl. cbn [negb].
    rewrite (gf_update_cases bad zero u p 0) by auto. destruct (has_bad _ _ _ _) eqn:B.
    { unfold has_bad in B. cbn [skipn] in B. apply existsb_exists in B as (v & Hv & B).
      rewrite (H v Hv) in B. discriminate. }
    cbn [obind skipn]. rewrite aset_ok by (apply nth_error_Some; congruence). cbn [obind].
    unfold set_core. rewrite aset_ok by (apply nth_error_Some; congruence). cbn [obind].
    eexists. split; [reflexivity|].
    destruct (gf_with_spec u (firstn (gf_num u) p)) as (A1 & A2 & A3); auto.
    rewrite firstn_length. lia.
  Qed.

  Theorem C10_uni_wrong_count : forall (f : ftrain (gfn T F)) k c row col u n (p : list T),
    ft_ok f -> nth_error (ft_cores f) k = Some c ->
    nth_error (fs c) (row + col * nr c) = Some u -> n <> length (gf_params u) ->
    ft_uni_update bad zero f k row col n p = Abort.
  Proof.
    intros f k c row col u n p O E Eu Hn. destruct (train_nth f O k) as (c0 & E0 & G & Q & W).
    { destruct O. assert (k < length (ft_cores f)) by (apply nth_error_Some; congruence). lia. }
    assert (c0 = c) by congruence. subst c0.
    assert (Wu : gf_wf u). { rewrite Forall_forall in W. eapply W, nth_error_In, Eu. }
    rewrite gf_params_length in * by auto.
    unfold ft_uni_update. rewrite G. cbn [obind]. unfold qm_uni_update.
    replace (col * nr c + row) with (row + col * nr c) by lia.
    rewrite (aget_ok _ _ u) by auto. cbn [obind].
    destruct (Nat.eqb_spec (gf_num u) n); [congruence|]. reflexivity.
  Qed.

  (** Counting and reading one core; a NULL buffer only counts. *)
  Theorem C10_core_get : forall (f : ftrain (gfn T F)) k c (buf : list T),
    ft_ok f -> nth_error (ft_cores f) k = Some c ->
    length (flat_map gf_params (fs c)) <= length buf ->
    ft_core_get f k None = Ok (length (flat_map gf_params (fs c)), None) /\
    ft_core_get f k (Some buf)
    = Ok (length (flat_map gf_params (fs c)),
          Some (flat_map gf_params (fs c) ++ skipn (length (flat_map gf_params (fs c))) buf)).
  Proof.
    intros f k c buf O E L. destruct (train_nth f O k) as (c0 & E0 & G & Q & W).
    { destruct O. assert (k < length (ft_cores f)) by (apply nth_error_Some; congruence). lia. }
    assert (c0 = c) by congruence. subst c0.
    assert (EL : length (flat_map gf_params (fs c)) = lnum (fs c)) by exact (lparams_length _ W).
    rewrite EL in *. unfold ft_core_get. rewrite G. cbn [obind].
    rewrite qm_get_none, qm_get_ok by auto. split; [reflexivity|].
    unfold splice. cbn [firstn app Nat.add]. fold (lparams (fs c)). unfold lparams at 2. now rewrite EL.
  Qed.

  (** ** Changing the number of parameters of an orthogonal expansion: the
      function afterwards has exactly the given coefficients, and the storage
      stays large enough. *)
  Theorem C10_poly_resize : forall o num nalloc (coeff p : list T) dim,
    num <= nalloc -> length coeff = nalloc -> dim <= length p ->
    exists nalloc' coeff',
      poly_update zero (F := F) o num nalloc coeff dim p 0 = Ok (GPoly o dim nalloc' coeff') /\
      dim <= nalloc' /\ length coeff' = nalloc' /\ firstn dim coeff' = firstn dim p /\
      (dim <= num -> forall i, dim <= i < num -> nth_error coeff' i = Some zero).
  Proof.
    intros o num nalloc coeff p dim H1 H2 L. unfold poly_update.
    destruct (Nat.leb_spec dim num).
    - rewrite blit_ok by lia. cbn [obind skipn].
      set (c0 := splice 0 (firstn dim p) coeff).
      assert (L0 : length c0 = nalloc).
      { unfold c0. rewrite splice_length; auto. rewrite firstn_length. lia. }
      match goal with |- context [for_from ?lo ?n ?B ?S0] =>
        destruct (for_from_inv (fun i c => length c = nalloc /\ firstn dim c = firstn dim p /\
           forall j, dim <= j < i -> nth_error c j = Some zero) B lo n S0) as (r & E & I1 & I2 & I3) end.
      + split; auto. split; [|intros; lia]. unfold c0, splice. cbn [firstn app Nat.add].
        rewrite firstn_app, firstn_all2 by (rewrite firstn_length; lia).
        rewrite firstn_length. replace (dim - Nat.min dim (length p)) with 0 by lia.
        cbn [firstn]. apply app_nil_r.
      + intros i c Hi (J1 & J2 & J3). rewrite aset_ok by lia. eexists. split; [reflexivity|].
        rewrite upd_length. split; auto. split.
        * rewrite <- J2. apply nth_error_ext; [now rewrite !firstn_length, upd_length|].
          intros j Hj. rewrite firstn_length, upd_length in Hj.
          rewrite !nth_error_firstn by lia. rewrite nth_error_upd by lia.
          destruct (Nat.eqb_spec i j); [lia|auto].
        * intros j Hj. rewrite nth_error_upd by lia. destruct (Nat.eqb_spec i j); auto. apply J3. lia.
      + rewrite E. cbn [obind]. eexists _, _. split; [reflexivity|]. repeat split; auto; try lia.
        intros _ i Hi. apply I3. lia.
    - destruct (Nat.leb_spec dim nalloc).
      + rewrite blit_ok by lia. cbn [obind skipn]. eexists _, _. split; [reflexivity|].
        rewrite splice_length by (rewrite firstn_length; lia). repeat split; auto; try lia.
        unfold splice. cbn [firstn app Nat.add].
        rewrite firstn_app, firstn_all2 by (rewrite firstn_length; lia).
        rewrite firstn_length. replace (dim - Nat.min dim (length p)) with 0 by lia.
        cbn [firstn]. apply app_nil_r.
      + rewrite blit_ok by (rewrite ?repeat_length; lia). cbn [obind skipn]. eexists _, _. split; [reflexivity|].
        rewrite splice_full by (rewrite firstn_length, repeat_length; lia).
        rewrite firstn_length, firstn_firstn. repeat split; try lia. f_equal. lia.
  Qed.
End C10.

(** ** Non-vacuity: a train in three dimensions with blocks of different sizes
    and functions of every class (a kernel expansion with and without
    adjustable centers, a polynomial with spare storage, a piecewise
    polynomial). *)
Definition exP : ftrain (gfn Z unit) :=
  mkft 3 [1; 2; 1; 1]
    [mkq 1 2 [GPoly tt 2 4 [1; 2; 90; 91]%Z; GNod tt true 3 [0; 1; 2]%Z [3; 4; 5]%Z];
     mkq 2 1 [GKern tt true 2 [6; 7; 92]%Z [8; 9]%Z; GKern tt false 1 [10]%Z [80]%Z];
     mkq 1 1 [GPw tt]].
Definition zbad (z : Z) : bool := (1000 <? z)%Z.

Example C10_ok_ex : ft_ok exP.
Proof. split; [reflexivity|]. repeat constructor. Qed.
Example C10_params_ex : train_params exP = [1; 2; 3; 4; 5; 6; 7; 8; 9; 10]%Z.
Proof. reflexivity. Qed.
Example C10_get_ex : ft_get exP (repeat 0%Z 12) = Ok (10, [1; 2; 3; 4; 5; 6; 7; 8; 9; 10; 0; 0]%Z).
Proof. reflexivity. Qed.
Example C10_update_ex :
  (do (n, g) <- ft_update zbad 0%Z exP [11; 12; 13; 14; 15; 16; 17; 18; 19; 20; 21]%Z;
   Ok (n, train_params g)) = Ok (10, [11; 12; 13; 14; 15; 16; 17; 18; 19; 20]%Z).
Proof. reflexivity. Qed.
Example C10_nan_ex : ft_update zbad 0%Z exP [11; 12; 13; 14; 15; 16; 17; 18; 1001; 20; 21]%Z = Abort.
Proof. reflexivity. Qed.
Example C10_core_ex : ft_core_update zbad 0%Z exP 1 4 [11; 12; 13; 14; 15]%Z = Abort /\
  (do g <- ft_core_update zbad 0%Z exP 1 5 [11; 12; 13; 14; 15]%Z; Ok (train_params g))
  = Ok [1; 2; 3; 4; 5; 11; 12; 13; 14; 15]%Z.
Proof. split; reflexivity. Qed.

Print Assumptions C10_get.
Print Assumptions C10_count.
Print Assumptions C10_update_get.
Print Assumptions C10_get_update.
Print Assumptions C10_rejects_nan.
Print Assumptions C10_determined.
Print Assumptions C10_core.
Print Assumptions C10_core_wrong_count.
Print Assumptions C10_uni.
Print Assumptions C10_uni_wrong_count.
Print Assumptions C10_core_get.
Print Assumptions C10_poly_resize.
