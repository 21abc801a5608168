(** Facts about the maximum volume procedure. *)
From Coq Require Import Reals Lra.
From Verif Require Import TensorModel ParamFacts Fill QmaFacts OrthFacts RoundStep RoundRun.
From Verif Require Export PinvFacts.
Open Scope R_scope.

Section Maxvol.
  Context (svdf : nat -> nat -> list R -> outcome (list R * list R * list R)).
  Context {U : uops Rring} (W : vops U) (zt : R) (absmax1 : U -> R * R) (nodal : U -> bool).
  Context (onezero2 : list R -> U) (uone : U) (zpoly : list R -> U).

  (** value at pivot [i] of the function in column [j] *)
  Definition pv (A : qma U) (pivi : list nat) (pivx : list R) (i j : nat) : R :=
    ent (R := Rring) (fun f => uev f (nth i pivx 0 : Rring)) A (nth i pivi 0%nat) j.

  Lemma ent_some (A : qma U) i j : qwf A -> (i < nr A)%nat -> (j < nc A)%nat -> exists f, nth_error (fs A) (j * nr A + i) = Some f.
  Proof.
    intros H Hi Hj. unfold qwf in H. destruct (nth_error (fs A) (j * nr A + i)) eqn:E; [eauto|].
    apply nth_error_None in E. rewrite H in E. nia.
  Qed.

  Lemma pivot_matrix_ok (A : qma U) pivi pivx Um : qwf A -> length pivi = nc A -> length pivx = nc A ->
    (forall k, (k < nc A)%nat -> (nth k pivi 0 < nr A)%nat) -> length Um = (nc A * nc A)%nat ->
    exists Um', pivot_matrix A pivi pivx Um = Ok Um' /\ length Um' = (nc A * nc A)%nat /\
      forall i j, (i < nc A)%nat -> (j < nc A)%nat -> cm (nc A) Um' i j = pv A pivi pivx i j.
  Proof.
    intros HA L1 L2 HP HU. unfold pivot_matrix. set (r := nc A) in *.
    match goal with |- context [for_ r ?b0 ?s0] => destruct (for_inv (fun k (M : list R) => length M = (r * r)%nat /\
      forall i j, (i < k)%nat -> (j < r)%nat -> cm r M i j = pv A pivi pivx i j) b0 r s0) as (M & E & LM & HM) end.
    - split; [exact HU|]. intros; lia.
    - intros k M Hk [LM HM].
      match goal with |- context [for_ r ?b0 ?s0] => destruct (for_inv (fun q (N : list R) => length N = (r * r)%nat /\
        (forall i j, (i < k)%nat -> (j < r)%nat -> cm r N i j = pv A pivi pivx i j) /\
        (forall j, (j < q)%nat -> cm r N k j = pv A pivi pivx k j)) b0 r s0) as (N & E & LN & HN & HK) end.
      + split; [exact LM|]. split; [exact HM|]. intros; lia.
      + intros q N Hq (LN & HN & HK). cbn beta.
        assert (E1 : nth_error pivi k = Some (nth k pivi 0%nat)) by (apply nth_error_nth'; lia).
        assert (E2 : nth_error pivx k = Some (nth k pivx 0)) by (apply nth_error_nth'; lia).
        rewrite (aget_ok _ _ _ E1). cbn [obind]. rewrite (aget_ok _ _ _ E2). cbn [obind].
        destruct (ent_some A (nth k pivi 0%nat) q HA (HP k Hk) Hq) as [f Ef].
        rewrite (aget_ok _ _ _ Ef). cbn [obind].
        assert (exists N', aset N (q * r + k)%nat (uev f (nth k pivx 0 : Rring) : R) = Ok N') as [N' EN] by (eexists; apply aset_ok; nia).
        exists N'. split; [exact EN|]. destruct (nth_aset _ _ _ _ 0 EN) as [LN' VN'].
        split; [etransitivity; [exact LN'|exact LN]|]. split.
        * intros i j Hi Hj. unfold cm. rewrite VN'. destruct (Nat.eqb_spec (j * r + i) (q * r + k)) as [X|_]; [|apply HN; auto].
          exfalso. assert (i = k); [|lia]. destruct (Nat.div_mod_unique r j q i k); lia.
        * intros j Hj. unfold cm. rewrite VN'. destruct (Nat.eqb_spec (j * r + k) (q * r + k)) as [X|X].
          -- assert (j = q) by nia. subst j. unfold pv, ent, entry. now rewrite Ef.
          -- apply HK. assert (j <> q) by (intros ->; apply X; reflexivity). lia.
      + exists N. split; [exact E|]. split; [exact LN|]. intros i j Hi Hj.
        destruct (Nat.eq_dec i k) as [->|]; [apply HK; auto|apply HN; auto; lia].
    - exists M. split; [exact E|]. split; [exact LM|]. exact HM.
  Qed.

  (** What is known of the result of the pseudoinverse at given pivots. *)
  Definition is_pinv (A : qma U) (pivi : list nat) (pivx : list R) (inv : list R) (rank : nat) : Prop :=
    pivot_inverse svdf zt A pivi pivx = Ok (inv, rank) /\ length inv = (nc A * nc A)%nat.

  Context (N : nat) (F : Prop).
  Hypothesis Hsvd : svd_law N F svdf.
  Hypothesis Hzt : 0 < zt.

  Lemma pivot_inverse_ok (A : qma U) pivi pivx : (0 < nc A <= N)%nat -> qwf A -> length pivi = nc A -> length pivx = nc A ->
    (forall k, (k < nc A)%nat -> (nth k pivi 0 < nr A)%nat) ->
    (exists inv rank, is_pinv A pivi pivx inv rank) \/ (pivot_inverse svdf zt A pivi pivx = Abort /\ F).
  Proof.
    intros Hr HA L1 L2 HP. unfold is_pinv, pivot_inverse.
    destruct (pivot_matrix_ok A pivi pivx (repeat 0 (nc A * nc A)%nat) HA L1 L2 HP (repeat_length _ _)) as (Um & E & LU & _).
    rewrite E. cbn [obind].
    destruct (Hsvd (nc A) Um ltac:(lia) LU) as [(u & s & vt & Es & Sp)|[Es Fl]].
    - left. destruct (pinv_ok svdf (nc A) (nc A) Um zt u s vt Es Sp) as (X & EX & LX & _); [|eauto].
      intros k _. destruct (Req_dec (nth k s 0) 0) as [Z|Z]; [left; rewrite Z, Rabs_R0; exact Hzt|now right].
    - right. split; [|exact Fl]. unfold pinv. rewrite Es. reflexivity.
  Qed.

  Lemma split_ok nrows : (0 < nrows)%nat -> forall fuel c nsubs, (c < fuel)%nat ->
    split_index fuel nrows c nsubs = Ok (c mod nrows, nsubs + c / nrows)%nat.
  Proof.
    intros Hn. induction fuel as [|fuel IH]; intros c nsubs Hc; [lia|]. cbn [split_index].
    destruct (Nat.ltb_spec nrows (c + 1)) as [H|H].
    - rewrite IH by lia. assert (E : c = ((c - nrows) + 1 * nrows)%nat) by lia.
      rewrite E at 3 4. rewrite Nat.mod_add, Nat.div_add by lia. f_equal. f_equal. lia.
    - rewrite Nat.mod_small, Nat.div_small by lia. f_equal. f_equal. lia.
  Qed.

  Lemma absmax1d_ok (q : qma U) : qwf q -> (0 < nr q)%nat -> (0 < nc q)%nat ->
    exists x row col v f, qmarray_absmax1d absmax1 q = Ok (x, row, col, v) /\ (row < nr q)%nat /\ (col < nc q)%nat /\
      nth_error (fs q) (col * nr q + row) = Some f /\ absmax1 f = (v, x) /\
      forall i j g, (i < nr q)%nat -> (j < nc q)%nat -> nth_error (fs q) (j * nr q + i) = Some g -> fst (absmax1 g) <= v.
  Proof.
    intros Hq Hn Hm. unfold qmarray_absmax1d.
    destruct (absmax_ok absmax1 (nr q * nc q) ltac:(nia) (fs q) 0) as (v & k & x & f & E & Hk & Ef & Af & Am).
    { unfold qwf in Hq. cbn. etransitivity; [|apply Nat.eq_le_incl; symmetry; exact Hq]. lia. }
    rewrite E. cbn [obind]. rewrite split_ok by lia. cbn [obind].
    exists x, (k mod nr q)%nat, (k / nr q)%nat, v, f. split; [reflexivity|].
    split; [apply Nat.mod_upper_bound; lia|]. split; [apply Nat.div_lt_upper_bound; nia|].
    split; [|split; [exact Af|]].
    - rewrite (Nat.mul_comm (k / nr q)). rewrite <- Nat.div_mod by lia. exact Ef.
    - intros i j g Hi Hj Eg. apply (Am (j * nr q + i)%nat g); [nia|exact Eg].
  Qed.

  (** ** The loop *)
  Record mv_ok (A : qma U) (dom : R -> Prop) (s : mv_state) : Prop := {
    mo_p : length (mv_pivi s) = nc A; mo_x : length (mv_pivx s) = nc A;
    mo_in : forall k, (k < nc A)%nat -> (nth k (mv_pivi s) 0 < nr A)%nat;
    mo_dom : forall k, (k < nc A)%nat -> dom (nth k (mv_pivx s) 0);
    mo_inv : is_pinv A (mv_pivi s) (mv_pivx s) (mv_inv s) (mv_rank s);
    mo_row : (mv_row s < nr A)%nat; mo_col : (mv_col s < nc A)%nat; mo_d : dom (mv_x s) }.

  Lemma next_max (A : qma U) inv : qwf A -> (0 < nr A)%nat -> (0 < nc A)%nat -> length inv = (nc A * nc A)%nat ->
    exists B x row col v f, qmam A inv (nc A) = Ok B /\ qmarray_absmax1d absmax1 B = Ok (x, row, col, v) /\ (row < nr A)%nat /\ (col < nc A)%nat /\
      absmax1 f = (v, x) /\
      (forall phi, linfun (R := Rring) phi -> phi f = rsum (nc A) (fun k => cm (nc A) inv k col * ent (R := Rring) phi A row k)) /\
      (forall i j phi, (i < nr A)%nat -> (j < nc A)%nat -> linfun (R := Rring) phi -> ent (R := Rring) phi B i j = rsum (nc A) (fun k => cm (nc A) inv k j * ent (R := Rring) phi A i k)) /\
      (forall i j g, (i < nr A)%nat -> (j < nc A)%nat -> entry B i j = Some g -> fst (absmax1 g) <= v) /\ qwf B /\ nr B = nr A /\ nc B = nc A.
  Proof.
    intros HA Hn Hm HL.
    destruct (qmam_ok (R := Rring) A inv (nc A) (fun k i => cm (nc A) inv k i) HA Hm) as (B & EB & R1 & R2 & WB & HB).
    { intros k i Hk Hi. apply (cm_some (nc A) (nc A)); auto. }
    destruct (absmax1d_ok B WB ltac:(lia) ltac:(lia)) as (x & row & col & v & f & E & Hr & Hc & Ef & Af & Am).
    rewrite R1 in Hr. rewrite R2 in Hc.
    assert (HB' : forall i j phi, (i < nr A)%nat -> (j < nc A)%nat -> linfun (R := Rring) phi -> ent (R := Rring) phi B i j = rsum (nc A) (fun k => cm (nc A) inv k j * ent (R := Rring) phi A i k)).
    { intros i j phi Hi Hj Hp. destruct (HB i j Hi Hj) as (u & Eu & Hu). unfold ent at 1. rewrite Eu, (Hu phi Hp), rsum_sum. reflexivity. }
    exists B, x, row, col, v, f. split; [exact EB|]. split; [exact E|]. split; [exact Hr|]. split; [exact Hc|]. split; [exact Af|].
    split; [|split; [exact HB'|split; [|auto]]].
    - intros phi Hp. rewrite <- (HB' row col phi Hr Hc Hp). unfold ent, entry. rewrite Ef. reflexivity.
    - intros i j g Hi Hj Eg. apply (Am i j g); [lia|lia|exact Eg].
  Qed.

  Lemma maxvol_loop_ok (A : qma U) (dom : R -> Prop) : qwf A -> (0 < nr A)%nat -> (0 < nc A <= N)%nat -> (forall f, dom (snd (absmax1 f))) ->
    forall fuel s, mv_ok A dom s -> (33 < fuel + mv_iter s)%nat -> (mv_iter s <= 31)%nat ->
    (exists s', maxvol_loop svdf zt absmax1 fuel A s = Ok s' /\ mv_ok A dom s') \/ (maxvol_loop svdf zt absmax1 fuel A s = Abort /\ F).
  Proof.
    intros HA Hn Hm Hd. induction fuel as [|fuel IH]; intros s I Hf Hi; [lia|]. cbn [maxvol_loop].
    destruct (Rltb_spec (1 + 1 / 100) (mv_val s)) as [_|_]; [|left; eauto].
    destruct I as [I1 I2 I3 I4 I5 I6 I7 I8].
    assert (exists p', aset (mv_pivi s) (mv_col s) (mv_row s) = Ok p') as [p' Ep] by (eexists; apply aset_ok; lia).
    assert (exists x', aset (mv_pivx s) (mv_col s) (mv_x s) = Ok x') as [x' Ex] by (eexists; apply aset_ok; lia).
    rewrite Ep. cbn [obind]. rewrite Ex. cbn [obind].
    destruct (nth_aset _ _ _ _ 0%nat Ep) as [Lp Vp]. destruct (nth_aset _ _ _ _ 0 Ex) as [Lx Vx].
    assert (P1 : forall k, (k < nc A)%nat -> (nth k p' 0 < nr A)%nat).
    { intros k Hk. rewrite Vp. destruct (Nat.eqb_spec k (mv_col s)); auto. }
    assert (P2 : forall k, (k < nc A)%nat -> dom (nth k x' 0)).
    { intros k Hk. rewrite Vx. destruct (Nat.eqb_spec k (mv_col s)); auto. }
    destruct (pivot_inverse_ok A p' x' ltac:(lia) HA ltac:(lia) ltac:(lia) P1) as [(inv & rank & EI & LI)|[EI Fl]].
    2:{ right. rewrite EI. auto. }
    rewrite EI. cbn [obind].
    destruct (next_max A inv HA Hn ltac:(lia) LI) as (B & x & row & col & v & f & EB & EM & Hr & Hc & Af & _).
    rewrite EB. cbn [obind]. rewrite EM. cbn [obind].
    pose proof (Hd f) as Df. rewrite Af in Df. cbn [snd] in Df.
    destruct (Nat.ltb_spec 30 (mv_iter s)) as [H|H].
    - left. eexists. split; [reflexivity|]. constructor; cbn; auto; try lia. split; auto.
    - apply IH; cbn; try lia. constructor; cbn; auto; try lia. split; auto.
  Qed.

  (** ** Duplicates *)
  Definition apart (piv : list nat) (x : list R) (i j : nat) : Prop :=
    nth i piv 0%nat = nth j piv 0%nat -> zt <= Rabs (nth i x 0 - nth j x 0).
  Definition within (lb ub : R) (n : nat) (x : list R) : Prop := forall k, (k < n)%nat -> lb <= nth k x 0 <= ub.

  Lemma dup_inner_ok dim ii piv x lb ub : length piv = dim -> length x = dim ->
    forall todo jj, (ii < jj)%nat -> (jj + todo = dim)%nat ->
    (dup_inner zt todo jj ii piv x lb ub = Ok None /\ forall j, (jj <= j < dim)%nat -> apart piv x ii j) \/
    (exists x', dup_inner zt todo jj ii piv x lb ub = Ok (Some x') /\ length x' = dim /\
       (lb <= ub -> within lb ub dim x -> within lb ub dim x') /\ exists j, (jj <= j < dim)%nat /\ ~ apart piv x ii j).
  Proof.
    intros L1 L2. induction todo as [|todo IH]; intros jj Hj Ht; cbn [dup_inner].
    - left. split; [reflexivity|]. intros; lia.
    - assert (E1 : nth_error piv ii = Some (nth ii piv 0%nat)) by (apply nth_error_nth'; lia).
      assert (E2 : nth_error piv jj = Some (nth jj piv 0%nat)) by (apply nth_error_nth'; lia).
      assert (E3 : nth_error x ii = Some (nth ii x 0)) by (apply nth_error_nth'; lia).
      assert (E4 : nth_error x jj = Some (nth jj x 0)) by (apply nth_error_nth'; lia).
      rewrite (aget_ok _ _ _ E1), (aget_ok _ _ _ E2). cbn [obind].
      assert (step : apart piv x ii jj ->
        (dup_inner zt todo (jj + 1) ii piv x lb ub = Ok None /\ forall j, (jj <= j < dim)%nat -> apart piv x ii j) \/
        (exists x', dup_inner zt todo (jj + 1) ii piv x lb ub = Ok (Some x') /\ length x' = dim /\
          (lb <= ub -> within lb ub dim x -> within lb ub dim x') /\ exists j, (jj <= j < dim)%nat /\ ~ apart piv x ii j)).
      { intros Ha. destruct (IH (jj + 1)%nat ltac:(lia) ltac:(lia)) as [[E H]|(x' & E & L & Hw & j & Hj' & Hn)].
        - left. split; [exact E|]. intros j Hj'. destruct (Nat.eq_dec j jj) as [->|]; [exact Ha|apply H; lia].
        - right. exists x'. split; [exact E|]. split; [exact L|]. split; [exact Hw|]. exists j. split; [lia|exact Hn]. }
      destruct (Nat.eqb_spec (nth ii piv 0%nat) (nth jj piv 0%nat)) as [Ep|Np].
      + rewrite (aget_ok _ _ _ E3), (aget_ok _ _ _ E4). cbn [obind].
        destruct (Rltb_spec (Rabs (nth ii x 0 - nth jj x 0)) zt) as [H|H].
        * right. match goal with |- context [aset x jj ?v] => set (y := v) end.
          assert (exists x', aset x jj y = Ok x') as [x' Ex] by (eexists; apply aset_ok; lia).
          rewrite Ex. cbn [obind]. destruct (nth_aset _ _ _ _ 0 Ex) as [Lx Vx]. exists x'. split; [reflexivity|]. split; [lia|]. split.
          -- intros Hb Hw k Hk. rewrite Vx. destruct (Nat.eqb_spec k jj); [|apply Hw; exact Hk].
             pose proof (Hw jj ltac:(lia)). unfold y. destruct (Rltb _ _); lra.
          -- exists jj. split; [lia|]. intros Ha. specialize (Ha Ep). lra.
        * apply step. intros _. lra.
      + apply step. intros X. contradiction.
  Qed.

  Lemma dup_outer_ok dim piv x lb ub : length piv = dim -> length x = dim ->
    forall todo ii, (ii + todo = dim)%nat ->
    (dup_outer zt todo ii dim piv x lb ub = Ok None /\ forall i j, (ii <= i)%nat -> (i < j < dim)%nat -> apart piv x i j) \/
    (exists x', dup_outer zt todo ii dim piv x lb ub = Ok (Some x') /\ length x' = dim /\
       (lb <= ub -> within lb ub dim x -> within lb ub dim x') /\ exists i j, (i < j < dim)%nat /\ ~ apart piv x i j).
  Proof.
    intros L1 L2. induction todo as [|todo IH]; intros ii Ht; cbn [dup_outer].
    - left. split; [reflexivity|]. intros; lia.
    - destruct (dup_inner_ok dim ii piv x lb ub L1 L2 (dim - (ii + 1)) (ii + 1) ltac:(lia) ltac:(lia)) as [[E H]|(x' & E & L & Hw & j & Hj & Hn)]; rewrite E; cbn [obind].
      + destruct (IH (ii + 1)%nat ltac:(lia)) as [[E' H']|(x' & E' & L & Hw & i & j & Hj & Hn)].
        * left. split; [exact E'|]. intros i j Hi Hij. destruct (Nat.eq_dec i ii) as [->|]; [apply H; lia|apply H'; lia].
        * right. exists x'. split; [exact E'|]. split; [exact L|]. split; [exact Hw|]. exists i, j. auto.
      + right. exists x'. split; [reflexivity|]. split; [exact L|]. split; [exact Hw|]. exists ii, j. split; [lia|exact Hn].
  Qed.

  Lemma remove_duplicates_ok dim piv lb ub : length piv = dim -> forall fuel x, length x = dim ->
    (remove_duplicates zt fuel dim piv x lb ub = OutOfFuel /\ (fuel = 0%nat \/ exists i j, (i < j < dim)%nat /\ ~ apart piv x i j)) \/
    (exists x', remove_duplicates zt fuel dim piv x lb ub = Ok x' /\ length x' = dim /\
       (lb <= ub -> within lb ub dim x -> within lb ub dim x') /\
       (forall i j, (i < j < dim)%nat -> apart piv x' i j) /\
       ((forall i j, (i < j < dim)%nat -> apart piv x i j) -> x' = x)).
  Proof.
    intros L1. induction fuel as [|fuel IH]; intros x L2; cbn [remove_duplicates]; [left; auto|].
    destruct (dup_outer_ok dim piv x lb ub L1 L2 dim 0 ltac:(lia)) as [[E H]|(x' & E & L & Hw & i & j & Hij & Hn)]; rewrite E; cbn [obind].
    - right. exists x. split; [reflexivity|]. split; [exact L2|]. split; [auto|]. split; [|auto]. intros i j Hij. apply H; lia.
    - destruct (IH x' L) as [[E' _]|(x'' & E' & L' & Hw' & Ha & _)].
      + left. split; [exact E'|]. right. exists i, j. auto.
      + right. exists x''. split; [exact E'|]. split; [exact L'|]. split; [auto|]. split; [exact Ha|].
        intros Hall. exfalso. apply Hn. apply Hall. exact Hij.
  Qed.
End Maxvol.
