(** C96: cross validation; C97: the search for settings on a grid. *)
From Verif Require Import Base BaseFacts TensorFacts ParamFacts OptFacts CvModel.
From Coq Require Import Reals Lra Permutation Lia.
Open Scope nat_scope.

(** ** Specification *)
(** Fold [i] of [k]: the samples from number [lo] up to [hi]; the last fold takes the rest. *)
Definition lo (k N i : nat) : nat := i * (N / k).
Definition hi (k N i : nat) : nat := if i =? k - 1 then N else (i + 1) * (N / k).
Definition test {A} (k : nat) (s : list A) (i : nat) : list A := firstn (hi k (length s) i - lo k (length s) i) (skipn (lo k (length s) i) s).
Definition train {A} (k : nat) (s : list A) (i : nat) : list A := firstn (lo k (length s) i) s ++ skipn (hi k (length s) i) s.

Section Spec.
  Variable K : fops.
  Variable P S T : Type.
  Variable run : reg K P S -> nat -> list K -> list K -> outcome (T * S).
  Variable teval : T -> list K -> K.
  Open Scope fop_scope.
  Definition total (l : list K) : K := fold_left (fadd (f := K)) l f0.
  (** the squared residuals and labels of some samples *)
  Definition resid2 (t : T) (s : list (list K * K)) : K := total (map (fun p => (snd p -^ teval t (fst p)) *^ (snd p -^ teval t (fst p))) s).
  Definition labels2 (s : list (list K * K)) : K := total (map (fun p => snd p *^ snd p) s).
  Definition flat (s : list (list K * K)) : list K := concat (map fst s).
  (** the first [n] folds: each one is fitted to the samples outside of it, from the
      same parameters, and tested on its own *)
  Fixpoint folds (k : nat) (s : list (list K * K)) (r : reg K P S) (n : nat) : outcome (K * K * S) :=
    match n with
    | 0 => Ok (f0, f0, r_rest K P S r)
    | Datatypes.S n =>
        do (e, m, st) <- folds k s r n;
        do (t, st) <- run (mkreg K P S (r_ftp K P S r) (r_np K P S r) (r_w K P S r) (r_max K P S r) st)
                          (length (train k s n)) (flat (train k s n)) (map snd (train k s n));
        Ok (e +^ resid2 t (test k s n), m +^ labels2 (test k s n), st)
    end.
End Spec.

(** ** The folds *)
Lemma lo_hi k N i : 0 < k -> i < k -> lo k N i <= hi k N i /\ hi k N i <= N.
Proof.
  intros Hk Hi. unfold lo, hi. assert (A := Nat.mul_div_le N k ltac:(lia)). set (b := N / k) in *. destruct (Nat.eqb_spec i (k - 1)); nia.
Qed.
Lemma hi_lo k N i : i + 1 < k -> hi k N i = lo k N (i + 1).
Proof. intros H. unfold hi, lo. destruct (Nat.eqb_spec i (k - 1)); lia. Qed.
(** Every sample is tested exactly once, and is outside of the fold in all others. *)
Theorem C96_tested_once {A} k (s : list A) : 0 < k -> concat (map (test k s) (seq 0 k)) = s.
Proof.
  intros Hk. assert (H : forall n, n < k -> concat (map (test k s) (seq 0 n)) = firstn (lo k (length s) n) s).
  { induction n as [|n IH]; intros Hn; [reflexivity|]. rewrite seq_S, map_app, concat_app, IH by lia. cbn [map concat Nat.add]. rewrite app_nil_r.
    unfold test. rewrite (hi_lo k (length s) n) by lia. rewrite Nat.add_1_r. assert (L : lo k (length s) n <= lo k (length s) (S n)) by (unfold lo; nia).
    rewrite <- (firstn_skipn (lo k (length s) n) (firstn (lo k (length s) (S n)) s)). rewrite firstn_firstn, Nat.min_l by lia. f_equal. now rewrite skipn_firstn_comm. }
  replace k with (S (k - 1)) at 2 by lia. rewrite seq_S, map_app, concat_app, H by lia. cbn [map concat Nat.add]. rewrite app_nil_r. unfold test, hi. rewrite Nat.eqb_refl.
  rewrite (firstn_all2 (skipn _ _)) by (rewrite skipn_length; lia). apply firstn_skipn.
Qed.
Print Assumptions C96_tested_once.
Theorem C96_separate {A} k (s : list A) i : 0 < k -> i < k -> Permutation s (test k s i ++ train k s i).
Proof.
  intros Hk Hi. destruct (lo_hi k (length s) i Hk Hi) as [A1 A2]. unfold test, train. set (a := lo _ _ _) in *. set (b := hi _ _ _) in *.
  replace s with (firstn a s ++ firstn (b - a) (skipn a s) ++ skipn b s) at 1.
  - rewrite !app_assoc. apply Permutation_app_tail, Permutation_app_comm.
  - replace b with (a + (b - a)) at 2 by lia. rewrite <- (skipn_add (b - a) a s). now rewrite !firstn_skipn.
Qed.
Print Assumptions C96_separate.
Theorem C96_sizes {A} k (s : list A) i : 0 < k -> i < k ->
  length (test k s i) = (if i =? k - 1 then length s - (k - 1) * (length s / k) else length s / k) /\ length (train k s i) = length s - length (test k s i).
Proof.
  intros Hk Hi. destruct (lo_hi k (length s) i Hk Hi) as [A1 A2]. unfold test, train. rewrite app_length, !firstn_length, !skipn_length. split.
  - assert (L : hi k (length s) i - lo k (length s) i = if i =? k - 1 then length s - (k - 1) * (length s / k) else length s / k).
    { unfold hi, lo. destruct (Nat.eqb_spec i (k - 1)) as [->|]; lia. }
    rewrite L, Nat.min_l by lia. reflexivity.
  - lia.
Qed.
Print Assumptions C96_sizes.
Example C96_folds_case : map (test 3 [1; 2; 3; 4; 5; 6; 7; 8]) [0; 1; 2] = [[1; 2]; [3; 4]; [5; 6; 7; 8]] /\ train 3 [1; 2; 3; 4; 5; 6; 7; 8] 1 = [1; 2; 5; 6; 7; 8].
Proof. split; reflexivity. Qed.

(** ** The model meets it *)
Section Flat.
  Variable A : Type.
  Variable d : nat.
  Implicit Type s : list (list A * A).
  Definition dims s : Prop := Forall (fun p => length (fst p) = d) s.
  Let fl s := concat (map fst s).
  Lemma flat_length s : dims s -> length (fl s) = length s * d.
  Proof. induction 1 as [|p s Hp _ IH]; cbn; [reflexivity|]. fold (fl s). rewrite app_length, IH, Hp. lia. Qed.
  Lemma dims_firstn n s : dims s -> dims (firstn n s).
  Proof. intros H. revert n. induction H; intros [|n]; cbn; constructor; auto. apply IHForall. Qed.
  Lemma dims_skipn n s : dims s -> dims (skipn n s).
  Proof. intros H. revert n. induction H; intros [|n]; cbn; auto; constructor; auto. Qed.
  Lemma flat_firstn n s : dims s -> fl (firstn n s) = firstn (n * d) (fl s).
  Proof.
    intros H. revert n. induction H as [|p s Hp H IH]; intros [|n]; cbn; try reflexivity; [now rewrite firstn_nil|]. fold (fl s). rewrite firstn_app, Hp.
    replace (d + n * d - d) with (n * d) by lia. rewrite (firstn_all2 (fst p)) by (rewrite Hp; apply Nat.le_add_r). f_equal. apply IH.
  Qed.
  Lemma flat_skipn n s : dims s -> fl (skipn n s) = skipn (n * d) (fl s).
  Proof.
    intros H. revert n. induction H as [|p s Hp H IH]; intros [|n]; cbn; try reflexivity; [now rewrite skipn_nil|]. fold (fl s). rewrite skipn_app, Hp.
    replace (d + n * d - d) with (n * d) by lia. rewrite (skipn_all2 (fst p)) by (rewrite Hp; apply Nat.le_add_r). apply IH.
  Qed.
  Lemma flat_app s s' : fl (s ++ s') = fl s ++ fl s'.
  Proof. unfold fl. now rewrite map_app, concat_app. Qed.
  Lemma flat_point s j p l : dims s -> nth_error s j = Some p -> firstn d (skipn (j * d) (fl s ++ l)) = fst p.
  Proof.
    intros H E. assert (Hj : j < length s) by (apply nth_error_Some; congruence). rewrite skipn_app. rewrite <- flat_skipn by auto.
    assert (X : skipn j s = p :: skipn (S j) s).
    { clear - E. revert s E. induction j as [|j IH]; intros [|q s] E; try discriminate; cbn in *; [congruence|]. now apply IH. }
    rewrite X. cbn. assert (Lp : length (fst p) = d). { unfold dims in H. rewrite Forall_forall in H. apply H. eapply nth_error_In; eauto. }
    rewrite <- app_assoc, firstn_app, Lp, Nat.sub_diag, firstn_all2 by lia. cbn. apply app_nil_r.
  Qed.
End Flat.

Lemma splice0 {A} (p l : list A) : splice 0 p l = p ++ skipn (length p) l.
Proof. reflexivity. Qed.
Lemma firstn_app_exact {A} (p q : list A) n : n = length p -> firstn n (p ++ q) = p.
Proof. intros ->. rewrite firstn_app, Nat.sub_diag, firstn_all. apply app_nil_r. Qed.

Section Model.
  Variable K : fops.
  Variable P S T : Type.
  Variable run : reg K P S -> nat -> list K -> list K -> outcome (T * S).
  Variable teval : T -> list K -> K.
  Variable d k : nat.
  Variable s : list (list K * K).
  Hypothesis Hs : dims K d s.
  Hypothesis Hk : 0 < k.
  Notation N := (length s).
  Notation cv := (mkcv K N d (flat K s) (map snd s) k).

  Definition bufs_ok (b : list K * list K * list K * list K) : Prop :=
    let '(xt, yt, xr, yr) := b in length xt = N * d /\ length yt = N /\ length xr = N * d /\ length yr = N.

  Lemma extract_ok start num b : start + num <= N -> bufs_ok b ->
    exists xt yt xr yr, extract_data K cv start num b = Ok (flat K (firstn num (skipn start s)) ++ xt, map snd (firstn num (skipn start s)) ++ yt,
        flat K (firstn start s ++ skipn (start + num) s) ++ xr, map snd (firstn start s ++ skipn (start + num) s) ++ yr) /\
      bufs_ok (flat K (firstn num (skipn start s)) ++ xt, map snd (firstn num (skipn start s)) ++ yt,
        flat K (firstn start s ++ skipn (start + num) s) ++ xr, map snd (firstn start s ++ skipn (start + num) s) ++ yr).
  Proof using Hs.
    clear Hk. intros Hn Hb. destruct b as [[[xtest ytest] xtrain] ytrain]. destruct Hb as (L1 & L2 & L3 & L4).
    assert (Lf : length (flat K s) = N * d) by now apply flat_length. assert (Ly : length (map snd s) = N) by apply map_length.
    unfold extract_data. cbn [c_dim c_x c_y c_N].
    assert (D1 := dims_firstn K d start s Hs). assert (D2 := dims_skipn K d (start + num) s Hs). assert (D3 := dims_firstn K d num _ (dims_skipn K d start s Hs)).
    rewrite blit_ok by nia. cbn [obind]. rewrite blit_ok by lia. cbn [obind]. rewrite blit_ok by nia. cbn [obind]. rewrite blit_ok by lia. cbn [obind skipn].
    assert (E1 : firstn (d * num) (skipn (start * d) (flat K s)) = flat K (firstn num (skipn start s))).
    { unfold flat at 2. rewrite (flat_firstn K d) by now apply dims_skipn. rewrite (flat_skipn K d) by auto. now rewrite (Nat.mul_comm num d). }
    assert (E2 : firstn num (skipn start (map snd s)) = map snd (firstn num (skipn start s))) by (now rewrite skipn_map, firstn_map).
    assert (E3 : firstn (d * start) (flat K s) = flat K (firstn start s)).
    { unfold flat at 2. rewrite (flat_firstn K d) by auto. now rewrite (Nat.mul_comm start d). }
    assert (E4 : firstn start (map snd s) = map snd (firstn start s)) by now rewrite firstn_map.
    rewrite E1, E2, E3, E4.
    assert (F1 : length (flat K (firstn start s)) = start * d) by (unfold flat; rewrite (flat_length K d) by auto; rewrite firstn_length; nia).
    assert (F2 : length (map snd (firstn start s)) = start) by (rewrite map_length, firstn_length; lia).
    assert (E5 : firstn (d * (N - start - num)) (skipn ((start + num) * d) (flat K s)) = flat K (skipn (start + num) s)).
    { unfold flat at 2. rewrite (flat_skipn K d) by auto. apply firstn_all2. unfold flat. rewrite skipn_length. fold (flat K s). rewrite Lf. nia. }
    assert (E6 : firstn (N - start - num) (skipn (start + num) (map snd s)) = map snd (skipn (start + num) s)).
    { rewrite skipn_map. apply firstn_all2. rewrite map_length, skipn_length. lia. }
    rewrite blit_ok by (rewrite ?splice_length; nia). cbn [obind]. rewrite blit_ok by (rewrite ?splice_length; lia). cbn [obind]. rewrite E5, E6.
    assert (F3 : length (flat K (skipn (start + num) s)) = (N - start - num) * d) by (unfold flat; rewrite (flat_length K d) by auto; rewrite skipn_length; nia).
    assert (F4 : length (map snd (skipn (start + num) s)) = N - start - num) by (rewrite map_length, skipn_length; lia).
    assert (H1 : splice (start * d) (flat K (skipn (start + num) s)) (splice 0 (flat K (firstn start s)) xtrain) = splice 0 (flat K (firstn start s ++ skipn (start + num) s)) xtrain).
    { rewrite <- F1. etransitivity; [apply (splice_app 0); nia|]. f_equal. unfold flat. now rewrite map_app, concat_app. }
    assert (H2 : splice start (map snd (skipn (start + num) s)) (splice 0 (map snd (firstn start s)) ytrain) = splice 0 (map snd (firstn start s ++ skipn (start + num) s)) ytrain).
    { replace start with (0 + length (map snd (firstn start s))) at 1 by lia. etransitivity; [apply (splice_app 0); lia|]. f_equal. now rewrite map_app. }
    rewrite H1, H2.
    rewrite !splice0. do 4 eexists. split; [reflexivity|].
    assert (G1 : length (flat K (firstn num (skipn start s))) = num * d) by (unfold flat; rewrite (flat_length K d) by auto; rewrite firstn_length, skipn_length; nia).
    assert (G2 : length (flat K (firstn start s ++ skipn (start + num) s)) = (N - num) * d).
    { unfold flat. rewrite (flat_app K), app_length. fold (flat K (firstn start s)). fold (flat K (skipn (start + num) s)). rewrite F1, F3. nia. }
    assert (G3 : length (map snd (firstn start s ++ skipn (start + num) s)) = N - num) by (rewrite map_app, app_length, F2, F4; lia).
    assert (G4 : length (map snd (firstn num (skipn start s))) = num) by (rewrite map_length, firstn_length, skipn_length; lia).
    unfold bufs_ok. rewrite !app_length, !skipn_length, G1, G2, G3, G4. repeat split; nia.
  Qed.

  Lemma total_snoc l (a : K) : total K (l ++ [a]) = fadd (total K l) a.
  Proof using. clear. unfold total. now rewrite fold_left_app. Qed.
  Lemma errs_ok t te xt yt : dims K d te ->
    for_ (length te) (fun jj '(ne, nn) => do y <- aget (map snd te ++ yt) jj;
        Ok (fadd ne (fmul (fsub y (teval t (firstn d (skipn (jj * d) (flat K te ++ xt))))) (fsub y (teval t (firstn d (skipn (jj * d) (flat K te ++ xt)))))), fadd nn (fmul y y))) (f0, f0)
    = Ok (resid2 K T teval t te, labels2 K te).
  Proof using.
    clear. intros Hd. set (st := fun j => (resid2 K T teval t (firstn j te), labels2 K (firstn j te))).
    change (f0, f0) with (st 0). replace (resid2 K T teval t te, labels2 K te) with (st (length te)) by (unfold st; now rewrite firstn_all).
    apply for_det. intros j Hj. destruct (nth_error te j) as [p|] eqn:E; [|apply nth_error_None in E; lia].
    unfold st at 1. unfold aget. rewrite nth_error_app1 by (rewrite map_length; lia). rewrite (map_nth_error snd j te E). cbn [obind]. cbv zeta. unfold flat.
    rewrite (flat_point K d te j p xt Hd E). unfold st, resid2, labels2. rewrite (firstn_S_nth te j p E). rewrite !map_app. cbn [map]. now rewrite !total_snoc.
  Qed.

  (** Cross validation returns the total squared residual of the test samples over the
      total square of the labels, each fold having been fitted to the other samples from
      the parameters before the call; if a fit fails, so does the whole.  Afterwards the
      parameters and settings are what they were. *)
  Theorem cv_ok (r : reg K P S) : cross_validate_run K P S T run teval cv r =
    (do (e, n, st) <- folds K P S T run teval k s r k; Ok (fdiv e n, mkreg K P S (r_ftp K P S r) (r_np K P S r) (r_w K P S r) (r_max K P S r) st)).
  Proof using Hs Hk.
    unfold cross_validate_run. cbn [c_N c_dim c_kfold]. replace (k =? 0) with false by (symmetry; apply Nat.eqb_neq; lia).
    match goal with |- obind (for_ k ?b ?i) ?c = _ => set (body := b); set (init := i); set (fin := c) end.
    assert (L : forall n, n <= k ->
      (exists e m st batch b, folds K P S T run teval k s r n = Ok (e, m, st) /\ bufs_ok b /\ for_ n body init = Ok (e, m, (if n =? k then N else lo k N n), batch, b, st) /\ (n < k -> batch = N / k)) \/
      (folds K P S T run teval k s r n = Abort /\ for_ n body init = Abort) \/ (folds K P S T run teval k s r n = UB /\ for_ n body init = UB) \/
      (folds K P S T run teval k s r n = OutOfFuel /\ for_ n body init = OutOfFuel)).
    { induction n as [|n IH]; intros Hn.
      - left. eexists _, _, _, _, _. split; [reflexivity|]. split; [|split; [|intros _; reflexivity]].
        2:{ unfold for_, init. cbn [for_from]. replace (0 =? k) with false by (symmetry; apply Nat.eqb_neq; lia). reflexivity. }
        cbn. now rewrite !repeat_length.
      - rewrite !for_S. cbn [folds]. destruct (IH ltac:(lia)) as [(e & m & st & batch & b & E1 & Hb & E2 & E3)|[(E1 & E2)|[(E1 & E2)|(E1 & E2)]]]; rewrite E1, E2; cbn [obind]; auto.
        replace (n =? k) with false by (symmetry; apply Nat.eqb_neq; lia). unfold body. rewrite (E3 ltac:(lia)).
        destruct (lo_hi k N n Hk ltac:(lia)) as [A1 A2].
        assert (B : (if n =? k - 1 then N - lo k N n else N / k) = hi k N n - lo k N n) by (unfold hi, lo; destruct (n =? k - 1); lia). rewrite B.
        destruct (extract_ok (lo k N n) (hi k N n - lo k N n) b ltac:(lia) Hb) as (xt & yt & xr & yr & Ex & Hb'). rewrite Ex. clear Ex. cbn [obind].
        replace (lo k N n + (hi k N n - lo k N n)) with (hi k N n) in * by lia. fold (test k s n) in *. fold (train k s n) in *.
        assert (Lt : length (test k s n) = hi k N n - lo k N n) by (unfold test; rewrite firstn_length, skipn_length; lia).
        assert (Lr : length (train k s n) = N - (hi k N n - lo k N n)) by (unfold train; rewrite app_length, firstn_length, skipn_length; lia).
        assert (Dr : dims K d (train k s n)) by (apply Forall_app; split; [now apply dims_firstn|now apply dims_skipn]).
        rewrite <- Lr. rewrite firstn_app_exact by (symmetry; now apply flat_length). rewrite firstn_app_exact by (symmetry; apply map_length).
        destruct (run _ _ _ _) as [[t st']| | |]; cbn [obind]; auto.
        left. eexists _, _, _, _, _. split; [reflexivity|]. split; [exact Hb'|]. split.
        + rewrite <- Lt. rewrite (errs_ok t (test k s n) xt yt) by (apply dims_firstn, dims_skipn, Hs). cbn [obind]. rewrite Lt.
          replace (if Datatypes.S n =? k then N else lo k N (Datatypes.S n)) with (hi k N n); [reflexivity|].
          unfold hi, lo. destruct (Nat.eqb_spec n (k - 1)), (Nat.eqb_spec (Datatypes.S n) k); lia.
        + intros H. unfold hi, lo. destruct (Nat.eqb_spec n (k - 1)); lia. }
    destruct (L k (le_n k)) as [(e & m & st & batch & b & E1 & Hb & E2 & _)|[(E1 & E2)|[(E1 & E2)|(E1 & E2)]]]; rewrite E1, E2; reflexivity.
  Qed.
End Model.

(** Beside [cv_ok]: for samples that are handed over in two flat arrays. *)
Theorem C96_cv (K : fops) (P S T : Type) run teval d k (s : list (list K * K)) (r : reg K P S) :
  Forall (fun p => length (fst p) = d) s -> 0 < k ->
  cross_validate_run K P S T run teval (mkcv K (length s) d (flat K s) (map snd s) k) r =
  (do (e, n, st) <- folds K P S T run teval k s r k; Ok (fdiv e n, mkreg K P S (r_ftp K P S r) (r_np K P S r) (r_w K P S r) (r_max K P S r) st)).
Proof. intros H Hk. now apply cv_ok. Qed.
Print Assumptions C96_cv.
(** Without folds the program divides by zero. *)
Theorem C96_no_folds_refuted (K : fops) (P S T : Type) run teval N d x y (r : reg K P S) : cross_validate_run K P S T run teval (mkcv K N d x y 0) r = UB.
Proof. reflexivity. Qed.
Print Assumptions C96_no_folds_refuted.

(** ** Weights of samples *)
(** The weights of the samples belong to the options and are looked up by the position
    of a sample in the data of the regression (objective_functions.c 166 and 198).  Take
    for the regression the best constant for such weights. *)
Open Scope R_scope.
Definition wobj (w y : list R) (c : R) : R := fold_right Rplus 0 (map (fun p => fst p * (snd p - c) ^ 2) (combine w y)).
Definition wmean (w y : list R) : R := fold_right Rplus 0 (map (fun p => fst p * snd p) (combine w y)) / fold_right Rplus 0 (map fst (combine w y)).
Lemma wmean_best w y c : 0 < fold_right Rplus 0 (map fst (combine w y)) -> wobj w y (wmean w y) <= wobj w y c.
Proof.
  intros H. unfold wobj, wmean. set (l := combine w y) in *.
  assert (E : forall c, fold_right Rplus 0 (map (fun p => fst p * (snd p - c) ^ 2) l) = fold_right Rplus 0 (map (fun p => fst p * snd p ^ 2) l)
    - 2 * c * fold_right Rplus 0 (map (fun p => fst p * snd p) l) + c ^ 2 * fold_right Rplus 0 (map fst l)).
  { intros a. clear. induction l as [|p l IH]; cbn [map fold_right]; [ring|]. rewrite IH. ring. }
  rewrite !E. set (A := fold_right Rplus 0 (map (fun p => fst p * snd p) l)). set (B := fold_right Rplus 0 (map fst l)) in *.
  set (m := A / B). assert (Em : A = m * B) by (unfold m; field; lra). rewrite Em. assert (0 <= (c - m) ^ 2 * B) by (apply Rmult_le_pos; [apply pow2_ge_0|lra]). nra.
Qed.
Definition wrun (w : list R) (r : reg RO unit unit) (n : nat) (x y : list R) : outcome (R * unit) := Ok (wmean (firstn n w) y, tt).
(** the same with weights that stay with their samples *)
Fixpoint wfolds (k : nat) (s : list (R * (list R * R))) (n : nat) : R * R :=
  match n with
  | O => (0, 0)
  | S n => let '(e, m) := wfolds k s n in
      let c := wmean (map fst (train k s n)) (map (fun p => snd (snd p)) (train k s n)) in
      (e + fold_right Rplus 0 (map (fun p => (snd (snd p) - c) ^ 2) (test k s n)), m + fold_right Rplus 0 (map (fun p => snd (snd p) ^ 2) (test k s n)))
  end.
Theorem C96_weights_refuted : exists (s : list (R * (list R * R))) d k err r', Forall (fun p => length (fst (snd p)) = d) s /\ Forall (fun p => 0 <= fst p) s /\ (1 < k <= length s)%nat /\
  cross_validate_run RO unit unit R (wrun (map fst s)) (fun c _ => c) (mkcv RO (length s) d (flat RO (map snd s)) (map (fun p => snd (snd p)) s) k)
    (mkreg RO unit unit tt [] 0 0 tt) = Ok (err, r') /\
  err <> fst (wfolds k s k) / snd (wfolds k s k).
Proof.
  exists [(1, ([0], 0)); (1, ([0], 0)); (0, ([0], 1))], 1%nat, 3%nat. eexists _, _.
  split; [repeat constructor|]. split; [repeat constructor; cbn; lra|]. split; [cbn; lia|]. split.
  - rewrite <- map_map. erewrite <- (map_length snd). rewrite C96_cv; [|repeat constructor|lia]. cbn [map snd]. reflexivity.
  - unfold wfolds, test, train, lo, hi, resid2, labels2, total, wmean. cbn. intros E.
    match type of E with ?a = ?b => assert (A : a = 3 / 2) by field; assert (B : b = 1) by field end. lra.
Qed.
Print Assumptions C96_weights_refuted.
(** a run with two folds of two samples and the mean as regression *)
Example C96_case : exists r', cross_validate_run RO unit unit R (wrun [1; 1; 1]) (fun c _ => c) (mkcv RO 4 1 [0; 0; 0; 0] [1; 3; 2; 4] 2)
    (mkreg RO unit unit tt [] 0 0 tt) = Ok (8 / 30, r').
Proof.
  eexists. change [0; 0; 0; 0] with (flat RO [([0], 1); ([0], 3); ([0], 2); ([0], 4)]). change [1; 3; 2; 4] with (map snd [([0], 1); ([0], 3); ([0], 2); ([0], 4)]).
  change 4%nat with (length [([0], 1); ([0], 3); ([0], 2); ([0], 4)]) at 1. rewrite C96_cv; [|repeat constructor|lia].
  unfold folds, wrun. cbn. apply f_equal. f_equal. unfold resid2, labels2, total, wmean. cbn. field.
Qed.
