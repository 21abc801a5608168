(** C97: the search for settings on a grid. *)
From Verif Require Import Base BaseFacts TensorFacts ParamFacts OptFacts CvModel PropCv.
From Coq Require Import Reals Lra Psatz Lia.
Open Scope nat_scope.

(** ** Specification *)
Section Spec.
  Variable K : fops.
  Definition values (a : axis K) : list (setting K) :=
    match a with
    | ARank _ l => map (SRank K) l | ANum _ l => map (SNum K) l | AMaxiter _ l => map (SMaxiter K) l | AWeight _ l => map (SWeight K) l
    end.
  (** all choices of one value for each setting *)
  Fixpoint choices (g : list (axis K)) : list (list (setting K)) :=
    match g with
    | [] => [[]]
    | a :: g => flat_map (fun v => map (cons v) (choices g)) (values a)
    end.
End Spec.

(** ** The cases *)
Lemma value_ok K (a : axis K) i : i < nvals K a -> exists v, nth_error (values K a) i = Some v /\ value K a i = Ok v.
Proof.
  destruct a as [l|l|l|l]; cbn [nvals values value]; intros Hi; unfold aget;
    (destruct (nth_error l i) as [n|] eqn:E; [|apply nth_error_None in E; lia]); cbn [obind]; eexists; split; try reflexivity; erewrite map_nth_error by eassumption; reflexivity.
Qed.
Lemma values_length K (a : axis K) : length (values K a) = nvals K a.
Proof. destruct a; apply map_length. Qed.
(** pushing one block after the other *)
Lemma push_all {A B} (l : list A) (blk : A -> list B) n body (z : list B) : length l = n ->
  (forall i a acc, nth_error l i = Some a -> body i acc = Ok (rev (blk a) ++ acc)) -> for_ n body z = Ok (rev (flat_map blk l) ++ z).
Proof.
  intros <- H. set (st := fun i => rev (flat_map blk (firstn i l)) ++ z).
  change z with (st 0) at 1. replace (rev (flat_map blk l) ++ z) with (st (length l)) by (unfold st; now rewrite firstn_all).
  apply for_det. intros i Hi. destruct (nth_error l i) as [a|] eqn:E; [|apply nth_error_None in E; lia]. rewrite (H i a) by auto. f_equal. unfold st.
  rewrite (firstn_S_nth l i a E), flat_map_app, rev_app_distr. cbn [flat_map]. now rewrite app_nil_r, app_assoc.
Qed.
(** For one to three settings the cases are all choices, the last one first. *)
Theorem C97_cases K (g : list (axis K)) : 1 <= length g <= 3 -> setup_cases K g = Ok (rev (choices K g)).
Proof.
  intros Hg. destruct g as [|a [|b [|c [|]]]]; cbn [length] in Hg; try lia; cbn [setup_cases choices].
  - rewrite (push_all (values K a) (fun v => map (cons v) [[]]) (nvals K a) _ [] (values_length K a)); [now rewrite app_nil_r|].
    intros i v acc E. assert (Hi : i < nvals K a) by (rewrite <- values_length; apply nth_error_Some; congruence). destruct (value_ok K a i Hi) as (v' & E' & ->).
    rewrite E in E'. injection E' as <-. reflexivity.
  - rewrite (push_all (values K a) (fun v => map (cons v) (flat_map (fun w => map (cons w) [[]]) (values K b))) (nvals K a) _ [] (values_length K a)); [now rewrite app_nil_r|].
    intros i v acc E. assert (Hi : i < nvals K a) by (rewrite <- values_length; apply nth_error_Some; congruence). destruct (value_ok K a i Hi) as (v' & E' & E1).
    rewrite E in E'. injection E' as <-.
    rewrite (push_all (values K b) (fun w => [[v; w]]) (nvals K b) _ acc (values_length K b)).
    + do 3 f_equal. clear. induction (values K b) as [|w l IH]; cbn; [reflexivity|]. now rewrite IH.
    + intros j w acc' F. assert (Hj : j < nvals K b) by (rewrite <- values_length; apply nth_error_Some; congruence). destruct (value_ok K b j Hj) as (w' & F' & F1).
      rewrite F in F'. injection F' as <-. rewrite E1, F1. reflexivity.
  - rewrite (push_all (values K a) (fun v => map (cons v) (flat_map (fun w => map (cons w) (flat_map (fun u => map (cons u) [[]]) (values K c))) (values K b))) (nvals K a) _ [] (values_length K a)); [now rewrite app_nil_r|].
    intros i v acc E. assert (Hi : i < nvals K a) by (rewrite <- values_length; apply nth_error_Some; congruence). destruct (value_ok K a i Hi) as (v' & E' & E1).
    rewrite E in E'. injection E' as <-.
    rewrite (push_all (values K b) (fun w => map (fun u => [v; w; u]) (values K c)) (nvals K b) _ acc (values_length K b)).
    + do 3 f_equal. clear. induction (values K b) as [|w l IH]; cbn; [reflexivity|]. rewrite map_app, IH. f_equal.
      clear. induction (values K c) as [|u l IH]; cbn; [reflexivity|]. now rewrite IH.
    + intros j w acc' F. assert (Hj : j < nvals K b) by (rewrite <- values_length; apply nth_error_Some; congruence). destruct (value_ok K b j Hj) as (w' & F' & F1).
      rewrite F in F'. injection F' as <-.
      rewrite (push_all (values K c) (fun u => [[v; w; u]]) (nvals K c) _ acc' (values_length K c)).
      * reflexivity.
      * intros m u acc2 G. assert (Hm : m < nvals K c) by (rewrite <- values_length; apply nth_error_Some; congruence). destruct (value_ok K c m Hm) as (u' & G' & G1).
        rewrite G in G'. injection G' as <-. rewrite E1, F1, G1. reflexivity.
Qed.
Print Assumptions C97_cases.
Example C97_cases_case : setup_cases RO [ARank RO [2; 3]; AMaxiter RO [10; 20; 30]] =
  Ok [[SRank RO 3; SMaxiter RO 30]; [SRank RO 3; SMaxiter RO 20]; [SRank RO 3; SMaxiter RO 10]; [SRank RO 2; SMaxiter RO 30]; [SRank RO 2; SMaxiter RO 20]; [SRank RO 2; SMaxiter RO 10]].
Proof. reflexivity. Qed.

(** ** What a case sets *)
Section Process.
  Variable K : fops.
  Variable P S : Type.
  Variable pranks : P -> list nat.
  Variable palloc : list nat -> list nat -> P.
  Notation proc := (case_process K P S pranks palloc).
  Notation reg := (reg K P S).
  (** the last value given for a setting, if any *)
  Fixpoint last_of {A} (f : setting K -> option A) (cs : list (setting K)) (d : option A) : option A :=
    match cs with [] => d | c :: cs => last_of f cs (match f c with Some a => Some a | None => d end) end.
  Definition frank (c : setting K) := match c with SRank _ n => Some n | _ => None end.
  Definition fnum (c : setting K) := match c with SNum _ n => Some n | _ => None end.
  Definition fweight (c : setting K) := match c with SWeight _ w => Some w | _ => None end.
  Definition fmaxit (c : setting K) := match c with SMaxiter _ n => Some n | _ => None end.
  Definition with_default {A} (d : A) (o : option A) : A := match o with Some a => a | None => d end.
  (** The settings become those of the case, the others keep their values; the parameters
      are those of a fresh train. *)
  Definition set_case (dim : nat) (cs : list (setting K)) (r : reg) : reg :=
    let np := match last_of fnum cs None with Some n => repeat n dim | None => r_np K P S r end in
    let ranks := match last_of frank cs None with Some n => 1 :: repeat n (dim - 1) ++ [1] | None => pranks (r_ftp K P S r) end in
    mkreg K P S (palloc np ranks) np (with_default (r_w K P S r) (last_of fweight cs None)) (with_default (r_max K P S r) (last_of fmaxit cs None)) (r_rest K P S r).

  Lemma scan_ok cs a b c e :
    fold_left (fun '(ur, un, uw, um) s =>
      match s with
      | SRank _ n => (Some n, un, uw, um)
      | SNum _ n => (ur, Some n, uw, um)
      | SWeight _ w => (ur, un, Some w, um)
      | SMaxiter _ n => (ur, un, uw, Some n)
      end) cs (a, b, c, e) = (last_of frank cs a, last_of fnum cs b, last_of fweight cs c, last_of fmaxit cs e).
  Proof using. clear. revert a b c e. induction cs as [|s cs IH]; intros; cbn [fold_left last_of]; [reflexivity|]. destruct s; rewrite IH; reflexivity. Qed.
  Lemma fill_all {A} (v : A) n (l : list A) : length l = n -> for_ n (fun i l => aset l i v) l = Ok (repeat v n).
  Proof using.
    clear. intros L. set (st := fun i => repeat v i ++ skipn i l). change l with (st 0). replace (repeat v n) with (st n) by (unfold st; rewrite skipn_all2 by lia; apply app_nil_r).
    apply for_det. intros i Hi. unfold st. unfold aset. rewrite app_length, repeat_length, skipn_length. replace (i <? i + (length l - i)) with true by (symmetry; apply Nat.ltb_lt; lia).
    f_equal. assert (X : exists a r, skipn i l = a :: r /\ skipn (Datatypes.S i) l = r).
    { clear st. revert i Hi l L. induction n as [|n IH]; intros i Hi l L; [lia|]. destruct l as [|a l]; [discriminate|]. destruct i as [|i]; [exists a, l; split; reflexivity|].
      cbn [length] in L. destruct (IH i ltac:(lia) l ltac:(lia)) as (b & r & A1 & A2). exists b, r. split; auto. }
    destruct X as (a & r & -> & ->). replace (repeat v (Datatypes.S i)) with (repeat v i ++ [v]) by (rewrite <- repeat_cons; reflexivity). rewrite <- app_assoc. cbn [app].
    clear. induction i as [|i IH]; cbn; [reflexivity|]. now rewrite IH.
  Qed.
  Lemma process_ok dim cs (r : reg) : 1 <= dim -> length (pranks (r_ftp K P S r)) = dim + 1 -> length (r_np K P S r) = dim -> proc dim cs r = Ok (set_case dim cs r).
  Proof using.
    intros Hd Lr Ln. unfold case_process. rewrite scan_ok. rewrite blit_ok by (rewrite ?repeat_length; lia). cbn [obind skipn].
    rewrite firstn_all2 by lia. rewrite splice_full by (rewrite repeat_length; lia).
    assert (E : match last_of frank cs None with
      | None => Ok (pranks (r_ftp K P S r))
      | Some rank => do ranks <- aset (pranks (r_ftp K P S r)) 0 1; do ranks <- aset ranks dim 1; for_from 1 (dim - 1) (fun ii ranks => aset ranks ii rank) ranks
      end = Ok (match last_of frank cs None with Some n => 1 :: repeat n (dim - 1) ++ [1] | None => pranks (r_ftp K P S r) end)).
    { destruct (last_of frank cs None) as [n|]; [|reflexivity]. rewrite aset_ok by lia. cbn [obind]. rewrite aset_ok by (rewrite upd_length; lia). cbn [obind].
      remember (pranks (r_ftp K P S r)) as l eqn:El. clear El. destruct l as [|a l]; [cbn in Lr; lia|]. destruct dim as [|dim]; [lia|]. cbn [upd]. cbn [length] in Lr.
      replace (Datatypes.S dim - 1) with dim by lia. assert (Ll : length l = dim + 1) by lia.
      assert (F : for_from 1 dim (fun ii ranks => aset ranks ii n) (1 :: upd l dim 1) = (do m <- for_ dim (fun ii ranks => aset ranks ii n) (upd l dim 1); Ok (1 :: m))).
      { unfold for_. assert (G : forall j lo l, for_from (Datatypes.S lo) j (fun ii ranks => aset ranks ii n) (1 :: l) = (do m <- for_from lo j (fun ii ranks => aset ranks ii n) l; Ok (1 :: m))).
        { induction j as [|j IHj]; intros lo l'; cbn [for_from]; [reflexivity|]. unfold aset at 1 3. cbn [length]. replace (Datatypes.S lo <? Datatypes.S (length l')) with (lo <? length l') by reflexivity.
          destruct (lo <? length l'); cbn [obind]; [|reflexivity]. cbn [upd]. apply IHj. }
        apply G. }
      rewrite F. assert (X : upd l dim 1 = firstn dim l ++ [1]).
      { clear - Ll. revert l Ll. induction dim as [|dim IH]; intros [|b l] Ll; cbn in *; try lia; [destruct l; [reflexivity|cbn in Ll; lia]|]. rewrite IH by lia. reflexivity. }
      rewrite X. assert (Lf : length (firstn dim l) = dim) by (rewrite firstn_length; lia). remember (firstn dim l) as f.
      assert (G2 : for_ dim (fun ii ranks => aset ranks ii n) (f ++ [1]) = (do m <- for_ dim (fun ii ranks => aset ranks ii n) f; Ok (m ++ [1]))).
      { clear - Lf. unfold for_. assert (H : forall j lo f, lo + j <= length f -> for_from lo j (fun ii ranks => aset ranks ii n) (f ++ [1]) = (do m <- for_from lo j (fun ii ranks => aset ranks ii n) f; Ok (m ++ [1]))).
        { induction j as [|j IHj]; intros lo g Hl; cbn [for_from]; [reflexivity|]. rewrite !aset_ok by (rewrite ?app_length; lia). cbn [obind].
          replace (upd (g ++ [1]) lo n) with (upd g lo n ++ [1]); [apply IHj; rewrite upd_length; lia|].
          assert (lo < length g) by lia. clear - H. revert lo H. induction g as [|b g IH]; intros [|lo] H; cbn in *; try lia; [reflexivity|]. rewrite IH by lia. reflexivity. }
        apply H. lia. }
      rewrite G2, (fill_all n dim f Lf). reflexivity. }
    rewrite E. cbn [obind].
    assert (E2 : match last_of fnum cs None with None => Ok (r_np K P S r) | Some n => for_ dim (fun ii np => aset np ii n) (r_np K P S r) end
      = Ok (match last_of fnum cs None with Some n => repeat n dim | None => r_np K P S r end)).
    { destruct (last_of fnum cs None); [now apply fill_all|reflexivity]. }
    rewrite E2. cbn [obind]. reflexivity.
  Qed.
End Process.
Theorem C97_process K P S pranks palloc dim cs (r : reg K P S) : 1 <= dim -> length (pranks (r_ftp K P S r)) = dim + 1 -> length (r_np K P S r) = dim ->
  case_process K P S pranks palloc dim cs r = Ok (set_case K P S pranks palloc dim cs r).
Proof. apply process_ok. Qed.
Print Assumptions C97_process.
Example C97_process_case : let alloc np rk := (np, rk) : list nat * list nat in
  case_process RO _ unit snd alloc 3 [SRank RO 5; SNum RO 4] (mkreg RO _ unit ([2; 2; 2], [1; 2; 2; 1]) [2; 2; 2] 1%R 10 tt)
  = Ok (mkreg RO _ unit ([4; 4; 4], [1; 5; 5; 1]) [4; 4; 4] 1%R 10 tt).
Proof. reflexivity. Qed.

(** ** The error is a relative one *)
Open Scope R_scope.
Definition rsum (l : list R) : R := fold_right Rplus 0 l.
Lemma total_rsum (l : list R) : total RO l = rsum l.
Proof.
  unfold total. cbn [f0 fadd Rops]. assert (H : forall l a, fold_left Rplus l a = a + rsum l).
  { clear. unfold rsum. induction l as [|b l IH]; intros a; cbn [fold_left fold_right]; [ring|]. rewrite IH. ring. }
  etransitivity; [apply H|]. apply Rplus_0_l.
Qed.
Lemma rsum_app l l' : rsum (l ++ l') = rsum l + rsum l'.
Proof. unfold rsum in *. induction l as [|a l IH]; cbn [app fold_right]; [ring|]. rewrite IH. ring. Qed.
Lemma rsum_sq {A} (f : A -> R) l : 0 <= rsum (map (fun p => f p * f p) l).
Proof. unfold rsum. induction l as [|a l IH]; cbn [map fold_right]; [lra|]. pose proof (Rle_0_sqr (f a)). unfold Rsqr in *. lra. Qed.
(** Cross validation over the reals: the squared residuals of all samples, each under
    the fit of its fold, over the squared labels of all samples. *)
Theorem C96_relative P S T run teval d k (s : list (list R * R)) (r : reg RO P S) err r' :
  Forall (fun p => length (fst p) = d) s -> (0 < k)%nat ->
  cross_validate_run RO P S T run teval (mkcv RO (length s) d (flat RO s) (map snd s) k) r = Ok (err, r') ->
  exists ts, length ts = k /\ err = rsum (map (fun it => rsum (map (fun p => (snd p - teval (snd it) (fst p)) * (snd p - teval (snd it) (fst p))) (test k s (fst it)))) (combine (seq 0 k) ts))
      / rsum (map (fun p => snd p * snd p) s) /\
    (forall i t, nth_error ts i = Some t -> exists st st', run (mkreg RO P S (r_ftp RO P S r) (r_np RO P S r) (r_w RO P S r) (r_max RO P S r) st)
        (length (train k s i)) (flat RO (train k s i)) (map snd (train k s i)) = Ok (t, st')) /\
    ((exists p, In p s /\ snd p <> 0) -> 0 <= err).
Proof.
  intros Hs Hk E. assert (Q : cross_validate_run RO P S T run teval (mkcv RO (length s) d (flat RO s) (map snd s) k) r = _) by exact (C96_cv RO P S T run teval d k s r Hs Hk).
  assert (E' := eq_trans (eq_sym Q) E). clear Q E.
  assert (L : forall n e m st, folds RO P S T run teval k s r n = Ok (e, m, st) ->
    exists ts, length ts = n /\ e = rsum (map (fun it => rsum (map (fun p => (snd p - teval (snd it) (fst p)) * (snd p - teval (snd it) (fst p))) (test k s (fst it)))) (combine (seq 0 n) ts)) /\
      m = rsum (map (fun p => snd p * snd p) (concat (map (test k s) (seq 0 n)))) /\
      (forall i t, nth_error ts i = Some t -> exists st st', run (mkreg RO P S (r_ftp RO P S r) (r_np RO P S r) (r_w RO P S r) (r_max RO P S r) st)
        (length (train k s i)) (flat RO (train k s i)) (map snd (train k s i)) = Ok (t, st'))).
  { induction n as [|n IH]; intros e m st F; cbn [folds] in F.
    - injection F as <- <- _. exists []. split; [reflexivity|]. split; [reflexivity|]. split; [reflexivity|]. intros [|i] t X; discriminate.
    - destruct (folds RO P S T run teval k s r n) as [[[e0 m0] st0]| | |]; try discriminate. cbn [obind] in F.
      destruct (run _ _ _ _) as [[t st1]| | |] eqn:Er; try discriminate. cbn [obind] in F. injection F as <- <- <-.
      destruct (IH e0 m0 st0 eq_refl) as (ts & Lt & -> & -> & Ht). exists (ts ++ [t]). split; [rewrite app_length, Lt; cbn; lia|].
      rewrite seq_S. cbn [Nat.add]. split; [|split].
      + assert (C : combine (seq 0 n ++ [n]) (ts ++ [t]) = combine (seq 0 n) ts ++ [(n, t)]).
        { clear - Lt. assert (G : forall a, combine (seq a (length ts) ++ [(a + length ts)%nat]) (ts ++ [t]) = combine (seq a (length ts)) ts ++ [((a + length ts)%nat, t)]).
          { clear. induction ts as [|b ts IH]; intros a; cbn; [reflexivity|]. f_equal. replace (a + S (length ts))%nat with (S a + length ts)%nat by lia. apply IH. }
          rewrite <- Lt. apply (G 0%nat). }
        rewrite C, map_app, rsum_app. cbn [map fst snd rsum fold_right]. rewrite Rplus_0_r. apply (f_equal2 Rplus eq_refl). exact (total_rsum _).
      + rewrite map_app, concat_app, map_app, rsum_app. cbn [map concat]. rewrite app_nil_r. apply (f_equal2 Rplus eq_refl). exact (total_rsum _).
      + intros i t' X. destruct (Nat.lt_ge_cases i n) as [Hi|Hi].
        * rewrite nth_error_app1 in X by lia. now apply Ht.
        * rewrite nth_error_app2 in X by lia. destruct (i - length ts)%nat as [|q] eqn:D; [|destruct q; discriminate]. cbn in X. injection X as <-. replace i with n by lia.
          eexists _, _. exact Er. }
  destruct (folds RO P S T run teval k s r k) as [[[e m] st]| | |] eqn:F; try discriminate. cbn [obind] in E'. injection E' as <- _.
  destruct (L k e m st F) as (ts & Lt & Ee & Em & Ht). exists ts. rewrite (C96_tested_once k s Hk) in Em. split; [exact Lt|]. split; [rewrite Ee, Em; reflexivity|]. split; [exact Ht|].
  intros (p & I & Hp). rewrite Ee, Em. apply Rmult_le_pos.
  - clear. unfold rsum at 1. induction (combine (seq 0 k) ts) as [|it l IH]; cbn [map fold_right]; [apply Rle_refl|]. apply Rplus_le_le_0_compat; [|exact IH].
    exact (rsum_sq (fun p : list R * R => snd p - teval (snd it) (fst p)) (test k s (fst it))).
  - apply Rlt_le, Rinv_0_lt_compat. clear - I Hp. induction s as [|q l IH]; [destruct I|]. cbn [map rsum fold_right]. fold (rsum (map (fun p : list R * R => snd p * snd p) l)).
    pose proof (rsum_sq (fun p : list R * R => snd p) l). cbv beta in H. destruct I as [->|I].
    + pose proof (Rlt_0_sqr (snd p) Hp). unfold Rsqr in *. lra.
    + pose proof (Rle_0_sqr (snd q)). unfold Rsqr in *. specialize (IH I). lra.
Qed.
Print Assumptions C96_relative.

(** ** The best case *)
Section Grid.
  Variable P S T : Type.
  Variable pranks : P -> list nat.
  Variable palloc : list nat -> list nat -> P.
  Variable run : reg RO P S -> nat -> list R -> list R -> outcome (T * S).
  Variable teval : T -> list R -> R.
  Variable dim k : nat.
  Variable s : list (list R * R).
  Notation cv := (mkcv RO (length s) dim (flat RO s) (map snd s) k).
  Notation cvrun := (cross_validate_run RO P S T run teval cv).
  Notation set := (set_case RO P S pranks palloc dim).
  (** the cases one after the other, with their errors *)
  Inductive visited : list (list (setting RO)) -> reg RO P S -> list R -> reg RO P S -> Prop :=
  | vis0 r : visited [] r [] r
  | vis1 c cs r e r1 es r2 : cvrun (set c r) = Ok (e, r1) -> visited cs r1 es r2 -> visited (c :: cs) r (e :: es) r2.
  (** [b] is the first case whose error is not undercut noticeably *)
  Definition chosen (shrink : R) (errs : list R) (b : nat) : Prop :=
    (b < length errs)%nat /\ (forall i, (i < b)%nat -> nth b errs 0 < nth i errs 0) /\ (forall i, (i < length errs)%nat -> shrink * nth b errs 0 <= nth i errs 0).

  Lemma visited_snoc cs c r es r1 e r2 : visited cs r es r1 -> cvrun (set c r1) = Ok (e, r2) -> visited (cs ++ [c]) r (es ++ [e]) r2.
  Proof using. induction 1; intros E; cbn [app]; econstructor; eauto. constructor. Qed.
  Lemma visited_length cs r es r' : visited cs r es r' -> length es = length cs.
  Proof using. induction 1; cbn [length]; auto. Qed.
  Definition shape (r : reg RO P S) : Prop := length (pranks (r_ftp RO P S r)) = (dim + 1)%nat /\ length (r_np RO P S r) = dim.
  Lemma shape_set c r : (1 <= dim)%nat -> (forall np rk, pranks (palloc np rk) = rk) -> shape r -> shape (set c r).
  Proof using.
    intros Hd Hp (A & B). unfold shape, set_case. cbn [r_ftp r_np]. rewrite Hp. destruct (last_of RO (frank RO) c None), (last_of RO (fnum RO) c None); rewrite ?repeat_length; cbn [length]; rewrite ?app_length, ?repeat_length; cbn [length]; lia.
  Qed.

  Lemma grid_ok huge shrink (g : list (axis RO)) r :
    (1 <= length g <= 3)%nat -> (forall a, In a g -> (0 < nvals RO a)%nat) -> (1 <= dim)%nat -> (forall np rk, pranks (palloc np rk) = rk) -> shape r ->
    Forall (fun p => length (fst p) = dim) s -> (0 < k)%nat -> (exists p, In p s /\ snd p <> 0) -> (forall r n x y, exists t st, run r n x y = Ok (t, st)) -> 0 < shrink <= 1 ->
    exists errs r1 b, visited (rev (choices RO g)) r errs r1 /\
      grid_opt RO P S T pranks palloc run teval huge shrink cv g dim r = Ok (set (nth b (rev (choices RO g)) []) r1, errs, b) /\
      (b < length errs)%nat /\ ((exists i, (i < length errs)%nat /\ nth i errs 0 < huge * shrink) -> chosen shrink errs b) /\ Forall (fun e => 0 <= e) errs.
  Proof using.
    intros Hg Ha Hd Hp Hr Hs Hk Hy Hrun Hsh. unfold grid_opt. rewrite C97_cases by lia. cbn [obind]. set (l := rev (choices RO g)).
    assert (Ln : (0 < length l)%nat).
    { unfold l. rewrite rev_length. clear - Ha. induction g as [|a g IH]; cbn [choices]; [cbn; lia|]. assert (X : (0 < length (choices RO g))%nat) by (apply IH; intros; apply Ha; now right).
      assert (Y : (0 < length (values RO a))%nat) by (rewrite values_length; apply Ha; now left). destruct (values RO a) as [|v vs]; [cbn in Y; lia|]. cbn [flat_map]. rewrite app_length, map_length. lia. }
    assert (Fold : forall rr n, exists v, folds RO P S T run teval k s rr n = Ok v).
    { intros rr n. induction n as [|n ([[e m] st] & IH)]; cbn [folds]; [eauto|]. rewrite IH. cbn [obind]. edestruct Hrun as (t & st' & ->). cbn [obind]. eauto. }
    assert (Cv : forall rr, shape rr -> exists e r', cvrun rr = Ok (e, r') /\ shape r' /\ 0 <= e).
    { intros rr Hrr. destruct (Fold rr k) as ([[e m] st] & F). assert (Q := C96_cv RO P S T run teval dim k s rr Hs Hk). rewrite F in Q. cbn [obind] in Q. eexists _, _. split; [exact Q|]. split; [exact Hrr|].
      destruct (C96_relative P S T run teval dim k s rr _ _ Hs Hk Q) as (_ & _ & _ & _ & H). now apply H. }
    match goal with |- context [for_ (length l) ?b ?i] => set (body := b); set (init := i) end.
    assert (L : forall n, (n <= length l)%nat -> exists rn errs best bit, for_ n body init = Ok (rn, errs, best, bit) /\ visited (firstn n l) r errs rn /\ shape rn /\ Forall (fun e => 0 <= e) errs /\ length errs = n /\
      ((bit = 0%nat /\ best = huge /\ forall i, (i < n)%nat -> huge * shrink <= nth i errs 0) \/
       ((bit < n)%nat /\ best = nth bit errs 0 /\ (forall i, (i < bit)%nat -> best < nth i errs 0) /\ (forall i, (i < n)%nat -> shrink * best <= nth i errs 0)))).
    { induction n as [|n IH]; intros Hn.
      - exists r, [], huge, 0%nat. split; [reflexivity|]. split; [constructor|]. split; [exact Hr|]. split; [constructor|]. split; [reflexivity|]. left. repeat split; lia.
      - destruct (IH ltac:(lia)) as (rn & errs & best & bit & E & V & Sh & Ps & Le & C). rewrite for_S, E. cbn [obind]. unfold body at 1.
        destruct (nth_error l n) as [c|] eqn:En; [|apply nth_error_None in En; lia]. unfold aget at 1. rewrite En. cbn [obind].
        rewrite process_ok by (auto; apply Sh). cbn [obind]. destruct (Cv (set c rn) (shape_set c rn Hd Hp Sh)) as (e & r' & Ec & Sh' & Pe).
        refine (eq_ind _ (fun z => exists rn errs best bit, obind z _ = _ /\ _) _ _ (eq_sym Ec)). cbn [obind]. cbn [fltb fmul Rops].
        assert (V' : visited (firstn (Datatypes.S n) l) r (errs ++ [e]) r') by (rewrite (firstn_S_nth l n c En); eapply visited_snoc; eauto).
        assert (Ps' : Forall (fun e => 0 <= e) (errs ++ [e])) by (apply Forall_app; split; [exact Ps|constructor; [exact Pe|constructor]]).
        assert (Le' : length (errs ++ [e]) = Datatypes.S n) by (rewrite app_length, Le; cbn [length]; lia).
        assert (N1 : forall i, (i < n)%nat -> nth i (errs ++ [e]) 0 = nth i errs 0) by (intros i Hi; apply app_nth1; lia).
        assert (N2 : nth n (errs ++ [e]) 0 = e) by (rewrite app_nth2, Le, Nat.sub_diag by lia; reflexivity).
        match goal with |- context [Rltb ?a ?b] => destruct (Rltb_spec a b) as [Hlt|Hge] end.
        + eexists _, _, _, _. split; [reflexivity|]. split; [exact V'|]. split; [exact Sh'|]. split; [exact Ps'|]. split; [exact Le'|]. right.
          split; [lia|]. split; [now symmetry|].
          assert (B : forall i, (i < n)%nat -> e < nth i errs 0).
          { intros i Hi. destruct C as [(_ & -> & C)|(_ & _ & _ & C)]; specialize (C i Hi); lra. }
          split; [intros i Hi; rewrite N1 by lia; auto|]. intros i Hi. destruct (Nat.eq_dec i n) as [->|]; [rewrite N2|rewrite N1 by lia; specialize (B i ltac:(lia))]; nra.
        + eexists _, _, _, _. split; [reflexivity|]. split; [exact V'|]. split; [exact Sh'|]. split; [exact Ps'|]. split; [exact Le'|].
          destruct C as [(-> & -> & C)|(C0 & Cb & C1 & C2)]; [left|right].
          * split; [reflexivity|]. split; [reflexivity|]. intros i Hi. destruct (Nat.eq_dec i n) as [->|]; [rewrite N2; lra|rewrite N1 by lia; apply C; lia].
          * split; [lia|]. split; [rewrite N1 by lia; exact Cb|]. split; [intros i Hi; rewrite N1 by lia; auto|].
            intros i Hi. destruct (Nat.eq_dec i n) as [->|]; [rewrite N2; lra|rewrite N1 by lia; apply C2; lia]. }
    destruct (L (length l) (le_n _)) as (rn & errs & best & bit & E & V & Sh & Ps & Le & C). rewrite E. cbn [obind]. rewrite firstn_all in V.
    assert (Hb : (bit < length l)%nat) by (destruct C as [(-> & _)|(C & _)]; lia).
    unfold aget. rewrite (nth_error_nth' l [] Hb). cbn [obind]. rewrite process_ok by (auto; apply Sh). cbn [obind].
    exists errs, rn, bit. split; [exact V|]. split; [reflexivity|]. split; [rewrite <- Le in Hb; exact Hb|]. split; [|exact Ps].
    intros (i & Hi & Hlt). assert (Hi' : (i < length l)%nat) by (rewrite <- Le; exact Hi).
    destruct C as [(_ & _ & C)|(C0 & -> & C1 & C2)]; [specialize (C i Hi'); exfalso; exact (Rlt_not_le _ _ Hlt C)|].
    unfold chosen. split; [rewrite <- Le in C0; exact C0|]. split; [exact C1|]. intros j Hj. apply C2. rewrite <- Le. exact Hj.
  Qed.
End Grid.
(** The grid search visits all choices, one case after the other; afterwards the settings
    are those of the case whose error is smaller than all errors before it and not
    larger than any error by more than the factor [1 / shrink]. *)
Theorem C97_grid P S T pranks palloc run teval dim k (s : list (list R * R)) huge shrink (g : list (axis RO)) (r : reg RO P S) :
  (1 <= length g <= 3)%nat -> (forall a, In a g -> (0 < nvals RO a)%nat) -> (1 <= dim)%nat -> (forall np rk, pranks (palloc np rk) = rk) ->
  length (pranks (r_ftp RO P S r)) = (dim + 1)%nat -> length (r_np RO P S r) = dim ->
  Forall (fun p => length (fst p) = dim) s -> (0 < k)%nat -> (exists p, In p s /\ snd p <> 0) -> (forall r n x y, exists t st, run r n x y = Ok (t, st)) -> 0 < shrink <= 1 ->
  exists errs r1 b, visited P S T pranks palloc run teval dim k s (rev (choices RO g)) r errs r1 /\
    grid_opt RO P S T pranks palloc run teval huge shrink (mkcv RO (length s) dim (flat RO s) (map snd s) k) g dim r
      = Ok (set_case RO P S pranks palloc dim (nth b (rev (choices RO g)) []) r1, errs, b) /\
    ((exists i, (i < length errs)%nat /\ nth i errs 0 < huge * shrink) -> chosen shrink errs b).
Proof.
  intros. destruct (grid_ok P S T pranks palloc run teval dim k s huge shrink g r) as (errs & r1 & b & A & B & _ & C & _); auto; [now split|]. now exists errs, r1, b.
Qed.
Print Assumptions C97_grid.
(** Without settings, with more than three, or with a setting without values there is no
    case, and the search follows a null pointer. *)
Theorem C97_empty_refuted P S T pranks palloc run teval huge shrink cv dim (g : list (axis RO)) (r : reg RO P S) :
  (length g = 0 \/ 3 < length g \/ exists a, g = [a] /\ nvals RO a = 0)%nat -> grid_opt RO P S T pranks palloc run teval huge shrink cv g dim r = UB.
Proof.
  intros H. assert (E : setup_cases RO g = Ok []).
  { destruct H as [H|[H|(a & -> & H)]].
    - destruct g; [reflexivity|discriminate].
    - destruct g as [|a [|b [|c [|d g]]]]; cbn [length] in H; try lia. reflexivity.
    - cbn [setup_cases]. rewrite H. reflexivity. }
  unfold grid_opt. rewrite E. reflexivity.
Qed.
Print Assumptions C97_empty_refuted.
Example C97_grid_case : exists errs r1 b, grid_opt RO (list nat * list nat) unit R snd pair (fun _ _ _ y => Ok (wmean (repeat 1 (length y)) y, tt)) (fun c _ => c) 1000 (9 / 10)
    (mkcv RO 3 2 (flat RO [([0; 1], 1); ([1; 1], 2); ([2; 0], 5)]) [1; 2; 5] 3) [ARank RO [2; 3]%nat; AWeight RO [1; 2]] 2 (mkreg RO _ unit ([2; 2], [1; 1; 1])%nat [2; 2]%nat 0 10 tt)
  = Ok (set_case RO _ unit snd pair 2 (nth b (rev (choices RO [ARank RO [2; 3]%nat; AWeight RO [1; 2]])) []) r1, errs, b) /\ length errs = 4%nat.
Proof.
  destruct (C97_grid (list nat * list nat) unit R snd pair (fun _ _ _ y => Ok (wmean (repeat 1 (length y)) y, tt)) (fun c _ => c) 2 3 [([0; 1], 1); ([1; 1], 2); ([2; 0], 5)] 1000 (9 / 10)
    [ARank RO [2; 3]%nat; AWeight RO [1; 2]] (mkreg RO _ unit ([2; 2], [1; 1; 1])%nat [2; 2]%nat 0 10 tt)) as (errs & r1 & b & V & E & _).
  - cbn [length]. lia.
  - intros a [<-|[<-|[]]]; cbn; lia.
  - lia.
  - reflexivity.
  - reflexivity.
  - reflexivity.
  - repeat constructor.
  - lia.
  - exists ([0; 1], 1). split; [now left|]. cbn [snd]. lra.
  - intros r n x y. eexists _, _. reflexivity.
  - lra.
  - exists errs, r1, b. split; [exact E|]. exact (visited_length _ _ _ _ _ _ _ _ _ _ _ _ _ _ V).
Qed.
