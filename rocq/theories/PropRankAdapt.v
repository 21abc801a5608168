(** C98: regression with rank adaptation. *)
From Verif Require Import Base BaseFacts TensorFacts ParamFacts OptFacts AdaptModel.
From Coq Require Import Reals Lra Lia.
Open Scope nat_scope.

(** ** Specification *)
Notation rk l i := (nth i l 0).
(** the ranks to try next *)
Definition raised (dim maxrank kickrank : nat) (rounded ranks : list nat) (i : nat) : nat :=
  if (1 <=? i) && (i <? dim) && (rk rounded i =? rk ranks i) then Nat.min (rk ranks i + kickrank) maxrank else rk ranks i.
Section Spec.
  Variable T : Type.
  Notation act := (act RO T).
  (** [progress e l f]: from the error [e] the actions [l] lead to the error [f]; new
      ranks are kept only when cross validation is no worse *)
  Inductive progress : R -> list act -> R -> Prop :=
  | pr_end e : progress e [] e
  | pr_keep e r n l f : (n <= e)%R -> progress n l f -> progress e (ACv RO T r n :: AFit RO T r :: l) f
  | pr_back e r n t : (e < n)%R -> progress e [ACv RO T r n; ABack RO T t] e.
  Definition act_ranks (a : act) : list (list nat) := match a with ACv _ _ r _ => [r] | AFit _ _ r => [r] | ABack _ _ _ => [] end.
End Spec.
Lemma progress_le T e l f : progress T e l f -> (f <= e)%R.
Proof. induction 1; lra. Qed.

(** ** The ranks *)
Lemma all_max_ok dim maxrank ranks : length ranks = dim + 1 ->
  exists b, all_max dim maxrank ranks = Ok b /\ (b = true <-> forall i, 1 <= i < dim -> maxrank <= rk ranks i).
Proof.
  intros L. unfold all_max.
  destruct (for_from_inv (fun i (b : bool) => b = true <-> forall j, 1 <= j < i -> maxrank <= rk ranks j)
    (fun ii (b : bool) => if b then (do r <- aget ranks ii; Ok (negb (r <? maxrank))) else Ok false) 1 (dim - 1) true) as (b & E & H).
  - split; [intros _ j Hj; lia|reflexivity].
  - intros i b Hi H. destruct b.
    + unfold aget. rewrite (nth_error_nth' ranks 0) by lia. cbn [obind]. eexists. split; [reflexivity|]. destruct (Nat.ltb_spec (rk ranks i) maxrank); cbn [negb]; split; try discriminate.
      * intros G. specialize (G i ltac:(lia)). lia.
      * intros _ j Hj. destruct (Nat.eq_dec j i) as [->|]; [lia|]. apply H; [reflexivity|lia].
      * reflexivity.
    + exists false. split; [reflexivity|]. split; [discriminate|]. intros G. apply H. intros j Hj. apply G. lia.
  - exists b. split; [exact E|]. rewrite H. destruct dim as [|dim]; [split; intros G j Hj; lia|]. replace (1 + (S dim - 1)) with (S dim) by lia. reflexivity.
Qed.
Lemma rk_upd l i v j : i < length l -> rk (upd l i v) j = if j =? i then v else rk l j.
Proof. revert i j. induction l as [|a l IH]; intros [|i] [|j] H; cbn in *; try lia; auto. apply IH. lia. Qed.
Lemma kick_ok dim maxrank kickrank rounded ranks : length rounded = dim + 1 -> length ranks = dim + 1 ->
  exists new b, kick dim maxrank kickrank rounded ranks = Ok (new, b) /\ length new = dim + 1 /\ (forall i, rk new i = raised dim maxrank kickrank rounded ranks i) /\
    (b = true <-> exists i, 1 <= i < dim /\ rk rounded i = rk ranks i).
Proof.
  intros Ld L. unfold kick.
  match goal with |- context [for_from 1 (dim - 1) ?f ?z] => destruct (for_from_inv (fun i '(new, b) => length new = dim + 1 /\
    (forall j, rk new j = if (1 <=? j) && (j <? i) && (rk rounded j =? rk ranks j) then Nat.min (rk ranks j + kickrank) maxrank else rk ranks j) /\
    (b = true <-> exists j, 1 <= j < i /\ rk rounded j = rk ranks j)) f 1 (dim - 1) z) as ((new & b) & E & H1 & H2 & H3) end.
  - split; [exact L|]. split; [|split; [discriminate|intros (j & Hj & _); lia]]. intros j. destruct j as [|j]; [reflexivity|]. destruct (Nat.ltb_spec (S j) 1); [lia|]. now rewrite andb_false_r.
  - intros i (new, b) Hi (H1 & H2 & H3). unfold aget. rewrite (nth_error_nth' rounded 0) by lia. cbn [obind]. rewrite (nth_error_nth' new 0) by lia. cbn [obind].
    assert (Ei : rk new i = rk ranks i). { rewrite H2. destruct (Nat.ltb_spec i i); [lia|]. now rewrite andb_false_r. }
    rewrite Ei. destruct (Nat.eqb_spec (rk rounded i) (rk ranks i)) as [Q|Q].
    + rewrite aset_ok by lia. cbn [obind].
      assert (F : exists new', (if maxrank <? rk ranks i + kickrank then aset (upd new i (rk ranks i + kickrank)) i maxrank else Ok (upd new i (rk ranks i + kickrank))) = Ok new' /\
        length new' = dim + 1 /\ forall j, rk new' j = if j =? i then Nat.min (rk ranks i + kickrank) maxrank else rk new j).
      { destruct (Nat.ltb_spec maxrank (rk ranks i + kickrank)).
        - rewrite aset_ok by (rewrite upd_length; lia). eexists. split; [reflexivity|]. split; [rewrite !upd_length; lia|]. intros j. rewrite !rk_upd by (rewrite ?upd_length; lia). destruct (j =? i); lia.
        - eexists. split; [reflexivity|]. split; [rewrite !upd_length; lia|]. intros j. rewrite !rk_upd by lia. destruct (j =? i); lia. }
      destruct F as (new' & -> & F1 & F2). cbn [obind]. eexists. split; [reflexivity|]. split; [exact F1|]. split.
      * intros j. rewrite F2. destruct (Nat.eqb_spec j i) as [->|].
        -- rewrite (proj2 (Nat.leb_le 1 i)) by lia. rewrite (proj2 (Nat.ltb_lt i (S i))) by lia. rewrite (proj2 (Nat.eqb_eq _ _) Q). reflexivity.
        -- rewrite H2. replace (j <? S i) with (j <? i) by (destruct (Nat.ltb_spec j i), (Nat.ltb_spec j (S i)); lia). reflexivity.
      * split; [intros _; exists i; split; [lia|exact Q]|reflexivity].
    + eexists. split; [reflexivity|]. split; [exact H1|]. split.
      * intros j. rewrite H2. destruct (Nat.eq_dec j i) as [->|].
        -- rewrite (proj2 (Nat.eqb_neq _ _) Q). now rewrite !andb_false_r.
        -- replace (j <? S i) with (j <? i) by (destruct (Nat.ltb_spec j i), (Nat.ltb_spec j (S i)); lia). reflexivity.
      * rewrite H3. split; intros (j & Hj & G); exists j; split; auto; [lia|]. assert (j <> i) by congruence. lia.
  - exists new, b. split; [exact E|]. split; [exact H1|]. destruct dim as [|dim].
    + split; [|rewrite H3; split; intros (j & Hj & _); lia]. intros i. rewrite H2. unfold raised. cbn [Nat.sub Nat.add]. destruct i as [|i]; [reflexivity|]. cbn [Nat.leb Nat.ltb]. destruct (Nat.ltb_spec (S i) 1); [lia|]. reflexivity.
    + replace (1 + (S dim - 1)) with (S dim) in * by lia. split; [exact H2|exact H3].
Qed.

Section Adapt.
  Variable P S T : Type.
  Variable tranks : T -> list nat.
  Variable tround : T -> T.
  Variable tparams : T -> list R.
  Variable palloc : list nat -> P.
  Variable pupdate : P -> list R -> outcome P.
  Variable ptrain : P -> T.
  Variable cvrun : P -> S -> outcome (R * S).
  Variable fit : P -> S -> outcome (T * P * S).
  Variable dim maxrank kickrank : nat.
  (** what is required of the parts: regression and cross validation do not fail and keep
      the ranks, rounding does not raise them, parameters of a rounded train fit into a
      new one of the same ranks *)
  Definition parts_ok : Prop :=
    (forall r, length r = dim + 1 -> tranks (ptrain (palloc r)) = r) /\
    (forall p st, exists t p' st', fit p st = Ok (t, p', st') /\ tranks t = tranks (ptrain p) /\ tranks (ptrain p') = tranks (ptrain p)) /\
    (forall t, length (tranks t) = dim + 1 -> length (tranks (tround t)) = dim + 1 /\ forall i, rk (tranks (tround t)) i <= rk (tranks t) i) /\
    (forall p st, exists e st', cvrun p st = Ok (e, st')) /\
    (forall t, exists p, pupdate (palloc (tranks (tround t))) (tparams (tround t)) = Ok p /\ tranks (ptrain p) = tranks (tround t)).
  (** why it ended *)
  Definition ended (rounds : nat) (l : list (act RO T)) (t : T) (p : P) : Prop :=
    (exists l' r n u, l = l' ++ [ACv RO T r n; ABack RO T (tround u)] /\ pupdate (palloc (tranks (tround u))) (tparams (tround u)) = Ok p /\ t = ptrain p) \/
    (length l = 2 * rounds) \/
    (forall i, 1 <= i < dim -> rk (tranks (tround t)) i <> rk (tranks t) i) \/
    (forall i, 1 <= i < dim -> maxrank <= rk (tranks t) i).
  Definition bounded (b : nat -> nat) (l : list nat) : Prop := forall i, rk l i <= b i.

  Lemma loop_ok (b : nat -> nat) : parts_ok -> (forall i, 1 <= i < dim -> maxrank <= b i) -> forall fuel p st ft err log,
    length (tranks ft) = dim + 1 -> tranks (ptrain p) = tranks ft -> bounded b (tranks ft) ->
    exists ft' p' st' err' l, adapt_loop RO P S T tranks tround tparams palloc pupdate ptrain cvrun fit dim maxrank kickrank fuel p st ft (tranks ft) err log
        = Ok (ft', p', st', err', log ++ l) /\ progress T err l err' /\ length l <= 2 * fuel /\ Forall (fun a => Forall (bounded b) (act_ranks T a)) l /\
      length (tranks ft') = dim + 1 /\ tranks (ptrain p') = tranks ft' /\ bounded b (tranks ft') /\ ended fuel l ft' p'.
  Proof using.
    intros (H1 & H2 & H3 & H4 & H5) Hb. induction fuel as [|fuel IH]; intros p st ft err log L Lp B; cbn [adapt_loop].
    - eexists _, _, _, _, []. rewrite app_nil_r. split; [reflexivity|]. split; [constructor|]. split; [cbn; lia|]. split; [constructor|]. split; [exact L|]. split; [exact Lp|]. split; [exact B|]. right. left. reflexivity.
    - destruct (all_max_ok dim maxrank (tranks ft) L) as (am & Ea & Ha). rewrite Ea. cbn [obind]. destruct (H3 ft L) as [Lr Br].
      destruct (kick_ok dim maxrank kickrank (tranks (tround ft)) (tranks ft) Lr L) as (new & kd & Ek & Ln & Hn & Hk). rewrite Ek. cbn [obind].
      destruct kd; cbn [negb orb].
      2:{ eexists _, _, _, _, []. rewrite app_nil_r. split; [reflexivity|]. split; [constructor|]. split; [cbn; lia|]. split; [constructor|]. split; [exact L|]. split; [exact Lp|]. split; [exact B|].
          right. right. left. intros i Hi Q. assert (X : false = true) by (apply Hk; exists i; auto). discriminate. }
      destruct am.
      { eexists _, _, _, _, []. rewrite app_nil_r. split; [reflexivity|]. split; [constructor|]. split; [cbn; lia|]. split; [constructor|]. split; [exact L|]. split; [exact Lp|]. split; [exact B|].
        right. right. right. now apply Ha. }
      assert (Bn : bounded b new).
      { intros i. rewrite Hn. unfold raised. destruct (Nat.leb_spec 1 i); cbn [andb]; [|apply B]. destruct (Nat.ltb_spec i dim); cbn [andb]; [|apply B].
        destruct (rk (tranks (tround ft)) i =? rk (tranks ft) i); [|apply B]. specialize (Hb i ltac:(lia)). lia. }
      destruct (H4 (palloc new) st) as (e & st1 & Ec). refine (eq_ind _ (fun z => exists ft' p' st' err' l, obind z _ = _ /\ _) _ _ (eq_sym Ec)). cbn [obind fltb Rops].
      match goal with |- context [Rltb ?x ?y] => destruct (Rltb_spec x y) as [C|C] end.
      + destruct (H5 ft) as (p1 & Eu & Rp). refine (eq_ind _ (fun z => exists ft' p' st' err' l, obind z _ = _ /\ _) _ _ (eq_sym Eu)). cbn [obind].
        eexists _, _, _, _, _. split; [reflexivity|]. split; [now constructor|]. split; [cbn; lia|]. split; [repeat constructor; exact Bn|]. rewrite Rp. split; [exact Lr|]. split; [reflexivity|].
        split; [intros i; eapply Nat.le_trans; [apply Br|apply B]|]. left. exists []. eexists _, _, _. split; [reflexivity|]. split; [exact Eu|reflexivity].
      + destruct (H2 (palloc new) st1) as (t2 & p2 & st2 & Ef & T1 & T2). rewrite Ef. cbn [obind]. rewrite (H1 new Ln) in T1, T2.
        destruct (IH p2 st2 t2 e (log ++ [ACv RO T new e; AFit RO T new])) as (ft' & p' & st' & err' & l & El & Pl & Ll & Fl & L' & Lp' & B' & En); [rewrite T1; exact Ln|congruence|rewrite T1; exact Bn|].
        rewrite T1 in El. eexists _, _, _, _, _. split; [rewrite El; rewrite <- app_assoc; reflexivity|]. cbn [app].
        split; [constructor; [lra|exact Pl]|]. split; [cbn [length]; lia|]. split; [constructor; [repeat constructor; exact Bn|constructor; [repeat constructor; exact Bn|exact Fl]]|].
        split; [exact L'|]. split; [exact Lp'|]. split; [exact B'|].
        destruct En as [(l' & r & n & u & -> & Q & R)|[Q|[Q|Q]]]; [left|right; left|right; right; left; exact Q|right; right; right; exact Q].
        * exists (ACv RO T new e :: AFit RO T new :: l'), r, n, u. repeat split; auto.
        * cbn [length]. lia.
  Qed.
End Adapt.

Section Main.
  Variable P S T : Type.
  Variable tranks : T -> list nat.
  Variable tround : T -> T.
  Variable tparams : T -> list R.
  Variable palloc : list nat -> P.
  Variable pupdate : P -> list R -> outcome P.
  Variable ptrain : P -> T.
  Variable cvrun : P -> S -> outcome (R * S).
  Variable fit : P -> S -> outcome (T * P * S).
  Variable dim maxrank kickrank : nat.
  Notation run := (rank_adapt RO P S T tranks tround tparams palloc pupdate ptrain cvrun fit dim maxrank kickrank).
  Notation parts := (parts_ok P S T tranks tround tparams palloc pupdate ptrain cvrun fit dim).
  Notation ended := (ended P T tranks tround tparams palloc pupdate ptrain dim maxrank).

  Lemma blit_all (l : list nat) n : length l = n -> blit (repeat 0 n) 0 l 0 n = Ok l.
  Proof using.
    clear. intros L. rewrite blit_ok by (rewrite ?repeat_length; lia). f_equal. subst n. unfold splice. cbn [firstn app skipn Nat.add]. rewrite firstn_all2 by lia. rewrite skipn_all2 by (rewrite repeat_length; lia). now rewrite app_nil_r.
  Qed.

  (** The method ends. It first cross validates and fits the initial ranks, then does at
      most ten rounds. The error of cross validation never rises from one accepted fit to
      the next. No rank that is used, or that the result has, is above both the initial
      rank and the maximum. It stops because a rise was rejected (the result is then the
      rounded train of the round before), because ten rounds are over, because rounding
      lowered every rank, or because every rank is at its maximum. *)
  Theorem C98_adapt (p0 : P) (st : S) : parts -> length (tranks (ptrain p0)) = dim + 1 ->
    let b i := Nat.max (rk (tranks (ptrain p0)) i) maxrank in
    exists t p st' err0 err l, run false p0 st = Ok (t, p, st', err, ACv RO T (tranks (ptrain p0)) err0 :: AFit RO T (tranks (ptrain p0)) :: l) /\
      (exists s, cvrun p0 st = Ok (err0, s)) /\ progress T err0 l err /\ (err <= err0)%R /\ length l <= 20 /\
      Forall (fun a => Forall (bounded b) (act_ranks T a)) l /\ bounded b (tranks t) /\ tranks (ptrain p) = tranks t /\ ended 10 l t p.
  Proof using.
    intros H L b. pose proof H as (H1 & H2 & H3 & H4 & H5). unfold rank_adapt. destruct (H4 p0 st) as (e & s1 & Ec).
    refine (eq_ind _ (fun z => exists t p st' err0 err l, obind z _ = _ /\ _) _ _ (eq_sym Ec)). cbn [obind].
    destruct (H2 p0 s1) as (t1 & p1 & s2 & Ef & T1 & T2). rewrite Ef. cbn [obind]. rewrite blit_all by (rewrite T1; exact L). cbn [obind].
    destruct (loop_ok P S T tranks tround tparams palloc pupdate ptrain cvrun fit dim maxrank kickrank b H) with (fuel := 10) (p := p1) (st := s2) (ft := t1) (err := e)
      (log := [ACv RO T (tranks (ptrain p0)) e; AFit RO T (tranks (ptrain p0))]) as (t & p & st' & err & l & El & Pl & Ll & Fl & L' & Lp & B' & En).
    - intros i _. unfold b. lia.
    - rewrite T1. exact L.
    - congruence.
    - rewrite T1. intros i. unfold b. lia.
    - rewrite El. cbn [obind app]. exists t, p, st', e, err, l. split; [reflexivity|]. split; [exists s1; exact Ec|]. split; [exact Pl|]. split; [apply (progress_le T _ _ _ Pl)|]. repeat split; auto.
  Qed.
  (** With finalize, one more regression starts from the parameters found, and the ranks
      remain. *)
  Theorem C98_finalize (p0 : P) (st : S) : parts -> length (tranks (ptrain p0)) = dim + 1 ->
    exists t p st' err l t2 p2 st2, run false p0 st = Ok (t, p, st', err, l) /\ fit p st' = Ok (t2, p2, st2) /\
      run true p0 st = Ok (t2, p2, st2, err, l ++ [AFit RO T (tranks t)]) /\ tranks t2 = tranks t.
  Proof using.
    intros H L. pose proof H as (H1 & H2 & H3 & H4 & H5). destruct (C98_adapt p0 st H L) as (t & p & st' & e0 & err & l & E & _ & _ & _ & _ & _ & _ & Lp & _).
    destruct (H2 p st') as (t2 & p2 & st2 & Ef & T1 & T2). exists t, p, st', err, (ACv RO T (tranks (ptrain p0)) e0 :: AFit RO T (tranks (ptrain p0)) :: l), t2, p2, st2.
    split; [exact E|]. split; [exact Ef|]. split; [|congruence].
    revert E. unfold rank_adapt. destruct (cvrun p0 st) as [[e s]| | |]; try discriminate. cbn [obind]. destruct (fit p0 s) as [[[a q] s2]| | |]; try discriminate. cbn [obind].
    destruct (blit _ _ _ _ _) as [rs| | |]; try discriminate. cbn [obind].
    match goal with |- context [adapt_loop ?a1 ?a2 ?a3 ?a4 ?a5 ?a6 ?a7 ?a8 ?a9 ?b1 ?b2 ?b3 ?b4 ?b5 ?b6 ?b7 ?b8 ?b9 ?c1 ?c2 ?c3 ?c4] => destruct (adapt_loop a1 a2 a3 a4 a5 a6 a7 a8 a9 b1 b2 b3 b4 b5 b6 b7 b8 b9 c1 c2 c3 c4) as [[[[[x1 x2] x3] x4] x5]| | |] end; try discriminate.
    cbn [obind]. intros [= -> -> -> -> ->]. rewrite Ef. cbn [obind]. rewrite Lp. reflexivity.
  Qed.
  (** If the initial ranks respect the maximum, so does the result. *)
  Theorem C98_within (p0 : P) (st : S) : parts -> length (tranks (ptrain p0)) = dim + 1 -> (forall i, rk (tranks (ptrain p0)) i <= maxrank) ->
    exists t p st' err l, run false p0 st = Ok (t, p, st', err, l) /\ forall i, rk (tranks t) i <= maxrank.
  Proof using.
    intros H L B. destruct (C98_adapt p0 st H L) as (t & p & st' & e0 & err & l & E & _ & _ & _ & _ & _ & Bt & _). eexists _, _, _, _, _. split; [exact E|].
    intros i. specialize (Bt i). specialize (B i). cbn beta in Bt. lia.
  Qed.
  (** The maximum given is no maximum: initial ranks at or above it are kept as they are,
      whatever rounding says. *)
  Theorem C98_above (p0 : P) (st : S) : parts -> length (tranks (ptrain p0)) = dim + 1 -> (forall i, 1 <= i < dim -> maxrank <= rk (tranks (ptrain p0)) i) ->
    exists t p st' err l, run false p0 st = Ok (t, p, st', err, l) /\ tranks t = tranks (ptrain p0) /\ length l = 2.
  Proof using.
    intros H L B. pose proof H as (H1 & H2 & H3 & H4 & H5). unfold rank_adapt. destruct (H4 p0 st) as (e & s1 & Ec).
    refine (eq_ind _ (fun z => exists t p st' err l, obind z _ = _ /\ _) _ _ (eq_sym Ec)). cbn [obind].
    destruct (H2 p0 s1) as (t1 & p1 & s2 & Ef & T1 & T2). rewrite Ef. cbn [obind]. rewrite blit_all by (rewrite T1; exact L). cbn [obind].
    rewrite <- T1 in L, B. destruct (all_max_ok dim maxrank (tranks t1) L) as (am & Ea & Ha). destruct (H3 t1 L) as [Lr _].
    destruct (kick_ok dim maxrank kickrank (tranks (tround t1)) (tranks t1) Lr L) as (new & kd & Ek & _).
    assert (am = true) as -> by (apply Ha; exact B). cbn [adapt_loop]. rewrite Ea. cbn [obind]. rewrite Ek. cbn [obind]. rewrite orb_true_r. cbn [obind].
    eexists _, _, _, _, _. split; [reflexivity|]. split; [exact T1|reflexivity].
  Qed.
End Main.
Print Assumptions C98_adapt.
Print Assumptions C98_finalize.
Print Assumptions C98_within.
Print Assumptions C98_above.

(** The ranks tried next: an inner rank that rounding left alone is raised by the kick,
    up to the maximum; the others are kept. *)
Theorem C98_kick dim maxrank kickrank rounded ranks : length rounded = dim + 1 -> length ranks = dim + 1 ->
  exists new b, kick dim maxrank kickrank rounded ranks = Ok (new, b) /\ length new = dim + 1 /\
    (forall i, rk new i = raised dim maxrank kickrank rounded ranks i) /\ (b = true <-> exists i, 1 <= i < dim /\ rk rounded i = rk ranks i).
Proof. apply kick_ok. Qed.
Print Assumptions C98_kick.

(** ** A case in two dimensions: a train is the list of its ranks, rounding lowers the
    inner rank to at most 5, cross validation reports 8, then 6 from rank 4, then 7 from
    rank 5; the kick is 2 *)
Definition toy_round (t : list nat) : list nat := map (fun i => if i =? 1 then Nat.min (rk t 1) 5 else rk t i) [0; 1; 2].
Definition toy_cv (p : list nat) (s : nat) : outcome (R * nat) := Ok (if rk p 1 <=? 3 then 8%R else if rk p 1 <=? 4 then 6%R else 7%R, s).
Definition toy_run (r : list nat) (maxrank : nat) :=
  rank_adapt RO (list nat) nat (list nat) (fun t => t) toy_round (fun _ => []) (fun r => r) (fun p _ => Ok p) (fun p => p)
    toy_cv (fun p s => Ok (p, p, s)) 2 maxrank 2 false r 0.
Lemma toy_parts : parts_ok (list nat) nat (list nat) (fun t => t) toy_round (fun _ => []) (fun r => r) (fun p _ => Ok p) (fun p => p)
    toy_cv (fun p s => Ok (p, p, s)) 2.
Proof.
  split; [reflexivity|]. split; [intros p s; eexists _, _, _; split; reflexivity || (split; reflexivity)|].
  split; [intros t L; split; [reflexivity|]; intros [|[|[|i]]]; cbn [toy_round map nth Nat.eqb]; try lia; destruct t as [|a [|b [|c [|d t]]]]; try discriminate; cbn; destruct i; lia|]. split; [intros; eexists _, _; reflexivity|]. intros t. eexists. split; reflexivity.
Qed.
Example C98_case : toy_run [1; 2; 1] 9 =
  Ok ([1; 4; 1], [1; 4; 1], 0, 6%R, [ACv RO _ [1; 2; 1] 8%R; AFit RO _ [1; 2; 1]; ACv RO _ [1; 4; 1] 6%R; AFit RO _ [1; 4; 1]; ACv RO _ [1; 6; 1] 7%R; ABack RO _ [1; 4; 1]]).
Proof.
  assert (E1 : Rltb 8 6 = false) by (destruct (Rltb_spec 8 6); [lra|reflexivity]). assert (E2 : Rltb 6 7 = true) by (destruct (Rltb_spec 6 7); [reflexivity|lra]).
  cbv -[IZR Rltb]. rewrite E1. cbv -[IZR Rltb]. rewrite E2. reflexivity.
Qed.
(** The maximum is not respected when the initial ranks are above it. *)
Theorem C98_maximum_refuted : exists (r : list nat) (maxrank : nat) t p st err l, length r = 3 /\ toy_run r maxrank = Ok (t, p, st, err, l) /\ exists i, maxrank < rk t i.
Proof.
  exists [1; 7; 1], 3. destruct (C98_above _ _ _ _ _ _ _ _ _ _ _ 2 3 2 [1; 7; 1] 0 toy_parts eq_refl) as (t & p & st & err & l & E & Et & _).
  - intros i Hi. assert (i = 1) as -> by lia. cbn. lia.
  - exists t, p, st, err, l. split; [reflexivity|]. split; [exact E|]. exists 1. rewrite Et. cbn. lia.
Qed.
Print Assumptions C98_maximum_refuted.
