(** C91: stochastic gradient descent. *)
From Verif Require Import SgdFacts PropOpt2 PropOpt3 BfgsFacts.
From Coq Require Import ZArith Reals Lra Psatz Permutation.
Open Scope R_scope.

(** ** The order of the samples *)
(** Whatever the random numbers, the new order is a rearrangement. *)
Theorem C91_shuffle rmax rnd (l : list nat) pos : (forall k, (rnd k <= rmax)%nat) ->
  exists l', shuffle rmax rnd (length l) l pos = Ok (l', (pos + (length l - 1))%nat) /\ Permutation l l'.
Proof. intros H. now apply shuffle_ok. Qed.
Print Assumptions C91_shuffle.
(** Every order can come up, unless there are too many samples for the generator. *)
Theorem C91_all_orders rmax (l p : list nat) : (length l * (length l - 1) <= rmax)%nat -> Permutation l p ->
  exists rnd, (forall k, (rnd k <= rmax)%nat) /\ exists pos, shuffle rmax rnd (length l) l 0 = Ok (p, pos).
Proof.
  intros HR P. destruct (shuffle_reaches rmax (length l) l p 0 HR eq_refl P) as (rl & L & Hr & H).
  exists (fun k => nth k rl 0%nat). split.
  - intros k. destruct (nth_in_or_default k rl 0%nat) as [I|E]; [now apply Hr|rewrite E; lia].
  - eexists. apply H. intros i Hi. reflexivity.
Qed.
Print Assumptions C91_all_orders.
Example C91_order_case : exists rnd, (forall k, (rnd k <= 99)%nat) /\ exists pos, shuffle 99 rnd 4 [0; 1; 2; 3]%nat 0 = Ok ([2; 0; 3; 1]%nat, pos).
Proof.
  apply (C91_all_orders 99 [0; 1; 2; 3]%nat [2; 0; 3; 1]%nat).
  - cbn [length]. lia.
  - apply NoDup_Permutation; [repeat constructor; cbn; lia|repeat constructor; cbn; lia|]. intros k. cbn [In]. lia.
Qed.

(** ** Specification of a run *)
Record state := mkst { t_x : list R; t_m : list R; t_v : list R; t_prev : list R; t_w : list R; t_q : R }.
Section Run.
  Variable d : nat.
  Variable gs : nat -> list R -> list R.
  (** a step against the gradient of sample [k] *)
  Definition down (rate : R) (x : list R) (k : nat) : list R := tab d (fun i => nth i x 0 - rate * nth i (gs k x) 0).
  (** the moments, and a step along them; [t] is the time in the corrections of the bias *)
  Definition moment1 (m g : list R) : list R := tab d (fun i => 9 / 10 * nth i m 0 + (1 - 9 / 10) * nth i g 0).
  Definition moment2 (v g : list R) : list R := tab d (fun i => 999 / 1000 * nth i v 0 + (1 - 999 / 1000) * nth i g 0 ^ 2).
  Definition adam (t : nat) (rate : R) (x m v : list R) : list R :=
    tab d (fun i => nth i x 0 - rate * (nth i m 0 / (1 - (9 / 10) ^ t)) / (sqrt (nth i v 0 / (1 - (999 / 1000) ^ t)) + / 10 ^ 8)).
  (** the step for sample [k] in epoch [e], the first one being number 0; beside the
      point and the moments it keeps the point before the step, the gradient used last,
      and the sum of the squared lengths of the gradients used up to then *)
  Definition step (mom : bool) (e : nat) (rate : R) (s : state) (k : nat) : state :=
    let x := t_x s in let g := gs k x in let q := t_q s + rs d (fun i => nth i (t_w s) 0 ^ 2) in
    if (mom && (10 <=? e)%nat)%bool then
      let m := moment1 (t_m s) g in let v := moment2 (t_v s) g in mkst (adam (e + 1) rate x m v) m v x g q
    else mkst (down rate x k) (t_m s) (t_v s) x g q.
  Definition epoch (mom : bool) (e : nat) (rate : R) (s : state) (ks : list nat) : state :=
    fold_left (step mom e rate) ks (mkst (t_x s) (t_m s) (t_v s) (t_prev s) (t_w s) 0).
  (** after [n] epochs with the samples [os] *)
  Fixpoint after (mom : bool) (rate decay : R) (s : state) (os : nat -> list nat) (n : nat) : state :=
    match n with
    | O => s
    | S n => epoch mom n (rate * decay ^ n) (after mom rate decay s os n) (os n)
    end.
  Definition start (x w : list R) : state := mkst x (repeat 0 d) (repeat 0 d) x w 0.
End Run.
Definition mean (fs : nat -> list R -> R) (ks : list nat) (x : list R) : R :=
  fold_right Rplus 0 (map (fun k => fs k x) ks) / INR (length ks).

(** ** The model meets it *)
Ltac rring := match goal with |- ?a = ?b => change (@eq R a b); ring end.
Ltac ostep E := refine (eq_trans (f_equal (fun z => obind z _) E) _); cbn [obind].
Lemma sum_snoc l (a : R) : fold_right Rplus 0 (l ++ [a]) = fold_right Rplus 0 l + a.
Proof. induction l as [|b l IH]; cbn [fold_right app]; [ring|]. rewrite IH. ring. Qed.
Lemma nth_error_skip {A} n (l : list A) i : nth_error (skipn n l) i = nth_error l (n + i).
Proof. revert l. induction n as [|n IH]; intros [|a l]; cbn [skipn Nat.add nth_error]; auto. now destruct i. Qed.
Lemma mean_over_ok fs order lo hi (x : list R) : (lo <= hi)%nat -> (hi <= length order)%nat ->
  mean_over RO fs order lo hi x = Ok (mean fs (firstn (hi - lo) (skipn lo order)) x).
Proof.
  intros Hl Hh. unfold mean_over. set (st := fun i => fold_right Rplus 0 (map (fun j => fs j x) (firstn (i - lo) (skipn lo order)))).
  assert (S0 : st lo = 0) by (unfold st; rewrite Nat.sub_diag; reflexivity).
  match goal with |- obind (for_from lo ?n ?b ?z) ?c = _ => assert (E : for_from lo n b (st lo) = Ok (st (lo + n)%nat)) end.
  { apply for_from_det. intros i Hi. unfold aget. rewrite (nth_error_nth' order 0%nat) by lia. cbn [obind]. f_equal. unfold st.
    replace (S i - lo)%nat with (S (i - lo)) by lia. rewrite (firstn_S_nth (skipn lo order) (i - lo) (nth i order 0%nat)).
    - rewrite map_app. cbn [map]. rewrite sum_snoc. reflexivity.
    - rewrite nth_error_skip. replace (lo + (i - lo))%nat with i by lia. apply nth_error_nth'. lia. }
  rewrite S0 in E. match goal with |- obind _ ?c = _ => refine (eq_trans (f_equal (fun z => obind z c) E) _) end. cbn [obind fdiv fnat Rops]. f_equal.
  unfold mean, st. replace (lo + (hi - lo) - lo)%nat with (hi - lo)%nat by lia. rewrite firstn_length, skipn_length.
  replace (Nat.min (hi - lo) (length order - lo)) with (hi - lo)%nat by lia. reflexivity.
Qed.

Notation b1 := (9 / 10).
Notation b2 := (999 / 1000).
Notation e8 := (/ 10 ^ 8).
Lemma fpow_ok (a : R) n : fpow RO a n = a ^ n.
Proof. induction n as [|n IH]; cbn [fpow pow]; [reflexivity|]. now rewrite IH. Qed.

Section Model.
  Variable fs : nat -> list R -> R.
  Variable gs : nat -> list R -> list R.
  Variable o : sgdopt RO.
  Notation d := (s_d RO o).
  Notation nd := (s_ndata RO o).
  Notation nt := (n_train nd).
  Notation mom := (s_mom RO o).
  Hypothesis Hg : forall k y, length y = d -> length (gs k y) = d.

  Lemma nt_le : (nt <= nd)%nat.
  Proof. unfold n_train. apply Nat.lt_succ_r. apply Nat.div_lt_upper_bound; lia. Qed.
  Lemma term_ok order (next cur : list R) : length order = nd -> length next = d -> length cur = d ->
    exists te, term_check RO fs o order next cur = Ok (rs d (fun i => (nth i next 0 - nth i cur 0) ^ 2), mean fs (firstn nt order) next, te).
  Proof using.
    clear Hg. intros Lo Ln Lc. unfold term_check. assert (Hn := nt_le).
    match goal with |- exists te, obind (for_ _ ?b ?z) ?c = _ =>
      assert (E : for_ d b (rs 0 (fun i => (nth i next 0 - nth i cur 0) ^ 2)) = Ok (rs d (fun i => (nth i next 0 - nth i cur 0) ^ 2))) end.
    { apply (for_det (fun n => rs n (fun i => (nth i next 0 - nth i cur 0) ^ 2))). intros i Hi. rewrite !aget_nth by lia. cbn [obind rs]. f_equal. cbn [fadd fsub fmul Rops]. rring. }
    refine (eq_ind _ (fun z => exists te, obind z _ = _) _ _ (eq_sym E)). cbn [obind].
    rewrite (mean_over_ok fs order 0 nt next) by lia. cbn [obind skipn]. rewrite Nat.sub_0_r. rewrite mean_over_ok by lia. cbn [obind]. eexists. reflexivity.
  Qed.

  Lemma plain_ok rate (cur w next : list R) : length cur = d -> length w = d -> length next = d ->
    plain_step RO o rate cur w next = Ok (tab d (fun i => nth i cur 0 - rate * nth i w 0)).
  Proof using.
    clear Hg. intros Lc Lw Ln. unfold plain_step. apply (upd_tab d (fun i _ => nth i cur 0 - rate * nth i w 0)); auto.
    intros i c' Hi L. rewrite !aget_nth by lia. reflexivity.
  Qed.
  Definition mix (n : nat) (a b : list R) : list R := tab d (fun i => if (i <? n)%nat then nth i a 0 else nth i b 0).
  Lemma mix_0 a b : length b = d -> mix 0 a b = b.
  Proof. intros L. apply (nth_ext _ _ 0 0); unfold mix; rewrite tab_length; auto. intros i Hi. now rewrite nth_tab. Qed.
  Lemma mix_d a b : length a = d -> mix d a b = a.
  Proof. intros L. apply (nth_ext _ _ 0 0); unfold mix; rewrite tab_length; auto. intros i Hi. rewrite nth_tab by auto. destruct (Nat.ltb_spec i d); [reflexivity|lia]. Qed.
  Lemma mix_get n a b : (n < d)%nat -> aget (mix n a b) n = Ok (nth n b 0).
  Proof. intros H. rewrite aget_nth by (unfold mix; now rewrite tab_length). unfold mix. rewrite nth_tab by auto. now rewrite Nat.ltb_irrefl. Qed.
  Lemma mix_set n a b v : (n < d)%nat -> nth n a 0 = v -> aset (mix n a b) n v = Ok (mix (S n) a b).
  Proof.
    intros H <-. rewrite aset_ok by (unfold mix; now rewrite tab_length). f_equal.
    apply (nth_ext _ _ 0 0); [rewrite upd_length; unfold mix; now rewrite !tab_length|]. rewrite upd_length. unfold mix. rewrite tab_length. intros i Hi.
    rewrite nth_upd by (now rewrite tab_length). rewrite !nth_tab by auto. destruct (Nat.eqb_spec i n) as [->|].
    - destruct (Nat.ltb_spec n (S n)); [reflexivity|lia].
    - destruct (Nat.ltb_spec i n), (Nat.ltb_spec i (S n)); try lia; reflexivity.
  Qed.
  Lemma mix_get2 n a b : (n < d)%nat -> aget (mix (S n) a b) n = Ok (nth n a 0).
  Proof.
    intros H. rewrite aget_nth by (unfold mix; now rewrite tab_length). unfold mix. rewrite nth_tab by auto. destruct (Nat.ltb_spec n (S n)); [reflexivity|lia].
  Qed.
  Lemma adam_ok t rate (w next m v : list R) : length w = d -> length next = d -> length m = d -> length v = d ->
    adam_step RO sqrt e8 b1 b2 o t rate w next m v = Ok (adam d t rate next (moment1 d m w) (moment2 d v w), moment1 d m w, moment2 d v w).
  Proof using.
    clear Hg. intros Lw Ln Lm Lv. unfold adam_step. set (M := moment1 d m w). set (V := moment2 d v w). set (X := adam d t rate next M V).
    match goal with |- for_ d ?b _ = _ => assert (E : for_ d b (mix 0 X next, mix 0 M m, mix 0 V v) = Ok (mix d X next, mix d M m, mix d V v)) end.
    { apply (for_det (fun n => (mix n X next, mix n M m, mix n V v))). intros i Hi. cbv beta iota.
      ostep (mix_get i M m Hi). ostep (aget_nth w i ltac:(lia)).
      assert (EM : nth i M 0 = b1 * nth i m 0 + (1 - b1) * nth i w 0) by (unfold M, moment1; now rewrite nth_tab).
      assert (EV : nth i V 0 = b2 * nth i v 0 + (1 - b2) * nth i w 0 * nth i w 0) by (unfold V, moment2; rewrite nth_tab by auto; ring).
      ostep (mix_set i M m _ Hi EM). ostep (mix_get i V v Hi). ostep (mix_set i V v _ Hi EV).
      ostep (mix_get2 i M m Hi). ostep (mix_get2 i V v Hi). ostep (mix_get i X next Hi).
      refine (eq_trans (f_equal (fun z => obind z _) (mix_set i X next _ Hi _)) _); [|reflexivity].
      unfold X, adam. rewrite nth_tab by auto. rewrite (fpow_ok b1 t), (fpow_ok b2 t). unfold fneg. cbn [fadd fsub fmul fdiv f0 f1 Rops].
      unfold Rdiv. rring. }
    rewrite !mix_0, !mix_d in E by (auto; apply tab_length). exact E.
  Qed.

  Definition wf (s : state) : Prop :=
    length (t_x s) = d /\ length (t_m s) = d /\ length (t_v s) = d /\ length (t_prev s) = d /\ length (t_w s) = d.
  Definition tup (s : state) : list R * list R * list R * list R * list R * R := (t_prev s, t_x s, t_w s, t_m s, t_v s, t_q s).
  Lemma step_wf e rate s k : wf s -> wf (step d gs mom e rate s k).
  Proof using Hg.
    intros (H1 & H2 & H3 & H4 & H5). unfold step. destruct (mom && (10 <=? e)%nat)%bool; unfold wf; cbn [t_x t_m t_v t_prev t_w];
      unfold adam, moment1, moment2, down; rewrite ?tab_length, ?Hg by auto; auto.
  Qed.
  Lemma fold_wf e rate ks s : wf s -> wf (fold_left (step d gs mom e rate) ks s).
  Proof using Hg. revert s. induction ks as [|k ks IH]; intros s W; cbn [fold_left]; auto. apply IH, step_wf, W. Qed.
  Lemma blit_over2 (dst src : list R) : length dst = d -> length src = d -> blit dst 0 src 0 d = Ok src.
  Proof using.
    clear Hg. intros L1 L2. rewrite blit_ok by lia. cbn [skipn]. f_equal. replace (firstn d src) with src by (symmetry; apply firstn_all2; lia).
    apply splice_full. lia.
  Qed.
  Lemma epoch_ok e rate order s : (nt <= length order)%nat -> wf s ->
    sgd_epoch RO sqrt e8 b1 b2 gs o e (e + 1) rate order (t_prev s, t_x s, t_w s, t_m s, t_v s, 0) = Ok (tup (epoch d gs mom e rate s (firstn nt order))).
  Proof using Hg.
    intros Hn W. unfold sgd_epoch, epoch. set (s0 := mkst (t_x s) (t_m s) (t_v s) (t_prev s) (t_w s) 0). assert (W0 : wf s0) by exact W.
    change (t_prev s, t_x s, t_w s, t_m s, t_v s, 0) with (tup (fold_left (step d gs mom e rate) (firstn 0 order) s0)).
    apply (for_det (fun n => tup (fold_left (step d gs mom e rate) (firstn n order) s0))). intros i Hi.
    rewrite (firstn_S_nth order i (nth i order 0%nat)) by (apply nth_error_nth'; lia). rewrite fold_left_app. cbn [fold_left].
    assert (Ws := fold_wf e rate (firstn i order) s0 W0). set (S := fold_left _ (firstn i order) s0) in *. destruct Ws as (H1 & H2 & H3 & H4 & H5).
    unfold tup at 1. cbv beta iota. ostep (blit_over2 (t_prev S) (t_x S) H4 H1).
    assert (EQ : for_ d (fun jj s => do a <- aget (t_w S) jj; Ok (s + a * a)) 0 = Ok (rs d (fun i => nth i (t_w S) 0 ^ 2))).
    { apply (for_det (fun n => rs n (fun i => nth i (t_w S) 0 ^ 2))). intros j Hj. rewrite aget_nth by lia. cbn [obind rs]. f_equal. ring. }
    assert (Ek : aget order i = Ok (nth i order 0%nat)) by (apply aget_ok, nth_error_nth'; lia). ostep EQ. ostep Ek.
    assert (Lk : length (gs (nth i order 0%nat) (t_x S)) = d) by auto. ostep (blit_over2 (t_w S) _ H5 Lk).
    unfold step. replace (negb mom || (e <? 10)%nat)%bool with (negb (mom && (10 <=? e)%nat)%bool) by (destruct mom, (Nat.leb_spec 10 e), (Nat.ltb_spec e 10); cbn; auto; lia).
    destruct (mom && (10 <=? e)%nat)%bool; cbn [negb].
    - ostep (adam_ok (e + 1) rate _ (t_x S) (t_m S) (t_v S) Lk H1 H2 H3). reflexivity.
    - ostep (plain_ok rate (t_x S) _ (t_x S) H1 Lk H1). reflexivity.
  Qed.

  (** ** The whole run *)
  Variable rmax : nat.
  Variable rnd : nat -> nat.
  Hypothesis Hr : forall k, (rnd k <= rmax)%nat.
  Variable x0 w0 : list R.
  Hypothesis Lx : length x0 = d.
  Hypothesis Lw : length w0 = d.
  Notation at_ os n := (after d gs mom (s_rate RO o) (s_decay RO o) (start d x0 w0) (fun e => firstn nt (nth e os [])) n).
  Definition errors (o0 : list nat) (os : list (list nat)) : list R :=
    mean fs (firstn nt o0) x0 :: map (fun n => mean fs (firstn nt (nth n os [])) (t_x (at_ os (S n)))) (seq 0 (length os)).

  Lemma after_ext (f f' : nat -> list nat) rate decay s n : (forall e, (e < n)%nat -> f e = f' e) ->
    after d gs mom rate decay s f n = after d gs mom rate decay s f' n.
  Proof using. clear. induction n as [|n IH]; intros H; cbn [after]; auto. rewrite IH, (H n) by (auto; intros; apply H; lia). reflexivity. Qed.
  Lemma at_app os os' n : (n <= length os)%nat -> at_ (os ++ os') n = at_ os n.
  Proof using. clear. intros Hn. apply after_ext. intros e He. now rewrite app_nth1 by lia. Qed.
  Lemma errors_snoc o0 os ks : errors o0 (os ++ [ks]) = errors o0 os ++ [mean fs (firstn nt ks) (t_x (at_ (os ++ [ks]) (S (length os))))].
  Proof using.
    clear. unfold errors. cbn [app]. f_equal. rewrite app_length. cbn [length]. rewrite Nat.add_1_r, seq_S, map_app. f_equal.
    - apply map_ext_in. intros n Hn. apply in_seq in Hn. rewrite at_app by lia. now rewrite app_nth1 by lia.
    - cbn [map Nat.add]. rewrite app_nth2 by lia. rewrite Nat.sub_diag. reflexivity.
  Qed.
  Lemma start_wf : wf (start d x0 w0).
  Proof using Lx Lw. clear - Lx Lw. unfold wf, start. cbn [t_x t_m t_v t_prev t_w]. rewrite !repeat_length. auto. Qed.
  Lemma after_wf f n rate decay : wf (after d gs mom rate decay (start d x0 w0) f n).
  Proof using Hg Lx Lw.
    induction n as [|n IH]; cbn [after]; [apply start_wf|]. unfold epoch. apply fold_wf. destruct IH as (A & B & C & D & E). unfold wf. cbn. auto.
  Qed.

  Definition good (l : list nat) : Prop := Permutation (seq 0 nd) l.
  (** what the codes say *)
  Definition stopped (o0 : list nat) (os : list (list nat)) (code : Z) : Prop :=
    let n := length os in let s := at_ os n in let e := errors o0 os in
    let new := nth n e 0 in let old := nth (n - 1) e 0 in
    (code = (-1)%Z /\ n = s_max RO o /\ (0 < n)%nat) \/
    (code = 0%Z /\ n = 0%nat /\ s_max RO o = 0%nat) \/
    ((6 < n)%nat /\
     ((code = 3%Z /\ t_q s / INR nt < s_gtol RO o) \/
      (code = 1%Z /\ Rabs (if Rltb lit10 old then Rabs (new - old) / new else Rabs (new - old)) < s_relf RO o) \/
      (code = 2%Z /\ rs d (fun i => (nth i (t_x s) 0 - nth i (t_prev s) 0) ^ 2) < s_absx RO o) \/
      (code = 0%Z /\ s_rate RO o * s_decay RO o ^ n < lit20))).

  Definition outcome_ok (o0 : list nat) (fval0 : R) (os : list (list nat)) (r : sgdres RO) : Prop :=
    Forall good os /\ length os = g_iter RO r /\ (length os <= s_max RO o)%nat /\
    g_x RO r = t_x (at_ os (length os)) /\ g_hist RO r = errors o0 os /\
    g_f RO r = (if (length os =? 0)%nat then fval0 else nth (length os) (errors o0 os) 0) /\ stopped o0 os (g_code RO r).

  Lemma sq_sum_pos n F : 0 <= rs n (fun i => F i ^ 2).
  Proof using. clear. induction n as [|n IH]; cbn [rs]; [lra|]. pose proof (pow2_ge_0 (F n)). lra. Qed.
  Lemma errors_length o0 os : length (errors o0 os) = S (length os).
  Proof using. clear. unfold errors. cbn [length]. now rewrite map_length, seq_length. Qed.
  Lemma sgd_loop_ok o0 fval0 fuel : forall os order pos (x : list R) train fval q,
    (fuel + length os = s_max RO o)%nat -> Forall good os -> good order ->
    x = t_x (at_ os (length os)) -> train = nth (length os) (errors o0 os) 0 -> fval = (if (length os =? 0)%nat then fval0 else train) ->
    let s := at_ os (length os) in
    exists r os', sgd_loop RO sqrt lit20 lit10 e8 b1 b2 rmax rnd fs gs o fuel (length os) (length os + 1) (s_rate RO o * s_decay RO o ^ length os) order pos
      (t_prev s, t_x s, t_w s, t_m s, t_v s, q) x train fval (errors o0 os) = Ok r /\ (exists q, os' = os ++ q) /\ outcome_ok o0 fval0 os' r.
  Proof using Hg Hr Lx Lw.
    induction fuel as [|fuel IH]; intros os order pos x train fval q Hf Go Gr Ex Et Ef s; cbn [sgd_loop].
    - eexists _, os. split; [reflexivity|]. split; [exists []; now rewrite app_nil_r|]. unfold outcome_ok. cbn [g_iter g_x g_hist g_f g_code].
      split; [exact Go|]. split; [reflexivity|]. split; [lia|]. split; [exact Ex|]. split; [reflexivity|]. split; [rewrite Ef, Et; reflexivity|].
      unfold stopped. cbv zeta. destruct (Nat.ltb_spec 0 (s_max RO o)); [left; repeat split; lia|right; left; repeat split; lia].
    - assert (Lo : length order = nd) by (rewrite <- (Permutation_length Gr); apply seq_length).
      destruct (shuffle_ok rmax rnd nd Hr order pos Lo) as (ord & Es & Ps). rewrite Es. cbn [obind].
      assert (Gn : good ord) by (eapply Permutation_trans; [exact Gr|exact Ps]). assert (Ln : length ord = nd) by (rewrite <- (Permutation_length Gn); apply seq_length).
      assert (Ws : wf s) by apply after_wf. assert (Hn := nt_le). cbn [f0 Rops]. rewrite (epoch_ok (length os) _ ord s) by (auto; lia).
      set (os1 := os ++ [ord]). assert (L1 : length os1 = S (length os)) by (unfold os1; rewrite app_length; cbn [length]; lia).
      assert (E1 : epoch d gs mom (length os) (s_rate RO o * s_decay RO o ^ length os) s (firstn nt ord) = at_ os1 (length os1)).
      { rewrite L1. cbn [after]. unfold os1 at 2. rewrite app_nth2 by lia. rewrite Nat.sub_diag. cbn [nth]. unfold s. f_equal. symmetry. unfold os1. apply at_app. lia. }
      rewrite E1. set (s1 := at_ os1 (length os1)) in *. unfold tup. cbn [obind].
      assert (W1 : wf s1) by apply after_wf.
      destruct (term_ok ord (t_x s1) (t_prev s1) Ln) as (te & Ete); try apply W1. rewrite Ete. cbn [obind].
      assert (Le : length x = d) by (rewrite Ex; apply Ws).
      match goal with |- context [obind (blit x 0 (t_x s1) 0 d) ?k] => set (K1 := k) end.
      assert (EK : obind (blit x 0 (t_x s1) 0 d) K1 = K1 (t_x s1)) by (exact (f_equal (fun z => obind z K1) (blit_over2 x (t_x s1) Le ltac:(apply W1)))).
      refine (eq_ind _ (fun z => exists r os', z = _ /\ _) _ _ (eq_sym EK)). unfold K1. clear EK K1. cbv zeta.
      set (train1 := mean fs (firstn nt ord) (t_x s1)).
      assert (Eh : errors o0 os ++ [train1] = errors o0 os1).
      { unfold os1, train1. rewrite errors_snoc. unfold s1. now rewrite L1. }
      assert (En : nth (length os1) (errors o0 os1) 0 = train1).
      { rewrite <- Eh, L1. rewrite app_nth2 by (rewrite errors_length; lia). rewrite errors_length, Nat.sub_diag. reflexivity. }
      assert (Eo : nth (length os1 - 1) (errors o0 os1) 0 = train).
      { rewrite <- Eh, L1. rewrite app_nth1 by (rewrite errors_length; lia). replace (S (length os) - 1)%nat with (length os) by lia. now symmetry. }
      assert (G1 : Forall good os1) by (apply Forall_app; auto).
      assert (Er : s_rate RO o * s_decay RO o ^ length os * s_decay RO o = s_rate RO o * s_decay RO o ^ length os1) by (rewrite L1; cbn [pow]; ring).
      assert (Stop : forall c, (5 < length os)%nat ->
        ((c = 3%Z /\ t_q s1 / INR nt < s_gtol RO o) \/
         (c = 1%Z /\ Rabs (if Rltb lit10 train then Rabs (train1 - train) / train1 else Rabs (train1 - train)) < s_relf RO o) \/
         (c = 2%Z /\ rs d (fun i => (nth i (t_x s1) 0 - nth i (t_prev s1) 0) ^ 2) < s_absx RO o) \/
         (c = 0%Z /\ s_rate RO o * s_decay RO o ^ length os1 < lit20)) ->
        outcome_ok o0 fval0 os1 (SgdModel.mkres RO c (t_x s1) train1 (errors o0 os1) (length os + 1))).
      { intros c H5 HC. unfold outcome_ok. cbn [g_iter g_x g_hist g_f g_code]. split; [exact G1|]. split; [lia|]. split; [lia|]. split; [reflexivity|]. split; [reflexivity|].
        split; [rewrite L1; cbn [Nat.eqb]; rewrite <- L1; now symmetry|]. unfold stopped. cbv zeta. right. right. split; [lia|]. rewrite En, Eo. exact HC. }
      assert (Go1 : exists r os', sgd_loop RO sqrt lit20 lit10 e8 b1 b2 rmax rnd fs gs o fuel (length os + 1) (length os + 1 + 1) (s_rate RO o * s_decay RO o ^ length os * s_decay RO o) ord
        (pos + (nd - 1)) (t_prev s1, t_x s1, t_w s1, t_m s1, t_v s1, t_q s1) (t_x s1) train1 train1 (errors o0 os1) = Ok r /\ (exists q, os' = os ++ q) /\ outcome_ok o0 fval0 os' r).
      { destruct (IH os1 ord (pos + (nd - 1))%nat (t_x s1) train1 train1 (t_q s1)) as (r & os' & E & (q' & Q) & OK); auto; try lia.
        - rewrite L1. reflexivity.
        - exists r, os'. split; [|split; [exists (ord :: q'); rewrite Q; unfold os1; now rewrite <- app_assoc|exact OK]].
          rewrite Er. replace (length os + 1)%nat with (length os1) by lia. exact E. }
      cbn [fltb fsub fdiv fmul fabs fnat Rops].
      match goal with |- context [sgd_loop _ _ _ _ _ _ _ _ _ _ _ _ _ _ _ _ _ _ _ _ _ _ ?h] => change h with (errors o0 os ++ [train1]) end. rewrite Eh.
      destruct (Nat.ltb_spec 5 (length os)) as [H5|H5]; [|exact Go1].
      assert (Fin : forall c, ((c = 3%Z /\ t_q s1 / INR nt < s_gtol RO o) \/
         (c = 1%Z /\ Rabs (if Rltb lit10 train then Rabs (train1 - train) / train1 else Rabs (train1 - train)) < s_relf RO o) \/
         (c = 2%Z /\ rs d (fun i => (nth i (t_x s1) 0 - nth i (t_prev s1) 0) ^ 2) < s_absx RO o) \/
         (c = 0%Z /\ s_rate RO o * s_decay RO o ^ length os1 < lit20)) ->
         exists r os', Ok (SgdModel.mkres RO c (t_x s1) train1 (errors o0 os1) (length os + 1)) = Ok r /\ (exists q, os' = os ++ q) /\ outcome_ok o0 fval0 os' r).
      { intros c HC. eexists _, os1. split; [reflexivity|]. split; [now exists [ord]|]. now apply Stop. }
      rewrite Er in *.
      match goal with |- context [Rltb ?a (s_gtol RO o)] => destruct (Rltb_spec a (s_gtol RO o)) as [C|C] end; [apply Fin; left; auto|].
      match goal with |- context [Rltb ?a (s_relf RO o)] => destruct (Rltb_spec a (s_relf RO o)) as [C2|C2] end; [apply Fin; right; left; auto|].
      match goal with |- context [Rltb ?a (s_absx RO o)] => destruct (Rltb_spec a (s_absx RO o)) as [C3|C3] end.
      { apply Fin. right. right. left. split; [reflexivity|]. rewrite Rabs_right in C3; [exact C3|]. apply Rle_ge. clear.
        apply (sq_sum_pos _ (fun i => nth i (t_x s1) 0 - nth i (t_prev s1) 0)). }
      match goal with |- context [Rltb ?a lit20] => destruct (Rltb_spec a lit20) as [C4|C4] end; [apply Fin; right; right; right; auto|]. exact Go1.
  Qed.
End Model.

(** The method returns for every objective and every sequence of random numbers.  The
    samples are taken in rearranged order [os], one for each epoch; the reported point
    is the result of the steps written out above, the stored values are the mean
    errors on the training samples of each epoch at the point reached, the reported
    value is the last one, and the code tells why it ended. *)
Theorem C91_sgd (fs : nat -> list R -> R) (gs : nat -> list R -> list R) (o : sgdopt RO) rmax rnd (x w : list R) fval :
  let d := s_d RO o in
  (2 <= s_ndata RO o)%nat -> (forall k, (rnd k <= rmax)%nat) -> (forall k y, length y = d -> length (gs k y) = d) -> length x = d -> length w = d ->
  exists r o0 os, opt_sgd RO sqrt lit20 lit10 e8 b1 b2 rmax rnd fs gs o x w fval = Ok r /\ good o o0 /\ outcome_ok fs gs o x w o0 fval os r.
Proof.
  intros d Hn Hr Hg Lx Lw. unfold opt_sgd. replace (s_ndata RO o <? 2)%nat with false by (symmetry; apply Nat.ltb_ge; lia).
  destruct (shuffle_ok rmax rnd (s_ndata RO o) Hr (seq 0 (s_ndata RO o)) 0 (seq_length _ _)) as (o0 & E0 & P0). rewrite E0. cbn [obind].
  assert (L0 : length o0 = s_ndata RO o) by (rewrite <- (Permutation_length P0); apply seq_length).
  cbn [f0 Rops].
  refine (eq_ind _ (fun z => exists r o0 os, obind z _ = _ /\ _) _ _ (eq_sym (blit_over2 o (repeat 0 d) x (repeat_length _ _) Lx))). cbn [obind].
  refine (eq_ind _ (fun z => exists r o0 os, obind z _ = _ /\ _) _ _ (eq_sym (blit_over2 o (repeat 0 d) x (repeat_length _ _) Lx))). cbn [obind].
  destruct (term_ok fs o o0 x x L0 Lx Lx) as (te & Et). rewrite Et. cbn [obind].
  destruct (sgd_loop_ok fs gs o Hg rmax rnd Hr x w Lx Lw o0 fval (s_max RO o) [] o0 (0 + (s_ndata RO o - 1)) x (mean fs (firstn (n_train (s_ndata RO o)) o0) x) fval 0) as (r & os & E & _ & OK); auto.
  exists r, o0, os. split; [|split; [exact P0|exact OK]]. 
  assert (X : s_rate RO o * s_decay RO o ^ length (@nil (list nat)) = s_rate RO o) by (cbn [length pow]; apply Rmult_1_r).
  rewrite X in E. exact E.
Qed.
Print Assumptions C91_sgd.

(** ** Without momentum the steps do not lead away from a common minimizer *)
Definition dist2 (d : nat) (x y : list R) : R := rs d (fun i => (nth i x 0 - nth i y 0) ^ 2).
Lemma down_closer d gs rate (x y : list R) k top : 0 <= rate <= top ->
  top * rs d (fun i => nth i (gs k x) 0 ^ 2) <= 2 * rs d (fun i => nth i (gs k x) 0 * (nth i x 0 - nth i y 0)) ->
  dist2 d (down d gs rate x k) y <= dist2 d x y.
Proof.
  intros Hr H. unfold dist2, down.
  assert (E : forall n, (n <= d)%nat -> rs n (fun i => (nth i (tab d (fun i => nth i x 0 - rate * nth i (gs k x) 0)) 0 - nth i y 0) ^ 2)
    = rs n (fun i => (nth i x 0 - nth i y 0) ^ 2) + rate * (rate * rs n (fun i => nth i (gs k x) 0 ^ 2) - 2 * rs n (fun i => nth i (gs k x) 0 * (nth i x 0 - nth i y 0)))).
  { intros n. induction n as [|n IH]; intros Hn; cbn [rs]; [ring|]. rewrite IH, nth_tab by lia. ring. }
  rewrite (E d) by lia. pose proof (sq_sum_pos d (fun i => nth i (gs k x) 0)) as P.
  set (S := rs d (fun i => nth i (gs k x) 0 ^ 2)) in *. set (T := rs d (fun i => nth i (gs k x) 0 * (nth i x 0 - nth i y 0))) in *.
  assert (A : rate * S <= top * S) by (apply Rmult_le_compat_r; lra). assert (B : rate * (2 * T - rate * S) >= 0) by (apply Rle_ge, Rmult_le_pos; lra). lra.
Qed.
Theorem C91_closer (fs : nat -> list R -> R) (gs : nat -> list R -> list R) (o : sgdopt RO) rmax rnd (x y w : list R) fval r :
  let d := s_d RO o in
  (2 <= s_ndata RO o)%nat -> (forall k, (rnd k <= rmax)%nat) -> (forall k y, length y = d -> length (gs k y) = d) -> length x = d -> length w = d ->
  s_mom RO o = false -> 0 <= s_rate RO o -> 0 <= s_decay RO o <= 1 ->
  (forall k z, (k < s_ndata RO o)%nat -> length z = d ->
     s_rate RO o * rs d (fun i => nth i (gs k z) 0 ^ 2) <= 2 * rs d (fun i => nth i (gs k z) 0 * (nth i z 0 - nth i y 0))) ->
  opt_sgd RO sqrt lit20 lit10 e8 b1 b2 rmax rnd fs gs o x w fval = Ok r -> dist2 d (g_x RO r) y <= dist2 d x y.
Proof.
  intros d Hn Hr Hg Lx Lw Hm H0 Hd H E. destruct (C91_sgd fs gs o rmax rnd x w fval Hn Hr Hg Lx Lw) as (r' & o0 & os & E' & _ & OK).
  rewrite E in E'. injection E' as <-. destruct OK as (G & _ & _ & Ex & _). rewrite Ex. rewrite Hm.
  assert (P : forall n, (n <= length os)%nat -> forall s, s = after d gs false (s_rate RO o) (s_decay RO o) (start d x w) (fun e => firstn (n_train (s_ndata RO o)) (nth e os [])) n ->
    length (t_x s) = d /\ dist2 d (t_x s) y <= dist2 d x y); [|now apply (P (length os) (le_n _) _ eq_refl)].
  induction n as [|n IH]; intros Hl s ->; cbn [after]; [split; [exact Lx|apply Rle_refl]|].
  destruct (IH ltac:(lia) _ eq_refl) as [A B]. clear IH. set (s := after _ _ _ _ _ _ _ n) in *.
  assert (Ks : forall k, In k (firstn (n_train (s_ndata RO o)) (nth n os [])) -> (k < s_ndata RO o)%nat).
  { intros k I. assert (I' : In k (nth n os [])) by (rewrite <- (firstn_skipn (n_train (s_ndata RO o))); apply in_app_iff; auto).
    rewrite Forall_forall in G. assert (Hl' : (n < length os)%nat) by (clear - Hl; lia). assert (Q := G (nth n os []) (nth_In _ _ Hl')). apply (Permutation_in _ (Permutation_sym Q)) in I'. apply in_seq in I'. clear - I'. lia. }
  assert (Hp : 0 <= s_decay RO o ^ n <= 1).
  { split; [apply pow_le; lra|]. rewrite <- (pow1 n). apply pow_incr. lra. }
  assert (Hq : 0 <= s_rate RO o * s_decay RO o ^ n <= s_rate RO o).
  { split; [apply Rmult_le_pos; lra|]. rewrite <- (Rmult_1_r (s_rate RO o)) at 2. apply Rmult_le_compat_l; lra. }
  unfold epoch. set (s0 := mkst _ _ _ _ _ 0). assert (A0 : length (t_x s0) = d) by exact A. assert (B0 : dist2 d (t_x s0) y <= dist2 d x y) by exact B.
  clearbody s0. clear - A0 B0 Ks Hq H. revert s0 A0 B0. induction (firstn _ _) as [|k ks IH]; intros s0 A0 B0; cbn [fold_left]; [auto|].
  apply IH; [intros j Hj; apply Ks; now right| |]; unfold step; cbn [andb t_x].
  - unfold down. apply tab_length.
  - eapply Rle_trans; [|exact B0]. apply down_closer with (top := s_rate RO o); [exact Hq|]. apply H; [apply Ks; now left|exact A0].
Qed.
Print Assumptions C91_closer.
(** two samples with gradient [x - 3], rate 1/2 and decay 9/10 *)
Example C91_closer_case : let gs := fun (_ : nat) (z : list R) => [nth 0 z 0 - 3] in
  exists r, opt_sgd RO sqrt lit20 lit10 e8 b1 b2 99 (fun k => k mod 7)%nat (fun _ z => (nth 0 z 0 - 3) ^ 2 / 2) gs
    (mksgd RO 1 25 (/ 100) (/ 100) (/ 100) 2 (1 / 2) (9 / 10) false) [10] [0] 0 = Ok r /\ dist2 1 (g_x RO r) [3] <= dist2 1 [10] [3].
Proof.
  intros gs.
  assert (Hr : forall k, (k mod 7 <= 99)%nat) by (intros k; pose proof (Nat.mod_upper_bound k 7); lia).
  set (o := mksgd RO 1 25 (/ 100) (/ 100) (/ 100) 2 (1 / 2) (9 / 10) false). set (fs := fun (_ : nat) z => (nth 0 z 0 - 3) ^ 2 / 2).
  assert (Hn : (2 <= s_ndata RO o)%nat) by apply le_n. assert (Hg : forall k y, length y = s_d RO o -> length (gs k y) = s_d RO o) by reflexivity.
  destruct (C91_sgd fs gs o 99 _ [10] [0] 0 Hn Hr Hg eq_refl eq_refl) as (r & o0 & os & E & _). exists r. split; [exact E|].
  refine (C91_closer fs gs o 99 _ [10] [3] [0] 0 r Hn Hr Hg eq_refl eq_refl eq_refl _ _ _ E); cbn [s_rate s_decay o]; try lra.
  intros k z _ _. change (s_d RO o) with 1%nat. unfold gs. cbn [rs nth]. pose proof (pow2_ge_0 (nth 0 z 0 - 3)). lra.
Qed.

(** ** Corner cases *)
(** The samples held out for validation are drawn anew in every epoch: the gradients of
    a sample that the first order holds out have an effect on the result. *)
Theorem C91_validation_refuted : exists (rmax : nat) rnd (o : sgdopt RO) x w order pos (gs gs' : nat -> list R -> list R) r r',
  (forall k, (rnd k <= rmax)%nat) /\ shuffle rmax rnd (s_ndata RO o) (seq 0 (s_ndata RO o)) 0 = Ok (order, pos) /\
  (forall k, In k (firstn (n_train (s_ndata RO o)) order) -> gs k = gs' k) /\
  opt_sgd RO sqrt lit20 lit10 e8 b1 b2 rmax rnd (fun _ _ => 0) gs o x w 0 = Ok r /\
  opt_sgd RO sqrt lit20 lit10 e8 b1 b2 rmax rnd (fun _ _ => 0) gs' o x w 0 = Ok r' /\ g_x RO r <> g_x RO r'.
Proof.
  exists 99%nat, (fun k => if (k =? 5)%nat then 99%nat else 0%nat), (mksgd RO 1 1 0 0 0 6 1 1 false), [1], [0], [0; 1; 2; 3; 4; 5]%nat, 5%nat,
    (fun _ _ => [0]), (fun k _ => if (k =? 5)%nat then [1] else [0]). eexists _, _.
  split; [intros k; destruct (k =? 5)%nat; lia|]. split; [vm_compute; reflexivity|]. split.
  - intros k I. replace (firstn _ _) with [0; 1; 2; 3; 4]%nat in I by (vm_compute; reflexivity). cbn [In] in I.
    destruct (Nat.eqb_spec k 5); [lia|reflexivity].
  - split; [cbv -[Rplus Rminus Rmult Rdiv Rinv Ropp Rabs INR IZR Rltb lit20 lit10 e8 b1 b2 sqrt]; reflexivity|].
    split; [cbv -[Rplus Rminus Rmult Rdiv Rinv Ropp Rabs INR IZR Rltb lit20 lit10 e8 b1 b2 sqrt]; reflexivity|].
    cbn [g_x]. intros E. injection E as E. lra.
Qed.
Print Assumptions C91_validation_refuted.
(** With two to five samples none is held out. *)
Theorem C91_none_held n : (2 <= n)%nat -> (n_train n <= n)%nat /\ (n_train n = n <-> (n <= 5)%nat).
Proof.
  intros H. assert (A := Nat.div_mod (20 * n + 11) 22 ltac:(lia)). assert (B := Nat.mod_upper_bound (20 * n + 11) 22 ltac:(lia)). unfold n_train. split; [|split]; lia.
Qed.
Print Assumptions C91_none_held.
(** The corrections of the bias count epochs instead of updates of the moments: the
    first corrected moment of a gradient is not the gradient. *)
Theorem C91_bias_refuted : exists gs rate s k, let s' := step 1 gs true 10 rate s k in
  t_m s = [0] /\ nth 0 (gs k (t_x s)) 0 = 1 /\ nth 0 (t_m s') 0 / (1 - (9 / 10) ^ (10 + 1)) < 1 / 6.
Proof.
  exists (fun _ _ => [1]), 1, (mkst [0] [0] [0] [0] [0] 0), 0%nat. split; [reflexivity|]. split; [reflexivity|].
  cbn [step andb Nat.leb Nat.add t_m t_x nth]. unfold moment1. rewrite nth_tab by lia. cbn [nth]. lra.
Qed.
Print Assumptions C91_bias_refuted.
