(** Lemmas about the base layer. *)
From Verif Require Export Base.

Lemma obind_ok {A B} (m : outcome A) (f : A -> outcome B) (b : B) :
  obind m f = Ok b -> exists a, m = Ok a /\ f a = Ok b.
Proof. destruct m; simpl; intros H; try discriminate; eauto. Qed.

Lemma upd_length {A} (l : list A) i a : length (upd l i a) = length l.
Proof. revert i; induction l as [|h t IH]; destruct i; simpl; auto. Qed.

Lemma nth_error_upd_same {A} (l : list A) i a :
  i < length l -> nth_error (upd l i a) i = Some a.
Proof.
  revert i; induction l as [|h t IH]; destruct i; simpl; intros Hi; try lia; auto.
  apply IH; lia.
Qed.

Lemma nth_error_upd_other {A} (l : list A) i j a :
  i <> j -> nth_error (upd l i a) j = nth_error l j.
Proof.
  revert i j; induction l as [|h t IH]; destruct i, j; simpl; intros Hij; auto; try lia.
Qed.

Lemma nth_error_upd {A} (l : list A) i j a :
  i < length l ->
  nth_error (upd l i a) j = if Nat.eqb i j then Some a else nth_error l j.
Proof.
  intros Hi. destruct (Nat.eqb_spec i j) as [->|Hne].
  - now apply nth_error_upd_same.
  - now apply nth_error_upd_other.
Qed.

Lemma upd_app_l {A} (l1 l2 : list A) i a :
  i < length l1 -> upd (l1 ++ l2) i a = upd l1 i a ++ l2.
Proof.
  revert i; induction l1 as [|h t IH]; destruct i; simpl; intros Hi; try lia; auto.
  rewrite IH by lia; auto.
Qed.

Lemma upd_app_r {A} (l1 l2 : list A) i a :
  upd (l1 ++ l2) (length l1 + i) a = l1 ++ upd l2 i a.
Proof. induction l1; simpl; auto. now rewrite IHl1. Qed.

Lemma aset_ok {A} (l : list A) i a : i < length l -> aset l i a = Ok (upd l i a).
Proof. intros Hi. unfold aset. apply Nat.ltb_lt in Hi. now rewrite Hi. Qed.

Lemma aset_inv {A} (l : list A) i a l' :
  aset l i a = Ok l' -> i < length l /\ l' = upd l i a.
Proof.
  unfold aset. destruct (Nat.ltb_spec i (length l)); intros HH; inversion HH; auto.
Qed.

Lemma aget_ok {A} (l : list A) i a : nth_error l i = Some a -> aget l i = Ok a.
Proof. intros H; unfold aget; now rewrite H. Qed.

Lemma aget_inv {A} (l : list A) i a : aget l i = Ok a -> nth_error l i = Some a.
Proof. unfold aget; destruct (nth_error l i); intros H; inversion H; auto. Qed.

Lemma aget_lt {A} (l : list A) i : i < length l -> exists a, nth_error l i = Some a /\ aget l i = Ok a.
Proof.
  intros Hi. destruct (nth_error l i) eqn:E.
  - exists a; split; auto. now apply aget_ok.
  - apply nth_error_None in E; lia.
Qed.

Lemma pget_ok {A} (l : list (option A)) i a : nth_error l i = Some (Some a) -> pget l i = Ok a.
Proof. intros H; unfold pget; now rewrite H. Qed.

(** * tab *)
Lemma tab_length {A} n (f : nat -> A) : length (tab n f) = n.
Proof. unfold tab; now rewrite map_length, seq_length. Qed.

Lemma nth_error_seq lo n i : i < n -> nth_error (seq lo n) i = Some (lo + i).
Proof.
  revert lo i; induction n as [|n IH]; intros lo i Hi; try lia.
  destruct i; simpl.
  - f_equal; lia.
  - rewrite IH by lia. f_equal; lia.
Qed.

Lemma nth_error_tab {A} n (f : nat -> A) i : i < n -> nth_error (tab n f) i = Some (f i).
Proof.
  intros Hi. unfold tab. rewrite nth_error_map, nth_error_seq by auto. reflexivity.
Qed.

Lemma aget_tab {A} n (f : nat -> A) i : i < n -> aget (tab n f) i = Ok (f i).
Proof. intros; apply aget_ok; now apply nth_error_tab. Qed.

Lemma tab_ext {A} n (f g : nat -> A) : (forall i, i < n -> f i = g i) -> tab n f = tab n g.
Proof.
  intros H. unfold tab. apply map_ext_in. intros i Hi. apply in_seq in Hi. apply H; lia.
Qed.

Lemma nth_error_ext {A} (l1 l2 : list A) :
  length l1 = length l2 ->
  (forall i, i < length l1 -> nth_error l1 i = nth_error l2 i) -> l1 = l2.
Proof.
  revert l2; induction l1 as [|a t IH]; destruct l2 as [|b u]; simpl; intros HL H; try lia; auto.
  f_equal.
  - specialize (H 0); simpl in H. assert (0 < S (length t)) as Hlt by lia. specialize (H Hlt). now inversion H.
  - apply IH; [lia|]. intros i Hi. apply (H (S i)); lia.
Qed.

Lemma tab_eq_intro {A} n (f : nat -> A) l :
  length l = n -> (forall i, i < n -> nth_error l i = Some (f i)) -> l = tab n f.
Proof.
  intros HL H. apply nth_error_ext.
  - now rewrite tab_length.
  - intros i Hi. rewrite nth_error_tab by lia. apply H; lia.
Qed.

Lemma tab_S {A} n (f : nat -> A) : tab (S n) f = tab n f ++ [f n].
Proof. unfold tab. rewrite seq_S, map_app. reflexivity. Qed.

Lemma tab_cons {A} n (f : nat -> A) : tab (S n) f = f 0 :: tab n (fun i => f (S i)).
Proof. unfold tab. simpl. f_equal. rewrite <- seq_shift, map_map. reflexivity. Qed.

Lemma tab_app {A} n m (f : nat -> A) : tab (n + m) f = tab n f ++ tab m (fun i => f (n + i)).
Proof.
  induction m as [|m IH].
  - rewrite Nat.add_0_r. cbn. now rewrite app_nil_r.
  - rewrite Nat.add_succ_r, !tab_S, IH, app_assoc. reflexivity.
Qed.

Lemma list_eq_tab_nth {A} (d : A) (l : list A) : l = tab (length l) (fun i => nth i l d).
Proof.
  apply tab_eq_intro; auto. intros i Hi. now apply nth_error_nth'.
Qed.

Lemma map_tab {A B} (g : A -> B) n f : map g (tab n f) = tab n (fun i => g (f i)).
Proof. unfold tab. now rewrite map_map. Qed.

Lemma nth_tab {A} (d : A) n f i : i < n -> nth i (tab n f) d = f i.
Proof. intros Hi. apply nth_error_nth. now apply nth_error_tab. Qed.

Lemma repeat_tab {A} (a : A) n : repeat a n = tab n (fun _ => a).
Proof.
  apply tab_eq_intro; [apply repeat_length|].
  intros i Hi. apply nth_error_repeat; auto.
Qed.

(** * freeze *)
Lemma freeze_map_Some {A} (l : list A) : freeze (map Some l) = Ok l.
Proof. induction l; simpl; auto. now rewrite IHl. Qed.

Lemma freeze_tab {A} n (f : nat -> A) : freeze (tab n (fun i => Some (f i))) = Ok (tab n f).
Proof.
  rewrite <- freeze_map_Some. unfold tab. rewrite map_map. reflexivity.
Qed.

Lemma freeze_inv {A} (l : list (option A)) r : freeze l = Ok r -> l = map Some r.
Proof.
  revert r; induction l as [|[a|] t IH]; simpl; intros r H.
  - inversion H; auto.
  - apply obind_ok in H. destruct H as [r' [H1 H2]]. inversion H2; subst. simpl. f_equal; auto.
  - discriminate.
Qed.

(** * loops *)
Lemma for_from_inv {S} (I : nat -> S -> Prop) body lo n s :
  I lo s ->
  (forall i s, lo <= i < lo + n -> I i s -> exists s', body i s = Ok s' /\ I (Datatypes.S i) s') ->
  exists s', for_from lo n body s = Ok s' /\ I (lo + n) s'.
Proof.
  revert lo s; induction n as [|n IH]; simpl; intros lo s H0 Hstep.
  - exists s; split; auto. now rewrite Nat.add_0_r.
  - destruct (Hstep lo s) as [s1 [E1 I1]]; [lia|auto|].
    rewrite E1; simpl.
    destruct (IH (Datatypes.S lo) s1 I1) as [s2 [E2 I2]].
    + intros i si Hi. apply Hstep; lia.
    + exists s2; split; auto. rewrite Nat.add_succ_r. exact I2.
Qed.

Lemma for_inv {S} (I : nat -> S -> Prop) body n s :
  I 0 s ->
  (forall i s, i < n -> I i s -> exists s', body i s = Ok s' /\ I (Datatypes.S i) s') ->
  exists s', for_ n body s = Ok s' /\ I n s'.
Proof.
  intros H0 H. unfold for_. apply (for_from_inv I body 0 n s H0).
  intros i si Hi; apply H; lia.
Qed.

(** Deterministic version: the state after [i] iterations is [st i]. *)
Lemma for_from_det {S} (st : nat -> S) body lo n :
  (forall i, lo <= i < lo + n -> body i (st i) = Ok (st (Datatypes.S i))) ->
  for_from lo n body (st lo) = Ok (st (lo + n)).
Proof.
  revert lo; induction n as [|n IH]; simpl; intros lo H.
  - now rewrite Nat.add_0_r.
  - rewrite H by lia. simpl. rewrite IH.
    + now rewrite Nat.add_succ_r.
    + intros i Hi; apply H; lia.
Qed.

Lemma for_det {S} (st : nat -> S) body n :
  (forall i, i < n -> body i (st i) = Ok (st (Datatypes.S i))) ->
  for_ n body (st 0) = Ok (st n).
Proof. intros H. unfold for_. apply (for_from_det st body 0 n). intros; apply H; lia. Qed.

Lemma for_from_ext {S} (b1 b2 : nat -> S -> outcome S) lo n s :
  (forall i s, lo <= i < lo + n -> b1 i s = b2 i s) ->
  for_from lo n b1 s = for_from lo n b2 s.
Proof.
  revert lo s; induction n as [|n IH]; simpl; intros lo s H; auto.
  rewrite H by lia. destruct (b2 lo s); simpl; auto. apply IH. intros; apply H; lia.
Qed.

Lemma for_ext {S} (b1 b2 : nat -> S -> outcome S) n s :
  (forall i s, i < n -> b1 i s = b2 i s) -> for_ n b1 s = for_ n b2 s.
Proof. intros H. apply for_from_ext. intros; apply H; lia. Qed.

Lemma for_from_S {S} (b : nat -> S -> outcome S) lo n s :
  for_from lo (Datatypes.S n) b s = (do s' <- for_from lo n b s; b (lo + n) s').
Proof.
  revert lo s; induction n as [|n IH]; intros lo s.
  - simpl. rewrite Nat.add_0_r. destruct (b lo s); auto.
  - cbn [for_from]. cbn [for_from] in IH. destruct (b lo s) as [s1| | |]; simpl; auto.
    rewrite IH. simpl. now rewrite Nat.add_succ_r.
Qed.

Lemma for_S {S} (b : nat -> S -> outcome S) n s :
  for_ (Datatypes.S n) b s = (do s' <- for_ n b s; b n s').
Proof. apply (for_from_S b 0 n s). Qed.

(** A loop whose steps either keep an invariant or are undefined behaviour, one
    of them always, is undefined behaviour. *)
Lemma for_ub {S} (I : S -> Prop) body n s i0 :
  I s ->
  (forall i s, i < n -> I s -> body i s = UB \/ exists s', body i s = Ok s' /\ I s') ->
  i0 < n -> (forall s, I s -> body i0 s = UB) ->
  for_ n body s = UB.
Proof.
  intros H0 Hs Hi Hb.
  assert (G : forall m, m <= n ->
            for_ m body s = UB \/ (m <= i0 /\ exists s', for_ m body s = Ok s' /\ I s')).
  { induction m as [|m IH]; intros Hm.
    - right. split; [lia|]. exists s. auto.
    - rewrite for_S. destruct IH as [->|[Hle (s' & -> & HI)]]; [lia|now left|]. simpl.
      destruct (Nat.eq_dec m i0) as [->|Hne].
      + left. auto.
      + destruct (Hs m s') as [->|(s'' & -> & HI')]; auto. right. split; [lia|]. eauto. }
  destruct (G n) as [H|[H _]]; auto. lia.
Qed.

(** Writing entry [i] with [f i] for all [i < n] turns the first [n] entries of
    the array into [tab n f] and leaves the others alone. *)
Lemma fill1 {A} (f : nat -> A) n l :
  n <= length l ->
  for_ n (fun i l => aset l i (f i)) l = Ok (tab n f ++ skipn n l).
Proof.
  intros Hn.
  rewrite (for_det (fun i => tab i f ++ skipn i l) _ n); auto.
  intros i Hi. rewrite aset_ok.
  2:{ rewrite app_length, tab_length, skipn_length; lia. }
  f_equal. rewrite tab_S.
  destruct (skipn i l) as [|a t] eqn:E.
  { apply (f_equal (@length A)) in E. rewrite skipn_length in E; simpl in E; lia. }
  replace i with (length (tab i f) + 0) at 2 by (rewrite tab_length; lia).
  rewrite upd_app_r. simpl.
  assert (E2 : skipn (S i) l = t).
  { clear - E. revert l t E. induction i as [|i IH]; intros l t E; destruct l as [|h l'];
    simpl in E; try discriminate; [now inversion E|].
    change (skipn (S i) l' = t). now apply (IH l' t). }
  change (match l with [] => [] | _ :: l0 => skipn i l0 end) with (skipn (S i) l).
  rewrite E2, <- app_assoc. reflexivity.
Qed.

Lemma fill1_all {A} (f : nat -> A) n l :
  n = length l ->
  for_ n (fun i l => aset l i (f i)) l = Ok (tab n f).
Proof.
  intros ->. rewrite fill1 by lia. rewrite skipn_all, app_nil_r. reflexivity.
Qed.

Lemma mod2_cases n : n mod 2 = 0 \/ n mod 2 = 1.
Proof. pose proof (Nat.mod_upper_bound n 2). lia. Qed.

Lemma odd_S n : (S n mod 2 =? 1) = negb (n mod 2 =? 1).
Proof.
  replace (S n) with (n + 1) by lia. rewrite Nat.add_mod by lia.
  destruct (mod2_cases n) as [->| ->]; reflexivity.
Qed.

Lemma even_S n : (S n mod 2 =? 0) = negb (n mod 2 =? 0).
Proof.
  replace (S n) with (n + 1) by lia. rewrite Nat.add_mod by lia.
  destruct (mod2_cases n) as [->| ->]; reflexivity.
Qed.
