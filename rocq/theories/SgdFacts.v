(** Facts about shuffling and the passes of stochastic gradient descent. *)
From Verif Require Export OptFacts SgdModel.
From Coq Require Import ZArith Reals Lra Psatz Permutation.
Open Scope nat_scope.

(** ** Shuffling *)
Lemma pick_lt rmax r k : r <= rmax -> 0 < k -> r / (rmax / k + 1) < k.
Proof.
  intros Hr Hk. apply Nat.div_lt_upper_bound; [lia|]. assert (H := Nat.mul_succ_div_gt rmax k ltac:(lia)). nia.
Qed.
Lemma pick_all rmax k v : v < k -> k * (k - 1) <= rmax -> v * (rmax / k + 1) <= rmax /\ v * (rmax / k + 1) / (rmax / k + 1) = v.
Proof.
  intros Hv Hk. split; [|apply Nat.div_mul; lia].
  assert (A : k * (rmax / k) <= rmax) by (apply Nat.mul_div_le; lia). assert (B : k - 1 <= rmax / k) by (apply Nat.div_le_lower_bound; lia). nia.
Qed.

Definition swap (l : list nat) (i j : nat) : list nat := upd (upd l j (nth i l 0)) i (nth j l 0).
Lemma swap_nth l i j k : i < length l -> j < length l -> nth_error (swap l i j) k = nth_error l (if k =? i then j else if k =? j then i else k).
Proof.
  intros Hi Hj. unfold swap. destruct (Nat.eqb_spec k i) as [->|Ni].
  - rewrite nth_error_upd_same by (rewrite upd_length; lia). symmetry. now apply nth_error_nth'.
  - rewrite nth_error_upd_other by auto. destruct (Nat.eqb_spec k j) as [->|Nj].
    + rewrite nth_error_upd_same by lia. symmetry. now apply nth_error_nth'.
    + now rewrite nth_error_upd_other by auto.
Qed.
Lemma swap_length l i j : length (swap l i j) = length l.
Proof. unfold swap. now rewrite !upd_length. Qed.
Lemma swap_perm l i j : i < length l -> j < length l -> Permutation l (swap l i j).
Proof.
  intros Hi Hj. apply Permutation_nth_error. split; [now rewrite swap_length|].
  exists (fun k => if k =? i then j else if k =? j then i else k). split.
  - intros a b. destruct (Nat.eqb_spec a i), (Nat.eqb_spec a j), (Nat.eqb_spec b i), (Nat.eqb_spec b j); subst; lia.
  - intros k. now apply swap_nth.
Qed.

Section Shuffle.
  Variable rmax : nat.
  Variable rnd : nat -> nat.
  Variable N : nat.
  Notation body := (fun ii '(orders, pos) =>
      let jj := ii + rnd pos / (rmax / (N - ii) + 1) in
      do t <- aget orders jj;
      do u <- aget orders ii;
      do orders <- aset orders jj u;
      do orders <- aset orders ii t;
      Ok (orders, pos + 1)).
  Lemma shuffle_step l pos ii : length l = N -> ii + rnd pos / (rmax / (N - ii) + 1) < N -> ii < N ->
    body ii (l, pos) = Ok (swap l ii (ii + rnd pos / (rmax / (N - ii) + 1)), pos + 1).
  Proof.
    intros L Hj Hi. cbv zeta. set (jj := ii + _) in *. unfold aget at 1 2. rewrite (nth_error_nth' l 0) by lia. cbn [obind].
    rewrite (nth_error_nth' l 0) by lia. cbn [obind]. rewrite !aset_ok by (rewrite ?upd_length; lia). cbn [obind]. rewrite aset_ok by (rewrite upd_length; lia). reflexivity.
  Qed.
  Hypothesis Hr : forall k, rnd k <= rmax.
  Lemma shuffle_ok l pos : length l = N -> exists l', shuffle rmax rnd N l pos = Ok (l', pos + (N - 1)) /\ Permutation l l'.
  Proof.
    intros L. unfold shuffle. destruct (Nat.ltb_spec 1 N) as [HN|HN].
    - destruct (for_inv (fun n s => Permutation l (fst s) /\ snd s = pos + n) body (N - 1) (l, pos)) as ([l' p'] & E & P & Ep).
      + split; [reflexivity|cbn; lia].
      + intros i [l1 p1] Hi (P & Ep). cbn [fst snd] in *. assert (L1 : length l1 = N) by (rewrite <- L; symmetry; now apply Permutation_length).
        assert (Hp := pick_lt rmax (rnd p1) (N - i) (Hr _) ltac:(lia)).
        eexists. split; [apply (shuffle_step l1 p1 i L1); lia|]. cbn [fst snd]. split; [|lia]. eapply Permutation_trans; [exact P|]. apply swap_perm; lia.
      + exists l'. cbn [fst snd] in *. split; [rewrite <- Ep; exact E|exact P].
    - exists l. split; [|reflexivity]. do 2 f_equal. lia.
  Qed.
End Shuffle.

(** every order is the result of some random numbers *)
Lemma shuffle_reaches rmax N (l p : list nat) pos : N * (N - 1) <= rmax -> length l = N -> Permutation l p ->
  exists rl, length rl = N - 1 /\ (forall v, In v rl -> v <= rmax) /\
    forall rnd, (forall i, i < N - 1 -> rnd (pos + i) = nth i rl 0) -> shuffle rmax rnd N l pos = Ok (p, pos + (N - 1)).
Proof.
  intros HR L P. unfold shuffle. destruct (Nat.ltb_spec 1 N) as [HN|HN].
  2:{ exists []. split; [cbn; lia|]. split; [intros v []|]. intros rnd _. assert (l = p).
      { destruct l as [|a [|b l]]; cbn [length] in L; [now apply Permutation_nil in P|apply Permutation_length_1_inv in P; now subst|lia]. }
      subst p. do 2 f_equal. lia. }
  assert (Lp : length p = N) by (rewrite <- L; symmetry; now apply Permutation_length).
  assert (G : forall n lo l pos, lo + n = N - 1 -> length l = N -> Permutation l p -> firstn lo l = firstn lo p ->
    exists rl, length rl = n /\ (forall v, In v rl -> v <= rmax) /\
      forall rnd, (forall i, i < n -> rnd (pos + i) = nth i rl 0) ->
      for_from lo n (fun ii '(orders, pos) =>
      let jj := ii + rnd pos / (rmax / (N - ii) + 1) in
      do t <- aget orders jj;
      do u <- aget orders ii;
      do orders <- aset orders jj u;
      do orders <- aset orders ii t;
      Ok (orders, pos + 1)) (l, pos) = Ok (p, pos + n)).
  { clear l pos L P. induction n as [|n IH]; intros lo l pos Hlo L P F.
    - exists []. split; [reflexivity|]. split; [intros v []|]. intros rnd _. cbn [for_from]. rewrite Nat.add_0_r. do 2 f_equal.
      rewrite <- (firstn_skipn lo l), <- (firstn_skipn lo p), F in P. apply Permutation_app_inv_l in P.
      rewrite <- (firstn_skipn lo l), <- (firstn_skipn lo p), F. f_equal.
      assert (L1 : length (skipn lo l) = 1) by (rewrite skipn_length; lia). destruct (skipn lo l) as [|a [|b t]]; cbn [length] in L1; try lia.
      apply Permutation_length_1_inv in P. now rewrite P.
    - assert (Px : exists v, lo + v < N /\ nth (lo + v) l 0 = nth lo p 0).
      { assert (PS : Permutation (skipn lo l) (skipn lo p)).
        { rewrite <- (firstn_skipn lo l), <- (firstn_skipn lo p), F in P. now apply Permutation_app_inv_l in P. }
        assert (I : In (nth lo p 0) (skipn lo l)).
        { apply (Permutation_in _ (Permutation_sym PS)). rewrite (skipn_nth p lo (nth lo p 0)) by (apply nth_error_nth'; lia). now left. }
        apply (In_nth _ _ 0) in I. destruct I as (v & Hv & Ev). rewrite skipn_length in Hv. exists v. split; [lia|].
        rewrite <- Ev. rewrite <- (firstn_skipn lo l) at 1. rewrite app_nth2 by (rewrite firstn_length; lia). rewrite firstn_length. f_equal. lia. }
      destruct Px as (v & Hv & Ev). set (k := N - lo). destruct (pick_all rmax k v ltac:(lia)) as (R1 & R2); [unfold k; nia|].
      assert (Ps : Permutation (swap l lo (lo + v)) p) by (eapply Permutation_trans; [apply Permutation_sym, swap_perm; lia|exact P]).
      destruct (IH (S lo) (swap l lo (lo + v)) (pos + 1) ltac:(lia) ltac:(now rewrite swap_length) Ps) as (rl & Lr & Hr & H).
      { rewrite (firstn_S_nth (swap l lo (lo + v)) lo (nth lo p 0)).
        - rewrite (firstn_S_nth p lo (nth lo p 0)) by (apply nth_error_nth'; lia). f_equal. rewrite <- F.
          apply nth_error_ext; [rewrite !firstn_length, swap_length; reflexivity|]. intros i Hi. rewrite firstn_length in Hi.
          rewrite !nth_error_firstn by lia. rewrite swap_nth by lia. destruct (Nat.eqb_spec i lo), (Nat.eqb_spec i (lo + v)); try lia. reflexivity.
        - rewrite swap_nth by lia. rewrite Nat.eqb_refl. rewrite (nth_error_nth' l 0) by lia. now rewrite Ev. }
      exists (v * (rmax / k + 1) :: rl). split; [cbn [length]; lia|]. split.
      + intros u [<-|I]; auto.
      + intros rnd Hrnd. cbn [for_from]. assert (E0 : rnd pos = v * (rmax / k + 1)) by (specialize (Hrnd 0 ltac:(lia)); rewrite Nat.add_0_r in Hrnd; exact Hrnd).
        assert (Hj : lo + rnd pos / (rmax / (N - lo) + 1) = lo + v) by (fold k; now rewrite E0, R2).
        assert (ES := shuffle_step rmax rnd N l pos lo L ltac:(lia) ltac:(lia)). rewrite Hj in ES.
        refine (eq_trans (f_equal (fun z => obind z _) ES) _). cbn [obind]. replace (pos + S n) with (pos + 1 + n) by lia. apply H. intros i Hi. specialize (Hrnd (S i) ltac:(lia)). cbn [nth] in Hrnd. rewrite <- Hrnd. f_equal. lia. }
  destruct (G (N - 1) 0 l pos ltac:(lia) L P eq_refl) as (rl & A & B & C). exists rl. auto.
Qed.
