(** Proofs about itoa, bite_string2 and readtxt_double_array. *)
From Verif Require Import Base BaseFacts StrModel StrFacts.
From Coq Require Import ZArith.
Local Open Scope Z_scope.

(** ** Reading a numeral back (specification) *)
Definition digit_val (c : nat) : Z :=
  if (c <? 58)%nat then Z.of_nat c - 48 else Z.of_nat c - 87.
Definition digits_val (base : Z) (s : list nat) : Z :=
  fold_left (fun acc c => acc * base + digit_val c) s 0.
Definition numeral_val (base : Z) (s : list nat) : Z :=
  match s with
  | c :: t => if (c =? ch_minus)%nat then - digits_val base t else digits_val base s
  | [] => 0
  end.
(** The character of a digit below [base]: 0-9 then a-z. *)
Definition is_digit (base : Z) (c : nat) : Prop :=
  (48 <= c <= 57 \/ 97 <= c <= 122)%nat /\ 0 <= digit_val c < base.

Lemma itoa_table_nth : forall i, (i < 71)%nat ->
  nth_error itoa_table i = Some (digit_char (if (i <? 35)%nat then 35 - i else i - 35)).
Proof.
  intros i Hi.
  assert (F : forallb (fun i => match nth_error itoa_table i with
                | Some c => (c =? digit_char (if (i <? 35)%nat then 35 - i else i - 35))%nat
                | None => false end) (seq 0 71) = true) by (vm_compute; reflexivity).
  rewrite forallb_forall in F. specialize (F i).
  destruct (nth_error itoa_table i) as [c|].
  - f_equal. apply Nat.eqb_eq. apply F. apply in_seq. lia.
  - discriminate F. apply in_seq. lia.
Qed.

Lemma itoa_table_get : forall r, -35 <= r <= 35 ->
  aget itoa_table (Z.to_nat (35 + r)) = Ok (digit_char (Z.to_nat (Z.abs r))).
Proof.
  intros r Hr. unfold aget. rewrite itoa_table_nth by lia. do 2 f_equal.
  destruct (Nat.ltb_spec (Z.to_nat (35 + r)) 35); lia.
Qed.

Lemma digit_char_val : forall d, (d < 36)%nat ->
  digit_val (digit_char d) = Z.of_nat d
  /\ (48 <= digit_char d <= 57 \/ 97 <= digit_char d <= 122)%nat.
Proof.
  intros d Hd. unfold digit_val, digit_char.
  destruct (Nat.ltb_spec d 10).
  - destruct (Nat.ltb_spec (48 + d) 58); lia.
  - destruct (Nat.ltb_spec (87 + d) 58); lia.
Qed.

Lemma upd_split : forall (l : list nat) p c, (p < length l)%nat ->
  upd l p c = firstn p l ++ c :: skipn (S p) l.
Proof.
  induction l as [|x l IH]; intros [|p] c H; cbn in *; try lia; [reflexivity|].
  now rewrite IH by lia.
Qed.

Lemma skipn_add : forall (l : list nat) a b, skipn a (skipn b l) = skipn (b + a) l.
Proof.
  intros l a b. revert l. induction b as [|b IH]; intros l; [reflexivity|].
  destruct l as [|x l]; cbn; [now rewrite skipn_nil|apply IH].
Qed.

Lemma itoa_digits_ok : forall k base fuel value l pos,
  2 <= base <= 36 -> Z.abs value < base ^ Z.of_nat (S k) -> (S k <= fuel)%nat ->
  (pos + S k <= length l)%nat ->
  exists ds tmp,
    itoa_digits fuel value base l pos
    = Ok (firstn pos l ++ ds ++ skipn (pos + length ds) l, (pos + length ds)%nat, tmp)
    /\ (1 <= length ds <= S k)%nat
    /\ Forall (is_digit base) ds
    /\ digits_val base (rev ds) = Z.abs value
    /\ (tmp < 0 <-> value < 0)
    /\ (value <> 0 -> digit_val (last ds 0%nat) <> 0)
    /\ (value = 0 -> length ds = 1%nat).
Proof.
  induction k as [|k IH]; intros base fuel value l pos Hb Hv Hf Hl;
    (destruct fuel as [|fuel]; [lia|]); cbn [itoa_digits];
    set (q := Z.quot value base); set (r := value - q * base).
  - assert (Hq : q = 0).
    { unfold q. apply Z.quot_small_iff; [lia|].
      change (Z.of_nat 1) with 1 in Hv. rewrite Z.pow_1_r in Hv. lia. }
    assert (Hr : r = value) by (unfold r; rewrite Hq; lia).
    change (Z.of_nat 1) with 1 in Hv. rewrite Z.pow_1_r in Hv.
    rewrite itoa_table_get by lia. cbn [obind].
    destruct (digit_char_val (Z.to_nat (Z.abs r))) as [V I]; [lia|].
    rewrite aset_ok by lia. cbn [obind]. rewrite Hq, Z.eqb_refl.
    exists [digit_char (Z.to_nat (Z.abs r))], value.
    split; [|split; [|split; [|split; [|split; [|split]]]]].
    + rewrite upd_split by lia. cbn [length app].
      now replace (pos + 1)%nat with (S pos) by lia.
    + cbn. lia.
    + constructor; [|constructor]. split; [exact I|]. rewrite V. lia.
    + cbn. rewrite V, Hr. lia.
    + tauto.
    + intros H. cbn. rewrite V, Hr. lia.
    + reflexivity.
  - assert (Er : r = Z.rem value base).
    { unfold r, q. pose proof (Z.quot_rem value base). lia. }
    assert (Hr : Z.abs r < base).
    { rewrite Er. pose proof (Z.rem_bound_abs value base). lia. }
    rewrite itoa_table_get by lia. cbn [obind].
    destruct (digit_char_val (Z.to_nat (Z.abs r))) as [V I]; [lia|].
    rewrite aset_ok by lia. cbn [obind].
    assert (Habs : Z.abs value = Z.abs q * base + Z.abs r).
    { rewrite Er. unfold q.
      rewrite <- Z.quot_abs, <- Z.rem_abs by lia. rewrite (Z.abs_eq base) by lia.
      pose proof (Z.quot_rem (Z.abs value) base). lia. }
    destruct (Z.eqb_spec q 0) as [Hq|Hq].
    + exists [digit_char (Z.to_nat (Z.abs r))], value.
      assert (Hr' : r = value) by (unfold r; rewrite Hq; lia).
      split; [|split; [|split; [|split; [|split; [|split]]]]].
      * rewrite upd_split by lia. cbn [length app].
        now replace (pos + 1)%nat with (S pos) by lia.
      * cbn. lia.
      * constructor; [|constructor]. split; [exact I|]. rewrite V. lia.
      * cbn. rewrite V, Hr'. lia.
      * tauto.
      * intros H. cbn. rewrite V, Hr'. lia.
      * reflexivity.
    + set (c := digit_char (Z.to_nat (Z.abs r))) in *.
      destruct (IH base fuel q (upd l pos c) (S pos)) as (ds & tmp & E & L & D & W & T & N & O);
        try lia.
      { replace (Z.of_nat (S (S k))) with (Z.of_nat (S k) + 1) in Hv by lia.
        rewrite Z.pow_add_r, Z.pow_1_r in Hv by lia.
        assert (Z.abs q * base < base ^ Z.of_nat (S k) * base) by lia. nia. }
      { rewrite upd_length. lia. }
      exists (c :: ds), tmp.
      split; [|split; [|split; [|split; [|split; [|split]]]]].
      * rewrite E.
        assert (EL : firstn (S pos) (upd l pos c) ++ ds
                     ++ skipn (S pos + length ds) (upd l pos c)
                     = firstn pos l ++ (c :: ds) ++ skipn (pos + length (c :: ds)) l).
        { rewrite upd_split by lia.
           assert (LP : length (firstn pos l) = pos) by (rewrite firstn_length; lia).
           rewrite firstn_app, LP. replace (S pos - pos)%nat with 1%nat by lia.
           rewrite firstn_firstn. replace (min (S pos) pos) with pos by lia.
           cbn [firstn]. rewrite <- app_assoc. cbn [app]. f_equal. f_equal. f_equal.
           rewrite skipn_app, LP. rewrite skipn_all2 by lia. cbn [app length].
           replace (S pos + length ds - pos)%nat with (S (length ds)) by lia.
           rewrite skipn_cons, skipn_add. f_equal. lia. }
        rewrite EL. cbn [length]. now replace (pos + S (length ds))%nat
          with (S pos + length ds)%nat by lia.
      * cbn [length]. lia.
      * constructor; [|exact D]. split; [exact I|]. rewrite V. lia.
      * cbn [rev]. unfold digits_val. rewrite fold_left_app. cbn [fold_left].
        fold (digits_val base (rev ds)). rewrite W, V, Habs. lia.
      * rewrite T. unfold q.
        destruct (Z.lt_trichotomy value 0) as [S|[S|S]].
        -- split; [lia|]. intros _.
           assert (q <= 0).
           { unfold q. rewrite <- (Z.opp_involutive value), Z.quot_opp_l by lia.
             pose proof (Z.quot_pos (- value) base). lia. }
           unfold q in *. lia.
        -- subst value. rewrite Z.quot_0_l by lia. lia.
        -- pose proof (Z.quot_pos value base). lia.
      * intros _. specialize (N Hq).
        destruct ds as [|x ds]; [cbn in L; lia|]. exact N.
      * intros ->. exfalso. apply Hq. unfold q. apply Z.quot_0_l. lia.
Qed.

Lemma itoa_rev_ok : forall n m a c fuel,
  (length m <= n)%nat -> (length m < fuel)%nat ->
  itoa_rev fuel (a ++ m ++ c) (length a) (length a + length m - 1)
  = Ok (a ++ rev m ++ c).
Proof.
  induction n as [|n IH]; intros m a c fuel Hn Hf.
  - destruct m; [|cbn in Hn; lia]. destruct fuel; [cbn in Hf; lia|]. cbn [itoa_rev length app rev].
    rewrite (proj2 (Nat.ltb_ge _ _)) by lia. reflexivity.
  - destruct fuel as [|fuel]; [lia|]. cbn [itoa_rev].
    destruct m as [|x m].
    { cbn [itoa_rev length app rev]. rewrite (proj2 (Nat.ltb_ge _ _)) by lia. reflexivity. }
    destruct m as [|y0 m0] eqn:Em.
    { cbn [itoa_rev length app rev]. rewrite (proj2 (Nat.ltb_ge _ _)) by lia. reflexivity. }
    assert (Hm : m <> []) by (rewrite Em; discriminate).
    rewrite <- Em in *. clear Em y0 m0.
    destruct (exists_last Hm) as (m' & y & Ey). subst m.
    cbn [length] in *. rewrite app_length in *. cbn [length] in *.
    rewrite (proj2 (Nat.ltb_lt _ _)) by lia.
    set (l := a ++ (x :: m' ++ [y]) ++ c).
    assert (El : l = (a ++ x :: m') ++ y :: c).
    { unfold l. rewrite <- !app_assoc. cbn. now rewrite <- app_assoc. }
    assert (G1 : aget l (length a + S (length m' + 1) - 1) = Ok y).
    { rewrite El. replace (length a + S (length m' + 1) - 1)%nat
        with (length (a ++ x :: m') + 0)%nat by (rewrite app_length; cbn; lia).
      now rewrite aget_app2. }
    assert (G2 : aget l (length a) = Ok x).
    { unfold l. replace (length a) with (length a + 0)%nat by lia. now rewrite aget_app2. }
    rewrite G1. cbn [obind]. rewrite G2. cbn [obind].
    rewrite El at 1. replace (length a + S (length m' + 1) - 1)%nat
        with (length (a ++ x :: m')) by (rewrite app_length; cbn; lia).
    rewrite aset_front by discriminate. cbn [obind tl].
    rewrite <- app_assoc. rewrite aset_front by discriminate. cbn [obind tl app].
    replace (a ++ y :: m' ++ x :: c) with ((a ++ [y]) ++ m' ++ (x :: c))
      by (rewrite <- app_assoc; reflexivity).
    replace (S (length a)) with (length (a ++ [y])) by (rewrite app_length; cbn; lia).
    replace (length (a ++ x :: m') - 1)%nat with (length (a ++ [y]) + length m' - 1)%nat
      by (rewrite !app_length; cbn; lia).
    rewrite IH by lia. f_equal. rewrite <- app_assoc. f_equal. cbn.
    rewrite rev_app_distr. cbn. f_equal. rewrite <- app_assoc. reflexivity.
Qed.

Lemma is_digit_ne : forall base c, is_digit base c -> c <> 0%nat /\ c <> ch_minus.
Proof. intros base c [H _]. unfold ch_minus. lia. Qed.

Lemma itoa_ok : forall k base value result fuel,
  2 <= base <= 36 -> Z.abs value < base ^ Z.of_nat (S k) ->
  (k + 3 <= length result)%nat -> (k + 3 <= fuel)%nat ->
  exists s rest,
    itoa fuel value result base = Ok (s ++ 0%nat :: rest)
    /\ length (s ++ 0%nat :: rest) = length result
    /\ (forall c, In c s -> is_digit base c \/ c = ch_minus)
    /\ numeral_val base s = value
    /\ (value = 0 -> length s = 1%nat)
    /\ (0 < value -> digit_val (hd 0%nat s) <> 0)
    /\ (value < 0 -> digit_val (hd 0%nat (tl s)) <> 0).
Proof.
  intros k base value result fuel Hb Hv Hl Hf. unfold itoa.
  replace ((base <? 2) || (36 <? base)) with false
    by (symmetry; apply orb_false_iff; split; apply Z.ltb_ge; lia).
  destruct (itoa_digits_ok k base fuel value result 0) as (ds & tmp & E & L & D & W & T & N & O);
    try lia; auto.
  rewrite E. cbn [obind firstn app Nat.add].
  set (rest0 := skipn (length ds) result).
  assert (Lr : length rest0 = (length result - length ds)%nat)
    by (unfold rest0; now rewrite skipn_length).
  assert (Nds : ds <> []) by (destruct ds; [cbn in L; lia|discriminate]).
  assert (Hlast : forall x, hd x (rev ds) = last ds 0%nat).
  { intros x. destruct (exists_last Nds) as (d' & z & ->).
    now rewrite rev_app_distr, last_last. }
  assert (Hrev0 : rev ds <> []).
  { intros C. apply Nds. rewrite <- (rev_involutive ds), C. reflexivity. }
  destruct (Z.ltb_spec tmp 0) as [Ht|Ht].
  - assert (Hneg : value < 0) by now apply T.
    rewrite aset_front by (destruct rest0; [cbn in Lr; lia|discriminate]).
    cbn [obind].
    replace (ds ++ ch_minus :: tl rest0) with ((ds ++ [ch_minus]) ++ tl rest0)
      by now rewrite <- app_assoc.
    replace (S (length ds)) with (length (ds ++ [ch_minus])) by (rewrite app_length; cbn; lia).
    assert (Lt : length (tl rest0) = (length result - length ds - 1)%nat).
    { destruct rest0; cbn in *; lia. }
    rewrite aset_front by (destruct (tl rest0); [cbn in Lt; lia|discriminate]).
    cbn [obind].
    pose proof (itoa_rev_ok (length (ds ++ [ch_minus])) (ds ++ [ch_minus]) []
                  (0%nat :: tl (tl rest0)) fuel) as R.
    cbn [length app Nat.add] in R. rewrite R; clear R.
    2: lia. 2: rewrite app_length; cbn; lia.
    rewrite rev_app_distr. cbn [rev app].
    exists (ch_minus :: rev ds), (tl (tl rest0)).
    split; [reflexivity|]. split; [|split; [|split; [|split; [|split]]]].
    + cbn. rewrite app_length, rev_length. cbn.
      destruct (tl rest0) eqn:E2; cbn in *; lia.
    + intros c [C|C]; [now right|]. left. rewrite Forall_forall in D. apply D.
      now apply in_rev.
    + cbn. rewrite W. lia.
    + lia.
    + lia.
    + intros _. cbn [tl]. rewrite Hlast. apply N. lia.
  - assert (Hpos : 0 <= value) by (destruct (Z.ltb_spec value 0); [apply T in H; lia|auto]).
    cbn [obind].
    rewrite aset_front by (destruct rest0; [cbn in Lr; lia|discriminate]).
    cbn [obind].
    pose proof (itoa_rev_ok (length ds) ds [] (0%nat :: tl rest0) fuel) as R.
    cbn [length app Nat.add] in R. rewrite R by lia. clear R.
    exists (rev ds), (tl rest0).
    split; [reflexivity|]. split; [|split; [|split; [|split; [|split]]]].
    + rewrite app_length, rev_length. destruct rest0; cbn in *; lia.
    + intros c C. left. rewrite Forall_forall in D. apply D. now apply in_rev.
    + unfold numeral_val. destruct (rev ds) as [|c t] eqn:Er; [congruence|].
      assert (Hc : c <> ch_minus).
      { assert (In c ds) by (apply in_rev; rewrite Er; now left).
        rewrite Forall_forall in D. eapply is_digit_ne; eauto. }
      apply Nat.eqb_neq in Hc. rewrite Hc, W. lia.
    + intros Z0. rewrite rev_length. auto.
    + intros P. rewrite Hlast. apply N. lia.
    + lia.
Qed.

(** C [int] values fit in 34 bytes in every base. *)
Lemma itoa_int : forall base value result fuel,
  2 <= base <= 36 -> - 2 ^ 31 <= value < 2 ^ 31 ->
  (34 <= length result)%nat -> (34 <= fuel)%nat ->
  exists s rest,
    itoa fuel value result base = Ok (s ++ 0%nat :: rest)
    /\ length (s ++ 0%nat :: rest) = length result
    /\ (forall c, In c s -> is_digit base c \/ c = ch_minus)
    /\ numeral_val base s = value
    /\ (value = 0 -> length s = 1%nat)
    /\ (0 < value -> digit_val (hd 0%nat s) <> 0)
    /\ (value < 0 -> digit_val (hd 0%nat (tl s)) <> 0).
Proof.
  intros base value result fuel Hb Hv Hl Hf.
  apply (itoa_ok 31); try lia.
Qed.

Local Close Scope Z_scope.

(** ** bite_string2 *)
Lemma bite2_skip : forall p r tok c t nt rem ii,
  ~ In c p -> tok = c :: t -> length p <= rem -> nt <> 0 ->
  forall l, (forall j x, nth_error p j = Some x -> aget l (ii + j) = Ok x) ->
  length p + r = rem ->
  bite2_find rem l tok nt ii 0 = bite2_find r l tok nt (ii + length p) 0.
Proof.
  induction p as [|x p IH]; intros r tok c t nt rem ii Hc Ht Hr Hn l Hl E.
  - cbn in *. subst rem. now rewrite Nat.add_0_r.
  - cbn [length] in *. destruct rem as [|rem]; [lia|]. cbn [bite2_find].
    specialize (Hl 0 x eq_refl) as H0. rewrite Nat.add_0_r in H0. rewrite H0.
    cbn [obind]. rewrite Ht. change (aget (c :: t) 0) with (Ok c). cbn [obind].
    rewrite (proj2 (Nat.eqb_neq x c)) by (intros ->; apply Hc; now left).
    cbv zeta. rewrite (proj2 (Nat.eqb_neq 0 nt)) by lia. rewrite <- Ht.
    rewrite (IH r tok c t nt rem (S ii)); auto; try lia.
    + f_equal. lia.
    + intros C. apply Hc. now right.
    + intros j y Hj. replace (S ii + j) with (ii + S j) by lia. apply Hl. exact Hj.
Qed.

Lemma bite2_match : forall k r tok nt rem ii nm l,
  nm + S k = nt -> S k <= rem -> S k + r = rem ->
  (forall j, j < S k -> exists x, aget l (ii + j) = Ok x /\ aget tok (nm + j) = Ok x) ->
  bite2_find rem l tok nt ii nm = Ok (ii + k, ii + k + 1 - nt).
Proof.
  induction k as [|k IH]; intros r tok nt rem ii nm l Hn Hr E Hm;
    (destruct rem as [|rem]; [lia|]); cbn [bite2_find];
    destruct (Hm 0) as (x & G1 & G2); try lia;
    rewrite Nat.add_0_r in G1, G2; rewrite G1; cbn [obind]; rewrite G2; cbn [obind];
    cbv zeta; rewrite Nat.eqb_refl.
  - rewrite (proj2 (Nat.eqb_eq _ _)) by lia. repeat f_equal; lia.
  - rewrite (proj2 (Nat.eqb_neq _ _)) by lia.
    rewrite (IH r tok nt rem (S ii) (S nm)); try lia.
    + now replace (S ii + k) with (ii + S k) by lia.
    + intros j Hj. destruct (Hm (S j)) as (y & A & B); [lia|]. exists y.
      split; [now replace (S ii + j) with (ii + S j) by lia|
              now replace (S nm + j) with (nm + S j) by lia].
Qed.

Lemma bite_string2_ok : forall p c t q rest trest,
  ~ In 0 (p ++ (c :: t) ++ q) -> p <> [] -> ~ In c p ->
  exists rest',
    bite_string2 (p ++ (c :: t) ++ q ++ 0 :: rest) ((c :: t) ++ 0 :: trest)
    = Ok (Some (p ++ [0]), q ++ 0 :: rest').
Proof.
  intros p c t q rest trest H0 Hp Hc. unfold bite_string2.
  set (l := p ++ (c :: t) ++ q ++ 0 :: rest).
  assert (El : l = (p ++ (c :: t) ++ q) ++ 0 :: rest)
    by (unfold l; now rewrite <- !app_assoc).
  replace (cstrlen l) with (Ok (length (p ++ (c :: t) ++ q)))
    by (rewrite El; symmetry; now apply cstrlen_ok).
  cbn [obind].
  rewrite (cstrlen_ok (c :: t) trest).
  2:{ intros C. apply H0. apply in_or_app. right. apply in_or_app. now left. }
  cbn [obind]. rewrite !app_length.
  rewrite (bite2_skip p (length (c :: t) + length q) _ c (t ++ 0 :: trest)); auto;
    try (cbn; lia).
  2:{ intros j x Hj. cbn. unfold l. rewrite aget_app1 by (apply nth_error_Some; congruence).
      unfold aget. now rewrite Hj. }
  rewrite (bite2_match (length t) (length q)); try (cbn; lia).
  2:{ intros j Hj. destruct (nth_error (c :: t) j) as [x|] eqn:E;
        [|apply nth_error_None in E; cbn in E; lia].
      exists x. cbn [Nat.add]. unfold l. rewrite aget_app2.
      rewrite !aget_app1 by (cbn; lia). unfold aget. now rewrite E. }
  cbn [obind Nat.add].
  assert (Lp : 1 <= length p) by (destruct p; [congruence|cbn; lia]).
  replace (length p + length t + 1 - length (c :: t)) with (length p) by (cbn; lia).
  rewrite (proj2 (Nat.ltb_lt _ _)) by lia.
  rewrite (mread_mid' _ [] p ((c :: t) ++ q ++ 0 :: rest)); auto.
  cbn [obind].
  rewrite (memmove_front' l (p ++ c :: t) (q ++ [0]) rest).
  - cbn [obind]. eexists. rewrite <- app_assoc. reflexivity.
  - unfold l. now rewrite <- !app_assoc.
  - now rewrite app_length.
  - rewrite app_length. cbn. lia.
Qed.

(** ** readtxt_double_array *)
Lemma strtok_no_tab : forall s cur, ~ In 9 s ->
  strtok_all [9; 32; 44; 10] cur s = strtok_all [32; 44; 10] cur s.
Proof.
  induction s as [|c s IH]; intros cur H; [reflexivity|].
  cbn [strtok_all existsb].
  rewrite (proj2 (Nat.eqb_neq c 9)) by (intros ->; apply H; now left).
  cbn [orb]. assert (H' : ~ In 9 s) by (intros C; apply H; now right).
  rewrite !IH by auto. reflexivity.
Qed.

Lemma readtxt_no_tab : forall (X : Type) (zero : X) atof s,
  ~ In 9 s -> strtok_all [10] [] s <> [] ->
  readtxt_double_array zero atof s
  = Ok (map atof (strtok_all [32; 44; 10] [] s),
        length (strtok_all [10] [] s),
        length (strtok_all [32; 44; 10] [] s) / length (strtok_all [10] [] s)).
Proof.
  intros X zero atof s H Hr. unfold readtxt_double_array.
  rewrite strtok_no_tab by auto.
  destruct (strtok_all [10] [] s) as [|r0 rs] eqn:Er; [congruence|].
  cbn [length Nat.eqb].
  set (toks := strtok_all [32; 44; 10] [] s).
  destruct (for_inv (fun k data => length data = length toks
                        /\ firstn k data = map atof (firstn k toks))
              (fun ind data => do t <- aget toks ind; aset data ind (atof t))
              (length toks) (repeat zero (length toks))) as (d & E & L & F).
  - split; [apply repeat_length|reflexivity].
  - intros i d Hi [L F]. destruct (nth_error toks i) as [t|] eqn:T;
      [|apply nth_error_None in T; lia].
    unfold aget. rewrite T. cbn [obind]. rewrite aset_ok by lia.
    eexists. split; [reflexivity|]. split; [now rewrite upd_length|].
    assert (S1 : forall (A : Type) (l : list A) k x, k < length l ->
              firstn (S k) (upd l k x) = firstn k l ++ [x]).
    { clear. induction l as [|y l IH]; intros [|k] x H; cbn in *; try lia; [reflexivity|].
      now rewrite <- IH by lia. }
    assert (S2 : forall (A : Type) (l : list A) k x, nth_error l k = Some x ->
              firstn (S k) l = firstn k l ++ [x]).
    { clear. induction l as [|y l IH]; intros [|k] x H; cbn in *; try congruence.
      now rewrite <- IH. }
    rewrite S1 by lia. rewrite (S2 _ _ _ _ T), map_app, F. reflexivity.
  - rewrite E. cbn [obind]. rewrite firstn_all in F. rewrite <- L, firstn_all in F.
    now rewrite F.
Qed.
