(** Proofs about the string utilities. *)
From Verif Require Import Base BaseFacts StrModel.
From Coq Require Import ZArith.

(** ** Blocks *)
Lemma cstrlen_ok : forall s r, ~ In 0 s -> cstrlen (s ++ 0 :: r) = Ok (length s).
Proof.
  induction s as [|c s IH]; intros r H; cbn; [reflexivity|].
  destruct (Nat.eqb_spec c 0) as [E|E].
  - exfalso. apply H. now left.
  - rewrite IH; [reflexivity|]. intros C. apply H. now right.
Qed.

Lemma mread_mid : forall a b c : list nat,
  mread (a ++ b ++ c) (length a) (length b) = Ok b.
Proof.
  intros a b c. unfold mread.
  rewrite !app_length, (proj2 (Nat.leb_le _ _)) by lia.
  rewrite skipn_app, skipn_all, Nat.sub_diag. cbn.
  rewrite firstn_app, firstn_all, Nat.sub_diag. cbn. now rewrite app_nil_r.
Qed.

Lemma mread_mid' : forall l a b c off n,
  l = a ++ b ++ c -> off = length a -> n = length b -> mread l off n = Ok b.
Proof. intros; subst. apply mread_mid. Qed.

Lemma mwrite_mid : forall a b c v : list nat,
  length v = length b -> mwrite (a ++ b ++ c) (length a) v = Ok (a ++ v ++ c).
Proof.
  intros a b c v H. unfold mwrite.
  rewrite !app_length, (proj2 (Nat.leb_le _ _)) by lia.
  rewrite firstn_app, firstn_all, Nat.sub_diag. cbn. rewrite app_nil_r.
  f_equal. f_equal. f_equal.
  rewrite skipn_app, (skipn_all2 a) by lia. cbn.
  replace (length a + length v - length a) with (length b) by lia.
  rewrite skipn_app, skipn_all, Nat.sub_diag. reflexivity.
Qed.

Lemma mwrite_mid' : forall l a b c v off,
  l = a ++ b ++ c -> off = length a -> length v = length b ->
  mwrite l off v = Ok (a ++ v ++ c).
Proof. intros; subst. now apply mwrite_mid. Qed.

Lemma memmove_front : forall a m c,
  memmove (a ++ m ++ c) 0 (length a) (length m)
  = Ok (m ++ skipn (length m) (a ++ m ++ c)).
Proof.
  intros a m c. unfold memmove. rewrite mread_mid. cbn [obind].
  unfold mwrite. rewrite !app_length, (proj2 (Nat.leb_le _ _)) by lia.
  cbn. reflexivity.
Qed.

Lemma memmove_front' : forall l a m c off n,
  l = a ++ m ++ c -> off = length a -> n = length m ->
  memmove l 0 off n = Ok (m ++ skipn (length m) l).
Proof. intros; subst. apply memmove_front. Qed.

Lemma aset_front : forall (m x : list nat) v, x <> [] ->
  aset (m ++ x) (length m) v = Ok (m ++ v :: tl x).
Proof.
  intros m x v Hx. unfold aset.
  rewrite app_length, (proj2 (Nat.ltb_lt _ _)) by (destruct x; [congruence|cbn; lia]).
  f_equal. induction m as [|c m IH]; cbn.
  - destruct x; [congruence|reflexivity].
  - now rewrite IH.
Qed.

Lemma aget_app2 : forall (a x : list nat) i, aget (a ++ x) (length a + i) = aget x i.
Proof.
  intros a x i. unfold aget. rewrite nth_error_app2 by lia.
  now replace (length a + i - length a) with i by lia.
Qed.

Lemma aget_app1 : forall (a x : list nat) i, i < length a -> aget (a ++ x) i = aget a i.
Proof. intros a x i H. unfold aget. now rewrite nth_error_app1 by lia. Qed.

(** ** trim_right *)
Lemma trim_right_ok : forall right l k n c,
  k <= n -> aget l k = Ok c -> c <> right -> c <> 0 ->
  (forall i, k < i -> i <= n -> aget l i = Ok right \/ aget l i = Ok 0) ->
  trim_right right l n = Ok k.
Proof.
  intros right l k n c Hk Hc H1 H2 Hall. induction n as [|n IH].
  - assert (k = 0) by lia. subst k. cbn. rewrite Hc. cbn.
    apply Nat.eqb_neq in H1. apply Nat.eqb_neq in H2. now rewrite H1, H2.
  - destruct (Nat.eq_dec k (S n)) as [E|E].
    + subst k. cbn. rewrite Hc. cbn.
      apply Nat.eqb_neq in H1. apply Nat.eqb_neq in H2. now rewrite H1, H2.
    + cbn. destruct (Hall (S n)) as [E'|E']; [lia|lia| |]; rewrite E'; cbn.
      * rewrite Nat.eqb_refl. cbn. apply IH; [lia|]. intros i A B. apply Hall; lia.
      * rewrite orb_true_r. apply IH; [lia|]. intros i A B. apply Hall; lia.
Qed.

Lemma trim_right_ub : forall right l n,
  (forall i, i <= n -> aget l i = Ok right \/ aget l i = Ok 0) ->
  trim_right right l n = UB.
Proof.
  intros right l n H. induction n as [|n IH].
  - cbn. destruct (H 0) as [E|E]; [lia| |]; rewrite E; cbn.
    + now rewrite Nat.eqb_refl.
    + now rewrite orb_true_r.
  - cbn. destruct (H (S n)) as [E|E]; [lia| |]; rewrite E; cbn.
    + rewrite Nat.eqb_refl. cbn. apply IH. intros i A. apply H; lia.
    + rewrite orb_true_r. apply IH. intros i A. apply H; lia.
Qed.

Lemma aget_repeat : forall (x : nat) n i, i < n -> aget (repeat x n) i = Ok x.
Proof.
  intros x n i H. unfold aget.
  rewrite (nth_error_nth' _ x) by (rewrite repeat_length; lia).
  now rewrite nth_repeat.
Qed.

Lemma not_in_repeat : forall (x y n : nat), x <> y -> ~ In x (repeat y n).
Proof. intros x y n H C. apply repeat_spec in C. congruence. Qed.

Lemma trim_tail : forall right m b rest,
  m <> [] -> last m 0 <> right -> last m 0 <> 0 ->
  trim_right right (m ++ repeat right b ++ 0 :: rest) (length m + b)
  = Ok (length m - 1).
Proof.
  intros right m b rest Hm H1 H2.
  destruct (exists_last Hm) as (m' & c & ->). rewrite last_last in H1, H2.
  rewrite app_length. cbn [length].
  apply (trim_right_ok right _ _ _ c); try lia; auto.
  - rewrite <- app_assoc.
    replace (length m' + 1 - 1) with (length m' + 0) by lia.
    now rewrite aget_app2.
  - intros i A B.
    replace i with (length (m' ++ [c]) + (i - (length m' + 1)))
      by (rewrite app_length; cbn; lia).
    rewrite aget_app2.
    destruct (Nat.eq_dec (i - (length m' + 1)) b) as [E|E].
    + right. rewrite E. replace b with (length (repeat right b) + 0) at 2
        by (rewrite repeat_length; lia). now rewrite aget_app2.
    + left. rewrite aget_app1 by (rewrite repeat_length; lia).
      apply aget_repeat. lia.
Qed.

(** ** strip_blank_ends *)
Lemma shift_blanks_ok : forall a m rest fuel,
  ~ In 0 m -> hd 0 m <> ch_blank -> (a = 0 \/ rest <> []) -> a < fuel ->
  exists rest', shift_blanks fuel (repeat ch_blank a ++ m ++ 0 :: rest)
                = Ok (m ++ 0 :: rest')
                /\ length rest' = length rest + a.
Proof.
  induction a as [|a IH]; intros m rest fuel H0 Hh Hr Hf;
    (destruct fuel as [|fuel]; [lia|]).
  - exists rest. split; [|lia]. cbn [repeat app shift_blanks].
    destruct m as [|c m]; cbn; [reflexivity|].
    cbn in Hh. apply Nat.eqb_neq in Hh. now rewrite Hh.
  - destruct Hr as [Hr|Hr]; [lia|].
    destruct rest as [|x rest]; [congruence|].
    assert (HN : ~ In 0 (repeat ch_blank (S a) ++ m)).
    { intros C. apply in_app_or in C as [C|C]; [|now apply H0].
      now apply not_in_repeat in C. }
    pose proof (cstrlen_ok (repeat ch_blank (S a) ++ m) (x :: rest) HN) as Hlen.
    rewrite <- app_assoc in Hlen.
    assert (Hmv : memmove (repeat ch_blank (S a) ++ m ++ 0 :: x :: rest) 0 1
                    (length (repeat ch_blank (S a) ++ m) + 1)
                  = Ok (repeat ch_blank a ++ m ++ 0 :: x :: x :: rest)).
    { erewrite (memmove_front' _ [ch_blank] (repeat ch_blank a ++ m ++ [0; x]) rest).
      - f_equal. rewrite <- !app_assoc. f_equal. f_equal. cbn [app]. f_equal. f_equal.
        rewrite !app_length, repeat_length. cbn [length].
        change (repeat ch_blank (S a)) with ([ch_blank] ++ repeat ch_blank a).
        rewrite !app_assoc.
        rewrite skipn_app.
        rewrite skipn_all2 by (rewrite !app_length, repeat_length; cbn; lia).
        rewrite !app_length, repeat_length. cbn [length app].
        replace (a + (length m + 2) - (1 + a + length m)) with 1 by lia. reflexivity.
      - cbn [repeat app]. rewrite <- !app_assoc. reflexivity.
      - reflexivity.
      - rewrite !app_length, !repeat_length. cbn. lia. }
    destruct (IH m (x :: x :: rest) fuel H0 Hh) as (rest' & E & L);
      [right; discriminate|lia|].
    exists rest'. split; [|cbn in L |- *; lia].
    cbn [shift_blanks].
    change (aget (repeat ch_blank (S a) ++ m ++ 0 :: x :: rest) 0) with (Ok ch_blank).
    cbn [obind]. rewrite Nat.eqb_refl. rewrite Hlen. cbn [obind].
    rewrite Hmv. cbn [obind]. exact E.
Qed.

Lemma aset_trim : forall m b rest,
  m <> [] ->
  exists rest', aset (m ++ repeat b 0 ++ rest) (length m) 0 = aset (m ++ rest') (length m) 0.
Proof. intros. eexists. reflexivity. Qed.

Lemma last_in_ne : forall (m : list nat) x, m <> [] -> ~ In x m -> last m 0 <> x.
Proof.
  intros m x Hm H C. destruct (exists_last Hm) as (m' & c & ->).
  rewrite last_last in C. subst. apply H. apply in_or_app. right. now left.
Qed.

Lemma hd_app_ne : forall (m x : list nat), m <> [] -> hd 0 (m ++ x) = hd 0 m.
Proof. intros [|c m] x H; [congruence|reflexivity]. Qed.

Lemma strip_blank_ends_ok : forall a m b rest fuel,
  m <> [] -> ~ In 0 m -> hd 0 m <> ch_blank -> last m 0 <> ch_blank ->
  (a = 0 \/ rest <> []) -> a < fuel ->
  exists rest',
    strip_blank_ends fuel (repeat ch_blank a ++ m ++ repeat ch_blank b ++ 0 :: rest)
    = Ok (m ++ 0 :: rest')
    /\ length rest' = length rest + a + b.
Proof.
  intros a m b rest fuel Hm H0 Hh Hl Hr Hf.
  destruct (shift_blanks_ok a (m ++ repeat ch_blank b) rest fuel) as (r1 & E & L); auto.
  { intros C. apply in_app_or in C as [C|C]; [now apply H0|].
    now apply not_in_repeat in C. }
  { now rewrite hd_app_ne. }
  rewrite <- !app_assoc in E. unfold strip_blank_ends. rewrite E. cbn [obind].
  pose proof (cstrlen_ok (m ++ repeat ch_blank b) r1) as Hlen.
  rewrite <- app_assoc in Hlen. rewrite Hlen; clear Hlen.
  2:{ intros C. apply in_app_or in C as [C|C]; [now apply H0|].
      now apply not_in_repeat in C. }
  cbn [obind]. rewrite app_length, repeat_length.
  rewrite trim_tail; auto. 2:{ now apply last_in_ne. }
  cbn [obind].
  replace (length m - 1 + 1) with (length m) by (destruct m; [congruence|cbn; lia]).
  rewrite aset_front by (destruct b; discriminate).
  eexists. split; [reflexivity|].
  destruct b as [|b]; cbn; [lia|]. rewrite app_length, repeat_length. cbn. lia.
Qed.

Lemma in_repeat_or : forall (x : nat) n r i,
  i <= n -> aget (repeat x n ++ 0 :: r) i = Ok x \/ aget (repeat x n ++ 0 :: r) i = Ok 0.
Proof.
  intros x n r i H. destruct (Nat.eq_dec i n) as [E|E].
  - right. subst i. replace n with (length (repeat x n) + 0) at 2
      by (rewrite repeat_length; lia). now rewrite aget_app2.
  - left. rewrite aget_app1 by (rewrite repeat_length; lia). apply aget_repeat. lia.
Qed.

(** Blank strings: undefined behaviour whatever the block. *)
Lemma strip_blank_ends_blank : forall a rest fuel,
  a < fuel -> strip_blank_ends fuel (repeat ch_blank a ++ 0 :: rest) = UB.
Proof.
  intros a rest fuel Hf.
  destruct a as [|a].
  - unfold strip_blank_ends. destruct fuel; [lia|]. reflexivity.
  - destruct rest as [|x rest].
    + unfold strip_blank_ends. destruct fuel as [|fuel]; [lia|].
      cbn [shift_blanks].
      change (aget (repeat ch_blank (S a) ++ [0]) 0) with (Ok ch_blank).
      cbn [obind]. rewrite Nat.eqb_refl.
      rewrite cstrlen_ok by now apply not_in_repeat. cbn [obind].
      unfold memmove, mread.
      rewrite (proj2 (Nat.leb_gt _ _))
        by (rewrite !app_length, !repeat_length; cbn; lia).
      reflexivity.
    + destruct (shift_blanks_ok (S a) [] (x :: rest) fuel) as (r1 & E & L);
        [easy|discriminate|right; discriminate|lia|].
      unfold strip_blank_ends. cbn [app] in E. rewrite E. reflexivity.
Qed.

(** A leading blank in a block that ends at the NUL: the move reads one byte too
    many. *)
Lemma strip_blank_ends_exact_block : forall s fuel,
  ~ In 0 s -> strip_blank_ends (S fuel) (ch_blank :: s ++ [0]) = UB.
Proof.
  intros s fuel H. unfold strip_blank_ends. cbn [shift_blanks].
  change (aget (ch_blank :: s ++ [0]) 0) with (Ok ch_blank). cbn [obind].
  rewrite Nat.eqb_refl.
  change (ch_blank :: s ++ [0]) with ((ch_blank :: s) ++ 0 :: []).
  rewrite (cstrlen_ok (ch_blank :: s) []) by (intros [C|C]; [discriminate|auto]).
  cbn [obind]. unfold memmove, mread.
  rewrite (proj2 (Nat.leb_gt _ _)) by (cbn; rewrite app_length; cbn; lia).
  reflexivity.
Qed.

(** ** strip_ends *)
Lemma shift_left_ok : forall a left u rest fuel,
  left <> 0 -> ~ In 0 u -> u <> [] -> hd 0 u <> left -> a < fuel ->
  shift_left fuel left (repeat left a ++ u ++ 0 :: rest)
  = Ok (u ++ repeat (last u 0) a ++ 0 :: rest).
Proof.
  induction a as [|a IH]; intros left u rest fuel Hl H0 Hu Hh Hf;
    (destruct fuel as [|fuel]; [lia|]).
  - cbn [repeat app]. destruct u as [|c u]; [congruence|]. cbn in Hh |- *.
    apply Nat.eqb_neq in Hh. now rewrite Hh.
  - cbn [shift_left].
    change (aget (repeat left (S a) ++ u ++ 0 :: rest) 0) with (Ok left).
    cbn [obind]. rewrite Nat.eqb_refl.
    change (skipn 1 (repeat left (S a) ++ u ++ 0 :: rest))
      with (repeat left a ++ u ++ 0 :: rest).
    rewrite app_assoc. rewrite cstrlen_ok.
    2:{ intros C. apply in_app_or in C as [C|C]; [|auto]. apply repeat_spec in C. congruence. }
    cbn [obind].
    destruct (exists_last Hu) as (v & z & Ev).
    assert (Hmv : memmove (repeat left (S a) ++ u ++ 0 :: rest) 0 1
                    (length (repeat left a ++ u))
                  = Ok (repeat left a ++ (u ++ [last u 0]) ++ 0 :: rest)).
    { rewrite (memmove_front' _ [left] (repeat left a ++ u) (0 :: rest)).
      - rewrite <- !app_assoc. f_equal. f_equal. f_equal.
        rewrite Ev, last_last. rewrite !app_length, repeat_length. cbn [length].
        change (repeat left (S a)) with ([left] ++ repeat left a).
        replace (([left] ++ repeat left a) ++ (v ++ [z]) ++ 0 :: rest)
          with (([left] ++ repeat left a ++ v) ++ z :: 0 :: rest)
          by (rewrite <- !app_assoc; reflexivity).
        rewrite skipn_app.
        rewrite skipn_all2 by (rewrite !app_length, repeat_length; cbn; lia).
        rewrite !app_length, repeat_length. cbn [length app].
        replace (a + (length v + 1) - (1 + (a + length v))) with 0 by lia.
        reflexivity.
      - cbn [repeat app]. now rewrite <- app_assoc.
      - reflexivity.
      - reflexivity. }
    rewrite Hmv. cbn [obind].
    rewrite IH; auto; try lia.
    + rewrite last_last, <- app_assoc. reflexivity.
    + intros C. apply in_app_or in C as [C|[C|[]]]; [auto|].
      rewrite Ev, last_last in C. apply H0. rewrite Ev. apply in_or_app. right. now left.
    + intros C. apply app_eq_nil in C as [_ C]. discriminate.
    + now rewrite hd_app_ne.
Qed.

Lemma repeat_snoc : forall (x : nat) n r, repeat x n ++ x :: r = x :: repeat x n ++ r.
Proof. induction n as [|n IH]; intros r; cbn; [reflexivity|]. now rewrite IH. Qed.

Lemma last_app_rep : forall (m : list nat) x b, last (m ++ repeat x (S b)) 0 = x.
Proof.
  intros m x b. change (repeat x (S b)) with (x :: repeat x b).
  rewrite (repeat_cons b), app_assoc. now rewrite last_last.
Qed.

(** When there is nothing to strip on the left, or something on the right. *)
Lemma strip_ends_ok : forall a m b rest left right fuel,
  left <> 0 -> right <> 0 -> m <> [] -> ~ In 0 m -> hd 0 m <> left ->
  last m 0 <> right -> (a = 0 \/ b <> 0) -> a < fuel ->
  exists rest',
    strip_ends fuel (repeat left a ++ m ++ repeat right b ++ 0 :: rest) left right
    = Ok (m ++ 0 :: rest')
    /\ length rest' = length rest + a + b.
Proof.
  intros a m b rest left right fuel Hl Hr Hm H0 Hh HL Hab Hf.
  assert (H0' : forall k, ~ In 0 (m ++ repeat right k)).
  { intros k C. apply in_app_or in C as [C|C]; [auto|]. apply repeat_spec in C. congruence. }
  assert (E : shift_left fuel left (repeat left a ++ m ++ repeat right b ++ 0 :: rest)
              = Ok (m ++ repeat right (b + a) ++ 0 :: rest)).
  { rewrite (app_assoc m). rewrite shift_left_ok; auto.
    - rewrite <- app_assoc. f_equal. f_equal. rewrite repeat_app, <- app_assoc.
      destruct Hab as [->|Hb]; [reflexivity|].
      destruct b as [|b]; [congruence|]. now rewrite last_app_rep.
    - intros C. apply app_eq_nil in C as [C _]. congruence.
    - now rewrite hd_app_ne. }
  unfold strip_ends. rewrite E. cbn [obind].
  pose proof (cstrlen_ok (m ++ repeat right (b + a)) rest (H0' _)) as Hlen.
  rewrite <- app_assoc in Hlen. rewrite Hlen. cbn [obind].
  rewrite app_length, repeat_length.
  rewrite trim_tail; auto. 2:{ now apply last_in_ne. }
  cbn [obind].
  replace (length m - 1 + 1) with (length m) by (destruct m; [congruence|cbn; lia]).
  rewrite aset_front by (destruct (b + a); discriminate).
  eexists. split; [reflexivity|].
  destruct (b + a) as [|k] eqn:K; cbn; [lia|].
  rewrite app_length, repeat_length. cbn. lia.
Qed.

(** Something to strip on the left but nothing on the right: the last character
    is left behind once per stripped character. *)
Lemma strip_ends_wrong : forall a m rest left right fuel,
  left <> 0 -> right <> 0 -> m <> [] -> ~ In 0 m -> hd 0 m <> left ->
  last m 0 <> right -> a < fuel ->
  strip_ends fuel (repeat left a ++ m ++ 0 :: rest) left right
  = Ok (m ++ repeat (last m 0) a ++ 0 :: rest).
Proof.
  intros a m rest left right fuel Hl Hr Hm H0 Hh HL Hf.
  unfold strip_ends. rewrite shift_left_ok by auto. cbn [obind].
  set (u := m ++ repeat (last m 0) a).
  assert (Hz : last m 0 <> 0) by now apply last_in_ne.
  assert (Hu0 : ~ In 0 u).
  { intros C. apply in_app_or in C as [C|C]; [auto|]. apply repeat_spec in C. congruence. }
  assert (Hu : u <> []) by (intros C; apply app_eq_nil in C as [C _]; congruence).
  assert (HLu : last u 0 = last m 0).
  { unfold u. destruct a as [|a]; [cbn; now rewrite app_nil_r|]. now rewrite last_app_rep. }
  replace (m ++ repeat (last m 0) a ++ 0 :: rest) with (u ++ 0 :: rest)
    by (unfold u; now rewrite <- app_assoc).
  rewrite cstrlen_ok by auto. cbn [obind].
  pose proof (trim_tail right u 0 rest Hu) as T. cbn [repeat app] in T.
  rewrite Nat.add_0_r in T. rewrite T by congruence. cbn [obind].
  replace (length u - 1 + 1) with (length u) by (destruct u; [congruence|cbn; lia]).
  rewrite aset_front by discriminate. reflexivity.
Qed.

(** A string made of the left character only: the loop does not end. *)
Lemma strip_ends_diverges : forall a rest left right fuel,
  left <> 0 ->
  strip_ends fuel (repeat left (S a) ++ 0 :: rest) left right = OutOfFuel.
Proof.
  intros a rest left right fuel Hl.
  assert (E : shift_left fuel left (repeat left (S a) ++ 0 :: rest) = OutOfFuel).
  { induction fuel as [|fuel IH]; [reflexivity|]. cbn [shift_left].
    change (aget (repeat left (S a) ++ 0 :: rest) 0) with (Ok left). cbn [obind].
    rewrite Nat.eqb_refl.
    change (skipn 1 (repeat left (S a) ++ 0 :: rest)) with (repeat left a ++ 0 :: rest).
    rewrite cstrlen_ok by (intros C; apply repeat_spec in C; congruence). cbn [obind].
    rewrite (memmove_front' _ [left] (repeat left a) (0 :: rest)); try reflexivity.
    cbn [obind].
    replace (skipn (length (repeat left a)) (repeat left (S a) ++ 0 :: rest))
      with (left :: 0 :: rest).
    - rewrite repeat_snoc. exact IH.
    - change (repeat left (S a)) with (left :: repeat left a).
      rewrite (repeat_cons a), <- app_assoc. rewrite skipn_app, skipn_all, Nat.sub_diag.
      reflexivity. }
  unfold strip_ends. now rewrite E.
Qed.

Lemma strip_ends_empty : forall rest left right fuel,
  left <> 0 -> strip_ends (S fuel) (0 :: rest) left right = UB.
Proof.
  intros rest left right fuel Hl. unfold strip_ends. cbn.
  destruct left; [congruence|]. cbn. now rewrite orb_true_r.
Qed.

(** ** bite_string *)
Lemma bite_find_some : forall p q tok rest k ii fuel,
  ~ In 0 (p ++ tok :: q) -> ~ In tok p -> ii + k = length p -> k < fuel ->
  bite_find fuel ((p ++ tok :: q) ++ 0 :: rest) tok ii = Ok (Some (length p)).
Proof.
  intros p q tok rest. induction k as [|k IH]; intros ii fuel H0 Ht E Hf;
    (destruct fuel as [|fuel]; [lia|]); cbn [bite_find].
  - replace ii with (length p + 0) by lia.
    rewrite <- app_assoc, aget_app2. cbn. rewrite Nat.eqb_refl. do 2 f_equal. lia.
  - destruct (nth_error p ii) as [c|] eqn:C;
      [|apply nth_error_None in C; lia].
    assert (G : aget ((p ++ tok :: q) ++ 0 :: rest) ii = Ok c).
    { rewrite <- app_assoc, aget_app1 by lia. unfold aget. now rewrite C. }
    rewrite G. cbn [obind].
    assert (Nc : c <> tok).
    { intros ->. apply Ht. now apply nth_error_In in C. }
    apply Nat.eqb_neq in Nc. rewrite Nc, cstrlen_ok by auto. cbn [obind].
    rewrite (proj2 (Nat.eqb_neq _ _)) by (rewrite app_length; cbn; lia).
    apply IH; auto; lia.
Qed.

Lemma bite_find_none : forall s tok rest k ii fuel,
  ~ In 0 s -> ~ In tok s -> tok <> 0 -> ii + k = length s -> k < fuel ->
  bite_find fuel (s ++ 0 :: rest) tok ii = Ok None.
Proof.
  intros s tok rest. induction k as [|k IH]; intros ii fuel H0 Ht Hz E Hf;
    (destruct fuel as [|fuel]; [lia|]); cbn [bite_find].
  - replace ii with (length s + 0) by lia. rewrite aget_app2.
    change (aget (0 :: rest) 0) with (Ok 0). cbn [obind].
    rewrite (proj2 (Nat.eqb_neq 0 tok)) by congruence.
    rewrite cstrlen_ok by auto. cbn [obind].
    rewrite (proj2 (Nat.eqb_eq _ _)) by lia. reflexivity.
  - destruct (nth_error s ii) as [c|] eqn:C;
      [|apply nth_error_None in C; lia].
    assert (G : aget (s ++ 0 :: rest) ii = Ok c).
    { rewrite aget_app1 by lia. unfold aget. now rewrite C. }
    rewrite G. cbn [obind].
    assert (Nc : c <> tok).
    { intros ->. apply Ht. now apply nth_error_In in C. }
    apply Nat.eqb_neq in Nc. rewrite Nc, cstrlen_ok by auto. cbn [obind].
    rewrite (proj2 (Nat.eqb_neq _ _)) by lia.
    apply IH; auto; lia.
Qed.

Lemma bite_string_some : forall p q tok rest,
  ~ In 0 (p ++ tok :: q) -> ~ In tok p ->
  exists rest', bite_string (p ++ tok :: q ++ 0 :: rest) tok
                = Ok (Some (p ++ [0]), q ++ 0 :: rest').
Proof.
  intros p q tok rest H0 Ht.
  replace (p ++ tok :: q ++ 0 :: rest) with ((p ++ tok :: q) ++ 0 :: rest)
    by (rewrite <- app_assoc; reflexivity).
  unfold bite_string.
  rewrite (bite_find_some p q tok rest (length p)); auto.
  2:{ rewrite !app_length. cbn. lia. }
  cbn [obind].
  rewrite (mread_mid' _ [] p (tok :: q ++ 0 :: rest));
    [|rewrite <- app_assoc; reflexivity|reflexivity|reflexivity].
  cbn [obind]. rewrite cstrlen_ok by auto. cbn [obind].
  rewrite (memmove_front' _ (p ++ [tok]) (q ++ [0]) rest).
  - cbn [obind]. eexists. rewrite <- app_assoc. reflexivity.
  - rewrite <- !app_assoc. reflexivity.
  - rewrite app_length. reflexivity.
  - rewrite !app_length. cbn. lia.
Qed.

Lemma bite_string_none : forall s tok rest,
  ~ In 0 s -> ~ In tok s -> tok <> 0 ->
  bite_string (s ++ 0 :: rest) tok = Ok (None, s ++ 0 :: rest).
Proof.
  intros s tok rest H0 Ht Hz. unfold bite_string.
  rewrite (bite_find_none s tok rest (length s)); auto.
  rewrite !app_length. cbn. lia.
Qed.

(** ** concat_string *)
Definition str_opt (o : option (list nat)) : list nat :=
  match o with None => [] | Some s => s end.

Lemma concat_string_ok : forall (a b : option (list nat)) ra rb,
  ~ In 0 (str_opt a) -> ~ In 0 (str_opt b) ->
  concat_string (option_map (fun s => s ++ 0 :: ra) a)
                (option_map (fun s => s ++ 0 :: rb) b)
  = Ok (str_opt a ++ str_opt b ++ [0]).
Proof.
  intros a b ra rb Ha Hb. unfold concat_string.
  assert (E1 : match option_map (fun s => s ++ 0 :: ra) a with
               | None => Ok 0 | Some l => cstrlen l end = Ok (length (str_opt a))).
  { destruct a as [a|]; cbn; [now apply cstrlen_ok|reflexivity]. }
  assert (E2 : match option_map (fun s => s ++ 0 :: rb) b with
               | None => Ok 0 | Some l => cstrlen l end = Ok (length (str_opt b))).
  { destruct b as [b|]; cbn; [now apply cstrlen_ok|reflexivity]. }
  rewrite E1. cbn [obind]. rewrite E2. cbn [obind]. clear E1 E2.
  set (n1 := length (str_opt a)). set (n2 := length (str_opt b)).
  assert (F1 : match option_map (fun s => s ++ 0 :: ra) a with
               | None => Ok (repeat 0 (n1 + n2 + 1))
               | Some l => if 0 <? n1 then do v <- mread l 0 n1;
                             mwrite (repeat 0 (n1 + n2 + 1)) 0 v
                           else Ok (repeat 0 (n1 + n2 + 1)) end
               = Ok (str_opt a ++ repeat 0 (n2 + 1))).
  { destruct a as [a|]; cbn [option_map]; unfold n1; cbn [str_opt].
    - destruct (Nat.ltb_spec 0 (length a)) as [L|L].
      + rewrite (mread_mid' _ [] a (0 :: ra)); auto. cbn [obind].
        rewrite (mwrite_mid' _ [] (repeat 0 (length a)) (repeat 0 (n2 + 1))); auto.
        * cbn [app]. rewrite <- repeat_app. f_equal. lia.
        * now rewrite repeat_length.
      + destruct a; [reflexivity|cbn in L; lia].
    - reflexivity. }
  rewrite F1. cbn [obind]. clear F1.
  assert (F2 : match option_map (fun s => s ++ 0 :: rb) b with
               | None => Ok (str_opt a ++ repeat 0 (n2 + 1))
               | Some l => if 0 <? n2 then do v <- mread l 0 n2;
                             mwrite (str_opt a ++ repeat 0 (n2 + 1)) n1 v
                           else Ok (str_opt a ++ repeat 0 (n2 + 1)) end
               = Ok (str_opt a ++ str_opt b ++ [0])).
  { destruct b as [b|]; cbn [option_map]; unfold n2; cbn [str_opt].
    - destruct (Nat.ltb_spec 0 (length b)) as [L|L].
      + rewrite (mread_mid' _ [] b (0 :: rb)); auto. cbn [obind].
        rewrite (mwrite_mid' _ (str_opt a) (repeat 0 (length b)) [0]); auto.
        * rewrite repeat_app. reflexivity.
        * now rewrite repeat_length.
      + destruct b; [reflexivity|cbn in L; lia].
    - reflexivity. }
  rewrite F2. cbn [obind].
  rewrite app_assoc. unfold n1, n2. rewrite <- app_length.
  rewrite aset_front by discriminate. reflexivity.
Qed.

(** ** parse_string *)
Fixpoint join (tok : nat) (parts : list (list nat)) : list nat :=
  match parts with
  | [] => []
  | [p] => p
  | p :: rest => p ++ tok :: join tok rest
  end.

Definition ended (tok : nat) (parts : list (list nat)) : list nat :=
  concat (map (fun p => p ++ [tok]) parts).

Lemma join_snoc : forall tok done p, join tok (done ++ [p]) = ended tok done ++ p.
Proof.
  intros tok done p. induction done as [|q done IH]; [reflexivity|].
  unfold ended. cbn [map concat]. rewrite <- app_assoc. cbn [app].
  change (concat (map (fun p0 => p0 ++ [tok]) done)) with (ended tok done).
  rewrite <- app_assoc. cbn [app].
  rewrite <- IH. cbn [app join]. destruct (done ++ [p]) eqn:E; [|reflexivity].
  apply app_eq_nil in E as [_ E]. discriminate.
Qed.

Definition cnt (tok : nat) (s : list nat) : nat := length (filter (fun c => c =? tok) s).

Lemma cnt_app : forall tok a b, cnt tok (a ++ b) = cnt tok a + cnt tok b.
Proof. intros. unfold cnt. now rewrite filter_app, app_length. Qed.

Lemma cnt_zero : forall tok s, ~ In tok s -> cnt tok s = 0.
Proof.
  intros tok s H. unfold cnt. induction s as [|c s IH]; [reflexivity|]. cbn.
  destruct (Nat.eqb_spec c tok) as [E|E].
  - exfalso. apply H. now left.
  - apply IH. intros C. apply H. now right.
Qed.

Lemma cnt_ended : forall tok done, Forall (fun p => ~ In tok p) done ->
  cnt tok (ended tok done) = length done.
Proof.
  intros tok done H. induction H as [|p done Hp Hd IH]; [reflexivity|].
  unfold ended. cbn [map concat]. rewrite cnt_app, cnt_app, (cnt_zero tok p) by auto.
  change (concat (map (fun p0 => p0 ++ [tok]) done)) with (ended tok done).
  rewrite IH. unfold cnt. cbn. now rewrite Nat.eqb_refl.
Qed.

Definition boxed (p : list nat) : option (list nat) := Some (p ++ [0]).

Lemma firstn_S_nth : forall (s : list nat) i c, nth_error s i = Some c ->
  firstn (S i) s = firstn i s ++ [c].
Proof.
  induction s as [|x s IH]; intros [|i] c H; cbn in *; try congruence.
  now rewrite (IH i c).
Qed.

Lemma upd_app_len : forall {A} (a x : list A) v, x <> [] ->
  upd (a ++ x) (length a) v = a ++ v :: tl x.
Proof.
  intros A a x v H. induction a as [|c a IH]; cbn.
  - destruct x; [congruence|reflexivity].
  - now rewrite IH.
Qed.

Lemma parse_string_ok : forall s tok rest, ~ In 0 s ->
  exists parts,
    parse_string (s ++ 0 :: rest) tok = Ok (map boxed parts, length parts)
    /\ join tok parts = s /\ Forall (fun p => ~ In tok p) parts.
Proof.
  intros s tok rest H0. unfold parse_string. rewrite cstrlen_ok by auto. cbn [obind].
  assert (G : forall i, i < length s -> exists c,
              nth_error s i = Some c /\ aget (s ++ 0 :: rest) i = Ok c).
  { intros i Hi. destruct (nth_error s i) as [c|] eqn:C;
      [|apply nth_error_None in C; lia].
    exists c. split; [reflexivity|]. rewrite aget_app1 by auto. unfold aget. now rewrite C. }
  assert (C1 : for_ (length s) (fun ii c => do x <- aget (s ++ 0 :: rest) ii;
                                 Ok (if x =? tok then c + 1 else c)) 0
               = Ok (cnt tok s)).
  { destruct (for_inv (fun k c => c = cnt tok (firstn k s))
                (fun ii c => do x <- aget (s ++ 0 :: rest) ii;
                             Ok (if x =? tok then c + 1 else c)) (length s) 0) as (r & E & I).
    - reflexivity.
    - intros i c Hi Hc. destruct (G i Hi) as (x & N & A). rewrite A. cbn [obind].
      eexists. split; [reflexivity|]. rewrite (firstn_S_nth s i x N), cnt_app, <- Hc.
      unfold cnt at 1. cbn. destruct (x =? tok); cbn; lia.
    - rewrite E, I, firstn_all. reflexivity. }
  rewrite C1. cbn [obind]. clear C1.
  set (N := cnt tok s + 1).
  match goal with |- context [for_ (length s) ?b00 ?s00] =>
    destruct (for_inv
      (fun k st => exists done cur,
         st = (map boxed done ++ repeat None (N - length done), length done,
               length (ended tok done))
         /\ firstn k s = ended tok done ++ cur /\ ~ In tok cur
         /\ Forall (fun p => ~ In tok p) done) b00 (length s) s00) as (r & E & I) end.
  - exists [], []. repeat split; auto. cbn. now rewrite Nat.sub_0_r.
  - intros i st Hi (done & cur & -> & Ef & Hc & Hd).
    destruct (G i Hi) as (x & Nx & A). rewrite A. cbn [obind].
    destruct (Nat.eqb_spec x tok) as [Ex|Ex].
    + subst x.
      assert (Li : i = length (ended tok done) + length cur).
      { rewrite <- app_length, <- Ef, firstn_length_le by lia. reflexivity. }
      assert (Sp : s = (ended tok done ++ cur) ++ tok :: skipn (S i) s).
      { rewrite <- Ef, <- (firstn_skipn (S i) s) at 1.
        rewrite (firstn_S_nth s i tok Nx), <- app_assoc. reflexivity. }
      assert (Lc : length done < N).
      { unfold N. rewrite Sp, !cnt_app, cnt_ended by auto. unfold cnt at 2. cbn.
        rewrite Nat.eqb_refl. cbn. lia. }
      rewrite (mread_mid' _ (ended tok done) cur (tok :: skipn (S i) s ++ 0 :: rest)).
      * cbn [obind]. unfold aset.
        rewrite (proj2 (Nat.ltb_lt _ _))
          by (rewrite app_length, map_length, repeat_length; lia).
        cbn [obind]. eexists. split; [reflexivity|].
        exists (done ++ [cur]), []. split; [|split; [|split]].
        -- f_equal; [f_equal|].
           ++ rewrite map_app, app_length, <- app_assoc. cbn [map length app].
              rewrite <- (map_length boxed done) at 2.
              rewrite upd_app_len.
              ** f_equal. unfold boxed. f_equal.
                 replace (N - length done) with (S (N - (length done + 1))) by lia.
                 reflexivity.
              ** replace (N - length done) with (S (N - (length done + 1))) by lia.
                 discriminate.
           ++ rewrite app_length. reflexivity.
           ++ rewrite Li. unfold ended. rewrite map_app, concat_app. cbn.
              rewrite app_nil_r, !app_length. cbn. lia.
        -- rewrite (firstn_S_nth s i tok Nx), Ef, app_nil_r. unfold ended.
           rewrite map_app, concat_app. cbn. rewrite app_nil_r. now rewrite <- app_assoc.
        -- intros [].
        -- apply Forall_app. auto.
      * rewrite Sp at 1. rewrite <- !app_assoc. reflexivity.
      * reflexivity.
      * lia.
    + eexists. split; [reflexivity|].
      exists done, (cur ++ [x]). split; [reflexivity|]. split; [|split]; auto.
      * rewrite (firstn_S_nth s i x Nx), Ef. now rewrite <- app_assoc.
      * intros C. apply in_app_or in C as [C|[C|[]]]; auto.
  - destruct I as (done & cur & -> & Ef & Hc & Hd). rewrite firstn_all in Ef.
    rewrite E. cbn [obind].
    assert (LN : N - length done = 1).
    { unfold N. rewrite Ef, cnt_app, cnt_ended, (cnt_zero tok cur) by auto. lia. }
    rewrite (mread_mid' _ (ended tok done) cur (0 :: rest)).
    + cbn [obind]. rewrite LN. unfold aset.
      rewrite (proj2 (Nat.ltb_lt _ _))
        by (rewrite app_length, map_length; cbn; lia).
      cbn [obind]. exists (done ++ [cur]). split; [|split].
      * f_equal. f_equal.
        -- rewrite <- (map_length boxed done). rewrite upd_app_len by discriminate.
           rewrite map_app. reflexivity.
        -- rewrite app_length. cbn. lia.
      * rewrite join_snoc. auto.
      * apply Forall_app. auto.
    + rewrite Ef at 1. now rewrite <- app_assoc.
    + reflexivity.
    + rewrite Ef, app_length. lia.
Qed.
