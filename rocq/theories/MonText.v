(** Facts about the text form of doubles and of arrays of doubles. *)
From Verif Require Import Base BaseFacts StrModel StrFacts SerModel PackModel PackFacts MonModel.
From Coq Require Import NArith ZArith DecimalZ.
Local Open Scope Z_scope.

Lemma uint_chars_inj : forall a b, uint_chars a = uint_chars b -> a = b.
Proof.
  induction a; destruct b; cbn; intros H; try discriminate; auto;
    injection H as H; f_equal; auto.
Qed.

Lemma uint_chars_in : forall a c, In c (uint_chars a) -> (48 <= c <= 57)%nat.
Proof. induction a; cbn; intros c H; [contradiction|..]; destruct H as [<-|H]; auto; lia. Qed.

Lemma print_int_inj : forall a b, print_int a = print_int b -> a = b.
Proof.
  unfold print_int. intros a b H. apply to_int_inj.
  destruct (Z.to_int a) as [u|u], (Z.to_int b) as [v|v].
  - f_equal. now apply uint_chars_inj.
  - exfalso. assert (C : In ch_minus (uint_chars u)) by (rewrite H; left; auto).
    apply uint_chars_in in C. unfold ch_minus in C. lia.
  - exfalso. assert (C : In ch_minus (uint_chars v)) by (rewrite <- H; left; auto).
    apply uint_chars_in in C. unfold ch_minus in C. lia.
  - f_equal. injection H as H. now apply uint_chars_inj.
Qed.

Lemma print_int_in : forall a c, In c (print_int a) -> c = 45%nat \/ (48 <= c <= 57)%nat.
Proof.
  unfold print_int. intros a c H. destruct (Z.to_int a) as [u|u].
  - apply uint_chars_in in H. auto.
  - destruct H as [<-|H]; [auto|]. apply uint_chars_in in H. auto.
Qed.

Lemma digits_length : forall k n, length (digits k n) = k.
Proof. induction k; intros n; auto. cbn [digits]. rewrite app_length, IHk. cbn. lia. Qed.

Lemma digits_in : forall k n c, In c (digits k n) -> (48 <= c <= 57)%nat.
Proof.
  induction k; intros n c H; [destruct H|]. cbn [digits] in H. apply in_app_or in H as [H|[<-|[]]].
  - eauto.
  - pose proof (Z.mod_pos_bound n 10 ltac:(lia)). lia.
Qed.

Lemma digits_inj : forall k a b, digits k a = digits k b ->
  a mod 10 ^ Z.of_nat k = b mod 10 ^ Z.of_nat k.
Proof.
  induction k; intros a b H.
  - rewrite !Z.mod_1_r. auto.
  - cbn [digits] in H. apply app_inj_tail in H as [H1 H2]. apply IHk in H1.
    pose proof (Z.mod_pos_bound a 10 ltac:(lia)). pose proof (Z.mod_pos_bound b 10 ltac:(lia)).
    assert (E : a mod 10 = b mod 10) by lia.
    rewrite Nat2Z.inj_succ, Z.pow_succ_r by lia.
    rewrite !Z.rem_mul_r by (try apply Z.pow_pos_nonneg; lia). lia.
Qed.

Lemma round_even_bound : forall a b, 0 < b -> 0 <= a ->
  2 * a - b <= 2 * b * round_even a b <= 2 * a + b.
Proof.
  intros a b Hb Ha. unfold round_even.
  pose proof (Z.div_mod a b ltac:(lia)) as E. pose proof (Z.mod_pos_bound a b Hb) as B.
  cbv zeta.
  destruct (Z.ltb_spec (2 * (a mod b)) b); [nia|].
  destruct (Z.ltb_spec b (2 * (a mod b))); [nia|]. destruct (Z.even _); nia.
Qed.

(** What is printed for a finite double. *)
Definition txt (x : dbl) (t : list nat) : Prop :=
  dbl_text x = Ok (t ++ [0%nat]) /\ ~ In 0%nat t /\ ~ In 44%nat t.

Lemma txt_ok : forall x, dvalid x -> dfinite x = true -> exists t, txt x t.
Proof.
  intros x V F. unfold txt, dbl_text. destruct x as [s| | |s m e]; try discriminate.
  - cbn [cfrexp print_frac obind].
    eexists. split; [rewrite !app_assoc; reflexivity|].
    destruct s; vm_compute; intuition discriminate.
  - destruct (frexp_spec s m e V) as (M & d & Hd & HM & HD & E). rewrite E.
    cbn [print_frac]. change (0 <=? -53) with false. cbv iota zeta. cbn [obind].
    match goal with |- context [round_even ?A ?B] => set (D := round_even A B) end.
    set (ex := e + 53 - d).
    eexists. split; [rewrite !app_assoc; reflexivity|].
    assert (G : forall c, In c ((((if s then [ch_minus] else []) ++
       (if D <? 10 ^ 15
        then ((digits 1 (D / 10 ^ 14) ++ [46%nat]) ++ digits 14 D) ++ [69%nat; 45%nat; 48%nat; 49%nat]
        else ([49%nat; 46%nat] ++ repeat 48%nat 14) ++ [69%nat; 43%nat; 48%nat; 48%nat])) ++ [58%nat]) ++
       print_int ex) -> c <> 0%nat /\ c <> 44%nat).
    { intros c H. apply in_app_or in H as [H|H].
      2:{ apply print_int_in in H. lia. }
      apply in_app_or in H as [H|[<-|[]]]; [|lia].
      apply in_app_or in H as [H|H].
      { destruct s; [destruct H as [<-|[]]; unfold ch_minus; lia|destruct H]. }
      destruct (D <? 10 ^ 15).
      - apply in_app_or in H as [H|H]; [|cbn in H; lia].
        apply in_app_or in H as [H|H]; [|apply digits_in in H; lia].
        apply in_app_or in H as [H|H]; [apply digits_in in H; lia|cbn in H; lia].
      - apply in_app_or in H as [H|H]; [|cbn in H; lia].
        apply in_app_or in H as [H|H]; [cbn in H; lia|apply repeat_spec in H; lia]. }
    split; intros C; apply G in C; tauto.
Qed.

(** A double with at most 49 significant bits. *)
Definition short (x : dbl) : Prop :=
  match x with
  | S754_zero _ => True
  | S754_finite _ m _ => exists q k, 0 <= k /\ 0 < q < 2 ^ 49 /\ Z.pos m = q * 2 ^ k
  | _ => False
  end.

Lemma app_eq_len : forall {A} (a b c d : list A), length a = length c -> a ++ b = c ++ d ->
  a = c /\ b = d.
Proof.
  intros A a. induction a; destruct c; cbn; intros d L H; try discriminate; auto.
  injection H as -> H. apply IHa in H as [-> ->]; auto.
Qed.

(** The twenty characters of the fraction. *)
Definition body (D : Z) : list nat :=
  if D <? 10 ^ 15 then digits 1 (D / 10 ^ 14) ++ [46%nat] ++ digits 14 D ++ [69; 45; 48; 49]%nat
  else [49; 46]%nat ++ repeat 48%nat 14 ++ [69; 43; 48; 48]%nat.
Definition body0 : list nat := ([48; 46] ++ repeat 48 14 ++ [69; 43; 48; 48])%nat.

Lemma body_length : forall D, length (body D) = 20%nat.
Proof.
  intros D. unfold body. destruct (_ <? _); auto.
Qed.

Lemma body_tail : forall D, D < 10 ^ 15 -> exists l, body D = l ++ [69; 45; 48; 49]%nat.
Proof.
  intros D H. unfold body. destruct (Z.ltb_spec D (10 ^ 15)); [|lia].
  eexists. rewrite !app_assoc. reflexivity.
Qed.

Lemma body_big : forall D, 10 ^ 15 <= D -> body D = ([49; 46] ++ repeat 48 14 ++ [69; 43; 48; 48])%nat.
Proof. intros D H. unfold body. destruct (Z.ltb_spec D (10 ^ 15)); [lia|auto]. Qed.

Lemma tails_ne : forall l a b c d, l ++ [69; 45; 48; 49]%nat <> a :: b :: repeat 48%nat 14 ++ [69; c; d; 48]%nat.
Proof.
  intros l a b c d H. apply (f_equal (@rev nat)) in H. rewrite rev_app_distr in H. cbn in H. discriminate.
Qed.

Lemma body_inj : forall D D', 0 <= D <= 10 ^ 15 -> 0 <= D' <= 10 ^ 15 -> body D = body D' -> D = D'.
Proof.
  intros D D' B B' H.
  destruct (Z.lt_ge_cases D (10 ^ 15)) as [L|L], (Z.lt_ge_cases D' (10 ^ 15)) as [L'|L'].
  - unfold body in H. destruct (Z.ltb_spec D (10 ^ 15)); [|lia].
    destruct (Z.ltb_spec D' (10 ^ 15)); [|lia].
    apply app_eq_len in H as [G1 G2]; [|now rewrite !digits_length].
    apply app_eq_len in G2 as [_ G2]; [|reflexivity].
    apply app_eq_len in G2 as [G2 _]; [|now rewrite !digits_length].
    apply digits_inj in G1, G2. change (10 ^ Z.of_nat 1) with 10 in G1.
    change (10 ^ Z.of_nat 14) with (10 ^ 14) in G2.
    pose proof (Z.div_mod D (10 ^ 14) ltac:(lia)). pose proof (Z.div_mod D' (10 ^ 14) ltac:(lia)).
    assert (0 <= D / 10 ^ 14 < 10).
    { split; [apply Z.div_pos; lia|apply Z.div_lt_upper_bound; lia]. }
    assert (0 <= D' / 10 ^ 14 < 10).
    { split; [apply Z.div_pos; lia|apply Z.div_lt_upper_bound; lia]. }
    rewrite !(Z.mod_small _ 10) in G1 by lia. lia.
  - rewrite (body_big D' L') in H. destruct (body_tail D L) as (l & E). rewrite E in H.
    now apply tails_ne in H.
  - rewrite (body_big D L) in H. destruct (body_tail D' L') as (l & E). rewrite E in H.
    symmetry in H. now apply tails_ne in H.
  - lia.
Qed.

Lemma body_body0 : forall D, body D <> body0.
Proof.
  intros D H. destruct (Z.lt_ge_cases D (10 ^ 15)) as [L|L].
  - destruct (body_tail D L) as (l & E). rewrite E in H. now apply tails_ne in H.
  - rewrite (body_big D L) in H. discriminate.
Qed.

(** The printed number determines the sign, the rounded fraction and the
    exponent. *)
Definition frac (M : positive) : Z := round_even (Z.pos M * 10 ^ 15) (2 ^ 53).

Lemma frac_bound : forall M, dg M = 53 -> 5 * 10 ^ 14 <= frac M <= 10 ^ 15.
Proof.
  intros M H. apply dg53_bounds in H. unfold frac.
  pose proof (round_even_bound (Z.pos M * 10 ^ 15) (2 ^ 53) ltac:(lia) ltac:(lia)). lia.
Qed.

Lemma text_zero : forall s, dbl_text (S754_zero s) =
  Ok (((if s then [45%nat] else []) ++ body0 ++ 58%nat :: print_int 0) ++ [0%nat]).
Proof. intros s. destruct s; reflexivity. Qed.

Lemma text_finite : forall s m e, dvalid (S754_finite s m e) ->
  exists M d, 0 <= d /\ Z.pos M = Z.pos m * 2 ^ d /\ dg M = 53 /\
  dbl_text (S754_finite s m e) =
    Ok (((if s then [45%nat] else []) ++ body (frac M) ++ 58%nat :: print_int (e + 53 - d)) ++ [0%nat]).
Proof.
  intros s m e V. destruct (frexp_spec s m e V) as (M & d & Hd & HM & HD & E).
  exists M, d. split; [auto|]. split; [auto|]. split; [auto|].
  unfold dbl_text. rewrite E. cbn [print_frac]. change (0 <=? -53) with false. cbv iota zeta.
  cbn [obind]. change (- -53) with 53. fold (frac M). unfold body. rewrite <- !app_assoc. reflexivity.
Qed.

Definition hd48 (l : list nat) : Prop := match l with [] => False | c :: _ => (48 <= c)%nat end.
Lemma body_hd : forall D, hd48 (body D).
Proof.
  intros D. unfold body. destruct (_ <? _); cbn; [|lia]. lia.
Qed.

Lemma sign_text : forall (s s' : bool) a a', hd48 a -> hd48 a' ->
  (if s then [45%nat] else []) ++ a = (if s' then [45%nat] else []) ++ a' -> s = s' /\ a = a'.
Proof.
  intros s s' a a' H H' E. destruct s, s'; cbn in E; auto.
  - injection E as E. auto.
  - destruct a'; [destruct H'|]. injection E as <- _. cbn in H'. lia.
  - destruct a; [destruct H|]. injection E as -> _. cbn in H. lia.
Qed.

Lemma hd48_app : forall a b, hd48 a -> hd48 (a ++ b).
Proof. intros [|c a] b H; [destruct H|exact H]. Qed.

Lemma Ok_inj : forall {A} (a b : A), Ok a = Ok b -> a = b.
Proof. intros A a b H. now injection H. Qed.

(** Different doubles with at most 49 significant bits have different texts. *)
Lemma text_inj : forall x y, dvalid x -> dvalid y -> short x -> short y ->
  dbl_text x = dbl_text y -> x = y.
Proof.
  intros x y Vx Vy Sx Sy H.
  destruct x as [s| | |s m e], y as [t| | |t n f]; try contradiction.
  - rewrite !text_zero in H. apply Ok_inj in H. apply app_inj_tail in H as [H _].
    apply sign_text in H as [-> _]; auto; cbn; lia.
  - destruct (text_finite t n f Vy) as (M & d & Hd & HM & HD & E). rewrite E, text_zero in H.
    apply Ok_inj in H. apply app_inj_tail in H as [H _].
    apply sign_text in H as [_ H]; [|cbn; lia|apply hd48_app, body_hd].
    apply app_eq_len in H as [H _]; [|now rewrite body_length].
    symmetry in H. now apply body_body0 in H.
  - destruct (text_finite s m e Vx) as (M & d & Hd & HM & HD & E). rewrite E, text_zero in H.
    apply Ok_inj in H. apply app_inj_tail in H as [H _].
    apply sign_text in H as [_ H]; [|apply hd48_app, body_hd|cbn; lia].
    apply app_eq_len in H as [H _]; [|now rewrite body_length].
    now apply body_body0 in H.
  - destruct (text_finite s m e Vx) as (M & d & Hd & HM & HD & E).
    destruct (text_finite t n f Vy) as (M' & d' & Hd' & HM' & HD' & E').
    rewrite E, E' in H. apply Ok_inj in H. apply app_inj_tail in H as [H _].
    apply sign_text in H as [-> H]; try apply hd48_app, body_hd.
    apply app_eq_len in H as [HB HX]; [|now rewrite !body_length].
    injection HX as HX. apply print_int_inj in HX.
    pose proof (frac_bound M HD). pose proof (frac_bound M' HD').
    apply body_inj in HB; [|lia|lia].
    assert (K : forall k M0 d0 m0, 0 <= d0 -> Z.pos M0 = Z.pos m0 * 2 ^ d0 -> dg M0 = 53 ->
      (exists q, 0 <= k /\ 0 < q < 2 ^ 49 /\ Z.pos m0 = q * 2 ^ k) -> exists z, Z.pos M0 = 16 * z).
    { clear. intros k M0 d0 m0 Hd HM HD (q & Hk & Hq & Hm). apply dg53_bounds in HD.
      rewrite Hm in HM. rewrite <- Z.mul_assoc, <- Z.pow_add_r in HM by lia.
      destruct (Z.lt_ge_cases (k + d0) 4) as [C|C].
      - exfalso. assert (2 ^ (k + d0) <= 2 ^ 3) by (apply Z.pow_le_mono_r; lia).
        change (2 ^ 3) with 8 in *. change (2 ^ 49) with 562949953421312 in *. nia.
      - exists (q * 2 ^ (k + d0 - 4)). rewrite HM.
        replace (k + d0) with (4 + (k + d0 - 4)) at 1 by lia. rewrite Z.pow_add_r by lia.
        change (2 ^ 4) with 16. ring. }
    destruct Sx as (q1 & k1 & S1 & S2 & S3). destruct Sy as (q2 & k2 & T1 & T2 & T3).
    destruct (K k1 M d m Hd HM HD) as (z & Hz); [eauto|].
    destruct (K k2 M' d' n Hd' HM' HD') as (z' & Hz'); [eauto|].
    assert (EM : M = M').
    { apply dg53_bounds in HD, HD'. unfold frac in HB.
      pose proof (round_even_bound (Z.pos M * 10 ^ 15) (2 ^ 53) ltac:(lia) ltac:(lia)) as B1.
      pose proof (round_even_bound (Z.pos M' * 10 ^ 15) (2 ^ 53) ltac:(lia) ltac:(lia)) as B2.
      rewrite <- HB in B2. assert (z = z') by lia. lia. }
    subst M'.
    pose proof (unpack_spec t m e M d Vx Hd HM HD) as U.
    pose proof (unpack_spec t n f M d' Vy Hd' HM' HD') as U'.
    rewrite HX in U. rewrite U in U'. injection U' as -> ->. reflexivity.
Qed.

Local Open Scope nat_scope.

Lemma Forall2_len : forall {A B} (P : A -> B -> Prop) l l', Forall2 P l l' -> length l = length l'.
Proof. induction 1; cbn; auto. Qed.

(** The text of an array: the texts of the entries, separated by commas. *)
Definition pre (ts : list (list nat)) : list nat := flat_map (fun t => t ++ [44]) ts.

Lemma pre_nz : forall ts, Forall (fun t => ~ In 0 t) ts -> ~ In 0 (pre ts).
Proof.
  induction 1 as [|t ts Ht _ IH]; cbn; auto. rewrite !in_app_iff. cbn. intuition.
Qed.

Lemma concat_ow : forall a b, ~ In 0 a -> ~ In 0 b ->
  concat_string_ow (Some (a ++ [0])) (Some (b ++ [0])) = Ok (Some ((a ++ b) ++ [0])).
Proof.
  intros a b Ha Hb. unfold concat_string_ow.
  pose proof (concat_string_ok (Some a) (Some b) [] []) as H. cbn in H.
  rewrite H by auto. cbn [obind]. now rewrite <- app_assoc.
Qed.
Lemma concat_ow0 : forall b, ~ In 0 b ->
  concat_string_ow None (Some (b ++ [0])) = Ok (Some (b ++ [0])).
Proof.
  intros b Hb. unfold concat_string_ow.
  pose proof (concat_string_ok None (Some b) [] []) as H. cbn [option_map] in H.
  cbn [app] in H. rewrite H; auto.
Qed.

Lemma darray_text_ok : forall x z ts tz, Forall2 txt x ts -> txt z tz ->
  darray_text (S (length x)) (x ++ [z]) = Ok (Some ((pre ts ++ tz) ++ [0])) /\
  ~ In 0 (pre ts ++ tz).
Proof.
  intros x z ts tz H (Ez & Nz & Cz). unfold darray_text. cbn [Nat.eqb]. rewrite Nat.sub_succ, Nat.sub_0_r.
  assert (NZ : Forall (fun t => ~ In 0 t) ts).
  { clear - H. induction H as [|a b l l' (_ & N & _) _ IH]; constructor; auto. }
  assert (NP : forall k, ~ In 0 (pre (firstn k ts))).
  { intros k. apply pre_nz. rewrite Forall_forall in *. intros t Ht. apply NZ.
    rewrite <- (firstn_skipn k ts). apply in_or_app; auto. }
  assert (L : length x = length ts) by (eapply Forall2_len; eauto).
  split.
  2:{ rewrite in_app_iff. intros [C|C]; auto. apply (NP (length ts)). now rewrite firstn_all. }
  match goal with |- context [for_ ?n ?B ?S0] =>
    destruct (for_inv (fun i b => b = if i =? 0 then None else Some (pre (firstn i ts) ++ [0])) B n S0)
      as (r & E & HI); [reflexivity| |rewrite E] end.
  - intros i b Hi ->.
    destruct (nth_error x i) as [xi|] eqn:Ex; [|apply nth_error_None in Ex; lia].
    unfold aget. rewrite nth_error_app1, Ex by auto. cbn [obind].
    destruct (nth_error ts i) as [ti|] eqn:Et; [|apply nth_error_None in Et; lia].
    assert (T : txt xi ti).
    { clear - H Ex Et. revert i Ex Et. induction H; intros [|i]; cbn; intros; try discriminate.
      - injection Ex as <-. injection Et as <-. auto.
      - eauto. }
    destruct T as (T1 & T2 & T3). rewrite T1. cbn [obind].
    assert (EF : firstn (S i) ts = firstn i ts ++ [ti]).
    { clear - Et. revert i Et. induction ts; intros [|i] E; try discriminate.
      - injection E as ->. reflexivity.
      - cbn [firstn app]. f_equal. now apply IHts. }
    eexists. split; [|reflexivity]. cbn [Nat.eqb]. rewrite EF. unfold pre. rewrite flat_map_app.
    cbn [flat_map]. rewrite app_nil_r. fold (pre (firstn i ts)).
    destruct i as [|i]; cbn [Nat.eqb].
    + rewrite concat_ow0 by auto. cbn [obind].
      change [44; 0] with ([44] ++ [0]).
      rewrite (concat_ow ti [44]) by (auto; cbn; lia). reflexivity.
    + rewrite concat_ow by auto. cbn [obind].
      change [44; 0] with ([44] ++ [0]). rewrite (concat_ow _ [44]).
      * now rewrite <- !app_assoc.
      * rewrite in_app_iff. intros [C|C]; auto. now apply (NP (S i)).
      * cbn. lia.
  - cbn [obind]. subst r. unfold aget. rewrite nth_error_app2, Nat.sub_diag by auto.
    cbn [nth_error obind]. rewrite Ez. cbn [obind].
    destruct (length x) as [|k] eqn:Lx; cbn [Nat.eqb].
    + destruct ts; [|discriminate]. cbn [pre flat_map app]. now apply concat_ow0.
    + rewrite L, firstn_all. apply concat_ow; auto. apply pre_nz; auto.
Qed.

Lemma sep_inj : forall a b r r', ~ In 44 a -> ~ In 44 b -> a ++ 44 :: r = b ++ 44 :: r' -> a = b /\ r = r'.
Proof.
  induction a; destruct b; cbn; intros r r' Ha Hb H.
  - injection H. auto.
  - injection H as <- H. exfalso. auto.
  - injection H as -> H. exfalso. auto.
  - injection H as -> H. apply IHa in H as [-> ->]; auto.
Qed.

Lemma pre_inj : forall ts ts' a b, Forall (fun t => ~ In 44 t) ts -> Forall (fun t => ~ In 44 t) ts' ->
  length ts = length ts' -> pre ts ++ a = pre ts' ++ b -> ts = ts' /\ a = b.
Proof.
  intros ts ts' a b H. revert ts'. induction H as [|t ts Ht _ IH]; intros ts' H' L E.
  - destruct ts'; [|discriminate]. auto.
  - destruct ts' as [|t' ts']; [discriminate|]. inversion H'; subst.
    cbn [pre flat_map] in E. fold (pre ts) in E. fold (pre ts') in E. rewrite <- !app_assoc in E. cbn [app] in E.
    apply sep_inj in E as [-> E]; auto. apply IH in E as [-> ->]; auto.
Qed.

Definition point (d : nat) (x : list dbl) : Prop :=
  length x = d /\ Forall (fun v => dvalid v /\ dfinite v = true) x.

Lemma darray_text_point : forall d x, 1 <= d -> point d x ->
  exists t, darray_text d x = Ok (Some (t ++ [0])) /\ ~ In 0 t.
Proof.
  intros d x Hd (L & F).
  destruct (exists_last (l := x)) as (x' & z & ->); [destruct x; [cbn in L; lia|discriminate]|].
  apply Forall_app in F as (F & Fz). inversion Fz; subst.
  destruct (txt_ok z) as (tz & Tz); try tauto.
  assert (G : exists ts, Forall2 txt x' ts).
  { clear - F. induction F as [|v x' (V1 & V2) _ (ts & IH)]; [exists []; auto|].
    destruct (txt_ok v V1 V2) as (t & T). exists (t :: ts). auto. }
  destruct G as (ts & Ts). destruct (darray_text_ok x' z ts tz Ts Tz) as (E & N).
  exists (pre ts ++ tz). rewrite app_length. cbn [length]. rewrite Nat.add_1_r. auto.
Qed.

Lemma darray_text_inj : forall d x y, 1 <= d -> point d x -> point d y ->
  Forall short x -> Forall short y ->
  darray_text d x = darray_text d y -> x = y.
Proof.
  intros d x y Hd (L & F) (L' & F') Hs Hs' H.
  assert (G : forall x', Forall (fun v => dvalid v /\ dfinite v = true) x' -> exists ts, Forall2 txt x' ts).
  { clear. intros x' F. induction F as [|v x' (V1 & V2) _ (ts & IH)]; [exists []; auto|].
    destruct (txt_ok v V1 V2) as (t & T). exists (t :: ts). auto. }
  assert (K : forall x' ts, Forall2 txt x' ts -> Forall (fun t => ~ In 44 t) ts).
  { clear. induction 1 as [|a b l l' (_ & _ & N) _ IH]; constructor; auto. }
  destruct (exists_last (l := x)) as (x' & z & ->); [destruct x; [cbn in L; lia|discriminate]|].
  destruct (exists_last (l := y)) as (y' & w & ->); [destruct y; [cbn in L'; lia|discriminate]|].
  rewrite app_length in L, L'. cbn [length] in L, L'.
  apply Forall_app in F as (F & Fz). inversion Fz as [|? ? (Vz & Wz) _]; subst.
  apply Forall_app in F' as (F' & Fw). inversion Fw as [|? ? (Vw & Ww) _]; subst.
  apply Forall_app in Hs as (Hs & Sz). inversion Sz as [|? ? Sz' _]; subst.
  apply Forall_app in Hs' as (Hs' & Sw). inversion Sw as [|? ? Sw' _]; subst.
  destruct (txt_ok z) as (tz & Tz); auto. destruct (txt_ok w) as (tw & Tw); auto.
  destruct (G x' F) as (ts & Ts). destruct (G y' F') as (us & Us).
  destruct (darray_text_ok x' z ts tz Ts Tz) as (E & _).
  destruct (darray_text_ok y' w us tw Us Tw) as (E' & _).
  assert (LL : length y' = length x') by lia.
  rewrite LL in E'. rewrite Nat.add_1_r, E, E' in H.
  injection H as H. apply app_inj_tail in H as [H _].
  apply pre_inj in H as [-> ->]; [|now apply (K x')|now apply (K y')|].
  2:{ apply Forall2_len in Ts, Us. lia. }
  f_equal.
  - clear - Ts Us F F' Hs Hs'. revert y' Us F' Hs'.
    induction Ts as [|a t l l' (Ta & _) _ IH]; intros y' Us F' Hs'; inversion Us; subst; auto.
    inversion F; inversion F'; inversion Hs; inversion Hs'; subst. f_equal.
    + match goal with T : txt x t |- _ => destruct T as (Tb & _) end.
      apply text_inj; try tauto. congruence.
    + apply IH; auto.
  - f_equal. destruct Tz as (Tz & _), Tw as (Tw & _). apply text_inj; auto. congruence.
Qed.
