(** Packed doubles: all roundings in [pack] and [unpack] are exact. *)
From Verif Require Import Base BaseFacts SerModel SerFacts PackModel.
From Coq Require Import NArith ZArith Zpow_facts.
Local Open Scope Z_scope.

Definition dg (m : positive) : Z := Z.pos (digits2_pos m).

Lemma dg_bounds : forall m, 2 ^ (dg m - 1) <= Z.pos m < 2 ^ dg m.
Proof.
  unfold dg. induction m as [p IH|p IH|]; cbn [digits2_pos].
  - rewrite Pos2Z.inj_succ. replace (Z.succ _ - 1) with (Z.pos (digits2_pos p)) by lia.
    rewrite Z.pow_succ_r by lia.
    replace (Z.pos (digits2_pos p)) with (Z.succ (Z.pos (digits2_pos p) - 1)) at 1 by lia.
    rewrite Z.pow_succ_r by lia. lia.
  - rewrite Pos2Z.inj_succ. replace (Z.succ _ - 1) with (Z.pos (digits2_pos p)) by lia.
    rewrite Z.pow_succ_r by lia.
    replace (Z.pos (digits2_pos p)) with (Z.succ (Z.pos (digits2_pos p) - 1)) at 1 by lia.
    rewrite Z.pow_succ_r by lia. lia.
  - cbn. lia.
Qed.

Lemma dg_pos : forall m, 1 <= dg m.
Proof. intros. unfold dg. lia. Qed.

Lemma dg_unique : forall m d, 1 <= d -> 2 ^ (d - 1) <= Z.pos m < 2 ^ d -> dg m = d.
Proof.
  intros m d Hd [H1 H2]. pose proof (dg_bounds m) as [B1 B2]. pose proof (dg_pos m).
  assert (d - 1 < dg m) by (apply (Z.pow_lt_mono_r_iff 2); lia).
  assert (dg m - 1 < d) by (apply (Z.pow_lt_mono_r_iff 2); lia). lia.
Qed.

Lemma dg_mul2 : forall m k n, 0 <= n -> Z.pos k = Z.pos m * 2 ^ n -> dg k = dg m + n.
Proof.
  intros m k n Hn H. pose proof (dg_bounds m) as [B1 B2]. pose proof (dg_pos m).
  apply dg_unique; [lia|]. rewrite H.
  replace (dg m + n - 1) with (dg m - 1 + n) by lia.
  rewrite !Z.pow_add_r by lia. pose proof (Z.pow_pos_nonneg 2 n ltac:(lia) Hn). nia.
Qed.

Fixpoint itn {A} (n : nat) (f : A -> A) (x : A) : A :=
  match n with O => x | S n => f (itn n f x) end.

Lemma iter_pos_nat : forall A (f : A -> A) p x,
  SpecFloat.iter_pos f p x = itn (Pos.to_nat p) f x.
Proof.
  assert (C : forall A (f : A -> A) n x, itn n f (f x) = f (itn n f x)).
  { induction n; intros; cbn; [reflexivity | rewrite IHn; reflexivity]. }
  assert (P : forall A (f : A -> A) n m x, itn n f (itn m f x) = itn (n + m) f x).
  { induction n; intros; cbn; [reflexivity | rewrite IHn; reflexivity]. }
  induction p as [p IH|p IH|]; intros x; cbn [SpecFloat.iter_pos].
  - rewrite !IH, P, C, Pos2Nat.inj_xI. cbn [itn Nat.mul]. do 2 f_equal. lia.
  - rewrite !IH, P, Pos2Nat.inj_xO. f_equal. lia.
  - auto.
Qed.

Definition mrs (k : Z) : shr_record := {| shr_m := k; shr_r := false; shr_s := false |}.

Lemma shr_exact : forall p k, 0 < k ->
  SpecFloat.iter_pos shr_1 p (mrs (k * 2 ^ Z.pos p)) = mrs k.
Proof.
  intros p k Hk. rewrite iter_pos_nat. rewrite <- (positive_nat_Z p).
  generalize (Pos.to_nat p) as n. intros n. revert k Hk.
  induction n as [|n IH]; intros k Hk.
  - cbn [itn]. f_equal. change (Z.of_nat 0) with 0. lia.
  - cbn [itn].
    replace (k * 2 ^ Z.of_nat (S n)) with ((2 * k) * 2 ^ Z.of_nat n).
    2:{ rewrite Nat2Z.inj_succ, Z.pow_succ_r by lia. lia. }
    rewrite IH by lia. destruct k; try lia. reflexivity.
Qed.

Lemma fexp_def : forall e, fexp 53 1024 e = Z.max (e - 53) (-1074).
Proof. reflexivity. Qed.

Lemma Zdigits2_pos : forall p, Zdigits2 (Z.pos p) = dg p.
Proof. reflexivity. Qed.

Lemma round_aux_exact : forall s m k e n, 0 <= n ->
  Z.pos m = Z.pos k * 2 ^ n -> fexp 53 1024 (dg k + (e + n)) = e + n -> e + n <= 971 ->
  binary_round_aux 53 1024 s (Z.pos m) e loc_Exact = S754_finite s k (e + n).
Proof.
  intros s m k e n Hn Hm Hc He. unfold binary_round_aux, shr_fexp.
  rewrite Zdigits2_pos, (dg_mul2 k m n) by auto.
  replace (dg k + n + e) with (dg k + (e + n)) by lia. rewrite Hc.
  replace (e + n - e) with n by lia.
  change (shr_record_of_loc (Z.pos m) loc_Exact) with (mrs (Z.pos m)).
  assert (S1 : shr (mrs (Z.pos m)) e n = (mrs (Z.pos k), e + n)).
  { unfold shr. destruct n as [|p|p]; [| |lia].
    - rewrite Hm. do 2 f_equal; lia.
    - rewrite Hm, shr_exact by lia. auto. }
  rewrite S1. cbn [mrs shr_m loc_of_shr_record round_nearest_even].
  rewrite Zdigits2_pos, Hc, Z.sub_diag. cbn [shr shr_record_of_loc shr_m].
  replace (Z.leb (e + n) (1024 - 53)) with true by (symmetry; apply Z.leb_le; lia). auto.
Qed.

Lemma shift_pos_Z : forall d m, Z.pos (shift_pos d m) = Z.pos m * 2 ^ Z.pos d.
Proof. intros. rewrite shift_pos_correct, Zpower_pos_nat, Zpower_nat_Z, positive_nat_Z. lia. Qed.

(** [binary_round] of a number that is the canonical [k * 2^f]. *)
Lemma round_exact : forall s m e k f n1 n2, 0 <= n1 -> 0 <= n2 ->
  Z.pos m * 2 ^ n1 = Z.pos k * 2 ^ n2 -> e - n1 = f - n2 ->
  fexp 53 1024 (dg k + f) = f -> f <= 971 ->
  binary_round 53 1024 s m e = S754_finite s k f.
Proof.
  intros s m e k f n1 n2 H1 H2 E1 E2 Hc Hf. unfold binary_round.
  assert (D : dg m + e = dg k + f).
  { assert (exists q, Z.pos q = Z.pos m * 2 ^ n1) as [q Hq].
    { exists (Z.to_pos (Z.pos m * 2 ^ n1)). rewrite Z2Pos.id; auto.
      pose proof (Z.pow_pos_nonneg 2 n1 ltac:(lia) H1). nia. }
    pose proof (dg_mul2 m q n1 H1 Hq). rewrite E1 in Hq.
    pose proof (dg_mul2 k q n2 H2 Hq). lia. }
  fold (dg m). rewrite D, Hc. unfold shl_align.
  pose proof (Z.pow_pos_nonneg 2 n1 ltac:(lia) H1) as P1.
  pose proof (Z.pow_pos_nonneg 2 n2 ltac:(lia) H2) as P2.
  destruct (Z_lt_le_dec (f - e) 0) as [L|L].
  - destruct (f - e) as [|p|p] eqn:Ed; try lia.
    replace f with (f + 0) at 2 by lia.
    apply round_aux_exact; rewrite ?Z.add_0_r; auto; try lia.
    rewrite shift_pos_Z.
    assert (En : n1 = n2 + Z.pos p) by lia. rewrite En, Z.pow_add_r in E1 by lia.
    rewrite Z.pow_0_r, Z.mul_1_r. apply Z.mul_reg_r with (2 ^ n2); [lia|]. rewrite <- E1. lia.
  - assert (En : n2 = n1 + (f - e)) by lia. rewrite En, Z.pow_add_r in E1 by lia.
    assert (Em : Z.pos m = Z.pos k * 2 ^ (f - e))
      by (apply Z.mul_reg_r with (2 ^ n1); [lia|]; rewrite E1; lia).
    assert (R : binary_round_aux 53 1024 s (Z.pos m) e loc_Exact = S754_finite s k f).
    { replace f with (e + (f - e)) at 1 by lia. apply round_aux_exact; auto.
      - replace (e + (f - e)) with f by lia. auto.
      - lia. }
    destruct (f - e); try lia; exact R.
Qed.

(** Canonical mantissa of an integer [c < 2^53], used at exponents well inside
    the range. *)
Definition cm (c : positive) : positive := Z.to_pos (Z.pos c * 2 ^ (53 - dg c)).

Lemma dg_le : forall c n, 1 <= n -> Z.pos c < 2 ^ n -> dg c <= n.
Proof.
  intros c n Hn H. pose proof (dg_bounds c) as [B _].
  assert (dg c - 1 < n) by (apply (Z.pow_lt_mono_r_iff 2); lia). lia.
Qed.

Lemma cm_val : forall c, dg c <= 53 -> Z.pos (cm c) = Z.pos c * 2 ^ (53 - dg c).
Proof.
  intros c H. unfold cm. rewrite Z2Pos.id; auto.
  pose proof (Z.pow_pos_nonneg 2 (53 - dg c) ltac:(lia) ltac:(lia)). nia.
Qed.

Lemma cm_dg : forall c, dg c <= 53 -> dg (cm c) = 53.
Proof.
  intros c H. rewrite (dg_mul2 c (cm c) (53 - dg c)); [lia|lia|]. apply cm_val. auto.
Qed.

Lemma cm_round : forall s c e, dg c <= 53 -> -1074 <= e - (53 - dg c) <= 971 ->
  binary_round 53 1024 s c e = S754_finite s (cm c) (e - (53 - dg c)).
Proof.
  intros s c e D R. apply round_exact with (n1 := 53 - dg c) (n2 := 0); try lia.
  - rewrite cm_val by auto. lia.
  - rewrite cm_dg by auto. rewrite fexp_def. lia.
Qed.

(** Multiplication by a power of two given as [2^52 * 2^ey]. *)
Lemma mul_pow2 : forall m e ey, dg m = 53 -> -1074 <= e + ey + 52 <= 971 ->
  dmul (S754_finite false m e) (S754_finite false 4503599627370496 ey) =
  S754_finite false m (e + ey + 52).
Proof.
  intros m e ey D R. unfold dmul, SFmul. cbn [xorb].
  apply round_aux_exact; try lia.
  rewrite D, fexp_def. lia.
Qed.

Lemma div_pow2 : forall m e ey, dg m = 53 -> -1074 <= e - ey - 53 -> e - ey - 52 <= 971 ->
  ddiv (S754_finite false m e) (S754_finite false 4503599627370496 ey) =
  S754_finite false m (e - ey - 52).
Proof.
  intros m e ey D R1 R2. unfold ddiv, SFdiv. cbn [xorb].
  unfold SFdiv_core_binary. rewrite !Zdigits2_pos, D.
  change (dg 4503599627370496) with 53.
  replace (Z.min (fexp 53 1024 (53 + e - (53 + ey))) (e - ey)) with (e - ey - 53)
    by (rewrite fexp_def; lia).
  replace (e - ey - (e - ey - 53)) with 53 by lia.
  rewrite Z.shiftl_mul_pow2 by lia.
  assert (E : Z.div_eucl (Z.pos m * 2 ^ 53) 4503599627370496 = (Z.pos (xO m), 0)).
  { pose proof (Z_div_mod (Z.pos m * 2 ^ 53) 4503599627370496 ltac:(lia)) as M.
    change (2 ^ 53) with 9007199254740992 in *.
    destruct (Z.div_eucl _ _) as [q r]. destruct M as [M1 M2].
    assert (q = Z.pos (xO m) /\ r = 0) as [-> ->]; [|auto].
    rewrite (Pos2Z.inj_xO m). lia. }
  rewrite E. replace (e - ey - 52) with (e - ey - 53 + 1) by lia.
  change (new_location 4503599627370496 0) with loc_Exact.
  apply round_aux_exact; try lia.
  rewrite D, fexp_def. lia.
Qed.

(** The fraction [M / 2^53] in [1/2,1), with [c = M - 2^52]. *)
Lemma sub_half : forall M, 4503599627370496 < Z.pos M < 9007199254740992 ->
  exists c, Z.pos c = Z.pos M - 4503599627370496 /\ dg c <= 52 /\
  dsub (S754_finite false M (-53)) d_half = S754_finite false (cm c) (-53 - (53 - dg c)).
Proof.
  intros M H. exists (Z.to_pos (Z.pos M - 4503599627370496)).
  set (c := Z.to_pos (Z.pos M - 4503599627370496)).
  assert (Ec : Z.pos c = Z.pos M - 4503599627370496) by (unfold c; rewrite Z2Pos.id; lia).
  assert (Dc : dg c <= 52).
  { apply dg_le; [lia|]. change (2 ^ 52) with 4503599627370496. lia. }
  pose proof (dg_pos c).
  split; [auto|]. split; [auto|].
  unfold dsub, d_half, SFsub. cbn [Z.min Z.compare Pos.compare Pos.compare_cont].
  unfold shl_align. rewrite !Z.sub_diag. cbn [fst cond_Zopp].
  rewrite <- Ec. cbn [binary_normalize]. apply cm_round; lia.
Qed.

Lemma sub_half0 : dsub (S754_finite false 4503599627370496 (-53)) d_half = S754_zero false.
Proof. vm_compute. reflexivity. Qed.

Lemma add_half : forall M c, 4503599627370496 < Z.pos M < 9007199254740992 ->
  Z.pos c = Z.pos M - 4503599627370496 -> dg c <= 52 ->
  dadd (S754_finite false (cm c) (-53 - (53 - dg c))) d_half = S754_finite false M (-53).
Proof.
  intros M c H Ec Dc. pose proof (dg_pos c). unfold dadd, d_half, SFadd.
  replace (Z.min (-53 - (53 - dg c)) (-53)) with (-53 - (53 - dg c)) by lia.
  unfold shl_align at 1. rewrite Z.sub_diag. cbn [fst cond_Zopp].
  unfold shl_align. replace (-53 - (53 - dg c) - -53) with (- (53 - dg c)) by lia.
  destruct (53 - dg c) as [|d|d] eqn:Ed; try lia. cbn [Z.opp fst].
  rewrite shift_pos_Z, (cm_val c), Ed by lia.
  replace (Z.pos c * 2 ^ Z.pos d + 4503599627370496 * 2 ^ Z.pos d)
    with (Z.pos M * 2 ^ Z.pos d) by (rewrite Ec; ring).
  assert (P : 0 < 2 ^ Z.pos d) by (apply Z.pow_pos_nonneg; lia).
  destruct (Z.pos M * 2 ^ Z.pos d) as [|q|q] eqn:Eq; try nia.
  cbn [binary_normalize].
  apply round_exact with (n1 := 0) (n2 := Z.pos d); try lia.
  replace (dg M) with 53; [reflexivity|]. symmetry. apply dg_unique; [lia|].
  change (2 ^ (53 - 1)) with 4503599627370496. change (2 ^ 53) with 9007199254740992. lia.
Qed.

Definition two63 : dbl := S754_finite false 4503599627370496 11.

Lemma fracmax_dbl : d_of_Z (FRAC_MAX - 1) = two63.
Proof. vm_compute. reflexivity. Qed.

(** [frexp] of a valid finite non-zero double. *)
Lemma frexp_spec : forall s m e, dvalid (S754_finite s m e) ->
  exists M d, 0 <= d /\ Z.pos M = Z.pos m * 2 ^ d /\ dg M = 53 /\
  cfrexp (S754_finite s m e) = (S754_finite s M (-53), e + 53 - d).
Proof.
  intros s m e V. unfold dvalid, valid_binary, bounded, canonical_mantissa in V.
  apply andb_prop in V as [V1 V2]. apply Zeq_bool_eq in V1. apply Z.leb_le in V2.
  fold (dg m) in V1. rewrite fexp_def in V1.
  cbn [cfrexp SFfrexp]. change (Z.to_pos 53) with 53%positive.
  assert (D : dg m <= 53) by lia.
  destruct (53 <=? digits2_pos m)%positive eqn:E.
  - apply Pos.leb_le in E. exists m, 0. split; [lia|]. split; [lia|].
    split; [unfold dg in *; lia|]. rewrite Z.sub_0_r. reflexivity.
  - apply Pos.leb_gt in E. fold (dg m).
    exists (shift_pos (Z.to_pos (53 - dg m)) m), (53 - dg m).
    assert (Es : Z.pos (shift_pos (Z.to_pos (53 - dg m)) m) = Z.pos m * 2 ^ (53 - dg m)).
    { rewrite shift_pos_Z, Z2Pos.id; auto. unfold dg in *. lia. }
    split; [lia|]. split; [auto|]. split.
    + rewrite (dg_mul2 m _ (53 - dg m)); auto; lia.
    + auto.
Qed.

Lemma ll_cm : forall c, dg c <= 52 ->
  ll_of_dbl (S754_finite false (cm c) (dg c - 42)) = Ok (Z.pos c * 2048).
Proof.
  intros c D. pose proof (dg_pos c). pose proof (dg_bounds c) as [_ B].
  unfold ll_of_dbl. rewrite cm_val by lia.
  assert (E : (if 0 <=? dg c - 42 then Z.pos c * 2 ^ (53 - dg c) * 2 ^ (dg c - 42)
               else Z.pos c * 2 ^ (53 - dg c) / 2 ^ (- (dg c - 42))) = Z.pos c * 2048).
  { destruct (0 <=? dg c - 42) eqn:L.
    - apply Z.leb_le in L. rewrite <- Z.mul_assoc, <- Z.pow_add_r by lia.
      replace (53 - dg c + (dg c - 42)) with 11 by lia. auto.
    - apply Z.leb_gt in L. replace (53 - dg c) with (11 + - (dg c - 42)) by lia.
      rewrite Z.pow_add_r, Z.mul_assoc, Z.div_mul by lia. auto. }
  rewrite E.
  assert (Z.pos c < 2 ^ 52).
  { eapply Z.lt_le_trans; [exact B|]. apply Z.pow_le_mono_r; lia. }
  change (2 ^ 52) with 4503599627370496 in *.
  change (2 ^ 63) with 9223372036854775808.
  replace ((- (9223372036854775808) <=? Z.pos c * 2048) && (Z.pos c * 2048 <? 9223372036854775808))
    with true; auto.
  symmetry. apply andb_true_intro. split; [apply Z.leb_le | apply Z.ltb_lt]; lia.
Qed.

Lemma ll_ok : forall z, - 9223372036854775808 <= z < 9223372036854775808 -> ll z = Ok z.
Proof.
  intros z H. unfold ll. change (2 ^ 63) with 9223372036854775808.
  replace (_ && _) with true; auto.
  symmetry. apply andb_true_intro. split; [apply Z.leb_le | apply Z.ltb_lt]; lia.
Qed.

Lemma dg53_bounds : forall M, dg M = 53 -> 4503599627370496 <= Z.pos M < 9007199254740992.
Proof. intros M H. pose proof (dg_bounds M) as B. rewrite H in B. exact B. Qed.

(** The packed form of a finite non-zero double. *)
Lemma pack_spec : forall s m e, dvalid (S754_finite s m e) ->
  exists M d, 0 <= d /\ Z.pos M = Z.pos m * 2 ^ d /\ dg M = 53 /\
  pack (S754_finite s m e) =
    Ok (e + 53 - d, let f := 1 + (Z.pos M - 4503599627370496) * 2048 in if s then - f else f).
Proof.
  intros s m e V. destruct (frexp_spec s m e V) as (M & d & Hd & HM & HD & E).
  exists M, d. split; [auto|]. split; [auto|]. split; [auto|].
  unfold pack. rewrite E. cbn [SFabs]. rewrite fracmax_dbl.
  pose proof (dg53_bounds M HD) as B.
  destruct (Z.eq_dec (Z.pos M) 4503599627370496) as [EM|NM].
  - assert (M = 4503599627370496%positive) by lia. subst M. rewrite sub_half0.
    destruct s; vm_compute; reflexivity.
  - destruct (sub_half M ltac:(lia)) as (c & Ec & Dc & Es). rewrite Es.
    pose proof (dg_pos c).
    change (SFltb (S754_finite false (cm c) (-53 - (53 - dg c))) d_zero) with false.
    unfold d_two, two63. rewrite !mul_pow2 by (rewrite ?cm_dg; lia).
    replace (-53 - (53 - dg c) + -51 + 52 + 11 + 52) with (dg c - 42) by lia.
    rewrite ll_cm by auto. cbn [obind]. cbv zeta.
    rewrite (ll_ok (1 + Z.pos c * 2048)) by lia. cbn [obind]. rewrite <- Ec.
    replace (SFltb (S754_finite s m e) d_zero) with s by (destruct s; reflexivity).
    destruct s; [rewrite ll_ok by lia|]; auto.
Qed.

Lemma unpack_spec : forall s m e M d, dvalid (S754_finite s m e) ->
  0 <= d -> Z.pos M = Z.pos m * 2 ^ d -> dg M = 53 ->
  unpack (e + 53 - d, let f := 1 + (Z.pos M - 4503599627370496) * 2048 in if s then - f else f)
    = Ok (S754_finite s m e).
Proof.
  intros s m e M d V Hd HM HD. pose proof (dg53_bounds M HD) as B.
  set (f := 1 + (Z.pos M - 4503599627370496) * 2048). cbv zeta.
  assert (Hf : 0 < f < 9223372036854775808) by (unfold f; lia).
  assert (R : forall sg, dldexp (S754_finite sg M (-53)) (e + 53 - d) = S754_finite sg m e).
  { intros sg. unfold dldexp, SFldexp.
    unfold dvalid, valid_binary, bounded, canonical_mantissa in V.
    apply andb_prop in V as [V1 V2]. apply Zeq_bool_eq in V1. apply Z.leb_le in V2.
    apply round_exact with (n1 := 0) (n2 := d); try lia. exact V1. }
  assert (X : ddiv (ddiv (d_of_Z (f - 1)) (d_of_Z (FRAC_MAX - 1))) d_two =
    if Z.eq_dec (Z.pos M) 4503599627370496 then S754_zero false
    else dsub (S754_finite false M (-53)) d_half).
  { rewrite fracmax_dbl. destruct (Z.eq_dec (Z.pos M) 4503599627370496) as [EM|NM].
    - replace (f - 1) with 0 by (unfold f; lia). vm_compute. reflexivity.
    - destruct (sub_half M ltac:(lia)) as (c & Ec & Dc & Es). rewrite Es.
      pose proof (dg_pos c).
      replace (f - 1) with (Z.pos (c * 2048)) by (unfold f; lia).
      unfold d_of_Z. cbn [binary_normalize].
      rewrite (round_exact false (c * 2048) 0 (cm c) (dg c - 42) (53 - dg c) 11); try lia.
      2:{ rewrite cm_val by lia. rewrite Pos2Z.inj_mul. change (2 ^ 11) with 2048. lia. }
      2:{ rewrite cm_dg by lia. rewrite fexp_def. lia. }
      unfold two63, d_two. rewrite !div_pow2 by (rewrite ?cm_dg; lia).
      f_equal. lia. }
  assert (Y : dadd (ddiv (ddiv (d_of_Z (f - 1)) (d_of_Z (FRAC_MAX - 1))) d_two) d_half
              = S754_finite false M (-53)).
  { rewrite X. destruct (Z.eq_dec (Z.pos M) 4503599627370496) as [EM|NM].
    - assert (M = 4503599627370496%positive) by lia. subst M. reflexivity.
    - destruct (sub_half M ltac:(lia)) as (c & Ec & Dc & Es). rewrite Es.
      apply add_half; auto. lia. }
  unfold unpack.
  replace ((if s then - f else f) =? 0) with false
    by (symmetry; apply Z.eqb_neq; destruct s; lia).
  replace (Z.abs (if s then - f else f)) with f by (destruct s; lia).
  rewrite ll_ok by lia. cbn [obind]. rewrite ll_ok by lia. cbn [obind]. cbv zeta.
  rewrite Y, R.
  replace ((if s then - f else f) <? 0) with s
    by (destruct s; symmetry; [apply Z.ltb_lt | apply Z.ltb_ge]; lia).
  destruct s; auto.
Qed.

Lemma valid_exp : forall s m e, dvalid (S754_finite s m e) -> -1074 <= e <= 971.
Proof.
  intros s m e V. unfold dvalid, valid_binary, bounded, canonical_mantissa in V.
  apply andb_prop in V as [V1 V2]. apply Zeq_bool_eq in V1. apply Z.leb_le in V2.
  rewrite fexp_def in V1. lia.
Qed.

Lemma ll_of_to : forall z, - 9223372036854775808 <= z < 9223372036854775808 ->
  ll_of (Z.to_N (z mod 2 ^ 64)) = z.
Proof.
  unfold ll_of. intros z H.
  change (2 ^ 64) with 18446744073709551616 in *.
  change (2 ^ 63)%N with 9223372036854775808%N in *.
  pose proof (Z.mod_pos_bound z 18446744073709551616 ltac:(lia)).
  destruct (Z.neg_nonneg_cases z).
  - assert (E : z mod 18446744073709551616 = z + 18446744073709551616)
      by (symmetry; apply Z.mod_unique with (-1); lia).
    rewrite E. replace (_ <? _)%N with false by (symmetry; apply N.ltb_ge; lia). lia.
  - rewrite Z.mod_small by lia.
    replace (_ <? _)%N with true by (symmetry; apply N.ltb_lt; lia). lia.
Qed.

Lemma des_packed_bytes : forall ex fc rest, isint ex ->
  - 9223372036854775808 <= fc < 9223372036854775808 ->
  des_packed (le_bytes szI (Z.to_N (ex mod 2 ^ 32)) ++
              le_bytes sz8 (Z.to_N (fc mod 2 ^ 64)) ++ rest) = unpack (ex, fc).
Proof.
  intros ex fc rest Hx Hc. unfold des_packed.
  set (a := le_bytes szI _). set (b := le_bytes sz8 _).
  rewrite (rd_at _ 0 a szI).
  2:{ exists [], (b ++ rest). auto. }
  2:{ unfold a. rewrite le_bytes_length. auto. }
  cbn [obind]. rewrite (rd_at _ _ b sz8).
  2:{ exists a, rest. unfold a. rewrite le_bytes_length. split; reflexivity. }
  2:{ unfold b. rewrite le_bytes_length. auto. }
  cbn [obind]. unfold a, b.
  rewrite !le_val_bytes, int_of_to, ll_of_to; auto.
  - pose proof (Z.mod_pos_bound fc (2 ^ 64) ltac:(lia)).
    change (2 ^ (8 * N.of_nat sz8))%N with (Z.to_N (2 ^ 64)); lia.
  - pose proof (Z.mod_pos_bound ex (2 ^ 32) ltac:(lia)).
    change (2 ^ (8 * N.of_nat szI))%N with (Z.to_N (2 ^ 32)); lia.
Qed.

(** Packing and unpacking any finite double. *)
Definition poszero (x : dbl) : dbl := match x with S754_zero _ => S754_zero false | _ => x end.

Lemma packed_roundtrip : forall x, dvalid x -> dfinite x = true ->
  exists b, ser_packed x = Ok b /\ length b = 12%nat /\
    forall rest, des_packed (b ++ rest) = Ok (poszero x).
Proof.
  intros x V F. destruct x as [s| | |s m e]; try discriminate.
  - unfold ser_packed. replace (pack (S754_zero s)) with (@Ok (Z * Z) (0, 0))
      by (destruct s; vm_compute; reflexivity).
    cbn [obind]. eexists. split; [reflexivity|]. split; [reflexivity|].
    intros rest. rewrite <- app_assoc. rewrite des_packed_bytes by (try split; lia). reflexivity.
  - destruct (pack_spec s m e V) as (M & d & Hd & HM & HD & E).
    unfold ser_packed. rewrite E. cbn [obind].
    eexists. split; [reflexivity|]. split.
    + rewrite app_length, !le_bytes_length. auto.
    + intros rest. rewrite <- app_assoc. rewrite des_packed_bytes.
      * apply unpack_spec; auto.
      * pose proof (valid_exp s m e V).
        assert (d <= 53).
        { pose proof (dg_mul2 m M d Hd HM). pose proof (dg_pos m). lia. }
        split; lia.
      * pose proof (dg53_bounds M HD). cbv zeta. destruct s; lia.
Qed.
