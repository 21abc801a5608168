(** C22: packed doubles. *)
From Verif Require Import Base BaseFacts SerModel SerFacts PackModel PackFacts.
From Coq Require Import NArith ZArith.
Local Open Scope Z_scope.

(** Equality of doubles up to the sign of zero. *)
Definition same_dbl (x y : dbl) : Prop :=
  x = y \/ exists s t, x = S754_zero s /\ y = S754_zero t.

(** Every finite double is written in 12 bytes, without undefined behaviour, and
    read back from them whatever follows in memory; only the sign of a negative
    zero is lost. *)
Theorem C22_roundtrip : forall x, dvalid x -> dfinite x = true ->
  exists b y, ser_packed x = Ok b /\ length b = 12%nat /\ same_dbl x y /\
    (x <> S754_zero true -> y = x) /\
    forall rest, des_packed (b ++ rest) = Ok y.
Proof.
  intros x V F. destruct (packed_roundtrip x V F) as (b & E & L & D).
  exists b, (poszero x). split; [auto|]. split; [auto|]. split.
  - destruct x; cbn; auto; try (left; reflexivity). right. exists s, false. auto.
  - split; [|auto]. intros H. destruct x; auto. destruct s; auto. contradiction.
Qed.

(** The sign of a negative zero is lost. *)
Theorem C22_negative_zero : exists b,
  ser_packed (S754_zero true) = Ok b /\ des_packed b = Ok (S754_zero false).
Proof.
  destruct (packed_roundtrip (S754_zero true)) as (b & E & _ & D); try reflexivity.
  exists b. split; auto. rewrite <- (app_nil_r b). apply D.
Qed.

(** Infinities and NaNs are outside the claim: the conversion to an integer is
    undefined. *)
Theorem C22_not_finite : forall x, dfinite x = false -> ser_packed x = UB.
Proof. intros x H. destruct x as [s|s| |s m e]; try discriminate; destruct s || idtac; reflexivity. Qed.

(** Different doubles have different packed forms. *)
Theorem C22_injective : forall x y b, dvalid x -> dvalid y ->
  ser_packed x = Ok b -> ser_packed y = Ok b -> same_dbl x y.
Proof.
  intros x y b Vx Vy Ex Ey.
  destruct (dfinite x) eqn:Fx; [|rewrite (C22_not_finite x Fx) in Ex; discriminate].
  destruct (dfinite y) eqn:Fy; [|rewrite (C22_not_finite y Fy) in Ey; discriminate].
  destruct (packed_roundtrip x Vx Fx) as (bx & E1 & _ & Dx).
  destruct (packed_roundtrip y Vy Fy) as (by_ & E2 & _ & Dy).
  rewrite Ex in E1. rewrite Ey in E2. injection E1 as <-. injection E2 as <-.
  specialize (Dx []). rewrite (Dy []) in Dx. injection Dx as Dx.
  destruct x as [s| | |s m e], y as [t| | |t n f]; try discriminate; cbn in Dx; try discriminate.
  - right. eauto.
  - left. auto.
Qed.

Local Open Scope nat_scope.

Lemma wr_keeps : forall buf p v b q r e, wr buf p v = Ok (b, q) -> at_ buf r e ->
  r + length e <= p -> at_ b r e.
Proof.
  unfold wr. intros buf p v b q r e H (pre & post & -> & <-) L.
  destruct (_ <=? _) eqn:E; [|discriminate]. inversion H; subst; clear H.
  exists pre, (firstn (p - length pre - length e) post ++ v ++
               skipn (p + length v) (pre ++ e ++ post)). split; auto.
  rewrite !firstn_app, (firstn_all2 pre), (firstn_all2 e) by lia.
  rewrite <- !app_assoc. auto.
Qed.

(** serialize_double_arr_packed never writes outside its block, whose i-th group
    of 12 bytes decodes to the i-th entry. *)
Theorem C22_array : forall junk x, Forall (fun v => dvalid v /\ dfinite v = true) x ->
  exists m, ser_arr_packed junk (length x) x = Ok m /\ length m = length x * 20 /\
    forall i v, nth_error x i = Some v ->
      exists y, des_packed (skipn (12 * i) m) = Ok y /\ same_dbl v y.
Proof.
  intros junk x V. unfold ser_arr_packed. set (n := length x).
  destruct (for_inv (fun _ m => length m = n * 20)
              (fun i m => aset m i 0%N) (n * 10) (tab (n * 20) junk)) as (m0 & E0 & L0).
  { apply tab_length. }
  { intros i m Hi L. exists (upd m i 0%N). rewrite aset_ok by lia. rewrite upd_length. auto. }
  rewrite E0. cbn [obind].
  destruct (for_inv (fun i '(m, on) => length m = n * 20 /\ on = 12 * i /\
              forall j v, j < i -> nth_error x j = Some v ->
                exists b, ser_packed v = Ok b /\ length b = 12 /\ at_ m (12 * j) b)
              (fun i '(m, on) =>
                 do xi <- aget x i; do t <- ser_packed xi;
                 do (m', q) <- wr m on (firstn (szI + sz8) t); Ok (m', q)) n (m0, 0))
    as ([m on] & E & Lm & Eon & H).
  { split; [auto|]. split; [lia|]. intros; lia. }
  { intros i [m on] Hi (Lm & -> & H).
    destruct (aget_lt x i Hi) as (v & Ev & Gv). rewrite Gv. cbn [obind].
    assert (Vv : dvalid v /\ dfinite v = true)
      by (rewrite Forall_forall in V; apply V; eapply nth_error_In; eauto).
    destruct (packed_roundtrip v (proj1 Vv) (proj2 Vv)) as (b & Eb & Lb & _).
    rewrite Eb. cbn [obind].
    replace (firstn (szI + sz8) b) with b by (symmetry; apply firstn_all2; rewrite Lb; apply Nat.le_refl).
    destruct (wr m (12 * i) b) as [[m' q]| | |] eqn:W;
      try (unfold wr in W; destruct (Nat.leb_spec (12 * i + length b) (length m)) in W;
           [discriminate | lia]).
    cbn [obind]. exists (m', q). split; auto.
    destruct (wr_length _ _ _ _ _ W) as (L1 & L2 & _).
    split; [lia|]. split; [lia|].
    intros j w Hj Ew. destruct (Nat.eq_dec j i) as [->|N].
    - rewrite Ev in Ew. injection Ew as <-. exists b. split; [auto|]. split; [auto|].
      eapply wr_at; eauto.
    - destruct (H j w ltac:(lia) Ew) as (bj & Ej & Lj & Aj). exists bj.
      split; [auto|]. split; [auto|]. eapply wr_keeps; eauto. lia. }
  rewrite E. cbn [obind]. exists m. split; [auto|]. split; [auto|].
  intros i v Ev. assert (Hi : i < n) by (apply nth_error_Some; rewrite Ev; discriminate).
  destruct (H i v Hi Ev) as (b & Eb & Lb & (pre & post & -> & Lp)).
  assert (Vv : dvalid v /\ dfinite v = true)
    by (rewrite Forall_forall in V; apply V; eapply nth_error_In; eauto).
  destruct (C22_roundtrip v (proj1 Vv) (proj2 Vv)) as (b' & y & Eb' & _ & S & _ & D).
  rewrite Eb in Eb'. injection Eb' as <-. exists y. split; auto.
  rewrite <- Lp, skipn_app, skipn_all, Nat.sub_diag. cbn [app skipn]. apply D.
Qed.

(** ** The hypotheses are met: -0.1, the smallest subnormal, the largest double. *)
Definition x_01 : dbl := S754_finite true 7205759403792794 (-56).
Definition x_min : dbl := S754_finite false 1 (-1074).
Definition x_max : dbl := S754_finite false 9007199254740991 971.

Example C22_ex : Forall (fun v => dvalid v /\ dfinite v = true) [x_01; x_min; x_max].
Proof. repeat constructor. Qed.

Example C22_ex_pack : map pack [x_01; x_min; x_max] =
  [Ok (-3, -5534023222112866305)%Z; Ok (-1073, 1)%Z; Ok (1024, 9223372036854773761)%Z].
Proof. vm_compute. reflexivity. Qed.

Example C22_ex_bytes : exists b, ser_packed x_01 = Ok b /\
  b = [253; 255; 255; 255; 255; 47; 51; 51; 51; 51; 51; 179]%N /\ des_packed b = Ok x_01.
Proof.
  eexists. split; [vm_compute; reflexivity|]. split; vm_compute; reflexivity.
Qed.

Print Assumptions C22_roundtrip.
Print Assumptions C22_negative_zero.
Print Assumptions C22_not_finite.
Print Assumptions C22_injective.
Print Assumptions C22_array.
