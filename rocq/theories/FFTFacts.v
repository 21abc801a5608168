(** The FFT model computes the discrete Fourier transform. *)
From Verif Require Import Base BaseFacts CRing FFTModel.
From Coq Require Import NArith.

(** Cells [o + k s], [k < N]. *)
Definition cell (o s k : nat) : nat := o + k * s.

Lemma cell_inj o s k l : 0 < s -> cell o s k = cell o s l -> k = l.
Proof. unfold cell. intros Hs E. assert (k * s = l * s) by lia. apply Nat.mul_cancel_r in H; lia. Qed.

(** [X'] is [X] with cell [k] set to [T k] for [k < N]. *)
Definition cells {A} (o s N : nat) (T : nat -> A) (X X' : list A) : Prop :=
  length X' = length X /\
  (forall k, k < N -> nth_error X' (cell o s k) = Some (T k)) /\
  (forall i, (forall k, k < N -> i <> cell o s k) -> nth_error X' i = nth_error X i).

Lemma pow2_ind (P : nat -> Prop) : P 1 -> (forall n, P (2 ^ n) -> P (2 * 2 ^ n)) -> forall n, P (2 ^ n).
Proof. intros H1 HS. induction n as [|n IH]; [exact H1|]. rewrite Nat.pow_succ_r'. auto. Qed.

Lemma half2 m : (2 * m) / 2 = m.
Proof. rewrite Nat.mul_comm. apply Nat.div_mul. lia. Qed.

Section Facts.
  Variable K : cxops.
  Open Scope cr_scope.
  Add Ring Rr23 : (rth K).

  Hypothesis W0 : forall N, cxW N 0 = (r1 : K).
  Hypothesis Wadd : forall N a b, cxW N (a + b) = (cxW N a *! cxW N b : K).
  Hypothesis Whalf : forall N k, 0 < N -> cxW (2 * N) (2 * k) = (cxW N k : K).
  Hypothesis Wneg : forall N, 0 < N -> cxW (2 * N) N = (ropp r1 : K).

  (** The discrete Fourier transform. *)
  Definition dft (N : nat) (x : nat -> K) (k : nat) : K := sum N (fun j => cxW N (j * k) *! x j).

  Lemma dft_ext N x y k : (forall j, j < N -> x j = y j) -> dft N x k = dft N y k.
  Proof. intros H. apply sum_ext. intros j Hj. now rewrite H. Qed.

  Lemma sum_even_odd M (f : nat -> K) : sum (2 * M) f = sum M (fun j => f (2 * j)) +! sum M (fun j => f (2 * j + 1)).
  Proof.
    induction M as [|M IH]; [cbn; ring|]. replace (2 * S M) with (S (S (2 * M))) by lia. cbn [sum].
    rewrite IH. replace (2 * M + 1) with (S (2 * M)) by lia. ring.
  Qed.

  Lemma WNN N : 0 < N -> cxW N N = (r1 : K).
  Proof.
    intros HN. rewrite <- (Whalf N N HN). replace (2 * N) with (N + N) at 2 by lia. rewrite Wadd, Wneg by auto. ring.
  Qed.
  Lemma WmulN N a : 0 < N -> cxW N (a * N) = (r1 : K).
  Proof.
    intros HN. induction a as [|a IH]; [apply W0|]. replace (S a * N) with (N + a * N) by lia. rewrite Wadd, IH, WNN by auto. ring.
  Qed.

  Lemma dft_split M x k : 0 < M ->
    dft (2 * M) x k = dft M (fun j => x (2 * j)) k +! cxW (2 * M) k *! dft M (fun j => x (2 * j + 1)) k.
  Proof.
    intros HM. unfold dft. rewrite sum_even_odd, <- sum_scal_l. f_equal; apply sum_ext; intros j Hj.
    - replace (2 * j * k) with (2 * (j * k)) by lia. now rewrite Whalf.
    - replace ((2 * j + 1) * k) with (2 * (j * k) + k) by lia. rewrite Wadd, Whalf by auto. ring.
  Qed.

  Lemma dft_period M x k : 0 < M -> dft M x (k + M) = dft M x k.
  Proof.
    intros HM. unfold dft. apply sum_ext. intros j Hj. rewrite Nat.mul_add_distr_l, Wadd, WmulN by auto. ring.
  Qed.

  (** The two halves of the transform from those of half the length. *)
  Lemma butterfly_lo M x k : 0 < M ->
    dft M (fun j => x (2 * j)) k +! cxW (2 * M) k *! dft M (fun j => x (2 * j + 1)) k = dft (2 * M) x k.
  Proof. intros HM. now rewrite dft_split. Qed.
  Lemma butterfly_hi M x k : 0 < M ->
    dft M (fun j => x (2 * j)) k -! cxW (2 * M) k *! dft M (fun j => x (2 * j + 1)) k = dft (2 * M) x (k + M).
  Proof. intros HM. rewrite dft_split, !dft_period, Wadd, Wneg by auto. ring. Qed.

  (** fft_slow, every length. *)
  Lemma fft_slow_ok N (x : list K) ox sx (X : list K) oX sX (xv : nat -> K) :
    0 < sX -> (forall j, j < N -> nth_error x (cell ox sx j) = Some (xv j)) ->
    (forall k, k < N -> cell oX sX k < length X) ->
    exists X', fft_slow N x ox sx X oX sX = Ok X' /\ cells oX sX N (dft N xv) X X'.
  Proof.
    intros HsX Hx HX. unfold fft_slow.
    match goal with |- context [for_ N ?b00 X] =>
      destruct (for_inv (fun m Y => cells oX sX m (dft N xv) X Y) b00 N X) as (X' & E & H) end.
    - split; auto. split; auto. intros k Hk. lia.
    - intros i Y Hi (L & H & F). unfold cell in *.
      rewrite aset_ok by (rewrite L; auto). cbn [obind].
      set (Y0 := upd Y (oX + i * sX) r0).
      assert (LY : length Y0 = length X) by (unfold Y0; rewrite upd_length; auto).
      match goal with |- context [for_ N ?b00 Y0] =>
        destruct (for_inv (fun m Z => length Z = length X /\
           nth_error Z (oX + i * sX) = Some (sum m (fun j => cxW N (j * i) *! xv j)) /\
           (forall l, l <> oX + i * sX -> nth_error Z l = nth_error Y l)) b00 N Y0) as (Z & EZ & LZ & VZ & FZ) end.
      + split; auto. split.
        * unfold Y0. rewrite nth_error_upd_same by (rewrite L; auto). reflexivity.
        * intros l Hl. unfold Y0. apply nth_error_upd_other. auto.
      + intros j Z Hj (LZ & VZ & FZ). rewrite (aget_ok _ _ _ VZ). cbn [obind].
        rewrite (aget_ok _ _ _ (Hx j Hj)). cbn [obind]. rewrite aset_ok by (rewrite LZ; auto).
        eexists. split; [reflexivity|]. rewrite upd_length. split; auto. split.
        * rewrite nth_error_upd_same by (rewrite LZ; auto). cbn [sum]. now rewrite (Nat.mul_comm j i).
        * intros l Hl. rewrite nth_error_upd_other by auto. auto.
      + exists Z. split; auto. split; [auto|]. split.
        * intros k Hk. destruct (Nat.eq_dec k i) as [->|N0]; [exact VZ|]. rewrite FZ.
          -- apply H. lia.
          -- intros E. apply N0. apply (cell_inj oX sX k i); auto.
        * intros l Hl. rewrite FZ by (apply Hl; lia). apply F. intros k Hk. apply Hl. lia.
    - exists X'. split; auto.
  Qed.

  (** fft_base, powers of two, every stride. *)
  Lemma fft_base_ok n : forall fuel (x : list K) ox sx (X : list K) oX sX (xv : nat -> K),
    n <= fuel -> 0 < sX -> (forall j, j < 2 ^ n -> nth_error x (cell ox sx j) = Some (xv j)) ->
    (forall k, k < 2 ^ n -> cell oX sX k < length X) ->
    exists X', fft_base fuel (2 ^ n) x ox sx X oX sX = Ok X' /\ cells oX sX (2 ^ n) (dft (2 ^ n) xv) X X'.
  Proof.
    induction n as [|n IH]; intros fuel x ox sx X oX sX xv Hf HsX Hx HX.
    { destruct fuel; cbn [Nat.pow fft_base Nat.leb]; apply fft_slow_ok; auto. }
    set (M := 2 ^ n) in *. assert (HM : 0 < M) by (unfold M; pose proof (Nat.pow_nonzero 2 n); lia).
    replace (2 ^ S n) with (2 * M) in * by (unfold M; cbn [Nat.pow]; lia).
    destruct fuel as [|fuel]; [lia|].
    destruct (Nat.eq_dec M 1) as [E1|NM].
    { rewrite E1 in *. cbn [Nat.mul Nat.add fft_base Nat.leb]. apply fft_slow_ok; auto. }
    assert (E2 : (2 * M <=? 2) = false) by (apply Nat.leb_gt; lia).
    cbn [fft_base]. rewrite E2, half2.
    destruct (IH fuel x ox (2 * sx) X oX (2 * sX) (fun j => xv (2 * j))) as (X1 & EX1 & L1 & V1 & F1); try lia.
    { intros j Hj. rewrite <- (Hx (2 * j)) by lia. f_equal. unfold cell. lia. }
    { intros k Hk. replace (cell oX (2 * sX) k) with (cell oX sX (2 * k)) by (unfold cell; lia). apply HX. lia. }
    rewrite EX1. cbn [obind].
    destruct (IH fuel x (ox + sx) (2 * sx) X1 (oX + sX) (2 * sX) (fun j => xv (2 * j + 1))) as (X2 & EX2 & L2 & V2 & F2); try lia.
    { intros j Hj. rewrite <- (Hx (2 * j + 1)) by lia. f_equal. unfold cell. lia. }
    { intros k Hk. rewrite L1. replace (cell (oX + sX) (2 * sX) k) with (cell oX sX (2 * k + 1)) by (unfold cell; lia). apply HX. lia. }
    rewrite EX2. cbn [obind].
    assert (Ve : forall k, k < M -> nth_error X2 (oX + k * 2 * sX) = Some (dft M (fun j => xv (2 * j)) k)).
    { intros k Hk. rewrite F2.
      - rewrite <- (V1 k Hk). f_equal. unfold cell. lia.
      - intros l Hl E. assert (2 * k = 2 * l + 1); [|lia]. apply (cell_inj 0 sX); auto. unfold cell in *. lia. }
    assert (Vo : forall k, k < M -> nth_error X2 (oX + (k * 2 * sX + sX)) = Some (dft M (fun j => xv (2 * j + 1)) k)).
    { intros k Hk. rewrite <- (V2 k Hk). f_equal. unfold cell. lia. }
    match goal with |- context [for_ M ?b00 (repeat r0 M, repeat r0 M)] =>
      destruct (for_inv (fun m eo => length (fst eo) = M /\ length (snd eo) = M /\
        (forall k, k < m -> nth_error (fst eo) k = Some (dft M (fun j => xv (2 * j)) k)) /\
        (forall k, k < m -> nth_error (snd eo) k = Some (dft M (fun j => xv (2 * j + 1)) k))) b00 M (repeat r0 M, repeat r0 M))
        as ([e o] & Eeo & Le & Lo & He & Ho) end.
    { cbn. rewrite repeat_length. repeat split; intros; lia. }
    { intros i [e o] Hi (Le & Lo & He & Ho). cbn [fst snd] in *.
      rewrite (aget_ok _ _ _ (Ve i Hi)). cbn [obind]. rewrite aset_ok by lia. cbn [obind].
      rewrite (aget_ok _ _ _ (Vo i Hi)). cbn [obind]. rewrite aset_ok by lia. cbn [obind].
      eexists. split; [reflexivity|]. cbn [fst snd]. rewrite !upd_length. repeat split; auto; intros k Hk.
      - destruct (Nat.eq_dec i k) as [<-|]; [apply nth_error_upd_same; lia|]. rewrite nth_error_upd_other by auto. apply He. lia.
      - destruct (Nat.eq_dec i k) as [<-|]; [apply nth_error_upd_same; lia|]. rewrite nth_error_upd_other by auto. apply Ho. lia. }
    rewrite Eeo. cbn [obind fst snd] in *.
    match goal with |- context [for_ M ?b00 X2] =>
      destruct (for_inv (fun m Y => length Y = length X /\
        (forall k, k < m -> nth_error Y (cell oX sX k) = Some (dft (2 * M) xv k) /\
                            nth_error Y (cell oX sX (k + M)) = Some (dft (2 * M) xv (k + M))) /\
        (forall i, (forall k, k < 2 * M -> i <> cell oX sX k) -> nth_error Y i = nth_error X i)) b00 M X2)
        as (Y & EY & LY & VY & FY) end.
    { split; [lia|]. split; [intros; lia|]. intros i Hi. rewrite F2, F1; auto.
      - intros k Hk. replace (cell oX (2 * sX) k) with (cell oX sX (2 * k)) by (unfold cell; lia). apply Hi. lia.
      - intros k Hk. replace (cell (oX + sX) (2 * sX) k) with (cell oX sX (2 * k + 1)) by (unfold cell; lia). apply Hi. lia. }
    { intros i Y Hi (LY & VY & FY).
      rewrite (aget_ok _ _ _ (He i Hi)). cbn [obind]. rewrite (aget_ok _ _ _ (Ho i Hi)). cbn [obind].
      rewrite butterfly_lo, butterfly_hi by auto.
      replace (oX + i * sX) with (cell oX sX i) by reflexivity.
      replace (oX + (i * sX + M * sX)) with (cell oX sX (i + M)) by (unfold cell; lia).
      rewrite aset_ok by (rewrite LY; apply HX; lia). cbn [obind].
      rewrite aset_ok by (rewrite upd_length, LY; apply HX; lia).
      eexists. split; [reflexivity|]. rewrite !upd_length. split; auto.
      assert (D : forall a b, a < 2 * M -> b < 2 * M -> a <> b -> cell oX sX a <> cell oX sX b).
      { intros a b _ _ Hab E. apply Hab. apply (cell_inj oX sX a b); auto. }
      split.
      - intros k Hk. destruct (Nat.eq_dec k i) as [->|Nk].
        + split; [rewrite nth_error_upd_other by (apply D; lia); apply nth_error_upd_same; rewrite LY; apply HX; lia
                 |apply nth_error_upd_same; rewrite upd_length, LY; apply HX; lia].
        + rewrite !nth_error_upd_other by (apply D; lia). apply VY. lia.
      - intros l Hl. rewrite !nth_error_upd_other by (apply not_eq_sym, Hl; lia). auto. }
    exists Y. split; auto. split; [auto|]. split; auto.
    intros k Hk. destruct (Nat.lt_ge_cases k M) as [H|H]; [now apply VY|].
    replace k with (k - M + M) by lia. apply VY. lia.
  Qed.

  (** Orthogonality of the powers of the root. *)
  Lemma W_sum n m : 0 < m < 2 ^ n -> sum (2 ^ n) (fun j => cxW (2 ^ n) (j * m)) = (r0 : K).
  Proof.
    revert m. induction n as [|n IH]; intros m Hm; [cbn in Hm; lia|].
    rewrite Nat.pow_succ_r' in *. set (M := 2 ^ n) in *.
    assert (HM : 0 < M) by (unfold M; pose proof (Nat.pow_nonzero 2 n); lia).
    destruct (Nat.Even_or_Odd m) as [[h ->]|[h ->]].
    - replace (2 * M) with (M + M) at 1 by lia. rewrite sum_app.
      assert (A : sum M (fun j => cxW (2 * M) (j * (2 * h))) = (r0 : K)).
      { rewrite <- (IH h) by lia. apply sum_ext. intros j Hj. replace (j * (2 * h)) with (2 * (j * h)) by lia. now rewrite Whalf. }
      rewrite A. rewrite (sum_ext _ _ _ (fun j => cxW (2 * M) (j * (2 * h)))).
      + rewrite A. ring.
      + intros j Hj. replace ((M + j) * (2 * h)) with (h * (2 * M) + j * (2 * h)) by lia. rewrite Wadd, WmulN by lia. ring.
    - replace (2 * M) with (M + M) at 1 by lia. rewrite sum_app.
      rewrite (sum_ext _ _ (fun i => cxW (2 * M) ((M + i) * (2 * h + 1))) (fun j => ropp r1 *! cxW (2 * M) (j * (2 * h + 1)))).
      + rewrite sum_scal_l. ring.
      + intros j Hj. replace ((M + j) * (2 * h + 1)) with (h * (2 * M) + (M + j * (2 * h + 1))) by lia.
        rewrite !Wadd, WmulN, Wneg by lia. ring.
  Qed.
End Facts.
