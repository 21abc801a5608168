(** cheb_vals_to_coeff interpolates. *)
From Verif Require Import Base BaseFacts CRing RealInst FFTModel FFTFacts FFTMore.
From Coq Require Import Reals Lra.
Local Open Scope R_scope.

(** Chebyshev polynomials by their recurrence. *)
Fixpoint chebT (k : nat) (x : R) : R :=
  match k with
  | O => 1
  | S O => x
  | S (S j as k') => 2 * x * chebT k' x - chebT j x
  end.

Lemma chebT_cos k t : chebT k (cos t) = cos (INR k * t).
Proof.
  enough (H : chebT k (cos t) = cos (INR k * t) /\ chebT (S k) (cos t) = cos (INR (S k) * t)) by apply H.
  induction k as [|k [IH1 IH2]].
  - cbn [chebT INR]. rewrite Rmult_0_l, Rmult_1_l, cos_0. auto.
  - split; auto. change (chebT (S (S k)) (cos t)) with (2 * cos t * chebT (S k) (cos t) - chebT k (cos t)).
    rewrite IH1, IH2. replace (INR (S (S k)) * t) with (INR (S k) * t + t) by (rewrite (S_INR (S k)); ring).
    replace (INR k * t) with (INR (S k) * t - t) by (rewrite (S_INR k); ring).
    rewrite cos_plus, cos_minus. ring.
Qed.

Notation rsum := (@sum Rring).

Lemma fst_sum n (f : nat -> Cops) : fst (sum n f : R * R) = rsum n (fun i => fst (f i : R * R)).
Proof. induction n as [|n IH]; [reflexivity|]. cbn [sum]. rewrite <- IH. reflexivity. Qed.
Lemma snd_sum n (f : nat -> Cops) : snd (sum n f : R * R) = rsum n (fun i => snd (f i : R * R)).
Proof. induction n as [|n IH]; [reflexivity|]. cbn [sum]. rewrite <- IH. reflexivity. Qed.

Lemma rsum_ext n (f g : nat -> R) : (forall i, (i < n)%nat -> (f i = g i :> R)) -> (rsum n f = rsum n g :> R).
Proof. exact (sum_ext Rring n f g). Qed.

Lemma rsum_scal n (c : R) (f : nat -> R) : (rsum n (fun i => c * f i) = c * rsum n f :> R).
Proof. exact (sum_scal_l Rring n c f). Qed.

(** Reflection of the index. *)
Lemma sum_refl M (g : nat -> R) : rsum M g = rsum M (fun j => g (if j =? 0 then 0 else M - j)%nat) :> R.
Proof.
  destruct M as [|M]; [reflexivity|]. rewrite !sum_S_l. f_equal.
  rewrite (sum_rev Rring M (fun i => g (S i))). apply rsum_ext. intros i Hi. cbn [Nat.eqb]. f_equal. lia.
Qed.

Lemma sum_sym N (h : nat -> R) : (0 < N)%nat -> (forall k, (0 < k < N)%nat -> h (2 * N - k)%nat = h k) ->
  rsum (2 * N) h = 2 * rsum (S N) (fun k => if orb (k =? 0) (k =? N) then h k / 2 else h k) :> R.
Proof.
  intros HN H. destruct N as [|m]; [lia|].
  replace (2 * S m)%nat with (1 + (m + (1 + m)))%nat by lia. replace (S (S m)) with (1 + (m + 1))%nat by lia.
  rewrite !(sum_app Rring), !(sum_1 Rring).
  rewrite (sum_ext Rring m (fun i => if orb (1 + i =? 0)%nat (1 + i =? S m)%nat then h (1 + i)%nat / 2 else h (1 + i)%nat) (fun i => h (1 + i)%nat)).
  2:{ intros i Hi. cbn [Nat.eqb orb Nat.add]. destruct (Nat.eqb_spec i m); [lia|reflexivity]. }
  rewrite (sum_ext Rring m (fun i => h (1 + (m + (1 + i)))%nat) (fun i => h (1 + (m - 1 - i))%nat)).
  2:{ intros i Hi. rewrite <- (H (1 + (m - 1 - i))%nat) by lia. f_equal. lia. }
  rewrite <- (sum_rev Rring m (fun i => h (1 + i)%nat)).
  replace (1 + (m + 0))%nat with (S m) by lia. rewrite (Nat.eqb_refl (S m)). cbn [Nat.eqb orb]. cbn. field.
Qed.

Lemma ang_mul M k j : ang M (k * j) = INR k * ang M j.
Proof. unfold ang. rewrite mult_INR. unfold Rdiv. ring. Qed.

Section InvUnique.
  Variable K : CRing.
  Add Ring Rr25 : (rth K).
  Lemma inv_unique (u v w : K) : rmul u v = r1 -> rmul w v = r1 -> u = w.
  Proof.
    intros A B. transitivity (rmul u (rmul w v)); [rewrite B; ring|]. transitivity (rmul (rmul u v) w); [ring|]. rewrite A. ring.
  Qed.
End InvUnique.

Lemma W_refl M a b c : (0 < M)%nat -> (a + b = c * M)%nat -> cos (ang M a) = cos (ang M b) /\ sin (ang M a) = - sin (ang M b).
Proof.
  intros HM E.
  assert (H : (cxW M a : Cops) = cxV M b).
  { assert (H : rmul (cxW M a) (cxW M b) = (r1 : Cops)).
    { rewrite <- CWadd, E. apply (WmulN Cops CW0 CWadd CWhalf CWneg); auto. }
    apply (inv_unique Cops _ _ _ H). apply CVW. }
  inversion H. split; auto. lra.
Qed.

(** The even extension. *)
Definition ext (Nin : nat) (v : nat -> R) (j : nat) : R := v (if (j <=? Nin)%nat then j else 2 * Nin - j)%nat.

Section Cheb.
  Variables (n : nat) (v : nat -> R).
  Let Nin := (2 ^ n)%nat.
  Let M := (2 * Nin)%nat.
  Let e : nat -> Cops := fun j => (ext Nin v j, 0).
  Let X := dft Cops M e.

  Lemma Nin_pos : (0 < Nin)%nat.
  Proof. unfold Nin. pose proof (Nat.pow_nonzero 2 n). lia. Qed.
  Lemma M_pow : M = (2 ^ S n)%nat.
  Proof. unfold M, Nin. now rewrite Nat.pow_succ_r'. Qed.

  Lemma ext_refl j : (0 < j < M)%nat -> ext Nin v (M - j) = ext Nin v j.
  Proof.
    intros Hj. unfold ext, M in *. destruct (Nat.leb_spec j Nin), (Nat.leb_spec (2 * Nin - j) Nin); f_equal; lia.
  Qed.

  Lemma reX k : fst (X k : R * R) = rsum M (fun j => cos (ang M (j * k)) * ext Nin v j).
  Proof. unfold X, dft. rewrite fst_sum. apply rsum_ext. intros j _. unfold e. cbn. ring. Qed.
  Lemma imX k : snd (X k : R * R) = 0.
  Proof.
    unfold X, dft. rewrite snd_sum.
    set (g := fun i => snd (rmul (cxW M (i * k) : Cops) (e i) : R * R)).
    assert (Z : forall r : R, r = - r -> r = 0) by (intros; lra). apply Z. change (rsum M g = - rsum M g :> R).
    assert (Gj : forall j, g j = - sin (ang M (j * k)) * ext Nin v j).
    { intros j. change (g j) with (cos (ang M (j * k)) * 0 + - sin (ang M (j * k)) * ext Nin v j). ring. }
    rewrite (sum_refl M g) at 2.
    transitivity (rsum M (fun j => -1 * g (if j =? 0 then 0 else M - j)%nat)).
    - apply rsum_ext. intros j Hj. destruct (Nat.eqb_spec j 0) as [->|Nj].
      + rewrite Gj. replace (ang M (0 * k)) with 0 by (unfold ang; cbn [INR Nat.mul]; unfold Rdiv; ring). rewrite sin_0. ring.
      + rewrite !Gj. destruct (W_refl M (j * k) ((M - j) * k) k) as [_ Es]; [lia|nia|].
        rewrite ext_refl by lia. rewrite Es. ring.
    - rewrite rsum_scal. ring.
  Qed.

  (** Inverse transform, real part. *)
  Lemma cheb_inv j : (j <= Nin)%nat ->
    rsum M (fun k => cos (ang M (k * j)) * fst (X k : R * R)) = INR M * v j :> R.
  Proof.
    intros Hj. pose proof Nin_pos.
    assert (E : ext Nin v j = v j) by (unfold ext; destruct (Nat.leb_spec j Nin); [auto|lia]).
    pose proof (idft_dft Cops CW0 CWadd CWhalf CWneg Cconj0 Cconj_add Cconj_mul Cconj_W CVW (S n) e j) as H1.
    rewrite <- M_pow in H1. specialize (H1 ltac:(unfold M; lia)). apply (f_equal (fun c : Cops => fst (c : R * R))) in H1.
    rewrite Csum_const in H1. assert (H2 : fst (idft Cops M (dft Cops M e) j : R * R) = INR M * v j).
    { rewrite <- E. exact H1. }
    rewrite <- H2. unfold idft. rewrite fst_sum. apply rsum_ext.
    intros k Hk. fold X.
    change (cos (ang M (k * j)) * fst (X k : R * R) = cos (ang M (k * j)) * fst (X k : R * R) - sin (ang M (k * j)) * snd (X k : R * R)).
    rewrite imX. ring.
  Qed.

  Lemma X_refl k : (0 < k < Nin)%nat -> fst (X (2 * Nin - k)%nat : R * R) = fst (X k : R * R).
  Proof.
    intros Hk. rewrite !reX. apply rsum_ext. intros j Hj. f_equal.
    apply (W_refl M _ _ j); [lia|]. unfold M in *. nia.
  Qed.

  (** The coefficients, highest degree first. *)
  Definition chebc (i : nat) : R :=
    let y := fst (X (Nin - i)%nat : R * R) / INR Nin in if orb (i =? 0) (i =? Nin) then y / 2 else y.

  Lemma cheb_interp j : (j <= Nin)%nat ->
    rsum (S Nin) (fun i => chebc i * chebT (Nin - i) (cos (PI * INR j / INR Nin))) = v j :> R.
  Proof.
    intros Hj. pose proof Nin_pos as HN. assert (HR : INR Nin <> 0) by (apply not_0_INR; lia).
    assert (Ea : PI * INR j / INR Nin = ang M j).
    { unfold ang, M. rewrite mult_INR. cbn [INR]. field. auto. }
    rewrite Ea, (sum_rev Rring).
    set (h := fun k => cos (ang M (k * j)) * fst (X k : R * R)).
    transitivity (rsum (S Nin) (fun k => / INR Nin * (if orb (k =? 0) (k =? Nin) then h k / 2 else h k))).
    - apply rsum_ext. intros k Hk. replace (S Nin - 1 - k)%nat with (Nin - k)%nat by lia.
      replace (Nin - (Nin - k))%nat with k by lia. rewrite chebT_cos, <- ang_mul. unfold chebc.
      replace (Nin - (Nin - k))%nat with k by lia.
      assert (B : (orb (Nin - k =? 0) (Nin - k =? Nin) = orb (k =? 0) (k =? Nin))%nat).
      { destruct (Nat.eqb_spec k 0), (Nat.eqb_spec k Nin), (Nat.eqb_spec (Nin - k) 0), (Nat.eqb_spec (Nin - k) Nin); cbn; auto; lia. }
      rewrite B. unfold h. destruct (orb (k =? 0) (k =? Nin))%nat; unfold Rdiv; ring.
    - rewrite rsum_scal.
      pose proof (cheb_inv j Hj) as H1. fold h in H1. unfold M in H1 at 1. rewrite sum_sym in H1; auto.
      + unfold M in H1. rewrite mult_INR in H1. cbn [INR] in H1. cbn [rmul Rring].
        apply Rmult_eq_reg_l with (2 * INR Nin); [|lra]. 
        match goal with |- _ * (_ * ?s00) = _ => set (s := s00) in * end.
        assert (H2 : 2 * s = (1 + 1) * INR Nin * v j) by exact H1.
        transitivity (2 * s); [field; auto|]. rewrite H2. ring.
      + intros k Hk. unfold h. rewrite X_refl by auto. f_equal. apply (W_refl M _ _ j); unfold M; [lia|nia].
  Qed.
End Cheb.

(** The routine. *)
Lemma cheb_ok n (vals coeff : list R) (v : nat -> R) :
  (N.of_nat (2 ^ n) < 2 ^ 64)%N ->
  (forall j, (j <= 2 ^ n)%nat -> nth_error vals j = Some (v j)) -> (2 ^ n < length coeff)%nat ->
  exists c, cheb_vals_to_coeff (K := Cops) (2 ^ n + 1) vals coeff = Ok (0%nat, c) /\
    length c = length coeff /\
    (forall i, (i <= 2 ^ n)%nat -> nth_error c i = Some (chebc n v i)) /\
    (forall i, (2 ^ n < i)%nat -> nth_error c i = nth_error coeff i).
Proof.
  intros H64 Hv Hc. pose proof (Nin_pos n) as HN. unfold cheb_vals_to_coeff. change (cre Cops) with R.
  replace (2 ^ n + 1 - 1)%nat with (2 ^ n)%nat by lia. set (Nin := (2 ^ n)%nat) in *.
  rewrite (proj2 (isPowerOfTwo_spec Nin H64) ltac:(exists n; auto)). cbn [negb].
  set (M := (2 * Nin)%nat). set (e := fun j => (ext Nin v j, 0) : Cops).
  assert (Ee : forall j, (j <= Nin)%nat -> e j = (v j, 0)).
  { intros j Hj. unfold e, ext. destruct (Nat.leb_spec j Nin); [auto|lia]. }
  assert (Ee' : forall j, (0 < j < Nin)%nat -> e (M - j)%nat = (v j, 0)).
  { intros j Hj. unfold e. pose proof (ext_refl n v j) as R0. fold Nin in R0. fold M in R0. rewrite R0 by (unfold M; lia).
    apply Ee. lia. }
  rewrite (aget_ok vals 0 (v 0%nat)) by (apply Hv; lia). cbn [obind].
  rewrite aset_ok by (rewrite repeat_length; lia). cbn [obind].
  rewrite aset_ok by (rewrite repeat_length; lia). cbn [obind].
  rewrite aset_ok by (rewrite upd_length, repeat_length; lia). cbn [obind].
  match goal with |- context [for_from 1 (Nin - 1) ?b00 ?s00] =>
    destruct (for_from_inv (fun m (s : list (option Cops) * list (option Cops)) =>
      length (fst s) = M /\ length (snd s) = M /\ nth_error (fst s) 0 = Some (Some (e 0%nat)) /\
      (forall i, (0 < i < m)%nat -> nth_error (fst s) i = Some (Some (e i)) /\ nth_error (fst s) (M - i) = Some (Some (e (M - i)%nat))) /\
      nth_error (snd s) 0 = Some (Some r0) /\ nth_error (snd s) Nin = Some (Some r0) /\
      (forall i, (0 < i < m)%nat -> nth_error (snd s) i = Some (Some r0) /\ nth_error (snd s) (i + Nin) = Some (Some r0)))
      b00 1 (Nin - 1) s00) as ([xi xo] & E & L1 & L2 & A0 & A1 & B0 & BN & B1) end.
  { cbn [fst snd]. rewrite !upd_length, !repeat_length. repeat match goal with |- _ /\ _ => split end; auto; try (intros; lia).
    - rewrite nth_error_upd_same by (rewrite repeat_length; lia). now rewrite Ee by lia.
    - destruct (Nat.eq_dec Nin 0); [lia|]. rewrite nth_error_upd_other by lia. rewrite nth_error_upd_same by (rewrite repeat_length; lia). auto.
    - apply nth_error_upd_same. rewrite upd_length, repeat_length. lia. }
  { intros i [xi xo] Hi (L1 & L2 & A0 & A1 & B0 & BN & B1). cbn [fst snd] in *.
    rewrite (aget_ok vals i (v i)) by (apply Hv; lia). cbn [obind].
    rewrite aset_ok by lia. cbn [obind]. fold M. rewrite aset_ok by (rewrite upd_length; lia). cbn [obind].
    rewrite aset_ok by lia. cbn [obind]. rewrite aset_ok by (rewrite upd_length; lia). cbn [obind].
    eexists. split; [reflexivity|]. cbn [fst snd]. rewrite !upd_length. repeat match goal with |- _ /\ _ => split end; auto.
    - rewrite !nth_error_upd_other by lia. auto.
    - intros j Hj. destruct (Nat.eq_dec j i) as [->|Nj].
      + rewrite (nth_error_upd_other _ (M - i) i) by lia. rewrite !nth_error_upd_same by (rewrite ?upd_length; lia).
        rewrite Ee, Ee' by lia. auto.
      + rewrite !nth_error_upd_other by lia. apply A1. lia.
    - rewrite !nth_error_upd_other by lia. auto.
    - rewrite !nth_error_upd_other by lia. auto.
    - intros j Hj. destruct (Nat.eq_dec j i) as [->|Nj].
      + rewrite (nth_error_upd_other _ (i + Nin) i) by lia. rewrite !nth_error_upd_same by (rewrite ?upd_length; lia). auto.
      + rewrite !nth_error_upd_other by lia. apply B1. lia. }
  rewrite E. cbn [obind fst snd]. cbn [fst snd] in L1, L2, A0, A1, B0, BN, B1. replace (1 + (Nin - 1))%nat with Nin in * by lia.
  rewrite (aget_ok vals Nin (v Nin)) by (apply Hv; lia). cbn [obind]. rewrite aset_ok by lia. cbn [obind].
  assert (F1 : upd xi Nin (Some (cxof (v Nin : cre Cops))) = map Some (tab M e)).
  { rewrite map_tab. apply tab_eq_intro; [now rewrite upd_length|]. intros j Hj.
    destruct (Nat.eq_dec j Nin) as [->|Nj]; [rewrite nth_error_upd_same by lia; now rewrite Ee by lia|].
    rewrite nth_error_upd_other by auto. destruct (Nat.eq_dec j 0) as [->|Nz]; [auto|].
    destruct (Nat.lt_ge_cases j Nin) as [G|G]; [apply A1; lia|]. replace j with (M - (M - j))%nat by lia. apply A1. lia. }
  rewrite F1, freeze_map_Some. cbn [obind].
  assert (F2 : xo = map Some (tab M (fun _ => r0 : Cops))).
  { rewrite map_tab. apply tab_eq_intro; [auto|]. intros j Hj.
    destruct (Nat.eq_dec j 0) as [->|Nz]; [auto|]. destruct (Nat.eq_dec j Nin) as [->|Nj]; [auto|].
    destruct (Nat.lt_ge_cases j Nin) as [G|G]; [apply B1; lia|]. replace j with (j - Nin + Nin)%nat by lia. apply B1. lia. }
  rewrite F2, freeze_map_Some. cbn [obind].
  pose proof (M_pow n) as EM. fold Nin M in EM.
  destruct (fft_base_ok Cops CW0 CWadd CWhalf CWneg (S n) M (tab M e) 0 1 (tab M (fun _ => r0)) 0 1 e) as (Xo & EX & LX & VX & _).
  { rewrite EM. clear. assert (forall m, (m <= 2 ^ m)%nat) by (induction m; [cbn; lia|]; pose proof (Nat.pow_nonzero 2 m); cbn [Nat.pow]; lia). apply H. }
  { lia. }
  { rewrite <- EM. intros j Hj. unfold cell. rewrite nth_error_tab by lia. do 2 f_equal. lia. }
  { rewrite <- EM. intros j Hj. unfold cell. rewrite tab_length. lia. }
  rewrite <- EM in EX, VX. fold M. rewrite EX. cbn [obind].
  match goal with |- context [for_ ?m00 ?b00 coeff] =>
    destruct (for_inv (fun m (c : list R) => length c = length coeff /\
      (forall i, (i < m)%nat -> nth_error c i = Some (fst (dft Cops M e (Nin - i) : R * R) / INR Nin)) /\
      (forall i, (m <= i)%nat -> nth_error c i = nth_error coeff i)) b00 m00 coeff) as (c & E2 & Lc & Vc & Fc) end.
  { repeat split; auto. intros; lia. }
  { intros i c Hi (Lc & Vc & Fc).
    rewrite (aget_ok Xo (Nin - i) (dft Cops M e (Nin - i)%nat)).
    2:{ rewrite <- (VX (Nin - i)%nat) by lia. unfold cell. f_equal. lia. }
    cbn [obind]. rewrite aset_ok by lia. eexists. split; [reflexivity|]. rewrite upd_length. split; auto. split.
    - intros j Hj. destruct (Nat.eq_dec i j) as [<-|]; [rewrite nth_error_upd_same by lia; reflexivity|].
      rewrite nth_error_upd_other by auto. apply Vc. lia.
    - intros j Hj. rewrite nth_error_upd_other by lia. apply Fc. lia. }
  rewrite E2. cbn [obind].
  rewrite (aget_ok c 0 _ (Vc 0%nat ltac:(lia))). cbn [obind]. rewrite aset_ok by lia. cbn [obind].
  match goal with |- context [upd c 0 ?w00] => set (w := w00) end.
  rewrite (aget_ok (upd c 0 w) Nin (fst (dft Cops M e (Nin - Nin) : R * R) / INR Nin)).
  2:{ rewrite nth_error_upd_other by lia. apply Vc. lia. }
  cbn [obind]. rewrite aset_ok by (rewrite upd_length; lia). cbn [obind].
  eexists. split; [reflexivity|]. rewrite !upd_length. split; auto. split.
  - intros i Hi. unfold chebc. fold Nin M. fold e.
    destruct (Nat.eqb_spec i 0) as [->|N0].
    + rewrite nth_error_upd_other by lia. rewrite nth_error_upd_same by lia. cbn [orb]. unfold w. cbn [rdivn Cops]. reflexivity.
    + destruct (Nat.eqb_spec i Nin) as [->|N1]; cbn [orb].
      * rewrite nth_error_upd_same by (rewrite upd_length; lia). cbn [rdivn Cops]. reflexivity.
      * rewrite !nth_error_upd_other by lia. apply Vc. lia.
  - intros i Hi. rewrite !nth_error_upd_other by lia. apply Fc. lia.
Qed.
