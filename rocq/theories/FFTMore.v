(** Power-of-two test, inverse transform, complex numbers. *)
From Verif Require Import Base BaseFacts CRing FFTModel FFTFacts.
From Coq Require Import NArith Reals Lra.

(** * isPowerOfTwo *)

Lemma odd_part (x : N) : (0 < x)%N -> exists k m, (x = 2 ^ k * (2 * m + 1))%N.
Proof.
  induction x as [x IH] using (well_founded_induction N.lt_wf_0). intros Hx.
  destruct (N.Even_or_Odd x) as [[h ->]|[h ->]].
  - destruct (IH h) as (k & m & E); [lia|lia|]. exists (N.succ k), m. rewrite N.pow_succ_r', E. lia.
  - exists 0%N, h. rewrite N.pow_0_r. lia.
Qed.

Lemma land_odd a b : N.land (2 * a + 1) (2 * b + 1) = (2 * N.land a b + 1)%N.
Proof. destruct a, b; try reflexivity. cbn. destruct (Pos.land p p0); reflexivity. Qed.

Lemma land_compl w m : (m < 2 ^ w)%N -> N.land m (2 ^ w - 1 - m) = 0%N.
Proof.
  intros Hm. destruct (N.eq_dec m 0) as [->|Nz]; [reflexivity|].
  replace (2 ^ w - 1 - m)%N with (N.lnot m w).
  - apply N.land_lnot_diag_low. apply N.log2_lt_pow2; lia.
  - rewrite N.lnot_sub_low by (apply N.log2_lt_pow2; lia). rewrite N.ones_equiv. lia.
Qed.

Lemma land_neg w x k m : (x = 2 ^ k * (2 * m + 1))%N -> (x < 2 ^ w)%N -> N.land x ((2 ^ w - x) mod 2 ^ w) = (2 ^ k)%N.
Proof.
  intros E Hx. assert (P : (0 < 2 ^ k)%N) by (apply N.neq_0_lt_0, N.pow_nonzero; lia).
  rewrite N.mod_small by lia.
  assert (Hk : (k < w)%N).
  { destruct (N.lt_ge_cases k w) as [|G]; auto. exfalso.
    assert (2 ^ w <= 2 ^ k)%N by (apply N.pow_le_mono_r; lia). nia. }
  set (w' := (w - k - 1)%N). assert (Ew : (2 ^ w = 2 ^ k * (2 * 2 ^ w'))%N).
  { rewrite <- N.pow_succ_r', <- N.pow_add_r. f_equal. unfold w'. lia. }
  assert (Hm : (m < 2 ^ w')%N) by nia.
  assert (Ed : (2 ^ w - x = 2 ^ k * (2 * (2 ^ w' - 1 - m) + 1))%N).
  { rewrite Ew, E. rewrite <- N.mul_sub_distr_l. f_equal. lia. }
  rewrite Ed, E. rewrite !(N.mul_comm (2 ^ k)), <- !N.shiftl_mul_pow2, <- N.shiftl_land.
  rewrite land_odd, land_compl by auto. rewrite N.shiftl_mul_pow2. lia.
Qed.

Lemma isPowerOfTwo_spec x : (N.of_nat x < 2 ^ 64)%N -> isPowerOfTwo x = true <-> exists n, x = 2 ^ n.
Proof.
  intros Hx. unfold isPowerOfTwo. destruct (Nat.eqb_spec x 0) as [->|Nz].
  - split; [discriminate|]. intros (n & E). pose proof (Nat.pow_nonzero 2 n). lia.
  - cbn [negb andb]. destruct (odd_part (N.of_nat x)) as (k & m & E); [lia|].
    rewrite (land_neg 64 _ k m E Hx), N.eqb_eq. split.
    + intros H. exists (N.to_nat k). apply Nat2N.inj. rewrite Nat2N.inj_pow, N2Nat.id. auto.
    + intros (n & En). subst x. rewrite Nat2N.inj_pow in *. change (N.of_nat 2) with 2%N in *.
      set (j := N.of_nat n) in *. assert (P : (0 < 2 ^ k)%N) by (apply N.neq_0_lt_0, N.pow_nonzero; lia).
      destruct (N.eq_dec k j) as [->|Nk]; auto. exfalso.
      assert (k <= j)%N.
      { destruct (N.le_gt_cases k j) as [|G]; auto. exfalso.
        assert (2 ^ j < 2 ^ k)%N by (apply N.pow_lt_mono_r; lia). nia. }
      assert (Ej : (2 ^ j = 2 ^ k * (2 * 2 ^ (j - k - 1)))%N).
      { rewrite <- N.pow_succ_r', <- N.pow_add_r. f_equal. lia. }
      rewrite E in Ej. apply N.mul_cancel_l in Ej; lia.
Qed.

(** * Inverse transform *)
Section Inverse.
  Variable K : cxops.
  Open Scope cr_scope.
  Add Ring Rr24 : (rth K).

  Hypothesis W0 : forall N, cxW N 0 = (r1 : K).
  Hypothesis Wadd : forall N a b, cxW N (a + b) = (cxW N a *! cxW N b : K).
  Hypothesis Whalf : forall N k, 0 < N -> cxW (2 * N) (2 * k) = (cxW N k : K).
  Hypothesis Wneg : forall N, 0 < N -> cxW (2 * N) N = (ropp r1 : K).
  Hypothesis conj0 : cxconj r0 = (r0 : K).
  Hypothesis conj_add : forall a b : K, cxconj (a +! b) = (cxconj a +! cxconj b : K).
  Hypothesis conj_mul : forall a b : K, cxconj (a *! b) = (cxconj a *! cxconj b : K).
  Hypothesis conj_conj : forall a : K, cxconj (cxconj a) = a.
  Hypothesis conj_W : forall N k, cxconj (cxW N k) = (cxV N k : K).
  Hypothesis VW : forall N k, cxV N k *! cxW N k = (r1 : K).
  Hypothesis divn_mul : forall N (a : K), 0 < N -> cxdivn (sum N (fun _ => a)) N = a.

  Definition idft (N : nat) (x : nat -> K) (k : nat) : K := sum N (fun j => cxV N (j * k) *! x j).

  Lemma conj_sum n (f : nat -> K) : cxconj (sum n f) = sum n (fun i => cxconj (f i)).
  Proof. induction n as [|n IH]; cbn [sum]; [apply conj0|]. now rewrite conj_add, IH. Qed.

  Lemma conj_dft N x k : cxconj (dft K N (fun j => cxconj (x j)) k) = idft N x k.
  Proof. unfold dft, idft. rewrite conj_sum. apply sum_ext. intros j Hj. now rewrite conj_mul, conj_W, conj_conj. Qed.

  Lemma V_sum n m : 0 < m < 2 ^ n -> sum (2 ^ n) (fun j => cxV (2 ^ n) (j * m)) = (r0 : K).
  Proof.
    intros Hm. rewrite <- conj0, <- (W_sum K W0 Wadd Whalf Wneg n m Hm), conj_sum. apply sum_ext. intros j _. now rewrite conj_W.
  Qed.

  Lemma Vadd N a b : cxV N (a + b) = (cxV N a *! cxV N b : K).
  Proof. now rewrite <- !conj_W, Wadd, conj_mul. Qed.

  Lemma idft_dft n x k : k < 2 ^ n -> idft (2 ^ n) (dft K (2 ^ n) x) k = sum (2 ^ n) (fun _ => x k).
  Proof.
    intros Hk. unfold idft, dft. set (N := 2 ^ n) in *.
    rewrite (sum_ext _ _ _ (fun j => sum N (fun l => cxV N (j * k) *! cxW N (l * j) *! x l))).
    2:{ intros j _. rewrite <- sum_scal_l. apply sum_ext. intros l _. ring. }
    rewrite sum_swap. rewrite (sum_single K N _ k); auto.
    - apply sum_ext. intros j _. rewrite (Nat.mul_comm k j), VW. ring.
    - intros l Hl Nl. rewrite sum_scal_r. replace (sum N (fun i => cxV N (i * k) *! cxW N (l * i))) with (r0 : K); [ring|].
      symmetry. destruct (Nat.lt_ge_cases k l) as [H|H].
      + unfold N. rewrite <- (W_sum K W0 Wadd Whalf Wneg n (l - k)) by (fold N; lia). apply sum_ext. intros i Hi. fold N.
        replace (l * i) with (i * k + i * (l - k)) by nia. rewrite Wadd.
        transitivity ((cxV N (i * k) *! cxW N (i * k)) *! cxW N (i * (l - k)) : K); [ring|]. rewrite VW. ring.
      + unfold N. rewrite <- (V_sum n (k - l)) by (fold N; lia). apply sum_ext. intros i Hi. fold N.
        replace (i * k) with (l * i + i * (k - l)) by nia. rewrite Vadd.
        transitivity ((cxV N (l * i) *! cxW N (l * i)) *! cxV N (i * (k - l)) : K); [ring|]. rewrite VW. ring.
  Qed.

  Lemma ifft_base_ok n fuel (x X : list K) (xv : nat -> K) : n <= fuel ->
    (forall j, j < 2 ^ n -> nth_error x j = Some (xv j)) -> 2 ^ n <= length X ->
    exists X', ifft_base fuel (2 ^ n) x 1 X 1 = Ok (x, X') /\
      cells 0 1 (2 ^ n) (fun k => cxdivn (idft (2 ^ n) xv k) (2 ^ n)) X X'.
  Proof.
    intros Hf Hx HX. set (N := 2 ^ n) in *. unfold ifft_base.
    assert (Lx : N <= length x).
    { destruct (Nat.le_gt_cases N (length x)) as [|G]; auto. exfalso.
      assert (H : nth_error x (length x) = None) by (apply nth_error_None; lia). rewrite Hx in H by auto. discriminate. }
    match goal with |- context [for_ N ?b00 x] =>
      destruct (for_inv (fun m y => length y = length x /\ (forall i, i < m -> nth_error y i = Some (cxconj (xv i))) /\
        (forall i, m <= i -> nth_error y i = nth_error x i)) b00 N x) as (x1 & E1 & L1 & V1 & F1) end.
    { repeat split; auto. intros; lia. }
    { intros i y Hi (L & V & F). rewrite Nat.mul_1_r.
      rewrite (aget_ok y i (xv i)) by (rewrite F by lia; auto). cbn [obind]. rewrite aset_ok by lia.
      eexists. split; [reflexivity|]. rewrite upd_length. split; auto. split.
      - intros j Hj. destruct (Nat.eq_dec i j) as [<-|]; [apply nth_error_upd_same; lia|]. rewrite nth_error_upd_other by auto. apply V. lia.
      - intros j Hj. rewrite nth_error_upd_other by lia. apply F. lia. }
    rewrite E1. cbn [obind].
    destruct (fft_base_ok K W0 Wadd Whalf Wneg n fuel x1 0 1 X 0 1 (fun j => cxconj (xv j))) as (X1 & E2 & L2 & V2 & F2); auto.
    { intros j Hj. unfold cell. rewrite Nat.mul_1_r. apply V1. auto. }
    { intros k Hk. unfold cell. fold N in Hk. lia. }
    fold N in E2. rewrite E2. cbn [obind]. fold N in V2, F2.
    match goal with |- context [for_ N ?b00 (x1, X1)] =>
      destruct (for_inv (fun m (s : list K * list K) => length (fst s) = length x /\ length (snd s) = length X /\
        (forall i, i < m -> nth_error (fst s) i = nth_error x i) /\
        (forall i, m <= i -> nth_error (fst s) i = nth_error x1 i) /\
        (forall i, i < m -> nth_error (snd s) i = Some (cxdivn (idft N xv i) N)) /\
        (forall i, m <= i -> nth_error (snd s) i = nth_error X1 i)) b00 N (x1, X1)) as ([x2 X2] & E3 & La & Lb & A1 & A2 & B1 & B2) end.
    { cbn. repeat split; auto; intros; lia. }
    { intros i [y Y] Hi (La & Lb & A1 & A2 & B1 & B2). cbn [fst snd] in *. rewrite Nat.mul_1_r.
      rewrite (aget_ok y i (cxconj (xv i))) by (rewrite A2 by lia; auto). cbn [obind].
      rewrite aset_ok by lia. cbn [obind].
      rewrite (aget_ok Y i (dft K N (fun j => cxconj (xv j)) i)).
      2:{ rewrite B2 by lia. rewrite <- (V2 i Hi). unfold cell. f_equal. lia. }
      cbn [obind]. rewrite aset_ok by lia. cbn [obind].
      rewrite (aget_ok (upd Y i _) i (cxconj (dft K N (fun j => cxconj (xv j)) i))) by (apply nth_error_upd_same; lia). cbn [obind].
      rewrite aset_ok by (rewrite upd_length; lia). cbn [obind].
      eexists. split; [reflexivity|]. cbn [fst snd]. rewrite !upd_length, conj_dft, conj_conj.
      repeat match goal with |- _ /\ _ => split end; auto.
      - intros j Hj. destruct (Nat.eq_dec i j) as [<-|]; [rewrite nth_error_upd_same by lia; rewrite Hx; auto|].
        rewrite nth_error_upd_other by auto. apply A1. lia.
      - intros j Hj. rewrite nth_error_upd_other by lia. apply A2. lia.
      - intros j Hj. destruct (Nat.eq_dec i j) as [<-|]; [rewrite nth_error_upd_same by (rewrite upd_length; lia); auto|].
        rewrite !nth_error_upd_other by auto. apply B1. lia.
      - intros j Hj. rewrite !nth_error_upd_other by lia. apply B2. lia. }
    rewrite E3. cbn [fst snd] in *. exists X2. split.
    - f_equal. f_equal. apply nth_error_ext; [lia|]. intros i _. destruct (Nat.lt_ge_cases i N) as [H|H]; [now apply A1|].
      rewrite A2, F1 by auto. reflexivity.
    - split; [auto|]. unfold cell. split.
      + intros k Hk. replace (0 + k * 1) with k by lia. now apply B1.
      + intros i Hi. assert (N <= i).
        { destruct (Nat.le_gt_cases N i) as [|G]; auto. exfalso. apply (Hi i G). lia. }
        rewrite B2 by auto. apply F2. intros k Hk. apply Hi. exact Hk.
  Qed.
End Inverse.

(** * Complex numbers *)
Local Open Scope R_scope.
Definition Cadd (a b : R * R) : R * R := (fst a + fst b, snd a + snd b).
Definition Csub (a b : R * R) : R * R := (fst a - fst b, snd a - snd b).
Definition Copp (a : R * R) : R * R := (- fst a, - snd a).
Definition Cmul (a b : R * R) : R * R := (fst a * fst b - snd a * snd b, fst a * snd b + snd a * fst b).
Lemma C_ring : ring_theory (0, 0) (1, 0) Cadd Cmul Csub Copp eq.
Proof.
  constructor; intros; repeat match goal with a : (R * R)%type |- _ => destruct a end; unfold Cadd, Cmul, Csub, Copp; cbn; f_equal; ring.
Qed.
Definition Cring : CRing := mkCRing (R * R) (0, 0) (1, 0) Cadd Cmul Csub Copp C_ring.

(** The angle 2 pi k / N. *)
Definition ang (N k : nat) : R := 2 * PI * INR k / INR N.
Definition Cops : cxops :=
  mkCx Cring (fun N k => (cos (ang N k), - sin (ang N k))) (fun N k => (cos (ang N k), sin (ang N k)))
    (fun a => (fst a, - snd a)) (fun a N => (fst a / INR N, snd a / INR N))
    R (fun x => (x, 0)) fst 0 (fun x N => x / INR N).

Lemma CW0 N : cxW N 0 = (r1 : Cops).
Proof.
  cbn [cxW Cops]. replace (ang N 0) with 0 by (unfold ang; cbn [INR]; unfold Rdiv; ring). rewrite cos_0, sin_0. cbn. f_equal. ring.
Qed.
Lemma ang_add N a b : ang N (a + b) = ang N a + ang N b.
Proof. unfold ang. rewrite plus_INR. unfold Rdiv. ring. Qed.
Lemma CWadd N a b : cxW N (a + b) = (rmul (cxW N a) (cxW N b) : Cops).
Proof. cbn. unfold Cmul. cbn. rewrite ang_add, cos_plus, sin_plus. f_equal; ring. Qed.
Lemma ang_half N k : (0 < N)%nat -> ang (2 * N) (2 * k) = ang N k.
Proof. intros H. unfold ang. rewrite !mult_INR. cbn [INR]. field. apply not_0_INR. lia. Qed.
Lemma CWhalf N k : (0 < N)%nat -> cxW (2 * N) (2 * k) = (cxW N k : Cops).
Proof. intros H. cbn [cxW Cops]. now rewrite ang_half. Qed.
Lemma ang_pi N : (0 < N)%nat -> ang (2 * N) N = PI.
Proof. intros H. unfold ang. rewrite mult_INR. cbn [INR]. field. apply not_0_INR. lia. Qed.
Lemma CWneg N : (0 < N)%nat -> cxW (2 * N) N = (ropp r1 : Cops).
Proof. intros H. cbn [cxW Cops]. rewrite ang_pi, cos_PI, sin_PI by auto. cbn. unfold Copp. cbn. f_equal. Qed.
Lemma Cconj_add (a b : Cops) : cxconj (radd a b) = (radd (cxconj a) (cxconj b) : Cops).
Proof. cbn. unfold Cadd. cbn. f_equal. ring. Qed.
Lemma Cconj_mul (a b : Cops) : cxconj (rmul a b) = (rmul (cxconj a) (cxconj b) : Cops).
Proof. cbn. unfold Cmul. cbn. f_equal; ring. Qed.
Lemma Cconj0 : cxconj r0 = (r0 : Cops).
Proof. cbn. f_equal. ring. Qed.
Lemma Cconj_conj (a : Cops) : cxconj (cxconj a) = a.
Proof. destruct a. cbn. f_equal. ring. Qed.
Lemma Cconj_W N k : cxconj (cxW N k) = (cxV N k : Cops).
Proof. cbn. f_equal. ring. Qed.
Lemma CVW N k : rmul (cxV N k) (cxW N k) = (r1 : Cops).
Proof.
  cbn. unfold Cmul. cbn. f_equal; [|ring]. pose proof (sin2_cos2 (ang N k)) as H. unfold Rsqr in H. lra.
Qed.
Lemma Csum_const N (a : Cops) : sum N (fun _ => a) = ((INR N * fst a, INR N * snd a) : Cops).
Proof.
  induction N as [|N IH]; [cbn; f_equal; ring|]. cbn [sum]. rewrite IH, S_INR. cbn. unfold Cadd. cbn. f_equal; ring.
Qed.
Lemma Cdivn N (a : Cops) : (0 < N)%nat -> cxdivn (sum N (fun _ => a)) N = a.
Proof.
  intros H. rewrite Csum_const. destruct a as [u v]. cbn. assert (INR N <> 0) by (apply not_0_INR; lia). f_equal; field; auto.
Qed.
