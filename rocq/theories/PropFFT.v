(** Properties C17-C20, C54-C56: Fourier transforms, Chebyshev coefficients,
    closed quadrature rules. *)
From Verif Require Import Base BaseFacts CRing RealInst FOps RIntLib FFTModel FFTFacts FFTMore FFTCheb QuadModel QuadFacts QuadMore QuadCC.
From Coq Require Import Reals Lra ZArith NArith QArith Qcanon.
Local Open Scope R_scope.

(** Real and imaginary part of the discrete Fourier transform, written out. *)
Definition dft_re (N : nat) (x : nat -> R * R) (k : nat) : R :=
  rs N (fun j => fst (x j) * cos (2 * PI * INR (j * k) / INR N) + snd (x j) * sin (2 * PI * INR (j * k) / INR N)).
Definition dft_im (N : nat) (x : nat -> R * R) (k : nat) : R :=
  rs N (fun j => snd (x j) * cos (2 * PI * INR (j * k) / INR N) - fst (x j) * sin (2 * PI * INR (j * k) / INR N)).

Lemma dft_parts N (x : nat -> Cops) k : dft Cops N x k = (dft_re N x k, dft_im N x k).
Proof.
  unfold dft, dft_re, dft_im.
  assert (H : forall m, sum m (fun j => rmul (cxW N (j * k)) (x j) : Cops) =
    (rs m (fun j => fst (x j : R * R) * cos (2 * PI * INR (j * k) / INR N) + snd (x j : R * R) * sin (2 * PI * INR (j * k) / INR N)),
     rs m (fun j => snd (x j : R * R) * cos (2 * PI * INR (j * k) / INR N) - fst (x j : R * R) * sin (2 * PI * INR (j * k) / INR N)))).
  { induction m as [|m IH]; [reflexivity|]. cbn [sum rs]. rewrite IH. cbn. unfold Cadd, Cmul, ang. cbn. f_equal; ring. }
  apply H.
Qed.

Lemma pow2_fuel n : (n <= 2 ^ n)%nat.
Proof. induction n; [cbn; lia|]. pose proof (Nat.pow_nonzero 2 n). cbn [Nat.pow]. lia. Qed.

(** * C17 *)
Theorem C17_fft : forall n (x X : list (R * R)) (xv : nat -> R * R),
  (N.of_nat (2 ^ n) < 2 ^ 64)%N ->
  (forall j, (j < 2 ^ n)%nat -> nth_error x j = Some (xv j)) -> (2 ^ n <= length X)%nat ->
  exists X', fft (K := Cops) (2 ^ n) x 1 X 1 = Ok (0%nat, X') /\ length X' = length X /\
    (forall k, (k < 2 ^ n)%nat -> nth_error X' k = Some (dft_re (2 ^ n) xv k, dft_im (2 ^ n) xv k)) /\
    (forall k, (2 ^ n <= k)%nat -> nth_error X' k = nth_error X k).
Proof.
  intros n x X xv H64 Hx HX. unfold fft. cbn [Nat.eqb cassert obind].
  rewrite (proj2 (isPowerOfTwo_spec (2 ^ n) H64) ltac:(eauto)).
  destruct (fft_base_ok Cops CW0 CWadd CWhalf CWneg n (2 ^ n) x 0 1 X 0 1 xv) as (X' & E & L & V & F).
  { apply pow2_fuel. } { lia. }
  { intros j Hj. unfold cell. rewrite Nat.mul_1_r. auto. } { intros k Hk. eapply Nat.lt_le_trans; [|exact HX]. unfold cell. lia. }
  rewrite E. cbn [obind]. exists X'. split; auto. split; auto. split.
  - intros k Hk. rewrite <- dft_parts. rewrite <- V by auto. unfold cell. f_equal. lia.
  - intros k Hk. apply F. intros j Hj. unfold cell. lia.
Qed.
Print Assumptions C17_fft.

(** Every other length is refused without a write. *)
Theorem C17_fft_refuses : forall N (x X : list (R * R)),
  (N.of_nat N < 2 ^ 64)%N -> (forall n, N <> 2 ^ n)%nat -> fft (K := Cops) N x 1 X 1 = Ok (1%nat, X).
Proof.
  intros N x X H64 HN. unfold fft. cbn [Nat.eqb cassert obind].
  destruct (isPowerOfTwo N) eqn:E; auto. apply isPowerOfTwo_spec in E; auto. destruct E as (n & E). now apply HN in E.
Qed.
Print Assumptions C17_fft_refuses.

(** Gaussian integers: the transform of length up to four needs only 1, -1, I, -I. *)
Definition Gadd (a b : Z * Z) : Z * Z := (fst a + fst b, snd a + snd b)%Z.
Definition Gsub (a b : Z * Z) : Z * Z := (fst a - fst b, snd a - snd b)%Z.
Definition Gopp (a : Z * Z) : Z * Z := (- fst a, - snd a)%Z.
Definition Gmul (a b : Z * Z) : Z * Z := (fst a * fst b - snd a * snd b, fst a * snd b + snd a * fst b)%Z.
Lemma G_ring : ring_theory (0, 0)%Z (1, 0)%Z Gadd Gmul Gsub Gopp eq.
Proof.
  constructor; intros; repeat match goal with x : (Z * Z)%type |- _ => destruct x end; unfold Gadd, Gsub, Gopp, Gmul; cbn [fst snd]; f_equal; ring.
Qed.
Definition GW (N k : nat) : Z * Z :=
  nth ((k * (4 / N)) mod 4) [(1, 0); (0, -1); (-1, 0); (0, 1)]%Z (0, 0)%Z.
Definition Gops : cxops :=
  mkCx (mkCRing (Z * Z) (0, 0)%Z (1, 0)%Z Gadd Gmul Gsub Gopp G_ring) GW (fun N k => let w := GW N k in (fst w, - snd w)%Z)
    (fun a => (fst a, - snd a)%Z) (fun a N => (fst a / Z.of_nat N, snd a / Z.of_nat N)%Z)
    Z (fun x => (x, 0)%Z) fst 0%Z (fun x N => (x / Z.of_nat N)%Z).
Definition exx : list Gops := [(1, 0); (2, 1); (0, -1); (5, 2)]%Z.

Example C17_run : fft (K := Gops) 4 exx 1 (repeat (7, 7)%Z 5) 1 = Ok (0%nat, [(8, 2); (0, 4); (-6, -4); (2, -2); (7, 7)]%Z).
Proof. vm_compute. reflexivity. Qed.
Example C17_run_refused : fft (K := Gops) 3 exx 1 (repeat (7, 7)%Z 4) 1 = Ok (1%nat, repeat (7, 7)%Z 4).
Proof. vm_compute. reflexivity. Qed.
Example C17_case : (N.of_nat (2 ^ 3) < 2 ^ 64)%N /\ (forall n, 6 <> 2 ^ n)%nat.
Proof.
  split; [reflexivity|]. intros [|[|[|n]]]; cbn [Nat.pow]; lia.
Qed.

(** * C18 *)
Theorem C18_ifft_fft : forall n (x X Y : list (R * R)) (xv : nat -> R * R),
  (N.of_nat (2 ^ n) < 2 ^ 64)%N ->
  (forall j, (j < 2 ^ n)%nat -> nth_error x j = Some (xv j)) -> (2 ^ n <= length X)%nat -> (2 ^ n <= length Y)%nat ->
  exists X' Y', fft (K := Cops) (2 ^ n) x 1 X 1 = Ok (0%nat, X') /\
    ifft (K := Cops) (2 ^ n) X' 1 Y 1 = Ok (0%nat, X', Y') /\ length Y' = length Y /\
    (forall k, (k < 2 ^ n)%nat -> nth_error Y' k = Some (xv k)) /\
    (forall k, (2 ^ n <= k)%nat -> nth_error Y' k = nth_error Y k).
Proof.
  intros n x X Y xv H64 Hx HX HY. destruct (C17_fft n x X xv H64 Hx HX) as (X' & EX & LX & VX & FX).
  exists X'. unfold ifft. cbn [Nat.eqb cassert obind]. rewrite (proj2 (isPowerOfTwo_spec (2 ^ n) H64) ltac:(eauto)).
  destruct (ifft_base_ok Cops CW0 CWadd CWhalf CWneg Cconj0 Cconj_add Cconj_mul Cconj_conj Cconj_W n (2 ^ n) X' Y (dft Cops (2 ^ n) xv)) as (Y' & E & L & V & F).
  { apply pow2_fuel. } { intros j Hj. rewrite dft_parts. auto. } { auto. }
  rewrite E. cbn [obind fst snd]. exists Y'. split; auto. split; auto. split; auto. split.
  - intros k Hk. specialize (V k Hk). unfold cell in V. cbn [Nat.add] in V. rewrite Nat.mul_1_r in V. rewrite V. f_equal.
    rewrite (idft_dft Cops CW0 CWadd CWhalf CWneg Cconj0 Cconj_add Cconj_mul Cconj_W CVW) by auto.
    apply Cdivn. pose proof (Nat.pow_nonzero 2 n). lia.
  - intros k Hk. apply F. intros j Hj. unfold cell. lia.
Qed.
Print Assumptions C18_ifft_fft.

(** The inverse transform itself: the sums with the conjugate roots over N, for
    every input; the input array comes back as it was. *)
Theorem C18_ifft : forall n (X Y : list (R * R)) (xv : nat -> R * R),
  (N.of_nat (2 ^ n) < 2 ^ 64)%N ->
  (forall j, (j < 2 ^ n)%nat -> nth_error X j = Some (xv j)) -> (2 ^ n <= length Y)%nat ->
  exists Y', ifft (K := Cops) (2 ^ n) X 1 Y 1 = Ok (0%nat, X, Y') /\ length Y' = length Y /\
    (forall k, (k < 2 ^ n)%nat -> nth_error Y' k = Some
       (rs (2 ^ n) (fun j => fst (xv j) * cos (2 * PI * INR (j * k) / INR (2 ^ n)) - snd (xv j) * sin (2 * PI * INR (j * k) / INR (2 ^ n))) / INR (2 ^ n),
        rs (2 ^ n) (fun j => snd (xv j) * cos (2 * PI * INR (j * k) / INR (2 ^ n)) + fst (xv j) * sin (2 * PI * INR (j * k) / INR (2 ^ n))) / INR (2 ^ n))) /\
    (forall k, (2 ^ n <= k)%nat -> nth_error Y' k = nth_error Y k).
Proof.
  intros n X Y xv H64 Hx HY.
  unfold ifft. cbn [Nat.eqb cassert obind]. rewrite (proj2 (isPowerOfTwo_spec (2 ^ n) H64) ltac:(eauto)).
  destruct (ifft_base_ok Cops CW0 CWadd CWhalf CWneg Cconj0 Cconj_add Cconj_mul Cconj_conj Cconj_W n (2 ^ n) X Y xv) as (Y' & E & L & V & F).
  { apply pow2_fuel. } { auto. } { auto. }
  rewrite E. cbn [obind fst snd]. exists Y'. split; auto. split; auto. split.
  - intros k Hk. specialize (V k Hk). unfold cell in V. cbn [Nat.add] in V. rewrite Nat.mul_1_r in V. rewrite V. f_equal.
    unfold idft. set (N := (2 ^ n)%nat).
    assert (H : forall m, sum m (fun j => rmul (cxV N (j * k)) (xv j : Cops) : Cops) =
      (rs m (fun j => fst (xv j : R * R) * cos (2 * PI * INR (j * k) / INR N) - snd (xv j : R * R) * sin (2 * PI * INR (j * k) / INR N)),
       rs m (fun j => snd (xv j : R * R) * cos (2 * PI * INR (j * k) / INR N) + fst (xv j : R * R) * sin (2 * PI * INR (j * k) / INR N)))).
    { induction m as [|m IH]; [reflexivity|]. cbn [sum rs]. rewrite IH. cbn. unfold Cadd, Cmul, ang. cbn. f_equal; ring. }
    rewrite H. reflexivity.
  - intros k Hk. apply F. intros j Hj. unfold cell. lia.
Qed.
Print Assumptions C18_ifft.

Theorem C18_ifft_refuses : forall N (x X : list (R * R)),
  (N.of_nat N < 2 ^ 64)%N -> (forall n, N <> 2 ^ n)%nat -> ifft (K := Cops) N x 1 X 1 = Ok (1%nat, x, X).
Proof.
  intros N x X H64 HN. unfold ifft. cbn [Nat.eqb cassert obind].
  destruct (isPowerOfTwo N) eqn:E; auto. apply isPowerOfTwo_spec in E; auto. destruct E as (n & E). now apply HN in E.
Qed.
Print Assumptions C18_ifft_refuses.

Example C18_run : ifft (K := Gops) 4 [(8, 2); (0, 4); (-6, -4); (2, -2); (7, 7)]%Z 1 (repeat (9, 9)%Z 5) 1 =
  Ok (0%nat, [(8, 2); (0, 4); (-6, -4); (2, -2); (7, 7)]%Z, exx ++ [(9, 9)%Z]).
Proof. vm_compute. reflexivity. Qed.

(** * C19 *)

(** The value of the expansion with the given coefficients, highest degree first. *)
Definition cheb_value (n : nat) (c : list R) (x : R) : R := rs (S n) (fun i => nth i c 0 * chebT (n - i) x).

Theorem C19_cheb_interpolates : forall n (vals coeff : list R),
  (N.of_nat (2 ^ n) < 2 ^ 64)%N -> (2 ^ n < length vals)%nat -> (2 ^ n < length coeff)%nat ->
  exists c, cheb_vals_to_coeff (K := Cops) (2 ^ n + 1) vals coeff = Ok (0%nat, c) /\ length c = length coeff /\
    (forall j, (j <= 2 ^ n)%nat -> cheb_value (2 ^ n) c (cos (PI * INR j / INR (2 ^ n))) = nth j vals 0) /\
    (forall i, (2 ^ n < i)%nat -> nth_error c i = nth_error coeff i).
Proof.
  intros n vals coeff H64 Hv Hc. set (v := fun j => nth j vals 0).
  destruct (cheb_ok n vals coeff v H64) as (c & E & L & V & F); auto.
  { intros j Hj. apply nth_error_nth'. lia. }
  exists c. split; auto. split; auto. split; auto. intros j Hj. change (nth j vals 0) with (v j). rewrite <- (cheb_interp n v j Hj).
  unfold cheb_value. rewrite rs_rsum. apply rsum_ext. intros i Hi. f_equal. apply nth_error_nth. apply V. lia.
Qed.
Print Assumptions C19_cheb_interpolates.

Theorem C19_cheb_refuses : forall nvals (vals coeff : list R),
  (N.of_nat nvals < 2 ^ 64)%N -> (forall n, nvals <> 2 ^ n + 1)%nat ->
  cheb_vals_to_coeff (K := Cops) nvals vals coeff = Ok (1%nat, coeff).
Proof.
  intros nvals vals coeff H64 HN. unfold cheb_vals_to_coeff. destruct (isPowerOfTwo (nvals - 1)) eqn:E; auto.
  apply isPowerOfTwo_spec in E; [|lia]. destruct E as (n & E). pose proof (Nat.pow_nonzero 2 n ltac:(lia)).
  exfalso. apply (HN n). lia.
Qed.
Print Assumptions C19_cheb_refuses.

(** x^2 - x + 1 at 1, 0, -1, times 4: T_2/2 - T_1 + 3/2 T_0. *)
Example C19_run : cheb_vals_to_coeff (K := Gops) 3 [4; 4; 12]%Z [9; 9; 9; 9]%Z = Ok (0%nat, [2; -4; 6; 9]%Z).
Proof. vm_compute. reflexivity. Qed.
Example C19_case : (N.of_nat (2 ^ 4) < 2 ^ 64)%N /\ (2 ^ 1 < length [1; 2; 3])%nat.
Proof. split; [reflexivity|cbn; lia]. Qed.

(** * C20 *)
Theorem C20_trap : forall tol N (a h c0 c1 : R), (2 <= N)%nat ->
  exists w, trap_w (K := Rops tol) N h = Ok w /\ length w = N /\
    is_RInt (fun x => c0 + c1 * x) a (a + INR (N - 1) * h) (rs N (fun i => nth i w 0 * (c0 + c1 * (a + INR i * h)))).
Proof.
  intros tol N a h c0 c1 HN. exists (tab N (trapW N h)). split; [apply trap_w_ok; lia|]. split; [apply tab_length|].
  rewrite (rs_ext N _ (fun i => trapW N h i * (c0 + c1 * (a + INR i * h)))); [now apply trap_exact|].
  intros i Hi. f_equal. apply nth_error_nth. now apply nth_error_tab.
Qed.
Print Assumptions C20_trap.

Theorem C20_simpson_odd : forall tol m (a h c0 c1 c2 c3 : R), (1 <= m)%nat ->
  let f x := c0 + c1 * x + c2 * x ^ 2 + c3 * x ^ 3 in
  exists w, simpson_w (K := Rops tol) (2 * m + 1) h = Ok w /\ length w = (2 * m + 1)%nat /\
    is_RInt f a (a + INR (2 * m) * h) (rs (2 * m + 1) (fun i => nth i w 0 * f (a + INR i * h))).
Proof.
  intros tol m a h c0 c1 c2 c3 HN f. exists (tab (2 * m + 1) (simpW (2 * m + 1) h)). split; [apply simpson_w_ok; lia|]. split; [apply tab_length|].
  rewrite (rs_ext _ _ (fun i => simpW (2 * m + 1) h i * f (a + INR i * h))); [now apply simpson_exact_odd|].
  intros i Hi. f_equal. apply nth_error_nth. now apply nth_error_tab.
Qed.
Print Assumptions C20_simpson_odd.

(** Four points or more; two points are refuted below. *)
Theorem C20_simpson_even_partial : forall tol m (a h c0 c1 : R), (1 <= m)%nat ->
  let f x := c0 + c1 * x in
  exists w, simpson_w (K := Rops tol) (2 * m + 2) h = Ok w /\ length w = (2 * m + 2)%nat /\
    is_RInt f a (a + INR (2 * m + 1) * h) (rs (2 * m + 2) (fun i => nth i w 0 * f (a + INR i * h))).
Proof.
  intros tol m a h c0 c1 HN f. exists (tab (2 * m + 2) (simpW (2 * m + 2) h)). split; [apply simpson_w_ok; lia|]. split; [apply tab_length|].
  rewrite (rs_ext _ _ (fun i => simpW (2 * m + 2) h i * f (a + INR i * h))); [now apply simpson_exact_even|].
  intros i Hi. f_equal. apply nth_error_nth. now apply nth_error_tab.
Qed.
Print Assumptions C20_simpson_even_partial.

(** Two points: the weights add up to 4h/3, the interval has length h. *)
Theorem C20_simpson_two_refuted : forall tol (a h : R), h <> 0 ->
  exists w, simpson_w (K := Rops tol) 2 h = Ok w /\
    forall v, is_RInt (fun _ => 1) a (a + INR 1 * h) v -> v <> rs 2 (fun i => nth i w 0 * 1).
Proof.
  intros tol a h Hh. exists (tab 2 (simpW 2 h)). split; [apply simpson_w_ok; lia|].
  intros v Hv E. pose proof (is_RInt_unique _ _ _ _ _ Hv (is_RInt_const 1 a (a + INR 1 * h))) as E2.
  rewrite E in E2. cbn in E2. unfold simpW in E2. cbn in E2. apply Hh. lra.
Qed.
Print Assumptions C20_simpson_two_refuted.

Definition qv (l : outcome (list Qc)) : list Q := match l with Ok l => map this l | _ => [] end.
Example C20_run_trap : qv (trap_w (K := Qops) 4 (Q2Qc 2)) = [1 # 1; 2 # 1; 2 # 1; 1 # 1]%Q.
Proof. vm_compute. reflexivity. Qed.
Example C20_run_simpson : qv (simpson_w (K := Qops) 5 (Q2Qc 3)) = [1 # 1; 4 # 1; 2 # 1; 4 # 1; 1 # 1]%Q.
Proof. vm_compute. reflexivity. Qed.
Example C20_run_simpson4 : qv (simpson_w (K := Qops) 4 (Q2Qc 6)) = [2 # 1; 8 # 1; 5 # 1; 3 # 1]%Q.
Proof. vm_compute. reflexivity. Qed.

(** * C54 Clenshaw-Curtis *)
Theorem C54_clenshaw_curtis : forall tol N (pts wts : list R), (1 <= N)%nat -> (N <= length pts)%nat -> (N <= length wts)%nat ->
  exists P W, clenshaw_curtis (K := Rq tol) N pts wts = Ok (P, W) /\ length P = length pts /\ length W = length wts /\
    (forall i, (N <= i)%nat -> nth_error P i = nth_error pts i /\ nth_error W i = nth_error wts i) /\
    (forall l, (length l <= N)%nat -> is_RInt (pe l) (-1) 1 (rs N (fun i => nth i W 0 * pe l (nth i P 0)))).
Proof.
  intros tol N pts wts HN Lp Lw. destruct (Nat.eq_dec N 1) as [->|N1].
  - unfold clenshaw_curtis. cbn [Nat.eqb]. change (fcar (qf (Rq tol))) with R. rewrite aset_ok by lia. cbn [obind]. rewrite aset_ok by lia. cbn [obind].
    do 2 eexists. split; [reflexivity|]. rewrite !upd_length. split; auto. split; auto. split.
    + intros i Hi. rewrite !nth_error_upd_other by lia. auto.
    + intros l Hl. cbn [rs]. rewrite (nth_error_nth (upd wts 0 _) 0 _ (nth_error_upd_same _ _ _ Lw)).
      rewrite (nth_error_nth (upd pts 0 _) 0 _ (nth_error_upd_same _ _ _ Lp)).
      destruct l as [|c [|]]; cbn [length] in Hl; try lia.
      * cbn. pose proof (is_RInt_const 0 (-1) 1) as G. rewrite Rmult_0_l in G. replace (0 + (1 + 1) * 0) with 0 by ring. exact G.
      * pose proof (is_RInt_const c (-1) 1) as G. apply (is_RInt_ext_all _ (pe [c])) in G; [|intros; cbn; ring].
        replace (0 + _) with (c * (1 - -1)); [exact G|]. cbn. ring.
  - destruct (cc_ok tol N pts wts) as (P & W & E & (LP & VP & FP) & (LW & VW & FW)); try lia.
    exists P, W. split; auto. split; auto. split; auto. split; [auto|]. intros l Hl.
    rewrite (rs_ext N _ (fun i => ccW (N - 1) i * pe l (ccX (N - 1) i))).
    + apply exact_span with N; auto. intros k Hk. replace N with (S (N - 1)) at 1 by lia. apply cc_chebT; lia.
    + intros i Hi. now rewrite (nth_error_nth W i 0 (VW i Hi)), (nth_error_nth P i 0 (VP i Hi)).
Qed.
Print Assumptions C54_clenshaw_curtis.

(** Rescaling to [a,b] (in either order) keeps the degree. *)
Theorem C54_rescaled : forall tol N (pts wts : list R) d (a b : R), (N <= length pts)%nat -> (N <= length wts)%nat ->
  (forall l, (length l <= d)%nat -> is_RInt (pe l) (-1) 1 (rs N (fun i => nth i wts 0 * pe l (nth i pts 0)))) ->
  exists P W, rescale_cc (K := Rops tol) N pts wts a b = Ok (P, W) /\
    (forall l, (length l <= d)%nat -> is_RInt (pe l) a b (rs N (fun i => nth i W 0 * pe l (nth i P 0)))).
Proof.
  intros tol N pts wts d a b Lp Lw H.
  destruct (rescale_ok tol N pts wts (fun i => nth i pts 0) (fun i => nth i wts 0) a b) as (P & W & E & (LP & VP & FP) & (LW & VW & FW)).
  { intros i Hi. apply nth_error_nth'. lia. } { intros i Hi. apply nth_error_nth'. lia. }
  exists P, W. split; auto. intros l Hl.
  rewrite (rs_ext N _ (fun i => (b - a) / 2 * nth i wts 0 * pe l ((a + b) / 2 + (b - a) / 2 * nth i pts 0))).
  - apply (rescale_exact N d (fun i => nth i pts 0) (fun i => nth i wts 0) a b H l Hl).
  - intros i Hi. now rewrite (nth_error_nth W i 0 (VW i Hi)), (nth_error_nth P i 0 (VP i Hi)).
Qed.
Print Assumptions C54_rescaled.

(** Rational cosines: multiples of pi/2 and pi/3. *)
Definition Qqcos (k m : nat) : Qc :=
  if (m =? 2)%nat then nth (k mod 4) [Q2Qc 1; Q2Qc 0; Q2Qc (-1); Q2Qc 0] (Q2Qc 0)
  else nth (k mod 6) [Q2Qc 1; Q2Qc (1 # 2); Q2Qc (- 1 # 2); Q2Qc (-1); Q2Qc (- 1 # 2); Q2Qc (1 # 2)] (Q2Qc 0).
Definition Qq : qops := mkQops Qops (Q2Qc (22 # 7)) Qqcos.
Definition qv2 (l : outcome (list Qc * list Qc)) : list Q * list Q := match l with Ok (a, b) => (map this a, map this b) | _ => ([], []) end.
Example C54_run4 : qv2 (clenshaw_curtis (K := Qq) 4 (repeat (Q2Qc 9) 4) (repeat (Q2Qc 9) 4)) =
  ([-1 # 1; -1 # 2; 1 # 2; 1 # 1], [1 # 9; 8 # 9; 8 # 9; 1 # 9])%Q.
Proof. vm_compute. reflexivity. Qed.
Example C54_run3 : qv2 (clenshaw_curtis (K := Qq) 3 (repeat (Q2Qc 9) 3) (repeat (Q2Qc 9) 3)) =
  ([-1 # 1; 0 # 1; 1 # 1], [1 # 3; 4 # 3; 1 # 3])%Q.
Proof. vm_compute. reflexivity. Qed.
Example C54_case : (1 <= 3 <= length [9; 9; 9; 9])%nat /\ (length [1; 2; 3] <= 3)%nat.
Proof. cbn. lia. Qed.

(** * C55 Gauss-Chebyshev *)
Theorem C55_cheb_gauss : forall tol N (pts wts : list R), (1 <= N)%nat -> (N <= length pts)%nat -> (N <= length wts)%nat ->
  exists P W, cheb_gauss (K := Rq tol) N pts wts = Ok (P, W) /\ length P = length pts /\ length W = length wts /\
    (forall i, (N <= i)%nat -> nth_error P i = nth_error pts i /\ nth_error W i = nth_error wts i) /\
    (forall l, (length l <= 2 * N)%nat -> is_RInt (fun t => pe l (cos t)) 0 PI (rs N (fun i => nth i W 0 * pe l (nth i P 0)))).
Proof.
  intros tol N pts wts HN Lp Lw. destruct (cg_ok tol N pts wts Lp Lw) as (P & W & E & (LP & VP & FP) & (LW & VW & FW)).
  exists P, W. split; auto. split; auto. split; auto. split; [auto|]. intros l Hl.
  rewrite (rs_ext N _ (fun i => PI / INR N * pe l (cgX N i))); [now apply cg_exact|].
  intros i Hi. now rewrite (nth_error_nth W i 0 (VW i Hi)), (nth_error_nth P i 0 (VP i Hi)).
Qed.
Print Assumptions C55_cheb_gauss.
Example C55_case : (1 <= 2 <= length [9; 9; 9])%nat /\ (length [1; 2; 3; 4] <= 2 * 2)%nat.
Proof. cbn. lia. Qed.

(** * C56 the rule called fejer2 *)

(** Its nodes are those of Fejer's second rule (the inner Chebyshev extreme
    points); its weights are the inner weights of Clenshaw-Curtis. *)
Theorem C56_fejer2_partial : forall tol N (pts wts : list R), (2 < N)%nat -> (N <= length pts)%nat -> (N <= length wts)%nat ->
  exists P W, fejer2 (K := Rq tol) N pts wts = Ok (P, W) /\ length P = length pts /\ length W = length wts /\
    (forall i, (i < N)%nat -> nth_error P i = Some (cos (PI * INR (N - i) / INR (N + 1)))) /\
    (forall i, (N <= i)%nat -> nth_error P i = nth_error pts i /\ nth_error W i = nth_error wts i).
Proof.
  intros tol N pts wts HN Lp Lw. destruct (fejer2_ok tol N pts wts HN Lp Lw) as (P & W & E & (LP & VP & FP) & (LW & VW & FW)).
  exists P, W. repeat split; auto. intros i Hi. rewrite VP by auto. unfold ccX. replace (N + 1 - (i + 1))%nat with (N - i)%nat by lia. reflexivity.
Qed.
Print Assumptions C56_fejer2_partial.

(** No rule of this routine with more than two points integrates the constant 1. *)
Theorem C56_fejer2_refuted : forall tol N (pts wts : list R), (2 < N)%nat -> (N <= length pts)%nat -> (N <= length wts)%nat ->
  exists P W, fejer2 (K := Rq tol) N pts wts = Ok (P, W) /\
    forall v, is_RInt (fun _ => 1) (-1) 1 v -> rs N (fun i => nth i W 0 * 1) < v.
Proof.
  intros tol N pts wts HN Lp Lw. destruct (fejer2_ok tol N pts wts HN Lp Lw) as (P & W & E & (LP & VP & FP) & (LW & VW & FW)).
  exists P, W. split; auto. intros v Hv. rewrite (is_RInt_unique _ _ _ _ _ Hv (is_RInt_const 1 (-1) 1)).
  rewrite (rs_ext N _ (fun i => ccW (N + 1) (i + 1))).
  - pose proof (fejer2_short N ltac:(lia)). lra.
  - intros i Hi. rewrite (nth_error_nth W i 0 (VW i Hi)). ring.
Qed.
Print Assumptions C56_fejer2_refuted.
Example C56_case : (2 < 3 <= length [9; 9; 9])%nat.
Proof. cbn. lia. Qed.
