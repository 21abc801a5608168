(** Property C62: the direct Fourier transforms of every length and stride. *)
From Verif Require Import Base BaseFacts CRing RealInst FOps RIntLib FFTModel FFTFacts FFTMore FFTSlow FFTCheb QuadModel QuadFacts QuadMore QuadCC PropFFT.
From Coq Require Import Reals Lra ZArith.
Local Open Scope R_scope.

(** The output array [X'] has the [N] values [v] at stride [s], the other entries
    of [X]. *)
Definition strided {A} (N s : nat) (v : nat -> A) (X X' : list A) : Prop :=
  length X' = length X /\
  (forall k, (k < N)%nat -> nth_error X' (k * s) = Some (v k)) /\
  (forall i, (forall k, (k < N)%nat -> i <> k * s)%nat -> nth_error X' i = nth_error X i).

Definition idft_re (N : nat) (x : nat -> R * R) (k : nat) : R :=
  rs N (fun j => fst (x j) * cos (2 * PI * INR (j * k) / INR N) - snd (x j) * sin (2 * PI * INR (j * k) / INR N)) / INR N.
Definition idft_im (N : nat) (x : nat -> R * R) (k : nat) : R :=
  rs N (fun j => snd (x j) * cos (2 * PI * INR (j * k) / INR N) + fst (x j) * sin (2 * PI * INR (j * k) / INR N)) / INR N.

Lemma idft_parts N (x : nat -> Cops) k : cxdivn (idft Cops N x k) N = (idft_re N x k, idft_im N x k) :> Cops.
Proof.
  unfold idft, idft_re, idft_im.
  assert (H : forall m, sum m (fun j => rmul (cxV N (j * k)) (x j : Cops) : Cops) =
      (rs m (fun j => fst (x j : R * R) * cos (2 * PI * INR (j * k) / INR N) - snd (x j : R * R) * sin (2 * PI * INR (j * k) / INR N)),
       rs m (fun j => snd (x j : R * R) * cos (2 * PI * INR (j * k) / INR N) + fst (x j : R * R) * sin (2 * PI * INR (j * k) / INR N)))).
  { induction m as [|m IH]; [reflexivity|]. cbn [sum rs]. rewrite IH. cbn. unfold Cadd, Cmul, ang. cbn. f_equal; ring. }
  rewrite H. reflexivity.
Qed.

Theorem C62_fft_slow : forall N (x X : list (R * R)) sx sX (xv : nat -> R * R), (0 < sX)%nat ->
  (forall j, (j < N)%nat -> nth_error x (j * sx) = Some (xv j)) ->
  (forall k, (k < N)%nat -> (k * sX < length X)%nat) ->
  exists X', fft_slow (K := Cops) N x 0 sx X 0 sX = Ok X' /\
    strided N sX (fun k => (dft_re N xv k, dft_im N xv k)) X X'.
Proof.
  intros N x X sx sX xv HsX Hx HX.
  destruct (fft_slow_ok Cops N x 0 sx X 0 sX xv HsX Hx HX) as (X' & E & L & V & F).
  exists X'. split; auto. split; auto. split.
  - intros k Hk. rewrite <- dft_parts. exact (V k Hk).
  - exact F.
Qed.
Print Assumptions C62_fft_slow.

Theorem C62_ifft_slow : forall N (x X : list (R * R)) sx sX (xv : nat -> R * R), (0 < sX)%nat ->
  (forall j, (j < N)%nat -> nth_error x (j * sx) = Some (xv j)) ->
  (forall k, (k < N)%nat -> (k * sX < length X)%nat) ->
  exists X', ifft_slow (K := Cops) N x 0 sx X 0 sX = Ok X' /\
    strided N sX (fun k => (idft_re N xv k, idft_im N xv k)) X X'.
Proof.
  intros N x X sx sX xv HsX Hx HX.
  destruct (ifft_slow_ok Cops N x 0 sx X 0 sX xv HsX Hx HX) as (X' & E & L & V & F).
  exists X'. split; auto. split; auto. split.
  - intros k Hk. rewrite <- idft_parts. exact (V k Hk).
  - exact F.
Qed.
Print Assumptions C62_ifft_slow.

(** The direct inverse undoes the direct transform for every length, not only
    powers of two. *)
Theorem C62_inverse : forall N (x X Y : list (R * R)) sx sX sY (xv : nat -> R * R), (0 < sX)%nat -> (0 < sY)%nat ->
  (forall j, (j < N)%nat -> nth_error x (j * sx) = Some (xv j)) ->
  (forall k, (k < N)%nat -> (k * sX < length X)%nat) ->
  (forall k, (k < N)%nat -> (k * sY < length Y)%nat) ->
  exists X' Y', fft_slow (K := Cops) N x 0 sx X 0 sX = Ok X' /\
    ifft_slow (K := Cops) N X' 0 sX Y 0 sY = Ok Y' /\ strided N sY xv Y Y'.
Proof.
  intros N x X Y sx sX sY xv HsX HsY Hx HX HY.
  destruct (fft_slow_ok Cops N x 0 sx X 0 sX xv HsX Hx HX) as (X' & E & L & V & F).
  destruct (ifft_slow_ok Cops N X' 0 sX Y 0 sY (dft Cops N xv) HsY V HY) as (Y' & E' & L' & V' & F').
  exists X', Y'. split; auto. split; auto. split; auto. split; [|exact F'].
  intros k Hk. specialize (V' k Hk). rewrite Cidft_dft, Cdivn in V' by (auto; lia).
  exact V'.
Qed.
Print Assumptions C62_inverse.

(** The recursive transform on a power of two computes the same, for every pair
    of strides. *)
Theorem C62_fft_base : forall n (x X : list (R * R)) sx sX (xv : nat -> R * R), (0 < sX)%nat ->
  (forall j, (j < 2 ^ n)%nat -> nth_error x (j * sx) = Some (xv j)) ->
  (forall k, (k < 2 ^ n)%nat -> (k * sX < length X)%nat) ->
  exists X', fft_base (K := Cops) n (2 ^ n) x 0 sx X 0 sX = Ok X' /\
    strided (2 ^ n) sX (fun k => (dft_re (2 ^ n) xv k, dft_im (2 ^ n) xv k)) X X'.
Proof.
  intros n x X sx sX xv HsX Hx HX.
  destruct (fft_base_ok Cops CW0 CWadd CWhalf CWneg n n x 0 sx X 0 sX xv) as (X' & E & L & V & F); auto.
  exists X'. split; auto. split; auto. split.
  - intros k Hk. rewrite <- dft_parts. exact (V k Hk).
  - exact F.
Qed.
Print Assumptions C62_fft_base.

(** Gaussian integers, length four, stride two in and three out. *)
Example C62_run : fft_slow (K := Gops) 4 [(1,0); (9,9); (0,2); (9,9); (-3,1); (9,9); (2,2)]%Z 0 2 (repeat (7, 7)%Z 11) 0 3
  = fft_base (K := Gops) 2 4 [(1,0); (9,9); (0,2); (9,9); (-3,1); (9,9); (2,2)]%Z 0 2 (repeat (7, 7)%Z 11) 0 3.
Proof. vm_compute. reflexivity. Qed.
Example C62_case : (forall j, (j < 3)%nat -> nth_error [(1, 2); (0, 0); (3, 4); (0, 0); (5, 6)] (j * 2)
    = Some (nth j [(1, 2); (3, 4); (5, 6)] (0, 0))) /\
  (forall k, (k < 3)%nat -> (k * 3 < length (repeat (0, 0) 7))%nat).
Proof.
  split; intros k Hk; [|cbn; lia].
  destruct k as [|[|[|k]]]; try reflexivity. lia.
Qed.
