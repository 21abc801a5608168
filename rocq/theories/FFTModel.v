(** Model of c3/lib_fft/fft.c.

    Complex numbers are an operations record over a commutative ring; C's [cexp]
    occurs only with an argument [-+2 pi I k / N], which is the function
    [cxW N k] (minus sign) or [cxV N k] (plus sign).  No rounding. *)
From Verif Require Import Base CRing.
From Coq Require Import NArith.

Record cxops := mkCx {
  cx :> CRing;
  cxW : nat -> nat -> cx;          (* cexp(-2 pi I k / N) *)
  cxV : nat -> nat -> cx;          (* cexp( 2 pi I k / N) *)
  cxconj : cx -> cx;
  cxdivn : cx -> nat -> cx;        (* / (double) N *)
  cre : Type;                      (* double *)
  cxof : cre -> cx;                (* double to double complex *)
  cxre : cx -> cre;                (* creal *)
  cre0 : cre;
  rdivn : cre -> nat -> cre        (* double / (double) N *)
}.
Arguments cxW {c}.
Arguments cxV {c}.
Arguments cxconj {c}.
Arguments cxdivn {c}.
Arguments cxof {c}.
Arguments cxre {c}.
Arguments cre0 {c}.
Arguments rdivn {c}.

Section FFT.
  Variable K : cxops.
  Open Scope cr_scope.

  (** fft_slow, fft.c 58-69.  A pointer is an array with an offset. *)
  Definition fft_slow (N : nat) (xin : list K) (ox sx : nat) (xout : list K) (oX sX : nat) : outcome (list K) :=
    for_ N (fun ii xout =>
      do xout <- aset xout (oX + ii * sX) r0;
      for_ N (fun jj xout =>
        do v <- aget xout (oX + ii * sX);
        do x <- aget xin (ox + jj * sx);
        aset xout (oX + ii * sX) (v +! cxW N (ii * jj) *! x)) xout) xout.

  (** ifft_slow, fft.c 74-86. *)
  Definition ifft_slow (N : nat) (xin : list K) (ox sx : nat) (xout : list K) (oX sX : nat) : outcome (list K) :=
    for_ N (fun ii xout =>
      do xout <- aset xout (oX + ii * sX) r0;
      do xout <- for_ N (fun jj xout =>
        do v <- aget xout (oX + ii * sX);
        do x <- aget xin (ox + jj * sx);
        aset xout (oX + ii * sX) (v +! cxV N (ii * jj) *! x)) xout;
      do v <- aget xout (oX + ii * sX);
      aset xout (oX + ii * sX) (cxdivn v N)) xout.

  (** fft_base, fft.c 94-129.  [fuel] bounds the depth of the recursion; the two
      malloc'ed arrays start as zeros (they are written before they are read). *)
  Fixpoint fft_base (fuel N : nat) (x : list K) (ox sx : nat) (X : list K) (oX sX : nat) : outcome (list K) :=
    if N <=? 2 then fft_slow N x ox sx X oX sX
    else
      match fuel with
      | O => OutOfFuel
      | S fuel =>
        do X <- fft_base fuel (N / 2) x ox (2 * sx) X oX (2 * sX);
        do X <- fft_base fuel (N / 2) x (ox + sx) (2 * sx) X (oX + sX) (2 * sX);
        do eo <- for_ (N / 2) (fun ii eo =>
          do a <- aget X (oX + ii * 2 * sX);
          do e <- aset (fst eo) ii a;
          do b <- aget X (oX + (ii * 2 * sX + sX));
          do o <- aset (snd eo) ii b;
          Ok (e, o)) (repeat r0 (N / 2), repeat r0 (N / 2));
        for_ (N / 2) (fun ii X =>
          let twiddle := cxW N ii in
          do e <- aget (fst eo) ii;
          do o <- aget (snd eo) ii;
          do X <- aset X (oX + ii * sX) (e +! twiddle *! o);
          aset X (oX + (ii * sX + N / 2 * sX)) (e -! twiddle *! o)) X
      end.

  (** ifft_base, fft.c 134-147: returns the input array and the output array. *)
  Definition ifft_base (fuel N : nat) (x : list K) (sx : nat) (X : list K) (sX : nat) : outcome (list K * list K) :=
    do x <- for_ N (fun ii x => do v <- aget x (ii * sX); aset x ii (cxconj v)) x;
    do X <- fft_base fuel N x 0 sx X 0 sX;
    for_ N (fun ii xX =>
      do v <- aget (fst xX) (ii * sX);
      do x <- aset (fst xX) (ii * sX) (cxconj v);
      do w <- aget (snd xX) (ii * sX);
      do X <- aset (snd xX) (ii * sX) (cxconj w);
      do w <- aget X (ii * sX);
      do X <- aset X (ii * sX) (cxdivn w N);
      Ok (x, X)) (x, X).

  (** isPowerOfTwo, fft.c 154-157, on size_t with 64 bits: [~x + 1] is the
      negative of x modulo 2^64. *)
  Definition isPowerOfTwo (x : nat) : bool :=
    negb (x =? 0) &&
    (N.land (N.of_nat x) ((2 ^ 64 - N.of_nat x) mod 2 ^ 64) =? N.of_nat x)%N.

  (** fft, fft.c 166-182: return value and output array. *)
  Definition fft (N : nat) (x : list K) (sx : nat) (X : list K) (sX : nat) : outcome (nat * list K) :=
    do _ <- cassert (sx =? 1);
    do _ <- cassert (sX =? 1);
    if isPowerOfTwo N then do X <- fft_base N N x 0 sx X 0 sX; Ok (0, X)
    else Ok (1, X).

  (** ifft, fft.c 184-199. *)
  Definition ifft (N : nat) (x : list K) (sx : nat) (X : list K) (sX : nat) : outcome (nat * list K * list K) :=
    do _ <- cassert (sx =? 1);
    do _ <- cassert (sX =? 1);
    if isPowerOfTwo N then do r <- ifft_base N N x sx X sX; Ok (0, fst r, snd r)
    else Ok (1, x, X).

  (** cheb_vals_to_coeff, fft.c 202-242, for nvals >= 1 (nvals = 0 wraps around):
      return value and coefficient array. *)
  Definition cheb_vals_to_coeff (nvals : nat) (vals coeff : list (cre K)) : outcome (nat * list (cre K)) :=
    let Nin := nvals - 1 in
    if negb (isPowerOfTwo Nin) then Ok (1, coeff)
    else
      let xin := repeat None (2 * Nin) in
      let xout := repeat None (2 * Nin) in
      do v <- aget vals 0;
      do xin <- aset xin 0 (Some (cxof v));
      do xout <- aset xout 0 (Some r0);
      do xout <- aset xout Nin (Some r0);
      do s <- for_from 1 (Nin - 1) (fun ii s =>
        do v <- aget vals ii;
        do xin <- aset (fst s) ii (Some (cxof v));
        do xin <- aset xin (2 * Nin - ii) (Some (cxof v));
        do xout <- aset (snd s) ii (Some r0);
        do xout <- aset xout (ii + Nin) (Some r0);
        Ok (xin, xout)) (xin, xout);
      do v <- aget vals (nvals - 1);
      do xin <- aset (fst s) (nvals - 1) (Some (cxof v));
      do xin <- freeze xin;
      do xout <- freeze (snd s);
      do xout <- fft_base (2 * Nin) (2 * Nin) xin 0 1 xout 0 1;
      do coeff <- for_ nvals (fun ii coeff =>
        do w <- aget xout (nvals - 1 - ii);
        aset coeff ii (rdivn (cxre w) Nin)) coeff;
      do c <- aget coeff 0;
      do coeff <- aset coeff 0 (rdivn c 2);
      do c <- aget coeff (nvals - 1);
      do coeff <- aset coeff (nvals - 1) (rdivn c 2);
      Ok (0, coeff).
End FFT.
Arguments fft_slow {K}.
Arguments ifft_slow {K}.
Arguments fft_base {K}.
Arguments ifft_base {K}.
Arguments fft {K}.
Arguments ifft {K}.
Arguments cheb_vals_to_coeff {K}.
