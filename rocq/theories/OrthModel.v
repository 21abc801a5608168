(** Model of the orthogonalisation of quasimatrix arrays: Gram-Schmidt
    (qmarray.c:4152-4212), Householder (qmarray.c:3851-4150) and the orthonormal
    starting arrays (qmarray.c:403-600).  Scalars are real numbers (the C code uses
    [double]; rounding is not modelled); the threshold ZERO is a parameter. *)
From Coq Require Import Reals Lra.
From Verif Require Export RealInst FOps FTModel.
Open Scope R_scope.

(** In-place operations on univariate functions (parameters of the model). *)
Record vops (U : Type) := mkvops {
  (** functions.c:1221 generic_function_scale *)
  vscale : R -> U -> U;
  (** functions.c:1168 generic_function_axpy(a,x,y): new value of [y].  A failure
      (return value 1) is not modelled. *)
  vaxpy : R -> U -> U -> U;
  (** functions.c:1106 generic_function_flip_sign *)
  vflip : U -> U;
  (** funcs_mixed.c:344 generic_function_weighted_sum_pa(a,x,b,y,&z): value of [z],
      whose content was NULL *)
  vwsum : R -> U -> R -> U -> U
}.
Arguments vscale {U}.
Arguments vaxpy {U}.
Arguments vflip {U}.
Arguments vwsum {U}.

Section OrthModel.
  Context {U : uops Rring} (W : vops U) (zro : R).

  (** functions.c:1710-1723 generic_function_norm *)
  Definition gf_norm (f : U) : outcome R :=
    let out : R := uinner f f in
    if Rltb out 0 then Abort else Ok (sqrt out).

  (** functions.c:1887-1900 generic_function_array_norm, [a] offset by [oa] *)
  Definition array_norm (n lda : nat) (a : list U) (oa : nat) : outcome R :=
    do val <- for_ n (fun ii (val : R) =>
                do f <- aget a (oa + lda * ii)%nat;
                do x <- gf_norm f;
                Ok (val + x * x)) 0;
    Ok (sqrt val).

  (** functions.c:1233-1240 generic_function_array_scale (stride 1) and the loops
      with a stride in qmarray.c:4192-4194, 4110-4112 *)
  Definition array_scale (c : R) (a : list U) (oa lda n : nat) : outcome (list U) :=
    for_ n (fun ii a =>
      do f <- aget a (oa + ii * lda)%nat;
      aset a (oa + ii * lda)%nat (vscale W c f)) a.

  (** functions.c:1119-1125 generic_function_array_flip_sign *)
  Definition array_flip_sign (n lda : nat) (a : list U) (oa : nat) : outcome (list U) :=
    for_ n (fun ii a =>
      do f <- aget a (oa + ii * lda)%nat;
      aset a (oa + ii * lda)%nat (vflip W f)) a.

  (** functions.c:1194-1213 generic_function_array_axpy (stride 1) and the loops
      with a stride: y[i] <- c x[i] + y[i] *)
  Definition array_axpy (n : nat) (c : R) (x : list U) (ox ldx : nat)
             (y : list U) (oy ldy : nat) : outcome (list U) :=
    for_ n (fun ii y =>
      do f <- aget x (ox + ii * ldx)%nat;
      do g <- aget y (oy + ii * ldy)%nat;
      aset y (oy + ii * ldy)%nat (vaxpy W c f g)) y.

  (** The same when both vectors lie in one array. *)
  Definition array_axpy_in (n : nat) (c : R) (a : list U) (ox oy ld : nat) : outcome (list U) :=
    for_ n (fun ii a =>
      do f <- aget a (ox + ii * ld)%nat;
      do g <- aget a (oy + ii * ld)%nat;
      aset a (oy + ii * ld)%nat (vaxpy W c f g)) a.

  (** Gram-Schmidt on [n] vectors of length [len].  Vector [i] starts at [i * si],
      its entries are [sk] apart; the coefficient of vector [j] along vector [i] is
      stored at [rp i j].  qmarray.c:4152-4178 (columns) and qmarray.c:4181-4212
      (rows) are this text with the two strides exchanged. *)
  Definition gs_iter (n len si sk : nat) (rp : nat -> nat -> nat) (ii : nat)
             (s : list U * list R) : outcome (list U * list R) :=
    let '(A, M) := s in
    do r <- array_norm len sk A (ii * si)%nat;
    do M <- aset M (rp ii ii) r;
    if Rltb zro r then
      do A <- array_scale (1 / r) A (ii * si)%nat sk len;
      for_from (ii + 1)%nat (n - (ii + 1))%nat (fun jj (s : list U * list R) =>
        let '(A, M) := s in
        do c <- inner_sum len sk A (ii * si)%nat sk A (jj * si)%nat;
        do M <- aset M (rp ii jj) c;
        do A <- array_axpy_in len (- c) A (ii * si)%nat (jj * si)%nat sk;
        Ok (A, M)) (A, M)
    else Abort.
  Definition gram_schmidt (n len si sk : nat) (rp : nat -> nat -> nat)
             (A : list U) (M : list R) : outcome (list U * list R) :=
    for_ n (gs_iter n len si sk rp) (A, M).

  (** qmarray.c:4152-4178 qmarray_qr_gs; [M] is the array for R (calloc'd by the
      callee when NULL): result is the overwritten A and R. *)
  Definition qmarray_qr_gs (A : qma U) (M : list R) : outcome (qma U * list R) :=
    do (f, M) <- gram_schmidt (nc A) (nr A) (nr A) 1 (fun i j => j * nc A + i)%nat (fs A) M;
    Ok (mkq (nr A) (nc A) f, M).

  (** qmarray.c:4181-4212 qmarray_lq_gs *)
  Definition qmarray_lq_gs (A : qma U) (M : list R) : outcome (qma U * list R) :=
    do (f, M) <- gram_schmidt (nr A) (nc A) 1 (nr A) (fun i j => i * nr A + j)%nat (fs A) M;
    Ok (mkq (nr A) (nc A) f, M).

  (** One iteration of the main loop of qmarray_qr (qmarray.c:3884-3977) and
      qmarray_lq (qmarray.c:4047-4127).  [V] is an array of slots (its functions are
      allocated without content). *)
  Definition house_iter (n len si sk : nat) (rp : nat -> nat -> nat) (ii : nat)
             (s : list U * list U * list (option U) * list R)
    : outcome (list U * list U * list (option U) * list R) :=
    let '(A, Q, V, M) := s in
    do rho <- array_norm len sk A (ii * si)%nat;
    do M <- aset M (rp ii ii) rho;
    do alpha <- inner_sum len sk Q (ii * si)%nat sk A (ii * si)%nat;
    do Q <- (if Rltb (Rabs alpha) zro then Ok Q
             else if Rltb (- alpha / Rabs alpha) 0
                  then array_flip_sign len sk Q (ii * si)%nat else Ok Q);
    (* v: the new column of V, with entries 1 apart *)
    do v <- for_ len (fun kk v =>
              do f <- aget Q (ii * si + kk * sk)%nat;
              do g <- aget A (ii * si + kk * sk)%nat;
              aset v kk (Some (vwsum W rho f (-1) g))) (slots len);
    do v <- freeze v;
    (* improve orthogonality *)
    do v <- for_ ii (fun zz v =>
              do c <- inner_sum len 1 v 0 sk Q (zz * si)%nat;
              array_axpy len (- c) Q (zz * si)%nat sk v 0 1) v;
    do sg <- inner_sum len 1 v 0 1 v 0;
    let sigma := sqrt sg in
    do v <- (if Rltb (Rabs sigma) zro
             then for_ len (fun kk v =>
                    do f <- aget Q (ii * si + kk * sk)%nat;
                    aset v kk f) v
             else array_scale (1 / sigma) v 0 1 len);
    do V <- for_ len (fun kk V =>
              do f <- aget v kk;
              aset V (ii * si + kk * sk)%nat (Some f)) V;
    do ev <- inner_sum len sk Q (ii * si)%nat 1 v 0;
    do (A, M) <- for_from (ii + 1)%nat (n - (ii + 1))%nat (fun kk (s : list U * list R) =>
        let '(A, M) := s in
        do temp <- inner_sum len 1 v 0 sk A (kk * si)%nat;
        do c <- inner_sum len sk Q (ii * si)%nat sk A (kk * si)%nat;
        let r := c + (-2 * ev * temp) in
        do M <- aset M (rp ii kk) r;
        do A <- for_ len (fun ll A =>
                  do f <- aget v ll;
                  do g <- aget A (kk * si + ll * sk)%nat;
                  do A <- aset A (kk * si + ll * sk)%nat (vaxpy W (-2 * temp) f g);
                  do f <- aget Q (ii * si + ll * sk)%nat;
                  do g <- aget A (kk * si + ll * sk)%nat;
                  aset A (kk * si + ll * sk)%nat (vaxpy W (- r) f g)) A;
        Ok (A, M)) (A, M);
    Ok (A, Q, V, M).

  (** qmarray.c:3990-4010 and 4130-4146: form Q from the reflectors.  The loop runs
      [ii] from n-1 down to 0. *)
  Definition house_q (n len si sk : nat) (V Q : list U) : outcome (list U) :=
    for_ n (fun counter Q =>
      let ii := (n - 1 - counter)%nat in
      for_from ii (n - ii)%nat (fun jj Q =>
        do val <- inner_sum len sk Q (jj * si)%nat sk V (ii * si)%nat;
        array_axpy len (-2 * val) V (ii * si)%nat sk Q (jj * si)%nat sk) Q) Q.

  (** qmarray.c:3851-4022 qmarray_qr and qmarray.c:4025-4150 qmarray_lq are the same
      text with the strides exchanged.  (Working on a copy [v] of column [ii] of V and
      writing it back once is a simplification: no other column of V is touched in
      the iteration.) *)
  Definition householder (n len si sk : nat) (rp : nat -> nat -> nat)
             (A Q : list U) (M : list R) : outcome (list U * list R) :=
    do (s, M) <- for_ n (house_iter n len si sk rp) (A, Q, slots (n * len), M);
    let '(_, Q, V) := s in
    do V <- freeze V;
    do Q <- house_q n len si sk V Q;
    Ok (Q, M).

  (** qmarray.c:3851-4022 qmarray_qr, given the starting Q and the array for R *)
  Definition qmarray_qr (A Q : qma U) (M : list R) : outcome (qma U * list R) :=
    do (f, M) <- householder (nc A) (nr A) (nr A) 1 (fun i j => j * nc A + i)%nat (fs A) (fs Q) M;
    Ok (mkq (nr A) (nc A) f, M).

  (** qmarray.c:4025-4150 qmarray_lq *)
  Definition qmarray_lq (A Q : qma U) (M : list R) : outcome (qma U * list R) :=
    do (f, M) <- householder (nr A) (nc A) 1 (nr A) (fun i j => i * nr A + j)%nat (fs A) (fs Q) M;
    Ok (mkq (nr A) (nc A) f, M).

  (** Orthonormal univariate functions and the zero function:
      [orth n] are the functions made by generic_function_array_orth(n,...) and
      [uzero] is generic_function_constant(0.0,...) (functions.c; class specific). *)
  Context (orth : nat -> list U) (uzero : U).

  (** The loop shared by qmarray.c:551-580 and 427-455: vector [jj] has one function
      of order [onorder] at position [onnon].  The isnan test on the norm cannot
      succeed for real numbers. *)
  Definition orth1d (n len si sk : nat) : outcome (list U) :=
    let funcs := orth n in
    do s <- for_ n (fun jj (s : list (option U) * (nat * nat)) =>
        let '(q, (onnon, onorder)) := s in
        do f <- aget funcs onorder;
        do q <- aset q (jj * si + onnon * sk)%nat (Some f);
        do _ <- gf_norm f;
        do q <- for_ onnon (fun kk q => aset q (jj * si + kk * sk)%nat (Some uzero)) q;
        do q <- for_from (onnon + 1)%nat (len - (onnon + 1))%nat
                  (fun kk q => aset q (jj * si + kk * sk)%nat (Some uzero)) q;
        if (onnon + 1 =? len)%nat then Ok (q, (0%nat, (onorder + 1)%nat))
        else Ok (q, ((onnon + 1)%nat, onorder)))
      (slots (n * len), (0%nat, 0%nat));
    freeze (fst s).

  (** qmarray.c:480-600 qmarray_orth1d_columns *)
  Definition qmarray_orth1d_columns (nrows ncols : nat) : outcome (qma U) :=
    do f <- orth1d ncols nrows nrows 1; Ok (mkq nrows ncols f).
  (** qmarray.c:403-466 qmarray_orth1d_rows (its assertion onorder < nrows is the
      bounds check of [funcs]) *)
  Definition qmarray_orth1d_rows (nrows ncols : nat) : outcome (qma U) :=
    do f <- orth1d nrows ncols 1 nrows; Ok (mkq nrows ncols f).

  (** qmarray.c:2941-3022 qmarray_householder_simple for every class except PIECEWISE
      ("QR" and "LQ"); [M] is the caller's calloc'd array. *)
  Definition householder_simple_qr (A : qma U) (M : list R) : outcome (qma U * list R) :=
    do Q <- qmarray_orth1d_columns (nr A) (nc A);
    qmarray_qr A Q M.
  Definition householder_simple_lq (A : qma U) (M : list R) : outcome (qma U * list R) :=
    do Q <- qmarray_orth1d_rows (nr A) (nc A);
    qmarray_lq A Q M.
End OrthModel.
