(** Reference semantics of the BLAS routines called by the modelled code, on
    checked arrays.  These are external library calls; the definitions follow
    the reference BLAS (netlib) and are part of the trusted base. *)
From Verif Require Export CRing.

Section Blas.
  Context {R : CRing}.
  Open Scope cr_scope.

  (** Dot product of [n] entries, first vector starting at [oa] with increment
      [ia], second at [ob] with increment [ib]. *)
  Definition ddot (n : nat) (a : list R) (oa ia : nat) (b : list R) (ob ib : nat) : outcome R :=
    for_ n (fun i acc =>
              do x <- aget a (oa + i * ia);
              do y <- aget b (ob + i * ib);
              Ok (acc +! x *! y)) r0.

  (** [cblas_dgemv(CblasColMajor, CblasTrans, m, n, 1.0, A, lda, x, 1, 0.0, y, 1)]:
      y[j] = sum_i A[j*lda+i] x[i].  With [m = 0] or [n = 0] the routine
      returns without touching [y]. *)
  Definition dgemv_t (m n : nat) (A : list R) (lda : nat) (x y : list R) : outcome (list R) :=
    if (m =? 0) || (n =? 0) then Ok y
    else for_ n (fun j y =>
                   do s <- ddot m A (j * lda) 1 x 0 1;
                   aset y j s) y.

  (** [cblas_dgemv(CblasColMajor, CblasNoTrans, m, n, 1.0, A, lda, x, 1, 0.0, y, 1)]:
      y[i] = sum_j A[j*lda+i] x[j]. *)
  Definition dgemv_n (m n : nat) (A : list R) (lda : nat) (x y : list R) : outcome (list R) :=
    if (m =? 0) || (n =? 0) then Ok y
    else for_ m (fun i y =>
                   do s <- ddot n A i lda x 0 1;
                   aset y i s) y.

  (** [cblas_dgemm(CblasColMajor, CblasNoTrans, CblasNoTrans, m, n, k, 1.0,
       A, lda, B, ldb, 0.0, C, ldc)]:
      C[j*ldc+i] = sum_l A[l*lda+i] B[j*ldb+l].  With [k = 0] and beta = 0 the
      routine sets C to zero (which the empty sum gives as well). *)
  Definition dgemm_nn (m n k : nat) (A : list R) (lda : nat) (B : list R) (ldb : nat)
             (C : list R) (ldc : nat) : outcome (list R) :=
    for_ n (fun j C =>
      for_ m (fun i C =>
                do s <- ddot k A i lda B (j * ldb) 1;
                aset C (j * ldc + i) s) C) C.
End Blas.
