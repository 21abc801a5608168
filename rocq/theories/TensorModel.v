(** Model of the discrete tensor code: c3/lib_tensor/tensor.c,
    c3/lib_tensdecomp/tensortrain.c, tt_multilinalg.c, tt_integrate.c and the
    Kronecker routines of c3/lib_linalg/linalg.c.  Scalars are the elements of a
    commutative ring (the C code uses [double]; rounding is not modelled). *)
From Verif Require Export CRing.

(** [memmove(dst+od, src+os, n * sizeof(T))] for distinct arrays. *)
Definition blit {A} (dst : list A) (od : nat) (src : list A) (os n : nat) : outcome (list A) :=
  for_ n (fun i dst => do v <- aget src (os + i); aset dst (od + i) v) dst.

Section TensorModel.
  Context {R : CRing}.
  Open Scope cr_scope.

  (** * linalg.c *)
  (** c3/lib_linalg/linalg.h struct mat *)
  Record mat := mkmat { m_nrows : nat; m_ncols : nat; m_vals : list R }.

  (** linalg.c:564-591 kron (row-major matrices) *)
  Definition kron (a b : mat) : outcome mat :=
    let nrows := m_nrows a * m_nrows b in
    let ncols := m_ncols a * m_ncols b in
    do v <- for_ (m_nrows a) (fun ii v =>
            for_ (m_ncols a) (fun jj v =>
            for_ (m_nrows b) (fun kk v =>
            for_ (m_ncols b) (fun ll v =>
              let row := ii * m_nrows b + kk in
              let col := jj * m_ncols b + ll in
              do x <- aget (m_vals a) (ii * m_ncols a + jj);
              do y <- aget (m_vals b) (kk * m_ncols b + ll);
              aset v (row * ncols + col) (x *! y)) v) v) v) (repeat r0 (nrows * ncols));
    Ok (mkmat nrows ncols v).

  (** linalg.c:617-636 kron_col; [oa], [ob], [oo] are the offsets of the
      pointers passed by the caller *)
  Definition kron_col (n m : nat) (a : list R) (oa lda k l : nat) (b : list R) (ob ldb : nat)
             (out : list R) (oo ldc : nat) : outcome (list R) :=
    for_ n (fun ii out =>
    for_ m (fun jj out =>
    for_ k (fun kk out =>
    for_ l (fun ll out =>
      let row := ii * k + kk in
      let col := jj * l + ll in
      do x <- aget a (oa + (jj * lda + ii));
      do y <- aget b (ob + (ll * ldb + kk));
      aset out (oo + (col * ldc + row)) (x *! y)) out) out) out) out.

  (** [cblas_dgemm(CblasRowMajor, CblasNoTrans, CblasTrans, M, N, K, 1.0, A, lda,
      B, ldb, beta, C, ldc)], reference semantics: an illegal leading dimension
      calls cblas_xerbla, which exits; otherwise
      C[i*ldc+j] = sum_p A[i*lda+p] B[j*ldb+p] + beta C[i*ldc+j]. *)
  Definition dgemm_rnt (M N K : nat) (A : list R) (oa lda : nat) (B : list R) (ob ldb : nat)
             (beta : R) (C : list R) (ldc : nat) : outcome (list R) :=
    do _ <- cassert (Nat.max 1 K <=? lda);
    do _ <- cassert (Nat.max 1 K <=? ldb);
    do _ <- cassert (Nat.max 1 N <=? ldc);
    for_ M (fun i C =>
    for_ N (fun j C =>
      do s <- for_ K (fun p s =>
                do x <- aget A (oa + (i * lda + p));
                do y <- aget B (ob + (j * ldb + p));
                Ok (s +! x *! y)) r0;
      do c <- aget C (i * ldc + j);
      aset C (i * ldc + j) (s +! beta *! c)) C) C.

  (** linalg.c:660-671 vec_kron.  Note the leading dimension [n] of the
      (n x l) result of the second product. *)
  Definition vec_kron (m n : nat) (a : list R) (oa lda k l : nat) (b : list R) (ob ldb : nat)
             (v : list R) (scale : R) (out : list R) : outcome (list R) :=
    do temp <- dgemm_rnt l m k b ob ldb v 0 k r0 (repeat r0 (m * l)) m;
    dgemm_rnt n l m a oa lda temp 0 m scale out n.

  (** * tensor.c *)
  (** c3/lib_tensor/tensor.h struct tensor *)
  Record tensor := mktn { t_dim : nat; t_nvals : list nat; t_vals : list R }.

  (** array.c iprod_sz *)
  Definition iprod (l : list nat) : nat := fold_left Nat.mul l 1.

  (** tensor.c:68-82 init_tensor *)
  Definition init_tensor (nvals : list nat) : tensor :=
    mktn (length nvals) nvals (repeat r0 (iprod nvals)).

  (** tensor.c:92-103 tensor_elem *)
  Definition tensor_elem (t : tensor) (elem : list nat) : outcome R :=
    do e0 <- aget elem 0;
    do n0 <- aget (t_nvals t) 0;
    do (big, mult) <- for_from 1 (t_dim t - 1) (fun ii (s : nat * nat) =>
        do e <- aget elem ii;
        do n <- aget (t_nvals t) ii;
        Ok (fst s + e * snd s, snd s * n)) (e0, n0);
    aget (t_vals t) big.

  (** The three mode sizes of a three-way tensor. *)
  Definition dims3 (t : tensor) : outcome (nat * nat * nat) :=
    do a <- aget (t_nvals t) 0;
    do b <- aget (t_nvals t) 1;
    do c <- aget (t_nvals t) 2;
    Ok (a, b, c).

  (** tensor.c:235-253 tensor_stack2h_3d *)
  Definition stack2h (a b : tensor) : outcome tensor :=
    do (a0, a1, a2) <- dims3 a;
    do (b0, b1, b2) <- dims3 b;
    let nvals := [a0; a1; a2 + b2] in
    do v <- blit (repeat r0 (iprod nvals)) 0 (t_vals a) 0 (a0 * a1 * a2);
    do v <- blit v (a0 * a1 * a2) (t_vals b) 0 (a0 * a1 * b2);
    Ok (mktn 3 nvals v).

  (** tensor.c:267-291 tensor_stack2v_3d *)
  Definition stack2v (a b : tensor) : outcome tensor :=
    do (a0, a1, a2) <- dims3 a;
    do b0 <- aget (t_nvals b) 0;
    let n0 := a0 + b0 in
    let n1 := a1 in
    let n2 := a2 in
    do v <- for_ n1 (fun ii v =>
            for_ n2 (fun jj v =>
              do v <- blit v (ii * n0 + jj * n0 * n1) (t_vals a) (ii * a0 + jj * a0 * n1) a0;
              blit v (a0 + ii * n0 + jj * n0 * n1) (t_vals b) (ii * b0 + jj * b0 * n1) b0) v)
            (repeat r0 (iprod [n0; n1; n2]));
    Ok (mktn 3 [n0; n1; n2] v).

  (** tensor.c:306-334 tensor_blockdiag_3d *)
  Definition blockdiag3 (a b : tensor) : outcome tensor :=
    do (a0, a1, a2) <- dims3 a;
    do (b0, b1, b2) <- dims3 b;
    let ur := init_tensor [a0; a1; b2] in
    let ll := init_tensor [b0; b1; a2] in
    do up <- stack2h a ur;
    do down <- stack2h ll b;
    stack2v up down.

  (** tensor.c:380-396 tensor_ones_3d *)
  Definition ones3 (rankl N rankr : nat) : outcome tensor :=
    let nvals := [rankl; N; rankr] in
    do v <- for_ (iprod nvals) (fun ii v => aset v ii r1) (repeat r0 (iprod nvals));
    Ok (mktn 3 nvals v).

  (** tensor.c:398-409 tensor_x_3d *)
  Definition x3 (N : nat) (x : list R) : outcome tensor :=
    do v <- blit (repeat r0 (iprod [1; N; 1])) 0 x 0 N;
    Ok (mktn 3 [1; N; 1] v).

  (** tensor.c:412-427 tensor_sum2 *)
  Definition sum2 (t : tensor) (b : list R) : outcome (list R) :=
    do (n0, n1, n2) <- dims3 t;
    for_ n1 (fun ii out =>
    for_ n2 (fun jj out =>
    for_ n0 (fun kk out =>
      do o <- aget out (jj * n0 + kk);
      do w <- aget b ii;
      do v <- aget (t_vals t) (kk + ii * n0 + jj * n0 * n1);
      aset out (jj * n0 + kk) (o +! w *! v)) out) out) (repeat r0 (n0 * n2)).

  (** tensor.c:430-446 tensor_kron_3d *)
  Definition kron3 (a b : tensor) : outcome tensor :=
    do (a0, a1, a2) <- dims3 a;
    do (b0, b1, b2) <- dims3 b;
    let n0 := a0 * b0 in
    let n1 := a1 in
    let n2 := a2 * b2 in
    do v <- for_ n1 (fun ii v =>
              kron_col a0 a2 (t_vals a) (ii * a0) (a0 * a1)
                       b0 b2 (t_vals b) (ii * b0) (b0 * b1)
                       v (ii * n0) (n0 * n1)) (repeat r0 (iprod [n0; n1; n2]));
    Ok (mktn 3 [n0; n1; n2] v).

  (** tensor.c:461-486 tensor_copy_3d.  The transposed copy is initialised with
      the mode sizes of the original ([init_tensor(&out,3,t->nvals)]). *)
  Definition copy3 (t : tensor) (transpose : bool) : outcome tensor :=
    do (a0, a1, a2) <- dims3 t;
    if negb transpose then
      do v <- blit (repeat r0 (iprod [a0; a1; a2])) 0 (t_vals t) 0 (iprod [a0; a1; a2]);
      Ok (mktn 3 [a0; a1; a2] v)
    else
      let n0 := a2 in
      let n1 := a1 in
      let n2 := a0 in
      do v <- for_ n0 (fun ii v =>
              for_ n1 (fun jj v =>
              for_ n2 (fun kk v =>
                do x <- aget (t_vals t) (kk + jj * n2 + ii * n1 * n2);
                aset v (ii + jj * n0 + kk * n0 * n1) x) v) v)
              (repeat r0 (iprod [a0; a1; a2]));
      Ok (mktn 3 [a0; a1; a2] v).

  (** * tensortrain.c *)
  (** c3/lib_tensdecomp/tensortrain.h struct tt *)
  Record ttrain := mktt { tt_dim : nat; tt_nvals : list nat; tt_ranks : list nat; tt_cores : list tensor }.

  (** tensortrain.c:68-88 init_tt_alloc: ranks 1,0,...,0 and unset cores *)
  Definition tt_alloc_ranks (d : nat) : list nat := 1 :: repeat 0 d.
  Definition tt_alloc_cores (d : nat) : list (option tensor) := repeat None d.

  (** tensortrain.c:99-110 copy_tt *)
  Definition copy_tt (a : ttrain) : outcome ttrain :=
    do rk <- blit (tt_alloc_ranks (tt_dim a)) 0 (tt_ranks a) 0 (tt_dim a + 1);
    do cs <- for_ (tt_dim a) (fun ii cs =>
        do c <- aget (tt_cores a) ii;
        do c' <- copy3 c false;
        aset cs ii (Some c')) (tt_alloc_cores (tt_dim a));
    do cs' <- freeze cs;
    Ok (mktt (tt_dim a) (tt_nvals a) rk cs').

  (** tensortrain.c:143-154 tt_ones *)
  Definition tt_ones (d : nat) (nvals : list nat) : outcome ttrain :=
    do (rk, cs) <- for_ d (fun ii (s : list nat * list (option tensor)) =>
        do rk <- aset (fst s) ii 1;
        do n <- aget nvals ii;
        do c <- ones3 1 n 1;
        do cs <- aset (snd s) ii (Some c);
        Ok (rk, cs)) (tt_alloc_ranks d, tt_alloc_cores d);
    do rk <- aset rk d 1;
    do cs' <- freeze cs;
    Ok (mktt d nvals rk cs').

  (** tensortrain.c:156-178 tt_x: note [tensor_ones_3d(1,1,nvals[ii])] *)
  Definition tt_x (x : list R) (dimx d : nat) (nvals : list nat) : outcome ttrain :=
    let one ii (s : list nat * list (option tensor)) :=
        do rk <- aset (fst s) ii 1;
        do n <- aget nvals ii;
        do c <- ones3 1 1 n;
        do cs <- aset (snd s) ii (Some c);
        Ok (rk, cs) in
    do (rk, cs) <- for_ dimx one (tt_alloc_ranks d, tt_alloc_cores d);
    do rk <- aset rk dimx 1;
    do n <- aget nvals dimx;
    do c <- x3 n x;
    do cs <- aset cs dimx (Some c);
    do (rk, cs) <- for_from (dimx + 1) (d - (dimx + 1)) one (rk, cs);
    do rk <- aset rk d 1;
    do cs' <- freeze cs;
    Ok (mktt d nvals rk cs').

  (** [cblas_dgemv(CblasColMajor, CblasTrans, m, n, 1.0, A, lda, x, incx, 0.0, y, 1)]
      on a zeroed array [y] of [n] elements; reference semantics: an illegal
      leading dimension or increment calls xerbla, which exits. *)
  Definition dgemv_tx (m n : nat) (A : list R) (oa lda : nat) (x : list R) (ox incx : nat)
    : outcome (list R) :=
    do _ <- cassert (Nat.max 1 m <=? lda);
    do _ <- cassert (negb (incx =? 0));
    for_ n (fun j y =>
      do s <- for_ m (fun i s =>
                do u <- aget A (oa + (j * lda + i));
                do w <- aget x (ox + i * incx);
                Ok (s +! u *! w)) r0;
      aset y j s) (repeat r0 n).

  (** tensortrain.c:180-210 ttelem.  Note the leading dimension
      [ranks[ii+1]*nvals[1]] inside the loop. *)
  Definition ttelem (t : ttrain) (elem : list nat) : outcome R :=
    do k0 <- aget (tt_ranks t) 0;
    do k1 <- aget (tt_ranks t) 1;
    do k2 <- aget (tt_ranks t) 2;
    do n0 <- aget (tt_nvals t) 0;
    do n1 <- aget (tt_nvals t) 1;
    do e0 <- aget elem 0;
    do e1 <- aget elem 1;
    do c0 <- aget (tt_cores t) 0;
    do c1 <- aget (tt_cores t) 1;
    do vec <- dgemv_tx k1 k2 (t_vals c1) (e1 * k1) (k1 * n1) (t_vals c0) (e0 * k0) (k0 * n0);
    do vec <- for_from 1 (tt_dim t - 1 - 1) (fun ii vec =>
        do ra <- aget (tt_ranks t) (ii + 1);
        do rb <- aget (tt_ranks t) (ii + 2);
        do e <- aget elem (ii + 1);
        do c <- aget (tt_cores t) (ii + 1);
        dgemv_tx ra rb (t_vals c) (e * ra) (ra * n1) vec 0 1) vec;
    aget vec 0.

  (** * tt_multilinalg.c *)
  (** tt_multilinalg.c:175-181 ttscal: cblas_dscal on the first core *)
  Definition ttscal (t : ttrain) (s : R) : outcome ttrain :=
    do c0 <- aget (tt_cores t) 0;
    do (n0, n1, n2) <- dims3 c0;
    do v <- for_ (n0 * n1 * n2) (fun i v => do x <- aget v i; aset v i (s *! x)) (t_vals c0);
    do cs <- aset (tt_cores t) 0 (mktn (t_dim c0) (t_nvals c0) v);
    Ok (mktt (tt_dim t) (tt_nvals t) (tt_ranks t) cs).

  (** tt_multilinalg.c:195-208 ttmult *)
  Definition ttmult (a b : ttrain) : outcome ttrain :=
    let d := tt_dim a in
    do (rk, cs) <- for_ d (fun ii (s : list nat * list (option tensor)) =>
        do ra <- aget (tt_ranks a) ii;
        do rb <- aget (tt_ranks b) ii;
        do rk <- aset (fst s) ii (ra * rb);
        do ca <- aget (tt_cores a) ii;
        do cb <- aget (tt_cores b) ii;
        do c <- kron3 ca cb;
        do cs <- aset (snd s) ii (Some c);
        Ok (rk, cs)) (tt_alloc_ranks d, tt_alloc_cores d);
    do ra <- aget (tt_ranks a) d;
    do rb <- aget (tt_ranks b) d;
    do rk <- aset rk d (ra * rb);
    do cs' <- freeze cs;
    Ok (mktt d (tt_nvals a) rk cs').

  (** tt_multilinalg.c:221-243 ttadd *)
  Definition ttadd (a b : ttrain) : outcome ttrain :=
    let d := tt_dim a in
    do a0 <- aget (tt_cores a) 0;
    do b0 <- aget (tt_cores b) 0;
    do c0 <- stack2h a0 b0;
    do cs <- aset (tt_alloc_cores d) 0 (Some c0);
    do r <- aget (tt_ranks a) 0;
    do rk <- aset (tt_alloc_ranks d) 0 r;
    do (rk, cs) <- for_from 1 (d - 1 - 1) (fun ii (s : list nat * list (option tensor)) =>
        do ca <- aget (tt_cores a) ii;
        do cb <- aget (tt_cores b) ii;
        do c <- blockdiag3 ca cb;
        do cs <- aset (snd s) ii (Some c);
        do ra <- aget (tt_ranks a) ii;
        do rb <- aget (tt_ranks b) ii;
        do rk <- aset (fst s) ii (ra + rb);
        Ok (rk, cs)) (rk, cs);
    do ra <- aget (tt_ranks a) (d - 1);
    do rb <- aget (tt_ranks b) (tt_dim b - 1);
    do rk <- aset rk (d - 1) (ra + rb);
    do ca <- aget (tt_cores a) (d - 1);
    do cb <- aget (tt_cores b) (tt_dim b - 1);
    do c <- stack2v ca cb;
    do cs <- aset cs (d - 1) (Some c);
    do rl <- aget (tt_ranks a) d;
    do rk <- aset rk d rl;
    do cs' <- freeze cs;
    Ok (mktt d (tt_nvals a) rk cs').

  (** tt_multilinalg.c:246-347 tt_dot: v2a and v2b are freed and reallocated in
      turn, which the model renders as one array *)
  Definition tt_dot (a b : ttrain) : outcome R :=
    do ra1 <- aget (tt_ranks a) 1;
    do rb1 <- aget (tt_ranks b) 1;
    do na0 <- aget (tt_nvals a) 0;
    do nb0 <- aget (tt_nvals b) 0;
    do a0 <- aget (tt_cores a) 0;
    do b0 <- aget (tt_cores b) 0;
    do v <- for_ na0 (fun ii v =>
            for_ ra1 (fun j v =>
            for_ rb1 (fun i v =>
              do x <- aget (t_vals b0) (ii + i * nb0);
              do y <- aget (t_vals a0) (ii + j * na0);
              do c <- aget v (j * rb1 + i);
              aset v (j * rb1 + i) (x *! y +! c)) v) v) (repeat r0 (ra1 * rb1));
    do v <- for_from 1 (tt_dim a - 1) (fun ii v =>
        do ra <- aget (tt_ranks a) ii;
        do ra' <- aget (tt_ranks a) (ii + 1);
        do rb <- aget (tt_ranks b) ii;
        do rb' <- aget (tt_ranks b) (ii + 1);
        do na <- aget (tt_nvals a) ii;
        do nb <- aget (tt_nvals b) ii;
        do ca <- aget (tt_cores a) ii;
        do cb <- aget (tt_cores b) ii;
        for_ na (fun jj out =>
          vec_kron ra ra' (t_vals ca) (jj * ra) (ra * na)
                   rb rb' (t_vals cb) (jj * rb) (rb * nb) v r1 out)
          (repeat r0 (ra' * rb'))) v;
    aget v 0.

  (** * tt_integrate.c *)
  (** tt_integrate.c:46-88 tt_integrate: temp1 and temp2 are freed and
      reallocated in turn, which the model renders as one array *)
  Definition tt_integrate (t : ttrain) (w : list (list R)) : outcome R :=
    do c0 <- aget (tt_cores t) 0;
    do w0 <- aget w 0;
    do v <- sum2 c0 w0;
    do v <- for_from 1 (tt_dim t - 1) (fun ii v =>
        do c <- aget (tt_cores t) ii;
        do wi <- aget w ii;
        do vals <- sum2 c wi;
        do ra <- aget (tt_ranks t) ii;
        do rb <- aget (tt_ranks t) (ii + 1);
        dgemv_tx ra rb vals 0 ra v 0 1) v;
    aget v 0.
End TensorModel.
Arguments mat : clear implicits.
Arguments tensor : clear implicits.
Arguments ttrain : clear implicits.
