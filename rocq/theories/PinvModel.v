(** Model of the pseudoinverse (linalg.c:403-455), of the location of the largest entry of
    a quasimatrix array (qmarray.c:3140-3171) and of the maximum volume procedure
    (qmarray.c:2061-2105 and 2271-2435).  Scalars are real numbers (the C code uses
    [double]; rounding is not modelled). *)
From Coq Require Import Reals Lra.
From Verif Require Export LuModel RoundModel.
Open Scope R_scope.

(** [cblas_dgemm(CblasColMajor, CblasTrans, CblasTrans, m, n, k, 1.0, A, lda, B, ldb, 0.0,
    C, ldc)]: C[j*ldc+i] = sum_l A[i*lda+l] B[l*ldb+j] *)
Definition dgemm_tt (m n k : nat) (A : list R) (lda : nat) (B : list R) (ldb : nat) (C : list R) (ldc : nat)
  : outcome (list R) :=
  for_ n (fun j C => for_ m (fun i C =>
    do s <- ddot (R := Rring) k A (i * lda)%nat 1 B j ldb; aset C (j * ldc + i)%nat s) C) C.
(** [cblas_dgemm(CblasColMajor, CblasNoTrans, CblasTrans, m, n, k, 1.0, A, lda, B, ldb, 0.0,
    C, ldc)]: C[j*ldc+i] = sum_l A[l*lda+i] B[l*ldb+j] *)
Definition dgemm_nt (m n k : nat) (A : list R) (lda : nat) (B : list R) (ldb : nat) (C : list R) (ldc : nat)
  : outcome (list R) :=
  for_ n (fun j C => for_ m (fun i C =>
    do s <- ddot (R := Rring) k A i lda B j ldb; aset C (j * ldc + i)%nat s) C) C.

Section PinvModel.
  (** linalg.c:283-323 svd: LAPACK's dgesdd, see [RoundModel]. *)
  Context (svdf : nat -> nat -> list R -> outcome (list R * list R * list R)).

  (** linalg.c:416-455 pinv, with lda = m (as in every call); result (ainv, rank).  A
      division by a singular value zero (possible only if cutoff <= 0) gives an infinity
      in C, which is outside this model: [UB]. *)
  Definition pinv (m n : nat) (a : list R) (cutoff : R) : outcome (list R * nat) :=
    let nsv := if (m <? n)%nat then m else n in
    do (us, vt) <- svdf m n a;
    let '(u, s) := us in
    do (smat, rank) <- for_ nsv (fun ii (st : list R * nat) =>
        let '(smat, rank) := st in
        do x <- aget s ii;
        if Rltb (Rabs x) cutoff then
          do smat <- aset smat (ii * m + ii)%nat 0; Ok (smat, rank)
        else
          do inv <- (if Req_EM_T x 0 then UB else Ok (1 / x));
          do smat <- aset smat (ii * m + ii)%nat inv; Ok (smat, (rank + 1)%nat))
      (repeat 0 (m * n)%nat, 0%nat);
    do temp <- dgemm_tt n m n vt n smat m (repeat 0 (m * n)%nat) n;
    do ainv <- dgemm_nt n m m temp n u m (repeat 0 (m * n)%nat) n;
    Ok (ainv, rank).

  Context {U : uops Rring} (W : vops U) (zt : R) (absmax1 : U -> R * R) (nodal : U -> bool).
  Context (onezero2 : list R -> U) (uone : U) (zpoly : list R -> U).

  (** qmarray.c:3162-3167: the loop splitting a position into row and column; [fuel]
      bounds the number of subtractions (it never ends for an array without rows) *)
  Fixpoint split_index (fuel nrows c nsubs : nat) : outcome (nat * nat) :=
    match fuel with
    | O => OutOfFuel
    | S fuel => if (nrows <? c + 1)%nat then split_index fuel nrows (c - nrows) (nsubs + 1) else Ok (c, nsubs)
    end.
  (** qmarray.c:3153-3171 qmarray_absmax1d: location, row, column and value *)
  Definition qmarray_absmax1d (q : qma U) : outcome (R * nat * nat * R) :=
    do (vi, x) <- array_absmax absmax1 (nr q * nc q) (fs q) 0;
    let '(v, c) := vi in
    do (row, col) <- split_index (c + 1) (nr q) c 0;
    Ok (x, row, col, v).

  (** qmarray.c:2072-2103: one pass of the double loop; [Some] of the new locations if a
      pair was found (the loops are left at once), [None] if none was *)
  Fixpoint dup_inner (todo jj ii : nat) (piv : list nat) (xiv : list R) (lb ub : R) : outcome (option (list R)) :=
    match todo with
    | O => Ok None
    | S todo =>
        do pi <- aget piv ii; do pj <- aget piv jj;
        if (pi =? pj)%nat then
          do xi <- aget xiv ii; do xj <- aget xiv jj;
          if Rltb (Rabs (xi - xj)) zt then
            do xiv <- aset xiv jj (if Rltb zt (Rabs (xj - lb)) then (xj + lb) / 2 else (xj + ub) / 2);
            Ok (Some xiv)
          else dup_inner todo (jj + 1) ii piv xiv lb ub
        else dup_inner todo (jj + 1) ii piv xiv lb ub
    end.
  Fixpoint dup_outer (todo ii dim : nat) (piv : list nat) (xiv : list R) (lb ub : R) : outcome (option (list R)) :=
    match todo with
    | O => Ok None
    | S todo =>
        do r <- dup_inner (dim - (ii + 1)) (ii + 1) ii piv xiv lb ub;
        match r with
        | Some x => Ok (Some x)
        | None => dup_outer todo (ii + 1) dim piv xiv lb ub
        end
    end.
  (** qmarray.c:2061-2105 remove_duplicates; [fuel] bounds the passes *)
  Fixpoint remove_duplicates (fuel dim : nat) (piv : list nat) (xiv : list R) (lb ub : R) : outcome (list R) :=
    match fuel with
    | O => OutOfFuel
    | S fuel =>
        do r <- dup_outer dim 0 dim piv xiv lb ub;
        match r with
        | Some x => remove_duplicates fuel dim piv x lb ub
        | None => Ok xiv
        end
    end.

  (** qmarray.c:2299-2304, 2355-2364 and 2407-2412: the matrix of values at the pivots *)
  Definition pivot_matrix (A : qma U) (pivi : list nat) (pivx : list R) (Um : list R) : outcome (list R) :=
    let r := nc A in
    for_ r (fun ii Um => for_ r (fun jj Um =>
      do p <- aget pivi ii; do x <- aget pivx ii;
      do f <- aget (fs A) (jj * nr A + p)%nat;
      aset Um (jj * r + ii)%nat (uev f (x : Rring))) Um) Um.

  (** pinv(r,r,r,U,Asinv,ZEROTHRESH): the svd overwrites U, but it is filled again before
      it is read.  The rank it returns is kept (the code ignores it). *)
  Definition pivot_inverse (A : qma U) (pivi : list nat) (pivx : list R) : outcome (list R * nat) :=
    do Um <- pivot_matrix A pivi pivx (repeat 0 (nc A * nc A)%nat);
    pinv (nc A) (nc A) Um zt.

  Record mv_state := mkmv { mv_pivi : list nat; mv_pivx : list R; mv_inv : list R; mv_rank : nat;
                            mv_x : R; mv_row : nat; mv_col : nat; mv_val : R; mv_iter : nat }.

  (** qmarray.c:2351-2390: the loop; it runs at most maxiter + 2 = 32 times, [fuel] bounds
      it from above.  maxiter = 30, delta = 1e-2. *)
  Fixpoint maxvol_loop (fuel : nat) (A : qma U) (s : mv_state) : outcome mv_state :=
    match fuel with
    | O => OutOfFuel
    | S fuel =>
        if Rltb (1 + 1 / 100) (mv_val s) then
          do pivi <- aset (mv_pivi s) (mv_col s) (mv_row s);
          do pivx <- aset (mv_pivx s) (mv_col s) (mv_x s);
          do (inv, rank) <- pivot_inverse A pivi pivx;
          do B <- qmam A inv (nc A);
          do r <- qmarray_absmax1d B;
          let '(maxx, maxrow, maxcol, maxval2) := r in
          if (30 <? mv_iter s)%nat then
            Ok (mkmv pivi pivx inv rank maxx maxrow maxcol (mv_val s) (mv_iter s))
          else
            maxvol_loop fuel A (mkmv pivi pivx inv rank maxx maxrow maxcol maxval2 (mv_iter s + 1))
        else Ok s
    end.

  (** lower and upper bound of the domain of the first function *)
  Context (lb ub : U -> R).

  (** qmarray.c:2271-2435 qmarray_maxvol1d; result: the inverse, the pivots, the return
      value and the rank of the last pseudoinverse (not returned in C).  qmarray_lu1d
      never returns a positive number. *)
  Definition qmarray_maxvol1d (fuel : nat) (A : qma U) (Asinv : list R) (pivi : list nat) (pivx : list R)
    : outcome (list R * list nat * list R * Z * nat) :=
    let r := nc A in
    do (lu, info) <- qmarray_lu1d W zt absmax1 nodal onezero2 uone zpoly A
                       (repeat None (r * nr A)%nat) (repeat 0 (r * r)%nat) pivi pivx;
    if (0 <? info)%Z then Ok (Asinv, lu_piv lu, lu_px lu, info, 0%nat)
    else
    do (inv, rank) <- pivot_inverse A (lu_piv lu) (lu_px lu);
    do B <- qmam A inv r;
    do m <- qmarray_absmax1d B;
    let '(maxx, maxrow, maxcol, maxval) := m in
    do s <- maxvol_loop 34 A (mkmv (lu_piv lu) (lu_px lu) inv rank maxx maxrow maxcol maxval 0);
    do pivi <- (if (0 <? mv_iter s)%nat then aset (mv_pivi s) (mv_col s) (mv_row s) else Ok (mv_pivi s));
    do pivx <- (if (0 <? mv_iter s)%nat then aset (mv_pivx s) (mv_col s) (mv_x s) else Ok (mv_pivx s));
    if (1 <? r)%nat then
      do f <- aget (fs A) 0%nat;
      do pivx <- remove_duplicates fuel r pivi pivx (lb f) (ub f);
      do (inv, rank) <- pivot_inverse A pivi pivx;
      Ok (inv, pivi, pivx, info, rank)
    else Ok (mv_inv s, pivi, pivx, info, mv_rank s).
End PinvModel.
