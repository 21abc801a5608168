(** Model of the truncated singular value decomposition (linalg.c:325-402), of its
    version for quasimatrix arrays (qmarray.c:3081-3148), of right orthogonalisation
    (ft.c:2528-2568) and of rounding (ft.c:2580-2812).  Scalars are real numbers. *)
From Coq Require Import Reals Lra.
From Verif Require Import TensorModel.
From Verif Require Export OrthModel Blas FTCtorModel.
Open Scope R_scope.

Section RoundModel.
  Context {U : uops Rring}.

  (** linalg.c:283-323 svd: LAPACK's dgesdd, an external routine.  For an [m] x [n] matrix
      stored by columns it gives the left vectors (m x m), the singular values and the
      transposed right vectors (n x n). *)
  Context (svdf : nat -> nat -> list R -> outcome (list R * list R * list R)).

  (** The loop of linalg.c:370-381, [fuel] iterations left; [sum] and [rank] are the
      variables of the code.  Returns the final rank. *)
  Fixpoint trunc_loop (fuel ii nsv : nat) (s : list R) (delta sum : R) (rank : nat) : outcome nat :=
    match fuel with
    | O => Ok rank
    | S fuel' =>
        do x <- aget s (nsv - ii - 1)%nat;
        let sum := sum + x * x in
        if Rleb delta sum then Ok rank
        else if (rank =? 1)%nat then Ok rank
        else trunc_loop fuel' (ii + 1) nsv s delta sum (rank - 1)
    end.

  (** linalg.c:343-402 truncated_svd; result (rank, u, s, vt) *)
  Definition truncated_svd (m n : nat) (a : list R) (delta : R)
    : outcome (nat * list R * list R * list R) :=
    let nsv := if (m <? n)%nat then m else n in
    do (us, vt_temp) <- svdf m n a;
    let '(u_temp, s_temp) := us in
    do rank <- trunc_loop nsv 0 nsv s_temp delta 0 nsv;
    do u <- blit (repeat 0 (m * rank)%nat) 0 u_temp 0 (rank * m)%nat;
    do vt <- for_ n (fun ii vt => blit vt (ii * rank)%nat vt_temp (ii * n)%nat rank)
               (repeat 0 (n * rank)%nat);
    do s <- blit (repeat 0 rank) 0 s_temp 0 rank;
    Ok (rank, u, s, vt).

  (** array.c:344-352 diag *)
  Definition diag (N : nat) (arr : list R) : outcome (list R) :=
    for_ N (fun ii p => do x <- aget arr ii; aset p (ii * N + ii)%nat x) (repeat 0 (N * N)%nat).

  (** The factorisations used for core [core]: qmarray_householder_simple("QR"/"LQ",A,R,o)
      with the options of that core. *)
  Context (qr lq : nat -> qma U -> list R -> outcome (qma U * list R)).

  (** qmarray.c:3118-3148 qmarray_truncated_svd; result (rank, U, lam, vt) *)
  Definition qmarray_truncated_svd (core : nat) (A : qma U) (delta : R)
    : outcome (nat * qma U * list R * list R) :=
    do (temp, Rm) <- qr core A (repeat 0 (nc A * nc A)%nat);
    do (rus, vt) <- truncated_svd (nc A) (nc A) Rm delta;
    let '(rank, u, s) := rus in
    do Ua <- qmam temp u rank;
    Ok (rank, Ua, s, vt).

  (** ft.c:2528-2568 function_train_orthor *)
  Definition ft_orthor (a : ftrain U) : outcome (ftrain U) :=
    let d := ft_dim a in
    let ranks := ft_ranks a in
    do c <- aget (ft_cores a) (d - 1)%nat;
    do (Q, L) <- lq (d - 1)%nat c (repeat 0 (nr c * nr c)%nat);
    do cores <- aset (repeat None d) (d - 1)%nat (Some Q);
    do (cores, L) <- for_from 2 (d - 2)%nat (fun ii (s : list (option (qma U)) * list R) =>
        let '(cores, L) := s in
        let core := (d - ii)%nat in
        do ck <- aget (ft_cores a) core;
        do b <- aget ranks (core + 1)%nat;
        do temp <- qmam ck L b;
        do rk <- aget ranks core;
        do (Q, L) <- lq core temp (repeat 0 (rk * rk)%nat);
        do cores <- aset cores core (Some Q);
        Ok (cores, L)) (cores, L);
    do c0 <- aget (ft_cores a) 0;
    do b <- aget ranks 1;
    do t <- qmam c0 L b;
    do cores <- aset cores 0 (Some t);
    do cs <- freeze cores;
    Ok (mkft d ranks cs).

  (** qmarray.c:156-165 qmarray_first_cols *)
  Definition qmarray_first_cols (q : qma U) (k : nat) : outcome (qma U) :=
    do _ <- cassert (k <=? nc q)%nat;
    do f <- for_ (nr q * k)%nat (fun ii f => do g <- aget (fs q) ii; aset f ii (Some g)) (slots (nr q * k)%nat);
    do f' <- freeze f;
    Ok (mkq (nr q) k f').

  (** ft.c:2722-2741 and 2762-2777: the rank bound of the function_train_round_maxrank_all;
      with [None] nothing happens.  [ncols] is the number of columns of the core. *)
  Definition cap_rank (cap : option nat) (ncols rank : nat) (Ua : qma U) (vt : list R)
    : outcome (nat * qma U * list R) :=
    match cap with
    | None => Ok (rank, Ua, vt)
    | Some mx =>
        if (mx <? rank)%nat then
          do Ua <- qmarray_first_cols Ua mx;
          do vt' <- for_ ncols (fun jj v =>
                     for_ mx (fun ii v =>
                       do x <- aget vt (jj * rank + ii)%nat;
                       aset v (jj * mx + ii)%nat x) v) (repeat 0 (mx * ncols)%nat);
          Ok (mx, Ua, vt')
        else Ok (rank, Ua, vt)
    end.

  (** One truncation: ft.c:2619-2632, 2640-2652 (and 2720-2755, 2760-2790).  [A] is the
      current core, [sizer] its number of columns, [next] the following core of the
      orthogonalised train; gives the new rank, the new core and the next current core. *)
  Definition round_step (cap : option nat) (delta : R) (core : nat) (A : qma U)
             (next : outcome (qma U)) (sizer : nat)
    : outcome (nat * qma U * qma U) :=
    do (rus, vt) <- qmarray_truncated_svd core A delta;
    let '(rank, Ua, s) := rus in
    do (ru, vt) <- cap_rank cap (nc A) rank Ua vt;
    let '(rank, Ua) := ru in
    do sdiag <- diag rank s;
    do svt <- dgemm_nn (R := Rring) rank sizer rank sdiag rank vt rank (repeat 0 (rank * sizer)%nat) rank;
    do nx <- next;
    do temp <- mqma svt nx rank;
    Ok (rank, Ua, temp).

  (** ft.c:2504-2516 function_train_norm2 *)
  Definition ft_norm2 (a : ftrain U) : outcome R :=
    do out <- ft_inner a a; Ok (sqrt (Rabs out)).

  (** ft.c:2580-2672 function_train_round ([cap] = None) and ft.c:2684-2802
      function_train_round_maxrank_all ([cap] = Some max_rank).  [zt] is ZEROTHRESH of
      ft.c, [K] makes constant functions.  In the loop the code takes the number of
      columns from the ranks of the copy. *)
  Context (K : uctor U) (zt : R).
  Definition ft_round_gen (cap : option nat) (ain : ftrain U) (epsilon : R) : outcome (ftrain U) :=
    do normain <- ft_norm2 ain;
    if Rltb normain zt then ft_constant K (1 : Rring) (0 : Rring) (ft_dim ain)
    else
      do a <- ft_copy ain;
      let d := ft_dim a in
      do nrm <- ft_norm2 a;
      let delta := nrm * epsilon / sqrt (INR (d - 1)) in
      do ftrl <- ft_orthor a;
      do rk <- aset (repeat 0%nat (d + 1)%nat) 0 1%nat;
      do g0 <- aget (ft_cores ftrl) 0;
      do (ru, temp) <- round_step cap delta 0 g0 (aget (ft_cores ftrl) 1) (nc g0);
      let '(rank, Ua) := ru in
      do cs <- aset (repeat None d) 0 (Some Ua);
      do rk <- aset rk 1 rank;
      do (s, temp) <- for_from 1 (d - 1 - 1)%nat
          (fun core (s : list (option (qma U)) * list nat * qma U) =>
        let '(cs, rk, temp) := s in
        do sizer <- aget (ft_ranks a) (core + 1)%nat;
        do (ru, temp) <- round_step cap delta core temp (aget (ft_cores ftrl) (core + 1)%nat) sizer;
        let '(rank, Ua) := ru in
        do cs <- aset cs core (Some Ua);
        do rk <- aset rk (core + 1)%nat rank;
        Ok (cs, rk, temp)) (cs, rk, temp);
      let '(cs, rk) := s in
      do cs <- aset cs (d - 1)%nat (Some temp);
      do rk <- aset rk d 1%nat;
      do cs' <- freeze cs;
      Ok (mkft d rk cs').
End RoundModel.

(** The routines with the Householder factorisations of OrthModel.v. *)
Section Concrete.
  Context {U : uops Rring} (W : vops U) (zro zt : R) (orth : nat -> nat -> list U) (uzero : U) (K : uctor U).
  Context (svdf : nat -> nat -> list R -> outcome (list R * list R * list R)).
  Definition hqr (core : nat) := householder_simple_qr W zro (orth core) uzero.
  Definition hlq (core : nat) := householder_simple_lq W zro (orth core) uzero.
  (** ft.c:2580-2672 *)
  Definition function_train_round := ft_round_gen svdf hqr hlq K zt None.
  (** ft.c:2684-2802 *)
  Definition function_train_round_maxrank_all (ain : ftrain U) (epsilon : R) (max_rank : nat) :=
    ft_round_gen svdf hqr hlq K zt (Some max_rank) ain epsilon.
End Concrete.
