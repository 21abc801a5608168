(** Model of the BLAS-type interface of function trains: c3/lib_clinalg/ft.c
    4423-4430 and 4556-4793.  Arrays of trains are lists of pointers ([None] is
    NULL).  The trains of different arguments are taken to be different objects.
    [pos] stands for the test [epsilon > 0]; [rnd] stands for
    function_train_round with that tolerance and the given options. *)
From Verif Require Export FTModel.

Section FTBlasModel.
  Context {R : CRing} {U : uops R}.
  Variable pos : bool.
  Variable rnd : ftrain U -> outcome (ftrain U).
  Open Scope cr_scope.

  (** Reading an entry of an array of trains that is then used: NULL and
      positions outside the array are undefined behaviour. *)
  Definition fget (A : list (option (ftrain U))) (i : nat) : outcome (ftrain U) :=
    do o <- aget A i;
    match o with Some f => Ok f | None => UB end.

  (** The two branches of c3gemv and c3vprodsum differ only in this. *)
  Definition rnd_if (f : ftrain U) : outcome (ftrain U) := if pos then rnd f else Ok f.

  (** ft.c:4423-4430 ft1d_array_scale *)
  Definition ft1d_array_scale (A : list (option (ftrain U))) (n inc : nat) (s : R)
    : outcome (list (option (ftrain U))) :=
    for_ n (fun ii A =>
      do f <- fget A (ii * inc);
      do g <- ft_scale f s;
      aset A (ii * inc) (Some g)) A.

  (** ft.c:4556-4574 c3axpy: the new [*y]; the old one is freed *)
  Definition c3axpy (a : R) (x y : ftrain U) : outcome (ftrain U) :=
    do temp <- ft_copy x;
    do temp <- ft_scale temp a;
    do z <- ft_sum temp y;
    rnd_if z.

  (** ft.c:4585-4589 c3dot *)
  Definition c3dot (x y : ftrain U) : outcome R := ft_inner x y.

  (** ft.c:4606-4643 c3gemv.  [y] is passed by value: the first component is the
      train the local variable points to on return, the second what the
      caller's variable points to, which is the object that c3axpy has freed
      ([None]). *)
  Definition c3gemv (alpha : R) (n : nat) (A : list (option (ftrain U))) (inca : nat) (x : ftrain U)
    (beta : R) (y : ftrain U) : outcome (ftrain U * option (ftrain U)) :=
    do y <- ft_scale y beta;
    do a0 <- fget A 0;
    do run <- ft_product a0 x;
    do run <- rnd_if run;
    do run <- for_from 1 (n - 1) (fun ii run =>
        do ai <- fget A (ii * inca);
        do temp <- ft_product ai x;
        do temp <- rnd_if temp;
        c3axpy r1 temp run) run;
    do y' <- c3axpy alpha run y;
    Ok (y', None).

  (** ft.c:4652-4660 c3vaxpy *)
  Definition c3vaxpy (n : nat) (a : R) (x : list (option (ftrain U))) (incx : nat)
    (y : list (option (ftrain U))) (incy : nat) : outcome (list (option (ftrain U))) :=
    for_ n (fun ii y =>
      do xi <- fget x (ii * incx);
      do yi <- fget y (ii * incy);
      do z <- c3axpy a xi yi;
      aset y (ii * incy) (Some z)) y.

  (** ft.c:4669-4681 c3vaxpy_arr; the array of numbers starts at [oy] *)
  Definition c3vaxpy_arr (n : nat) (alpha : R) (x : list (option (ftrain U))) (incx : nat)
    (y : list R) (oy incy : nat) (beta : R) (z : option (ftrain U)) : outcome (ftrain U) :=
    match z with
    | None => Abort
    | Some z =>
        do z <- ft_scale z beta;
        for_ n (fun ii z =>
          do yi <- aget y (oy + incy * ii);
          do xi <- fget x (ii * incx);
          c3axpy (alpha *! yi) xi z) z
    end.

  (** ft.c:4694-4731 c3vprodsum; the first array starts at [ox] *)
  Definition c3vprodsum (n : nat) (a : R) (x : list (option (ftrain U))) (ox incx : nat)
    (y : list (option (ftrain U))) (incy : nat) (beta : R) (z : option (ftrain U))
    : outcome (ftrain U) :=
    match z with
    | None => Abort
    | Some z =>
        do z <- ft_scale z beta;
        do x0 <- fget x (ox + 0);
        do y0 <- fget y 0;
        do run <- ft_product x0 y0;
        do run <- rnd_if run;
        do run <- for_from 1 (n - 1) (fun ii run =>
            do xi <- fget x (ox + ii * incx);
            do yi <- fget y (ii * incy);
            do temp <- ft_product xi yi;
            do temp <- rnd_if temp;
            c3axpy r1 temp run) run;
        c3axpy a run z
    end.

  (** ft.c:4743-4761 c3vgemv: the work array is made of NULLs *)
  Definition c3vgemv (m n : nat) (alpha : R) (A : list (option (ftrain U))) (lda : nat)
    (x : list (option (ftrain U))) (incx : nat) (beta : R) (y : list (option (ftrain U))) (incy : nat)
    : outcome (list (option (ftrain U))) :=
    do y <- ft1d_array_scale y m incy beta;
    do run <- for_ m (fun ii run =>
        do z <- aget run (ii * incy);
        do z <- c3vprodsum n r1 A ii lda x incx r0 z;
        aset run (ii * incy) (Some z)) (repeat None m);
    c3vaxpy m alpha run 1 y incy.

  (** ft.c:4774-4792 c3vgemv_arr *)
  Definition c3vgemv_arr (trans : nat) (m n : nat) (alpha : R) (A : list R) (lda : nat)
    (B : list (option (ftrain U))) (incb : nat) (beta : R) (y : list (option (ftrain U))) (incy : nat)
    : outcome (list (option (ftrain U))) :=
    do y <- ft1d_array_scale y m incy beta;
    if trans =? 0 then
      for_ m (fun ii y =>
        do z <- aget y (ii * incy);
        do z <- c3vaxpy_arr n alpha B incb A ii lda beta z;
        aset y (ii * incy) (Some z)) y
    else if trans =? 1 then
      for_ m (fun ii y =>
        do z <- aget y (ii * incy);
        do z <- c3vaxpy_arr n alpha B incb A (ii * lda) 1 beta z;
        aset y (ii * incy) (Some z)) y
    else Ok y.
End FTBlasModel.
