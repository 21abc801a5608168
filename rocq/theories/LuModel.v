(** Model of the LU decomposition of quasimatrix arrays (qmarray.c:1742-1826 and
    1928-2057) and of what it calls in functions.c.  Scalars are real numbers (the C code
    uses [double]; rounding is not modelled); ZEROTHRESH is a parameter. *)
From Coq Require Import Reals Lra.
From Verif Require Export OrthModel.
Open Scope R_scope.

Section LuModel.
  Context {U : uops Rring} (W : vops U) (zt : R).
  (** functions.c generic_function_absmax(f,&x,optargs): value and location *)
  Context (absmax1 : U -> R * R).
  (** [f->fc == LINELM || f->fc == CONSTELM] *)
  Context (nodal : U -> bool).
  (** functions.c generic_function_onezero2(fc,n,zeros,opts) *)
  Context (onezero2 : list R -> U).
  (** generic_function_constant(1.0,fc,aopts) *)
  Context (uone : U).
  (** generic_function_approximate1d of the product of the (x - z), qmarray.c:1746-1757 *)
  Context (zpoly : list R -> U).

  (** functions.c:1912-1936 generic_function_array_absmax, stride 1, [a] offset by [oa]:
      value, index and location *)
  Definition array_absmax (n : nat) (a : list U) (oa : nat) : outcome (R * nat * R) :=
    do f <- aget a oa;
    let '(v, x) := absmax1 f in
    for_from 1 (n - 1)%nat (fun ii (s : R * nat * R) =>
      let '(maxval, ind, x) := s in
      do f <- aget a (oa + ii)%nat;
      let '(tv, tx) := absmax1 f in
      if Rltb maxval tv then Ok (tv, ii, tx) else Ok (maxval, ind, x)) (v, 0%nat, x).

  (** qmarray.c:1770-1775 and functions.c:1074-1083: the earlier pivots in row [ii] *)
  Definition zeros_of (upto : nat) (piv : list nat) (px : list R) (ii : nat) : outcome (list R) :=
    for_ upto (fun jj acc =>
      do p <- aget piv jj;
      if (p =? ii)%nat then do x <- aget px jj; Ok (acc ++ [x]) else Ok acc) [].

  (** qmarray.c:1759-1826 create_any_L ([nod] = false) and functions.c:1052-1099
      generic_function_array_onezero ([nod] = true): the column, the row of the pivot and
      its location.  Only create_any_L asserts that the value is not small (after the
      division, which cannot be observed if the assertion fails). *)
  Definition any_L (nod : bool) (nrows upto : nat) (piv : list nat) (px : list R)
    : outcome (list U * nat * R) :=
    do col <- for_ nrows (fun ii acc =>
        do z <- zeros_of upto piv px ii;
        Ok (acc ++ [if nod then onezero2 z
                    else match z with [] => uone | _ => zpoly z end])) [];
    do (vi, xval) <- array_absmax nrows col 0;
    let '(_, amind) := vi in
    do f <- aget col amind;
    let val : R := uev f (xval : Rring) in
    do _ <- cassert (nod || Rltb zt (Rabs val));
    do col <- for_ nrows (fun ii col => do f <- aget col ii; aset col ii (vscale W (1 / val) f)) col;
    Ok (col, amind, xval).

  (** functions.c:1343-1364 generic_function_array_daxpby2(n,a,1,x,0.0,1,NULL,1,z): values *)
  Definition array_scaled (n : nat) (a : R) (x : list U) (ox : nat) : outcome (list U) :=
    for_ n (fun ii acc => do f <- aget x (ox + ii)%nat; Ok (acc ++ [uaxpby (a : Rring) f (0 : Rring) None])) [].
  (** functions.c:841-871 generic_function_array_daxpby(n,a,1,x,b,1,y) *)
  Definition array_daxpby (n : nat) (a : R) (x : list U) (ox : nat) (b : R) (y : list U) : outcome (list U) :=
    for_ n (fun ii acc => do f <- aget x (ox + ii)%nat; do g <- aget y ii;
                          Ok (acc ++ [uaxpby (a : Rring) f (b : Rring) (Some g)])) [].
  (** qmarray.c:747-756 qmarray_set_column_gf; a copy is the function itself *)
  Definition set_column {T} (n : nat) (a : list T) (col : nat) (g : list T) : outcome (list T) :=
    for_ n (fun ii a => do f <- aget g ii; aset a (col * n + ii)%nat f) a.

  Record lu_state := mklu { lu_A : list U; lu_L : list (option U); lu_u : list R; lu_piv : list nat; lu_px : list R }.

  (** qmarray.c:2009-2047: elimination with column [Lk] *)
  Definition lu_elim (nrows ncols kk amind : nat) (amloc val : R) (Lk : list U) (A : list U) (u : list R)
    : outcome (list U * list R) :=
    for_ ncols (fun ii (s : list U * list R) =>
      let '(A, u) := s in
      do uv <- (if (ii =? kk)%nat then Ok val
                else do f <- aget A (ii * nrows + amind)%nat; Ok (uev f (amloc : Rring) : R));
      do u <- aset u (ii * ncols + kk)%nat uv;
      do temp <- array_daxpby nrows 1 A (ii * nrows)%nat (- uv) Lk;
      do A <- set_column nrows A ii temp;
      Ok (A, u)) (A, u).

  (** qmarray.c:1938-2048: one round of the loop.  L has as many rows as A. *)
  Definition lu_step (nrows ncols kk : nat) (s : lu_state) : outcome lu_state :=
    let A := lu_A s in
    do (vi, amloc) <- array_absmax nrows A (kk * nrows)%nat;
    let '(_, amind) := vi in
    do piv <- aset (lu_piv s) kk amind;
    do px <- aset (lu_px s) kk amloc;
    do f <- aget A (kk * nrows + amind)%nat;
    let val : R := uev f (amloc : Rring) in
    do (r, amloc) <-
      (if Rleb (Rabs val) zt then
         do f0 <- aget A (kk * nrows)%nat;
         any_L (nodal f0) nrows kk piv px
       else do col <- array_scaled nrows (1 / val) A (kk * nrows)%nat; Ok (col, amind, amloc));
    let '(Lk, amind) := r in
    do piv <- aset piv kk amind;
    do px <- aset px kk amloc;
    do L <- set_column nrows (lu_L s) kk (map Some Lk);
    do (A, u) <- lu_elim nrows ncols kk amind amloc val Lk A (lu_u s);
    Ok (mklu A L u piv px).

  (** qmarray.c:1928-2057 qmarray_lu1d: the arrays after the call (A is overwritten by
      the remainder) and the return value *)
  Definition qmarray_lu1d (A : qma U) (L : list (option U)) (u : list R) (piv : list nat) (px : list R)
    : outcome (lu_state * Z) :=
    let ncols := nc A in
    do s <- for_ ncols (fun kk s => lu_step (nr A) ncols kk s) (mklu (fs A) L u piv px);
    do info <- for_ ncols (fun kk (info : Z) =>
                 do d <- aget (lu_u s) (kk * ncols + kk)%nat;
                 Ok (if Rltb (Rabs d) zt then (info - 1)%Z else info)) 0%Z;
    Ok (s, info).
End LuModel.
Arguments lu_A {U}.
Arguments lu_L {U}.
Arguments lu_u {U}.
Arguments lu_piv {U}.
Arguments lu_px {U}.
Arguments mklu {U}.
