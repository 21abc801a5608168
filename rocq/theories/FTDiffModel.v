(** Model of differentiation, fibers and perturbations of function trains:
    c3/lib_clinalg/ft.c and the parts of qmarray.c they call. *)
From Verif Require Export FTModel.

Section FTDiffModel.
  Context {R : CRing} {U : uops R}.
  Open Scope cr_scope.

  (** [cblas_ddot], [cblas_dgemv] with pointer offsets (reference BLAS
      semantics, see Blas.v) *)
  Definition dgemv_nx (m n : nat) (A : list R) (oA lda : nat) (x : list R) (ox : nat)
             (y : list R) (oy : nat) : outcome (list R) :=
    if (m =? 0) || (n =? 0) then Ok y
    else for_ m (fun i y => do s <- ddot n A (oA + i) lda x ox 1; aset y (oy + i) s) y.

  Definition dgemv_tx' (m n : nat) (A : list R) (oA lda : nat) (x : list R) (ox : nat)
             (y : list R) (oy : nat) : outcome (list R) :=
    if (m =? 0) || (n =? 0) then Ok y
    else for_ n (fun j y => do s <- ddot m A (oA + j * lda) 1 x ox 1; aset y (oy + j) s) y.

  (** memmove(dst + od, src + os, n * sizeof(double)) between distinct arrays *)
  Definition blitr (n : nat) (src : list R) (os : nat) (dst : list R) (od : nat) : outcome (list R) :=
    for_ n (fun i d => do v <- aget src (os + i); aset d (od + i) v) dst.

  (** ft.c:4224-4237 function_train_gradient (and, with another univariate
      operation [op] in place of generic_function_deriv, ft.c:4380-4392
      function_train_hessian_diag, which calls qmarray_dderiv): the array of
      trains with core [ii] replaced.  qmarray_deriv is qmarray.c:3291-3305,
      qmarray_dderiv qmarray.c:3314-3323. *)
  Definition qmarray_map (op : U -> U) (a : qma U) : outcome (qma U) :=
    do f <- for_ (nr a * nc a) (fun ii f => do g <- aget (fs a) ii; aset f ii (Some (op g)))
                 (slots (nr a * nc a));
    do f' <- freeze f;
    Ok (mkq (nr a) (nc a) f').

  Definition replace_core (op : U -> U) (f : ftrain U) (ii : nat) : outcome (ftrain U) :=
    do c <- ft_copy f;
    do q <- aget (ft_cores f) ii;
    do dq <- qmarray_map op q;
    do cs <- aset (ft_cores c) ii dq;
    Ok (mkft (ft_dim c) (ft_ranks c) cs).

  Definition ft_gradient_gen (op : U -> U) (f : ftrain U) : outcome (list (ftrain U)) :=
    do l <- for_ (ft_dim f) (fun ii l => do g <- replace_core op f ii; aset l ii (Some g))
                 (repeat None (ft_dim f));
    freeze l.

  Definition ft_gradient := ft_gradient_gen uderiv.

  (** ft.c:4336-4352 ft1d_array_jacobian *)
  Definition ft1d_array_jacobian (fta : list (ftrain U)) : outcome (list (ftrain U)) :=
    do f0 <- aget fta 0;
    let size := length fta in
    do l <- for_ (ft_dim f0) (fun ii l =>
            for_ size (fun jj l =>
              do f <- aget fta jj;
              do g <- replace_core uderiv f ii;
              aset l (ii * size + jj) (Some g)) l)
          (repeat None (size * ft_dim f0));
    freeze l.

  (** ft.c:4362-4370 function_train_hessian *)
  Definition ft_hessian (f : ftrain U) : outcome (list (ftrain U)) :=
    do g <- ft_gradient f; ft1d_array_jacobian g.

  (** Working state of function_train_gradient_eval *)
  Record gstate := mkg { g_evlr : list R; g_grlr : list R; g_ev : list R; g_gr : list R;
                         g_onuni : nat; g_indmem : nat }.

  (** ft.c:4247-4324 function_train_gradient_eval; [dev f x] is
      generic_function_deriv_eval (functions.c:800).  [out] is the caller's
      array. *)
  Definition ft_gradient_eval (dev : U -> R -> R) (f : ftrain U) (x out : list R) : outcome (list R) :=
    let dim := ft_dim f in
    do maxrank <- get_maxrank f;
    let ranks := ft_ranks f in
    let mr2 := maxrank * maxrank in
    let buf := repeat r0 (maxrank * dim + maxrank) in
    let bigbuf := repeat r0 (mr2 * dim) in
    do r1_ <- aget ranks 1;
    do s <- for_ r1_ (fun col s =>
              do c <- aget (ft_cores f) 0;
              do g <- aget (fs c) col;
              do x0 <- aget x 0;
              do el <- aset (g_evlr s) col (uev g x0);
              do gl <- aset (g_grlr s) col (dev g x0);
              Ok (mkg el gl (g_ev s) (g_gr s) (g_onuni s + 1) (g_indmem s)))
            (mkg buf buf bigbuf bigbuf 0 0);
    do s <- for_from 1 (dim - 1) (fun kk s =>
              do rk <- aget ranks kk;
              do rk1 <- aget ranks (kk + 1);
              do s <- for_ rk1 (fun col s =>
                  let p := g_indmem s + rk + col in
                  do el <- aset (g_evlr s) p r0;
                  do gl <- aset (g_grlr s) p r0;
                  for_ rk (fun row s =>
                    do c <- aget (ft_cores f) kk;
                    do g <- aget (fs c) (row + col * rk);
                    do xk <- aget x kk;
                    do ev <- aset (g_ev s) (g_onuni s) (uev g xk);
                    do gr <- aset (g_gr s) (g_onuni s) (dev g xk);
                    do a <- aget (g_evlr s) p;
                    do b <- aget (g_evlr s) (g_indmem s + row);
                    do e <- aget ev (g_onuni s);
                    do el <- aset (g_evlr s) p (a +! b *! e);
                    do a' <- aget (g_grlr s) p;
                    do b' <- aget el (g_indmem s + row);
                    do e' <- aget gr (g_onuni s);
                    do gl <- aset (g_grlr s) p (a' +! b' *! e');
                    Ok (mkg el gl ev gr (g_onuni s + 1) (g_indmem s)))
                  (mkg el gl (g_ev s) (g_gr s) (g_onuni s) (g_indmem s)))
                s;
              Ok (mkg (g_evlr s) (g_grlr s) (g_ev s) (g_gr s) (g_onuni s) (g_indmem s + rk)))
            s;
    do v <- aget (g_grlr s) (g_indmem s);
    do out <- aset out (dim - 1) v;
    do rl <- aget ranks (dim - 1);
    let ind_eval := g_onuni s - rl in
    do evals_rl <- blitr rl (g_ev s) ind_eval buf 0;
    do (out, evals_rl, indmem, ind_eval, ind_rl) <-
      for_from 1 (dim - 2) (fun zz (t : list R * list R * nat * nat * nat) =>
        let '(out, evals_rl, indmem, ind_eval, ind_rl) := t in
        let backind := dim - 1 - zz in
        do ra <- aget ranks backind;
        do rb <- aget ranks (backind + 1);
        let indmem := indmem - rb in
        do d <- ddot rb (g_grlr s) indmem 1 evals_rl ind_rl 1;
        do out <- aset out backind d;
        let ind_eval := ind_eval - ra * rb in
        do evals_rl <- dgemv_nx ra rb (g_ev s) ind_eval ra evals_rl ind_rl evals_rl (ind_rl + rb);
        Ok (out, evals_rl, indmem, ind_eval, ind_rl + rb))
      (out, evals_rl, g_indmem s, ind_eval, 0);
    do rb <- aget ranks 1;
    do d <- ddot rb (g_grlr s) 0 1 evals_rl ind_rl 1;
    aset out 0 d.

  (** ft.c:662-687 function_train_pre_eval for N = 1 *)
  Definition pre_eval (f : ftrain U) (w : wspace R) : outcome (nat * memsp R * memsp R * memsp R) :=
    do maxrank <- get_maxrank f;
    Ok (maxrank, ms_check (ws1 w) 1 (maxrank * maxrank), ms_check (ws2 w) 1 (maxrank * maxrank),
        ms_check (ws3 w) 1 (maxrank * maxrank)).

  (** the outer-rank assertions shared by the evaluation routines *)
  Definition check_outer (f : ftrain U) : outcome unit :=
    do rk0 <- aget (ft_ranks f) 0;
    do _ <- cassert (rk0 =? 1);
    do rkd <- aget (ft_ranks f) (ft_dim f);
    cassert (rkd =? 1).

  (** evaldd1, evaldd3, evaldd4 of struct FunctionTrain *)
  Record ddcache := mkdd { dd1 : option (list (list R)); dd3 : option (list (list R));
                           dd4 : option (list (list R)) }.

  (** functions.c:1618-1628 generic_function_1darray_eval2_ind; [uevi] is
      generic_function_1d_eval_ind (functions.c:1436), the result is stored
      from [out + off] on *)
  Definition eval2_ind (uevi : U -> nat -> R) (n : nat) (f : list U) (ind : nat) (out : list R) (off : nat)
    : outcome (list R) :=
    for_ n (fun ii out => do g <- aget f ii; aset out (off + ii) (uevi g ind)) out.

  (** ft.c:1240-1380 function_train_eval_co_perturb and ft.c:1396-1538
      function_train_eval_co_perturb_ind, which differ only in the type [X] of
      the coordinates and in the routine [ev2] that evaluates an array of
      univariate functions.  The cached arrays
      evaldd1, evaldd3, evaldd4 are arguments ([None] before the first call,
      which allocates them) and part of the result; [vals] is the caller's
      array of 2*dim values. *)
  Definition ft_co_perturb {X} (ev2 : nat -> list U -> X -> list R -> outcome (list R)) (f : ftrain U) (w : wspace R) (dd : ddcache)
             (x pert : list X) (vals : list R) : outcome (R * list R * ddcache) :=
    let dim := ft_dim f in
    do _ <- check_outer f;
    do (maxrank, m1, m2, m3) <- pre_eval f w;
    let alloc o n := match o with Some l => l | None => repeat (repeat r0 n) dim end in
    do (cc, fprod) <-
      for_ dim (fun ii (s : list (list R) * list (list R)) =>
        let '(cc, fprod) := s in
        do c <- aget (ft_cores f) ii;
        do xi <- aget x ii;
        if ii =? 0 then
          do fp <- aget fprod ii;
          do fp <- ev2 (nr c * nc c) (fs c) xi fp;
          do fprod <- aset fprod ii fp;
          do r1_ <- aget (ft_ranks f) 1;
          do c0 <- aget cc ii;
          do c0 <- blitr r1_ fp 0 c0 0;
          do cc <- aset cc ii c0;
          Ok (cc, fprod)
        else
          do ci <- aget cc ii;
          do ci <- ev2 (nr c * nc c) (fs c) xi ci;
          do cc <- aset cc ii ci;
          do ra <- aget (ft_ranks f) ii;
          do rb <- aget (ft_ranks f) (ii + 1);
          do fprev <- aget fprod (ii - 1);
          do fp <- aget fprod ii;
          do fp <- dgemv_t ra rb ci ra fprev fp;
          do fprod <- aset fprod ii fp;
          Ok (cc, fprod))
      (alloc (dd1 dd) (maxrank * maxrank), alloc (dd4 dd) maxrank);
    do bprod <-
      for_ dim (fun k bprod =>
        let ii := dim - 1 - k in
        if k =? 0 then
          do c <- aget (ft_cores f) ii;
          do xi <- aget x ii;
          do bp <- aget bprod ii;
          do bp <- ev2 (nr c * nc c) (fs c) xi bp;
          aset bprod ii bp
        else
          do ra <- aget (ft_ranks f) ii;
          do rb <- aget (ft_ranks f) (ii + 1);
          do ci <- aget cc ii;
          do bnext <- aget bprod (ii + 1);
          do bp <- aget bprod ii;
          do bp <- dgemv_n ra rb ci ra bnext bp;
          aset bprod ii bp) (alloc (dd3 dd) maxrank);
    do (vals, _, _, _) <-
      for_ dim (fun ii (s : list R * list R * list R * list R) =>
        let '(vals, t1, t2, t3) := s in
        do c <- aget (ft_cores f) ii;
        do p0 <- aget pert (2 * ii);
        do t1 <- ev2 (nr c * nc c) (fs c) p0 t1;
        do p1 <- aget pert (2 * ii + 1);
        do t2 <- ev2 (nr c * nc c) (fs c) p1 t2;
        if ii =? 0 then
          do ra <- aget (ft_ranks f) 1;
          do b <- aget bprod 1;
          do v <- ddot ra t1 0 1 b 0 1;
          do vals <- aset vals ii v;
          do v <- ddot ra t2 0 1 b 0 1;
          do vals <- aset vals (ii + 1) v;
          Ok (vals, t1, t2, t3)
        else if ii =? dim - 1 then
          do ra <- aget (ft_ranks f) ii;
          do b <- aget fprod (dim - 2);
          do v <- ddot ra t1 0 1 b 0 1;
          do vals <- aset vals (2 * ii) v;
          do v <- ddot ra t2 0 1 b 0 1;
          do vals <- aset vals (2 * ii + 1) v;
          Ok (vals, t1, t2, t3)
        else
          do ra <- aget (ft_ranks f) ii;
          do rb <- aget (ft_ranks f) (ii + 1);
          do b <- aget bprod (ii + 1);
          do fp <- aget fprod (ii - 1);
          do t3 <- dgemv_n ra rb t1 ra b t3;
          do v <- ddot ra t3 0 1 fp 0 1;
          do vals <- aset vals (2 * ii) v;
          do t3 <- dgemv_n ra rb t2 ra b t3;
          do v <- ddot ra t3 0 1 fp 0 1;
          do vals <- aset vals (2 * ii + 1) v;
          Ok (vals, t1, t2, t3))
      (vals, ms_vals m1, ms_vals m2, ms_vals m3);
    do fl <- aget fprod (dim - 1);
    do out <- aget fl 0;
    Ok (out, vals, mkdd (Some cc) (Some bprod) (Some fprod)).

  Definition ft_eval_co_perturb := ft_co_perturb (X := R) eval2.
  Definition ft_eval_co_perturb_ind (uevi : U -> nat -> R) :=
    ft_co_perturb (X := nat) (fun n f ind out => eval2_ind uevi n f ind out 0).

  (** ft.c:1003-1061 function_train_eval_ind *)
  Definition ft_eval_ind (uevi : U -> nat -> R) (f : ftrain U) (w : wspace R) (ind : list nat) : outcome R :=
    let dim := ft_dim f in
    do _ <- check_outer f;
    do (maxrank, m1, m2, m3) <- pre_eval f w;
    do c0 <- aget (ft_cores f) 0;
    do i0 <- aget ind 0;
    do t1 <- eval2_ind uevi (nr c0 * nc c0) (fs c0) i0 (ms_vals m1) 0;
    do (t1, t2, t3, onsol) <-
      for_from 1 (dim - 1) (fun ii (s : list R * list R * list R * nat) =>
        let '(t1, t2, t3, onsol) := s in
        do c <- aget (ft_cores f) ii;
        do xi <- aget ind ii;
        do t2 <- eval2_ind uevi (nr c * nc c) (fs c) xi t2 0;
        do ra <- aget (ft_ranks f) ii;
        do rb <- aget (ft_ranks f) (ii + 1);
        if ii mod 2 =? 1 then
          do t3 <- dgemv_t ra rb t2 ra t1 t3;
          Ok (t1, t2, t3, 2)
        else
          do t1 <- dgemv_t ra rb t2 ra t3 t1;
          Ok (t1, t2, t3, 1))
      (t1, ms_vals m2, ms_vals m3, 1);
    if onsol =? 2 then aget t3 0 else if onsol =? 1 then aget t1 0 else Abort.

  (** ft.c:1074-1225 function_train_eval_fiber_ind; the downward loop
      [for (ii = dim-2; ii > dim_vary; ii--)] runs over [k = 0, 1, ...] with
      [ii = dim-2-k]. *)
  Definition ft_eval_fiber_ind (uevi : U -> nat -> R) (f : ftrain U) (w : wspace R)
             (fixed_ind : list nat) (N : nat) (ind : list nat) (dim_vary : nat) (out : list R)
    : outcome (list R) :=
    let dim := ft_dim f in
    do _ <- check_outer f;
    do (maxrank, m1, m2, m3) <- pre_eval f w;
    do cv <- aget (ft_cores f) dim_vary;
    do tens <- for_ N (fun jj tens =>
               do ij <- aget ind jj;
               eval2_ind uevi (nr cv * nc cv) (fs cv) ij tens (jj * nr cv * nc cv))
             (repeat r0 (nr cv * nc cv * N));
    do (tm, t1, t2, t3) <-
      (if dim_vary =? 0 then
         do _ <- cassert (nr cv =? 1);
         do tm <- blitr (nc cv * N) tens 0 (repeat r0 (nc cv * N)) 0;
         Ok (tm, ms_vals m1, ms_vals m2, ms_vals m3)
       else
         do c0 <- aget (ft_cores f) 0;
         do i0 <- aget fixed_ind 0;
         do t1 <- eval2_ind uevi (nr c0 * nc c0) (fs c0) i0 (ms_vals m1) 0;
         do (t1, t2, t3, onsol) <-
           for_from 1 (dim_vary - 1) (fun ii (s : list R * list R * list R * nat) =>
             let '(t1, t2, t3, onsol) := s in
             do c <- aget (ft_cores f) ii;
             do xi <- aget fixed_ind ii;
             do t2 <- eval2_ind uevi (nr c * nc c) (fs c) xi t2 0;
             if onsol =? 1 then
               do ra <- aget (ft_ranks f) ii;
               do rb <- aget (ft_ranks f) (ii + 1);
               do t3 <- dgemv_t ra rb t2 ra t1 t3;
               Ok (t1, t2, t3, 2)
             else
               do t1 <- dgemv_t (nr c) (nc c) t2 (nr c) t3 t1;
               Ok (t1, t2, t3, 1))
           (t1, ms_vals m2, ms_vals m3, 1);
         do tm <- for_ N (fun jj tm =>
                    dgemv_tx' (nr cv) (nc cv) tens (jj * nr cv * nc cv) (nr cv)
                              (if onsol =? 1 then t1 else t3) 0 tm (jj * nc cv))
                  (repeat r0 (nc cv * N));
         Ok (tm, t1, t2, t3));
    if dim_vary =? dim - 1 then blitr N tm 0 out 0
    else
      do cl <- aget (ft_cores f) (dim - 1);
      do il <- aget fixed_ind (dim - 1);
      do t1 <- eval2_ind uevi (nr cl * nc cl) (fs cl) il t1 0;
      do (t1, t2, t3, onsol) <-
        for_ (dim - 2 - dim_vary) (fun k (s : list R * list R * list R * nat) =>
          let '(t1, t2, t3, onsol) := s in
          let ii := dim - 2 - k in
          do c <- aget (ft_cores f) ii;
          do xi <- aget fixed_ind ii;
          do t2 <- eval2_ind uevi (nr c * nc c) (fs c) xi t2 0;
          if onsol =? 1 then
            do t3 <- dgemv_n (nr c) (nc c) t2 (nr c) t1 t3;
            Ok (t1, t2, t3, 2)
          else
            do t1 <- dgemv_n (nr c) (nc c) t2 (nr c) t3 t1;
            Ok (t1, t2, t3, 1))
        (t1, t2, t3, 1);
      dgemv_tx' (nc cv) N tm 0 (nc cv) (if onsol =? 1 then t1 else t3) 0 out 0.

  (** ft.c:688-722 function_train_eval_up_to_core *)
  Definition ft_eval_up_to_core (f : ftrain U) (w : wspace R) (core : nat) (x out : list R)
    : outcome (list R * nat) :=
    do _ <- check_outer f;
    do (maxrank, m1, m2, m3) <- pre_eval f w;
    do c0 <- aget (ft_cores f) 0;
    do x0 <- aget x 0;
    do t1 <- eval2 (nr c0 * nc c0) (fs c0) x0 (ms_vals m1);
    do (t1, t2, t3, onsol) <-
      for_from 1 (core - 1) (fun ii (s : list R * list R * list R * nat) =>
        let '(t1, t2, t3, onsol) := s in
        do xi <- aget x ii;
        if ii mod 2 =? 1 then
          do (t2', t3') <- eval_next_core f ii xi t1 t2 t3;
          Ok (t1, t2', t3', 2)
        else
          do (t2', t1') <- eval_next_core f ii xi t3 t2 t1;
          Ok (t1', t2', t3, 1))
      (t1, ms_vals m2, ms_vals m3, 1);
    do c <- aget (ft_cores f) core;
    do out <- blitr (nc c) (if onsol =? 2 then t3 else t1) 0 out 0;
    Ok (out, nc c).
End FTDiffModel.
Arguments ddcache : clear implicits.
Arguments gstate : clear implicits.
