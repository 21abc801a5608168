(** Model of the quasi-Newton parts of c3/lib_optimization/optimization.c: the update
    of the inverse Hessian in c3_opt_damp_bfgs, the linked list of c3_opt_lbfgs and
    the product with the implicit inverse Hessian.

    Simplifications: arithmetic without rounding; BLAS routines by their definition;
    a node of the list is named by its position in the list of all nodes allocated
    so far (nodes are only freed with the whole list), the null pointer is [None];
    vectors have exactly [d] entries; the exit for a value that is not a number
    (2555-2558), printing (2246-2262, 2470-2483) and freeing (2488-2505) are left out. *)
From Verif Require Import Base FOps ParamModel.
Open Scope nat_scope.

Section BfgsModel.
  Variable K : fops.
  Variable d : nat.
  Open Scope fop_scope.

  (** cblas_ddot(d,a,1,b,1) *)
  Definition vdot (a b : list K) : outcome K :=
    for_ d (fun ii s => do u <- aget a ii; do v <- aget b ii; Ok (s +^ u *^ v)) f0.
  (** cblas_daxpy(d,c,x,1,y,1) *)
  Definition vaxpy (c : K) (x y : list K) : outcome (list K) :=
    for_ d (fun ii y => do u <- aget x ii; do v <- aget y ii; aset y ii (v +^ c *^ u)) y.
  (** cblas_dscal(d,c,x,1) *)
  Definition vscal (c : K) (x : list K) : outcome (list K) :=
    for_ d (fun ii x => do u <- aget x ii; aset x ii (c *^ u)) x.

  (** cblas_dsymv(CblasColMajor,CblasUpper,d,c,A,d,x,1,0.0,y,1): only the entries
      [i <= j] of the matrix, stored at [i + j d], are read *)
  Definition dsymv (c : K) (A x y : list K) : outcome (list K) :=
    for_ d (fun ii y =>
      do s <- for_ d (fun jj s => do a <- aget A (Nat.min ii jj + Nat.max ii jj * d); do v <- aget x jj; Ok (s +^ a *^ v)) f0;
      aset y ii (c *^ s)) y.
  (** cblas_dsyr(CblasColMajor,CblasUpper,d,c,x,1,A,d) *)
  Definition dsyr (c : K) (x A : list K) : outcome (list K) :=
    for_ d (fun jj A => for_ (S jj) (fun ii A =>
      do a <- aget A (ii + jj * d); do u <- aget x ii; do v <- aget x jj; aset A (ii + jj * d) (a +^ c *^ u *^ v)) A) A.
  (** cblas_dsyr2(CblasColMajor,CblasUpper,d,c,x,1,y,1,A,d) *)
  Definition dsyr2 (c : K) (x y A : list K) : outcome (list K) :=
    for_ d (fun jj A => for_ (S jj) (fun ii A =>
      do a <- aget A (ii + jj * d); do xi <- aget x ii; do xj <- aget x jj; do yi <- aget y ii; do yj <- aget y jj;
      aset A (ii + jj * d) (a +^ c *^ xi *^ yj +^ c *^ yi *^ xj)) A) A.

  Variable tol16 : K.               (* the literal 1e-16 *)

  (** optimization.c 2080-2116: from the old and the new point and gradient to the
      new inverse Hessian and the new search direction.  [w0], [w2] and [w3] are
      the parts of the workspace: old point, new gradient, scratch.  Returns the
      inverse Hessian, the gradient buffer and the direction. *)
  Definition bfgs_step (x w0 w2 w3 grad dir invhess : list K) : outcome (list K * list K * list K) :=
    do w0 <- vscal (f0 -^ f1) w0;
    do s <- vaxpy f1 x w0;
    do y <- vaxpy (f0 -^ f1) grad w2;
    do By <- dsymv f1 invhess y w3;
    do sty <- vdot s y;
    do ytBy <- vdot y By;
    do invhess <- (if tol16 <^ fabs sty then
        let a1 := (sty +^ ytBy) /^ (sty *^ sty) in
        do h <- dsyr a1 s invhess;
        let a2 := (f0 -^ f1) /^ sty in
        dsyr2 a2 By s h
      else Ok invhess);
    do grad <- vaxpy f1 y grad;
    do dir <- dsymv (f0 -^ f1) invhess grad dir;
    Ok (invhess, grad, dir).

  (** 2217-2225 struct c3opt_lbfgs_data *)
  Record node := mknode { n_iter : nat; n_s : list K; n_y : list K; n_rhoinv : K; n_next : option nat; n_prev : option nat }.
  (** 2276-2286 struct c3opt_lbfgs_list; [b_nodes] is the memory *)
  Record blist := mkblist { b_m : nat; b_size : nat; b_recent : option nat; b_step : nat; b_cstep : option nat; b_nodes : list node }.

  Definition deref (l : blist) (p : option nat) : outcome (nat * node) :=
    match p with Some i => do n <- aget (b_nodes l) i; Ok (i, n) | None => UB end.
  Definition set_node (l : blist) (i : nat) (n : node) : outcome blist :=
    do ns <- aset (b_nodes l) i n; Ok (mkblist (b_m l) (b_size l) (b_recent l) (b_step l) (b_cstep l) ns).

  (** 2295-2309 c3opt_lbfgs_list_alloc *)
  Definition list_alloc (m : nat) : blist := mkblist m 0 None 0 None [].

  (** 2371-2373: to the end of the chain; each node is visited at most once *)
  Fixpoint chain_end (l : blist) (fuel : nat) (p : option nat) : outcome nat :=
    match fuel with
    | 0 => OutOfFuel
    | S fuel => do (i, n) <- deref l p; match n_next n with None => Ok i | q => chain_end l fuel q end
    end.

  (** 2321-2387 c3opt_lbfgs_list_insert, with c3opt_lbfgs_data_alloc 2230-2241 *)
  Definition list_insert (l : blist) (iter : nat) (x_next x_curr g_next g_curr : list K) : outcome blist :=
    let head := b_recent l in
    do (l, new) <- (if b_m l <=? b_size l then
        do (_, h) <- deref l head;
        do (i, _) <- deref l (n_prev h); Ok (l, i)
      else
        Ok (mkblist (b_m l) (b_size l) (b_recent l) (b_step l) (b_cstep l)
              (b_nodes l ++ [mknode 0 [] [] f0 None None]), length (b_nodes l)));
    do (_, n) <- deref l (Some new);
    do s <- vaxpy (f0 -^ f1) x_curr x_next;
    do y <- vaxpy (f0 -^ f1) g_curr g_next;
    do rhoinv <- vdot s y;
    let n := mknode iter s y rhoinv (n_next n) (n_prev n) in
    do l <- set_node l new n;
    do l <- (if b_m l <=? b_size l then
        set_node l new (mknode iter s y rhoinv (b_recent l) (n_prev n))
      else if 0 <? b_size l then
        do (h, hn) <- deref l (b_recent l);
        do l <- set_node l h (mknode (n_iter hn) (n_s hn) (n_y hn) (n_rhoinv hn) (n_next hn) (Some new));
        let n := mknode iter s y rhoinv (b_recent l) (n_prev n) in
        do l <- set_node l new n;
        let l := mkblist (b_m l) (S (b_size l)) (Some new) (b_step l) (b_cstep l) (b_nodes l) in
        if b_size l =? b_m l then
          do last <- chain_end l (length (b_nodes l)) head;
          set_node l new (mknode iter s y rhoinv (n_next n) (Some last))
        else Ok l
      else
        do l <- set_node l new (mknode iter s y rhoinv None None);
        Ok (mkblist (b_m l) 1 (b_recent l) (b_step l) (b_cstep l) (b_nodes l)));
    Ok (mkblist (b_m l) (b_size l) (Some new) 0 (b_cstep l) (b_nodes l)).

  (** 2392-2395 c3opt_lbfgs_reset_step *)
  Definition list_reset (l : blist) : blist := mkblist (b_m l) (b_size l) (b_recent l) 0 (b_cstep l) (b_nodes l).

  (** 2407-2428 c3opt_lbfgs_list_step *)
  Definition list_step (l : blist) : outcome (blist * node) :=
    let step := b_step l + 1 in
    do (step, c) <- (if step =? 1 then Ok (step, b_recent l)
      else do (_, n) <- deref l (b_cstep l); Ok (if step =? b_size l then 0 else step, n_next n));
    let l := mkblist (b_m l) (b_size l) (b_recent l) step c (b_nodes l) in
    do (_, n) <- deref l c;
    Ok (l, n).

  (** 2440-2465 c3opt_lbfgs_list_step_back *)
  Definition list_step_back (l : blist) : outcome (blist * node) :=
    let step := b_step l + 1 in
    do (step, c) <- (if step =? 1 then
        do c <- for_from 1 (b_size l - 1) (fun _ c => do (_, n) <- deref l c; Ok (n_next n)) (b_recent l);
        Ok (step, c)
      else do (_, n) <- deref l (b_cstep l); Ok (if step =? b_size l then 0 else step, n_prev n));
    let l := mkblist (b_m l) (b_size l) (b_recent l) step c (b_nodes l) in
    do (_, n) <- deref l c;
    Ok (l, n).

  (** 2521-2583 lbfgs_hg: the product with the inverse Hessian, in [q] *)
  Definition lbfgs_hg (iter m : nat) (hoscale : K) (scale : bool) (alpha g q : list K) (l : blist) : outcome (list K * list K * blist) :=
    let '(incr, bound) := if iter <=? m then (0, iter) else (iter - m, m) in
    do q <- blit q 0 g 0 d;
    let l := list_reset l in
    do (l, alpha, q, den, num) <- for_ bound (fun k (s : blist * list K * list K * K * K) =>
      let '(l, alpha, q, den, num) := s in
      let ii := bound - 1 - k in
      do (l, n) <- list_step l;
      do (den, num) <- (if ii =? bound - 1 then do e <- vdot (n_y n) (n_y n); Ok (e, n_rhoinv n) else Ok (den, num));
      do _ <- cassert (n_iter n =? ii + incr);
      do sq <- vdot (n_s n) q;
      let a := f1 /^ n_rhoinv n *^ sq in
      do alpha <- aset alpha ii a;
      do q <- vaxpy (f0 -^ a) (n_y n) q;
      Ok (l, alpha, q, den, num)) (l, alpha, q, f0, f0);
    do q <- for_ d (fun zz q => do v <- aget q zz;
      aset q zz (if (ftol <^ den) && scale then v *^ (hoscale *^ num /^ den) else v *^ hoscale)) q;
    let l := list_reset l in
    do (l, q) <- for_ bound (fun ii (s : blist * list K) =>
      let '(l, q) := s in
      do (l, n) <- list_step_back l;
      do yq <- vdot (n_y n) q;
      let beta := f1 /^ n_rhoinv n *^ yq in
      do a <- aget alpha ii;
      do q <- vaxpy (a -^ beta) (n_s n) q;
      Ok (l, q)) (l, q);
    Ok (q, alpha, l).
End BfgsModel.
