(** Model of the quasi-Newton methods c3_opt_damp_bfgs and c3_opt_lbfgs of
    c3/lib_optimization/optimization.c.

    Simplifications: those of [OptModel] and [BfgsModel]; the numbers of evaluations
    are left out; storing of points and values is switched on (1958-1966, 2061-2070)
    and the stored gradients are left out; the four parts of the workspace are
    buffers of their own, and those which are overwritten in full before they are
    read again keep their initial content. *)
From Verif Require Import Base FOps ParamModel OptModel BfgsModel.
From Coq Require Import ZArith.
Open Scope nat_scope.

Section QnModel.
  Variable K : fops.
  Variable fsqrt : K -> K.
  Variable z20 tol10 tol16 : K.     (* the literals 1e-20, 1e-10 and 1e-16 *)
  Variable f : list K -> K.
  Variable g : list K -> list K.
  Variable o : lsopt K.
  Variable go : gopt K.
  Let d := ls_d K o.
  Open Scope fop_scope.

  (** 2038-2041 *)
  Definition neg_grad (grad dir : list K) : outcome (list K) :=
    for_ d (fun ii dir => do a <- aget grad ii; aset dir ii (fneg K a)) dir.

  (** 2022-2049: when the direction is not one of descent, once more along minus the
      gradient *)
  Fixpoint weak_retry (fuel : nat) (base : list K) (fold : K) (grad w2 dir x : list K) (fx : K) : outcome (list K * K * list K * list K * Z) :=
    match fuel with
    | 0 => OutOfFuel
    | S fuel =>
        do r <- ls_wolfe_bisect K f g o base fold w2 dir x fx;
        if (r_info K r =? -4)%Z then
          do dir <- neg_grad grad dir;
          weak_retry fuel base fold grad (r_g K r) dir (r_x K r) (r_f K r)
        else if (r_info K r <? 0)%Z then Abort
        else Ok (r_x K r, r_f K r, r_g K r, dir, r_info K r)
    end.

  (** 2008-2049 (with [retry]) and 2661-2677 (without): the line search.  Returns the
      point, the value, the gradient, the direction and the code *)
  Definition qn_search (retry : bool) (zfuel : nat) (base : list K) (fold : K) (grad w2 dir x : list K) : outcome (list K * K * list K * list K * Z) :=
    match g_alg K go with
    | BACKTRACK =>
        do r <- ls_box K fsqrt f o base fold grad dir x fold;
        do w2 <- eval_grad K g o (r_x K r) w2;
        Ok (r_x K r, r_f K r, w2, dir, r_info K r)
    | STRONGWOLFE =>
        do w2 <- blit w2 0 grad 0 d;
        do r <- ls_strong_wolfe K fsqrt z20 f g o zfuel base fold w2 dir x fold;
        Ok (r_x K r, r_f K r, r_g K r, dir, r_info K r)
    | WEAKWOLFE =>
        do w2 <- blit w2 0 grad 0 d;
        if retry then weak_retry 3 base fold grad w2 dir x fold else
        do r <- ls_wolfe_bisect K f g o base fold w2 dir x fold;
        Ok (r_x K r, r_f K r, r_g K r, dir, r_info K r)
    end.

  (** 2119-2177 and 2702-2748: the tests for convergence.  [late] says whether the
      step size is looked at away from the bounds. *)
  Definition qn_test (late : bool) (fold fx eta xdiff : K) (x : list K) : outcome (option Z) :=
    do ob <- on_bound K o x;
    let diff := fabs (fx -^ fold) in
    let diff := if tol10 <^ fabs fold then diff /^ fabs fold else diff in
    if ob then
      if diff <^ g_relf K go then Ok (Some FTOL_REACHED) else
      if xdiff <^ ls_absx K o then Ok (Some XTOL_REACHED) else Ok None
    else
      if eta *^ eta /^ fnat 2 <^ g_gtol K go *^ g_gtol K go then Ok (Some GTOL_REACHED) else
      if diff <^ g_relf K go then Ok (Some FTOL_REACHED) else
      if (xdiff <^ ls_absx K o) && late then Ok (Some XTOL_REACHED) else Ok None.

  (** The point, its value, the gradient, the search direction, the inverse Hessian,
      the stored points and the stored values (oldest first) *)
  Record qstate := mkqs { q_x : list K; q_f : K; q_g : list K; q_dir : list K; q_h : list K; q_tx : list (list K); q_tf : list K }.

  (** 2000-2209; [w0], [w2] and [w3] are parts of the workspace *)
  Fixpoint bfgs_loop (zfuel fuel iter : nat) (w0 w2 w3 : list K) (s : qstate) : outcome (Z * qstate) :=
    match fuel with
    | 0 => OutOfFuel
    | S fuel =>
        do base <- blit w0 0 (q_x s) 0 d;
        let fold := q_f s in
        do (x, fx, gnew, dir, _) <- qn_search true zfuel base fold (q_g s) w2 (q_dir s) (q_x s);
        do xdiff <- norm2diff K fsqrt o x base;
        do (h, grad, dir) <- bfgs_step K d tol16 x base gnew w3 (q_g s) dir (q_h s);
        do eta <- odot K o grad dir;
        do c <- qn_test (3 <? iter) fold fx eta xdiff x;
        let s := mkqs x fx grad dir h (q_tx s ++ [x]) (q_tf s ++ [fx]) in
        if g_max K go <? iter + 1 then Ok (MAXITER_REACHED, s) else
        match c with
        | Some code => Ok (code, s)
        | None => bfgs_loop zfuel fuel (iter + 1) w0 w2 w3 s
        end
    end.

  (** 1924-2212 c3_opt_damp_bfgs *)
  Definition opt_bfgs (zfuel : nat) (x grad h w0 w1 w2 w3 : list K) : outcome (Z * qstate) :=
    do grad <- eval_grad K g o x grad;
    do dir <- dsymv K d (f0 -^ f1) h grad w1;
    bfgs_loop zfuel (S (g_max K go)) 0 w0 w2 w3 (mkqs x (f x) grad dir h [x] [f x]).

  Record lstate := mklst { l_x : list K; l_f : K; l_g : list K; l_dir : list K; l_alpha : list K; l_list : blist K; l_tx : list (list K); l_tf : list K }.

  (** 2657-2771; [m] is the number of vectors stored *)
  Fixpoint lbfgs_loop (zfuel fuel iter m : nat) (scale : bool) (w0 w2 : list K) (s : lstate) : outcome (Z * lstate) :=
    match fuel with
    | 0 => OutOfFuel
    | S fuel =>
        do base <- blit w0 0 (l_x s) 0 d;
        let fold := l_f s in
        do (x, fx, gnew, dir, res) <- qn_search false zfuel base fold (l_g s) w2 (l_dir s) (l_x s);
        do _ <- cassert (-1 <? res)%Z;
        do l <- list_insert K d (l_list s) iter x base gnew (l_g s);
        do grad <- blit (l_g s) 0 gnew 0 d;
        do (dir, alpha, l) <- lbfgs_hg K d (iter + 1) m f1 scale (l_alpha s) grad dir l;
        do dir <- vscal K d (f0 -^ f1) dir;
        do eta <- odot K o grad dir;
        do xdiff <- norm2diff K fsqrt o x base;
        do c <- qn_test true fold fx eta xdiff x;
        let s := mklst x fx grad dir alpha l (l_tx s ++ [x]) (l_tf s ++ [fx]) in
        if g_max K go <? iter + 1 then Ok (MAXITER_REACHED, s) else
        match c with
        | Some code => Ok (code, s)
        | None => lbfgs_loop zfuel fuel (iter + 1) m scale w0 w2 s
        end
    end.

  (** 2599-2775 c3_opt_lbfgs *)
  Definition opt_lbfgs (zfuel m : nat) (scale : bool) (x grad w0 w1 w2 : list K) : outcome (Z * lstate) :=
    do grad <- eval_grad K g o x grad;
    do dir <- blit w1 0 grad 0 d;
    do dir <- vscal K d (f0 -^ f1) dir;
    lbfgs_loop zfuel (S (g_max K go)) 0 m scale w0 w2 (mklst x (f x) grad dir (repeat f0 m) (list_alloc K m) [x] [f x]).
End QnModel.
