(** Model of the line searches, the projected gradient method and the exhaustive
    search of c3/lib_optimization/optimization.c.

    Simplifications: arithmetic without rounding; the objective is a function of
    the point, its gradient a function of the point with [d] entries (a value that
    is not a number ends the program in the code, 978-985); the printed messages
    are left out; lower and upper bounds are set (c3opt_set_nvars 383-392 or
    c3opt_alloc 455-461 set them).  The square root is a parameter, so that runs
    over the rationals can be computed. *)
From Verif Require Import Base FOps ParamModel.
From Coq Require Import ZArith.
Open Scope nat_scope.

Section OptModel.
  Variable K : fops.
  Variable fsqrt : K -> K.
  Variable z20 : K.                 (* the literal 1e-20 *)
  Variable f : list K -> K.
  Variable g : list K -> list K.
  Open Scope fop_scope.

  Definition fhalf : K := f1 /^ fnat 2.
  Definition fneg (a : K) : K := f0 -^ a.

  (** optimization.c 54-65 struct c3LS and the fields of 236-284 struct c3Opt that
      the line searches read *)
  Record lsopt := mkls { ls_d : nat; ls_alpha : K; ls_beta : K; ls_max : nat;
                         ls_lb : list K; ls_ub : list K; ls_absx : K }.
  Variable o : lsopt.
  Let d := ls_d o.

  (** cblas_ddot(d,a,1,b,1) *)
  Definition odot (a b : list K) : outcome K :=
    for_ d (fun ii s => do u <- aget a ii; do v <- aget b ii; Ok (s +^ u *^ v)) f0.

  (** linalg.c 493-504 norm2diff *)
  Definition norm2diff (a b : list K) : outcome K :=
    do s <- for_ d (fun ii s => do u <- aget a ii; do v <- aget b ii; Ok (s +^ (u -^ v) *^ (u -^ v))) f0;
    Ok (fsqrt s).

  (** optimization.c 966-994 c3opt_eval with a gradient buffer *)
  Definition eval_grad (x grad : list K) : outcome (list K) := blit grad 0 (g x) 0 d.

  (** optimization.c 1128-1142 c3opt_ls_x_move *)
  Definition x_move (t : K) (dir x newx : list K) : outcome (list K) :=
    do nx <- blit newx 0 x 0 d;
    do nx <- for_ d (fun ii nx => do a <- aget nx ii; do b <- aget dir ii; aset nx ii (a +^ t *^ b)) nx;
    for_ d (fun ii nx =>
      do a <- aget nx ii;
      do l <- aget (ls_lb o) ii;
      if a <=^ l then aset nx ii l else
      do u <- aget (ls_ub o) ii;
      if u <=^ a then aset nx ii u else Ok nx) nx.

  (** What a line search leaves behind: the returned number, newx, newf, the
      gradient buffer, info, and how often the objective and its gradient were
      evaluated *)
  Record lsres := mkres { r_step : K; r_x : list K; r_f : K; r_g : list K; r_info : Z; r_nf : nat; r_ng : nat }.

  (** 1176-1198, 1304-1326 and 1491-1513: the checks that all line searches start
      with; [Some code] is an early return *)
  Definition ls_check (x : list K) : outcome (option Z) :=
    if (ls_alpha o <=^ f0) || (fhalf <=^ ls_alpha o) then Ok (Some (-1)%Z) else
    if (ls_beta o <=^ f0) && (f1 <=^ ls_beta o) then Ok (Some (-2)%Z) else
    do bad <- for_ d (fun ii (bad : bool) =>
      if bad then Ok bad else
      do a <- aget x ii;
      do l <- aget (ls_lb o) ii;
      if a <^ l then Ok true else
      do u <- aget (ls_ub o) ii;
      Ok (u <^ a)) false;
    Ok (if bad then Some (-3)%Z else None).

  (** 1163-1256 c3opt_ls_box.  The initial step computed from the previous value
      (1207-1213) is overwritten by 1 at once (1214) and left out. *)
  Fixpoint box_loop (fuel iter : nat) (x dir : list K) (fx dg t checkval : K) (newx : list K) (newf : K) (nf : nat)
    : outcome (K * list K * K * Z * nat) :=
    match fuel with
    | 0 => OutOfFuel
    | S fuel =>
        if negb (checkval <^ newf) then Ok (t, newx, newf, 0%Z, nf) else
        if ls_max o <=? iter then Ok (t, newx, newf, 1%Z, nf) else
        let t := if 1 <? iter then ls_beta o *^ t else t in
        let checkval := fx +^ ls_alpha o *^ t *^ dg in
        do newx <- x_move t dir x newx;
        do diff <- norm2diff newx x;
        if diff <^ ls_absx o then Ok (t, newx, f newx, 0%Z, S nf) else
        box_loop fuel (iter + 1) x dir fx dg t checkval newx (f newx) (S nf)
    end.

  Definition ls_box (x : list K) (fx : K) (grad dir newx : list K) (newf : K) : outcome lsres :=
    do c <- ls_check x;
    match c with
    | Some info => Ok (mkres f0 newx newf grad info 0 0)
    | None =>
        do dg <- odot grad dir;
        do newx <- x_move f1 dir x newx;
        do (t, newx, newf, info, nf) <- box_loop (S (ls_max o)) 1 x dir fx dg f1 (fx +^ ls_alpha o *^ f1 *^ dg) newx (f newx) 1;
        Ok (mkres (t *^ ls_alpha o) newx newf grad info nf 0)
    end.

  (** 1281-1395 c3opt_ls_wolfe_bisect *)
  Fixpoint bis_loop (fuel iter : nat) (x dir : list K) (fx dg t tmin tmax : K) (newx grad : list K) (newf : K) (nf ng : nat)
    : outcome lsres :=
    match fuel with
    | 0 => OutOfFuel
    | S fuel =>
        if negb (iter <? ls_max o) then
          if iter =? ls_max o then
            do grad <- eval_grad newx grad;
            Ok (mkres (t *^ ls_alpha o) newx (f newx) grad 1 (S nf) (S ng))
          else Ok (mkres (t *^ ls_alpha o) newx newf grad 0 nf ng)
        else
        let checkval := fx +^ ls_alpha o *^ t *^ dg in
        do newx <- x_move t dir x newx;
        let fval := f newx in
        if checkval <^ fval then
          bis_loop fuel (iter + 1) x dir fx dg (fhalf *^ (tmin +^ t)) tmin t newx grad newf (S nf) ng
        else
          do grad <- eval_grad newx grad;
          do dg2 <- odot grad dir;
          if dg2 <^ ls_beta o *^ dg then
            let t' := if fabs tmax <^ ftol then fnat 2 *^ t else fhalf *^ (t +^ tmax) in
            bis_loop fuel (iter + 1) x dir fx dg t' t tmax newx grad newf (S (S nf)) (S ng)
          else Ok (mkres (t *^ ls_alpha o) newx fval grad 0 (S (S nf)) (S ng))
    end.

  Definition ls_wolfe_bisect (x : list K) (fx : K) (grad dir newx : list K) (newf : K) : outcome lsres :=
    do dg <- odot grad dir;
    do c <- ls_check x;
    match c with
    | Some info => Ok (mkres f0 newx newf grad info 0 0)
    | None =>
        if ftol <^ dg then
          do newx <- blit newx 0 x 0 d;
          Ok (mkres f0 newx fx grad (-4) 0 0)
        else bis_loop (S (ls_max o)) 1 x dir fx dg f1 f0 f0 newx grad newf 0 0
    end.

  (** 1403-1455 c3opt_ls_zoom; returns the step, newx, the gradient buffer, the
      value and the numbers of evaluations.  The loop has no bound of its own. *)
  Fixpoint ls_zoom (fuel : nat) (tlow tl th fl : K) (x dir : list K) (fx dg : K) (newx grad : list K) (fval : K) (nf ng : nat)
    : outcome (K * list K * list K * K * nat * nat) :=
    match fuel with
    | 0 => OutOfFuel
    | S fuel =>
        if negb (z20 <=^ fabs (th -^ tl)) then Ok (tlow, newx, grad, fval, nf, ng) else
        let t := (tl +^ th) /^ fnat 2 in
        do newx <- x_move t dir x newx;
        do grad <- eval_grad newx grad;
        let fcurr := f newx in
        let checkval := fx +^ ls_alpha o *^ t *^ dg in
        if (checkval <^ fcurr) || (fl <=^ fcurr) then
          ls_zoom fuel tlow tl t fl x dir fx dg newx grad fcurr (S nf) (S ng)
        else
          do dg2 <- odot grad dir;
          if fabs dg2 <=^ fneg (ls_beta o) *^ dg then Ok (t, newx, grad, fcurr, S nf, S ng) else
          let th' := if f0 <=^ dg2 *^ (th -^ tl) then tl else th in
          ls_zoom fuel tlow t th' fcurr x dir fx dg newx grad fcurr (S nf) (S ng)
    end.

  (** 1477-1602 c3opt_ls_strong_wolfe.  The initial step (1530-1535) is overwritten
      by 0.1 at once (1536) and left out.  1560-1564: the test and the assertion in
      it contradict each other. *)
  Fixpoint sw_loop (zfuel fuel iter : nat) (x dir : list K) (fx dg t t_prev f_prev : K) (newx grad : list K) (newf : K) (nf ng : nat)
    : outcome lsres :=
    match fuel with
    | 0 => OutOfFuel
    | S fuel =>
        if negb (iter <=? ls_max o) then Ok (mkres (t *^ ls_alpha o) newx newf grad 1 nf ng) else
        do newx <- x_move t dir x newx;
        do grad <- eval_grad newx grad;
        let newf := f newx in
        do diff <- norm2diff newx x;
        if diff <^ ls_absx o then Ok (mkres (t *^ ls_alpha o) newx newf grad 0 (S nf) (S ng)) else
        let checkval := fx +^ ls_alpha o *^ t *^ dg in
        if (checkval <^ newf) || ((f_prev <=^ newf) && (1 <? iter)) then
          do _ <- (if newf <^ f_prev then cassert (f_prev <^ newf) else Ok tt);
          do (t, newx, grad, newf, nf, ng) <- ls_zoom zfuel t_prev t_prev t f_prev x dir fx dg newx grad newf (S nf) (S ng);
          Ok (mkres (t *^ ls_alpha o) newx newf grad 0 nf ng)
        else
          do dg2 <- odot grad dir;
          if fabs dg2 <=^ fneg (ls_beta o) *^ dg then Ok (mkres (t *^ ls_alpha o) newx newf grad 0 (S nf) (S ng)) else
          if f0 <=^ dg2 then
            do _ <- cassert (newf <^ f_prev);
            do (t, newx, grad, newf, nf, ng) <- ls_zoom zfuel t t t_prev newf x dir fx dg newx grad newf (S nf) (S ng);
            Ok (mkres (t *^ ls_alpha o) newx newf grad 0 nf ng)
          else sw_loop zfuel fuel (iter + 1) x dir fx dg (t +^ fhalf *^ (f1 -^ t)) t newf newx grad newf (S nf) (S ng)
    end.

  Definition ls_strong_wolfe (zfuel : nat) (x : list K) (fx : K) (grad dir newx : list K) (newf : K) : outcome lsres :=
    do c <- ls_check x;
    match c with
    | Some info => Ok (mkres f0 newx newf grad info 0 0)
    | None =>
        do dg <- odot grad dir;
        if ftol <^ dg then
          do newx <- blit newx 0 x 0 d;
          Ok (mkres f0 newx fx grad (-4) 0 0)
        else sw_loop zfuel (S (ls_max o)) 1 x dir fx dg (f1 /^ fnat 10) f0 fx newx grad newf 0 0
    end.

  (** ** Minimization *)

  (** enum c3opt_ls_alg and enum c3opt_return of optimization.h 50-59 *)
  Inductive ls_alg := BACKTRACK | STRONGWOLFE | WEAKWOLFE.
  Definition MAXITER_REACHED : Z := (-1)%Z.
  Definition FTOL_REACHED : Z := 1%Z.
  Definition XTOL_REACHED : Z := 2%Z.
  Definition GTOL_REACHED : Z := 3%Z.

  (** The remaining fields of 236-284 struct c3Opt that the methods read *)
  Record gopt := mkg { g_max : nat; g_relf : K; g_gtol : K; g_alg : ls_alg }.
  Variable go : gopt.
  Variable tol10 : K.               (* the literal 1e-10 *)

  (** 2885-2892 *)
  Definition on_bound (x : list K) : outcome bool :=
    for_ d (fun ii (b : bool) =>
      if b then Ok b else
      do a <- aget x ii; do l <- aget (ls_lb o) ii;
      if a <=^ l then Ok true else
      do u <- aget (ls_ub o) ii; Ok (u <=^ a)) false.

  (** State of the gradient method: the point, its value, the gradient buffer, the
      two halves of the workspace, the numbers of evaluations and the stored values
      (2866-2868, oldest first) *)
  Record gstate := mkgs { s_x : list K; s_f : K; s_g : list K; s_base : list K; s_dir : list K;
                          s_nf : nat; s_ng : nat; s_tr : list K }.

  (** 2836-2861, the line search of one step *)
  Definition grad_search (zfuel : nat) (s : gstate) : outcome gstate :=
    do base <- blit (s_base s) 0 (s_x s) 0 d;
    do dir <- for_ d (fun ii dir => do a <- aget (s_g s) ii; aset dir ii (fneg a)) (s_dir s);
    match g_alg go with
    | BACKTRACK =>
        do r <- ls_box base (s_f s) (s_g s) dir (s_x s) (s_f s);
        do gr <- eval_grad (r_x r) (r_g r);
        Ok (mkgs (r_x r) (f (r_x r)) gr base dir (s_nf s + r_nf r + 1) (s_ng s + r_ng r + 1) (s_tr s))
    | STRONGWOLFE =>
        do r <- ls_strong_wolfe zfuel base (s_f s) (s_g s) dir (s_x s) (s_f s);
        Ok (mkgs (r_x r) (r_f r) (r_g r) base dir (s_nf s + r_nf r) (s_ng s + r_ng r) (s_tr s))
    | WEAKWOLFE =>
        do r <- ls_wolfe_bisect base (s_f s) (s_g s) dir (s_x s) (s_f s);
        Ok (mkgs (r_x r) (r_f r) (r_g r) base dir (s_nf s + r_nf r) (s_ng s + r_ng r) (s_tr s))
    end.

  (** 2883-2930, the tests for convergence; [Some code] ends the loop *)
  Definition grad_test (fold : K) (s : gstate) : outcome (option Z) :=
    do eta <- odot (s_g s) (s_g s);
    do ob <- on_bound (s_x s);
    let diff := fabs (s_f s -^ fold) in
    let diff := if tol10 <^ fabs fold then diff /^ fabs fold else diff in
    do xdiff <- norm2diff (s_x s) (s_base s);
    if ob then
      if diff <^ g_relf go then Ok (Some FTOL_REACHED) else
      if xdiff <^ ls_absx o then Ok (Some XTOL_REACHED) else Ok None
    else
      if eta <^ g_gtol go *^ g_gtol go then Ok (Some GTOL_REACHED) else
      if diff <^ g_relf go then Ok (Some FTOL_REACHED) else
      if xdiff <^ ls_absx o then Ok (Some XTOL_REACHED) else Ok None.

  (** 2834-2946 *)
  Fixpoint grad_loop (zfuel fuel iter : nat) (s : gstate) : outcome (Z * gstate) :=
    match fuel with
    | 0 => OutOfFuel
    | S fuel =>
        let fold := s_f s in
        do s <- grad_search zfuel s;
        let s := mkgs (s_x s) (s_f s) (s_g s) (s_base s) (s_dir s) (s_nf s) (s_ng s) (s_tr s ++ [s_f s]) in
        if g_max go <? iter + 1 then Ok (MAXITER_REACHED, s) else
        do c <- grad_test fold s;
        match c with
        | Some code => Ok (code, s)
        | None => grad_loop zfuel fuel (iter + 1) s
        end
    end.

  (** 2791-2947 c3_opt_gradient; [base] and [dir] are the halves of the workspace *)
  Definition opt_gradient (zfuel : nat) (x grad base dir : list K) : outcome (Z * gstate) :=
    do grad <- eval_grad x grad;
    do gg <- odot grad grad;
    let s := mkgs x (f x) grad base dir 1 1 [f x] in
    if fsqrt gg <^ g_gtol go then Ok (GTOL_REACHED, s) else
    grad_loop zfuel (S (g_max go)) 1 s.

  (** 3001-3016: exhaustive search over the locations set by 921-932
      c3opt_set_brute_force_vals; returns the value, the point and the number of
      evaluations *)
  Definition opt_brute (nlocs : nat) (locs start : list K) : outcome (K * list K * nat) :=
    let loc ii := do w <- blit (repeat f0 d) 0 locs (ii * d) d; Ok w in
    do x0 <- loc 0;
    do (minf, minind) <- for_from 1 (nlocs - 1) (fun ii (s : K * nat) =>
      let '(minf, minind) := s in
      do x <- loc ii;
      if f x <^ minf then Ok (f x, ii) else Ok (minf, minind)) (f x0, 0);
    do st <- for_ d (fun ii st => do v <- aget locs (minind * d + ii); aset st ii v) start;
    Ok (minf, st, S (nlocs - 1)).
End OptModel.
