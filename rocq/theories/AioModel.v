(** Model of all-at-once regression: c3/lib_superlearn/objective_functions.c 108-233,
    c3/lib_superlearn/regress.c 104-220 (AIO), 280-302, 332-511, superlearn.c 56-103,
    c3/lib_clinalg/ft.c 957-990 and qmarray.c 3639-3675 (the regularizer).

    A pointer [p + off] is [skipn off p]; what is written through it is put back.  The
    pointer to a sample is the list of its [dim] numbers.  Work space and data are those of
    AlsModel (running_lr, running_rl and the array core_evals are not used).  Not
    modelled: printing, and the check of the initial guess for nan and inf. *)
From Verif Require Export AlsModel.

Section AioModel.
  Context {R : CRing} {F : Type}.
  Open Scope cr_scope.
  Notation G := (gfn R F).
  Variable bad : R -> bool.
  (** as in AlsModel; [nsq u]: generic_function_inner(u, u); [nsg u s]: what
      generic_function_squared_norm_param_grad(u, s, grad) (functions.c:2420) adds to grad *)
  Variables (z : G) (ev : G -> R -> R) (pge : G -> R -> R * list R) (bas : G -> R -> list R).
  Variables (nsq : G -> R) (nsg : G -> R -> list R).
  Variable rdiv : R -> nat -> R.
  Let U := evU z ev.
  Notation ftpar := (ftparam R U).

  (** struct SLMemManager with running_eval *)
  Record aiomem := mkaio { o_m : slmem (R := R); o_re : list R }.
  Definition set_lin (m : slmem (R := R)) l := mkmem (m_lr m) (m_rl m) l (m_evals m) (m_grad m) (m_rgrad m) (m_ce m) (m_ws m).

  (** superlearn_util.c 207-260, 331-369 *)
  Definition aio_init (lin : bool) (ftp : ftpar) (N : nat) (x lin0 : list R) : outcome aiomem :=
    do m <- mem_init z ev bas lin ftp N x lin0 0;
    Ok (mkaio m (repeat r0 (2 * fp_nparams ftp))).

  (** regress.c 104-131 ft_param_eval_grad for AIO *)
  Definition aio_eval_grad (ftp : ftpar) (N : nat) (x : list R) (want : bool) (o : aiomem) : outcome aiomem :=
    for_ N (fun ii o =>
      let m := o_m o in
      let xi := firstn (fp_dim ftp) (skipn (ii * fp_dim ftp) x) in
      if want then
        let off := ii * fp_nparams ftp in
        do (v, grad, re, rg, lv) <- ftp_gradeval pge ftp xi (skipn off (m_grad m)) (m_lin m) (o_re o) (m_rgrad m);
        do e <- aset (m_evals m) ii v;
        Ok (mkaio (set_lin (set_out m e (firstn off (m_grad m) ++ grad) rg (m_ws m)) lv) re)
      else
        do (v, ws) <- ft_eval (fp_ft ftp) (m_ws m) xi;
        do e <- aset (m_evals m) ii v;
        Ok (mkaio (set_out m e (m_grad m) (m_rgrad m) ws) (o_re o))) o.

  (** regress.c 169-220 ft_linparam_eval_grad for AIO *)
  Definition aio_linparam_eval_grad (ftp : ftpar) (N : nat) (ind : option (list nat)) (want : bool) (o : aiomem) : outcome aiomem :=
    for_ N (fun ii o =>
      let m := o_m o in
      do i <- (match ind with None => Ok ii | Some ix => aget ix ii end);
      let lv := skipn (i * fp_nparams ftp) (m_lin m) in
      if want then
        let off := ii * fp_nparams ftp in
        do (v, grad, re, rg, _) <- ftp_gradeval_lin ftp (skipn off (m_grad m)) lv (o_re o) (m_rgrad m);
        do e <- aset (m_evals m) ii v;
        Ok (mkaio (set_out m e (firstn off (m_grad m) ++ grad) rg (m_ws m)) re)
      else
        do (v, re) <- ftp_eval_lin ftp lv (o_re o);
        do e <- aset (m_evals m) ii v;
        Ok (mkaio (set_out m e (m_grad m) (m_rgrad m) (m_ws m)) re)) o.

  (** 332-361 ft_param_learning_interface for AIO *)
  Definition aio_interface (lin : bool) (p : list R) (N : nat) (ind : option (list nat)) (want : bool) (d : sldata (R := R))
      (s : ftpar * aiomem) : outcome (ftpar * aiomem) :=
    let '(ftp, o) := s in
    do ftp <- ftp_update bad ftp p;
    do x <- subset (fp_dim ftp) d N ind;
    do o <- (if lin then aio_linparam_eval_grad ftp N ind want o else aio_eval_grad ftp N x want o);
    Ok (ftp, o).

  (** objective_functions.c:138-233 c3_objective_function_least_squares.  [want] is
      [grad != NULL]; the gradient is added to [grad], the whole is then divided. *)
  Definition aio_least_squares (lin : bool) (nparam : nat) (p : list R) (N : nat) (ind : option (list nat)) (d : sldata (R := R)) (w : option (list R))
      (want : bool) (grad : list R) (s : ftpar * aiomem) : outcome (R * list R * (ftpar * aiomem)) :=
    do s <- aio_interface lin p N ind want d s;
    let m := o_m (snd s) in
    let resid ii :=
      do i <- (match ind with None => Ok ii | Some ix => aget ix ii end);
      do y <- aget (d_y d) i;
      do e <- aget (m_evals m) ii;
      Ok (i, y -! e) in
    do (out, grad) <- for_ N (fun ii (s : R * list R) =>
        let '(out, grad) := s in
        do (i, dy) <- resid ii;
        match w with
        | None =>
            do grad <- (if want then for_ nparam (fun jj grad =>
              do a <- aget grad jj;
              do g <- aget (m_grad m) (ii * nparam + jj);
              aset grad jj (a -! (r1 +! r1) *! dy *! g)) grad else Ok grad);
            Ok (out +! dy *! dy, grad)
        | Some w =>
            do wi <- aget w i;
            do grad <- (if want then for_ nparam (fun jj grad =>
              do a <- aget grad jj;
              do g <- aget (m_grad m) (ii * nparam + jj);
              aset grad jj (a -! (r1 +! r1) *! dy *! g *! wi)) grad else Ok grad);
            Ok (out +! dy *! dy *! wi, grad)
        end) (r0, grad);
    do grad <- (if want then for_ nparam (fun jj grad => do a <- aget grad jj; aset grad jj (rdiv a N)) grad else Ok grad);
    Ok (rdiv out N, grad, s).

  (** qmarray.c:3651 qmarray_param_grad_sqnorm on [grad + off], and ft.c:970
      function_train_param_grad_sqnorm *)
  Definition qma_sqnorm (c : qma G) (scale : R) (want : bool) (grad : list R) (off : nat) : outcome (R * list R) :=
    do (out, grad, _) <- for_ (nr c * nc c) (fun ii (s : R * list R * nat) =>
      let '(out, grad, run) := s in
      do u <- aget (fs c) ii;
      do grad <- (if want then for_ (length (nsg u scale)) (fun l grad =>
          do a <- aget grad (off + run + l);
          do b <- aget (nsg u scale) l;
          aset grad (off + run + l) (a +! b)) grad else Ok grad);
      Ok (out +! scale *! nsq u, grad, run + gf_num u)) (r0, grad, 0);
    Ok (out, grad).
  Definition ft_sqnorm (f : ftrain U) (weights : list R) (want : bool) (grad : list R) : outcome (R * list R) :=
    do (out, grad, _) <- for_ (ft_dim f) (fun ii (s : R * list R * nat) =>
      let '(out, grad, run) := s in
      do c <- aget (ft_cores f) ii;
      do (incr, _) <- qm_nparams c;
      do w <- aget weights ii;
      do (v, grad) <- qma_sqnorm c w want grad run;
      Ok (out +! v, grad, run + incr)) (r0, grad, 0);
    Ok (out, grad).
  (** regress.c 366-419 ft_param_grad_sqnorm_learning_interface for AIO; [hw] is half of
      the regularization weight *)
  Definition aio_regularizer (hw : R) (want : bool) (grad : list R) (s : ftpar * aiomem) : outcome (R * list R * (ftpar * aiomem)) :=
    let ftp := fst s in
    do (v, grad) <- ft_sqnorm (fp_ft ftp) (repeat hw (fp_dim ftp)) want grad;
    Ok (v, grad, s).

  (** objective_functions.c:110-132 objective_eval for any list of weighted objectives *)
  Definition objfun (St : Type) : Type := bool -> list R -> St -> outcome (R * list R * St).
  Fixpoint eval_list {St} (objs : list (R * objfun St)) (want : bool) (out : R) (grad : list R) (s : St) : outcome (R * list R * St) :=
    match objs with
    | [] => Ok (out, grad, s)
    | (w, f) :: objs =>
        do (v, grad, s) <- f want grad s;
        eval_list objs want (out +! w *! v) grad s
    end.
  Definition objective_eval {St} (nparam : nat) (objs : list (R * objfun St)) (want : bool) (s : St) : outcome (R * list R * St) :=
    eval_list objs want r0 (if want then repeat r0 nparam else []) s.

  (** regress.c 423-444 build_objective; [reg]: FTLS_SPARSEL2 with half of the weight *)
  Definition build_objective (lin : bool) (nparam : nat) (p : list R) (N : nat) (ind : option (list nat)) (d : sldata (R := R)) (w : option (list R)) (reg : option R)
    : list (R * objfun (ftpar * aiomem)) :=
    (r1, aio_least_squares lin nparam p N ind d w) :: match reg with None => [] | Some hw => [(r1, aio_regularizer hw)] end.

  (** superlearn.c:56-103: the optimizer is a strategy as in AlsModel *)
  Fixpoint aio_solve (lin : bool) (d : sldata (R := R)) (w : option (list R)) (reg : option R) (nparam : nat) (s : strat (R := R))
           (st : ftpar * aiomem) (log : list (event (R := R))) : outcome (list R * (ftpar * aiomem) * list (event (R := R))) :=
    match s with
    | Stop g => Ok (g, st, log)
    | Ask p ind want k =>
        let '(N, ix) := match ind with None => (d_N d, None) | Some i => (1, Some [i]) end in
        do (v, g, st) <- objective_eval nparam (build_objective lin nparam p N ix d w reg) want st;
        aio_solve lin d w reg nparam (k v g) st (log ++ [EAsk 0 p ind want v g])
    end.

  (** regress.c 458-511 c3_regression_run_aio; [opt guess] is the optimizer started at
      the parameters of the train *)
  Definition run_aio (opt : list R -> strat (R := R)) (lin : bool) (ftp : ftpar) (d : sldata (R := R)) (w : option (list R)) (reg : option R) (lin0 : list R)
    : outcome (ftpar * list (event (R := R))) :=
    do o <- aio_init lin ftp (d_N d) (d_x d) lin0;
    do guess <- blit (repeat r0 (fp_nparams ftp)) 0 (fp_params ftp) 0 (fp_nparams ftp);
    do nparams <- ft_nparams (fp_ft ftp);
    do (g, st, log) <- aio_solve lin d w reg nparams (opt guess) (ftp, o) [];
    do ftp <- ftp_update bad (fst st) g;
    Ok (ftp, log ++ [EDone 0 g]).
End AioModel.
