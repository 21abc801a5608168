(** Model of alternating least squares regression:
    c3/lib_superlearn/parameterization.c 1168-1535 (evaluations from the left
    and from the right, value and gradient of one core),
    c3/lib_superlearn/superlearn_util.c 54-495 (work space, data),
    c3/lib_superlearn/objective_functions.c 108-233 and
    c3/lib_superlearn/regress.c 104-278, 332-361, 423-444, 521-742.

    A pointer [p + off] that is only read is [skipn off p]; a NULL pointer is the
    empty array.  Not modelled: the regularized objective FTLS_SPARSEL2, printing,
    and the stored history of objective values. *)
From Verif Require Export PAllocModel PGradTrain.

Section AlsModel.
  Context {R : CRing} {F : Type}.
  Open Scope cr_scope.
  Notation G := (gfn R F).
  Variable bad : R -> bool.
  (** [ev u x]: generic_function_1d_eval; [pge u x]: value and derivatives with
      respect to the parameters (generic_function_param_grad_eval2,
      functions.c:1662); [bas u x]: the derivatives alone
      (generic_function_param_grad_eval, functions.c:1640); [rdiv a n] is
      [a / (double) n]. *)
  Variables (z : G) (ev : G -> R -> R) (pge : G -> R -> R * list R) (bas : G -> R -> list R).
  Variable rdiv : R -> nat -> R.
  Let U := evU z ev.
  Notation ftpar := (ftparam R U).

  (** * Sweeps, parameterization.c *)

  (** 1168-1180 update_running_lr *)
  Definition update_running_lr (ranks : list nat) (core : nat) (lr lr_up evals : list R) : outcome (list R) :=
    do ra <- aget ranks core;
    do rb <- aget ranks (core + 1);
    if 0 <? core then dgemv_t ra rb evals ra lr lr_up
    else do r1 <- aget ranks 1; blit lr_up 0 evals 0 r1.

  (** 1182-1195 update_running_rl *)
  Definition update_running_rl (dim : nat) (ranks : list nat) (core : nat) (rl rl_up evals : list R) : outcome (list R) :=
    do ra <- aget ranks core;
    do rb <- aget ranks (core + 1);
    if core <? dim - 1 then dgemv_n ra rb evals ra rl rl_up
    else do r <- aget ranks (dim - 1); blit rl_up 0 evals 0 r.

  (** The offsets of a core in the arrays of parameters and of functions,
      1206-1211, 1243-1248 and 1479-1482 *)
  Definition core_offsets (ftp : ftpar) (core : nat) : outcome (nat * nat) :=
    for_ core (fun ii (s : nat * nat) =>
      let '(onparam, onuni) := s in
      do n <- aget (fp_npc ftp) ii;
      do ra <- aget (ft_ranks (fp_ft ftp)) ii;
      do rb <- aget (ft_ranks (fp_ft ftp)) (ii + 1);
      Ok (onparam + n, onuni + ra * rb)) (0, 0).

  (** cblas_ddot(nparams_per_uni[onuni], grad_evals+onparam, 1, params+onparam, 1),
      together with nparams_per_uni[onuni] *)
  Definition lin_value (ftp : ftpar) (ge : list R) (onuni onparam : nat) : outcome (R * nat) :=
    do n <- aget (fp_npu ftp) onuni;
    do v <- ddot n ge onparam 1 (fp_params ftp) onparam 1;
    Ok (v, n).

  (** 1200-1233 process_sweep_left_right_lin *)
  Definition sweep_lr_lin (ftp : ftpar) (core : nat) (ge lr lr_up : list R) : outcome (list R) :=
    let ranks := ft_ranks (fp_ft ftp) in
    do ra <- aget ranks core;
    do rb <- aget ranks (core + 1);
    do (onparam, onuni) <- core_offsets ftp core;
    if 0 <? core then
      do (up, _, _) <- for_ rb (fun ii (s : list R * nat * nat) =>
        let '(up, onparam, onuni) := s in
        do up <- aset up ii r0;
        for_ ra (fun jj (s : list R * nat * nat) =>
          let '(up, onparam, onuni) := s in
          do (eval, n) <- lin_value ftp ge onuni onparam;
          do a <- aget up ii;
          do l <- aget lr jj;
          do up <- aset up ii (a +! eval *! l);
          Ok (up, onparam + n, onuni + 1)) (up, onparam, onuni)) (lr_up, onparam, onuni);
      Ok up
    else
      do (up, _, _) <- for_ rb (fun ii (s : list R * nat * nat) =>
        let '(up, onparam, onuni) := s in
        do (v, n) <- lin_value ftp ge onuni onparam;
        do up <- aset up ii v;
        Ok (up, onparam + n, onuni + 1)) (lr_up, onparam, onuni);
      Ok up.

  (** 1237-1271 process_sweep_right_left_lin *)
  Definition sweep_rl_lin (ftp : ftpar) (core : nat) (ge rl rl_up : list R) : outcome (list R) :=
    let ranks := ft_ranks (fp_ft ftp) in
    do ra <- aget ranks core;
    do rb <- aget ranks (core + 1);
    do (onparam, onuni) <- core_offsets ftp core;
    if core <? fp_dim ftp - 1 then
      do up <- for_ ra (fun jj up => aset up jj r0) rl_up;
      do (up, _, _) <- for_ rb (fun ii (s : list R * nat * nat) =>
        for_ ra (fun jj (s : list R * nat * nat) =>
          let '(up, onparam, onuni) := s in
          do (eval, n) <- lin_value ftp ge onuni onparam;
          do a <- aget up jj;
          do l <- aget rl ii;
          do up <- aset up jj (a +! eval *! l);
          Ok (up, onparam + n, onuni + 1)) s) (up, onparam, onuni);
      Ok up
    else
      do (up, _, _) <- for_ ra (fun ii (s : list R * nat * nat) =>
        let '(up, onparam, onuni) := s in
        do (v, n) <- lin_value ftp ge onuni onparam;
        do up <- aset up ii v;
        Ok (up, onparam + n, onuni + 1)) (rl_up, onparam, onuni);
      Ok up.

  (** 1277-1285 and 1290-1299 process_sweep_left_right, process_sweep_right_left.
      qmarray_param_grad_eval (qmarray.c:3541-3600) with N = 1 and no gradient
      evaluates the functions of the core; generic_function_1darray_eval2N
      (functions.c:1574) with one point is taken to do what
      generic_function_1darray_eval2 does (it does unless the vectorised
      evaluation of polynomials fails).  isnan or isinf values: exit(1).  Returns
      the work space evals and the result. *)
  Definition core_evals (ftp : ftpar) (core : nat) (x : R) (evals : list R) : outcome (list R) :=
    do c <- aget (ft_cores (fp_ft ftp)) core;
    do evals <- eval2 (nr c * nc c) (fs c) x evals;
    do _ <- for_ (nr c * nc c) (fun ii _ => do v <- aget evals ii; if bad v then Abort else Ok tt) tt;
    Ok evals.
  Definition sweep_lr (ftp : ftpar) (core : nat) (x : R) (evals lr lr_up : list R) : outcome (list R * list R) :=
    do evals <- core_evals ftp core x evals;
    do up <- update_running_lr (ft_ranks (fp_ft ftp)) core lr lr_up evals;
    Ok (evals, up).
  Definition sweep_rl (ftp : ftpar) (core : nat) (x : R) (evals rl rl_up : list R) : outcome (list R * list R) :=
    do evals <- core_evals ftp core x evals;
    do up <- update_running_rl (fp_dim ftp) (ft_ranks (fp_ft ftp)) core rl rl_up evals;
    Ok (evals, up).

  (** * One core, parameterization.c *)

  (** for (ll < nparam) { grad[onparam] = w(grad_evals[ll]); onparam++; } *)
  Definition fill_core (ge : list R) (eoff goff : nat) (w : R -> R) (n : nat) (s : list R * nat) : outcome (list R * nat) :=
    for_ n (fun ll (s : list R * nat) =>
      let '(grad, on) := s in
      do g <- aget ge (eoff + ll);
      do grad <- aset grad (goff + on) (w g);
      Ok (grad, on + 1)) s.

  (** generic_function_param_grad_eval2 into the beginning of grad_evals,
      generic_function_get_num_params, and the loop over the parameters *)
  Definition one_gradeval (ftp : ftpar) (core idx : nat) (x : R) (goff : nat) (w : R -> R)
             (grad : list R) (on : nat) (ge : list R) : outcome (R * list R * nat * list R) :=
    do c <- aget (ft_cores (fp_ft ftp)) core;
    do u <- aget (fs c) idx;
    let '(v, g) := pge u x in
    do ge <- blit ge 0 g 0 (length g);
    do (grad, on) <- fill_core ge 0 goff w (gf_num u) (grad, on);
    Ok (v, grad, on, ge).

  (** 1315-1377 ft_param_core_gradeval.  [grad + goff] receives the gradient;
      returns the value, grad and grad_evals. *)
  Definition core_gradeval (ftp : ftpar) (core : nat) (x : R) (grad : list R) (goff : nat)
             (lr rl ge : list R) : outcome (R * list R * list R) :=
    do ra <- aget (ft_ranks (fp_ft ftp)) core;
    do rb <- aget (ft_ranks (fp_ft ftp)) (core + 1);
    if (0 <? core) && (core <? fp_dim ftp - 1) then
      do (grad, _, ge, out) <- for_ rb (fun ii (s : list R * nat * list R * R) =>
        do rm <- aget rl ii;
        for_ ra (fun kk (s : list R * nat * list R * R) =>
          let '(grad, on, ge, out) := s in
          do lm <- aget lr kk;
          do (v, grad, on, ge) <- one_gradeval ftp core (kk + ii * ra) x goff (fun g => lm *! g *! rm) grad on ge;
          Ok (grad, on, ge, out +! lm *! rm *! v)) s) (grad, 0, ge, r0);
      Ok (out, grad, ge)
    else if core =? 0 then
      do (grad, _, ge, out) <- for_ rb (fun ii (s : list R * nat * list R * R) =>
        let '(grad, on, ge, out) := s in
        do rm <- aget rl ii;
        do (v, grad, on, ge) <- one_gradeval ftp core ii x goff (fun g => g *! rm) grad on ge;
        Ok (grad, on, ge, out +! rm *! v)) (grad, 0, ge, r0);
      Ok (out, grad, ge)
    else
      do (grad, _, ge, out) <- for_ ra (fun kk (s : list R * nat * list R * R) =>
        let '(grad, on, ge, out) := s in
        do lm <- aget lr kk;
        do (v, grad, on, ge) <- one_gradeval ftp core kk x goff (fun g => lm *! g) grad on ge;
        Ok (grad, on, ge, out +! lm *! v)) (grad, 0, ge, r0);
      Ok (out, grad, ge).

  (** 1395-1450 ft_param_core_eval_lin; the offsets are counted function by
      function. *)
  Definition core_eval_lin (ftp : ftpar) (core : nat) (lr rl ge : list R) : outcome R :=
    let ranks := ft_ranks (fp_ft ftp) in
    do (onparam, onuni) <- for_ core (fun kk (s : nat * nat) =>
      do ra <- aget ranks kk;
      do rb <- aget ranks (kk + 1);
      for_ (ra * rb) (fun _ (s : nat * nat) =>
        let '(onparam, onuni) := s in
        do n <- aget (fp_npu ftp) onuni;
        Ok (onparam + n, onuni + 1)) s) (0, 0);
    if (0 <? core) && (core <? fp_dim ftp - 1) then
      do rb <- aget ranks (core + 1);
      do (out, _, _) <- for_ rb (fun col (s : R * nat * nat) =>
        do ra <- aget ranks core;
        for_ ra (fun row (s : R * nat * nat) =>
          let '(out, onparam, onuni) := s in
          do (t, n) <- lin_value ftp ge onuni onparam;
          do l <- aget lr row;
          do r <- aget rl col;
          Ok (out +! t *! (l *! r), onparam + n, onuni + 1)) s) (r0, onparam, onuni);
      Ok out
    else if core =? fp_dim ftp - 1 then
      do ra <- aget ranks (fp_dim ftp - 1);
      do (out, _, _) <- for_ ra (fun row (s : R * nat * nat) =>
        let '(out, onparam, onuni) := s in
        do (t, n) <- lin_value ftp ge onuni onparam;
        do l <- aget lr row;
        Ok (out +! t *! l, onparam + n, onuni + 1)) (r0, onparam, onuni);
      Ok out
    else
      do rb <- aget ranks 1;
      do (out, _, _) <- for_ rb (fun col (s : R * nat * nat) =>
        let '(out, onparam, onuni) := s in
        do (t, n) <- lin_value ftp ge onuni onparam;
        do r <- aget rl col;
        Ok (out +! t *! r, onparam + n, onuni + 1)) (r0, onparam, onuni);
      Ok out.

  (** 1466-1535 ft_param_core_gradeval_lin *)
  Definition core_gradeval_lin (ftp : ftpar) (core : nat) (grad : list R) (goff : nat)
             (lr rl ge : list R) : outcome (R * list R) :=
    let ranks := ft_ranks (fp_ft ftp) in
    do (onparam, onuni) <- core_offsets ftp core;
    if (0 <? core) && (core <? fp_dim ftp - 1) then
      do rb <- aget ranks (core + 1);
      do (out, grad, _, _, _) <- for_ rb (fun col (s : R * list R * nat * nat * nat) =>
        do ra <- aget ranks core;
        for_ ra (fun row (s : R * list R * nat * nat * nat) =>
          let '(out, grad, on, onparam, onuni) := s in
          do (t, n) <- lin_value ftp ge onuni onparam;
          do l <- aget lr row;
          do r <- aget rl col;
          do (grad, on) <- fill_core ge onparam goff (fun g => l *! r *! g) n (grad, on);
          Ok (out +! t *! (l *! r), grad, on, onparam + n, onuni + 1)) s) (r0, grad, 0, onparam, onuni);
      Ok (out, grad)
    else if core =? fp_dim ftp - 1 then
      do ra <- aget ranks (fp_dim ftp - 1);
      do (out, grad, _, _, _) <- for_ ra (fun row (s : R * list R * nat * nat * nat) =>
        let '(out, grad, on, onparam, onuni) := s in
        do (t, n) <- lin_value ftp ge onuni onparam;
        do l <- aget lr row;
        do (grad, on) <- fill_core ge onparam goff (fun g => l *! g) n (grad, on);
        Ok (out +! t *! l, grad, on, onparam + n, onuni + 1)) (r0, grad, 0, onparam, onuni);
      Ok (out, grad)
    else
      do rb <- aget ranks 1;
      do (out, grad, _, _, _) <- for_ rb (fun col (s : R * list R * nat * nat * nat) =>
        let '(out, grad, on, onparam, onuni) := s in
        do (t, n) <- lin_value ftp ge onuni onparam;
        do r <- aget rl col;
        do (grad, on) <- fill_core ge onparam goff (fun g => r *! g) n (grad, on);
        Ok (out +! t *! r, grad, on, onparam + n, onuni + 1)) (r0, grad, 0, onparam, onuni);
      Ok (out, grad).

  (** * Work space and data, superlearn_util.c *)

  (** struct SLMemManager; [m_ce] is the array core_evals of c3_regression_run_als,
      [m_ws] the work space of function_train_eval. *)
  Record slmem := mkmem {
    m_lr : list (list (list R)); m_rl : list (list (list R)); m_lin : list R;
    m_evals : list R; m_grad : list R; m_rgrad : list R; m_ce : list R; m_ws : wspace R }.
  Definition set_lr m lr := mkmem lr (m_rl m) (m_lin m) (m_evals m) (m_grad m) (m_rgrad m) (m_ce m) (m_ws m).
  Definition set_rl m rl := mkmem (m_lr m) rl (m_lin m) (m_evals m) (m_grad m) (m_rgrad m) (m_ce m) (m_ws m).
  Definition set_ce m ce := mkmem (m_lr m) (m_rl m) (m_lin m) (m_evals m) (m_grad m) (m_rgrad m) ce (m_ws m).
  Definition set_out m evals grad rgrad ws := mkmem (m_lr m) (m_rl m) (m_lin m) evals grad rgrad (m_ce m) ws.

  (** arr[k][s], arr[k][s] = v *)
  Definition get2 (arr : list (list (list R))) (k s : nat) : outcome (list R) :=
    do a <- aget arr k; aget a s.
  Definition set2 (arr : list (list (list R))) (k s : nat) (v : list R) : outcome (list (list (list R))) :=
    do a <- aget arr k; do a <- aset a s v; aset arr k a.

  (** 207-260 sl_mem_manager_alloc and 331-369 sl_mem_manager_check_structure with
      a fresh manager; [lin0] is the uninitialised array lin_structure_vals,
      [mr] the largest rank. *)
  Definition mem_init (lin : bool) (ftp : ftpar) (N : nat) (x lin0 : list R) (mr : nat) : outcome slmem :=
    let ranks := ft_ranks (fp_ft ftp) in
    do vals <- (if lin then
        for_ N (fun ii vals =>
          do (vals, _, _) <- for_ (fp_dim ftp) (fun kk (s : list R * nat * nat) =>
            do ra <- aget ranks kk;
            do rb <- aget ranks (kk + 1);
            for_ (ra * rb) (fun jj (s : list R * nat * nat) =>
              let '(vals, onparam, onuni) := s in
              do c <- aget (ft_cores (fp_ft ftp)) kk;
              do u <- aget (fs c) jj;
              do xk <- aget x (ii * fp_dim ftp + kk);
              let g := bas u xk in
              do vals <- blit vals (ii * fp_nparams ftp + onparam) g 0 (length g);
              do n <- aget (fp_npu ftp) onuni;
              Ok (vals, onparam + n, onuni + 1)) s) (vals, 0, 0);
          Ok vals) lin0
      else Ok lin0);
    do lr <- for_ (fp_dim ftp) (fun ii lr => do r <- aget ranks (ii + 1); Ok (lr ++ [repeat (repeat r0 r) N])) [];
    do rl <- for_ (fp_dim ftp) (fun ii rl => do r <- aget ranks ii; Ok (rl ++ [repeat (repeat r0 r) N])) [];
    Ok (mkmem lr rl vals (repeat r0 N) (repeat r0 (N * fp_nparams ftp)) (repeat r0 (2 * fp_nparams ftp))
              (repeat r0 (mr * mr)) (mkws None None None)).

  (** struct Data *)
  Record sldata := mkdata { d_N : nat; d_x : list R; d_y : list R }.

  (** 459-477 data_get_subset_ref; the old contents of the buffer are overwritten *)
  Definition subset (dim : nat) (d : sldata) (Nsub : nat) (ind : option (list nat)) : outcome (list R) :=
    do _ <- cassert (Nsub <=? d_N d);
    match ind with
    | None => Ok (d_x d)
    | Some ix =>
        for_ Nsub (fun ii b => for_ dim (fun jj b =>
          do i <- aget ix ii;
          do v <- aget (d_x d) (jj + i * dim);
          aset b (jj + ii * dim) v) b) (repeat r0 (d_N d * dim))
    end.

  (** * The map from parameters to values and gradients, regress.c *)

  (** 104-167 ft_param_eval_grad for ALS; [want] is [grads != NULL]. *)
  Definition eval_grad (ftp : ftpar) (core N : nat) (x : list R) (want : bool) (m : slmem) : outcome slmem :=
    if want then
      do n <- aget (fp_npc ftp) core;
      for_ N (fun ii m =>
        do xk <- aget x (ii * fp_dim ftp + core);
        do lr <- (if 0 <? core then get2 (m_lr m) (core - 1) ii else Ok []);
        do rl <- (if (core =? 0) || (core <? fp_dim ftp - 1) then get2 (m_rl m) (core + 1) ii else Ok []);
        do (v, grad, ge) <- core_gradeval ftp core xk (m_grad m) (ii * n) lr rl (m_rgrad m);
        do e <- aset (m_evals m) ii v;
        Ok (set_out m e grad ge (m_ws m))) m
    else
      for_ N (fun ii m =>
        do (v, ws) <- ft_eval (fp_ft ftp) (m_ws m) (skipn (ii * fp_dim ftp) x);
        do e <- aset (m_evals m) ii v;
        Ok (set_out m e (m_grad m) (m_rgrad m) ws)) m.

  (** 169-278 ft_linparam_eval_grad for ALS *)
  Definition linparam_eval_grad (ftp : ftpar) (core N : nat) (ind : option (list nat)) (want : bool) (m : slmem)
    : outcome slmem :=
    let '(kl, kr) := if (0 <? core) && (core <? fp_dim ftp - 1) then (core - 1, core + 1)
                     else if core =? 0 then (core, core + 1) else (core - 1, core - 1) in
    do n <- aget (fp_npc ftp) core;
    for_ N (fun ii m =>
      do i <- (match ind with None => Ok ii | Some ix => aget ix ii end);
      do lr <- get2 (m_lr m) kl i;
      do rl <- get2 (m_rl m) kr i;
      let ge := skipn (i * fp_nparams ftp) (m_lin m) in
      if want then
        do (v, grad) <- core_gradeval_lin ftp core (m_grad m) (ii * n) lr rl ge;
        do e <- aset (m_evals m) ii v;
        Ok (set_out m e grad (m_rgrad m) (m_ws m))
      else
        do v <- core_eval_lin ftp core lr rl ge;
        do e <- aset (m_evals m) ii v;
        Ok (set_out m e (m_grad m) (m_rgrad m) (m_ws m))) m.

  (** 332-361 ft_param_learning_interface for ALS *)
  Definition interface (lin : bool) (ftp : ftpar) (core : nat) (p : list R) (N : nat) (ind : option (list nat))
             (want : bool) (d : sldata) (m : slmem) : outcome (ftpar * slmem) :=
    do ftp <- ftp_update_core bad ftp core p;
    do x <- subset (fp_dim ftp) d N ind;
    do m <- (if lin then linparam_eval_grad ftp core N ind want m
             else eval_grad ftp core N x want m);
    Ok (ftp, m).

  (** objective_functions.c:138-233 c3_objective_function_least_squares, called by
      objective_eval (108-130) with a gradient filled with zeros and weight 1;
      [w] are the sample weights or NULL.  Without a gradient the second
      component of the result is meaningless (empty). *)
  Definition least_squares (lin : bool) (ftp : ftpar) (core : nat) (nparam : nat) (p : list R)
             (N : nat) (ind : option (list nat)) (want : bool) (d : sldata) (w : option (list R)) (m : slmem)
    : outcome (R * list R * ftpar * slmem) :=
    do (ftp, m) <- interface lin ftp core p N ind want d m;
    let resid ii :=
      do i <- (match ind with None => Ok ii | Some ix => aget ix ii end);
      do y <- aget (d_y d) i;
      do e <- aget (m_evals m) ii;
      Ok (i, y -! e) in
    if want then
      do (out, grad) <- for_ N (fun ii (s : R * list R) =>
        let '(out, grad) := s in
        do (i, dy) <- resid ii;
        match w with
        | None =>
            do grad <- for_ nparam (fun jj grad =>
              do a <- aget grad jj;
              do g <- aget (m_grad m) (ii * nparam + jj);
              aset grad jj (a -! (r1 +! r1) *! dy *! g)) grad;
            Ok (out +! dy *! dy, grad)
        | Some w =>
            do wi <- aget w i;
            do grad <- for_ nparam (fun jj grad =>
              do a <- aget grad jj;
              do g <- aget (m_grad m) (ii * nparam + jj);
              aset grad jj (a -! (r1 +! r1) *! dy *! g *! wi)) grad;
            Ok (out +! dy *! dy *! wi, grad)
        end) (r0, repeat r0 nparam);
      do grad <- for_ nparam (fun jj grad => do a <- aget grad jj; aset grad jj (rdiv a N)) grad;
      Ok (rdiv out N, grad, ftp, m)
    else
      do out <- for_ N (fun ii out =>
        do (i, dy) <- resid ii;
        match w with
        | None => Ok (out +! dy *! dy)
        | Some w => do wi <- aget w i; Ok (out +! dy *! dy *! wi)
        end) r0;
      Ok (rdiv out N, [], ftp, m).

  (** * The optimizer: any procedure that asks for values (and gradients) of the
      objective and finally returns parameters.  [Ask p ind want k] evaluates the
      objective at [p]: for all samples (superlearn.c:56 objective_batch) if [ind]
      is [None], for sample [i] (superlearn.c:66 objective_stoch) if it is
      [Some i]. *)
  Inductive strat : Type :=
  | Stop (guess : list R)
  | Ask (p : list R) (ind : option nat) (want : bool) (k : R -> list R -> strat).

  (** What happens during a regression, as seen by the optimizer. *)
  Inductive event : Type :=
  | EAsk (core : nat) (p : list R) (ind : option nat) (want : bool) (val : R) (grad : list R)
  | EDone (core : nat) (guess : list R).

  (** superlearn.c:94-103 slp_solve *)
  Fixpoint solve (lin : bool) (d : sldata) (w : option (list R)) (core nparam : nat) (s : strat)
           (ftp : ftpar) (m : slmem) (log : list event) : outcome (list R * ftpar * slmem * list event) :=
    match s with
    | Stop g => Ok (g, ftp, m, log)
    | Ask p ind want k =>
        let '(N, ix) := match ind with None => (d_N d, None) | Some i => (1, Some [i]) end in
        do (v, g, ftp, m) <- least_squares lin ftp core nparam p N ix want d w m;
        solve lin d w core nparam (k v g) ftp m (log ++ [EAsk core p ind want v g])
    end.

  (** * regress.c:521-742 c3_regression_run_als *)

  (** The optimizer may use everything that it has seen so far; [opt log core guess]
      is its strategy for this subproblem. *)
  Variable opt : list event -> nat -> list R -> strat.
  (** [conv new old]: ||new - old|| / ||new|| < als_conv_tol *)
  Variable conv : ftrain U -> ftrain U -> bool.

  Record als := mkals { a_ftp : ftpar; a_mem : slmem; a_log : list event }.

  (** Evaluations of core [core] from the left and from the right for all samples *)
  Definition upd_lr (lin : bool) (d : sldata) (core : nat) (st : als) : outcome als :=
    let ftp := a_ftp st in
    do m <- for_ (d_N d) (fun zz m =>
      do prev <- (if 0 <? core then get2 (m_lr m) (core - 1) zz else Ok []);
      do up <- get2 (m_lr m) core zz;
      if lin then
        do up <- sweep_lr_lin ftp core (skipn (zz * fp_nparams ftp) (m_lin m)) prev up;
        do lr <- set2 (m_lr m) core zz up;
        Ok (set_lr m lr)
      else
        do x <- aget (d_x d) (zz * fp_dim ftp + core);
        do (ce, up) <- sweep_lr ftp core x (m_ce m) prev up;
        do lr <- set2 (m_lr m) core zz up;
        Ok (set_ce (set_lr m lr) ce)) (a_mem st);
    Ok (mkals ftp m (a_log st)).
  Definition upd_rl (lin : bool) (d : sldata) (core : nat) (st : als) : outcome als :=
    let ftp := a_ftp st in
    do m <- for_ (d_N d) (fun zz m =>
      do prev <- (if core <? fp_dim ftp - 1 then get2 (m_rl m) (core + 1) zz else Ok []);
      do up <- get2 (m_rl m) core zz;
      if lin then
        do up <- sweep_rl_lin ftp core (skipn (zz * fp_nparams ftp) (m_lin m)) prev up;
        do rl <- set2 (m_rl m) core zz up;
        Ok (set_rl m rl)
      else
        do x <- aget (d_x d) (zz * fp_dim ftp + core);
        do (ce, up) <- sweep_rl ftp core x (m_ce m) prev up;
        do rl <- set2 (m_rl m) core zz up;
        Ok (set_ce (set_rl m rl) ce)) (a_mem st);
    Ok (mkals ftp m (a_log st)).

  (** 597-622 and 679-703: the subproblem of one core *)
  Definition subproblem (lin : bool) (d : sldata) (w : option (list R)) (core : nat) (st : als) : outcome als :=
    let ftp := a_ftp st in
    do n <- aget (fp_npc ftp) core;
    do (_, guess) <- ft_core_get (fp_ft ftp) core (Some (repeat r0 n));
    do guess <- (match guess with Some g => Ok g | None => UB end);
    do (g, ftp, m, log) <- solve lin d w core n (opt (a_log st) core guess) ftp (a_mem st) (a_log st);
    do ftp <- ftp_update_core bad ftp core g;
    Ok (mkals ftp m (log ++ [EDone core g])).

  (** One sweep, 588-717; the returned flag is the convergence test. *)
  Definition sweep (lin : bool) (d : sldata) (w : option (list R)) (st : als) : outcome (als * bool) :=
    let dim := fp_dim (a_ftp st) in
    let start := fp_ft (a_ftp st) in
    do st <- for_ dim (fun ii st =>
      do st <- subproblem lin d w ii st;
      if (ii =? 0) || (ii <? dim - 1) then upd_lr lin d ii st else Ok st) st;
    do st <- upd_rl lin d (dim - 1) st;
    do st <- for_from 1 (dim - 2) (fun jj st =>
      let ii := dim - 1 - jj in
      do st <- subproblem lin d w ii st;
      upd_rl lin d ii st) st;
    Ok (st, conv (fp_ft (a_ftp st)) start).

  Fixpoint sweeps (lin : bool) (d : sldata) (w : option (list R)) (max : nat) (st : als) : outcome als :=
    match max with
    | 0 => Ok st
    | S max =>
        do (st, stop) <- sweep lin d w st;
        if stop : bool then Ok st else sweeps lin d w max st
    end.

  (** The whole run.  With one dimension the loop [for (zz = dim - 2; zz > 0; zz--)]
      over unsigned numbers starts at the largest one: out of bounds. *)
  Definition run_als (lin : bool) (ftp : ftpar) (d : sldata) (w : option (list R)) (lin0 : list R) (max : nat)
    : outcome als :=
    let dim := fp_dim ftp in
    do mr <- get_maxrank (fp_ft ftp);
    do m <- mem_init lin ftp (d_N d) (d_x d) lin0 mr;
    do st <- upd_rl lin d (dim - 1) (mkals ftp m []);
    if dim <? 2 then UB
    else
      do st <- for_ (dim - 2) (fun i st => upd_rl lin d (dim - 2 - i) st) st;
      sweeps lin d w max st.
End AlsModel.
