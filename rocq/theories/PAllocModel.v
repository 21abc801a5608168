(** Model of the life cycle of a parameterized function train:
    c3/lib_superlearn/parameterization.c 73-700, with function_train_zeros
    (ft.c 1681-1700), generic_function_zero and the padding routines. *)
From Verif Require Export PGradModel.

Section PAllocModel.
  Context {R : CRing} {F : Type}.
  Open Scope cr_scope.
  Variable bad : R -> bool.
  Notation G := (gfn R F).
  Notation ftpar := (ftparam R G).

  (** struct OneApproxOpts (fapprox.h) with the fields used here.  [APoly]:
      struct OpeOpts, start_num (not Fourier); [ANod]: struct LinElemExpAopts or
      struct ConstElemExpAopts, lb, ub and nodes (num_nodes is the length of the
      list); [AKern]: struct KernelApproxOpts, adapt_center, nregress_params and
      centers; [APw]: struct PwPolyOpts. *)
  Inductive aopt : Type :=
  | APoly (o : F) (start : nat)
  | ANod (o : F) (lin : bool) (lb ub : R) (nodes : list R)
  | AKern (o : F) (adapt : bool) (nregress : nat) (centers : list R)
  | APw (o : F).

  (** fapprox.c:141-166 one_approx_opts_get_nparams; polynomials.c:1012,
      linelm.c:332, constelm.c:302, kernels.c:574, piecewisepoly.c:339 (prints
      "not yet implemented" and returns 0) *)
  Definition opt_np (a : aopt) : nat :=
    match a with
    | APoly _ start => start
    | ANod _ _ _ _ nodes => length nodes
    | AKern _ _ nregress _ => nregress
    | APw _ => 0
    end.

  (** polynomials.h:222 *)
  Definition OPECALLOC : nat := 50.

  (** functions.c:477-483 generic_function_zero with force_nparam = 1;
      polynomials.c:1850-1874 and 1604 (storage for OPECALLOC further
      coefficients), linelm.c:2084-2108, constelm.c:1328-1350, kernels.c:992-1004
      and 889-914 (the spare storage of kernel expansions is left out),
      piecewisepoly.c:564 (prints and returns NULL).  linspace(lb,ub,2) is
      lb, ub. *)
  Definition opt_zero (a : aopt) : G :=
    match a with
    | APoly o start => GPoly o start (start + OPECALLOC) (repeat r0 (start + OPECALLOC))
    | ANod o lin lb ub [] => GNod o lin 2 [lb; ub] [r0; r0]
    | ANod o lin lb ub nodes => GNod o lin (length nodes) nodes (repeat r0 (length nodes))
    | AKern o adapt _ centers => GKern o adapt (length centers) (repeat r0 (length centers)) centers
    | APw o => GPw o
    end.

  (** ft.c:1681-1700 function_train_zeros; the dimension is that of the options. *)
  Definition ft_zeros (aopts : list aopt) (ranks : list nat) : outcome (ftrain G) :=
    let dim := length aopts in
    do rk <- blit (repeat 0 (dim + 1)) 0 ranks 0 (dim + 1);
    do cores <- for_ dim (fun onDim (cores : list (qma G)) =>
        do a <- aget aopts onDim;
        do rr <- aget ranks onDim;
        do rc <- aget ranks (onDim + 1);
        do l <- for_ (rr * rc) (fun jj (l : list G) => Ok (l ++ [opt_zero a])) [];
        Ok (cores ++ [mkq rr rc l])) [];
    Ok (mkft dim rk cores).

  (** 84-139 ft_param_alloc.  [params = None]: the pointer is NULL. *)
  Definition ftp_alloc (dim : nat) (aopts : list aopt) (params : option (list R)) (ranks : list nat)
    : outcome ftpar :=
    do (npc, nparams, nuni) <- for_ dim (fun jj (s : list nat * nat * nat) =>
        let '(npc, nparams, nuni) := s in
        do a <- aget ranks jj;
        do b <- aget ranks (jj + 1);
        do o <- aget aopts jj;
        do npc <- aset npc jj (a * b * opt_np o);
        do n <- aget npc jj;
        Ok (npc, nparams + n, nuni + a * b)) (repeat 0 dim, 0, 0);
    do (npu, _) <- for_ dim (fun jj (s : list nat * nat) =>
        do a <- aget ranks jj;
        do b <- aget ranks (jj + 1);
        for_ (a * b) (fun _ (s : list nat * nat) =>
          let '(npu, onind) := s in
          do o <- aget aopts jj;
          do npu <- aset npu onind (opt_np o);
          Ok (npu, onind + 1)) s) (repeat 0 nuni, 0);
    do ft <- ft_zeros aopts ranks;
    match params with
    | None => Ok (mkftp ft dim npu npc nparams (repeat r0 nparams))
    | Some p =>
        do q <- blit (repeat r0 nparams) 0 p 0 nparams;
        do (_, ft) <- ft_update bad r0 ft q;
        Ok (mkftp ft dim npu npc nparams q)
    end.

  (** functions.c:460-463 generic_function_pad_params; polynomials.c:1675-1700
      orth_poly_expansion_pad_params; linelm.c:503, constelm.c:447, kernels.c:973
      and piecewisepoly.c:2904 print "not yet implemented" and do nothing *)
  Definition gf_pad (f : G) (n : nat) : outcome G :=
    match f with
    | GPoly o num nalloc coeff =>
        if nalloc <? n then
          do c <- for_ num (fun ii c => do v <- aget coeff ii; aset c ii v) (repeat r0 n);
          Ok (GPoly o n n c)
        else
          do c <- for_from num (n - num) (fun ii c => aset c ii r0) coeff;
          Ok (GPoly o n nalloc c)
    | _ => Ok f
    end.

  (** qmarray.c:3496-3500 qmarray_uni_pad_params *)
  Definition qm_uni_pad (q : qma G) (row col n : nat) : outcome (qma G) :=
    let ind := col * nr q + row in
    do f <- aget (fs q) ind;
    do f' <- gf_pad f n;
    do l <- aset (fs q) ind f';
    Ok (mkq (nr q) (nc q) l).

  (** 157-230 ft_param_alloc_with_ft *)
  Definition ftp_alloc_with_ft (ft : ftrain G) (aopts : list aopt) : outcome ftpar :=
    let dim := ft_dim ft in
    let ranks := ft_ranks ft in
    do (npc, nparams, nuni) <- for_ dim (fun jj (s : list nat * nat * nat) =>
        let '(npc, nparams, nuni) := s in
        do o <- aget aopts jj;
        do a <- aget ranks jj;
        do b <- aget ranks (jj + 1);
        do npc <- aset npc jj (a * b * opt_np o);
        do n <- aget npc jj;
        Ok (npc, nparams + n, nuni + a * b)) (repeat 0 dim, 0, 0);
    do (ft, npu, _) <- for_ dim (fun jj (s : ftrain G * list nat * nat) =>
        do o <- aget aopts jj;
        do b <- aget ranks (jj + 1);
        for_ b (fun col (s : ftrain G * list nat * nat) =>
          do a <- aget ranks jj;
          for_ a (fun row (s : ftrain G * list nat * nat) =>
            let '(ft, npu, onind) := s in
            do c <- aget (ft_cores ft) jj;
            do n <- qm_func_nparams c row col;
            do ft <- (if opt_np o <? n then Abort
                      else if n <? opt_np o then
                        do c <- qm_uni_pad c row col (opt_np o); set_core ft jj c
                      else Ok ft);
            do npu <- aset npu onind (opt_np o);
            Ok (ft, npu, onind + 1)) s) s) (ft, repeat 0 nuni, 0);
    do (check, params) <- ft_get ft (repeat r0 nparams);
    if negb (check =? nparams) then Abort
    else Ok (mkftp ft dim npu npc nparams params).

  (** 257-262 ft_param_copy; [aopts] is the field approx_opts. *)
  Definition ftp_copy (aopts : list aopt) (ftp : ftpar) : outcome ftpar :=
    ftp_alloc (fp_dim ftp) aopts (Some (fp_params ftp)) (ft_ranks (fp_ft ftp)).

  (** 272-287 ft_param_get_param *)
  Definition ftp_get_param (ftp : ftpar) (index : nat) : outcome R :=
    if 0 <? fp_nparams ftp then
      if index <? fp_nparams ftp then aget (fp_params ftp) index else Abort
    else Abort.

  (** 316-335 ft_param_get_params *)
  Definition ftp_get_params (ftp : ftpar) (nparams : nat) (params : list R) : outcome (nat * list R) :=
    if fp_nparams ftp <=? 0 then Abort
    else if nparams <=? fp_nparams ftp then
      do p <- for_ nparams (fun i p => do v <- aget (fp_params ftp) i; aset p i v) params;
      Ok (nparams, p)
    else
      do p <- for_ (fp_nparams ftp) (fun i p => do v <- aget (fp_params ftp) i; aset p i v) params;
      Ok (fp_nparams ftp, p).

  Definition set_ftp (ftp : ftpar) (ft : ftrain G) (params : list R) : ftpar :=
    mkftp ft (fp_dim ftp) (fp_npu ftp) (fp_npc ftp) (fp_nparams ftp) params.

  (** 370-374 ft_param_update_params *)
  Definition ftp_update (ftp : ftpar) (params : list R) : outcome ftpar :=
    do p <- blit (fp_params ftp) 0 params 0 (fp_nparams ftp);
    do (_, ft) <- ft_update bad r0 (fp_ft ftp) p;
    Ok (set_ftp ftp ft p).

  (** 383-386 ft_param_self_update_params *)
  Definition ftp_self_update (ftp : ftpar) : outcome ftpar :=
    do (_, ft) <- ft_update bad r0 (fp_ft ftp) (fp_params ftp);
    Ok (set_ftp ftp ft (fp_params ftp)).

  (** [(ii >= rank_start[kk-1]) || (jj >= rank_start[kk])], and the second test
      alone for the first core *)
  Definition outside (rs : list nat) (kk ii jj : nat) : outcome bool :=
    if 0 <? kk then
      do a <- aget rs (kk - 1);
      if a <=? ii then Ok true
      else do b <- aget rs kk; Ok (b <=? jj)
    else do b <- aget rs kk; Ok (b <=? jj).

  (** [(ii < rank_start[kk-1]) && (jj < rank_start[kk])] *)
  Definition inside (rs : list nat) (kk ii jj : nat) : outcome bool :=
    if 0 <? kk then
      do a <- aget rs (kk - 1);
      if ii <? a then do b <- aget rs kk; Ok (jj <? b)
      else Ok false
    else do b <- aget rs kk; Ok (jj <? b).

  (** The loops over cores, columns and rows of 396-417, 428-459, 472-503 *)
  Definition over_funs {S} (dim : nat) (ranks : list nat) (body : nat -> nat -> nat -> S -> outcome S) (s : S) : outcome S :=
    for_ dim (fun kk s =>
      do b <- aget ranks (kk + 1);
      for_ b (fun jj s =>
        do a <- aget ranks kk;
        for_ a (fun ii s => body kk ii jj s) s) s) s.

  (** 396-417 ft_param_get_nparams_restrict *)
  Definition ftp_nparams_restrict (ftp : ftpar) (rs : list nat) : outcome nat :=
    do (nparams, _) <- over_funs (fp_dim ftp) (ft_ranks (fp_ft ftp)) (fun kk ii jj (s : nat * nat) =>
        let '(nparams, ind) := s in
        do t <- outside rs kk ii jj;
        do nparams <- (if t : bool then do n <- aget (fp_npu ftp) ind; Ok (nparams + n) else Ok nparams);
        Ok (nparams, ind + 1)) (0, 0);
    Ok nparams.

  (** 428-459 ft_param_update_restricted_ranks and 472-503
      ft_param_update_inside_restricted_ranks *)
  Definition ftp_update_sel (test : nat -> nat -> nat -> outcome bool) (ftp : ftpar) (params : list R) : outcome ftpar :=
    do (p, _, _, _) <- over_funs (fp_dim ftp) (ft_ranks (fp_ft ftp)) (fun kk ii jj (s : list R * nat * nat * nat) =>
        let '(p, new, gen, ind) := s in
        do n <- aget (fp_npu ftp) ind;
        do (p, new, gen) <- for_ n (fun ll (s : list R * nat * nat) =>
            let '(p, new, gen) := s in
            do t <- test kk ii jj;
            do (p, new) <- (if t : bool then
                              do v <- aget params new;
                              do p <- aset p gen v;
                              Ok (p, new + 1)
                            else Ok (p, new));
            Ok (p, new, gen + 1)) (p, new, gen);
        Ok (p, new, gen, ind + 1)) (fp_params ftp, 0, 0, 0);
    do (_, ft) <- ft_update bad r0 (fp_ft ftp) p;
    Ok (set_ftp ftp ft p).
  Definition ftp_update_restricted (ftp : ftpar) (params : list R) (rs : list nat) : outcome ftpar :=
    ftp_update_sel (outside rs) ftp params.
  Definition ftp_update_inside (ftp : ftpar) (params : list R) (rs : list nat) : outcome ftpar :=
    ftp_update_sel (inside rs) ftp params.

  (** 514-526 ft_param_update_core_params *)
  Definition ftp_update_core (ftp : ftpar) (core : nat) (params : list R) : outcome ftpar :=
    do run <- for_ core (fun ii run => do n <- aget (fp_npc ftp) ii; Ok (run + n)) 0;
    do n <- aget (fp_npc ftp) core;
    do ft <- ft_core_update bad r0 (fp_ft ftp) core n params;
    do p <- blit (fp_params ftp) run params 0 n;
    Ok (set_ftp ftp ft p).

  (** 538-546 ft_param_update_structure *)
  Definition ftp_update_structure (ftp : ftpar) (aopts : list aopt) (ranks : list nat) (vals : option (list R)) : outcome ftpar :=
    ftp_alloc (fp_dim ftp) aopts vals ranks.

  (** 585-664 ft_param_create_constant.  [cft] is the result of
      function_train_constant, [rnd] the values of randu(). *)
  Definition ftp_create_constant (ftp : ftpar) (cft : ftrain G) (perturb : R) (rnd : list R) : outcome ftpar :=
    let ranks := ft_ranks (fp_ft ftp) in
    do params <- for_ (fp_nparams ftp) (fun ii p =>
        do u <- aget rnd ii;
        aset p ii (perturb *! (u *! (r1 +! r1) -! r1))) (repeat r0 (fp_nparams ftp));
    do (params, _, _) <- for_ (fp_dim ftp) (fun ii (s : list R * nat * nat) =>
        do maxcol <- aget ranks (ii + 1);
        do maxrow <- aget ranks ii;
        let mincol := if maxcol <? 1 then maxcol else 1 in
        let minrow := if maxrow <? 1 then maxrow else 1 in
        do c <- aget (ft_cores cft) ii;
        do (nt, _) <- qm_nparams c;
        do (_, tp) <- qm_get c (Some (repeat r0 nt)) 0;
        match tp with
        | None => UB
        | Some tp =>
            do (s, _) <- for_ mincol (fun col (s : list R * nat * nat * nat) =>
                do s <- for_ minrow (fun row (s : list R * nat * nat * nat) =>
                    let '(params, onparam, onfunc, ontemp) := s in
                    do nf <- qm_func_nparams c row col;
                    do maxloop <- aget (fp_npu ftp) onfunc;
                    let minloop := if maxloop <? nf then maxloop else nf in
                    do (params, onparam, ontemp) <- for_ minloop (fun ll (s : list R * nat * nat) =>
                        let '(params, onparam, ontemp) := s in
                        do a <- aget params onparam;
                        do b <- aget tp ontemp;
                        do params <- aset params onparam (a +! b);
                        Ok (params, onparam + 1, ontemp + 1)) (params, onparam, ontemp);
                    do onparam <- for_from minloop (maxloop - minloop) (fun ll o => Ok (o + 1)) onparam;
                    Ok (params, onparam, onfunc + 1, ontemp)) s;
                for_from minrow (maxrow - minrow) (fun row (s : list R * nat * nat * nat) =>
                  let '(params, onparam, onfunc, ontemp) := s in
                  do n <- aget (fp_npu ftp) onfunc;
                  Ok (params, onparam + n, onfunc + 1, ontemp)) s) (s, 0);
            for_from mincol (maxcol - mincol) (fun col (s : list R * nat * nat) =>
              for_ maxrow (fun row (s : list R * nat * nat) =>
                let '(params, onparam, onfunc) := s in
                do n <- aget (fp_npu ftp) onfunc;
                Ok (params, onparam + n, onfunc + 1)) s) s
        end) (params, 0, 0);
    do (_, ft) <- ft_update bad r0 (fp_ft ftp) params;
    Ok (set_ftp ftp ft params).
End PAllocModel.
Arguments aopt : clear implicits.
