(** Model of reading and writing the parameters of function trains:
    c3/lib_clinalg/ft.c 859-956, c3/lib_clinalg/qmarray.c 3400-3530,
    c3/lib_funcs/functions.c 873-1010 and the parameter routines of the classes
    of univariate functions.

    [T] is the type of parameters ([double] in C), [bad] the test
    [isnan(p) || isinf(p)].  A pointer [p + off] into a parameter array is an
    array together with an offset. *)
From Verif Require Export TensorModel FTModel.

Section ParamModel.
  Context {T F : Type}.
  Variable bad : T -> bool.

  (** struct GenericFunction with the fields that the parameter routines use.
      [GPoly]: struct OrthPolyExpansion (polynomials.h), num_poly, nalloc, coeff;
      [GNod]: struct LinElemExp or struct ConstElemExp, num_nodes, nodes, coeff;
      [GKern]: struct KernelExpansion, include_kernel_param, nkernels, coeff and
      the centers of the kernels; [GPw]: struct PiecewisePoly.  [F] is the type
      of the remaining fields. *)
  Inductive gfn : Type :=
  | GPoly (o : F) (num nalloc : nat) (coeff : list T)
  | GNod (o : F) (lin : bool) (n : nat) (nodes coeff : list T)
  | GKern (o : F) (incl : bool) (nk : nat) (coeff centers : list T)
  | GPw (o : F).

  (** functions.c:873 generic_function_get_num_params; polynomials.c:1505,
      linelm.c:524, constelm.c:467, kernels.c:1460, piecewisepoly.c:2736 (which
      prints "not yet implemented" and returns 0: NOT_IMPLEMENTED_MSG of
      futil.h:47 does not exit). *)
  Definition gf_num (f : gfn) : nat :=
    match f with
    | GPoly _ num _ _ => num
    | GNod _ _ n _ _ => n
    | GKern _ incl nk _ _ => if incl then 2 * nk else nk
    | GPw _ => 0
    end.

  (** functions.c:954 generic_function_get_params; polynomials.c:1706,
      linelm.c:539, constelm.c:482, kernels.c:1473, piecewisepoly.c:2858.
      Writes to [param + off] and returns the number of parameters. *)
  Definition gf_get (f : gfn) (param : list T) (off : nat) : outcome (nat * list T) :=
    match f with
    | GPoly _ num _ coeff => do p <- blit param off coeff 0 num; Ok (num, p)
    | GNod _ _ n _ coeff => do p <- blit param off coeff 0 n; Ok (n, p)
    | GKern _ incl nk coeff centers =>
        do p <- blit param off coeff 0 nk;
        if incl then
          do p <- for_ nk (fun ii p => do c <- aget centers ii; aset p (off + (ii + nk)) c) p;
          Ok (2 * nk, p)
        else Ok (nk, p)
    | GPw _ => Ok (0, param)
    end.

  (** polynomials.c:1734-1765 orth_poly_expansion_update_params.  [zero] is 0.0. *)
  Definition poly_update (zero : T) (o : F) (num nalloc : nat) (coeff : list T)
             (dim : nat) (param : list T) (off : nat) : outcome gfn :=
    if dim <=? num then
      do c <- blit coeff 0 param off dim;
      do c <- for_from dim (num - dim) (fun ii c => aset c ii zero) c;
      Ok (GPoly o dim nalloc c)
    else if dim <=? nalloc then
      do c <- blit coeff 0 param off dim;
      Ok (GPoly o dim nalloc c)
    else
      do c <- blit (repeat zero dim) 0 param off dim;
      Ok (GPoly o dim dim c).

  (** kernels.c:917-940 kernel_expansion_update_params.  The assertion
      [assert (ke->nkernels = dim/2)] assigns: it sets the number of kernels
      and fails if it becomes 0. *)
  Definition kern_update (o : F) (incl : bool) (nk : nat) (coeff centers : list T)
             (dim : nat) (param : list T) (off : nat) : outcome gfn :=
    if negb incl then
      do _ <- cassert (nk =? dim);
      do c <- blit coeff 0 param off dim;
      Ok (GKern o incl nk c centers)
    else if dim =? nk then
      do c <- blit coeff 0 param off dim;
      Ok (GKern o incl nk c centers)
    else
      let nk := dim / 2 in
      do _ <- cassert (negb (nk =? 0));
      do c <- blit coeff 0 param off (dim / 2);
      do ce <- for_ nk (fun ii ce => do v <- aget param (off + (ii + dim / 2)); aset ce ii v) centers;
      Ok (GKern o incl nk c ce).

  (** linelm.c:570-580 lin_elem_exp_update_params, constelm.c:513-523 *)
  Definition nod_update (o : F) (lin : bool) (n : nat) (nodes coeff : list T)
             (dim : nat) (param : list T) (off : nat) : outcome gfn :=
    do _ <- cassert (n =? dim);
    do c <- blit coeff 0 param off dim;
    Ok (GNod o lin n nodes c).

  (** functions.c:992-1010 generic_function_update_params *)
  Definition gf_update (zero : T) (f : gfn) (dim : nat) (param : list T) (off : nat) : outcome gfn :=
    do _ <- for_ dim (fun ii (_ : unit) =>
              do p <- aget param (off + ii);
              if bad p then Abort else Ok tt) tt;
    match f with
    | GPoly o num nalloc coeff => poly_update zero o num nalloc coeff dim param off
    | GNod o lin n nodes coeff => nod_update o lin n nodes coeff dim param off
    | GKern o incl nk coeff centers => kern_update o incl nk coeff centers dim param off
    | GPw _ => Ok f
    end.

  (** * Arrays of functions *)

  (** qmarray.c:3400-3405 qmarray_func_get_nparams *)
  Definition qm_func_nparams (q : qma gfn) (row col : nat) : outcome nat :=
    do f <- aget (fs q) (row + col * nr q);
    Ok (gf_num f).

  (** qmarray.c:3417-3436 qmarray_get_nparams: total and largest number *)
  Definition qm_nparams (q : qma gfn) : outcome (nat * nat) :=
    for_ (nr q * nc q) (fun ii (s : nat * nat) =>
      let '(ntot, maxfun) := s in
      do f <- aget (fs q) ii;
      let nparam := gf_num f in
      Ok (ntot + nparam, if maxfun <? nparam then nparam else maxfun)) (0, 0).

  (** qmarray.c:3446-3463 qmarray_get_params; [param] is NULL or an array with
      an offset. *)
  Definition qm_get (q : qma gfn) (param : option (list T)) (off : nat)
    : outcome (nat * option (list T)) :=
    for_ (nr q * nc q) (fun ii (s : nat * option (list T)) =>
      let '(onind, param) := s in
      do f <- aget (fs q) ii;
      match param with
      | None => Ok (onind + gf_num f, None)
      | Some p => do (nparam, p) <- gf_get f p (off + onind); Ok (onind + nparam, Some p)
      end) (0, param).

  Variable zero : T.

  (** qmarray.c:3473-3487 qmarray_uni_update_params *)
  Definition qm_uni_update (q : qma gfn) (row col nparam : nat) (param : list T) : outcome (qma gfn) :=
    let ind := col * nr q + row in
    do f <- aget (fs q) ind;
    if negb (gf_num f =? nparam) then Abort
    else
      do f' <- gf_update zero f nparam param 0;
      do l <- aset (fs q) ind f';
      Ok (mkq (nr q) (nc q) l).

  (** qmarray.c:3509-3527 qmarray_update_params *)
  Definition qm_update (q : qma gfn) (nparams : nat) (param : list T) (off : nat) : outcome (qma gfn) :=
    do (onind, l) <- for_ (nr q * nc q) (fun ii (s : nat * list gfn) =>
        let '(onind, l) := s in
        do f <- aget l ii;
        let nparam := gf_num f in
        do f' <- gf_update zero f nparam param (off + onind);
        do l <- aset l ii f';
        Ok (onind + nparam, l)) (0, fs q);
    if negb (onind =? nparams) then Abort else Ok (mkq (nr q) (nc q) l).

  (** * Trains *)

  (** ft.c:859-870 function_train_get_nparams *)
  Definition ft_nparams (f : ftrain gfn) : outcome nat :=
    for_ (ft_dim f) (fun ii tot =>
      do c <- aget (ft_cores f) ii;
      do (n, _) <- qm_nparams c;
      Ok (tot + n)) 0.

  (** ft.c:876-882 function_train_core_get_params *)
  Definition ft_core_get (f : ftrain gfn) (core : nat) (param : option (list T))
    : outcome (nat * option (list T)) :=
    do c <- aget (ft_cores f) core; qm_get c param 0.

  (** ft.c:906-916 function_train_get_params *)
  Definition ft_get (f : ftrain gfn) (param : list T) : outcome (nat * list T) :=
    for_ (ft_dim f) (fun ii (s : nat * list T) =>
      let '(running, param) := s in
      do c <- aget (ft_cores f) ii;
      do (nparam, p) <- qm_get c (Some param) running;
      match p with
      | Some p => Ok (running + nparam, p)
      | None => UB
      end) (0, param).

  Definition set_core (f : ftrain gfn) (core : nat) (c : qma gfn) : outcome (ftrain gfn) :=
    do cs <- aset (ft_cores f) core c;
    Ok (mkft (ft_dim f) (ft_ranks f) cs).

  (** ft.c:921-929 function_train_uni_update_params *)
  Definition ft_uni_update (f : ftrain gfn) (core row col nparam : nat) (param : list T)
    : outcome (ftrain gfn) :=
    do c <- aget (ft_cores f) core;
    do c' <- qm_uni_update c row col nparam param;
    set_core f core c'.

  (** ft.c:934-940 function_train_core_update_params *)
  Definition ft_core_update (f : ftrain gfn) (core nparam : nat) (param : list T)
    : outcome (ftrain gfn) :=
    do c <- aget (ft_cores f) core;
    do c' <- qm_update c nparam param 0;
    set_core f core c'.

  (** ft.c:945-956 function_train_update_params *)
  Definition ft_update (f : ftrain gfn) (param : list T) : outcome (nat * ftrain gfn) :=
    for_ (ft_dim f) (fun ii (s : nat * ftrain gfn) =>
      let '(running, f) := s in
      do c <- aget (ft_cores f) ii;
      do (incore, _) <- qm_nparams c;
      do c' <- qm_update c incore param running;
      do f' <- set_core f ii c';
      Ok (running + incore, f')) (0, f).
End ParamModel.
Arguments gfn : clear implicits.
