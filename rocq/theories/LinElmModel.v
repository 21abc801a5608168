(** Model of the piecewise-linear nodal functions, c3/lib_funcs/linelm.c.

    Numbers are those of [FOps] (no rounding).  A division by zero has the
    unspecified value of the field division; C gives an infinity or a NaN.
    Unbounded [while] loops take fuel; the top-level functions supply an amount
    which the proofs show to be enough.  Memory management ([free], the cached
    [diff] and [Lp] fields) is not modelled. *)
From Verif Require Import Base FOps.

Section LinElm.
Context {K : fops}.
Local Open Scope fop_scope.

(** struct LinElemExp, linelm.h: num_nodes, nodes, coeff. *)
Record lexp := mkL { l_n : nat; l_nodes : list K; l_coeff : list K }.

(** lin_elem_exp_init, linelm.c 450-463. *)
Definition le_init (n : nat) (nodes coeff : list K) : outcome lexp :=
  do _ <- cassert (1 <? n);
  if (n <=? length nodes) && (n <=? length coeff)
  then Ok (mkL n (firstn n nodes) (firstn n coeff)) else UB.

(** The binary search, linelm.c 641-662; the same loop is constelm.c 585-602.
    The flag tells whether the search left through the early [return]. *)
Fixpoint fi_loop (fuel : nat) (nodes : list K) (x : K) (imin imax : nat) : outcome (bool * nat) :=
  match fuel with
  | O => OutOfFuel
  | S fuel' =>
      let imid := imin + (imax - imin) / 2 in
      if imid =? imin then Ok (false, imin)
      else
        do nm <- aget nodes imid;
        if fabs (x -^ nm) <=^ ftol then Ok (true, imid)
        else if x <^ nm then fi_loop fuel' nodes x imin imid
        else fi_loop fuel' nodes x imid imax
  end.

(** lin_elem_exp_find_interval, linelm.c 638-663.  For [num_nodes = 0] the
    upper index wraps and the first read is out of bounds. *)
Definition le_find_interval (f : lexp) (x : K) : outcome nat :=
  if l_n f =? 0 then UB
  else do r <- fi_loop (l_n f) (l_nodes f) x 0 (l_n f - 1); Ok (snd r).

(** lin_elem_exp_eval, linelm.c 672-690. *)
Definition le_eval (f : lexp) (x : K) : outcome K :=
  do a <- aget (l_nodes f) 0;
  do b <- aget (l_nodes f) (l_n f - 1);
  if (x <^ a) || (b <^ x) then Ok f0
  else
    do indmin <- le_find_interval f x;
    do nl <- aget (l_nodes f) indmin;
    do cl <- aget (l_coeff f) indmin;
    if fabs (x -^ nl) <=^ ftol then Ok cl
    else
      do nr <- aget (l_nodes f) (indmin + 1);
      do cr <- aget (l_coeff f) (indmin + 1);
      let den := nr -^ nl in
      let t := (nr -^ x) /^ den in
      Ok (cl *^ t +^ cr *^ (f1 -^ t)).

(** lin_elem_exp_deriv_eval, linelm.c 700-733. *)
Definition le_deriv_eval (f : lexp) (x : K) : outcome K :=
  do a <- aget (l_nodes f) 0;
  do b <- aget (l_nodes f) (l_n f - 1);
  if (x <^ a) || (b <^ x) then Ok f0
  else
    do indmin <- le_find_interval f x;
    do nl <- aget (l_nodes f) indmin;
    if fabs (x -^ nl) <=^ ftol then
      if indmin =? 0 then
        do plus <- aget (l_coeff f) (indmin + 1);
        do curr <- aget (l_coeff f) indmin;
        do nr <- aget (l_nodes f) (indmin + 1);
        Ok ((plus -^ curr) /^ (nr -^ nl))
      else if indmin <? l_n f - 1 then
        do plus <- aget (l_coeff f) (indmin + 1);
        do minus <- aget (l_coeff f) (indmin - 1);
        do nr <- aget (l_nodes f) (indmin + 1);
        do np <- aget (l_nodes f) (indmin - 1);
        Ok ((plus -^ minus) /^ (nr -^ np))
      else
        do curr <- aget (l_coeff f) indmin;
        do minus <- aget (l_coeff f) (indmin - 1);
        do np <- aget (l_nodes f) (indmin - 1);
        Ok ((curr -^ minus) /^ (nl -^ np))
    else
      do nr <- aget (l_nodes f) (indmin + 1);
      do cl <- aget (l_coeff f) indmin;
      do cr <- aget (l_coeff f) (indmin + 1);
      let den := nr -^ nl in
      let dtdx := (f0 -^ f1) /^ den in
      Ok ((cl -^ cr) *^ dtdx).

(** lin_elem_exp_evalN, linelm.c 745-752. *)
Definition le_evalN (f : lexp) (N : nat) (x : list K) (incx : nat) (y : list K) (incy : nat)
  : outcome (list K) :=
  for_ N (fun ii y =>
    do xi <- aget x (ii * incx);
    do v <- le_eval f xi;
    aset y (ii * incy) v) y.

(** lin_elem_exp_param_grad_eval, linelm.c 970-1006. *)
Definition le_param_grad_eval (f : lexp) (nx : nat) (x grad : list K) : outcome (list K) :=
  let nparam := l_n f in
  for_ nx (fun ii grad =>
    do xi <- aget x ii;
    do indmin <- le_find_interval f xi;
    do grad <- for_ indmin (fun jj grad => aset grad (ii * nparam + jj) f0) grad;
    do grad <- for_from (indmin + 2) (nparam - (indmin + 2))
                 (fun jj grad => aset grad (ii * nparam + jj) f0) grad;
    do nr <- aget (l_nodes f) (indmin + 1);
    do nl <- aget (l_nodes f) indmin;
    let den := nr -^ nl in
    let t := (nr -^ xi) /^ den in
    do grad <- aset grad (ii * nparam + indmin) t;
    aset grad (ii * nparam + indmin + 1) (f1 -^ t)) grad.

(** lin_elem_exp_param_grad_eval2, linelm.c 1018-1046. *)
Definition le_param_grad_eval2 (f : lexp) (x : K) (grad : list K) : outcome (K * list K) :=
  let nparam := l_n f in
  do indmin <- le_find_interval f x;
  do grad <- for_ indmin (fun jj grad => aset grad jj f0) grad;
  do grad <- for_from (indmin + 2) (nparam - (indmin + 2)) (fun jj grad => aset grad jj f0) grad;
  do nr <- aget (l_nodes f) (indmin + 1);
  do nl <- aget (l_nodes f) indmin;
  let den := nr -^ nl in
  let t := (nr -^ x) /^ den in
  do grad <- aset grad indmin t;
  do grad <- aset grad (indmin + 1) (f1 -^ t);
  do cl <- aget (l_coeff f) indmin;
  do cr <- aget (l_coeff f) (indmin + 1);
  Ok (cl *^ t +^ cr *^ (f1 -^ t), grad).

(** lin_elem_exp_squared_norm_param_grad, linelm.c 1081-1113 (grad not NULL).
    The constants 0.5 and 1.0/3.0 are the quotients. *)
Definition le_sqnorm_param_grad (f : lexp) (scale : K) (grad : list K) : outcome (list K) :=
  let two := fnat 2 in
  let half := f1 /^ fnat 2 in
  let third := f1 /^ fnat 3 in
  do n1 <- aget (l_nodes f) 1;
  do n0 <- aget (l_nodes f) 0;
  let dx := n1 -^ n0 in
  do c0 <- aget (l_coeff f) 0;
  do c1 <- aget (l_coeff f) 1;
  let term1 := ((c0 -^ f1) /^ fnat 3 +^ c1 /^ fnat 2) *^ dx in
  do g0 <- aget grad 0;
  do grad <- aset grad 0 (g0 +^ two *^ scale *^ term1);
  do r <- for_from 1 (l_n f - 2) (fun ii r =>
    let '(dx, grad) := r in
    do ci <- aget (l_coeff f) ii;
    do cp <- aget (l_coeff f) (ii - 1);
    let df := ci -^ cp in
    do gi <- aget grad ii;
    let gi := gi +^ two *^ scale *^ (half *^ ci *^ dx +^ third *^ df *^ dx) in
    let dx2 := dx *^ dx in
    do cn <- aget (l_coeff f) (ii + 1);
    let term1 := ((ci -^ f1) /^ fnat 3 +^ cn /^ fnat 2) *^ dx in
    let gi := gi +^ two *^ scale *^ term1 in
    do grad <- aset grad ii gi;
    Ok (dx2, grad)) (dx, grad);
  let '(dx, grad) := r in
  let ii := l_n f - 1 in
  do ci <- aget (l_coeff f) ii;
  do cp <- aget (l_coeff f) (ii - 1);
  let df := ci -^ cp in
  do gi <- aget grad ii;
  aset grad ii (gi +^ two *^ scale *^ (half *^ ci *^ dx +^ third *^ df *^ dx)).

(** lin_elem_exp_integrate, linelm.c 1120-1136. *)
Definition le_integrate (f : lexp) : outcome K :=
  let half := f1 /^ fnat 2 in
  do _ <- cassert (1 <? l_n f);
  do n1 <- aget (l_nodes f) 1;
  do n0 <- aget (l_nodes f) 0;
  let dx := n1 -^ n0 in
  do c0 <- aget (l_coeff f) 0;
  let integral := c0 *^ dx *^ half in
  do integral <- for_from 1 (l_n f - 2) (fun ii integral =>
    do np <- aget (l_nodes f) (ii + 1);
    do nm <- aget (l_nodes f) (ii - 1);
    let dx := np -^ nm in
    do ci <- aget (l_coeff f) ii;
    Ok (integral +^ ci *^ dx *^ half)) integral;
  do nl <- aget (l_nodes f) (l_n f - 1);
  do nk <- aget (l_nodes f) (l_n f - 2);
  let dx := nl -^ nk in
  do cl <- aget (l_coeff f) (l_n f - 1);
  Ok (integral +^ cl *^ dx *^ half).

(** lin_elem_sdiscp, linelm.c 1155-1167 (const_elem_sdiscp, constelm.c
    888-899, is the same text): 0 as soon as one pair of nodes differs. *)
Definition sdiscp (nf ng : nat) (fnodes gnodes : list K) : outcome bool :=
  if negb (nf =? ng) then Ok false
  else
    for_ nf (fun ii (same : bool) =>
      if same then
        do a <- aget fnodes ii;
        do b <- aget gnodes ii;
        Ok (negb (ftol <^ fabs (a -^ b)))
      else Ok false) true.

Definition le_sdiscp (f g : lexp) : outcome bool :=
  sdiscp (l_n f) (l_n g) (l_nodes f) (l_nodes g).

(** [while (nodes[i+1] < b) i++;], linelm.c 1236-1241, constelm.c 957-962. *)
Fixpoint skip_loop (fuel : nat) (nodes : list K) (b : K) (i : nat) : outcome nat :=
  match fuel with
  | O => OutOfFuel
  | S fuel' =>
      do v <- aget nodes (i + 1);
      if v <^ b then skip_loop fuel' nodes b (i + 1) else Ok i
  end.

(** The merge loop of lin_elem_exp_inner_same_grid, linelm.c 1243-1268, and of
    const_elem_exp_same_interp, constelm.c 964-989; [evf] and [evg] evaluate the
    two functions.  If none of the three comparisons holds (NaN) the C loop does
    not advance; this cannot happen for ordered numbers. *)
Fixpoint isg_loop (fuel : nat) (nf ng : nat) (fx fc gx gc : list K)
    (evf evg : K -> outcome K) (i j : nat) (x fv gv : list K) (nn : nat)
  : outcome (nat * list K * list K * list K) :=
  match fuel with
  | O => OutOfFuel
  | S fuel' =>
      if (i <? nf) && (j <? ng) then
        do a <- aget fx i;
        do b <- aget gx j;
        if fabs (a -^ b) <^ ftol then
          do fi <- aget fc i;
          do gj <- aget gc j;
          do x <- aset x nn a;
          do fv <- aset fv nn fi;
          do gv <- aset gv nn gj;
          isg_loop fuel' nf ng fx fc gx gc evf evg (i + 1) (j + 1) x fv gv (nn + 1)
        else if a <^ b then
          do fi <- aget fc i;
          do x <- aset x nn a;
          do fv <- aset fv nn fi;
          do v <- evg a;
          do gv <- aset gv nn v;
          isg_loop fuel' nf ng fx fc gx gc evf evg (i + 1) j x fv gv (nn + 1)
        else if b <^ a then
          do x <- aset x nn b;
          do v <- evf b;
          do fv <- aset fv nn v;
          do gj <- aget gc j;
          do gv <- aset gv nn gj;
          isg_loop fuel' nf ng fx fc gx gc evf evg i (j + 1) x fv gv (nn + 1)
        else isg_loop fuel' nf ng fx fc gx gc evf evg i j x fv gv nn
      else Ok (nn, x, fv, gv)
  end.

(** lin_elem_exp_inner_same_grid, linelm.c 1221-1273.  [cap] is the size of the
    three work arrays. *)
Definition le_inner_same_grid (f g : lexp) (cap : nat)
  : outcome (nat * list K * list K * list K) :=
  let z := repeat f0 cap in
  do fa <- aget (l_nodes f) 0;
  do gb <- aget (l_nodes g) (l_n g - 1);
  if gb <^ fa then Ok (0, z, z, z)
  else
    do ga <- aget (l_nodes g) 0;
    do fb <- aget (l_nodes f) (l_n f - 1);
    if fb <^ ga then Ok (0, z, z, z)
    else
      do i <- skip_loop (l_n f) (l_nodes f) ga 0;
      do j <- skip_loop (l_n g) (l_nodes g) fa 0;
      isg_loop (S (l_n f + l_n g)) (l_n f) (l_n g) (l_nodes f) (l_coeff f) (l_nodes g) (l_coeff g)
               (le_eval f) (le_eval g) i j z z z 0.

(** lin_elem_exp_inner_same, linelm.c 1283-1338. *)
Definition le_inner_same (N : nat) (x f g : list K) : outcome K :=
  let half := f1 /^ fnat 2 in
  do x1 <- aget x 1;
  do x0 <- aget x 0;
  let dx := x1 -^ x0 in
  do c0 <- aget f 0;
  do d0 <- aget g 0;
  let value := c0 *^ d0 *^ dx *^ half in
  do value <- for_from 1 (N - 2) (fun ii value =>
    do xp <- aget x (ii + 1);
    do xm <- aget x (ii - 1);
    let dx := xp -^ xm in
    do ci <- aget f ii;
    do di <- aget g ii;
    Ok (value +^ ci *^ di *^ half *^ dx)) value;
  do xl <- aget x (N - 1);
  do xk <- aget x (N - 2);
  let dx := xl -^ xk in
  do cl <- aget f (N - 1);
  do dl <- aget g (N - 1);
  Ok (value +^ cl *^ dl *^ dx *^ half).

(** lin_elem_exp_inner, linelm.c 1349-1407.  The work arrays have 10000 entries,
    or num_nodes + num_nodes if that is not smaller; either way at least the
    latter, which is what the model uses. *)
Definition le_inner (f g : lexp) : outcome K :=
  do same <- le_sdiscp f g;
  if same : bool then le_inner_same (l_n f) (l_nodes f) (l_coeff f) (l_coeff g)
  else
    do r <- le_inner_same_grid f g (l_n f + l_n g);
    let '(nnodes, xuse, fuse, guse) := r in
    if 2 <? nnodes then le_inner_same nnodes xuse fuse guse
    else Abort.

(** The merge loop of lin_elem_exp_interp_same_grid, linelm.c 1457-1485
    (const_elem_exp_interp_same_grid, constelm.c 1065-1093, is the same text). *)
Fixpoint merge_loop (fuel : nat) (nf ng : nat) (fx gx : list K) (i j : nat) (x : list K) (nn : nat)
  : outcome (nat * list K) :=
  match fuel with
  | O => OutOfFuel
  | S fuel' =>
      if (i <? nf) || (j <? ng) then
        if i =? nf then
          do b <- aget gx j;
          do x <- aset x nn b;
          merge_loop fuel' nf ng fx gx i (j + 1) x (nn + 1)
        else if j =? ng then
          do a <- aget fx i;
          do x <- aset x nn a;
          merge_loop fuel' nf ng fx gx (i + 1) j x (nn + 1)
        else
          do a <- aget fx i;
          do b <- aget gx j;
          if fabs (a -^ b) <^ ftol then
            do x <- aset x nn a;
            merge_loop fuel' nf ng fx gx (i + 1) (j + 1) x (nn + 1)
          else if a <^ b then
            do x <- aset x nn a;
            merge_loop fuel' nf ng fx gx (i + 1) j x (nn + 1)
          else if b <^ a then
            do x <- aset x nn b;
            merge_loop fuel' nf ng fx gx i (j + 1) x (nn + 1)
          else merge_loop fuel' nf ng fx gx i j x nn
      else Ok (nn, x)
  end.

Definition interp_same_grid (nf ng : nat) (fx gx : list K) : outcome (nat * list K) :=
  merge_loop (S (nf + ng)) nf ng fx gx 0 0 (repeat f0 (nf + ng)) 0.

(** cblas_daxpy on the coefficients with unit strides: y := a*x + y. *)
Definition daxpy1 (n : nat) (a : K) (x y : list K) : outcome (list K) :=
  for_ n (fun ii y =>
    do xi <- aget x ii;
    do yi <- aget y ii;
    aset y ii (a *^ xi +^ yi)) y.

(** lin_elem_exp_axpy, linelm.c 1503-1530 (with axpy_same 1426-1432); returns
    the new contents of [g].  The new arrays keep their allocated length. *)
Definition le_axpy (a : K) (f g : lexp) : outcome lexp :=
  do same <- le_sdiscp f g;
  if same : bool then
    do c <- daxpy1 (l_n g) a (l_coeff f) (l_coeff g);
    Ok (mkL (l_n g) (l_nodes g) c)
  else
    do r <- interp_same_grid (l_n f) (l_n g) (l_nodes f) (l_nodes g);
    let '(num, x) := r in
    do coeff <- for_ num (fun ii coeff =>
      do xi <- aget x ii;
      do vf <- le_eval f xi;
      do vg <- le_eval g xi;
      aset coeff ii (a *^ vf +^ vg)) (repeat f0 (l_n f + l_n g));
    Ok (mkL num x coeff).

(** lin_elem_exp_max and _min, linelm.c 1612-1624 and 1633-1645
    (const_elem_exp_max and _min, constelm.c 1196-1229, are the same text). *)
Definition node_max (n : nat) (nodes coeff : list K) : outcome (K * K) :=
  do c0 <- aget coeff 0;
  do x0 <- aget nodes 0;
  for_from 1 (n - 1) (fun ii r =>
    let '(mval, x) := r in
    do ci <- aget coeff ii;
    if mval <^ ci then do xi <- aget nodes ii; Ok (ci, xi) else Ok (mval, x)) (c0, x0).

Definition node_min (n : nat) (nodes coeff : list K) : outcome (K * K) :=
  do c0 <- aget coeff 0;
  do x0 <- aget nodes 0;
  for_from 1 (n - 1) (fun ii r =>
    let '(mval, x) := r in
    do ci <- aget coeff ii;
    if ci <^ mval then do xi <- aget nodes ii; Ok (ci, xi) else Ok (mval, x)) (c0, x0).

(** lin_elem_exp_absmax, linelm.c 1656-1696, without optimisation nodes; the
    location is returned as an index, from which both answers (the node or the
    index, 1664-1668) are obtained. *)
Definition node_absmax (n : nat) (coeff : list K) : outcome (K * nat) :=
  do c0 <- aget coeff 0;
  for_from 1 (n - 1) (fun ii r =>
    let '(mval, k) := r in
    do ci <- aget coeff ii;
    if mval <^ fabs ci then Ok (fabs ci, ii) else Ok (mval, k)) (fabs c0, 0).

(** lin_elem_exp_absmax with optimisation nodes [opt], linelm.c 1683-1695. *)
Definition le_absmax_opt (f : lexp) (opt : list K) : outcome (K * K) :=
  do o0 <- aget opt 0;
  do v0 <- le_eval f o0;
  for_ (length opt) (fun ii r =>
    let '(mval, x) := r in
    do o <- aget opt ii;
    do v <- le_eval f o;
    if mval <^ fabs v then Ok (fabs v, o) else Ok (mval, x)) (fabs v0, o0).

(** lin_elem_exp_err_est, linelm.c 1714-1781, for [type = 0] (Linf). *)
Definition le_err_est (f : lexp) (errs : list K) (forward : bool) : outcome (K * list K) :=
  do _ <- cassert (2 <? l_n f);
  let two := fnat 2 in
  do n0 <- aget (l_nodes f) 0;
  do n1 <- aget (l_nodes f) 1;
  do n2 <- aget (l_nodes f) 2;
  do c0 <- aget (l_coeff f) 0;
  do c1 <- aget (l_coeff f) 1;
  do c2 <- aget (l_coeff f) 2;
  let dx := n1 -^ n0 in
  let dx2 := n2 -^ n1 in
  let m1 := (c1 -^ c0) /^ dx in
  let mid1 := (n1 +^ n0) /^ two in
  let m2 := (c2 -^ c1) /^ dx2 in
  let mid2 := (n2 +^ n1) /^ two in
  let err := (m2 -^ m1) /^ (mid2 -^ mid1) in
  let e0 := dx *^ dx *^ fabs err /^ fnat 8 in
  do errs <- aset errs 0 e0;
  do r <- for_from 2 (l_n f - 3) (fun ii r =>
    let '(dx, m1, mid1, m2, mid2, value, errs) := r in
    do np <- aget (l_nodes f) (ii + 1);
    do nc <- aget (l_nodes f) ii;
    let dx2 := np -^ nc in
    do cp <- aget (l_coeff f) (ii + 1);
    do cc <- aget (l_coeff f) ii;
    let m3 := cp -^ cc in
    let mid3 := (np +^ nc) /^ two in
    let err := if forward then (m3 -^ m2) /^ (mid3 -^ mid2) else (m2 -^ m1) /^ (mid2 -^ mid1) in
    let e := dx *^ dx *^ fabs err /^ fnat 8 in
    do errs <- aset errs (ii - 1) e;
    let value := if value <^ e then e else value in
    Ok (dx2, m2, mid2, m3, mid3, value, errs))
    (dx2, m1, mid1, m2, mid2, e0, errs);
  let '(dx, m1, mid1, m2, mid2, value, errs) := r in
  let err := (m2 -^ m1) /^ (mid2 -^ mid1) in
  let ii := l_n f - 1 in
  let e := dx *^ dx *^ fabs err /^ fnat 8 in
  do errs <- aset errs (ii - 1) e;
  let value := if value <^ e then e else value in
  Ok (value, errs).

(** lin_elem_adapt, linelm.c 1915-1957.  The list of (x,y) pairs is the part the
    call appends to [*xy]; the user's function is a total function.  For
    [fmid = 0] the quotient in the test is infinite or not a number, so the test
    fails.  xy_append (1803-1836) and xy_concat (1839-1848) are list append;
    [last->next] drops the first pair of the right part. *)
Fixpoint le_adapt (fuel : nat) (F : K -> K) (xl fl xr fr delta hmin : K) : outcome (list (K * K)) :=
  match fuel with
  | O => OutOfFuel
  | S fuel' =>
      if (xr -^ xl) <=^ hmin then Ok [(xl, fl); (xr, fr)]
      else
        let mid := (xl +^ xr) /^ fnat 2 in
        let fmid := F mid in
        let zero := (fmid <=^ f0) && (f0 <=^ fmid) in
        if negb zero && (fabs ((fl +^ fr) /^ fnat 2 -^ fmid) /^ fabs fmid <^ delta)
        then Ok [(xl, fl); (mid, fmid); (xr, fr)]
        else
          do l <- le_adapt fuel' F xl fl mid fmid delta hmin;
          do r <- le_adapt fuel' F mid fmid xr fr delta hmin;
          Ok (l ++ tl r)
  end.

(** struct LinElemExpAopts, linelm.c 76-91. *)
Record laopts := mkLO {
  o_adapt : bool;
  o_nodes : option (list K);
  o_n : nat;
  o_lb : K; o_ub : K; o_delta : K; o_hmin : K }.

Definition of_pairs (l : list (K * K)) : lexp :=
  mkL (length l) (map fst l) (map snd l).

(** lin_elem_exp_approx, linelm.c 1970-2071. *)
Definition le_approx (fuel : nat) (o : laopts) (F : K -> K) : outcome lexp :=
  do e <-
    (if negb (o_adapt o) then
       match o_nodes o with
       | None => Abort
       | Some nodes =>
           if o_n o <=? length nodes then
             let nodes := firstn (o_n o) nodes in
             (* 1998: reads nodes[0] of both copies, which are equal *)
             do _ <- aget nodes 0;
             Ok (mkL (o_n o) nodes (map F nodes))
           else UB
       end
     else
       match o_nodes o with
       | None =>
           do xy <- le_adapt fuel F (o_lb o) (F (o_lb o)) (o_ub o) (F (o_ub o)) (o_delta o) (o_hmin o);
           Ok (of_pairs xy)
       | Some nodes =>
           do _ <- cassert (1 <? o_n o);
           do xl <- aget nodes 0;
           do xr <- aget nodes 1;
           do xy <- le_adapt fuel F xl (F xl) xr (F xr) (o_delta o) (o_hmin o);
           do r <- for_from 2 (o_n o - 2) (fun ii r =>
             let '(xr, fr, xy) := r in
             let xl := xr in
             let fl := fr in
             do xr <- aget nodes ii;
             let fr := F xr in
             do temp <- le_adapt fuel F xl fl xr fr (o_delta o) (o_hmin o);
             Ok (xr, fr, xy ++ tl temp)) (xr, F xr, xy);
           Ok (of_pairs (snd r))
       end);
  do _ <- cassert (negb (l_n e =? 0));
  Ok e.

(** The node choice shared by zero, constant and linear, linelm.c 2091-2099,
    2124-2132, 2160-2168: two nodes lb, ub (linspace) if none are given. *)
Definition le_opt_nodes (o : laopts) : outcome (list K) :=
  if o_n o =? 0 then Ok [o_lb o; o_ub o]
  else match o_nodes o with
       | None => UB
       | Some nodes => if o_n o <=? length nodes then Ok (firstn (o_n o) nodes) else UB
       end.

(** lin_elem_exp_constant, linelm.c 2120-2139; lin_elem_exp_zero, 2084-2109, is
    the same with 0 for both values of force_param. *)
Definition le_constant (a : K) (o : laopts) : outcome lexp :=
  do nodes <- le_opt_nodes o;
  Ok (mkL (length nodes) nodes (map (fun _ => a) nodes)).

(** lin_elem_exp_linear, linelm.c 2155-2175. *)
Definition le_linear (a b : K) (o : laopts) : outcome lexp :=
  do nodes <- le_opt_nodes o;
  Ok (mkL (length nodes) nodes (map (fun x => a *^ x +^ b) nodes)).

(** lin_elem_exp_scale, linelm.c 2324-2329; lin_elem_exp_flip_sign, 2223-2229,
    is the case [a = -1] (and asserts num_nodes <> 0). *)
Definition le_scale (a : K) (f : lexp) : outcome lexp :=
  do c <- for_ (l_n f) (fun ii c => do ci <- aget c ii; aset c ii (ci *^ a)) (l_coeff f);
  Ok (mkL (l_n f) (l_nodes f) c).

Definition le_flip_sign (f : lexp) : outcome lexp :=
  do g <- le_scale (f0 -^ f1) f;
  do _ <- cassert (negb (l_n f =? 0));
  Ok g.

(** lin_elem_exp_prod, linelm.c 1558-1588; [delta] and [hmin] are the literals
    1e-4 and 1e-3.  Same grid: the nodal approximation of the pointwise product;
    otherwise adaptive approximation on the common interval. *)
Definition le_evalv (f : lexp) (x : K) : K := match le_eval f x with Ok v => v | _ => f0 end.
Definition le_prod (fuel : nat) (delta hmin : K) (f g : lexp) : outcome lexp :=
  do fa <- aget (l_nodes f) 0;
  do ga <- aget (l_nodes g) 0;
  do fb <- aget (l_nodes f) (l_n f - 1);
  do gb <- aget (l_nodes g) (l_n g - 1);
  let lb := if fa <^ ga then ga else fa in
  let ub := if gb <^ fb then gb else fb in
  do same <- le_sdiscp f g;
  let F x := le_evalv f x *^ le_evalv g x in
  if same : bool
  then le_approx fuel (mkLO false (Some (l_nodes f)) (l_n f) fa fb delta hmin) F
  else le_approx fuel (mkLO true None 0 lb ub delta hmin) F.

(** lin_elem_exp_onezero, linelm.c 2379-2500, non-adaptive branch (2480-2499);
    [tol14] is the literal 1e-14. *)
Definition le_onezero_fixed (tol14 : K) (zeros : list K) (o : laopts) : outcome lexp :=
  match o_nodes o with
  | None => Abort
  | Some nodes =>
      do _ <- cassert (length zeros <? o_n o);
      do le <- le_init (o_n o) nodes (repeat f0 (o_n o));
      do c <- for_ (o_n o) (fun ii c =>
        do xi <- aget (l_nodes le) ii;
        if existsb (fun z => fabs (xi -^ z) <^ tol14) zeros then Ok c else aset c ii f1) (l_coeff le);
      Ok (mkL (l_n le) (l_nodes le) c)
  end.

(** qsort with compare_le, linelm.c 2355-2365.  The comparison answers 0 or 1
    and never -1; a merge sort, which only tests whether the answer is positive,
    sorts ascending with it, and that is what the model does. *)
Fixpoint sinsert (x : K) (l : list K) : list K :=
  match l with
  | [] => [x]
  | y :: t => if y <^ x then y :: sinsert x t else x :: l
  end.
Definition ssort (l : list K) : list K := fold_right sinsert [] l.

(** lin_elem_exp_onezero, adaptive branch, linelm.c 2385-2476; the arrays filled
    by loops are written as lists.  Without zeros (2386-2395) the nodes come from
    [calloc], so both are 0.  The test for the upper end reads the unsorted
    array. *)
Definition le_onezero_adapt (tol14 : K) (zeros : list K) (lb ub : K) : outcome lexp :=
  let n := length zeros in
  if n =? 0 then
    do le <- le_init 2 (repeat f0 2) (repeat f0 2);
    do c <- aset (l_coeff le) 0 f1;
    Ok (mkL (l_n le) (l_nodes le) c)
  else
    let s := ssort zeros in
    do s0 <- aget s 0;
    do zl <- aget zeros (n - 1);
    let onlb := fabs (s0 -^ lb) <^ tol14 in
    let onub := fabs (zl -^ ub) <^ tol14 in
    if onlb then
      if onub then
        do s1 <- aget s 1;
        le_init (n + 1) (lb :: (lb +^ s1) /^ fnat 2 :: tl s) (f0 :: f1 :: repeat f0 (n - 1))
      else le_init (n + 1) (lb :: firstn (n - 1) s ++ [ub]) (repeat f0 n ++ [f1])
    else
      if onub then le_init (n + 1) (lb :: s) (f1 :: repeat f0 n)
      else le_init (n + 2) (lb :: s ++ [ub]) (repeat f0 (n + 1) ++ [f1]).

End LinElm.
Arguments lexp K : clear implicits.
Arguments laopts K : clear implicits.
