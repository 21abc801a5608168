(** Model of the piecewise-constant nodal functions, c3/lib_funcs/constelm.c.
    struct ConstElemExp has the fields of struct LinElemExp and the record [lexp]
    is used for both.  The conventions are those of [LinElmModel].  Not modelled:
    serialization, printing, const_elem_exp_onezero with adapt = 1, the functions
    that print "not implemented" and exit. *)
From Verif Require Import Base FOps LinElmModel.

Section ConstElm.
Context {K : fops}.
Local Open Scope fop_scope.
Notation lexp := (lexp K).

(** const_elem_exp_init, constelm.c 394-407, has the text of lin_elem_exp_init
    ([le_init]). *)

(** const_elem_exp_find_node, constelm.c 578-610. *)
Definition ce_find_node (f : lexp) (x : K) : outcome nat :=
  if l_n f =? 0 then UB
  else
    do r <- fi_loop (l_n f) (l_nodes f) x 0 (l_n f - 1);
    let '(early, indmin) := r in
    if early : bool then Ok indmin
    else
      do nl <- aget (l_nodes f) indmin;
      do nr <- aget (l_nodes f) (indmin + 1);
      if (x -^ nl) <^ (nr -^ x) then Ok indmin else Ok (indmin + 1).

(** const_elem_exp_eval, constelm.c 615-636. *)
Definition ce_eval (f : lexp) (x : K) : outcome K :=
  do a <- aget (l_nodes f) 0;
  do b <- aget (l_nodes f) (l_n f - 1);
  if (x <^ a) || (b <^ x) then Ok f0
  else
    do ind <- ce_find_node f x;
    aget (l_coeff f) ind.

(** const_elem_exp_evalN, constelm.c 656-662. *)
Definition ce_evalN (f : lexp) (N : nat) (x : list K) (incx : nat) (y : list K) (incy : nat)
  : outcome (list K) :=
  for_ N (fun ii y =>
    do xi <- aget x (ii * incx);
    do v <- ce_eval f xi;
    aset y (ii * incy) v) y.

(** const_elem_exp_deriv, constelm.c 689-704: finite differences written over
    the copied coefficients. *)
Definition ce_deriv (f : lexp) : outcome lexp :=
  do le <- le_init (l_n f) (l_nodes f) (l_coeff f);
  let n := l_n le in
  let nodes := l_nodes le in
  do c1 <- aget (l_coeff le) 1;
  do c0 <- aget (l_coeff le) 0;
  do n1 <- aget nodes 1;
  do n0 <- aget nodes 0;
  do c <- aset (l_coeff le) 0 ((c1 -^ c0) /^ (n1 -^ n0));
  do c <- for_from 1 (n - 2) (fun ii c =>
    do cp <- aget c (ii + 1);
    do ci <- aget c ii;
    do np <- aget nodes (ii + 1);
    do ni <- aget nodes ii;
    aset c ii ((cp -^ ci) /^ (np -^ ni))) c;
  do cl <- aget c (n - 1);
  do ck <- aget c (n - 2);
  do nl <- aget nodes (n - 1);
  do nk <- aget nodes (n - 2);
  do c <- aset c (n - 1) ((cl -^ ck) /^ (nl -^ nk));
  Ok (mkL n nodes c).

(** const_elem_exp_param_grad_eval, constelm.c 741-763. *)
Definition ce_param_grad_eval (f : lexp) (nx : nat) (x grad : list K) : outcome (list K) :=
  let nparam := l_n f in
  for_ nx (fun ii grad =>
    do xi <- aget x ii;
    do indmin <- ce_find_node f xi;
    do grad <- for_ indmin (fun jj grad => aset grad (ii * nparam + jj) f0) grad;
    do grad <- for_from (indmin + 2) (nparam - (indmin + 2))
                 (fun jj grad => aset grad (ii * nparam + jj) f0) grad;
    aset grad (ii * nparam + indmin) f1) grad.

(** const_elem_exp_param_grad_eval2, constelm.c 778-798. *)
Definition ce_param_grad_eval2 (f : lexp) (x : K) (grad : list K) : outcome (K * list K) :=
  let nparam := l_n f in
  do indmin <- ce_find_node f x;
  do grad <- for_ indmin (fun jj grad => aset grad jj f0) grad;
  do grad <- for_from (indmin + 2) (nparam - (indmin + 2)) (fun jj grad => aset grad jj f0) grad;
  do grad <- aset grad indmin f1;
  do v <- aget (l_nodes f) indmin;
  Ok (v, grad).

(** const_elem_exp_integrate, constelm.c 852-870. *)
Definition ce_integrate (f : lexp) : outcome K :=
  do _ <- cassert (1 <? l_n f);
  do n1 <- aget (l_nodes f) 1;
  do n0 <- aget (l_nodes f) 0;
  let dx := (n1 -^ n0) /^ fnat 2 in
  do c0 <- aget (l_coeff f) 0;
  do r <- for_from 1 (l_n f - 2) (fun ii r =>
    let '(dx, integral) := r in
    do np <- aget (l_nodes f) (ii + 1);
    do ni <- aget (l_nodes f) ii;
    let dx2 := (np -^ ni) /^ fnat 2 in
    do ci <- aget (l_coeff f) ii;
    Ok (dx2, integral +^ ci *^ (dx +^ dx2))) (dx, c0 *^ dx);
  let integral := snd r in
  do nl <- aget (l_nodes f) (l_n f - 1);
  do nk <- aget (l_nodes f) (l_n f - 2);
  let dx := (nl -^ nk) *^ (f1 /^ fnat 2) in
  do cl <- aget (l_coeff f) (l_n f - 1);
  Ok (integral +^ cl *^ dx).

(** const_elem_exp_inner_same, constelm.c 909-927.  For [N < 2] the unsigned
    [N-1] or [N-2] wraps and the function reads outside the arrays. *)
Definition ce_inner_same (N : nat) (x f g : list K) : outcome K :=
  if N <? 2 then UB
  else
    do x1 <- aget x 1;
    do x0 <- aget x 0;
    let dx := (x1 -^ x0) /^ fnat 2 in
    do c0 <- aget f 0;
    do d0 <- aget g 0;
    do r <- for_from 1 (N - 2) (fun ii r =>
      let '(dx, inner) := r in
      do xp <- aget x (ii + 1);
      do xi <- aget x ii;
      let dx2 := (xp -^ xi) /^ fnat 2 in
      do ci <- aget f ii;
      do di <- aget g ii;
      Ok (dx2, inner +^ ci *^ di *^ (dx2 +^ dx))) (dx, c0 *^ d0 *^ dx);
    let inner := snd r in
    do xl <- aget x (N - 1);
    do xk <- aget x (N - 2);
    let dx := (xl -^ xk) /^ fnat 2 in
    do cl <- aget f (N - 1);
    do dl <- aget g (N - 1);
    Ok (inner +^ cl *^ dl *^ dx).

(** const_elem_exp_same_interp, constelm.c 945-991. *)
Definition ce_same_interp (f g : lexp) (cap : nat)
  : outcome (nat * list K * list K * list K) :=
  let z := repeat f0 cap in
  do fa <- aget (l_nodes f) 0;
  do gb <- aget (l_nodes g) (l_n g - 1);
  if gb <^ fa then Ok (0, z, z, z)
  else
    do ga <- aget (l_nodes g) 0;
    do fb <- aget (l_nodes f) (l_n f - 1);
    if fb <^ ga then Ok (0, z, z, z)
    else
      do i <- skip_loop (l_n f) (l_nodes f) ga 0;
      do j <- skip_loop (l_n g) (l_nodes g) fa 0;
      isg_loop (S (l_n f + l_n g)) (l_n f) (l_n g) (l_nodes f) (l_coeff f) (l_nodes g) (l_coeff g)
               (ce_eval f) (ce_eval g) i j z z z 0.

(** const_elem_exp_inner, constelm.c 1002-1026. *)
Definition ce_inner (f g : lexp) : outcome K :=
  do same <- le_sdiscp f g;
  if same : bool then ce_inner_same (l_n f) (l_nodes f) (l_coeff f) (l_coeff g)
  else
    do r <- ce_same_interp f g (l_n f + l_n g);
    let '(N, x, fv, gv) := r in
    ce_inner_same N x fv gv.

(** const_elem_exp_axpy, constelm.c 1116-1144. *)
Definition ce_axpy (a : K) (f g : lexp) : outcome lexp :=
  do same <- le_sdiscp f g;
  if same : bool then
    do c <- daxpy1 (l_n g) a (l_coeff f) (l_coeff g);
    Ok (mkL (l_n g) (l_nodes g) c)
  else
    do r <- interp_same_grid (l_n f) (l_n g) (l_nodes f) (l_nodes g);
    let '(num, x) := r in
    do coeff <- for_ num (fun ii coeff =>
      do xi <- aget x ii;
      do u <- ce_eval f xi;
      do v <- ce_eval g xi;
      aset coeff ii (a *^ u +^ v)) (repeat f0 (l_n f + l_n g));
    Ok (mkL num x coeff).

(** const_elem_exp_prod, constelm.c 1155-1174. *)
Definition ce_prod (f g : lexp) : outcome lexp :=
  do same <- le_sdiscp f g;
  if same : bool then
    do c <- for_ (l_n f) (fun ii c =>
      do ci <- aget c ii;
      do gi <- aget (l_coeff g) ii;
      aset c ii (ci *^ gi)) (l_coeff f);
    Ok (mkL (l_n f) (l_nodes f) c)
  else Abort.

(** const_elem_exp_max and _min, constelm.c 1196-1230, are [node_max] and
    [node_min]. *)

(** const_elem_exp_approx, constelm.c 1290-1314: nodal values; aborts unless the
    nodes are given and adapt = 0. *)
Definition ce_approx (o : laopts K) (F : K -> K) : outcome lexp :=
  if negb (o_adapt o) then
    match o_nodes o with
    | None => Abort
    | Some nodes =>
        if o_n o <=? length nodes then
          let nodes := firstn (o_n o) nodes in
          Ok (mkL (o_n o) nodes (map F nodes))
        else UB
    end
  else Abort.

(** const_elem_exp_constant, constelm.c 1361-1383. *)
Definition ce_constant (a : K) (o : laopts K) : outcome lexp :=
  do nodes <- le_opt_nodes o;
  Ok (mkL (length nodes) nodes (map (fun _ => a) nodes)).

(** One function of const_elem_exp_orth_basis, constelm.c 1477-1500 (adapt = 0;
    the text for adapt = 1, 1514-1528, is the same on the nodes of a linspace).
    [fsqrt] is the C [sqrt], [tiny] the literal 1e-20. *)
Definition ce_orth_fun (fsqrt : K -> K) (tiny : K) (ii num : nat) (nodes : list K) : outcome lexp :=
  do f <- le_init num nodes (repeat f0 num);
  if ii <? num then
    do den <-
      (if ii =? 0 then
         do n1 <- aget nodes 1;
         do n0 <- aget nodes 0;
         Ok ((n1 -^ n0) /^ fnat 2)
       else if ii =? num - 1 then
         do ni <- aget nodes ii;
         do nm <- aget nodes (ii - 1);
         Ok ((ni -^ nm) /^ fnat 2)
       else
         do ni <- aget nodes ii;
         do nm <- aget nodes (ii - 1);
         do np <- aget nodes (ii + 1);
         Ok ((ni -^ nm) /^ fnat 2 +^ (np -^ ni) /^ fnat 2));
    do c <- aset (l_coeff f) ii (fsqrt (f1 /^ den));
    Ok (mkL (l_n f) (l_nodes f) c)
  else
    do c <- aset (l_coeff f) 0 tiny;
    Ok (mkL (l_n f) (l_nodes f) c).

(** const_elem_exp_orth_basis, constelm.c 1463-1511, adapt = 0. *)
Definition ce_orth_basis (fsqrt : K -> K) (tiny : K) (n : nat) (num : nat) (nodes : list K)
  : outcome (list lexp) :=
  for_ n (fun ii l => do f <- ce_orth_fun fsqrt tiny ii num nodes; Ok (l ++ [f])) [].

End ConstElm.
