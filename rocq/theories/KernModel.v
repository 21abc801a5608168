(** Model of kernel expansions: c3/lib_funcs/kernels.c.  Real arithmetic; the error function
    is a parameter (ErfSpec.v says which).  Copies are values, freeing is not modelled;
    DBL_MAX as a bound is a parameter. *)
From Coq Require Import Reals.
From Verif Require Import Base FOps.
Open Scope R_scope.

(** kernels.c 142 enum KernelType *)
Inductive ktype := KernGauss | KernNone.
(** kernels.c 143-148 struct Kernel; nparams is the length of the array *)
Record kernel := mkkernel { k_type : ktype; k_par : list R }.
(** kernels.c 641-653 struct KernelExpansion; both arrays have nalloc places *)
Record kexp := mkkexp {
  e_alloc : nat; e_n : nat; e_coeff : list R; e_kern : list (option kernel);
  e_lb : R; e_ub : R; e_inc : bool (* include_kernel_param *) }.
(** struct KernelApproxOpts, the fields that kernel_expansion_init reads; other_params
    holds scale and width *)
Record kopts := mkkopts {
  ko_type : ktype; ko_centers : list R; ko_scale : R; ko_width : R;
  ko_lb : R; ko_ub : R; ko_adapt : bool }.

Section Kern.
  Variable erf : R -> R.
  Variable dbl_max : R.
  (** 1e-15 *)
  Definition ktol : R := / 10 ^ 15.

  (** kernels.c 76-82 *)
  Definition gauss_kernel_eval (scale w c x : R) : R :=
    let dx := x - c in
    let inner := - dx * dx / w in
    scale * exp inner.
  (** kernels.c 89-99 *)
  Definition gauss_kernel_deriv (scale w c x : R) : R :=
    let dx := x - c in
    let dx_over_width := - dx / w in
    let inner := dx * dx_over_width in
    let dinner := 2 * dx_over_width in
    scale * exp inner * dinner.
  (** kernels.c 104-108 *)
  Definition gauss_kernel_integrate (scale w c lb ub : R) : R :=
    let width := sqrt w in
    0.5 * sqrt PI * width * scale * (erf ((c - lb) / width) - erf ((c - ub) / width)).
  (** kernels.c 113-136 *)
  Definition gauss_kernel_inner (s1 w1 c1 s2 w2 c2 lb ub : R) : R :=
    let width1 := sqrt w1 in
    let width2 := sqrt w2 in
    let wsum := w1 + w2 in
    let sqrt_wsum := sqrt wsum in
    let pre := sqrt PI * width1 * width2 * s1 * s2 in
    let den := 2 * sqrt_wsum in
    let cdiff := c1 - c2 in
    let n1 := exp (- cdiff * cdiff / wsum) in
    let pre := pre * n1 in
    let c1w2 := c1 * w2 in
    let w1c2 := w1 * c2 in
    let num := c1w2 + w1c2 in
    let wws := width1 * width2 * sqrt_wsum in
    let mid1 := erf ((num - lb * wsum) / wws) in
    let mid2 := erf ((num - ub * wsum) / wws) in
    pre / den * (mid1 - mid2).

  (** kernels.c 153-170 same_kernel (the loop stops at the first difference; an index
      past the end cannot occur since the lengths agree) *)
  Definition ktype_eqb (a b : ktype) : bool :=
    match a, b with KernGauss, KernGauss => true | KernNone, KernNone => true | _, _ => false end.
  Definition same_kernel (x y : kernel) : outcome bool :=
    if negb (ktype_eqb (k_type x) (k_type y)) then Ok false
    else if negb (length (k_par x) =? length (k_par y))%nat then Ok false
    else for_ (length (k_par x)) (fun i ret =>
      if negb ret then Ok false
      else do a <- aget (k_par x) i; do b <- aget (k_par y) i;
           if Rltb ktol (Rabs (a - b)) then Ok false else Ok true) true.

  (** kernels.c 276-284 kernel_gaussian *)
  Definition kernel_gaussian (scale width center : R) : kernel :=
    mkkernel KernGauss [scale; width * width; center].

  (** kernels.c 329-342, 347-359, 364-376, 381-393 *)
  Definition kernel_eval (k : kernel) (x : R) : outcome R :=
    match k_type k with
    | KernGauss => do s <- aget (k_par k) 0; do w <- aget (k_par k) 1; do c <- aget (k_par k) 2;
                   Ok (gauss_kernel_eval s w c x)
    | KernNone => Abort
    end.
  Definition kernel_deriv (k : kernel) (x : R) : outcome R :=
    match k_type k with
    | KernGauss => do s <- aget (k_par k) 0; do w <- aget (k_par k) 1; do c <- aget (k_par k) 2;
                   Ok (gauss_kernel_deriv s w c x)
    | KernNone => Abort
    end.
  Definition kernel_grad_center (k : kernel) (x : R) : outcome R :=
    match k_type k with
    | KernGauss => do s <- aget (k_par k) 0; do w <- aget (k_par k) 1; do c <- aget (k_par k) 2;
                   Ok (gauss_kernel_deriv s w x c)
    | KernNone => Abort
    end.
  Definition kernel_integrate (k : kernel) (lb ub : R) : outcome R :=
    match k_type k with
    | KernGauss => do s <- aget (k_par k) 0; do w <- aget (k_par k) 1; do c <- aget (k_par k) 2;
                   Ok (gauss_kernel_integrate s w c lb ub)
    | KernNone => Abort
    end.
  (** kernels.c 399-412 *)
  Definition kernel_inner (k1 k2 : kernel) (lb ub : R) : outcome R :=
    match k_type k1, k_type k2 with
    | KernGauss, KernGauss =>
        do s1 <- aget (k_par k1) 0; do w1 <- aget (k_par k1) 1; do c1 <- aget (k_par k1) 2;
        do s2 <- aget (k_par k2) 0; do w2 <- aget (k_par k2) 1; do c2 <- aget (k_par k2) 2;
        Ok (gauss_kernel_inner s1 w1 c1 s2 w2 c2 lb ub)
    | _, _ => Abort
    end.

  (** kernels.c 676-697 kernel_expansion_alloc *)
  Definition kexp_alloc (nalloc : nat) : outcome kexp :=
    do _ <- cassert (0 <? nalloc)%nat;
    Ok (mkkexp nalloc 0 (repeat 0 nalloc) (repeat None nalloc) (- dbl_max) dbl_max false).

  (** kernels.c 833-880 kernel_expansion_add_kernel; the recursive call after doubling is
      the next round of [fuel].  The two rounds of copies leave the kernels as they are and
      NULL in the new places. *)
  Fixpoint kexp_add (fuel : nat) (e : kexp) (weight : R) (k : kernel) : outcome kexp :=
    if (e_n e =? e_alloc e)%nat then
      match fuel with
      | O => OutOfFuel
      | S f =>
          kexp_add f (mkkexp (2 * e_alloc e) (e_n e)
            (e_coeff e ++ repeat 0 (e_alloc e)) (e_kern e ++ repeat None (e_alloc e))
            (e_lb e) (e_ub e) (e_inc e)) weight k
      end
    else
      do cs <- aset (e_coeff e) (e_n e) weight;
      do ks <- aset (e_kern e) (e_n e) (Some k);
      Ok (mkkexp (e_alloc e) (e_n e + 1) cs ks (e_lb e) (e_ub e) (e_inc e)).

  (** kernels.c 888-912 kernel_expansion_init *)
  Definition kexp_init (o : kopts) : outcome kexp :=
    do e <- kexp_alloc 1;
    do e <- for_ (length (ko_centers o)) (fun i e =>
      match ko_type o with
      | KernGauss => do c <- aget (ko_centers o) i;
                     kexp_add 1 e 0 (kernel_gaussian (ko_scale o) (ko_width o) c)
      | KernNone => Abort
      end) e;
    Ok (mkkexp (e_alloc e) (e_n e) (e_coeff e) (e_kern e) (ko_lb o) (ko_ub o) (ko_adapt o)).

  (** kernels.c 297-307 kernel_update_center *)
  Definition kernel_update_center (k : kernel) (c : R) : outcome kernel :=
    match k_type k with
    | KernGauss => do p <- aset (k_par k) 2 c; Ok (mkkernel (k_type k) p)
    | KernNone => Abort
    end.

  (** memmove of the first [n] entries of [src] over [dst] *)
  Definition copy_first (n : nat) (src dst : list R) : outcome (list R) :=
    for_ n (fun i d => do v <- aget src i; aset d i v) dst.

  (** kernels.c 919-941 kernel_expansion_update_params.  The assertion in the second branch
      assigns: nkernels becomes dim/2, and it fails only when that is 0. *)
  Definition kexp_update_params (e : kexp) (param : list R) : outcome kexp :=
    let dim := length param in
    if negb (e_inc e) then
      do _ <- cassert (e_n e =? dim)%nat;
      do cs <- copy_first dim param (e_coeff e);
      Ok (mkkexp (e_alloc e) (e_n e) cs (e_kern e) (e_lb e) (e_ub e) (e_inc e))
    else if (dim =? e_n e)%nat then
      do cs <- copy_first dim param (e_coeff e);
      Ok (mkkexp (e_alloc e) (e_n e) cs (e_kern e) (e_lb e) (e_ub e) (e_inc e))
    else
      let n := (dim / 2)%nat in
      do _ <- cassert (negb (n =? 0)%nat);
      do cs <- copy_first n param (e_coeff e);
      do ks <- for_ n (fun i ks =>
        do k <- pget ks i; do c <- aget param (i + n); do k <- kernel_update_center k c;
        aset ks i (Some k)) (e_kern e);
      Ok (mkkexp (e_alloc e) n cs ks (e_lb e) (e_ub e) (e_inc e)).

  (** kernels.c 1113-1121 kernel_expansion_eval *)
  Definition kexp_eval (e : kexp) (x : R) : outcome R :=
    for_ (e_n e) (fun i out =>
      do c <- aget (e_coeff e) i; do k <- pget (e_kern e) i; do v <- kernel_eval k x;
      Ok (out + c * v)) 0.
  (** kernels.c 1158-1165 kernel_expansion_evalN *)
  Definition kexp_evalN (e : kexp) (N : nat) (x : list R) (incx : nat) (y : list R) (incy : nat) : outcome (list R) :=
    for_ N (fun i y => do a <- aget x (i * incx); do v <- kexp_eval e a; aset y (i * incy) v) y.
  (** kernels.c 1200-1209 kernel_expansion_deriv_eval *)
  Definition kexp_deriv_eval (e : kexp) (x : R) : outcome R :=
    for_ (e_n e) (fun i out =>
      do c <- aget (e_coeff e) i; do k <- pget (e_kern e) i; do v <- kernel_deriv k x;
      Ok (out + c * v)) 0.

  (** kernels.c 1127-1141 check_same_nodes_kernels *)
  Definition same_nodes (x y : kexp) : outcome bool :=
    if negb (e_n x =? e_n y)%nat then Ok false
    else for_ (e_n x) (fun i ret =>
      if negb ret then Ok false
      else do a <- pget (e_kern x) i; do b <- pget (e_kern y) i; same_kernel a b) true.
  (** kernels.c 1214-1230 kernel_expansion_axpy: the new y *)
  Definition kexp_axpy (a : R) (x y : kexp) : outcome kexp :=
    do s <- same_nodes x y;
    if (s : bool) then
      do cs <- for_ (e_n y) (fun i cs => do cx <- aget (e_coeff x) i; do cy <- aget cs i; aset cs i (cy + a * cx)) (e_coeff y);
      Ok (mkkexp (e_alloc y) (e_n y) cs (e_kern y) (e_lb y) (e_ub y) (e_inc y))
    else Abort.
  (** kernels.c 1317-1323 kernel_expansion_scale *)
  Definition kexp_scale (a : R) (x : kexp) : outcome kexp :=
    do cs <- for_ (e_n x) (fun i cs => do c <- aget cs i; aset cs i (c * a)) (e_coeff x);
    Ok (mkkexp (e_alloc x) (e_n x) cs (e_kern x) (e_lb x) (e_ub x) (e_inc x)).
  (** kernels.c 1326-1329 kernel_expansion_flip_sign *)
  Definition kexp_flip (x : kexp) : outcome kexp := kexp_scale (-1) x.

  (** kernels.c 1235-1242 kernel_expansion_integrate *)
  Definition kexp_integrate (e : kexp) : outcome R :=
    for_ (e_n e) (fun i out =>
      do c <- aget (e_coeff e) i; do k <- pget (e_kern e) i; do v <- kernel_integrate k (e_lb e) (e_ub e);
      Ok (out + c * v)) 0.
  (** kernels.c 1283-1308 kernel_expansion_inner *)
  Definition kexp_inner (a b : kexp) : outcome R :=
    let lb := if Rltb (e_lb a) (e_lb b) then e_lb b else e_lb a in
    let ub := if Rltb (e_ub b) (e_ub a) then e_ub b else e_ub a in
    for_ (e_n a) (fun i out =>
      for_ (e_n b) (fun j out =>
        do ca <- aget (e_coeff a) i; do cb <- aget (e_coeff b) j;
        do ka <- pget (e_kern a) i; do kb <- pget (e_kern b) j;
        do v <- kernel_inner ka kb lb ub;
        Ok (out + ca * cb * v)) out) 0.

  (** kernels.c 1376-1399 kernel_expansion_param_grad_eval2: value and gradient *)
  Definition kexp_param_grad_eval2 (e : kexp) (x : R) (grad : list R) : outcome (R * list R) :=
    do (ev, g) <- for_ (e_n e) (fun j st => let (ev, g) := (st : R * list R) in
      do k <- pget (e_kern e) j; do v <- kernel_eval k x; do g <- aset g j v;
      do gj <- aget g j; do c <- aget (e_coeff e) j; Ok (ev + gj * c, g)) (0, grad);
    if e_inc e then
      do g <- for_ (e_n e) (fun j g =>
        do c <- aget (e_coeff e) j; do k <- pget (e_kern e) j; do v <- kernel_grad_center k x;
        aset g (j + e_n e) (c * v)) g;
      Ok (ev, g)
    else Ok (ev, g).

  (** kernels.c 1434-1455 kernel_expansion_squared_norm_param_grad *)
  Definition kexp_sqnorm_param_grad (e : kexp) (scale : R) (grad : list R) : outcome (list R) :=
    do _ <- cassert (negb (e_inc e));
    for_ (e_n e) (fun i grad =>
      do g1 <- for_ (e_n e) (fun j g1 =>
        do c <- aget (e_coeff e) j; do ki <- pget (e_kern e) i; do kj <- pget (e_kern e) j;
        do v <- kernel_inner ki kj (e_lb e) (e_ub e);
        Ok (g1 + c * v)) 0;
      do g <- aget grad i; aset grad i (g + 2 * scale * g1)) grad.
End Kern.
