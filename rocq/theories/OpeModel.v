(** Model of expansions in orthogonal polynomials: c3/lib_funcs/polynomials.c and
    c3/lib_funcs/hpoly.c.  Real arithmetic.  The types FOURIER and STANDARD are not
    modelled.  The tables legaseqnorm and legcseqnorm (polynomials.c 287-694) are replaced
    by the formulas that the code uses above index 200; the tables agree with them to the
    precision of a double (checked by a script). *)
From Coq Require Import Reals.
From Verif Require Import Base FOps.
Open Scope R_scope.

(** polynomials.h 54-60 enum poly_type *)
Inductive ptype := LEGENDRE | CHEBYSHEV | HERMITE.
Definition ptype_eqb (a b : ptype) : bool :=
  match a, b with LEGENDRE, LEGENDRE | CHEBYSHEV, CHEBYSHEV | HERMITE, HERMITE => true | _, _ => false end.

(** polynomials.h struct OrthPoly; norm: polynomials.c 711, 1143 and hpoly.c 66;
    init_cheb_poly 1119-1141, init_leg_poly 1160-1191, init_hermite_poly hpoly.c 83-108 *)
Definition p_an (t : ptype) (n : nat) : R :=
  match t with
  | LEGENDRE => sqrt (4 * INR (n * n) - 1) / INR n
  | CHEBYSHEV => 2
  | HERMITE => 1 / sqrt (INR n)
  end.
Definition p_bn (t : ptype) (n : nat) : R := 0.
Definition p_cn (t : ptype) (n : nat) : R :=
  match t with
  | LEGENDRE => - (sqrt (2 * INR n + 1) * (INR n - 1)) / INR n / sqrt (2 * INR n - 3)
  | CHEBYSHEV => -1
  | HERMITE => - sqrt ((INR n - 1) / INR n)
  end.
Definition p_const (t : ptype) : R := 1.
Definition p_lin (t : ptype) : R := match t with LEGENDRE => 1 * sqrt 3 | _ => 1 end.
Definition p_linc (t : ptype) : R := 0.
Definition p_norm (t : ptype) (n : nat) : R :=
  match t with LEGENDRE => 1 | CHEBYSHEV => if (n =? 0)%nat then PI else PI / 2 | HERMITE => 1 end.
(** upper and lower of the reference domain; for HERMITE (DBL_MAX) they are not used below *)
Definition p_upper : R := 1.
Definition p_lower : R := -1.

(** polynomials.c 1328-1334 eval_orth_poly_wp *)
Definition eval_wp (t : ptype) (p2 p1 : R) (n : nat) (x : R) : R := (p_an t n * x + p_bn t n) * p1 + p_cn t n * p2.

(** polynomials.c 1468-1491 orth_poly_eval; the loop uses the sequences at [n] *)
Definition orth_poly_eval (t : ptype) (n : nat) (x : R) : outcome R :=
  match n with
  | O => Ok (p_const t)
  | S O => Ok (p_lin t * x + p_linc t)
  | _ =>
      do (prev, prev2, out) <- for_from 2 (n + 1 - 2) (fun nn s =>
        let '(prev, prev2, out) := s in
        let out := (p_an t n * x + p_bn t n) * prev + p_cn t n * prev2 in
        Ok (out, prev, out)) (p_lin t * x + p_linc t, p_const t, 0);
      Ok out
  end.

(** polynomials.c 66-82 struct SpaceMapping, of type SM_LINEAR *)
Record smap := mksm { sm_slope : R; sm_off : R; sm_islope : R; sm_ioff : R }.
(** polynomials.c 229-236, 240-247, 253-260, 264-272 *)
Definition map_to (m : smap) (x : R) : R := sm_slope m * x + sm_off m.
Definition map_from (m : smap) (x : R) : R := sm_islope m * x + sm_ioff m.

(** polynomials.h struct OrthPolyExpansion.  [o_c] is the block behind coeff, [o_alloc] the
    field nalloc. *)
Record ope := mkope { o_t : ptype; o_n : nat; o_alloc : nat; o_c : list R; o_lb : R; o_ub : R; o_map : smap; o_kr : bool }.
Definition with_c (p : ope) (n : nat) (c : list R) : ope := mkope (o_t p) n (o_alloc p) c (o_lb p) (o_ub p) (o_map p) (o_kr p).
Definition with_block (p : ope) (n al : nat) (c : list R) : ope := mkope (o_t p) n al c (o_lb p) (o_ub p) (o_map p) (o_kr p).
Definition with_map (p : ope) (m : smap) : ope := mkope (o_t p) (o_n p) (o_alloc p) (o_c p) (o_lb p) (o_ub p) m (o_kr p).

(** OPECALLOC, polynomials.h 222 *)
Definition opecalloc : nat := 50.

(** space_mapping_create 84-109 and the cases of orth_poly_expansion_init 1560-1597.  With
    lb = ub the slope is a division by zero. *)
Definition init_map (t : ptype) (lb ub : R) : smap :=
  match t with
  | HERMITE => mksm 1 0 1 0
  | _ => let m := (p_upper - p_lower) / (ub - lb) in let off := p_upper - m * ub in mksm m off (1 / m) (- off / m)
  end.
(** polynomials.c 1540-1615 orth_poly_expansion_init *)
Definition ope_init (t : ptype) (n : nat) (lb ub : R) : ope :=
  mkope t n (n + opecalloc) (repeat 0 (n + opecalloc)) lb ub (init_map t lb ub) false.

(** polynomials.c 817-842 struct OpeOpts (the fields used here) *)
Record opts := mkopts { op_t : ptype; op_start : nat; op_lb : R; op_ub : R; op_mean : R; op_std : R; op_kr : bool }.
(** polynomials.c 1625-1643 orth_poly_expansion_init_from_opts *)
Definition ope_init_opts (o : opts) (n : nat) : ope :=
  let p := ope_init (op_t o) n (op_lb o) (op_ub o) in
  mkope (o_t p) (o_n p) (o_alloc p) (o_c p) (o_lb p) (o_ub p)
    (match op_t o with HERMITE => mksm (1 / op_std o) (- op_mean o / op_std o) (op_std o) (op_mean o) | _ => o_map p end) (op_kr o).

(** ** Parameters *)
(** polynomials.c 1733-1764 orth_poly_expansion_update_params *)
Definition ope_update_params (p : ope) (np : nat) (param : list R) : outcome ope :=
  let nold := o_n p in
  let fill c := for_ np (fun ii c => do v <- aget param ii; aset c ii v) c in
  if (np <=? nold)%nat then
    do c <- fill (o_c p);
    do c <- for_from np (nold - np) (fun ii c => aset c ii 0) c;
    Ok (with_c p np c)
  else if (np <=? o_alloc p)%nat then
    do c <- fill (o_c p);
    Ok (with_c p np c)
  else
    do c <- fill (repeat 0 np);
    Ok (with_block p np np c).
(** polynomials.c 1654-1666 orth_poly_expansion_create_with_params *)
Definition ope_create_with_params (o : opts) (np : nat) (param : list R) : outcome ope :=
  let p := ope_init_opts o np in
  do c <- for_ np (fun ii c => do v <- aget param ii; aset c ii v) (o_c p);
  Ok (with_c p np c).
(** polynomials.c 1674-1700 orth_poly_expansion_pad_params *)
Definition ope_pad_params (p : ope) (np : nat) : outcome ope :=
  if (o_alloc p <? np)%nat then
    do c <- for_ (o_n p) (fun ii c => do v <- aget (o_c p) ii; aset c ii v) (repeat 0 np);
    Ok (with_block p np np c)
  else
    do c <- for_from (o_n p) (np - o_n p) (fun ii c => aset c ii 0) (o_c p);
    Ok (with_c p np c).
(** polynomials.c 1706-1711 orth_poly_expansion_get_params: memmove of num_poly numbers to
    the array [param] *)
Definition ope_get_params (p : ope) (param : list R) : outcome (nat * list R) :=
  do param <- for_ (o_n p) (fun ii q => do v <- aget (o_c p) ii; aset q ii v) param;
  Ok (o_n p, param).
(** polynomials.c 1774-1830 orth_poly_expansion_copy *)
Definition ope_copy (p : ope) : outcome ope :=
  do _ <- cassert (o_n p <=? o_alloc p)%nat;
  do c <- for_ (o_n p) (fun ii c => do v <- aget (o_c p) ii; aset c ii v) (repeat 0 (o_alloc p));
  Ok (with_c p (o_n p) c).

(** ** Evaluation *)
(** polynomials.c 2929-2947 chebyshev_poly_expansion_eval; num_poly = 0 wraps around and reads
    far outside the block *)
Definition cheb_eval (p : ope) (x : R) : outcome R :=
  do _ <- cassert (negb (o_kr p));
  if (o_n p =? 0)%nat then UB else
  let xn := map_to (o_map p) x in
  do (p0, p1) <- for_ (o_n p - 1) (fun k s =>
    let '(p0, p1) := s in
    do c <- aget (o_c p) (o_n p - 1 - k);
    let pnew := c + 2 * xn * p0 - p1 in
    Ok (pnew, p0)) (0, 0);
  do c <- aget (o_c p) 0;
  Ok (c + xn * p0 - p1).

(** The loop common to evaluation, Kristoffel weight and gradient: values of the polynomials
    one after the other.  [f k v s] is what is done with the value [v] of polynomial [k].  p[1]
    is not set, and not used, if there is one polynomial only. *)
Definition poly_loop {S} (t : ptype) (n : nat) (xn : R) (f : nat -> R -> S -> outcome S) (s : S) : outcome S :=
  let p0 := p_const t in
  do s <- f 0%nat p0 s;
  if (1 <? n)%nat then
    let p1 := p_linc t + p_lin t * xn in
    do s <- f 1%nat p1 s;
    do (p0, p1, s) <- for_from 2 (n - 2) (fun iter st =>
      let '(p0, p1, s) := st in
      let pnew := eval_wp t p0 p1 iter xn in
      do s <- f iter pnew s;
      Ok (p1, pnew, s)) (p0, p1, s);
    Ok s
  else Ok s.

(** polynomials.c 2958-3007 orth_poly_expansion_eval *)
Definition ope_eval (p : ope) (x : R) : outcome R :=
  match o_t p with
  | CHEBYSHEV => cheb_eval p x
  | t =>
      do (out, den) <- poly_loop t (o_n p) (map_to (o_map p) x) (fun iter v s =>
        let '(out, den) := s in
        do c <- aget (o_c p) iter;
        Ok (out + v * c, den + v * v)) (0, 0);
      Ok (if o_kr p then out / sqrt (den / INR (o_n p)) else out)
  end.
(** polynomials.c 3018-3056 orth_poly_expansion_get_kristoffel_weight *)
Definition ope_kristoffel_weight (p : ope) (x : R) : outcome R :=
  do den <- poly_loop (o_t p) (o_n p) (map_to (o_map p) x) (fun iter v den => Ok (den + v * v)) 0;
  Ok (sqrt (den / INR (o_n p))).
(** polynomials.c 3072-3078 orth_poly_expansion_evalN *)
Definition ope_evalN (p : ope) (N : nat) (x : list R) (incx : nat) (y : list R) (incy : nat) : outcome (list R) :=
  for_ N (fun ii y => do v <- aget x (ii * incx); do e <- ope_eval p v; aset y (ii * incy) e) y.

(** polynomials.c 2781-2849 orth_poly_expansion_arr_eval.  [maxpoly] is the largest number of
    polynomials; everything is evaluated with the type and the mapping of the first. *)
Definition ope_arr_eval (n : nat) (parr : list ope) (x : R) (out : list R) : outcome (list R) :=
  do q <- aget parr 0;
  let each out := for_ n (fun ii out => do p <- aget parr ii; do e <- ope_eval p x; aset out ii e) out in
  if o_kr q then each out else
  do same <- for_from 1 (n - 1) (fun ii b => do p <- aget parr ii; Ok (b && ptype_eqb (o_t p) (o_t q))%bool) true;
  if (negb same || ptype_eqb (o_t q) CHEBYSHEV)%bool then each out else
  do (maxpoly, out) <- for_ n (fun ii s =>
    let '(mx, out) := s in
    do p <- aget parr ii;
    do out <- aset out ii 0;
    Ok (if (mx <? o_n p)%nat then o_n p else mx, out)) (0%nat, out);
  let xn := map_to (o_map q) x in
  let add iter v out := for_ n (fun ii out =>
    do p <- aget parr ii;
    if (iter <? o_n p)%nat || (iter =? 0)%nat then
      do c <- aget (o_c p) iter; do o <- aget out ii; aset out ii (o + v * c)
    else Ok out) out in
  poly_loop (o_t q) (if (2 <? maxpoly)%nat then maxpoly else 2) xn add out.

(** polynomials.c 3091-3138 orth_poly_expansion_param_grad_eval *)
Definition ope_param_grad_eval (p : ope) (nx : nat) (x : list R) (grad : list R) : outcome (list R) :=
  let np := o_n p in
  for_ nx (fun ii grad =>
    do v <- aget x ii;
    do (grad, den) <- poly_loop (o_t p) (o_n p) (map_to (o_map p) v) (fun iter v s =>
      let '(grad, den) := s in
      do grad <- aset grad (ii * np + iter) v;
      Ok (grad, den + v * v)) (grad, 0);
    if o_kr p then
      for_ np (fun jj grad => do g <- aget grad (ii * np + jj); aset grad (ii * np + jj) (g / sqrt (den / INR np))) grad
    else Ok grad) grad.
(** polynomials.c 3149-3197 orth_poly_expansion_param_grad_eval2 *)
Definition ope_param_grad_eval2 (p : ope) (x : R) (grad : list R) : outcome (R * list R) :=
  do (out, grad, den) <- poly_loop (o_t p) (o_n p) (map_to (o_map p) x) (fun iter v s =>
    let '(out, grad, den) := s in
    do grad <- aset grad iter v;
    do c <- aget (o_c p) iter;
    Ok (out + v * c, grad, den + v * v)) (0, grad, 0);
  do grad <- (if o_kr p then
      for_ (o_n p) (fun jj grad => do g <- aget grad jj; aset grad jj (g / sqrt (den / INR (o_n p)))) grad
    else Ok grad);
  Ok (out, grad).

(** ** Derivatives at a point *)
(** polynomials.c 2166-2217 orth_poly_expansion_deriv_eval; coeff[0] is multiplied by pg[0] = 0 *)
Definition ope_deriv_eval (p : ope) (x : R) : outcome R :=
  do _ <- cassert (negb (o_kr p));
  let t := o_t p in
  let xn := map_to (o_map p) x in
  do c <- aget (o_c p) 0;
  let out := 0 + 0 * c in
  do out <- (if (1 <? o_n p)%nat then
      do c <- aget (o_c p) 1;
      let out := out + p_lin t * c in
      do (_, _, _, _, out) <- for_from 2 (o_n p - 2) (fun iter s =>
        let '(p0, p1, g0, g1, out) := s in
        let pnew := eval_wp t p0 p1 iter xn in
        let gnew := (p_an t iter * xn + p_bn t iter) * g1 + p_an t iter * p1 + p_cn t iter * g0 in
        do c <- aget (o_c p) iter;
        Ok (p1, pnew, g1, gnew, out + c * gnew)) (p_const t, p_linc t + p_lin t * xn, 0, p_lin t, out);
      Ok out
    else Ok out);
  Ok (out * sm_slope (o_map p)).

(** polynomials.c 2233-2274 cheb_expansion_deriv_eval.  The arrays of values and derivatives
    are written in order and read at the two last places, which are kept here. *)
Definition cheb_deriv_eval (p : ope) (x : R) : outcome R :=
  do _ <- cassert (negb (o_kr p));
  let dm := sm_slope (o_map p) in
  let xn := map_to (o_map p) x in
  match o_n p with
  | O => UB
  | 1%nat => Ok 0
  | 2%nat => do c1 <- aget (o_c p) 1; Ok (c1 * dm)
  | 3%nat => do c1 <- aget (o_c p) 1; do c2 <- aget (o_c p) 2; Ok ((c1 + c2 * 4 * xn) * dm)
  | _ =>
      do c1 <- aget (o_c p) 1; do c2 <- aget (o_c p) 2;
      do (_, _, _, _, out) <- for_from 3 (o_n p - 3) (fun ii s =>
        let '(e1, e2, d1, d2, out) := s in
        let e3 := 2 * xn * e2 - e1 in
        let d3 := 2 * e2 + 2 * xn * d2 - d1 in
        do c <- aget (o_c p) ii;
        Ok (e2, e3, d2, d3, out + c * d3)) (xn, 2 * xn * xn - 1, 1, 4 * xn, c1 * 1 + c2 * (4 * xn));
      Ok (out * dm)
  end.
(** polynomials.c 2351-2410 cheb_expansion_dderiv_eval *)
Definition cheb_dderiv_eval (p : ope) (x : R) : outcome R :=
  do _ <- cassert (negb (o_kr p));
  let dm := sm_slope (o_map p) in
  let xn := map_to (o_map p) x in
  match o_n p with
  | O | 1%nat | 2%nat => Ok 0
  | 3%nat => do c2 <- aget (o_c p) 2; Ok (c2 * 4)
  | 4%nat => do c2 <- aget (o_c p) 2; do c3 <- aget (o_c p) 3; Ok ((c2 * 4 + c3 * 24 * xn) * dm * dm)
  | _ =>
      let e2 := 2 * xn * xn - 1 in
      let e3 := 2 * xn * e2 - xn in
      let d3 := 2 * e2 + 2 * xn * (4 * xn) - 1 in
      do c2 <- aget (o_c p) 2; do c3 <- aget (o_c p) 3;
      do (_, _, _, _, _, _, out) <- for_from 4 (o_n p - 4) (fun ii s =>
        let '(e2, e3, d2, d3, s2, s3, out) := s in
        let e4 := 2 * xn * e3 - e2 in
        let d4 := 2 * e3 + 2 * xn * d3 - d2 in
        let s4 := 4 * d3 + 2 * xn * s3 - s2 in
        do c <- aget (o_c p) ii;
        Ok (e3, e4, d3, d4, s3, s4, out + c * s4)) (e2, e3, 4 * xn, d3, 4, 24 * xn, c2 * 4 + c3 * (24 * xn));
      Ok (out * (dm * dm))
  end.

(** ** Rounding and linear operations *)
Section Thresh.
  (** ZEROTHRESH and DBL_EPSILON *)
  Context (zt eps : R).

  (** polynomials.c 3516-3581 orth_poly_expansion_round.  With all coefficients zero the
      division by maxcoeff is 0/0, which compares false. *)
  Definition ope_round (p : ope) : outcome ope :=
    do c0 <- aget (o_c p) 0;
    do mx <- for_from 1 (o_n p - 1) (fun ii mx => do c <- aget (o_c p) ii; Ok (if Rltb mx (Rabs c) then Rabs c else mx)) (Rabs c0);
    let mx := mx * INR (o_n p) in
    do (c, allzero) <- for_ (o_n p) (fun jj s =>
      let '(c, allzero) := s in
      do v <- aget c jj;
      do c <- (if Rltb (Rabs v) zt then aset c jj 0 else Ok c);
      do v <- aget c jj;
      if (if Req_EM_T mx 0 then false else Rltb (Rabs v / mx) zt) then
        do c <- aset c jj 0; Ok (c, allzero)
      else Ok (c, false)) (o_c p, true);
    if allzero then Ok (with_c p 1 c)
    else if (2 <? o_n p)%nat then
      (* while (fabs(coeff[end-1]) < thresh) { end -= 1; if (end == 0) break; } *)
      do e <- (fix trim e := match e with
        | O => Ok O
        | S e' => do v <- aget c e'; if Rltb (Rabs v) zt then trim e' else Ok e
        end) (o_n p);
      Ok (with_c p (if (0 <? e)%nat then e else o_n p) c)
    else Ok (with_c p (o_n p) c).

  (** polynomials.c 3593-3633 orth_poly_expansion_roundt; the sum of squares is commented out *)
  Definition ope_roundt (p : ope) (thresh : R) : outcome ope :=
    let sum := 0 in
    do keep <- (if Rleb sum thresh then Ok 1%nat else
      do (_, keep) <- for_ (o_n p) (fun jj s =>
        let '(run, keep) := s in
        match keep with
        | Some _ => Ok s
        | None => do c <- aget (o_c p) jj; let run := run + c * c in
                  Ok (run, if Rltb (1 - thresh) (run / sum) then Some (jj + 1)%nat else None)
        end) (0, None);
      Ok (match keep with Some k => k | None => o_n p end));
    do c <- for_ keep (fun ii c => do v <- aget (o_c p) ii; aset c ii v) (repeat 0 (keep + opecalloc));
    Ok (with_block p keep (keep + opecalloc) c).

  (** polynomials.c 4661-4675 orth_poly_expansion_flip_sign *)
  Definition ope_flip_sign (p : ope) : outcome ope :=
    do c <- for_ (o_n p) (fun ii c => do v <- aget c ii; aset c ii (v * -1)) (o_c p);
    Ok (with_c p (o_n p) c).
  (** polynomials.c 4682-4697 orth_poly_expansion_scale *)
  Definition ope_scale (a : R) (p : ope) : outcome ope :=
    do c <- for_ (o_n p) (fun ii c => do v <- aget c ii; aset c ii (v * a)) (o_c p);
    ope_round (with_c p (o_n p) c).

  Definition clip (v : R) : R := if Rltb (Rabs v) zt then 0 else v.
  (** polynomials.c 4848-4914 orth_poly_expansion_axpy; [y] is the new value of the second
      argument.  Memory is never exhausted; after realloc the new cells are set to zero.  The
      arguments are two different objects. *)
  Definition ope_axpy (a : R) (x y : ope) : outcome ope :=
    do _ <- cassert (ptype_eqb (o_t x) (o_t y));
    do _ <- cassert (Rltb (Rabs (o_lb x - o_lb y)) eps);
    do _ <- cassert (Rltb (Rabs (o_ub x - o_ub y)) eps);
    let add ii c := do v <- aget c ii; do w <- aget (o_c x) ii; aset c ii (clip (v + a * w)) in
    if (o_n x <? o_n y)%nat then
      do c <- for_ (o_n x) add (o_c y);
      Ok (with_c y (o_n y) c)
    else
      do (al, c) <- (if (o_alloc y <? o_n x)%nat then
          let al := (o_n x + 10)%nat in
          let c := firstn al (o_c y) ++ repeat 0 (al - length (o_c y)) in
          do c <- for_from (o_n y) (al - o_n y) (fun ii c => aset c ii 0) c;
          Ok (al, c)
        else Ok (o_alloc y, o_c y));
      do c <- for_from (o_n y) (o_n x - o_n y) (fun ii c => do w <- aget (o_c x) ii; aset c ii (clip (a * w))) c;
      do c <- for_ (o_n y) add c;
      (* for (ii = 0; ii < num_poly-1; ii++) if (fabs(coeff[num_poly-1-ii]) > ZEROTHRESH) break; else nround--; *)
      if (o_n x =? 0)%nat then UB else
      do e <- (fix trim e := match e with
        | S (S e' as e1) => do v <- aget c e1; if Rltb zt (Rabs v) then Ok e else trim e1
        | _ => Ok e
        end) (o_n x);
      Ok (with_block y e al c).

  (** polynomials.c 4936-4965 orth_poly_expansion_daxpby *)
  Definition ope_daxpby (a : R) (x : option ope) (b : R) (y : option ope) : outcome ope :=
    match x, y with
    | Some x, Some y => do p <- ope_copy y; do p <- ope_scale b p; ope_axpy a x p
    | Some x, None => do p <- ope_copy x; ope_scale a p
    | None, Some y => do p <- ope_copy y; ope_scale b p
    | None, None => Abort
    end.

  (** polynomials.c 4377-4423 orth_poly_expansion_lin_comb; NULL if the types differ *)
  Definition ope_lin_comb (n ldx : nat) (x : list ope) (ldc : nat) (c : list R) : outcome (option ope) :=
    do q <- aget x 0;
    do (same, mx) <- for_ n (fun ii s =>
      let '(same, mx) := s in
      if same : bool then
        do p <- aget x (ii * ldx);
        if ptype_eqb (o_t p) (o_t q) then Ok (true, if (mx <? o_n p)%nat then o_n p else mx) else Ok (false, mx)
      else Ok s) (true, 0%nat);
    if negb same then Ok None else
    let out := with_map (ope_init (o_t q) mx (o_lb q) (o_ub q)) (o_map q) in
    do co <- for_ n (fun kk co =>
      do p <- aget x (kk * ldx);
      do w <- aget c (kk * ldc);
      for_ (o_n p) (fun ii co => do v <- aget co ii; do u <- aget (o_c p) ii; aset co ii (v + w * u)) co) (o_c out);
    do r <- ope_round (with_c out mx co);
    Ok (Some r).

  (** polynomials.c 4710-4830 orth_poly_expansion_sum3_up.  realloc keeps what fits; the field
      nalloc stays as it is.  In the last two cases the block returned by realloc is not
      stored, and the old pointer is used. *)
  Definition resize (n : nat) (c : list R) : list R := firstn n c ++ repeat 0 (n - length c).
  Definition ope_sum3_up (a : R) (x : ope) (b : R) (y : ope) (c : R) (z : ope) : outcome ope :=
    do _ <- cassert (ptype_eqb (o_t x) (o_t y));
    do _ <- cassert (ptype_eqb (o_t y) (o_t z));
    let nx := o_n x in let ny := o_n y in let nz := o_n z in
    let run lo hi (useX useY useZ : bool) blk := for_from lo (hi - lo) (fun ii blk =>
      do zv <- (if useZ then aget blk ii else Ok 0);
      do xv <- (if useX then aget (o_c x) ii else Ok 0);
      do yv <- (if useY then aget (o_c y) ii else Ok 0);
      aset blk ii ((if useZ then c * zv else 0) + (if useX then a * xv else 0) + (if useY then b * yv else 0))) blk in
    if ((nx <=? nz) && (ny <=? nz))%nat then
      do blk <- (if (ny <? nx)%nat then
          do blk <- run 0%nat ny true true true (o_c z);
          do blk <- run ny nx true false true blk;
          run nx nz false false true blk
        else
          do blk <- run 0%nat nx true true true (o_c z);
          do blk <- run nx ny false true true blk;
          run nx nz false false true blk);
      ope_round (with_c z nz blk)
    else if ((nx <=? nz) && (nz <? ny))%nat then
      do blk <- run 0%nat nx true true true (resize ny (o_c z));
      do blk <- run nx nz false true true blk;
      do blk <- run nz ny false true false blk;
      ope_round (with_c z ny blk)
    else if ((nz <? nx) && (ny <=? nz))%nat then
      do blk <- run 0%nat ny true true true (resize nx (o_c z));
      do blk <- run ny nz true false true blk;
      do blk <- run nz nx true false false blk;
      ope_round (with_c z nx blk)
    else UB.

  (** ** Constructors *)
  (** polynomials.c 1849-1876 orth_poly_expansion_zero; get_nparams is start_num *)
  Definition ope_zero (o : opts) (force : bool) : outcome ope :=
    let n := if force then op_start o else 1%nat in
    let p := ope_init_opts o n in
    do c <- for_ n (fun ii c => aset c ii 0) (o_c p);
    Ok (with_c p n c).
  (** polynomials.c 1885-1911 orth_poly_expansion_constant; 1e100 is [big] *)
  Definition ope_constant (big a : R) (o : opts) : outcome ope :=
    do _ <- cassert (Rltb (Rabs a) big);
    if Rltb (Rabs a) zt then ope_zero o false else
    let p := ope_init_opts o 1 in
    do c <- aset (o_c p) 0 (a / p_const (o_t p));
    Ok (with_c p 1 c).
  (** polynomials.c 1956-1977 orth_poly_expansion_linear_update *)
  Definition ope_linear_update (p : ope) (a offset : R) : outcome ope :=
    do c <- aset (o_c p) 1 (a / (p_lin (o_t p) * sm_slope (o_map p)));
    do c1 <- aget c 1;
    do c <- aset c 0 ((offset - p_linc (o_t p) - c1 * p_lin (o_t p) * sm_off (o_map p)) / p_const (o_t p));
    Ok (with_c p (o_n p) c).
  (** polynomials.c 1922-1945 orth_poly_expansion_linear: the same on a new expansion *)
  Definition ope_linear (a offset : R) (o : opts) : outcome ope := ope_linear_update (ope_init_opts o 2) a offset.
  (** polynomials.c 2023-2064 orth_poly_expansion_genorder *)
  Definition ope_genorder (order : nat) (o : opts) : outcome ope :=
    let p := ope_init_opts o (order + 1) in
    let m := sm_islope (o_map p) in
    let v := 1 / sqrt (p_norm (o_t p) order) in
    do c <- aset (o_c p) order (match op_t o with LEGENDRE => v / sqrt 2 / sqrt m | _ => v / sqrt m end);
    Ok (with_c p (order + 1) c).

  (** ** Integrals *)
  (** polynomials.c 4078-4091 cheb_integrate2 *)
  Definition cheb_integrate (p : ope) : outcome R :=
    do out <- for_ ((o_n p + 1) / 2) (fun k out =>
      do c <- aget (o_c p) (2 * k); Ok (out + c * 2 / (1 - INR (2 * k * (2 * k))))) 0;
    Ok (out * sm_islope (o_map p)).
  (** polynomials.c 4100-4109 legendre_integrate; hermite_integrate hpoly.c 116-120;
      orth_poly_expansion_integrate 4437-4449 *)
  Definition ope_integrate (p : ope) : outcome R :=
    match o_t p with
    | LEGENDRE => do c <- aget (o_c p) 0; Ok (c * 2 * sm_islope (o_map p))
    | HERMITE => aget (o_c p) 0
    | CHEBYSHEV => cheb_integrate p
    end.
  (** polynomials.c 4465-4478 orth_poly_expansion_integrate_weighted *)
  Definition ope_integrate_weighted (p : ope) : outcome R := aget (o_c p) 0.
  (** polynomials.c 4494-4509 orth_poly_expansion_inner_w *)
  Definition ope_inner_w (p q : ope) : outcome R :=
    do _ <- cassert (ptype_eqb (o_t p) (o_t q));
    for_ (if (o_n p <? o_n q)%nat then o_n p else o_n q) (fun ii out =>
      do a <- aget (o_c p) ii; do b <- aget (o_c q) ii; Ok (out + a * b * p_norm (o_t p) ii)) 0.
  (** polynomials.c 4630-4634 orth_poly_expansion_norm_w *)
  Definition ope_norm_w (p : ope) : outcome R := do v <- ope_inner_w p p; Ok (sqrt (sqrt v)).

  (** polynomials.c 3211-3233 orth_poly_expansion_param_grad_inner *)
  Definition ope_param_grad_inner (p q : ope) (vals : list R) : outcome (nat * list R) :=
    do _ <- cassert (ptype_eqb (o_t p) (o_t q));
    let n := if (o_n q <? o_n p)%nat then o_n q else o_n p in
    do vals <- for_ n (fun ii v => do c <- aget (o_c q) ii; aset v ii c) vals;
    do vals <- for_from n (o_n p - n) (fun ii v => aset v ii 0) vals;
    Ok (o_n p, vals).
  (** polynomials.c 3246-3307 orth_poly_expansion_squared_norm_param_grad *)
  Definition ope_sqnorm_param_grad (p : ope) (scale : R) (grad : list R) : outcome (list R) :=
    do _ <- cassert (negb (o_kr p));
    let dt := sm_slope (o_map p) in
    match o_t p with
    | LEGENDRE => for_ (o_n p) (fun ii g => do c <- aget (o_c p) ii; do v <- aget g ii;
        aset g ii (v + 2 * scale * c * p_norm LEGENDRE ii * (o_ub p - o_lb p))) grad
    | HERMITE => for_ (o_n p) (fun ii g => do c <- aget (o_c p) ii; do v <- aget g ii;
        aset g ii (v + 2 * scale * c * p_norm HERMITE ii * dt)) grad
    | CHEBYSHEV =>
        let temp := tab (o_n p) (fun ii => 2 / (1 - INR (2 * ii * 2 * ii))) in
        for_ (o_n p) (fun ii g => for_ (o_n p) (fun jj g =>
          let n1 := (ii + jj)%nat in
          let n2 := if (jj <? ii)%nat then (ii - jj)%nat else (jj - ii)%nat in
          do g <- (if (n1 mod 2 =? 0)%nat then do t <- aget temp (n1 / 2); do v <- aget g ii; aset g ii (v + 2 * scale * t * dt) else Ok g);
          if (n2 mod 2 =? 0)%nat then do t <- aget temp (n2 / 2); do v <- aget g ii; aset g ii (v + 2 * scale * t * dt) else Ok g) g) grad
    end.

  (** ** Projection and products *)
  (** the quadrature rules: cheb_gauss(num_poly), gauss_legendre(num_poly+1) and
      gauss_hermite(num_poly+1) write nodes and weights to arrays of num_poly+1 zeros *)
  Context (quad : ptype -> nat -> outcome (list R * list R)).

  (** polynomials.c 3647-3750 orth_poly_expansion_approx; [A] is the function.  The case of one
      polynomial does the same as the other without the parts that concern more. *)
  Definition ope_approx (A : R -> outcome R) (p : ope) : outcome ope :=
    let t := o_t p in
    let nquad := (o_n p + 1)%nat in
    do (pt, wt) <- quad t (o_n p);
    do fvals <- for_ nquad (fun ii fv =>
      do q <- aget pt ii; do v <- A (map_from (o_map p) q); do w <- aget wt ii; aset fv ii (v * w)) (repeat 0 nquad);
    do c <- for_ nquad (fun ii c =>
      do q <- aget pt ii; do fv <- aget fvals ii;
      poly_loop t (o_n p) q (fun jj v c => do u <- aget c jj; aset c jj (u + fv * v)) c) (o_c p);
    do c <- (if (1 <? o_n p)%nat then for_ (o_n p) (fun ii c => do u <- aget c ii; aset c ii (u / p_norm t ii)) c
             else do u <- aget c 0; aset c 0 (u / p_norm t 0));
    Ok (with_c p (o_n p) c).

  (** the tables lpolycoeffs and hermpolycoeffs (generated headers that are not in the
      repository, 50 x 50 x 100) *)
  Context (ltab htab : nat -> R).

  (** polynomials.c 4134-4174 and 4175-4213: the product by a table *)
  Definition prod_tab (tb : nat -> R) (x y : ope) : outcome ope :=
    let r := ope_init (o_t x) (o_n x + o_n y + 1) (o_lb x) (o_ub x) in
    do all <- for_ (o_n x) (fun ii all => for_ (o_n y) (fun jj all =>
      do a <- aget (o_c x) ii; do b <- aget (o_c y) jj; aset all (jj + ii * o_n y) (a * b)) all) (repeat 0 (o_n x * o_n y));
    do c <- for_ (o_n r) (fun kk c => for_ (o_n x) (fun ii c => for_ (o_n y) (fun jj c =>
      let k := (ii + (jj + kk * 50) * 50)%nat in
      if (k <? 100 * 50 * 50)%nat then
        do u <- aget c kk; do v <- aget all (jj + ii * o_n y); aset c kk (u + tb k * v)
      else UB) c) c) (o_c r);
    ope_round (with_c r (o_n r) c).
  Definition sumsq (x : ope) : outcome R := for_ (o_n x) (fun ii s => do c <- aget (o_c x) ii; Ok (s + c * c)) 0.
  (** polynomials.c 4122-4263 orth_poly_expansion_prod *)
  Definition ope_prod (x y : ope) : outcome ope :=
    do _ <- cassert (Rltb (Rabs (o_lb x - o_lb y)) eps);
    do _ <- cassert (Rltb (Rabs (o_ub x - o_ub y)) eps);
    let small := ((o_n x <? 50) && (o_n y <? 50))%nat in
    if (ptype_eqb (o_t x) LEGENDRE && small)%bool then prod_tab ltab x y
    else if (ptype_eqb (o_t x) HERMITE && small)%bool then prod_tab htab x y
    else
      do na <- sumsq x;
      do nb <- sumsq y;
      if (Rltb na zt || Rltb nb zt)%bool then
        let r := with_map (ope_init (o_t x) 1 (o_lb x) (o_ub x)) (o_map x) in
        do c <- aset (o_c r) 0 0; Ok (with_c r 1 c)
      else
        let r := with_map (ope_init (o_t x) (o_n x + o_n y + 5) (o_lb x) (o_ub x)) (o_map x) in
        do r <- ope_approx (fun v => do a <- ope_eval x v; do b <- ope_eval y v; Ok (a * b)) r;
        ope_round r.

  (** polynomials.c 4524-4617 orth_poly_expansion_inner; a CHEBYSHEV argument beside a LEGENDRE
      one is first projected, other mixtures stop the program *)
  Definition to_legendre (p : ope) : outcome ope :=
    do t <- ope_approx (ope_eval p) (ope_init LEGENDRE (o_n p) (o_lb p) (o_ub p));
    ope_round t.
  Definition ope_inner (p q : ope) : outcome R :=
    match o_t p, o_t q with
    | HERMITE, HERMITE => ope_inner_w p q
    | CHEBYSHEV, CHEBYSHEV => do r <- ope_prod p q; ope_integrate r
    | LEGENDRE, LEGENDRE => do v <- ope_inner_w p q; Ok (v * (o_ub p - o_lb p))
    | LEGENDRE, CHEBYSHEV => do t <- to_legendre q; do v <- ope_inner_w p t; Ok (v * (o_ub p - o_lb p))
    | CHEBYSHEV, LEGENDRE => do t <- to_legendre p; do v <- ope_inner_w t q; Ok (v * (o_ub q - o_lb q))
    | _, _ => Abort
    end.
  (** polynomials.c 4648-4653 orth_poly_expansion_norm *)
  Definition ope_norm (p : ope) : outcome R := do v <- ope_inner p p; Ok (sqrt v).

  (** polynomials.c 2291-2338 orth_poly_expansion_deriv *)
  Definition ope_deriv (pin : ope) : outcome ope :=
    do _ <- cassert (negb (o_kr pin));
    do p <- ope_copy pin;
    do p <- ope_round p;
    do out <- ope_copy p;
    do c <- for_ (o_alloc out) (fun ii c => aset c ii 0) (o_c out);
    let out := with_c out (o_n out) c in
    if (o_n p =? 1)%nat then ope_round out else
    let out := with_c out (o_n out - 1) c in
    do out <- (match o_t p with
      | LEGENDRE =>
          do c <- for_ (o_n p - 1) (fun ii c =>
            do c <- for_ ((o_n p - ii) / 2) (fun k c =>
              let jj := (ii + 1 + 2 * k)%nat in
              do u <- aget c ii; do v <- aget (o_c p) jj; aset c ii (u + v * sqrt (INR (2 * jj + 1)))) c;
            do u <- aget c ii; aset c ii (u * (sqrt (INR (2 * ii + 1)) * sm_slope (o_map p)))) c;
          Ok (with_c out (o_n out) c)
      | CHEBYSHEV => ope_approx (cheb_deriv_eval p) out
      | HERMITE => ope_approx (ope_deriv_eval p) out
      end);
    ope_round out.
  (** polynomials.c 2426-2468 orth_poly_expansion_dderiv; num_poly - 2 wraps around for one
      polynomial, which the test excludes *)
  Definition ope_dderiv (pin : ope) : outcome ope :=
    do _ <- cassert (negb (o_kr pin));
    do p <- ope_copy pin;
    do p <- ope_round p;
    do out <- ope_copy p;
    do c <- for_ (o_alloc out) (fun ii c => aset c ii 0) (o_c out);
    if (o_n p <? 2)%nat then Ok (with_c out (o_n out) c) else
    do out <- (match o_t p with
      | CHEBYSHEV => ope_approx (cheb_dderiv_eval p) (with_c out (o_n out - 2) c)
      | _ => do t <- ope_deriv p; ope_deriv t
      end);
    ope_round out.
  (** polynomials.c 1988-2011 orth_poly_expansion_quadratic *)
  Definition ope_quadratic (a offset : R) (o : opts) : outcome ope :=
    ope_approx (fun x => Ok (a * (x - offset) * (x - offset))) (ope_init_opts o 3).
End Thresh.
