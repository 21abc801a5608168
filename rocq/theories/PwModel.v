(** Model of piecewise polynomials: c3/lib_funcs/piecewisepoly.c.  Real arithmetic.  A
    function is a tree whose leaves are polynomial expansions on an interval; the expansions
    are abstract here, with the operations of polynomials.c that the code calls.  Copies
    are the identity (no sharing), freeing is not modelled. *)
From Coq Require Import Reals.
From Verif Require Import Base FOps.
Open Scope R_scope.

(** piecewisepoly.h 50-62 struct PiecewisePoly: leaf = 1 with ope, or leaf = 0 with branches *)
Inductive pw (L : Type) := Leaf (l : L) | Node (bs : list (pw L)).
Arguments Leaf {L}. Arguments Node {L}.

(** what the code calls on expansions *)
Record leafops (L : Type) := mkleafops {
  l_lb : L -> R;                              (* ope->lower_bound *)
  l_ub : L -> R;                              (* ope->upper_bound *)
  l_eval : L -> R -> outcome R;               (* orth_poly_expansion_eval *)
  l_deriv_eval : L -> R -> outcome R;         (* orth_poly_expansion_deriv_eval *)
  l_scale : R -> L -> outcome L;              (* orth_poly_expansion_scale *)
  l_flip : L -> outcome L;                    (* orth_poly_expansion_flip_sign *)
  l_deriv : L -> outcome L;                   (* orth_poly_expansion_deriv *)
  l_dderiv : L -> outcome L;                  (* orth_poly_expansion_dderiv *)
  l_integrate : L -> outcome R;               (* orth_poly_expansion_integrate *)
  l_inner : L -> L -> outcome R;              (* orth_poly_expansion_inner *)
  l_axpy : R -> L -> L -> outcome L;          (* orth_poly_expansion_axpy: new second argument *)
  l_daxpby : R -> L -> R -> L -> outcome L;   (* orth_poly_expansion_daxpby *)
  l_prod : L -> L -> outcome L;               (* orth_poly_expansion_prod *)
  l_adapt : (R -> outcome R) -> R -> R -> outcome L; (* orth_poly_expansion_approx_adapt with the options of finer_grid *)
  l_fit : nat -> R -> R -> (R -> outcome R) -> outcome L; (* orth_poly_expansion_init, approx_vec and round *)
  l_splitfit : L -> R -> R -> outcome L;      (* init with the number of polynomials of the leaf, approx of the leaf, round *)
  l_coeff : L -> nat -> outcome R             (* ope->coeff[k] *)
}.
Arguments l_lb {L}. Arguments l_ub {L}. Arguments l_eval {L}. Arguments l_deriv_eval {L}. Arguments l_scale {L}.
Arguments l_flip {L}. Arguments l_deriv {L}. Arguments l_dderiv {L}. Arguments l_integrate {L}. Arguments l_inner {L}.
Arguments l_axpy {L}. Arguments l_daxpby {L}. Arguments l_prod {L}. Arguments l_adapt {L}. Arguments l_fit {L}.
Arguments l_splitfit {L}. Arguments l_coeff {L}.

Section Pw.
  Context {L : Type} (K : leafops L).
  (** the literals 1e-14, 1e-15, DBL_EPSILON and 0.1234567890 *)
  Context (tm ts eps junk : R).

  (** piecewisepoly.c 772-780 piecewise_poly_get_lb *)
  Fixpoint pw_lb (t : pw L) : outcome R :=
    match t with
    | Leaf l => Ok (l_lb K l)
    | Node bs => match bs with nil => UB | b :: _ => pw_lb b end
    end.
  (** piecewisepoly.c 790-800 piecewise_poly_get_ub *)
  Fixpoint pw_ub (t : pw L) : outcome R :=
    match t with
    | Leaf l => Ok (l_ub K l)
    | Node bs => (fix last bs := match bs with nil => UB | b :: nil => pw_ub b | _ :: r => last r end) bs
    end.

  (** piecewisepoly.c 808-831 piecewise_poly_nregions_base and piecewise_poly_nregions *)
  Fixpoint pw_nregions (t : pw L) : nat :=
    match t with
    | Leaf _ => 1%nat
    | Node bs => (fix go bs := match bs with nil => 0%nat | b :: r => (pw_nregions b + go r)%nat end) bs
    end.

  (** piecewisepoly.c 851-888 piecewise_poly_boundaries: the recursion, and the call with
      nodes NULL.  [on] is not zero. *)
  Fixpoint pw_bfill (t : pw L) (s : list R * nat) : outcome (list R * nat) :=
    match t with
    | Leaf l => let '(nodes, on) := s in do nodes <- aset nodes on (l_ub K l); Ok (nodes, (on + 1)%nat)
    | Node bs => (fix go bs s := match bs with nil => Ok s | b :: r => do s <- pw_bfill b s; go r s end) bs s
    end.
  Definition pw_boundaries (t : pw L) : outcome (list R) :=
    let n := (pw_nregions t + 1)%nat in
    let nodes := repeat 0 n in
    if (n =? 2)%nat then
      match t with
      | Leaf l => do nodes <- aset nodes 0 (l_lb K l); aset nodes 1 (l_ub K l)
      | Node _ => UB (* a->ope is NULL *)
      end
    else
      do lb <- pw_lb t;
      do nodes <- aset nodes 0 lb;
      do (nodes, _) <- pw_bfill t (nodes, 1%nat);
      Ok nodes.

  (** piecewisepoly.c 899-915 piecewise_poly_eval and 925-941 piecewise_poly_deriv_eval *)
  Fixpoint pw_at (ev : L -> R -> outcome R) (t : pw L) (x : R) : outcome R :=
    match t with
    | Leaf l => ev l x
    | Node bs => (fix go bs := match bs with
        | nil => Ok junk
        | b :: r => do u <- pw_ub b; if Rltb x (u + tm) then pw_at ev b x else go r
        end) bs
    end.
  Definition pw_eval : pw L -> R -> outcome R := pw_at (l_eval K).
  Definition pw_deriv_eval : pw L -> R -> outcome R := pw_at (l_deriv_eval K).
  (** piecewisepoly.c 956-962 piecewise_poly_evalN *)
  Definition pw_evalN (t : pw L) (N : nat) (x : list R) (incx : nat) (y : list R) (incy : nat) : outcome (list R) :=
    for_ N (fun ii y => do v <- aget x (ii * incx); do w <- pw_eval t v; aset y (ii * incy) w) y.

  (** the recursion of piecewise_poly_scale 971-982, piecewise_poly_deriv 991-1020,
      piecewise_poly_dderiv 1028-1056 and piecewise_poly_flip_sign 1312-1324 *)
  Fixpoint pw_map (f : L -> outcome L) (t : pw L) : outcome (pw L) :=
    match t with
    | Leaf l => do m <- f l; Ok (Leaf m)
    | Node bs => do cs <- (fix go bs := match bs with nil => Ok nil | b :: r => do c <- pw_map f b; do cs <- go r; Ok (c :: cs) end) bs;
                 Ok (Node cs)
    end.
  Definition pw_scale (a : R) : pw L -> outcome (pw L) := pw_map (l_scale K a).
  Definition pw_deriv : pw L -> outcome (pw L) := pw_map (l_deriv K).
  Definition pw_dderiv : pw L -> outcome (pw L) := pw_map (l_dderiv K).
  Definition pw_flip_sign : pw L -> outcome (pw L) := pw_map (l_flip K).

  (** piecewisepoly.c 1078-1093 piecewise_poly_integrate *)
  Fixpoint pw_integrate (t : pw L) : outcome R :=
    match t with
    | Leaf l => l_integrate K l
    | Node bs => (fix go bs out := match bs with nil => Ok out | b :: r => do v <- pw_integrate b; go r (out + v) end) bs 0
    end.

  (** piecewisepoly.c 747-762 piecewise_poly_isflat *)
  Definition is_leaf (t : pw L) : bool := match t with Leaf _ => true | Node _ => false end.
  Definition pw_isflat (t : pw L) : bool :=
    match t with Leaf _ => true | Node bs => forallb is_leaf bs end.
  (** piecewisepoly.c 1336-1351 piecewise_poly_copy_leaves: fills an array of nregions
      pointers; here the list of what is stored *)
  Fixpoint pw_leaves (t : pw L) : list L :=
    match t with
    | Leaf l => l :: nil
    | Node bs => (fix go bs := match bs with nil => nil | b :: r => pw_leaves b ++ go r end) bs
    end.
  (** piecewisepoly.c 1389-1414 piecewise_poly_flatten *)
  Definition pw_flatten (t : pw L) : pw L :=
    if pw_isflat t then t else Node (map Leaf (pw_leaves t)).

  (** piecewisepoly.c 666-698 orth_poly_expansion_split *)
  Definition pw_split (t : pw L) (loc : R) : outcome (pw L) :=
    match t with
    | Node _ => Abort
    | Leaf l =>
        do _ <- cassert (Rltb (l_lb K l) loc);
        do _ <- cassert (Rltb loc (l_ub K l));
        do a <- l_splitfit K l (l_lb K l) loc;
        do b <- l_splitfit K l loc (l_ub K l);
        Ok (Node (Leaf a :: Leaf b :: nil))
    end.
  (** piecewisepoly.c 709-736 piecewise_poly_splitn; N-1 is size_t *)
  Definition pw_splitn (t : pw L) (N : nat) (bounds : list R) : outcome (pw L) :=
    match t with
    | Node _ => Abort
    | Leaf l =>
        if (N =? 0)%nat then UB else
        do b0 <- aget bounds 0;
        do _ <- cassert (if Req_EM_T b0 (l_lb K l) then true else false);
        do bn <- aget bounds (N - 1);
        do _ <- cassert (if Req_EM_T bn (l_ub K l) then true else false);
        do bs <- for_ (N - 1) (fun ii bs =>
          do u <- aget bounds ii; do v <- aget bounds (ii + 1);
          do m <- l_splitfit K l u v; Ok (bs ++ Leaf m :: nil)) nil;
        Ok (Node bs)
    end.

  (** piecewisepoly.c 1426-1466 piecewise_poly_finer_grid; N-1 is size_t *)
  Definition pw_finer_grid (t : pw L) (N : nat) (nodes : list R) : outcome (pw L) :=
    if (N =? 0)%nat then UB else
    if (N =? 2)%nat then match t with Leaf _ => Ok t | Node _ => Abort end
    else
      do bs <- for_ (N - 1) (fun ii bs =>
        do u <- aget nodes ii; do v <- aget nodes (ii + 1);
        do m <- l_adapt K (pw_eval t) u v; Ok (bs ++ Leaf m :: nil)) nil;
      Ok (Node bs).

  (** piecewisepoly.c 1797-1879 piecewise_poly_match.  The loops run at most as often as
      there are nodes: then the index is outside of the array. *)
  Definition nodes_same (na nb : list R) : outcome bool :=
    for_ (length na) (fun ii (same : bool) =>
      if same then do u <- aget na ii; do v <- aget nb ii; Ok (negb (Rltb ts (Rabs (u - v)))) else Ok false) true.
  Fixpoint skip_below (fuel : nat) (ns : list R) (lb : R) (i : nat) : outcome nat :=
    match fuel with
    | O => OutOfFuel
    | S fuel => do v <- aget ns i; if Rltb v lb then skip_below fuel ns lb (i + 1) else Ok i
    end.
  Fixpoint merge_nodes (fuel : nat) (na nb : list R) (ub : R) (nodes : list R) (inda indb cind : nat) : outcome (list R * nat) :=
    match fuel with
    | O => OutOfFuel
    | S fuel =>
        do p <- aget nodes (cind - 1);
        if Rltb p ub then
          do u <- aget na inda;
          do v <- aget nb indb;
          do nodes <- (if Rleb u v then aset nodes cind u
                       else if Rltb v u then aset nodes cind v else Ok nodes);
          let '(inda, indb) :=
            if Rltb (Rabs (v - u)) eps then (inda + 1, indb + 1)%nat
            else if Rltb v u then (inda, indb + 1)%nat
            else if Rltb u v then (inda + 1, indb)%nat else (inda, indb) in
          merge_nodes fuel na nb ub nodes inda indb (cind + 1)
        else Ok (nodes, cind)
    end.
  Definition pw_match (a b : pw L) : outcome (pw L * pw L) :=
    do na <- pw_boundaries a;
    do nb <- pw_boundaries b;
    do same <- (if (length na =? length nb)%nat then nodes_same na nb else Ok false);
    if same : bool then Ok (pw_flatten a, pw_flatten b)
    else
      do a0 <- aget na 0; do b0 <- aget nb 0;
      do a1 <- aget na (length na - 1); do b1 <- aget nb (length nb - 1);
      let lb := if Rltb a0 b0 then a0 else b0 in
      let ub := if Rltb b1 a1 then a1 else b1 in
      do nodes <- aset (repeat 0 (length na + length nb)) 0 lb;
      do inda <- skip_below (length na + 1) na lb 1;
      do indb <- skip_below (length nb + 1) nb lb 1;
      do (nodes, cind) <- merge_nodes (length na + length nb + 1) na nb ub nodes inda indb 1;
      do aa <- pw_finer_grid a cind (firstn cind nodes);
      do bb <- pw_finer_grid b cind (firstn cind nodes);
      Ok (aa, bb).

  (** piecewisepoly.c 1481-1507 piecewise_poly_inner *)
  Definition leaf_of (t : pw L) : outcome L := match t with Leaf l => Ok l | Node _ => UB end.
  Definition branches (t : pw L) : list (pw L) := match t with Leaf _ => nil | Node bs => bs end.
  Definition pw_inner (a b : pw L) : outcome R :=
    match a, b with
    | Leaf l, Leaf m => l_inner K l m
    | _, _ =>
        do (aa, bb) <- pw_match a b;
        let aa := pw_flatten aa in
        let bb := pw_flatten bb in
        for_ (length (branches aa)) (fun ii out =>
          do x <- aget (branches aa) ii; do x <- leaf_of x;
          do y <- aget (branches bb) ii; do y <- leaf_of y;
          do v <- l_inner K x y; Ok (out + v)) 0
    end.

  (** piecewisepoly.c 1509-1520 piecewise_poly_matched_axpy: the new y.  A leaf where
      branches are expected dereferences NULL. *)
  Fixpoint pw_matched_axpy (a : R) (x y : pw L) : outcome (pw L) :=
    match x, y with
    | Leaf l, Leaf m => do m <- l_axpy K a l m; Ok (Leaf m)
    | Node xs, Node ys =>
        do zs <- (fix go xs ys := match xs, ys with
          | nil, _ => Ok ys
          | x :: xs, y :: ys => do z <- pw_matched_axpy a x y; do zs <- go xs ys; Ok (z :: zs)
          | _ :: _, nil => UB
          end) xs ys;
        Ok (Node zs)
    | Leaf _, Node _ => Abort (* assert (y != NULL) of orth_poly_expansion_axpy *)
    | Node nil, Leaf _ => Ok y
    | Node _, Leaf _ => UB
    end.
  (** piecewisepoly.c 1531-1554 piecewise_poly_axpy: the new y *)
  Definition pw_axpy (a : R) (x y : pw L) : outcome (pw L) :=
    match x, y with
    | Leaf l, Leaf m => do m <- l_axpy K a l m; Ok (Leaf m)
    | _, _ => do (aa, bb) <- pw_match x y; pw_matched_axpy a aa bb
    end.

  (** piecewisepoly.c 1612-1677 piecewise_poly_matched_daxpby and 1691-1717
      piecewise_poly_matched_prod for two functions: the same recursion *)
  Fixpoint pw_zip (f : L -> L -> outcome L) (x y : pw L) : outcome (pw L) :=
    match x, y with
    | Leaf l, Leaf m => do m <- f l m; Ok (Leaf m)
    | Leaf _, Node _ => Abort
    | Node xs, Leaf _ => match xs with nil => Ok (Node nil) | _ => Abort end (* nbranches of y is 0 *)
    | Node xs, Node ys =>
        do _ <- cassert (length xs =? length ys)%nat;
        do zs <- (fix go xs ys := match xs, ys with
          | nil, _ => Ok nil
          | x :: xs, y :: ys => do z <- pw_zip f x y; do zs <- go xs ys; Ok (z :: zs)
          | _ :: _, nil => UB
          end) xs ys;
        Ok (Node zs)
    end.
  (** piecewisepoly.c 1569-1597 piecewise_poly_daxpby; NULL for two NULL *)
  Definition pw_daxpby (a : R) (x : option (pw L)) (b : R) (y : option (pw L)) : outcome (option (pw L)) :=
    match x, y with
    | None, None => Ok None
    | None, Some y => do p <- pw_scale b y; Ok (Some p)
    | Some x, None => do p <- pw_scale a x; Ok (Some p)
    | Some x, Some y =>
        do (xx, yy) <- pw_match x y;
        do c <- pw_zip (fun l m => l_daxpby K a l b m) xx yy; Ok (Some c)
    end.
  (** piecewisepoly.c 1727-1741 piecewise_poly_prod *)
  Definition pw_prod (a b : pw L) : outcome (pw L) :=
    do (aa, bb) <- pw_match a b; pw_zip (l_prod K) aa bb.

  (** ** Approximation *)
  (** piecewisepoly.c 166-185 struct PwPolyOpts (opeopts is NULL: nothing sets it) *)
  Record pwopts := mkpwopts { q_lb : R; q_ub : R; q_maxorder : nat; q_minsize : R; q_check : nat; q_eps : R; q_nregions : nat; q_pts : option (list R) }.
  Definition q_bounds (o : pwopts) (lb ub : R) : pwopts :=
    mkpwopts lb ub (q_maxorder o) (q_minsize o) (q_check o) (q_eps o) (q_nregions o) (q_pts o).
  (** array.c 271-281 linspace *)
  Definition rlinspace (mn mx : R) (N : nat) : outcome (list R) :=
    if (N =? 0)%nat then UB
    else
      let dx := (mx - mn) / INR (N - 1) in
      do arrp <- for_ (N - 1) (fun ii a => aset a ii (INR ii * dx + mn)) (repeat 0 N);
      aset arrp (N - 1) mx.
  (** piecewisepoly.c 2370-2444 piecewise_poly_approx1; npts is the length of the list, and
      npts-1 is size_t *)
  Definition pw_approx1 (o : pwopts) (f : R -> outcome R) : outcome (pw L) :=
    let N := (q_maxorder o + 1)%nat in
    if (q_nregions o =? 1)%nat then do l <- l_fit K N (q_lb o) (q_ub o) f; Ok (Leaf l)
    else
      do pts <- (match q_pts o with
                 | None => rlinspace (q_lb o) (q_ub o) (q_nregions o + 1)
                 | Some pts => if (length pts =? 0)%nat then Abort else Ok pts
                 end);
      do bs <- for_ (length pts - 1) (fun ii bs =>
        do u <- aget pts ii; do v <- aget pts (ii + 1);
        do l <- l_fit K N u v f; Ok (bs ++ Leaf l :: nil)) nil;
      Ok (Node bs).
  (** the loop over the last coefficients in piecewisepoly.c 2480-2489 and 2551-2558 *)
  Definition tail_big (l : L) (N ncheck : nat) (bound : R) : outcome bool :=
    for_ ncheck (fun jj (refine : bool) =>
      if refine then Ok true else do c <- l_coeff K l (N - 1 - jj); Ok (Rltb bound (c * c))) false.
  Definition ncheck (o : pwopts) (N : nat) : nat := if (q_check o <? N)%nat then q_check o else N.
  (** piecewisepoly.c 2447-2513 adapt_help; the options are passed on because the code changes
      their bounds *)
  Fixpoint adapt_help (fuel : nat) (t : pw L) (o : pwopts) (f : R -> outcome R) : outcome (pw L * pwopts) :=
    match fuel with
    | O => OutOfFuel
    | S fuel =>
        let N := (q_maxorder o + 1)%nat in
        do lb0 <- pw_lb t;
        do ub0 <- pw_ub t;
        do _ <- cassert (negb (is_leaf t));
        do (bs, o, once) <- for_ (length (branches t)) (fun ii s =>
          let '(bs, o, once) := s in
          do b <- aget (branches t) ii;
          do _ <- cassert (is_leaf b);
          do lb <- pw_lb b;
          do ub <- pw_ub b;
          do refine <- (if (Rltb (ub - lb) (q_minsize o) || (q_nregions o =? 1)%nat)%bool then Ok false
                        else do l <- leaf_of b; tail_big l N (ncheck o N) (q_eps o * 1));
          if refine : bool then
            do c <- pw_approx1 (q_bounds o lb ub) f;
            Ok (bs ++ c :: nil, q_bounds o lb0 ub0, true)
          else Ok (bs ++ b :: nil, o, once)) (nil, o, false);
        let t := pw_flatten (Node bs) in
        if once : bool then adapt_help fuel t o f else Ok (t, o)
    end.
  (** piecewisepoly.c 2522-2578 piecewise_poly_approx1_adapt; also the options afterwards *)
  Definition pw_approx1_adapt (fuel : nat) (o : pwopts) (f : R -> outcome R) : outcome (pw L * pwopts) :=
    do _ <- cassert (match q_pts o with None => true | Some _ => false end);
    let N := (q_maxorder o + 1)%nat in
    do l <- l_fit K N (q_lb o) (q_ub o) f;
    do refine <- (if (Rltb (q_ub o - q_lb o) (q_minsize o) || (q_nregions o =? 1)%nat)%bool then Ok false
                  else
                    do norm <- for_ N (fun ii s => do c <- l_coeff K l ii; Ok (s + c * c)) 0;
                    tail_big l N (ncheck o N) (q_eps o * norm));
    if refine : bool then do t <- pw_approx1 o f; adapt_help fuel t o f
    else Ok (Leaf l, o).
End Pw.
