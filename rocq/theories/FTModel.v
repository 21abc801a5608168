(** Model of the algebraic part of the function-train code:
    c3/lib_clinalg/qmarray.c, c3/lib_clinalg/ft.c and the parts of
    c3/lib_funcs/functions.c and c3/lib_funcs/funcs_mixed.c they call.
    Scalars are the elements of a commutative ring [R] (the C code uses
    [double]; rounding is not modelled). *)
From Verif Require Export Blas.

(** Operations on univariate functions that the function-train code calls
    through [struct GenericFunction].  They are parameters of the model; the
    laws used by a theorem are explicit hypotheses of the theorem. *)
Record uops (R : CRing) := mkuops {
  ufun :> Type;
  (** functions.c:1376 generic_function_1d_eval *)
  uev : ufun -> R -> R;
  (** [f->fc == POLYNOMIAL] *)
  uispoly : ufun -> bool;
  (** generic_function_integrate *)
  uint : ufun -> R;
  (** funcs_mixed.c:61 generic_function_inner *)
  uinner : ufun -> ufun -> R;
  (** funcs_mixed.c:199 generic_function_prod *)
  uprod : ufun -> ufun -> ufun;
  (** funcs_mixed.c:258 generic_function_daxpby(a,x,b,y), [x] not NULL,
      [y] possibly NULL *)
  uaxpby : R -> ufun -> R -> option ufun -> ufun;
  (** polynomials.c orth_poly_expansion_lin_comb *)
  ulcpoly : list (R * ufun) -> ufun;
  (** polynomials.c orth_poly_expansion_sum_prod *)
  usppoly : list (ufun * ufun) -> ufun;
  (** functions.c:784 generic_function_deriv *)
  uderiv : ufun -> ufun
}.
Arguments ufun {R} u.
Arguments uev {R u}.
Arguments uispoly {R u}.
Arguments uint {R u}.
Arguments uinner {R u}.
Arguments uprod {R u}.
Arguments uaxpby {R u}.
Arguments ulcpoly {R u}.
Arguments usppoly {R u}.
Arguments uderiv {R u}.

(** c3/lib_clinalg/qmarray.h struct Qmarray: [funcs] is stored column by
    column.  A Qmarray with a NULL entry is not representable: constructors
    below fill an array of optional slots and [freeze] it, which is UB if a
    slot is still NULL (every later use would dereference it). *)
Record qma (U : Type) := mkq { nr : nat; nc : nat; fs : list U }.
Arguments mkq {U}.
Arguments nr {U}.
Arguments nc {U}.
Arguments fs {U}.

(** c3/lib_clinalg/ft.h struct FunctionTrain without the cached work space,
    which is modelled by [wspace] below. *)
Record ftrain (U : Type) := mkft { ft_dim : nat; ft_ranks : list nat; ft_cores : list (qma U) }.
Arguments mkft {U}.
Arguments ft_dim {U}.
Arguments ft_ranks {U}.
Arguments ft_cores {U}.

Section FTModel.
  Context {R : CRing} {U : uops R}.
  Open Scope cr_scope.

  (** * functions.c *)

  (** functions.c:1533-1541, the scan at the start of
      generic_function_1darray_eval2: [parr] is a stack array of 1000 pointers
      and is written while scanning. *)
  Fixpoint eval2_scan (n ii : nat) (f : list U) : outcome bool :=
    match n with
    | O => Ok true
    | S n' =>
        do g <- aget f ii;
        if uispoly g
        then if ii <? 1000 then eval2_scan n' (S ii) f else UB
        else Ok false
    end.

  (** In the branches for "all polynomials" the code casts every function to a
      polynomial: undefined for anything else. *)
  Definition as_poly (g : U) : outcome U := if uispoly g then Ok g else UB.

  (** functions.c:1528-1557 generic_function_1darray_eval2.  When all
      functions are polynomials the C code calls
      orth_poly_expansion_arr_eval, a vectorised evaluation with the same
      contract as the loop; the model uses the loop in both cases. *)
  Definition eval2 (n : nat) (f : list U) (x : R) (out : list R) : outcome (list R) :=
    do allpoly <- eval2_scan n 0 f;
    if allpoly : bool
    then for_ n (fun ii out => do g <- aget f ii; do g <- as_poly g; aset out ii (uev g x)) out
    else for_ n (fun ii out => do g <- aget f ii; aset out ii (uev g x)) out.

  (** Scan for "all polynomials" with a stride (functions.c:729-735). *)
  Fixpoint scan_poly (n ii : nat) (f : list U) (off ld : nat) : outcome bool :=
    match n with
    | O => Ok true
    | S n' =>
        do g <- aget f (off + ii * ld);
        if uispoly g then scan_poly n' (S ii) f off ld else Ok false
    end.

  (** The last part of lin_comb2: whichever temporary is not NULL. *)
  Definition pick (t1 t2 : option U) : outcome U :=
    match t1, t2 with
    | Some t, _ => Ok t
    | None, Some t => Ok t
    | None, None => Abort
    end.

  (** functions.c:714-782 generic_function_lin_comb2; [og]/[oc] are the
      offsets of the pointers passed by the caller. *)
  Definition lin_comb2 (n ldgf : nat) (gfa : list U) (og : nat)
             (ldc : nat) (c : list R) (oc : nat) : outcome U :=
    if n =? 0 then UB
    else if n =? 1 then
      do c0 <- aget c oc;
      do f0 <- aget gfa og;
      Ok (uaxpby c0 f0 r0 None)
    else
      do allpoly <- scan_poly n 0 gfa og ldgf;
      if allpoly : bool then
        do l <- for_ n (fun ii l =>
                          do ci <- aget c (oc + ii * ldc);
                          do fi <- aget gfa (og + ii * ldgf);
                          do fi <- as_poly fi;
                          Ok (l ++ [(ci, fi)])) [];
        Ok (ulcpoly l)
      else
        do c0 <- aget c oc;
        do f0 <- aget gfa og;
        do c1 <- aget c (oc + ldc);
        do f1 <- aget gfa (og + ldgf);
        do (t1, t2) <-
          for_from 2 (n - 2) (fun ii (t : option U * option U) =>
            do ci <- aget c (oc + ii * ldc);
            do fi <- aget gfa (og + ii * ldgf);
            if ii mod 2 =? 0
            then Ok (None, Some (uaxpby ci fi r1 (fst t)))
            else Ok (Some (uaxpby ci fi r1 (snd t)), None))
          (Some (uaxpby c0 f0 c1 (Some f1)), None);
        pick t1 t2.

  (** functions.c:663-700 generic_function_lin_comb (no stride, no special
      case for polynomials). *)
  Definition lin_comb (n : nat) (gfa : list U) (c : list R) : outcome U :=
    if n =? 1 then
      do c0 <- aget c 0;
      do f0 <- aget gfa 0;
      Ok (uaxpby c0 f0 r0 None)
    else
      do c0 <- aget c 0;
      do f0 <- aget gfa 0;
      do c1 <- aget c 1;
      do f1 <- aget gfa 1;
      do (t1, t2) <-
        for_from 2 (n - 2) (fun ii (t : option U * option U) =>
          do ci <- aget c ii;
          do fi <- aget gfa ii;
          if ii mod 2 =? 0
          then Ok (None, Some (uaxpby ci fi r1 (fst t)))
          else Ok (Some (uaxpby ci fi r1 (snd t)), None))
        (Some (uaxpby c0 f0 c1 (Some f1)), None);
      pick t1 t2.

  (** functions.c:1755-1765 generic_function_inner_sum *)
  Definition inner_sum (n lda : nat) (a : list U) (oa ldb : nat) (b : list U) (ob : nat)
    : outcome R :=
    for_ n (fun ii val =>
              do f <- aget a (oa + ii * lda);
              do g <- aget b (ob + ii * ldb);
              Ok (val +! uinner f g)) r0.

  (** funcs_mixed.c:126-136, the scan of generic_function_sum_prod *)
  Fixpoint scan_poly2 (n ii : nat) (a : list U) (oa lda : nat) (b : list U) (ob ldb : nat)
    : outcome bool :=
    match n with
    | O => Ok true
    | S n' =>
        do f <- aget a (oa + ii * lda);
        if uispoly f then
          do g <- aget b (ob + ii * ldb);
          if uispoly g then scan_poly2 n' (S ii) a oa lda b ob ldb else Ok false
        else Ok false
    end.

  (** funcs_mixed.c:122-188 generic_function_sum_prod *)
  Definition sum_prod (n lda : nat) (a : list U) (oa ldb : nat) (b : list U) (ob : nat)
    : outcome U :=
    if n =? 0 then UB
    else
      do allpoly <- scan_poly2 n 0 a oa lda b ob ldb;
      if allpoly : bool then
        do l <- for_ n (fun ii l =>
                          do f <- aget a (oa + ii * lda);
                          do g <- aget b (ob + ii * ldb);
                          do f <- as_poly f;
                          do g <- as_poly g;
                          Ok (l ++ [(f, g)])) [];
        Ok (usppoly l)
      else
        do f0 <- aget a oa;
        do g0 <- aget b ob;
        do (out, out2) <-
          for_from 1 (n - 1) (fun ii (t : option U * option U) =>
            do f <- aget a (oa + ii * lda);
            do g <- aget b (ob + ii * ldb);
            match t with
            | (Some o, None) => Ok (None, Some (uaxpby r1 o r1 (Some (uprod f g))))
            | (None, Some o2) => Ok (Some (uaxpby r1 o2 r1 (Some (uprod f g))), None)
            | (None, None) => UB
            | (Some _, Some _) => Ok t
            end)
          (Some (uprod f0 g0), None);
        match out, out2 with
        | None, Some o2 => Ok o2
        | Some o, None => Ok o
        | _, _ => UB
        end.

  (** * qmarray.c *)

  (** qmarray.c:88-107 qmarray_alloc: all entries NULL *)
  Definition slots (n : nat) : list (option U) := repeat None n.

  (** qmarray.c:133-142 qmarray_copy (the copy is a fresh object; see the
      heap model for aliasing) *)
  Definition qmarray_copy (a : qma U) : outcome (qma U) :=
    do f <- for_ (nr a * nc a) (fun ii f => do g <- aget (fs a) ii; aset f ii (Some g))
                 (slots (nr a * nc a));
    do f' <- freeze f;
    Ok (mkq (nr a) (nc a) f').

  (** qmarray.c:3203-3217 qmarray_stackh *)
  Definition qmarray_stackh (a b : qma U) : outcome (qma U) :=
    do _ <- cassert (nr a =? nr b);
    do f <- for_ (nr a * nc a) (fun ii f => do g <- aget (fs a) ii; aset f ii (Some g))
                 (slots (nr a * (nc a + nc b)));
    do f <- for_ (nr b * nc b) (fun ii f => do g <- aget (fs b) ii;
                                            aset f (ii + nr a * nc a) (Some g)) f;
    do f' <- freeze f;
    Ok (mkq (nr a) (nc a + nc b) f').

  (** qmarray.c:3227-3247 qmarray_stackv *)
  Definition qmarray_stackv (a b : qma U) : outcome (qma U) :=
    do _ <- cassert (nc a =? nc b);
    let cn := nr a + nr b in
    do f <- for_ (nc a) (fun jj f =>
              do f <- for_ (nr a) (fun ii f =>
                        do g <- aget (fs a) (jj * nr a + ii);
                        aset f (jj * cn + ii) (Some g)) f;
              for_ (nr b) (fun ii f =>
                        do g <- aget (fs b) (jj * nr b + ii);
                        aset f (jj * cn + ii + nr a) (Some g)) f)
            (slots (cn * nc a));
    do f' <- freeze f;
    Ok (mkq cn (nc a) f').

  (** qmarray.c:3256-3281 qmarray_blockdiag *)
  Definition qmarray_blockdiag (a b : qma U) : outcome (qma U) :=
    let cn := nr a + nr b in
    let cc := nc a + nc b in
    do f <- for_ (nc a) (fun jj f =>
              do f <- for_ (nr a) (fun ii f =>
                        do g <- aget (fs a) (jj * nr a + ii);
                        aset f (jj * cn + ii) (Some g)) f;
              for_ (nr b) (fun ii f =>
                        do g <- aget (fs a) 0;
                        aset f (jj * cn + ii + nr a) (Some (uaxpby r0 g r0 None))) f)
            (slots (cn * cc));
    do f <- for_from (nc a) (cc - nc a) (fun jj f =>
              do f <- for_ (nr a) (fun ii f =>
                        do g <- aget (fs a) 0;
                        aset f (jj * cn + ii) (Some (uaxpby r0 g r0 None))) f;
              for_ (nr b) (fun ii f =>
                        do g <- aget (fs b) ((jj - nc a) * nr b + ii);
                        aset f (jj * cn + ii + nr a) (Some g)) f) f;
    do f' <- freeze f;
    Ok (mkq cn cc f').

  (** qmarray.c:1113-1135 qmarray_kron *)
  Definition qmarray_kron (a b : qma U) : outcome (qma U) :=
    let totrows := nr a * nr b in
    do f <- for_ (nc a) (fun ii f =>
            for_ (nr a) (fun jj f =>
            for_ (nc b) (fun kk f =>
            for_ (nr b) (fun ll f =>
              do g <- aget (fs a) (ii * nr a + jj);
              do h <- aget (fs b) (kk * nr b + ll);
              aset f ((ii * nc b + kk) * totrows + (jj * nr b + ll)) (Some (uprod g h)))
            f) f) f) (slots (totrows * (nc a * nc b)));
    do f' <- freeze f;
    Ok (mkq totrows (nc a * nc b) f').

  (** qmarray.c:1144-1168 qmarray_kron_integrate *)
  Definition qmarray_kron_integrate (a b : qma U) : outcome (list R) :=
    let totrows := nr a * nr b in
    for_ (nc a) (fun ii c =>
    for_ (nr a) (fun jj c =>
    for_ (nc b) (fun kk c =>
    for_ (nr b) (fun ll c =>
      do g <- aget (fs a) (ii * nr a + jj);
      do h <- aget (fs b) (kk * nr b + ll);
      aset c ((ii * nc b + kk) * totrows + (jj * nr b + ll)) (uinner g h))
    c) c) c) (repeat r0 (nr a * nr b * nc a * nc b)).

  (** qmarray.c:808-822 qmam : Q R, R with [b] columns *)
  Definition qmam (Q : qma U) (M : list R) (b : nat) : outcome (qma U) :=
    do f <- for_ (nr Q) (fun jj f =>
            for_ b (fun ii f =>
              do g <- lin_comb2 (nc Q) (nr Q) (fs Q) jj 1 M (ii * nc Q);
              aset f (ii * nr Q + jj) (Some g)) f) (slots (nr Q * b));
    do f' <- freeze f;
    Ok (mkq (nr Q) b f').

  (** qmarray.c:832-847 qmatm : Q^T R *)
  Definition qmatm (Q : qma U) (M : list R) (b : nat) : outcome (qma U) :=
    do f <- for_ (nc Q) (fun jj f =>
            for_ b (fun ii f =>
              do g <- lin_comb2 (nr Q) 1 (fs Q) (jj * nr Q) 1 M (ii * nr Q);
              aset f (ii * nc Q + jj) (Some g)) f) (slots (nc Q * b));
    do f' <- freeze f;
    Ok (mkq (nc Q) b f').

  (** qmarray.c:857-871 mqma : R Q, R with [b] rows *)
  Definition mqma (M : list R) (Q : qma U) (b : nat) : outcome (qma U) :=
    do f <- for_ (nc Q) (fun jj f =>
            for_ b (fun ii f =>
              do g <- lin_comb2 (nr Q) 1 (fs Q) (jj * nr Q) b M ii;
              aset f (jj * b + ii) (Some g)) f) (slots (b * nc Q));
    do f' <- freeze f;
    Ok (mkq b (nc Q) f').

  (** qmarray.c:880-896 qmaqma : a b *)
  Definition qmaqma (a b : qma U) : outcome (qma U) :=
    do f <- for_ (nc b) (fun jj f =>
            for_ (nr a) (fun ii f =>
              do g <- sum_prod (nc a) (nr a) (fs a) ii 1 (fs b) (jj * nr b);
              aset f (jj * nr a + ii) (Some g)) f) (slots (nr a * nc b));
    do f' <- freeze f;
    Ok (mkq (nr a) (nc b) f').

  (** qmarray.c:905-920 qmatqma : a^T b *)
  Definition qmatqma (a b : qma U) : outcome (qma U) :=
    do f <- for_ (nc b) (fun jj f =>
            for_ (nc a) (fun ii f =>
              do g <- sum_prod (nr b) 1 (fs a) (ii * nr a) 1 (fs b) (jj * nr b);
              aset f (jj * nc a + ii) (Some g)) f) (slots (nc a * nc b));
    do f' <- freeze f;
    Ok (mkq (nc a) (nc b) f').

  (** qmarray.c:929-943 qmaqmat : a b^T *)
  Definition qmaqmat (a b : qma U) : outcome (qma U) :=
    do f <- for_ (nr b) (fun jj f =>
            for_ (nr a) (fun ii f =>
              do g <- sum_prod (nc a) (nr a) (fs a) ii (nr b) (fs b) jj;
              aset f (jj * nr a + ii) (Some g)) f) (slots (nr a * nr b));
    do f' <- freeze f;
    Ok (mkq (nr a) (nr b) f').

  (** qmarray.c:953-966 qmatqmat : documented as a^T b^T; note the index
      [ii*c->nrows+jj] *)
  Definition qmatqmat (a b : qma U) : outcome (qma U) :=
    do f <- for_ (nr b) (fun jj f =>
            for_ (nc a) (fun ii f =>
              do g <- sum_prod (nc b) 1 (fs a) (ii * nr a) (nr b) (fs b) jj;
              aset f (ii * nc a + jj) (Some g)) f) (slots (nc a * nr b));
    do f' <- freeze f;
    Ok (mkq (nc a) (nr b) f').

  (** qmarray.c:1001-1018 qmaqma_integrate *)
  Definition qmaqma_integrate (a b : qma U) : outcome (list R) :=
    for_ (nc b) (fun jj c =>
    for_ (nr a) (fun ii c =>
      do v <- inner_sum (nc a) (nr a) (fs a) ii 1 (fs b) (jj * nr b);
      aset c (jj * nr a + ii) v) c) (repeat r0 (nr a * nc b)).

  (** qmarray.c:976-991 qmatqma_integrate *)
  Definition qmatqma_integrate (a b : qma U) : outcome (list R) :=
    for_ (nc b) (fun jj c =>
    for_ (nc a) (fun ii c =>
      do v <- inner_sum (nr b) 1 (fs a) (ii * nr a) 1 (fs b) (jj * nr b);
      aset c (jj * nc a + ii) v) c) (repeat r0 (nc a * nc b)).

  (** qmarray.c:1028-1046 qmaqmat_integrate *)
  Definition qmaqmat_integrate (a b : qma U) : outcome (list R) :=
    for_ (nr b) (fun jj c =>
    for_ (nr a) (fun ii c =>
      do v <- inner_sum (nc a) (nr a) (fs a) ii (nr b) (fs b) jj;
      aset c (jj * nr a + ii) v) c) (repeat r0 (nr a * nr b)).

  (** qmarray.c:1056-1073 qmatqmat_integrate *)
  Definition qmatqmat_integrate (a b : qma U) : outcome (list R) :=
    for_ (nr b) (fun jj c =>
    for_ (nc a) (fun ii c =>
      do v <- inner_sum (nc b) 1 (fs a) (ii * nr a) (nr b) (fs b) jj;
      aset c (ii * nr b + jj) v) c) (repeat r0 (nc a * nr b)).

  (** qmarray.c:1214-1226 qmarray_vec_kron *)
  Definition qmarray_vec_kron (a : list R) (b c : qma U) : outcome (qma U) :=
    do temp <- qmatm b a (nr c);
    qmatqmat c temp.

  (** qmarray.c:1237-1249 qmarray_vec_kron_integrate *)
  Definition qmarray_vec_kron_integrate (a : list R) (b c : qma U) : outcome (list R) :=
    do temp <- qmatm b a (nr c);
    qmatqmat_integrate c temp.

  (** qmarray.c:1626-1640 qmarray_integrate *)
  Definition qmarray_integrate (a : qma U) : outcome (list R) :=
    for_ (nc a) (fun ii out =>
    for_ (nr a) (fun jj out =>
      do g <- aget (fs a) (ii * nr a + jj);
      aset out (ii * nr a + jj) (uint g)) out) (repeat r0 (nr a * nc a)).

  (** qmarray.c:3181-3194 qmarray_transpose *)
  Definition qmarray_transpose (a : qma U) : outcome (qma U) :=
    do f <- for_ (nr a) (fun ii f =>
            for_ (nc a) (fun jj f =>
              do g <- aget (fs a) (jj * nr a + ii);
              aset f (ii * nc a + jj) (Some g)) f) (slots (nc a * nr a));
    do f' <- freeze f;
    Ok (mkq (nc a) (nr a) f').

  (** qmarray.c:3291-3305 qmarray_deriv *)
  Definition qmarray_deriv (a : qma U) : outcome (qma U) :=
    do f <- for_ (nr a * nc a) (fun ii f => do g <- aget (fs a) ii;
                                            aset f ii (Some (uderiv g)))
                 (slots (nr a * nc a));
    do f' <- freeze f;
    Ok (mkq (nr a) (nc a) f').

  (** * ft.c *)

  (** ft.c:76-81 struct FTMemSpace *)
  Record memsp := mkms { num_spaces : nat; space_size : nat; ms_vals : list R }.

  (** ft.c:84-98 ft_mem_space_alloc *)
  Definition ms_alloc (n sz : nat) : memsp := mkms n sz (repeat r0 (n * sz)).

  (** ft.c:137-155 ft_mem_space_check followed by the allocation its callers
      do when it returns 1 (NULL space) *)
  Definition ms_check (m : option memsp) (n sz : nat) : memsp :=
    match m with
    | None => ms_alloc n sz
    | Some s =>
        if (num_spaces s <? n) || negb (space_size s =? sz) then ms_alloc n sz else s
    end.

  (** The cached evaluation spaces evalspace1..3 of a function train *)
  Record wspace := mkws { ws1 : option memsp; ws2 : option memsp; ws3 : option memsp }.

  (** ft.c:530-544 function_train_get_maxrank *)
  Definition get_maxrank (f : ftrain U) : outcome nat :=
    for_ (ft_dim f + 1) (fun ii m =>
      do r <- aget (ft_ranks f) ii;
      Ok (if m <? r then r else m)) 1.

  (** ft.c:589-609 function_train_eval_next_core for one evaluation point
      ([N = 1], all increments 0); [new_eval_space] and [new_eval] are
      returned. *)
  Definition eval_next_core (f : ftrain U) (core : nat) (x : R)
             (prev space new : list R) : outcome (list R * list R) :=
    do _ <- cassert (0 <? core);
    do c <- aget (ft_cores f) core;
    do space' <- eval2 (nr c * nc c) (fs c) x space;
    do new' <- dgemv_t (nr c) (nc c) space' (nr c) prev new;
    Ok (space', new').

  (** ft.c:751-813 function_train_eval.  The work space is an argument and
      part of the result. *)
  Definition ft_eval (f : ftrain U) (w : wspace) (x : list R) : outcome (R * wspace) :=
    let dim := ft_dim f in
    do rk0 <- aget (ft_ranks f) 0;
    do _ <- cassert (rk0 =? 1);
    do rkd <- aget (ft_ranks f) dim;
    do _ <- cassert (rkd =? 1);
    do maxrank <- get_maxrank f;
    let m1 := ms_check (ws1 w) 1 (maxrank * maxrank) in
    let m2 := ms_check (ws2 w) 1 (maxrank * maxrank) in
    let m3 := ms_check (ws3 w) 1 (maxrank * maxrank) in
    do c0 <- aget (ft_cores f) 0;
    do x0 <- aget x 0;
    do t1 <- eval2 (nr c0 * nc c0) (fs c0) x0 (ms_vals m1);
    do (t1, t2, t3, onsol) <-
      for_from 1 (dim - 1) (fun ii (s : list R * list R * list R * nat) =>
        let '(t1, t2, t3, onsol) := s in
        do xi <- aget x ii;
        if ii mod 2 =? 1 then
          do (t2', t3') <- eval_next_core f ii xi t1 t2 t3;
          Ok (t1, t2', t3', 2)
        else
          do (t2', t1') <- eval_next_core f ii xi t3 t2 t1;
          Ok (t1', t2', t3, 1))
      (t1, ms_vals m2, ms_vals m3, 1);
    do out <- (if onsol =? 2 then aget t3 0
               else if onsol =? 1 then aget t1 0 else Abort);
    Ok (out, mkws (Some (mkms (num_spaces m1) (space_size m1) t1))
                  (Some (mkms (num_spaces m2) (space_size m2) t2))
                  (Some (mkms (num_spaces m3) (space_size m3) t3))).

  (** ft.c:736-741 function_train_evals *)
  Definition ft_evals (f : ftrain U) (w : wspace) (N : nat) (x : list R) (evals : list R)
    : outcome (list R * wspace) :=
    for_ N (fun ii (s : list R * wspace) =>
              do (v, w') <- ft_eval f (snd s) (skipn (ii * ft_dim f) x);
              do e <- aset (fst s) ii v;
              Ok (e, w')) (evals, w).

  (** ft.c:208-224 function_train_copy *)
  Definition ft_copy (a : ftrain U) : outcome (ftrain U) :=
    do (rk, cs) <-
      for_ (ft_dim a) (fun ii (s : list nat * list (option (qma U))) =>
        do r <- aget (ft_ranks a) ii;
        do rk <- aset (fst s) ii r;
        do c <- aget (ft_cores a) ii;
        do c' <- qmarray_copy c;
        do cs <- aset (snd s) ii (Some c');
        Ok (rk, cs))
      (repeat 0 (ft_dim a + 1), repeat None (ft_dim a));
    do r <- aget (ft_ranks a) (ft_dim a);
    do rk <- aset rk (ft_dim a) r;
    do cs' <- freeze cs;
    Ok (mkft (ft_dim a) rk cs').

  (** ft.c:2847-2870 function_train_sum *)
  Definition ft_sum (a b : ftrain U) : outcome (ftrain U) :=
    let d := ft_dim a in
    do a0 <- aget (ft_cores a) 0;
    do b0 <- aget (ft_cores b) 0;
    do c0 <- qmarray_stackh a0 b0;
    do cs <- aset (repeat None d) 0 (Some c0);
    do r <- aget (ft_ranks a) 0;
    do rk <- aset (repeat 0 (d + 1)) 0 r;
    do (rk, cs) <-
      for_from 1 (d - 1 - 1) (fun ii (s : list nat * list (option (qma U))) =>
        do ai <- aget (ft_cores a) ii;
        do bi <- aget (ft_cores b) ii;
        do c <- qmarray_blockdiag ai bi;
        do cs <- aset (snd s) ii (Some c);
        do ra <- aget (ft_ranks a) ii;
        do rb <- aget (ft_ranks b) ii;
        do rk <- aset (fst s) ii (ra + rb);
        Ok (rk, cs)) (rk, cs);
    do ra <- aget (ft_ranks a) (d - 1);
    do rb <- aget (ft_ranks b) (ft_dim b - 1);
    do rk <- aset rk (d - 1) (ra + rb);
    do al <- aget (ft_cores a) (d - 1);
    do bl <- aget (ft_cores b) (ft_dim b - 1);
    do cl <- qmarray_stackv al bl;
    do cs <- aset cs (d - 1) (Some cl);
    do rl <- aget (ft_ranks a) d;
    do rk <- aset rk d rl;
    do cs' <- freeze cs;
    Ok (mkft d rk cs').

  (** ft.c:2942-2956 function_train_product *)
  Definition ft_product (a b : ftrain U) : outcome (ftrain U) :=
    let d := ft_dim a in
    do (rk, cs) <-
      for_ d (fun ii (s : list nat * list (option (qma U))) =>
        do ra <- aget (ft_ranks a) ii;
        do rb <- aget (ft_ranks b) ii;
        do rk <- aset (fst s) ii (ra * rb);
        do ai <- aget (ft_cores a) ii;
        do bi <- aget (ft_cores b) ii;
        do c <- qmarray_kron ai bi;
        do cs <- aset (snd s) ii (Some c);
        Ok (rk, cs)) (repeat 0 (d + 1), repeat None d);
    do ra <- aget (ft_ranks a) d;
    do rb <- aget (ft_ranks b) d;
    do rk <- aset rk d (ra * rb);
    do cs' <- freeze cs;
    Ok (mkft d rk cs').

  (** ft.c:2878-2885 function_train_scale: the functions of the first core are
      replaced by generic_function_array_daxpby(n,a,1,funcs,0.0,1,NULL)
      (functions.c:840-871) *)
  Definition ft_scale (f : ftrain U) (a : R) : outcome (ftrain U) :=
    do c0 <- aget (ft_cores f) 0;
    do g <- for_ (nr c0 * nc c0) (fun ii g =>
              do h <- aget (fs c0) ii;
              aset g ii (Some (uaxpby a h r0 None))) (slots (nr c0 * nc c0));
    do g' <- freeze g;
    do cs <- aset (ft_cores f) 0 (mkq (nr c0) (nc c0) g');
    Ok (mkft (ft_dim f) (ft_ranks f) cs).

  (** ft.c:2139-2178 function_train_integrate; [t1], [t3] are optional
      (NULL after being freed). *)
  Definition ft_integrate (f : ftrain U) : outcome R :=
    do c0 <- aget (ft_cores f) 0;
    do t1 <- qmarray_integrate c0;
    do (t1, t3) <-
      for_from 1 (ft_dim f - 1) (fun ii (s : option (list R) * option (list R)) =>
        do c <- aget (ft_cores f) ii;
        do t2 <- qmarray_integrate c;
        do r1 <- aget (ft_ranks f) ii;
        do r2 <- aget (ft_ranks f) (ii + 1);
        if ii mod 2 =? 1 then
          match fst s with
          | None => UB
          | Some t1 =>
              do t3 <- dgemm_nn 1 r2 r1 t1 1 t2 r1 (repeat r0 r2) 1;
              Ok (None, Some t3)
          end
        else
          match snd s with
          | None => UB
          | Some t3 =>
              do t1 <- dgemm_nn 1 r2 r1 t3 1 t2 r1 (repeat r0 r2) 1;
              Ok (Some t1, None)
          end)
      (Some t1, None);
    match t1, t3 with
    | None, Some t3 => aget t3 0
    | Some t1, None => aget t1 0
    | None, None => UB
    | Some _, Some _ => UB (* not reached: the C code would return 0.123456789 *)
    end.

  (** ft.c:2356-2377 function_train_inner *)
  Definition ft_inner (a b : ftrain U) : outcome R :=
    do _ <- cassert (ft_dim a =? ft_dim b);
    do b0 <- aget (ft_cores b) 0;
    do a0 <- aget (ft_cores a) 0;
    do temp <- qmarray_kron_integrate b0 a0;
    do temp <- for_from 1 (ft_dim a - 1) (fun ii temp =>
                 do ai <- aget (ft_cores a) ii;
                 do bi <- aget (ft_cores b) ii;
                 qmarray_vec_kron_integrate temp ai bi) temp;
    aget temp 0.

  (** ft.c:2388-2416 function_train_inner2 *)
  Definition ft_inner2 (a b : ftrain U) : outcome R :=
    do _ <- cassert (ft_dim a =? ft_dim b);
    do a0 <- aget (ft_cores a) 0;
    do b0 <- aget (ft_cores b) 0;
    do temp <- qmarray_kron_integrate a0 b0;
    do temp <- for_from 1 (ft_dim a - 1) (fun ii temp =>
                 do ai <- aget (ft_cores a) ii;
                 do bi <- aget (ft_cores b) ii;
                 do At <- qmatm bi temp (nr ai);
                 qmaqma_integrate At ai) temp;
    aget temp 0.

  (** ft.c:2426-2461 function_train_inner_rl *)
  Definition ft_inner_rl (a b : ftrain U) : outcome R :=
    do _ <- cassert (ft_dim a =? ft_dim b);
    let d := ft_dim a in
    do al <- aget (ft_cores a) (d - 1);
    do bl <- aget (ft_cores b) (d - 1);
    do temp <- qmarray_kron_integrate al bl;
    do temp <- for_from 1 (d - 1) (fun ii temp =>
                 do ai <- aget (ft_cores a) (d - 1 - ii);
                 do bi <- aget (ft_cores b) (d - 1 - ii);
                 do A <- qmam bi temp (nc ai);
                 qmaqmat_integrate A ai) temp;
    aget temp 0.
End FTModel.
Arguments memsp : clear implicits.
Arguments wspace : clear implicits.
