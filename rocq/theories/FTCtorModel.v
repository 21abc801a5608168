(** Model of the function-train constructors of c3/lib_clinalg/ft.c. *)
From Verif Require Export FTModel.

(** Constructors of univariate functions called by the constructors of ft.c.
    The [nat] argument is the dimension whose approximation options
    ([multi_approx_opts_get_aopts(aopts,k)]) are passed. *)
Record uctor {R : CRing} (U : uops R) := mkuctor {
  (** functions.c generic_function_constant *)
  uconst : nat -> R -> U;
  (** functions.c generic_function_linear(a,offset,...) *)
  ulin : nat -> R -> R -> U;
  (** functions.c generic_function_quadratic(a,offset,...) *)
  uquad : nat -> R -> R -> U;
  (** functions.c generic_function_zero(fc,aopts,1) *)
  uzero : nat -> U;
  (** generic_function_approximate1d of the wrapped function selected by
      [fwrap_set_which_eval(fw,j)]: options of dimension [k], function [j] *)
  uappr : nat -> nat -> U
}.
Arguments uconst {R U}.
Arguments ulin {R U}.
Arguments uquad {R U}.
Arguments uzero {R U}.
Arguments uappr {R U}.

Section FTCtorModel.
  Context {R : CRing} {U : uops R} (K : uctor U).
  Open Scope cr_scope.

  (** [qmarray_alloc(r,c)] followed by assignments [funcs[i] = f] and the use
      of the array: slots not assigned are NULL. *)
  Definition set_funcs (r c : nat) (l : list (nat * U)) : outcome (qma U) :=
    do f <- fold_left (fun acc p => do f <- acc; aset f (fst p) (Some (snd p))) l (Ok (slots (r * c)));
    do f' <- freeze f;
    Ok (mkq r c f').

  (** ft.c:170-200 function_train_alloc: ranks are zeroed (calloc_size_t),
      cores are NULL *)
  Definition alloc_ranks (d : nat) : list nat := repeat 0 (d + 1).
  Definition alloc_cores (d : nat) : list (option (qma U)) := repeat None d.

  (** ft.c:1572-1595 function_train_rankone *)
  Definition ft_rankone (d : nat) : outcome (ftrain U) :=
    do (rk, cs) <-
      for_ d (fun k (s : list nat * list (option (qma U))) =>
        do rk <- aset (fst s) k 1;
        do c <- set_funcs 1 1 [(0, uappr K k k)];
        do cs <- aset (snd s) k (Some c);
        Ok (rk, cs)) (alloc_ranks d, alloc_cores d);
    do rk <- aset rk d 1;
    do cs' <- freeze cs;
    Ok (mkft d rk cs').

  (** ft.c:1605-1670 function_train_initsum.  In dimension one the second
      assignment is outside the 1 x 1 array. *)
  Definition ft_initsum (d : nat) : outcome (ftrain U) :=
    do rk <- aset (alloc_ranks d) 0 1;
    do c <- (if d =? 1
             then set_funcs 1 1 [(0, uappr K 0 0); (1, uconst K 0 r1)]
             else set_funcs 1 2 [(0, uappr K 0 0); (1, uconst K 0 r1)]);
    do cs <- aset (alloc_cores d) 0 (Some c);
    do (rk, cs) <-
      (if 1 <? d then
         do (rk, cs) <-
           for_from 1 (d - 1 - 1) (fun k (s : list nat * list (option (qma U))) =>
             do rk <- aset (fst s) k 2;
             do c <- set_funcs 2 2 [(0, uconst K k r1); (1, uappr K k k);
                                    (2, uconst K k r0); (3, uconst K k r1)];
             do cs <- aset (snd s) k (Some c);
             Ok (rk, cs)) (rk, cs);
         let k := d - 1 in
         do rk <- aset rk k 2;
         do rk <- aset rk (k + 1) 1;
         do c <- set_funcs 2 1 [(0, uconst K k r1); (1, uappr K k k)];
         do cs <- aset cs k (Some c);
         Ok (rk, cs)
       else Ok (rk, cs));
    do cs' <- freeze cs;
    Ok (mkft d rk cs').

  (** ft.c:1681-1702 function_train_zeros *)
  Definition ft_zeros (d : nat) (ranks : list nat) : outcome (ftrain U) :=
    do rk <- for_ (d + 1) (fun i rk => do r <- aget ranks i; aset rk i r) (alloc_ranks d);
    do cs <- for_ d (fun k cs =>
        do r1 <- aget ranks k;
        do r2 <- aget ranks (k + 1);
        do f <- for_ (r1 * r2) (fun jj f => aset f jj (Some (uzero K k))) (slots (r1 * r2));
        do f' <- freeze f;
        aset cs k (Some (mkq r1 r2 f'))) (alloc_cores d);
    do cs' <- freeze cs;
    Ok (mkft d rk cs').

  (** ft.c:1713-1747 function_train_constant; [sign] and [apow] are the values
      the C code computes from its argument: [a < 0 ? -1 : 1] and
      [pow(fabs(a),1.0/dim)]. *)
  Definition ft_constant (sign apow : R) (d : nat) : outcome (ftrain U) :=
    do rk <- aset (alloc_ranks d) 0 1;
    do c <- set_funcs 1 1 [(0, uconst K 0 (sign *! apow))];
    do cs <- aset (alloc_cores d) 0 (Some c);
    do (rk, cs) <-
      for_from 1 (d - 1) (fun k (s : list nat * list (option (qma U))) =>
        do rk <- aset (fst s) k 1;
        do c <- set_funcs 1 1 [(0, uconst K k apow)];
        do cs <- aset (snd s) k (Some c);
        Ok (rk, cs)) (rk, cs);
    do rk <- aset rk d 1;
    do cs' <- freeze cs;
    Ok (mkft d rk cs').

  (** ft.c:1760-1822 function_train_linear *)
  Definition ft_linear (c : list R) (ldc : nat) (a : list R) (lda : nat) (d : nat)
    : outcome (ftrain U) :=
    do rk <- aset (alloc_ranks d) 0 1;
    do c0 <- aget c (0 * ldc);
    do a0 <- aget a (0 * lda);
    do q <- (if d =? 1
             then set_funcs 1 1 [(0, ulin K 0 c0 a0)]
             else set_funcs 1 2 [(0, ulin K 0 c0 a0); (1, uconst K 0 r1)]);
    do cs <- aset (alloc_cores d) 0 (Some q);
    do (rk, cs) <-
      (if 1 <? d then
         do (rk, cs) <-
           for_from 1 (d - 1 - 1) (fun k (s : list nat * list (option (qma U))) =>
             do rk <- aset (fst s) k 2;
             do ck <- aget c (k * ldc);
             do ak <- aget a (k * lda);
             do q <- set_funcs 2 2 [(0, uconst K k r1); (1, ulin K k ck ak);
                                    (2, uconst K k r0); (3, uconst K k r1)];
             do cs <- aset (snd s) k (Some q);
             Ok (rk, cs)) (rk, cs);
         let k := d - 1 in
         do rk <- aset rk k 2;
         do rk <- aset rk (k + 1) 1;
         do ck <- aget c (k * ldc);
         do ak <- aget a (k * lda);
         do q <- set_funcs 2 1 [(0, uconst K k r1); (1, ulin K k ck ak)];
         do cs <- aset cs k (Some q);
         Ok (rk, cs)
       else Ok (rk, cs));
    do cs' <- freeze cs;
    Ok (mkft d rk cs').

  (** ft.c:1880-1921 function_train_rankone_prod *)
  Definition ft_rankone_prod (c : list R) (d : nat) : outcome (ftrain U) :=
    do _ <- cassert (1 <? d);
    do rk <- aset (alloc_ranks d) 0 1;
    do c0 <- aget c 0;
    do q <- set_funcs 1 1 [(0, ulin K 0 c0 r0)];
    do cs <- aset (alloc_cores d) 0 (Some q);
    do (rk, cs) <-
      for_from 1 (d - 1 - 1) (fun k (s : list nat * list (option (qma U))) =>
        do rk <- aset (fst s) k 1;
        do ck <- aget c k;
        do q <- set_funcs 1 1 [(0, ulin K k ck r0)];
        do cs <- aset (snd s) k (Some q);
        Ok (rk, cs)) (rk, cs);
    let k := d - 1 in
    do rk <- aset rk k 1;
    do ck <- aget c k;
    do q <- set_funcs 1 1 [(0, ulin K k ck r0)];
    do cs <- aset cs k (Some q);
    do rk <- aset rk d 1;
    do cs' <- freeze cs;
    Ok (mkft d rk cs').

  (** The body of the two inner loops of ft.c:1984-2011: the function put at
      row [ll], column [kk] of core [k] *)
  Definition quad_entry (Q m : list R) (d k kk ll : nat) : outcome U :=
    if (ll =? 0) && (kk =? 0) then Ok (uconst K k r1)
    else if (kk =? 0) && (ll =? 1) then
      do mk <- aget m k; Ok (ulin K k r1 (r0 -! mk))
    else if ll =? kk + 1 then Ok (uconst K k r1)
    else if (ll =? d - k + 1) && (kk =? 0) then
      do q <- aget Q (k * d + k); do mk <- aget m k; Ok (uquad K k q mk)
    else if ll =? d - k + 1 then
      do q1 <- aget Q (k * d + k + kk);
      do q2 <- aget Q ((k + kk) * d + k);
      do mk <- aget m k;
      let temp := q1 +! q2 in
      Ok (ulin K k temp ((r0 -! temp) *! mk))
    else Ok (uconst K k r0).

  (** ft.c:1935-2026 function_train_quadratic *)
  Definition ft_quadratic (Q m : list R) (d : nat) : outcome (ftrain U) :=
    do _ <- cassert (1 <? d);
    do rk <- aset (alloc_ranks d) 0 1;
    do f <- (let f := slots (1 * (d + 1)) in
      do q <- aget Q (0 * d + 0);
      do m0 <- aget m 0;
      do f <- aset f 0 (Some (uquad K 0 q m0));
      do f <- for_from 1 (d - 1) (fun kk f =>
                do q1 <- aget Q (0 * d + kk);
                do q2 <- aget Q (kk * d + 0);
                do m0 <- aget m 0;
                let temp := q1 +! q2 in
                aset f kk (Some (ulin K 0 temp ((r0 -! temp) *! m0)))) f;
      aset f d (Some (uconst K 0 r1)));
    do f' <- freeze f;
    do cs <- aset (alloc_cores d) 0 (Some (mkq 1 (d + 1) f'));
    do (rk, cs) <-
      for_from 1 (d - 1 - 1) (fun k (s : list nat * list (option (qma U))) =>
        let nrows := d - k + 2 in
        let ncols := d - k + 1 in
        do rk <- aset (fst s) k nrows;
        do f <- for_ ncols (fun kk f =>
                for_ nrows (fun ll f =>
                  do g <- quad_entry Q m d k kk ll;
                  aset f (kk * nrows + ll) (Some g)) f) (slots (nrows * ncols));
        do f' <- freeze f;
        do cs <- aset (snd s) k (Some (mkq nrows ncols f'));
        Ok (rk, cs)) (rk, cs);
    let k := d - 1 in
    do rk <- aset rk k (d - k + 2);
    do mk <- aget m k;
    do q <- aget Q (k * d + k);
    do c <- set_funcs (d - k + 2) 1 [(0, uconst K k r1); (1, ulin K k r1 (r0 -! mk)); (2, uquad K k q mk)];
    do cs <- aset cs k (Some c);
    do rk <- aset rk d 1;
    do cs' <- freeze cs;
    Ok (mkft d rk cs').

  (** ft.c:2038-2107 function_train_quadratic_aligned.  Note that in the last
      dimension the options [o] are those of the previous dimension: the
      variable is not updated after the loop (2078-2096). *)
  Definition ft_quadratic_aligned (c m : list R) (d : nat) : outcome (ftrain U) :=
    do rk <- aset (alloc_ranks d) 0 1;
    do (rk, cs) <-
      (if 1 <? d then
         do c0 <- aget c 0;
         do m0 <- aget m 0;
         do q <- set_funcs 1 2 [(0, uquad K 0 c0 m0); (1, uconst K 0 r1)];
         do cs <- aset (alloc_cores d) 0 (Some q);
         do (rk, cs) <-
           for_from 1 (d - 1 - 1) (fun k (s : list nat * list (option (qma U))) =>
             do rk <- aset (fst s) k 2;
             do ck <- aget c k;
             do mk <- aget m k;
             do q <- set_funcs 2 2 [(0, uconst K k r1); (1, uquad K k ck mk);
                                    (2, uconst K k r0); (3, uconst K k r1)];
             do cs <- aset (snd s) k (Some q);
             Ok (rk, cs)) (rk, cs);
         let k := d - 1 in
         let o := d - 2 in
         do rk <- aset rk k 2;
         do rk <- aset rk (k + 1) 1;
         do ck <- aget c k;
         do mk <- aget m k;
         do q <- set_funcs 2 1 [(0, uconst K o r1); (1, uquad K o ck mk)];
         do cs <- aset cs k (Some q);
         Ok (rk, cs)
       else
         do c0 <- aget c 0;
         do m0 <- aget m 0;
         do q <- set_funcs 1 1 [(0, uquad K 0 c0 m0)];
         do cs <- aset (alloc_cores d) 0 (Some q);
         Ok (rk, cs));
    do cs' <- freeze cs;
    Ok (mkft d rk cs').
End FTCtorModel.
