(** Model of the weighted integral of a function train over some of its variables:
    c3/lib_clinalg/ft.c 2251-2345.  [uint] of the univariate functions stands for
    generic_function_integrate_weighted here, and [qmarray_integrate] for
    qmarray_integrate_weighted (qmarray.c:1655-1669), which is the same code with that
    function. *)
From Verif Require Export FTModel.

Section FTSubModel.
  Context {R : CRing} {U : uops R}.
  Variable f : ftrain U.
  Variable dims : list nat.
  Open Scope cr_scope.
  Let nd := length dims.

  (** ft.c:2272-2303: the leading variables; c3linalg_multiple_vec_mat for one vector is
      linalg.c:114-124.  Both counters, the row vector
      left_mult ([None]: NULL). *)
  Fixpoint ws_lead (fuel on ii : nat) (lm : option (list R)) : outcome (nat * nat * option (list R)) :=
    do d <- aget dims on;
    if (d =? ii) && (on <? nd) then
      do c <- aget (ft_cores f) ii;
      do mat <- qmarray_integrate c;
      do lm1 <- match lm with
                  | None => if nc c <=? length mat then Ok (firstn (nc c) mat) else UB
                  | Some v => dgemv_t (nr c) (nc c) mat (nr c) v (repeat r0 (nc c))
                  end;
      if S on =? nd then Ok (S on, S ii, Some lm1)
      else match fuel with
           | 0 => OutOfFuel
           | S fuel' => ws_lead fuel' (S on) (S ii) (Some lm1)
           end
    else Ok (on, ii, lm).

  (** ft.c:2311-2336, one iteration of the loop.  The state: on_contract, done,
      left_mult, on_new_core and the cores of the new train.  The core before the
      first one does not exist. *)
  Definition ws_step (ii : nat) (s : nat * bool * option (list R) * nat * list (option (qma U)))
    : outcome (nat * bool * option (list R) * nat * list (option (qma U))) :=
    let '(on, done, lm, k, cs) := s in
    do d <- aget dims on;
    do c <- aget (ft_cores f) ii;
    if (d =? ii) && negb done then
      do mat <- qmarray_integrate c;
      do c0 <- (if k =? 0 then UB else pget cs (k - 1));
      do newcore <- qmam c0 mat (nc c);
      do newcore <- qmarray_copy newcore;
      do cs <- aset cs (k - 1) (Some newcore);
      if S on =? nd then Ok (on, true, lm, k, cs) else Ok (S on, done, lm, k, cs)
    else
      do newcore <- match lm with
                    | Some v => mqma v c 1
                    | None => qmarray_copy c
                    end;
      do cs <- aset cs k (Some newcore);
      Ok (on, done, None, S k, cs).

  (** ft.c:2251-2345 function_train_integrate_weighted_subset.  For no variable,
      the first read is already outside the array.  For more variables than the train
      has, the difference of the two numbers wraps around and the code asks for an
      array of that size: undefined here.  The calls of free are not modelled; the
      ranks that alloc leaves unset are 0 here, and all are written below. *)
  Definition ft_integrate_subset : outcome (ftrain U) :=
    if ft_dim f <? nd then UB else
    let newdim := ft_dim f - nd in
    do _ <- cassert (0 <? newdim);
    do (on, ii, lm) <- ws_lead nd 0 0 None;
    do (on, done) <- (if on =? nd then if on =? 0 then UB else Ok (on - 1, true) else Ok (on, false));
    do (_, _, _, _, cs) <- for_from ii (ft_dim f - ii) ws_step (on, done, lm, 0, repeat None newdim);
    do ranks <- for_ newdim (fun ii rk =>
        do c <- pget cs ii;
        do rk <- aset rk ii (nr c);
        aset rk (ii + 1) (nc c)) (tab (newdim + 1) (fun k => if (k =? 0) || (k =? newdim) then 1 else 0));
    do cs <- freeze cs;
    Ok (mkft newdim ranks cs).
End FTSubModel.
