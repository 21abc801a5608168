(** Model of regression with rank adaptation, c3/lib_superlearn/regress.c 1306-1475.

    Simplifications: regression at given ranks, cross validation and rounding are any
    procedures; optimization over a restricted set of ranks is switched off
    (opt_only_restricted = 0, the restrictions are then set to zero and not read);
    printing and freeing are left out, and so is wrap-around of size_t. *)
From Verif Require Import Base FOps ParamModel.
Open Scope nat_scope.

Section Adapt.
  Variable K : fops.
  Variable P S T : Type.                 (* parameterised train, rest of the state, function train *)
  Variable tranks : T -> list nat.       (* function_train_get_ranks *)
  Variable tround : T -> T.              (* function_train_round with the tolerance given *)
  Variable tparams : T -> list K.        (* function_train_get_params *)
  Variable palloc : list nat -> P.       (* ft_regress_reset_param *)
  Variable pupdate : P -> list K -> outcome P.        (* ft_param_update_params *)
  Variable ptrain : P -> T.              (* ftp->ft *)
  Variable cvrun : P -> S -> outcome (K * S).         (* cross_validate_run *)
  Variable fit : P -> S -> outcome (T * P * S).       (* ft_regress_run without adaptation *)
  Variable dim maxrank kickrank : nat.
  Open Scope fop_scope.

  (** what is done, in order: cross validation with ranks, regression with ranks, return
      to the rounded train *)
  Inductive act := ACv (ranks : list nat) (err : K) | AFit (ranks : list nat) | ABack (t : T).

  (** 1362-1368 *)
  Definition all_max (ranks : list nat) : outcome bool :=
    for_from 1 (dim - 1) (fun ii (b : bool) => if b then (do r <- aget ranks ii; Ok (negb (r <? maxrank))) else Ok false) true.
  (** 1370-1384 *)
  Definition kick (rounded ranks : list nat) : outcome (list nat * bool) :=
    for_from 1 (dim - 1) (fun ii '(ranks, kicked) =>
      do a <- aget rounded ii;
      do b <- aget ranks ii;
      if a =? b then
        do ranks <- aset ranks ii (b + kickrank);
        do ranks <- (if maxrank <? b + kickrank then aset ranks ii maxrank else Ok ranks);
        Ok (ranks, true)
      else Ok (ranks, kicked)) (ranks, false).

  (** 1348-1447; [fuel] is the number of iterations left *)
  Fixpoint adapt_loop (fuel : nat) (p : P) (st : S) (ft : T) (ranks : list nat) (err : K) (log : list act) : outcome (T * P * S * K * list act) :=
    match fuel with
    | 0 => Ok (ft, p, st, err, log)
    | Datatypes.S fuel =>
        let fr := tround ft in
        do allmax <- all_max ranks;
        do (ranks, kicked) <- kick (tranks fr) ranks;
        if (negb kicked || allmax)%bool then Ok (ft, p, st, err, log) else
        let p := palloc ranks in
        do (new_err, st) <- cvrun p st;
        if err <^ new_err then
          do p <- pupdate (palloc (tranks fr)) (tparams fr);
          Ok (ptrain p, p, st, err, log ++ [ACv ranks new_err; ABack fr])
        else
          do (ft, p, st) <- fit p st;
          adapt_loop fuel p st ft ranks new_err (log ++ [ACv ranks new_err; AFit ranks])
    end.

  (** 1306-1475 ft_regress_run_rankadapt; [p0] are the parameters at the beginning *)
  Definition rank_adapt (finalize : bool) (p0 : P) (st : S) : outcome (T * P * S * K * list act) :=
    do (err, st) <- cvrun p0 st;
    do (ft, p, st) <- fit p0 st;
    do ranks <- blit (repeat 0 (dim + 1)) 0 (tranks ft) 0 (dim + 1);
    do (ft, p, st, err, log) <- adapt_loop 10 p st ft ranks err [ACv (tranks (ptrain p0)) err; AFit (tranks (ptrain p0))];
    if finalize then (let r := tranks (ptrain p) in do (ft, p, st) <- fit p st; Ok (ft, p, st, err, log ++ [AFit r]))
    else Ok (ft, p, st, err, log).
End Adapt.
