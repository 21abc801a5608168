(** Model of cross validation and of the search for the best settings on a grid,
    c3/lib_superlearn/regress.c 1500-1705 and 1686-2214.

    Simplifications: arithmetic without rounding; the regression of a fold
    (ft_regress_run) is any procedure [run] that is given the settings, the data and the
    rest of the state and that may change the rest of the state (optimizer, options,
    seed); the four names of settings are numbered 0 to 3, unknown names are left out;
    printing and freeing are left out. *)
From Verif Require Import Base FOps ParamModel.
Open Scope nat_scope.

Section Cv.
  Variable K : fops.
  Variable P S T : Type.       (* parameterised train, rest of the state, result of a regression *)
  Variable pranks : P -> list nat.                  (* function_train_get_ranks(ftp->ft) *)
  Variable palloc : list nat -> list nat -> P.      (* ft_param_alloc(dim, approx_opts, NULL, ranks) *)
  Open Scope fop_scope.

  (** struct FTRegress with its optimizer: the train, the numbers of parameters of the
      approximation options (one for each dimension), the weight of the regularization,
      the iteration limit, everything else *)
  Record reg := mkreg { r_ftp : P; r_np : list nat; r_w : K; r_max : nat; r_rest : S }.
  Variable run : reg -> nat -> list K -> list K -> outcome (T * S).
  Variable teval : T -> list K -> K.

  (** struct CrossValidate *)
  Record cvdata := mkcv { c_N : nat; c_dim : nat; c_x : list K; c_y : list K; c_kfold : nat }.

  (** regress.c 1579-1598 extract_data *)
  Definition extract_data (cv : cvdata) (start num : nat) (b : list K * list K * list K * list K) : outcome (list K * list K * list K * list K) :=
    let '(xtest, ytest, xtrain, ytrain) := b in
    let d := c_dim cv in
    do xtest <- blit xtest 0 (c_x cv) (start * d) (d * num);
    do ytest <- blit ytest 0 (c_y cv) start num;
    do xtrain <- blit xtrain 0 (c_x cv) 0 (d * start);
    do ytrain <- blit ytrain 0 (c_y cv) 0 start;
    do xtrain <- blit xtrain (start * d) (c_x cv) ((start + num) * d) (d * (c_N cv - start - num));
    do ytrain <- blit ytrain start (c_y cv) (start + num) (c_N cv - start - num);
    Ok (xtest, ytest, xtrain, ytrain).

  (** regress.c 1613-1705 cross_validate_run: the error and the state afterwards *)
  Definition cross_validate_run (cv : cvdata) (r : reg) : outcome (K * reg) :=
    let N := c_N cv in let d := c_dim cv in
    if c_kfold cv =? 0 then UB else                        (* N / 0 *)
    do (erri, norm, _, _, _, st) <- for_ (c_kfold cv) (fun ii '(erri, norm, start, batch, b, st) =>
      let batch := if ii =? c_kfold cv - 1 then N - start else batch in
      do (xtest, ytest, xtrain, ytrain) <- extract_data cv start batch b;
      let ntrain := N - batch in
      do (t, st) <- run (mkreg (r_ftp r) (r_np r) (r_w r) (r_max r) st) ntrain (firstn (ntrain * d) xtrain) (firstn ntrain ytrain);
      do (ne, nn) <- for_ batch (fun jj '(ne, nn) =>
        do y <- aget ytest jj;
        let e := teval t (firstn d (skipn (jj * d) xtest)) in
        Ok (ne +^ (y -^ e) *^ (y -^ e), nn +^ y *^ y)) (f0, f0);
      Ok (erri +^ ne, norm +^ nn, start + batch, batch, (xtest, ytest, xtrain, ytrain), st))
      (f0, f0, 0, N / c_kfold cv, (repeat f0 (N * d), repeat f0 N, repeat f0 (N * d), repeat f0 N), r_rest r);
    Ok (erri /^ norm, mkreg (r_ftp r) (r_np r) (r_w r) (r_max r) st).

  (** * Grids of settings *)
  Inductive setting := SRank (n : nat) | SNum (n : nat) | SMaxiter (n : nat) | SWeight (w : K).
  (** the values of one setting, cv_opt_grid_add_param 2067-2100 *)
  Inductive axis := ARank (l : list nat) | ANum (l : list nat) | AMaxiter (l : list nat) | AWeight (l : list K).
  Definition nvals (a : axis) : nat := match a with ARank l | ANum l | AMaxiter l => length l | AWeight l => length l end.
  (** update_based_type 2102-2113 *)
  Definition value (a : axis) (i : nat) : outcome setting :=
    match a with
    | ARank l => do n <- aget l i; Ok (SRank n)
    | ANum l => do n <- aget l i; Ok (SNum n)
    | AMaxiter l => do n <- aget l i; Ok (SMaxiter n)
    | AWeight l => do w <- aget l i; Ok (SWeight w)
    end.

  (** 2119-2155 cv_opt_grid_setup_cases; cvc_list_push puts a new case in front; [None]
      of the C code, the null pointer, is the empty list *)
  Definition setup_cases (g : list axis) : outcome (list (list setting)) :=
    match g with
    | [a] => for_ (nvals a) (fun ii l => do u <- value a ii; Ok ([u] :: l)) []
    | [a; b] => for_ (nvals a) (fun ii l => for_ (nvals b) (fun jj l =>
        do u <- value a ii; do v <- value b jj; Ok ([u; v] :: l)) l) []
    | [a; b; c] => for_ (nvals a) (fun ii l => for_ (nvals b) (fun jj l => for_ (nvals c) (fun kk l =>
        do u <- value a ii; do v <- value b jj; do w <- value c kk; Ok ([u; v; w] :: l)) l) l) []
    | _ => Ok []
    end.

  (** 1838-1902 cv_case_process *)
  Definition case_process (dim : nat) (cs : list setting) (r : reg) : outcome reg :=
    let '(ur, un, uw, um) := fold_left (fun '(ur, un, uw, um) s =>
      match s with
      | SRank n => (Some n, un, uw, um)
      | SNum n => (ur, Some n, uw, um)
      | SWeight w => (ur, un, Some w, um)
      | SMaxiter n => (ur, un, uw, Some n)
      end) cs (None, None, None, None) in
    do ranks <- blit (repeat 0 (dim + 1)) 0 (pranks (r_ftp r)) 0 (dim + 1);
    do ranks <- match ur with
      | None => Ok ranks
      | Some rank => do ranks <- aset ranks 0 1; do ranks <- aset ranks dim 1;
                     for_from 1 (dim - 1) (fun ii ranks => aset ranks ii rank) ranks
      end;
    do np <- match un with
      | None => Ok (r_np r)
      | Some n => for_ dim (fun ii np => aset np ii n) (r_np r)
      end;
    Ok (mkreg (palloc np ranks) np (match uw with None => r_w r | Some w => w end) (match um with None => r_max r | Some n => n end) (r_rest r)).

  (** 2161-2214 cross_validate_grid_opt; [huge] is DBL_MAX, [shrink] is 0.999999999;
      returns the errors and the chosen case beside the state *)
  Variable huge shrink : K.
  Definition grid_opt (cv : cvdata) (g : list axis) (dim : nat) (r : reg) : outcome (reg * list K * nat) :=
    do l <- setup_cases g;
    do (r, errs, besterr, bestiter) <- for_ (length l) (fun iter '(r, errs, besterr, bestiter) =>
      do cs <- aget l iter;
      do r <- case_process dim cs r;
      do (err, r) <- cross_validate_run cv r;
      if err <^ besterr *^ shrink then Ok (r, errs ++ [err], err, iter) else Ok (r, errs ++ [err], besterr, bestiter)) (r, [], huge, 0);
    do cs <- aget l bestiter;                             (* temp->cv of the null pointer *)
    do r <- case_process dim cs r;
    Ok (r, errs, bestiter).
End Cv.
