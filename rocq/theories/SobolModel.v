(** Model of the Sobol sensitivity analysis: c3/lib_probability/probability.c
    112-139 and 173-545.  Scalars are taken from a commutative ring (exact
    arithmetic in place of doubles).  The numerical part is one parameter: [IV c]
    is the variance (weighted inner product of the train with itself minus the
    squared weighted integral, lines 180-182 and 211-213) of the train that
    function_train_integrate_weighted_subset returns for the variables [c]; [IV []]
    is the variance of the train itself.  [W] is the largest size_t.
    The linked lists of indices are lists.  The nodes of the tree are kept in a
    memory: the address of interactions[i] is the path [i], that of leaf [j] of the node at
    [p] is the path [p ++ [j]]; a path without node is a NULL or unset pointer. *)
From Verif Require Export CRing Base.

(** [k - 1] on size_t *)
Definition spred (W k : nat) : nat := match k with 0 => W | S k' => k' end.

(** probability.c:112-139 n_choose_k_no_order.  [prev ++ [ii]] is the contents of
    the array [base] with [ii] written at its end. *)
Fixpoint n_choose_k (W fuel s n k : nat) (l : list (list nat)) (prev : list nat) : outcome (list (list nat)) :=
  match fuel with
  | 0 => OutOfFuel
  | S fuel' =>
      if k =? 1 then for_from s (n - s) (fun ii l => Ok (l ++ [prev ++ [ii]])) l
      else for_from s (n - s) (fun ii l => n_choose_k W fuel' (S ii) n (spred W k) l (prev ++ [ii])) l
  end.

(** probability.c:187-209: the variables to integrate out.  The array has
    [dim - ninteract] entries. *)
Definition sobol_contract (dim : nat) (vars : list nat) : outcome (list nat) :=
  do s <- for_ dim (fun ii s =>
      if existsb (Nat.eqb ii) vars then Ok s
      else do a <- aset (fst s) (snd s) ii; Ok (a, S (snd s))) (repeat 0 (dim - length vars), 0);
  Ok (fst s).

Section SobolModel.
  Context {R : CRing}.
  Variable W : nat.
  Variable IV : list nat -> R.
  Open Scope cr_scope.

  (** probability.c:173-217 function_train_sobol_interact_var.  With more
      interacting variables than variables the length dim-ninteract wraps
      and the allocation fails. *)
  Definition interact_var (dim : nat) (vars : list nat) : outcome R :=
    if dim =? length vars then Ok (IV [])
    else if dim <? length vars then Abort
    else do c <- sobol_contract dim vars; Ok (IV c).

  (** probability.c:220-237 struct SInteract; [sn_sub]: set_sub and var_subtract *)
  Record snode := mksn { sn_val : nat; sn_nl : nat; sn_label : list nat; sn_vari : R; sn_sub : option R }.
  Definition smem := list nat -> option snode.
  Definition sput (m : smem) (p : list nat) (nd : snode) : smem :=
    fun q => if list_eq_dec Nat.eq_dec q p then Some nd else m q.
  Definition snode_at (m : smem) (p : list nat) : outcome snode :=
    match m p with Some nd => Ok nd | None => UB end.

  (** probability.c:252-289 sinteract_create *)
  Definition sinteract_create (dim val nleaves : nat) (prev : list nat) : outcome snode :=
    do v <- interact_var dim (prev ++ [val]);
    Ok (mksn val nleaves (prev ++ [val]) v None).

  (** probability.c:304-320 sinteract_get_sensitivity; [vars] has [distance]
      entries.  An index that wraps below zero is outside the leaves. *)
  Fixpoint get_sensitivity (m : smem) (p vars : list nat) : outcome R :=
    do nd <- snode_at m p;
    match vars with
    | [] => match sn_sub nd with Some s => Ok (sn_vari nd -! s) | None => Ok (sn_vari nd) end
    | x :: vars' =>
        if (sn_val nd <? x) && (x - sn_val nd - 1 <? sn_nl nd)
        then get_sensitivity m (p ++ [x - sn_val nd - 1]) vars'
        else UB
    end.

  (** probability.c:504-517 c3_sobol_sensitivity_get_interaction *)
  Definition get_interaction (m : smem) (vars : list nat) : outcome R :=
    match vars with
    | [] => UB
    | [a] => do nd <- snode_at m [a]; Ok (sn_vari nd)
    | a :: vars' => get_sensitivity m [a] vars'
    end.

  (** probability.c:353-363 sinteract_push *)
  Definition sinteract_push (dim : nat) (m : smem) (p : list nat) (val which nleaves : nat) : outcome smem :=
    do nd <- snode_at m p;
    do new <- sinteract_create dim val nleaves (sn_label nd);
    if which <? sn_nl nd then Ok (sput m (p ++ [which]) new) else UB.

  (** probability.c:366-395 sinteract_compute_var_subtract *)
  Definition compute_var_subtract (m : smem) (p : list nat) : outcome smem :=
    do nd <- snode_at m p;
    let L := sn_label nd in
    do vs <- for_ (length L) (fun jj vs =>
        do il <- n_choose_k W (S (length L)) 0 (length L) jj [] [];
        for_ (length il) (fun t vs =>
          do c <- aget il t;
          do vars <- for_ (length c) (fun kk a => do i <- aget c kk; do x <- aget L i; aset a kk x) (repeat 0 (length c));
          do v <- get_interaction m vars;
          Ok (vs +! v)) vs) r0;
    Ok (sput m p (mksn (sn_val nd) (sn_nl nd) L (sn_vari nd) (Some vs))).

  (** probability.c:397-420 get_combination.  The second loop counts down; with
      [start = 0] it would never end. *)
  Fixpoint get_combination (fuel dim left start : nat) (p : list nat) (m : smem) : outcome smem :=
    match fuel with
    | 0 => OutOfFuel
    | S fuel' =>
        do m <- compute_var_subtract m p;
        if left =? 1 then
          for_from start (dim - start) (fun ii m =>
            do m <- sinteract_push dim m p ii (ii - start) 0;
            compute_var_subtract m (p ++ [ii - start])) m
        else if start =? 0 then OutOfFuel
        else
          for_ (dim - start) (fun t m =>
            let ii := dim - 1 - t in
            do m <- sinteract_push dim m p ii (ii - start) (dim - ii - 1);
            get_combination fuel' dim (spred W left) (ii + 1) (p ++ [ii - start]) m) m
    end.

  (** probability.c:432-454 c3_sobol_sensitivity_calculate: the tree *)
  Definition sobol_tree (dim order : nat) : outcome smem :=
    for_ dim (fun ii m =>
      do nd <- sinteract_create dim (dim - 1 - ii) (dim - 1) [];
      get_combination (S dim) dim (spred W order) (dim - ii) [dim - 1 - ii] (sput m [dim - 1 - ii] nd))
      (fun _ => None).

  (** probability.c:455-471: the numerators of the total effects, before the division
      by the variance *)
  Definition sobol_variance : R := IV [].
  Definition sobol_total_numerators (dim : nat) : list R :=
    tab dim (fun ii => sobol_variance -! IV [ii]).

  (** probability.c:540-543 c3_sobol_sensitivity_get_main *)
  Definition get_main (m : smem) (var : nat) : outcome R :=
    do nd <- snode_at m [var]; Ok (sn_vari nd).

  (** probability.c:338-351 sinteract_apply_external: the values and labels with which
      the given function is called, in order *)
  Fixpoint apply_external (fuel : nat) (m : smem) (p : list nat) (calls : list (R * list nat))
    : outcome (list (R * list nat)) :=
    match m p with
    | None => Ok calls
    | Some nd =>
        match fuel with
        | 0 => OutOfFuel
        | S fuel' =>
            let v := match sn_sub nd with Some s => sn_vari nd -! s | None => sn_vari nd end in
            for_ (sn_nl nd) (fun ii calls => apply_external fuel' m (p ++ [ii]) calls) (calls ++ [(v, sn_label nd)])
        end
    end.

  (** probability.c:581-590 c3_sobol_sensitivity_apply_external *)
  Definition sobol_apply_external (dim : nat) (m : smem) : outcome (list (R * list nat)) :=
    for_ dim (fun ii calls => apply_external dim m [ii] calls) [].
End SobolModel.
