(** Model of c3/lib_funcs/fwrap.c: the stateful wrapper around user functions.

    [X] is the type of coordinates (double, or size_t for type "general-index"),
    [Y] that of values.  User functions are pure and total, defined on the block
    of memory they are given; vectorised ones get the number of points and the
    block of all points, and return the block of values with a return code.
    Memory leaks (re-initialisation without clean-up; the index branch of
    fwrap_eval_fiber) are not modelled. *)
From Verif Require Import Base IdxModel.

Section Fwrap.
  Context {X Y : Type} (zero : X).

  (** enum Ftype, fwrap.c 51; "python" is VEC with a flag that is never read. *)
  Inductive ftype := ND | INTND | VEC | MOVEC | ARRVEC.
  Definition ftype_eqb (a b : ftype) : bool :=
    match a, b with
    | ND, ND | INTND, INTND | VEC, VEC | MOVEC, MOVEC | ARRVEC, ARRVEC => true
    | _, _ => false
    end.

  Definition vfun := nat -> list X -> list Y * nat.

  (** struct Fwrap, fwrap.c 75-109.  Pointers that fwrap_create leaves
      uninitialised are [None]: reading them is undefined.  f and intf are one
      field, the type decides which. *)
  Record fwrap := mkfw {
    fw_d : nat; fw_type : ftype;
    fw_f : option (list X -> Y);
    fw_fvec : option vfun;
    fw_mofvec : option (nat -> vfun);
    fw_evalfunc : nat;
    fw_arr : option (list (option vfun));
    fw_fiber_approx : bool; fw_fiber_dim : nat; fw_nfibers : nat;
    fw_fiber_vals : option (list (list X));
    fw_onfiber : nat
  }.

  (** fwrap_create, fwrap.c 114-161; the type string is already decoded.  (NULL as
      a type, which the code means to allow, is passed to strcmp first.) *)
  Definition fwrap_create (dim : nat) (t : ftype) : fwrap :=
    mkfw dim t None None None 0 None false 0 0 None 0.

  Definition set_f' fw f := mkfw (fw_d fw) (fw_type fw) f (fw_fvec fw) (fw_mofvec fw)
    (fw_evalfunc fw) (fw_arr fw) (fw_fiber_approx fw) (fw_fiber_dim fw) (fw_nfibers fw)
    (fw_fiber_vals fw) (fw_onfiber fw).
  Definition set_fvec' fw f := mkfw (fw_d fw) (fw_type fw) (fw_f fw) f (fw_mofvec fw)
    (fw_evalfunc fw) (fw_arr fw) (fw_fiber_approx fw) (fw_fiber_dim fw) (fw_nfibers fw)
    (fw_fiber_vals fw) (fw_onfiber fw).
  Definition set_mofvec' fw f := mkfw (fw_d fw) (fw_type fw) (fw_f fw) (fw_fvec fw) f
    (fw_evalfunc fw) (fw_arr fw) (fw_fiber_approx fw) (fw_fiber_dim fw) (fw_nfibers fw)
    (fw_fiber_vals fw) (fw_onfiber fw).
  Definition set_evalfunc' fw n := mkfw (fw_d fw) (fw_type fw) (fw_f fw) (fw_fvec fw)
    (fw_mofvec fw) n (fw_arr fw) (fw_fiber_approx fw) (fw_fiber_dim fw) (fw_nfibers fw)
    (fw_fiber_vals fw) (fw_onfiber fw).
  Definition set_arr' fw a := mkfw (fw_d fw) (fw_type fw) (fw_f fw) (fw_fvec fw)
    (fw_mofvec fw) (fw_evalfunc fw) a (fw_fiber_approx fw) (fw_fiber_dim fw) (fw_nfibers fw)
    (fw_fiber_vals fw) (fw_onfiber fw).
  Definition set_fib' fw ap dm nf vals := mkfw (fw_d fw) (fw_type fw) (fw_f fw) (fw_fvec fw)
    (fw_mofvec fw) (fw_evalfunc fw) (fw_arr fw) ap dm nf vals (fw_onfiber fw).
  Definition set_onfiber' fw k := mkfw (fw_d fw) (fw_type fw) (fw_f fw) (fw_fvec fw)
    (fw_mofvec fw) (fw_evalfunc fw) (fw_arr fw) (fw_fiber_approx fw) (fw_fiber_dim fw)
    (fw_nfibers fw) (fw_fiber_vals fw) k.

  (** fwrap_set_f and fwrap_set_findex, fwrap.c 178-202. *)
  Definition fwrap_set_f (fw : fwrap) (f : list X -> Y) : outcome fwrap :=
    if ftype_eqb (fw_type fw) ND || ftype_eqb (fw_type fw) INTND
    then Ok (set_f' fw (Some f)) else Abort.
  (** fwrap_set_fvec, fwrap.c 207-218. *)
  Definition fwrap_set_fvec (fw : fwrap) (f : vfun) : outcome fwrap :=
    if ftype_eqb (fw_type fw) VEC then Ok (set_fvec' fw (Some f)) else Abort.
  (** fwrap_set_mofvec, fwrap.c 223-234. *)
  Definition fwrap_set_mofvec (fw : fwrap) (f : nat -> vfun) : outcome fwrap :=
    if ftype_eqb (fw_type fw) MOVEC then Ok (set_mofvec' fw (Some f)) else Abort.
  (** fwrap_set_which_eval, fwrap.c 240-244: no range check. *)
  Definition fwrap_set_which_eval (fw : fwrap) (which : nat) : outcome fwrap :=
    Ok (set_evalfunc' fw which).
  (** fwrap_set_num_funcs, fwrap.c 259-270: the entries stay uninitialised. *)
  Definition fwrap_set_num_funcs (fw : fwrap) (n : nat) : outcome fwrap :=
    if ftype_eqb (fw_type fw) ARRVEC then Ok (set_arr' fw (Some (repeat None n))) else Abort.
  (** fwrap_set_func_array, fwrap.c 275-287 (nfuncs is the length of the array;
      before fwrap_set_num_funcs it is uninitialised). *)
  Definition fwrap_set_func_array (fw : fwrap) (ind : nat) (f : vfun) : outcome fwrap :=
    if ftype_eqb (fw_type fw) ARRVEC then
      match fw_arr fw with
      | None => UB
      | Some a =>
          do _ <- cassert (ind <? length a);
          do a <- aset a ind (Some f);
          Ok (set_arr' fw (Some a))
      end
    else Abort.

  (** fwrap_initialize_fiber_approx, fwrap.c 372-398: onfiber is not reset. *)
  Definition fwrap_initialize_fiber_approx (fw : fwrap) (ind nfibers : nat) : outcome fwrap :=
    Ok (set_fib' fw true ind nfibers (Some (repeat (repeat zero (fw_d fw)) nfibers))).

  (** fwrap_add_fiber, fwrap.c 410-446. *)
  Definition fwrap_add_fiber (fw : fwrap) (ind nl : nat) (left : list X)
      (nr : nat) (right : list X) : outcome fwrap :=
    do _ <- cassert (fw_fiber_approx fw);
    do _ <- cassert (nl + nr + 1 =? fw_d fw);
    do _ <- cassert (nl =? fw_fiber_dim fw);
    do _ <- cassert (ind <? fw_nfibers fw);
    match fw_fiber_vals fw with
    | None => UB
    | Some vals =>
        do v <- aget vals ind;
        do v <- copyn nl left 0 v 0;
        do v <- copyn nr right 0 v (nl + 1);
        do vals <- aset vals ind v;
        Ok (set_fib' fw (fw_fiber_approx fw) (fw_fiber_dim fw) (fw_nfibers fw) (Some vals))
    end.

  (** fwrap_set_which_fiber, fwrap.c 451-460. *)
  Definition fwrap_set_which_fiber (fw : fwrap) (which : nat) : outcome fwrap :=
    do _ <- cassert (fw_fiber_approx fw);
    do _ <- cassert (which <? fw_nfibers fw);
    Ok (set_onfiber' fw which).

  (** fwrap_clean_fiber_approx, fwrap.c 467-480. *)
  Definition fwrap_clean_fiber_approx (fw : fwrap) : outcome fwrap :=
    Ok (set_fib' fw false (fw_fiber_dim fw) 0 None).

  (** The block of [n] elements a user function gets by the pointer [x + off]. *)
  Definition slice (x : list X) (off n : nat) : outcome (list X) :=
    if off + n <=? length x then Ok (firstn n (skipn off x)) else UB.

  (** Evaluating a function of one point at [nevals] points. *)
  Definition eval_points (d nevals : nat) (f : list X -> Y) (x : list X)
    : outcome (list Y * nat) :=
    do out <- for_ nevals (fun ii out =>
        do p <- slice x (ii * d) d;
        aset out ii (Some (f p))) (repeat None nevals);
    do out <- freeze out;
    Ok (out, 0).

  (** The dispatch on the type, common to fwrap_eval (fwrap.c 318-346) and
      fwrap_eval_fiber (508-535). *)
  Definition dispatch (fw : fwrap) (nevals : nat) (x : list X) : outcome (list Y * nat) :=
    match fw_type fw with
    | ND | INTND =>
        match fw_f fw with None => UB | Some f => eval_points (fw_d fw) nevals f x end
    | VEC => match fw_fvec fw with None => UB | Some f => Ok (f nevals x) end
    | MOVEC =>
        match fw_mofvec fw with None => UB | Some f => Ok (f (fw_evalfunc fw) nevals x) end
    | ARRVEC =>
        match fw_arr fw with
        | None => UB
        | Some a =>
            do f <- aget a (fw_evalfunc fw);
            match f with None => UB | Some f => Ok (f nevals x) end
        end
    end.

  (** fwrap_eval_fiber, fwrap.c 488-540. *)
  Definition fwrap_eval_fiber (fw : fwrap) (nevals : nat) (x : list X)
    : outcome (list Y * nat) :=
    match fw_fiber_vals fw with
    | None => UB
    | Some vals =>
        do fv <- aget vals (fw_onfiber fw);
        do xeval <- for_ nevals (fun ii xeval =>
            do xeval <- for_ (fw_d fw) (fun jj xeval =>
                do v <- aget fv jj; aset xeval (ii * fw_d fw + jj) v) xeval;
            do t <- aget x ii;
            aset xeval (ii * fw_d fw + fw_fiber_dim fw) t) (repeat zero (nevals * fw_d fw));
        dispatch fw nevals xeval
    end.

  (** fwrap_eval, fwrap.c 309-347. *)
  Definition fwrap_eval (fw : fwrap) (nevals : nat) (x : list X) : outcome (list Y * nat) :=
    if fw_fiber_approx fw then fwrap_eval_fiber fw nevals x
    else dispatch fw nevals x.

  (** Calls of the interface. *)
  Inductive fop :=
  | OSetF (f : list X -> Y)
  | OSetVec (f : vfun)
  | OSetMo (f : nat -> vfun)
  | OWhich (k : nat)
  | ONum (n : nat)
  | OArr (ind : nat) (f : vfun)
  | OInit (dim n : nat)
  | OAdd (ind : nat) (left right : list X)
  | OFiber (k : nat)
  | OClean
  | OEval (nevals : nat) (x : list X).

  Definition fstep (fw : fwrap) (o : fop) : outcome fwrap :=
    match o with
    | OSetF f => fwrap_set_f fw f
    | OSetVec f => fwrap_set_fvec fw f
    | OSetMo f => fwrap_set_mofvec fw f
    | OWhich k => fwrap_set_which_eval fw k
    | ONum n => fwrap_set_num_funcs fw n
    | OArr i f => fwrap_set_func_array fw i f
    | OInit dm n => fwrap_initialize_fiber_approx fw dm n
    | OAdd i l r => fwrap_add_fiber fw i (length l) l (length r) r
    | OFiber k => fwrap_set_which_fiber fw k
    | OClean => fwrap_clean_fiber_approx fw
    | OEval n x => do _ <- fwrap_eval fw n x; Ok fw
    end.

  Fixpoint frun (fw : fwrap) (ops : list fop) : outcome fwrap :=
    match ops with
    | [] => Ok fw
    | o :: ops => do fw <- fstep fw o; frun fw ops
    end.
End Fwrap.
Arguments fop : clear implicits.
Arguments fwrap : clear implicits.
