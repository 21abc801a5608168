(** Base layer of the model: outcomes of C code, checked arrays, counted loops.
    Nothing here models a particular file of the repository; these are the
    conventions described in DESIGN.md. *)
From Coq Require Export List Arith Lia Bool.
Export ListNotations.

(** Outcome of running a piece of C.
    [Abort]     : a failing [assert] or a call of [exit].
    [UB]        : undefined behaviour (array index out of bounds, NULL or
                  uninitialised slot dereferenced).
    [OutOfFuel] : the fuel given to a modelled unbounded loop was exhausted. *)
Inductive outcome (A : Type) : Type :=
| Ok (a : A)
| Abort
| UB
| OutOfFuel.
Arguments Ok {A} a.
Arguments Abort {A}.
Arguments UB {A}.
Arguments OutOfFuel {A}.

Definition obind {A B} (m : outcome A) (f : A -> outcome B) : outcome B :=
  match m with
  | Ok a => f a
  | Abort => Abort
  | UB => UB
  | OutOfFuel => OutOfFuel
  end.

Notation "'do' x <- e ; f" := (obind e (fun x => f))
  (at level 200, x pattern, e at level 100, f at level 200, right associativity).

(** [assert(b)] *)
Definition cassert (b : bool) : outcome unit := if b then Ok tt else Abort.

(** Array read and write with bounds check. *)
Definition aget {A} (l : list A) (i : nat) : outcome A :=
  match nth_error l i with Some a => Ok a | None => UB end.

Fixpoint upd {A} (l : list A) (i : nat) (a : A) : list A :=
  match l, i with
  | [], _ => []
  | _ :: t, O => a :: t
  | h :: t, S j => h :: upd t j a
  end.

Definition aset {A} (l : list A) (i : nat) (a : A) : outcome (list A) :=
  if i <? length l then Ok (upd l i a) else UB.

(** Read of a pointer slot: an unset (NULL / uninitialised) slot is UB. *)
Definition pget {A} (l : list (option A)) (i : nat) : outcome A :=
  match nth_error l i with Some (Some a) => Ok a | _ => UB end.

(** All slots must be set. *)
Fixpoint freeze {A} (l : list (option A)) : outcome (list A) :=
  match l with
  | [] => Ok []
  | Some a :: t => do r <- freeze t; Ok (a :: r)
  | None :: _ => UB
  end.

(** [for (i = lo; i < lo + n; i++) body] *)
Fixpoint for_from {S} (lo n : nat) (body : nat -> S -> outcome S) (s : S) : outcome S :=
  match n with
  | O => Ok s
  | Datatypes.S n' => do s' <- body lo s; for_from (Datatypes.S lo) n' body s'
  end.

Definition for_ {S} (n : nat) (body : nat -> S -> outcome S) (s : S) : outcome S :=
  for_from 0 n body s.

(** The array whose entry [i] is [f i]. *)
Definition tab {A} (n : nat) (f : nat -> A) : list A := map f (seq 0 n).
