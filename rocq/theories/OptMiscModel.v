(** Model of the derivative checks, the stored history and the copy of the optimizer
    of c3/lib_optimization/optimization.c.

    Simplifications: arithmetic without rounding; the objective and its gradient are
    functions of the point; formatting of the printed numbers is left out, a printed
    line is the list of the numbers on it. *)
From Verif Require Import Base FOps ParamModel OptModel.
Open Scope nat_scope.

Section Check.
  Variable K : fops.
  Variable fsqrt : K -> K.
  Variable f : list K -> K.
  Variable g : list K -> list K.
  Open Scope fop_scope.

  (** optimization.c 1030-1064 c3opt_check_deriv and 1077-1120 c3opt_check_deriv_each
      (the same loop, which fills diffs as well; without the buffer nothing is written
      there).  Returned: the number, diffs, and the evaluations made. *)
  Definition check_deriv (d : nat) (x : list K) (eps : K) (diffs : option (list K)) : outcome (K * option (list K) * nat) :=
    do x1 <- blit (repeat f0 d) 0 x 0 d;
    do x2 <- blit (repeat f0 d) 0 x 0 d;
    do grad <- blit (repeat f0 d) 0 (g x) 0 d;
    do (_, _, diff, norm, diffs, ne) <- for_ d (fun ii '(x1, x2, diff, norm, diffs, ne) =>
      do a <- aget x1 ii; do x1 <- aset x1 ii (a +^ eps);
      do b <- aget x2 ii; do x2 <- aset x2 ii (b -^ eps);
      let v1 := f x1 in
      let v2 := f x2 in
      let fd := (v1 -^ v2) /^ fnat 2 /^ eps in
      do gi <- aget grad ii;
      do diffs <- match diffs with
                  | None => Ok None
                  | Some l => do l <- aset l ii (fd -^ gi); Ok (Some l)
                  end;
      do a <- aget x1 ii; do x1 <- aset x1 ii (a -^ eps);
      do b <- aget x2 ii; do x2 <- aset x2 ii (b +^ eps);
      Ok (x1, x2, diff +^ (fd -^ gi) *^ (fd -^ gi), norm +^ fd *^ fd, diffs, ne + 2)) (x1, x2, f0, f0, diffs, 1);
    Ok (fsqrt (if f1 <^ norm then diff /^ norm else diff), diffs, ne).
End Check.

(** ** The history *)
(** The stored points (stored_x; stored_grad is the same): the buffer and niters *)
Record hist (A : Type) := mkhist { h_buf : list A; h_n : nat }.
Arguments mkhist {A}.
Arguments h_buf {A}.
Arguments h_n {A}.

(** 806-807 in c3opt_set_storage_options: d * sizeof(double) * maxiter numbers *)
Definition hist_alloc {A} (z : A) (d maxiter : nat) : hist A := mkhist (repeat z (d * 8 * maxiter)) 0.

(** 1943-1966 (first point), 2061-2070 with 2201, 2694-2696 with 2763, 2879-2883:
    memmove(opt->stored_x+opt->niters*opt->d,x,d*sizeof(double)); opt->niters++ *)
Definition hist_store {A} (d : nat) (h : hist A) (x : list A) : outcome (hist A) :=
  do b <- blit (h_buf h) (h_n h * d) x 0 d;
  Ok (mkhist b (h_n h + 1)).

(** 840-855 in c3opt_print_stored_values: the numbers of the points, line by line *)
Definition hist_print {A} (d : nat) (h : hist A) : outcome (list (list A)) :=
  for_ (h_n h) (fun ii lines =>
    do line <- for_ d (fun jj line => do a <- aget (h_buf h) (ii * h_n h + jj); Ok (line ++ [a])) [];
    Ok (lines ++ [line])) [].

(** ** Copies *)
(** 472-504 in c3opt_alloc: the length of the workspace *)
Inductive optalg := BFGS | LBFGS | BATCHGRAD | SGD.
Definition work_len (alg : optalg) (d : nat) : nat :=
  match alg with BFGS | LBFGS | SGD => 4 * d | BATCHGRAD => 2 * d end.

(** 530-586 c3opt_copy: the workspace (553-563; 4 d numbers are moved for each of
    these algorithms) and the history (574-585; memmove counts bytes, and its argument
    is the number of bytes of d * maxiter numbers) *)
Definition copy_work {A} (z : A) (alg : optalg) (d : nat) (work : list A) : outcome (list A) :=
  blit (repeat z (work_len alg d)) 0 work 0 (4 * d).
Definition copy_hist {A} (z : A) (d maxiter : nat) (h : hist A) : outcome (hist A) :=
  do b <- blit (h_buf (hist_alloc z d maxiter)) 0 (h_buf h) 0 (d * maxiter);
  Ok (mkhist b (h_n h)).
