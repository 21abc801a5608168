(** Specification vocabulary for derivatives of function trains. *)
From Verif Require Export FTDiffModel FTSpec.

Section FTDiffSpec.
  Context {R : CRing} {U : uops R}.

  (** Sum over rank paths with one functional per dimension. *)
  Definition path_value (f : ftrain U) (h : nat -> U -> R) : R :=
    tsum (tab (ft_dim f) h) (terms (ft_cores f) 0).

  (** The point [x] with coordinate [k] replaced by [t]. *)
  Definition with_coord (x : list R) (k : nat) (t : R) : list R :=
    firstn k x ++ t :: skipn (S k) x.

  (** Partial derivative in direction [i] as a sum over rank paths in which
      the i-th factor is replaced by its derivative; [dev g t] is the
      derivative of [g] at [t]. *)
  Definition train_partial (dev : U -> R -> R) (f : ftrain U) (i : nat) (x : list R) : R :=
    path_value f (fun k g => if k =? i then dev g (nth k x r0) else uev g (nth k x r0)).
End FTDiffSpec.
