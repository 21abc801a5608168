(** Specification vocabulary for tensors and tensor trains, independent of the
    code: entries in column-major order, elements of a train as sums over rank
    paths, sums over all multi-indices. *)
From Verif Require Export TensorModel.

Section TensorSpec.
  Context {R : CRing}.
  Open Scope cr_scope.

  (** Row-major matrices. *)
  Definition mat_wf (a : mat R) : Prop := length (m_vals a) = m_nrows a * m_ncols a.
  Definition ment (a : mat R) (i j : nat) : R := nth (i * m_ncols a + j) (m_vals a) r0.

  (** Three-way tensors: sizes and entries. *)
  Definition t3wf (t : tensor R) (n0 n1 n2 : nat) : Prop :=
    t_dim t = 3 /\ t_nvals t = [n0; n1; n2] /\ length (t_vals t) = n0 * n1 * n2.

  Definition tent (t : tensor R) (i j k : nat) : R :=
    nth (i + j * nth 0 (t_nvals t) 0 + k * nth 0 (t_nvals t) 0 * nth 1 (t_nvals t) 0) (t_vals t) r0.

  (** Position of a multi-index in column-major order. *)
  Fixpoint colmajor (ns idx : list nat) : nat :=
    match ns, idx with
    | n :: ns', e :: idx' => e + n * colmajor ns' idx'
    | _, _ => 0
    end.

  (** Element of a list of cores starting in row [i]: sum over rank paths of
      the products of core entries. *)
  Fixpoint path_sum (cs : list (tensor R)) (idx : list nat) (i : nat) : R :=
    match cs, idx with
    | c :: cs', e :: idx' =>
        sum (nth 2 (t_nvals c) 0) (fun j => tent c i e j *! path_sum cs' idx' j)
    | _, _ => r1
    end.

  Definition tt_value (t : ttrain R) (idx : list nat) : R := path_sum (tt_cores t) idx 0.

  (** Sum over all multi-indices of a grid. *)
  Fixpoint msum (ns : list nat) (f : list nat -> R) : R :=
    match ns with
    | [] => f []
    | n :: ns' => sum n (fun e => msum ns' (fun idx => f (e :: idx)))
    end.

  Definition valid_idx (ns idx : list nat) : Prop := Forall2 lt idx ns.

  (** Product of quadrature weights along a multi-index. *)
  Fixpoint wprod (w : list (list R)) (idx : list nat) : R :=
    match w, idx with
    | wk :: w', e :: idx' => nth e wk r0 *! wprod w' idx'
    | _, _ => r1
    end.

  Definition rk (t : ttrain R) (k : nat) : nat := nth k (tt_ranks t) 0.
  Definition nv (t : ttrain R) (k : nat) : nat := nth k (tt_nvals t) 0.

  (** Well-shaped tensor trains: outer ranks 1, positive ranks, and core sizes
      that agree with the rank and mode-size vectors. *)
  Definition tt_wf (t : ttrain R) : Prop :=
    0 < tt_dim t /\ length (tt_nvals t) = tt_dim t /\ length (tt_ranks t) = tt_dim t + 1 /\
    length (tt_cores t) = tt_dim t /\ rk t 0 = 1 /\ rk t (tt_dim t) = 1 /\
    forall k, k < tt_dim t -> 0 < rk t k /\
      exists c, nth_error (tt_cores t) k = Some c /\ t3wf c (rk t k) (nv t k) (rk t (S k)).
End TensorSpec.
