(** Specification of piecewise polynomials: the pieces from left to right. *)
From Coq Require Import Reals.
From Verif Require Import Base PwModel.
Open Scope R_scope.

(** the pieces of a tree from left to right *)
Fixpoint pieces {L} (t : pw L) : list L :=
  match t with
  | Leaf l => l :: nil
  | Node bs => flat_map pieces bs
  end.

(** no node without branches *)
Fixpoint proper {L} (t : pw L) : Prop :=
  match t with
  | Leaf _ => True
  | Node bs => bs <> nil /\ (fix all bs := match bs with nil => True | b :: r => proper b /\ all r end) bs
  end.

(** the pieces are intervals that cover [u,v] from left to right *)
Fixpoint tiles {L} (lb ub : L -> R) (u : R) (ls : list L) (v : R) : Prop :=
  match ls with
  | nil => u = v
  | l :: r => lb l = u /\ lb l < ub l /\ tiles lb ub (ub l) r v
  end.

(** a piecewise function on [u,v] *)
Definition on {L} (K : leafops L) (u v : R) (t : pw L) : Prop :=
  proper t /\ tiles (l_lb K) (l_ub K) u (pieces t) v.

(** the piece at x: the first whose upper bound, plus the tolerance, is above x *)
Fixpoint piece_at {L} (ub : L -> R) (tm : R) (ls : list L) (x : R) (l : L) : Prop :=
  match ls with
  | nil => False
  | m :: r => (x < ub m + tm /\ l = m) \/ (ub m + tm <= x /\ piece_at ub tm r x l)
  end.

(** the sum of a quantity over the pieces *)
Definition psum {L} (f : L -> R) (ls : list L) : R := fold_right (fun l s => f l + s) 0 ls.
