(** What kernel expansions are: sums of weighted Gaussian bumps. *)
From Coq Require Import Reals List.
Import ListNotations.
Open Scope R_scope.

(** weight, height, squared width and centre of one bump *)
Record bump := mkbump { b_a : R; b_s : R; b_w : R; b_c : R }.

Definition sumF {A} (F : A -> R) (l : list A) : R := fold_right (fun t r => F t + r) 0 l.

Definition bump_val (t : bump) (x : R) : R := b_s t * exp (- ((x - b_c t) * (x - b_c t)) / b_w t).

(** the function *)
Definition kfun (ts : list bump) (x : R) : R := sumF (fun t => b_a t * bump_val t x) ts.

Definition widths_pos (ts : list bump) : Prop := forall t, In t ts -> 0 < b_w t.
