(** What piecewise-linear and piecewise-constant nodal functions are, stated
    without reference to the code: relations between nodes, nodal values, a point
    and a value. *)
From Coq Require Import List Reals Lra Lia.
Import ListNotations.
Local Open Scope R_scope.

Definition nd (l : list R) (i : nat) : R := nth i l 0.

(** The first [n] entries are strictly increasing. *)
Definition sinc (n : nat) (xs : list R) : Prop :=
  forall i, (S i < n)%nat -> nd xs i < nd xs (S i).

(** (x,y) lies on the straight line through (x0,y0) and (x1,y1). *)
Definition on_line (x0 y0 x1 y1 x y : R) : Prop :=
  (y - y0) * (x1 - x0) = (y1 - y0) * (x - x0).

(** (x,y) lies on the polygon through the first [n] points. *)
Definition Interp (n : nat) (xs ys : list R) (x y : R) : Prop :=
  exists i, (S i < n)%nat /\ nd xs i <= x <= nd xs (S i) /\
            on_line (nd xs i) (nd ys i) (nd xs (S i)) (nd ys (S i)) x y.

(** The same polygon as a function (0 outside the nodes). *)
Fixpoint pl (n : nat) (xs ys : list R) (x : R) : R :=
  match n, xs, ys with
  | S ((S _) as n'), x0 :: ((x1 :: _) as xs'), y0 :: ((y1 :: _) as ys') =>
      if Rle_dec x x1 then y0 + (y1 - y0) * ((x - x0) / (x1 - x0))
      else pl n' xs' ys' x
  | _, _, _ => 0
  end.

(** [k] is a node nearest to [x]. *)
Definition Nearest (n : nat) (xs : list R) (x : R) (k : nat) : Prop :=
  (k < n)%nat /\ forall j, (j < n)%nat -> Rabs (x - nd xs k) <= Rabs (x - nd xs j).

(** (x,y) lies on the graph of the step function which has the value of the
    nearest node; halfway between two nodes the right one counts. *)
Definition Step (n : nat) (xs ys : list R) (x y : R) : Prop :=
  exists k, Nearest n xs x k /\ (forall j, Nearest n xs x j -> (j <= k)%nat) /\ y = nd ys k.
