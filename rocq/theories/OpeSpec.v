(** The families of polynomials behind the expansions, as in a textbook. *)
From Coq Require Import Reals.
From Verif Require Import Base FFTCheb QuadFacts OpeModel.
Open Scope R_scope.

(** Legendre polynomials (Bonnet's recurrence) *)
Fixpoint legP (n : nat) (x : R) {struct n} : R :=
  match n with
  | O => 1
  | S m => match m with
    | O => x
    | S k => (INR (2 * k + 3) * x * legP m x - INR (k + 1) * legP k x) / INR (k + 2)
    end
  end.
(** Hermite polynomials of the standard normal distribution *)
Fixpoint herP (n : nat) (x : R) {struct n} : R :=
  match n with
  | O => 1
  | S m => match m with O => x | S k => x * herP m x - INR (k + 1) * herP k x end
  end.
(** the k-th function of the family *)
Definition phi (t : ptype) (k : nat) (x : R) : R :=
  match t with
  | LEGENDRE => sqrt (INR (2 * k + 1)) * legP k x
  | CHEBYSHEV => chebT k x
  | HERMITE => herP k x / sqrt (INR (fact k))
  end.
(** coefficient [k] of an expansion and the function it stands for *)
Definition co (p : ope) (k : nat) : R := nth k (o_c p) 0.
Definition ope_fun (p : ope) (x : R) : R := rs (o_n p) (fun k => co p k * phi (o_t p) k (map_to (o_map p) x)).
