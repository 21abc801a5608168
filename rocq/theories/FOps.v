(** Numbers with comparisons, as the nodal function classes (linelm.c,
    constelm.c) use them: C doubles without rounding.  The model is written once
    over these operations; theorems are about the instance [Rops] (real numbers,
    any tolerance), concrete runs use the computable instance [Qops]. *)
From Verif Require Import Base GridModel.
From Coq Require Import ZArith QArith Qcanon Reals Lra.

Record fops := mkFops {
  fcar :> Type;
  f0 : fcar;
  f1 : fcar;
  fadd : fcar -> fcar -> fcar;
  fsub : fcar -> fcar -> fcar;
  fmul : fcar -> fcar -> fcar;
  fdiv : fcar -> fcar -> fcar;
  fabs : fcar -> fcar;
  fltb : fcar -> fcar -> bool;      (* < *)
  fleb : fcar -> fcar -> bool;      (* <= *)
  fnat : nat -> fcar;               (* integer constants 2.0, 3.0, ... *)
  ftol : fcar                       (* the literal 1e-15 *)
}.

Arguments f0 {f}.
Arguments f1 {f}.
Arguments fadd {f}.
Arguments fsub {f}.
Arguments fmul {f}.
Arguments fdiv {f}.
Arguments fabs {f}.
Arguments fltb {f}.
Arguments fleb {f}.
Arguments fnat {f}.
Arguments ftol {f}.

Declare Scope fop_scope.
Delimit Scope fop_scope with fop.
Infix "+^" := fadd (at level 50, left associativity) : fop_scope.
Infix "-^" := fsub (at level 50, left associativity) : fop_scope.
Infix "*^" := fmul (at level 40, left associativity) : fop_scope.
Infix "/^" := fdiv (at level 40, left associativity) : fop_scope.
Infix "<^" := fltb (at level 70) : fop_scope.
Infix "<=^" := fleb (at level 70) : fop_scope.

(** Real numbers; the tolerance is a parameter. *)
Definition Rltb (x y : R) : bool := if Rlt_dec x y then true else false.
Definition Rleb (x y : R) : bool := if Rle_dec x y then true else false.
Definition Rops (tol : R) : fops :=
  mkFops R 0%R 1%R Rplus Rminus Rmult Rdiv Rabs Rltb Rleb INR tol.

(** The tolerance that is written in the code. *)
Definition tol15 : R := (/ 10 ^ 15)%R.

(** Rational numbers; computable. *)
Definition Qcltb (x y : Qc) : bool := match Qccompare x y with Lt => true | _ => false end.
Definition Qcleb (x y : Qc) : bool := match Qccompare x y with Gt => false | _ => true end.
Definition Qcabs' (x : Qc) : Qc := if Qcltb x 0%Qc then Qcopp x else x.
Definition Qops : fops :=
  mkFops Qc 0%Qc 1%Qc Qcplus Qcminus Qcmult Qcdiv Qcabs' Qcltb Qcleb nat2qc
         (Q2Qc (1 # 1000000000000000)).

Lemma Rltb_spec x y : reflect (x < y)%R (Rltb x y).
Proof. unfold Rltb. destruct (Rlt_dec x y); now constructor. Qed.
Lemma Rleb_spec x y : reflect (x <= y)%R (Rleb x y).
Proof. unfold Rleb. destruct (Rle_dec x y); now constructor. Qed.
Lemma tol15_pos : (0 < tol15)%R.
Proof. unfold tol15. apply Rinv_0_lt_compat, pow_lt. lra. Qed.
