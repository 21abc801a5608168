(** Concrete commutative rings. *)
From Coq Require Import ZArith QArith Qcanon.
From Verif Require Import CRing.

(** Instances used in examples. *)
Definition Zring : CRing :=
  mkCRing Z 0%Z 1%Z Z.add Z.mul Z.sub Z.opp InitialRing.Zth.

Definition Qcring : CRing :=
  mkCRing Qc (Q2Qc 0) (Q2Qc 1) Qcplus Qcmult Qcminus Qcopp Qcrt.

