(** The real numbers as scalars. *)
From Coq Require Import Reals Lra.
From Verif Require Import CRing.

Definition Rring : CRing :=
  mkCRing R 0%R 1%R Rplus Rmult Rminus Ropp RTheory.

(** C's [pow] on a non-negative base and a positive exponent. *)
Definition cpow (x y : R) : R := if Req_EM_T x 0 then 0%R else Rpower x y.

(** The two numbers computed at the head of function_train_constant
    (ft.c:1723-1727). *)
Definition csign (a : R) : R := if Rlt_dec a 0 then (-1)%R else 1%R.
Definition croot (a : R) (d : nat) : R := cpow (Rabs a) (1 / INR d).

Lemma lprod_const (a : Rring) (n : nat) : lprod (repeat a n) = pow a n.
Proof. induction n as [|n IH]; [reflexivity|]. cbn [repeat]. change (lprod (a :: repeat a n)) with (Rmult a (lprod (repeat a n))). now rewrite IH. Qed.

Lemma croot_pow a d : 0 < d -> (csign a * croot a d ^ d = a)%R.
Proof.
  intros Hd. unfold csign, croot, cpow.
  assert (Hd' : (0 < INR d)%R) by now apply lt_0_INR.
  destruct (Req_EM_T (Rabs a) 0) as [E|E].
  - assert (a = 0)%R as ->.
    { destruct (Req_dec a 0) as [|N]; auto. now apply Rabs_no_R0 in N. }
    rewrite pow_i by auto. now rewrite Rmult_0_r.
  - assert (Hp : (0 < Rabs a)%R) by (pose proof (Rabs_pos a); lra).
    rewrite <- Rpower_pow by (unfold Rpower; apply exp_pos).
    rewrite Rpower_mult. replace (1 / INR d * INR d)%R with 1%R by (field; lra).
    rewrite Rpower_1 by auto.
    destruct (Rlt_dec a 0).
    + rewrite Rabs_left by auto. lra.
    + rewrite Rabs_right by lra. lra.
Qed.
