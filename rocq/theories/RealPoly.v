(** Polynomials with real coefficients on [0,1] as univariate functions. *)
From Verif Require Import RealInst FTSpec.
From Coq Require Import Reals Lra.
Open Scope R_scope.

Fixpoint rpeval (p : list R) (x : R) : R :=
  match p with [] => 0 | c :: p' => c + x * rpeval p' x end.
Fixpoint rpadd (p q : list R) : list R :=
  match p, q with [], _ => q | _, [] => p | a :: p', b :: q' => (a + b) :: rpadd p' q' end.
Definition rpscale (a : R) (p : list R) : list R := map (Rmult a) p.
Fixpoint rpmul (p q : list R) : list R :=
  match p with [] => [] | a :: p' => rpadd (rpscale a q) (0 :: rpmul p' q) end.
Fixpoint rpintk (k : nat) (p : list R) : R :=
  match p with [] => 0 | c :: p' => c / INR (S k) + rpintk (S k) p' end.
(** derivative of [c + x q]: [q + x q'] *)
Fixpoint rpderiv (p : list R) : list R :=
  match p with [] => [] | _ :: p' => rpadd p' (0 :: rpderiv p') end.

Definition rpolyU : uops Rring :=
  mkuops Rring (list R) rpeval (fun _ => true) (rpintk 0) (fun f g => rpintk 0 (rpmul f g)) rpmul
  (fun a f b g => match g with None => rpscale a f | Some g => rpadd (rpscale a f) (rpscale b g) end)
  (fun l => fold_right (fun p acc => rpadd (rpscale (fst p) (snd p)) acc) [] l)
  (fun l => fold_right (fun p acc => rpadd (rpmul (fst p) (snd p)) acc) [] l)
  rpderiv.

Lemma rpeval_add p q x : rpeval (rpadd p q) x = rpeval p x + rpeval q x.
Proof.
  revert q; induction p as [|a p IH]; intros [|b q]; simpl; try ring. rewrite IH. ring.
Qed.
Lemma rpeval_scale a p x : rpeval (rpscale a p) x = a * rpeval p x.
Proof. induction p as [|b p IH]; simpl; [ring|]. rewrite IH. ring. Qed.
Lemma rpeval_mul p q x : rpeval (rpmul p q) x = rpeval p x * rpeval q x.
Proof. induction p as [|a p IH]; simpl; [ring|]. rewrite rpeval_add, rpeval_scale. simpl. rewrite IH. ring. Qed.

Lemma rpderiv_ok p t : derivable_pt_lim (rpeval p) t (rpeval (rpderiv p) t).
Proof.
  induction p as [|c p IH].
  - simpl. apply derivable_pt_lim_const.
  - simpl rpderiv. rewrite rpeval_add. simpl rpeval.
    replace (rpeval p t + (0 + t * rpeval (rpderiv p) t))
      with (0 + (1 * rpeval p t + id t * rpeval (rpderiv p) t)) by (unfold id; ring).
    apply (derivable_pt_lim_plus (fun _ => c) (fun x => x * rpeval p x)).
    + apply derivable_pt_lim_const.
    + apply (derivable_pt_lim_mult id (rpeval p)); auto. apply derivable_pt_lim_id.
Qed.
