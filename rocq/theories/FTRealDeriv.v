(** Over the real numbers the sum-over-paths formula with one differentiated
    factor is the partial derivative of the train. *)
From Verif Require Export FTPert RealInst.
From Coq Require Import Reals Lra.

Lemma deriv_sum (n : nat) (F : nat -> R -> R) (F' : nat -> R) (t : R) :
  (forall i, i < n -> derivable_pt_lim (F i) t (F' i)) ->
  derivable_pt_lim (fun s => sum (R := Rring) n (fun i => F i s)) t (sum (R := Rring) n F').
Proof.
  induction n as [|n IH]; intros H.
  - cbn [sum]. apply derivable_pt_lim_const.
  - cbn [sum]. apply (derivable_pt_lim_plus (fun s => sum (R := Rring) n (fun i => F i s)) (F n)).
    + apply IH. intros i Hi. apply H. lia.
    + apply H. lia.
Qed.

Lemma deriv_scal (c : R) (F : R -> R) (l t : R) :
  derivable_pt_lim F t l -> derivable_pt_lim (fun s => (c * F s)%R) t (c * l)%R.
Proof. intros H. now apply derivable_pt_lim_scal. Qed.

Lemma deriv_scal_r (c : R) (F : R -> R) (l t : R) :
  derivable_pt_lim F t l -> derivable_pt_lim (fun s => (F s * c)%R) t (l * c)%R.
Proof.
  intros H. rewrite (Rmult_comm l c). eapply derivable_pt_lim_ext; [|apply (derivable_pt_lim_scal F c t l H)].
  intros s. unfold mult_real_fct. ring.
Qed.

Section RealDeriv.
  Context {U : uops Rring}.
  Variable dev : U -> R -> R.
  Hypothesis Hdev : forall (g : U) (t : R), derivable_pt_lim (uev (R := Rring) g) t (dev g t).

  Lemma deriv_ent (c : qma U) i j t :
    derivable_pt_lim (fun s => ent (R := Rring) (fun g : U => uev (R := Rring) g s) c i j) t (ent (R := Rring) (fun g : U => dev g t) c i j).
  Proof.
    unfold ent. destruct (entry c i j) as [g|].
    - apply Hdev.
    - apply derivable_pt_lim_const.
  Qed.

  Theorem partial_derivative (f : ftrain U) (x : list R) (i : nat) :
    ft_wf f -> length x = ft_dim f -> i < ft_dim f ->
    derivable_pt_lim (fun t => train_value (R := Rring) f (with_coord (R := Rring) x i t)) (nth i x 0%R)
      (train_partial (R := Rring) dev f i x).
  Proof.
    intros Wf Hx Hi. change (@length (car Rring) x = ft_dim f) in Hx.
    set (M := fM (R := Rring) f (fun k (g : U) => uev (R := Rring) g (nth k x 0%R))).
    set (B := bw (R := Rring) (frk f) M (ft_dim f - 1 - i) (S i)).
    assert (E : forall t, train_value (R := Rring) f (with_coord (R := Rring) x i t)
       = sum (R := Rring) (frk f i) (fun a => (fw (R := Rring) (frk f) M i a
            * sum (R := Rring) (frk f (S i)) (fun b => (ent (R := Rring) (fun g : U => uev (R := Rring) g t) (fco f i) a b * B b)%R))%R)).
    { intros t. rewrite train_value_path by (rewrite with_coord_length; lia).
      etransitivity; [|exact (pt_with f Wf (fun (g : U) t => uev (R := Rring) g t) (0%R : Rring) x Hx i t Hi)].
      unfold hpert. apply path_value_ext. intros q g Hq. change (@r0 Rring) with 0%R.
      f_equal. apply (with_coord_nth (R := Rring)). lia. }
    eapply derivable_pt_lim_ext; [intros t; symmetry; apply E|].
    assert (E' : train_partial (R := Rring) dev f i x
       = sum (R := Rring) (frk f i) (fun a => (fw (R := Rring) (frk f) M i a
            * sum (R := Rring) (frk f (S i)) (fun b => (ent (R := Rring) (fun g : U => dev g (nth i x 0%R)) (fco f i) a b * B b)%R))%R)).
    { unfold train_partial. rewrite path_value_bw by auto.
      etransitivity; [|exact (bw_repl (R := Rring) (frk f) M i (fun a b => ent (R := Rring) (fun g : U => dev g (nth i x 0%R)) (fco f i) a b) (ft_dim f) (frk_0 f Wf) Hi)].
      apply bw_ext; [rewrite frk_0 by auto; lia|]. intros k a b _ _ _. unfold repl, M, fM.
      destruct (Nat.eqb_spec k i) as [->|]; reflexivity. }
    rewrite E'. apply deriv_sum. intros a Ha. apply deriv_scal. apply deriv_sum. intros b Hb.
    apply deriv_scal_r. apply deriv_ent.
  Qed.
End RealDeriv.
