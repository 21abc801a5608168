(** A run that succeeds with factorisations that may refuse also succeeds, with the same
    result, with the factorisations themselves. *)
From Coq Require Import Reals Lra.
From Verif Require Import RoundModel.
Open Scope R_scope.

Definition ref {A} (x y : outcome A) : Prop := forall r, x = Ok r -> y = Ok r.
Lemma ref_refl {A} (x : outcome A) : ref x x.
Proof. intros r H; exact H. Qed.
Lemma ref_bind {A B} (x x' : outcome A) (f f' : A -> outcome B) :
  ref x x' -> (forall v, ref (f v) (f' v)) -> ref (obind x f) (obind x' f').
Proof. intros H1 H2 r. destruct x as [v| | |]; cbn; intros H; try discriminate. rewrite (H1 v eq_refl). cbn. now apply H2. Qed.
Lemma ref_for_from {S} (b b' : nat -> S -> outcome S) lo n s :
  (forall i s, ref (b i s) (b' i s)) -> ref (for_from lo n b s) (for_from lo n b' s).
Proof.
  intros H. revert lo s; induction n as [|n IH]; intros lo s; cbn; [apply ref_refl|]. apply ref_bind; auto.
Qed.

Section Mono.
  Context {U : uops Rring} (svdf : nat -> nat -> list R -> outcome (list R * list R * list R)).
  Context (qr lq qr' lq' : nat -> qma U -> list R -> outcome (qma U * list R)) (K : uctor U) (zt : R).
  Hypothesis Hqr : forall c A M, ref (qr c A M) (qr' c A M).
  Hypothesis Hlq : forall c A M, ref (lq c A M) (lq' c A M).

  Ltac rb := repeat first
    [ apply ref_refl
    | apply Hqr | apply Hlq
    | apply ref_bind; [|intros ?]
    | apply ref_for_from; intros ? ?
    | match goal with |- ref (match ?x with _ => _ end) _ => destruct x end
    | match goal with |- ref (let '(_, _) := ?x in _) _ => destruct x end ].

  Lemma ref_orthor a : ref (ft_orthor lq a) (ft_orthor lq' a).
  Proof. unfold ft_orthor. rb. Qed.
  Lemma ref_step cap delta core A nx sz : ref (round_step svdf qr cap delta core A nx sz) (round_step svdf qr' cap delta core A nx sz).
  Proof. unfold round_step, qmarray_truncated_svd. rb. Qed.
  Theorem ref_round cap a eps : ref (ft_round_gen svdf qr lq K zt cap a eps) (ft_round_gen svdf qr' lq' K zt cap a eps).
  Proof.
    unfold ft_round_gen.
    repeat first [apply ref_refl | apply ref_orthor | apply ref_step
    | apply ref_bind; [|intros ?]
    | apply ref_for_from; intros ? ?
    | match goal with |- ref (if ?x then _ else _) _ => destruct x end
    | match goal with |- ref (match ?x with _ => _ end) _ => destruct x end ].
  Qed.
End Mono.
