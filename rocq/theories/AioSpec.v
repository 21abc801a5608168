(** All-at-once regression as in a textbook: every answer to the optimizer is the
    true objective at the parameters it asked for, and the result is the train with
    the parameters it stopped at.  [objective] is that of AlsSpec. *)
From Verif Require Export AlsSpec.

Section Spec.
  Context {R : CRing} {F : Type}.
  Open Scope cr_scope.
  Variable z : gfn R F.
  Variable ev : gfn R F -> R -> R.
  Notation U := (evU z ev).
  Variable nsq : gfn R F -> R.
  Variable rdiv : R -> nat -> R.
  Variable f0 : ftrain U.
  Variable data : sldata (R := R).
  Variable weights : option (list R).
  (** Half of the regularization weight *)
  Variable reg : option R.

  (** Weighted sum of the squared norms of all functions of the train *)
  Definition penalty (hw : R) (th : list R) : R :=
    fold_right (fun u a => hw *! nsq u +! a) r0 (flat_map fs (ft_cores (ft_with f0 th))).
  Definition total (th : list R) (ind : option nat) : R :=
    objective z ev rdiv f0 data weights th ind +! match reg with None => r0 | Some hw => penalty hw th end.

  Variable G : list R -> option nat -> nat -> R -> Prop.
  Variable n : nat.

  Inductive answers : strat (R := R) -> list (event (R := R)) -> list R -> Prop :=
  | a_stop g : answers (Stop g) [EDone 0 g] g
  | a_ask p ind want k v g evs th :
      v = total p ind ->
      (if want : bool then length g = n /\ (forall j, j < n -> exists e, nth_error g j = Some e /\ G p ind j e) else g = []) ->
      answers (k v g) evs th ->
      answers (Ask p ind want k) (EAsk 0 p ind want v g :: evs) th.

  (** An optimizer that respects the interface *)
  Fixpoint asks_ok (s : strat (R := R)) : Prop :=
    match s with
    | Stop g => length g = n
    | Ask p ind want k =>
        length p = n /\ (match ind with None => True | Some i => i < d_N data end) /\ forall v g, asks_ok (k v g)
    end.
End Spec.

Lemma answers_mono {R : CRing} {F} (z : gfn R F) ev nsq rdiv f0 data weights reg (G G' : list R -> option nat -> nat -> R -> Prop) n s evs th :
  (forall th ind n g, G th ind n g -> G' th ind n g) ->
  answers z ev nsq rdiv f0 data weights reg G n s evs th -> answers z ev nsq rdiv f0 data weights reg G' n s evs th.
Proof.
  intros HG. induction 1 as [|p ind want k v g evs th Ev Hg _ IH]; [constructor|]. constructor; auto.
  destruct want; auto. destruct Hg as [L Hg]. split; auto. intros j Hj. destruct (Hg j Hj) as (e & A & B). eauto.
Qed.
