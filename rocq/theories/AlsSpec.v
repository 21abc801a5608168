(** Alternating least squares as in a textbook: only the parameters are kept, every
    value is computed from scratch, and the optimizer of a subproblem is shown the
    true objective.  Uses of the model: the types of the strategies and events of
    the optimizer, and [ft_with f p], the train [f] with parameters [p]. *)
From Verif Require Export AlsModel PropPGrad.

Section Spec.
  Context {R : CRing} {F : Type}.
  Open Scope cr_scope.
  Variable z : gfn R F.
  Variable ev : gfn R F -> R -> R.
  Notation U := (evU z ev).
  Variable rdiv : R -> nat -> R.
  Variable opt : list (event (R := R)) -> nat -> list R -> strat (R := R).
  Variable conv : ftrain U -> ftrain U -> bool.
  (** The initial train, the samples and their weights *)
  Variable f0 : ftrain U.
  Variable data : sldata (R := R).
  Variable weights : option (list R).

  Definition counts : list nat := map (fun c : qma (gfn R F) => length (flat_map gf_params (fs c))) (ft_cores f0).
  (** Number of parameters of core [c], and of the cores before it *)
  Definition npar (c : nat) : nat := nth c counts 0.
  Definition first (c : nat) : nat := list_sum (firstn c counts).

  Definition at_ (th : list R) : ftrain U := ft_with f0 th.
  Definition sample (s : nat) : list R := firstn (ft_dim f0) (skipn (s * ft_dim f0) (d_x data)).
  Definition target (s : nat) : R := nth s (d_y data) r0.
  Definition weight (s : nat) : R := match weights with None => r1 | Some w => nth s w r0 end.
  Definition value (th : list R) (s : nat) : R := train_value (at_ th) (sample s).

  (** All samples, or one *)
  Definition chosen (ind : option nat) : list nat := match ind with None => seq 0 (d_N data) | Some i => [i] end.
  Definition lsum (l : list nat) (g : nat -> R) : R := fold_right (fun s a => g s +! a) r0 l.

  (** Mean of the weighted squared residuals *)
  Definition objective (th : list R) (ind : option nat) : R :=
    rdiv (lsum (chosen ind) (fun s => weight s *! ((target s -! value th s) *! (target s -! value th s))))
         (length (chosen ind)).

  (** [G th ind n g]: [g] is an admissible derivative of the objective with respect
      to parameter [n] at the parameters [th]. *)
  Variable G : list R -> option nat -> nat -> R -> Prop.

  (** What the strategy of core [c] does to the parameters *)
  Inductive follows (c : nat) : strat (R := R) -> list R -> list (event (R := R)) -> list R -> Prop :=
  | f_stop g th : follows c (Stop g) th [EDone c g] (splice (first c) g th)
  | f_ask p ind want k th v g evs th' :
      v = objective (splice (first c) p th) ind ->
      (if want : bool then length g = npar c /\
         (forall j, j < npar c -> exists e, nth_error g j = Some e /\ G (splice (first c) p th) ind (first c + j) e)
       else g = []) ->
      follows c (k v g) (splice (first c) p th) evs th' ->
      follows c (Ask p ind want k) th (EAsk c p ind want v g :: evs) th'.

  (** Solving the subproblems of the cores of a list, each starting from the
      current parameters of the core *)
  Inductive steps : list nat -> list (event (R := R)) -> list R -> list (event (R := R)) -> list R -> Prop :=
  | s_nil log th : steps [] log th log th
  | s_cons c cs log th evs th1 log' th' :
      follows c (opt log c (firstn (npar c) (skipn (first c) th))) th evs th1 ->
      steps cs (log ++ evs) th1 log' th' ->
      steps (c :: cs) log th log' th'.

  (** One sweep: forward over all cores, backward over the interior ones *)
  Definition order : list nat := seq 0 (ft_dim f0) ++ rev (seq 1 (ft_dim f0 - 2)).

  Inductive run : nat -> list (event (R := R)) -> list R -> list (event (R := R)) -> list R -> Prop :=
  | r_max log th : run 0 log th log th
  | r_stop max log th log' th' :
      steps order log th log' th' -> conv (at_ th') (at_ th) = true -> run (S max) log th log' th'
  | r_go max log th log1 th1 log' th' :
      steps order log th log1 th1 -> conv (at_ th1) (at_ th) = false ->
      run max log1 th1 log' th' -> run (S max) log th log' th'.

  (** An optimizer that respects the interface: parameter arrays of the right
      length, samples that exist, and - with functions that are not linear in their
      parameters - gradients only of the complete objective. *)
  Fixpoint strat_ok (lin : bool) (n : nat) (s : strat (R := R)) : Prop :=
    match s with
    | Stop g => length g = n
    | Ask p ind want k =>
        length p = n /\ (match ind with None => True | Some i => i < d_N data end) /\
        (lin = false -> want = true -> ind = None) /\
        forall v g, strat_ok lin n (k v g)
    end.
  Definition opt_ok (lin : bool) : Prop :=
    forall log c guess, c < ft_dim f0 -> length guess = npar c -> strat_ok lin (npar c) (opt log c guess).
End Spec.

(** Weaker requirements on the gradients *)
Section Mono.
  Context {R : CRing} {F : Type}.
  Variables (z : gfn R F) (ev : gfn R F -> R -> R) (rdiv : R -> nat -> R).
  Variables (opt : list (event (R := R)) -> nat -> list R -> strat (R := R)) (conv : ftrain (evU z ev) -> ftrain (evU z ev) -> bool).
  Variables (f0 : ftrain (evU z ev)) (data : sldata (R := R)) (weights : option (list R)).
  Variables G G' : list R -> option nat -> nat -> R -> Prop.
  Hypothesis HG : forall th ind n g, G th ind n g -> G' th ind n g.

  Lemma follows_mono c s th evs th' :
    follows z ev rdiv f0 data weights G c s th evs th' -> follows z ev rdiv f0 data weights G' c s th evs th'.
  Proof.
    induction 1 as [|p ind want k th v g evs th' Ev Hg _ IH]; [constructor|]. constructor; auto.
    destruct want; auto. destruct Hg as [L Hg]. split; auto. intros j Hj. destruct (Hg j Hj) as (e & A & B). eauto.
  Qed.
  Lemma steps_mono cs log th log' th' :
    steps z ev rdiv opt f0 data weights G cs log th log' th' -> steps z ev rdiv opt f0 data weights G' cs log th log' th'.
  Proof. induction 1; econstructor; eauto using follows_mono. Qed.
  Lemma run_mono max log th log' th' :
    run z ev rdiv opt conv f0 data weights G max log th log' th' -> run z ev rdiv opt conv f0 data weights G' max log th log' th'.
  Proof.
    induction 1; [constructor| |].
    - eapply r_stop; eauto using steps_mono.
    - eapply r_go; eauto using steps_mono.
  Qed.
End Mono.
