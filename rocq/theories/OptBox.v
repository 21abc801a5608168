(** The backtracking line search. *)
From Verif Require Import OptFacts.
From Coq Require Import ZArith Reals Lra Psatz.
Open Scope R_scope.

Section OptBox.
  Variable f : list R -> R.
  Variable o : lsopt RO.
  Notation d := (ls_d RO o).
  Notation lb := (ls_lb RO o : list R).
  Notation ub := (ls_ub RO o : list R).
  Notation alpha := (ls_alpha RO o : R).
  Notation beta := (ls_beta RO o : R).
  Hypothesis Hlb : length lb = d.
  Hypothesis Hub : length ub = d.
  Hypothesis Hle : forall i, (i < d)%nat -> nth i lb 0 <= nth i ub 0.
  Variables (x dir : list R) (fx dg : R).
  Hypothesis Hx : length x = d.
  Hypothesis Hd : length dir = d.

  Definition phi (t : R) : R := f (moved o x dir t).
  Definition armijo (t : R) : Prop := phi t <= fx + alpha * t * dg.

  (** what the loop leaves: the step, where it ended, how many evaluations *)
  Definition box_post (mx : nat) (r : R * list R * R * Z * nat) (k : nat) : Prop :=
    let '(t, newx, newf, info, nf) := r in
    t = beta ^ k /\ newx = moved o x dir t /\ newf = phi t /\
    (k + 2 <= Nat.max 2 mx)%nat /\ (nf <= k + 2)%nat /\ (nf <= Nat.max 1 mx)%nat /\
    (forall j, (j < k)%nat -> ~ armijo (beta ^ j) /\ ls_absx RO o <= distv d (moved o x dir (beta ^ j)) x) /\
    ((info = 0%Z /\ (armijo t \/ distv d newx x < ls_absx RO o)) \/
     (info = 1%Z /\ ~ armijo t /\ k = (mx - 2)%nat)).

  Lemma box_loop_ok fuel iter (newx : list R) newf :
    let k := (iter - 2)%nat in
    (1 <= iter)%nat -> (iter <= Nat.max 1 (ls_max RO o))%nat -> (ls_max RO o + 2 <= fuel + iter)%nat -> (1 <= fuel)%nat ->
    length newx = d -> newx = moved o x dir (beta ^ k) -> newf = phi (beta ^ k) ->
    (forall j, (j < k)%nat -> ~ armijo (beta ^ j) /\ ls_absx RO o <= distv d (moved o x dir (beta ^ j)) x) ->
    ((2 <= iter)%nat -> ls_absx RO o <= distv d (moved o x dir (beta ^ k)) x) ->
    exists r k', box_loop RO sqrt f o fuel iter x dir fx dg (beta ^ k) (fx + alpha * beta ^ k * dg) newx newf iter = Ok r /\
      box_post (ls_max RO o) r k'.
  Proof using Hd Hx Hle Hub Hlb.
    revert iter newx newf. induction fuel as [|fuel IH]; intros iter newx newf k H1 Hm Hf Hf1 Ln En Ev HA HD; [lia|].
    cbn [box_loop]. cbn [fltb Rops].
    destruct (Rltb_spec (fx + alpha * beta ^ k * dg) newf) as [Hlt|Hge]; cbn [negb].
    2:{ eexists _, k. split; [reflexivity|]. unfold box_post. do 7 (split; [first [reflexivity|assumption|subst k; lia]|]).
        left. split; [reflexivity|]. left. unfold armijo. rewrite <- Ev. lra. }
    assert (NA : ~ armijo (beta ^ k)) by (unfold armijo; rewrite <- Ev; lra).
    destruct (Nat.leb_spec (ls_max RO o) iter) as [Hmx|Hmx].
    { eexists _, k. split; [reflexivity|]. unfold box_post. do 7 (split; [first [reflexivity|assumption|subst k; lia]|]).
      right. split; [reflexivity|]. split; [assumption|]. subst k. lia. }
    set (t' := if (1 <? iter)%nat then _ else _).
    assert (Et : t' = beta ^ (iter + 1 - 2)).
    { unfold t', k. destruct (Nat.ltb_spec 1 iter); cbn [fmul Rops].
      - replace (iter + 1 - 2)%nat with (S (iter - 2)) by lia. reflexivity.
      - replace iter with 1%nat by lia. reflexivity. }
    cbn [fadd fmul Rops]. rewrite (x_move_ok o Hlb Hub Hle t' x dir newx Hx Hd Ln). cbn [obind].
    rewrite (norm2diff_ok o (moved o x dir t') x (moved_length o x dir t') Hx). cbn [obind].
    assert (HA' : forall j, (j < iter + 1 - 2)%nat -> ~ armijo (beta ^ j) /\ ls_absx RO o <= distv d (moved o x dir (beta ^ j)) x).
    { intros j Hj. destruct (Nat.lt_ge_cases j k); [now apply HA|]. replace j with k by (unfold k in *; lia). split; auto. apply HD. lia. }
    destruct (Rltb_spec (distv d (moved o x dir t') x) (ls_absx RO o)).
    { eexists _, (iter + 1 - 2)%nat. split; [reflexivity|]. unfold box_post. rewrite Et.
      do 7 (split; [first [reflexivity|assumption|lia]|]). left. split; [reflexivity|]. right. now rewrite <- Et. }
    rewrite Et. replace (S iter) with (iter + 1)%nat by lia.
    apply IH; auto; try lia; [apply moved_length|]. intros _. rewrite <- Et. rnorm. lra.
  Qed.
End OptBox.
