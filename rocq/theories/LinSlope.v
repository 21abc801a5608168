(** Trains with univariate functions that are linear in their parameters: how the
    functions and the entries of the cores depend on single parameters. *)
From Verif Require Export PropPGrad PAllocFacts.

Section LinSlope.
  Context {R : CRing} {F : Type}.
  Open Scope cr_scope.
  Add Ring Rr41 : (rth R).
  Notation G := (gfn R F).

  Lemma ev_slope ev bas (u : G) l v y t : linear_in_params ev bas -> gf_wf u -> nth_error (gf_params u) l = Some v ->
    ev (gf_with u (upd (gf_params u) l t)) y -! ev u y = (t -! v) *! nth l (bas u y) r0.
  Proof.
    intros [L1 L2] Wu Ev. assert (Hl : l < length (gf_params u)) by (apply nth_error_Some; congruence).
    set (u' := gf_with u (upd (gf_params u) l t)).
    destruct (gf_with_spec u (upd (gf_params u) l t) Wu) as (W' & P' & R').
    { rewrite upd_length. now apply gf_params_length. }
    fold u' in W', P', R'.
    destruct (L1 u y Wu) as [La Ea]. destruct (L1 u' y W') as [_ Eb]. rewrite Ea, Eb.
    rewrite P', upd_length, (L2 u' u y W' Wu R').
    enough (E : sum (length (gf_params u)) (fun i => nth i (upd (gf_params u) l t) r0 *! nth i (bas u y) r0)
            = sum (length (gf_params u)) (fun i => nth i (gf_params u) r0 *! nth i (bas u y) r0)
              +! (t -! v) *! nth l (bas u y) r0) by (rewrite E; ring).
    transitivity (sum (length (gf_params u)) (fun i => nth i (gf_params u) r0 *! nth i (bas u y) r0
       +! (if i =? l then (t -! v) *! nth l (bas u y) r0 else r0))).
    + apply sum_ext. intros i Hi. destruct (Nat.eqb_spec i l) as [->|Ne].
      * rewrite (nth_error_nth _ _ _ Ev), (nth_error_nth _ _ r0 (nth_error_upd_same _ _ _ Hl)). ring.
      * rewrite (nth_error_nth (upd (gf_params u) l t) i r0 (x := nth i (gf_params u) r0)); [ring|].
        rewrite nth_error_upd_other by auto. now apply nth_error_nth'.
    + rewrite sum_add. f_equal. rewrite (sum_single _ _ _ l); auto.
      * now rewrite Nat.eqb_refl.
      * intros i Hi Ne. destruct (Nat.eqb_spec i l); congruence.
  Qed.

  (** Writing parameters twice, and writing the parameters that are there *)
  Lemma ftw_with (ftp : ftparam R G) th th1 : ftp_ok ftp -> length th = fp_nparams ftp -> length th1 = fp_nparams ftp ->
    ft_with (ft_with (fp_ft ftp) th) th1 = ft_with (fp_ft ftp) th1.
  Proof.
    intros O L L1.
    destruct (ftp_set nobad ftp th O L) as (g & _ & Oa & Sa & Eg); [auto|]. subst g.
    destruct (ftp_set nobad ftp th1 O L1) as (g & _ & Ob & Sb & Eg); [auto|]. subst g.
    destruct (ftp_set nobad _ th1 Oa L1) as (g & _ & Oc & Sc & Eg); [auto|]. subst g.
    cbn [set_ftp fp_ft] in *. apply C10_determined; [apply Oc|apply Ob| |].
    - destruct Sa as (A1 & A2 & A3), Sb as (B1 & B2 & B3), Sc as (C1 & C2 & C3). split; [congruence|]. split; congruence.
    - destruct Oc as (_ & _ & _ & _ & _ & _ & Q1), Ob as (_ & _ & _ & _ & _ & _ & Q2).
      cbn [set_ftp fp_ft fp_params] in *. unfold train_params in *. congruence.
  Qed.

  Lemma ftw_self (ftp : ftparam R G) : ftp_ok ftp -> ft_with (fp_ft ftp) (fp_params ftp) = fp_ft ftp.
  Proof.
    intros O. destruct (ftp_set nobad ftp (fp_params ftp) O (ftp_params_length ftp O)) as (g & _ & Oa & Sa & Eg); [auto|]. subst g.
    apply C10_determined; [apply Oa|apply O| |].
    - destruct Sa as (A1 & A2 & A3). split; [|split]; symmetry; assumption.
    - destruct Oa as (_ & _ & _ & _ & _ & _ & Q1), O as (_ & _ & _ & _ & _ & _ & Q2).
      cbn [set_ftp fp_ft fp_params] in *. unfold train_params in *. congruence.
  Qed.

  (** Adding [t] to parameter [n] *)
  Definition bump (n : nat) (t : R) (th : list R) : list R := upd th n (nth n th r0 +! t).
  Lemma bump_length n t th : length (bump n t th) = length th.
  Proof. apply upd_length. Qed.
  Lemma bump_comm m n s t th : bump m s (bump n t th) = bump n t (bump m s th).
  Proof.
    unfold bump. revert m n. induction th as [|a th IH]; intros [|m] [|n]; cbn [upd nth]; auto.
    - f_equal. ring.
    - f_equal. apply IH.
  Qed.
  Lemma bump_nth n t th : n < length th -> nth n (bump n t th) r0 = nth n th r0 +! t.
  Proof. intros L. apply nth_error_nth. now apply nth_error_upd_same. Qed.
End LinSlope.
