(** The gradient of a parameterized train keeps the lengths of its buffers. *)
From Verif Require Import PGradTrain ParamFacts.

Lemma for_keep {S} (P : S -> Prop) body n : (forall i s s', body i s = Ok s' -> P s -> P s') ->
  forall s s', for_ n body s = Ok s' -> P s -> P s'.
Proof.
  intros H. induction n as [|n IH]; intros s s' E Hs; [injection E as <-; exact Hs|].
  rewrite for_S in E. destruct (for_ n body s) as [t| | |] eqn:Et; try discriminate. cbn [obind] in E. eapply H; eauto.
Qed.
Lemma aset_len {A} (l l' : list A) i a : aset l i a = Ok l' -> length l' = length l.
Proof. unfold aset. destruct (i <? length l); [|discriminate]. intros [= <-]. apply upd_length. Qed.
Lemma blit_len {A} (dst dst' src : list A) od os n : blit dst od src os n = Ok dst' -> length dst' = length dst.
Proof.
  unfold blit. intros E. refine (for_keep (fun d => length d = length dst) _ n _ dst dst' E eq_refl).
  intros i s s' E1 L. destruct (aget src (os + i)); try discriminate. cbn [obind] in E1. apply aset_len in E1. congruence.
Qed.
(** take the next step of a run that ended well *)
Ltac ok1 H := match type of H with
  | obind ?a _ = Ok _ => let E := fresh "E" in destruct a eqn:E; cbn [obind] in H; try discriminate H
  | (let '_ := ?t in _) = Ok _ => destruct t
  end.
Ltac lens := repeat match goal with H : aset _ _ _ = Ok _ |- _ => apply aset_len in H | H : blit _ _ _ _ _ = Ok _ |- _ => apply blit_len in H end.
Section Len.
  Context {R : CRing}.
  Open Scope cr_scope.
  Lemma fill_len (ge : list R) w n g p g' p' : pg_fill ge w n (g, p) = Ok (g', p') -> length g' = length g.
  Proof.
    intros E. refine (for_keep (fun s : list R * nat => length (fst s) = length g) _ n _ (g, p) (g', p') E eq_refl).
    intros i [a b] s' E1 L. repeat ok1 E1. injection E1 as <-. cbn [fst] in *. lens. congruence.
  Qed.
  Lemma dgemv_nx_len m n (A : list R) oA lda x ox y oy y' : dgemv_nx m n A oA lda x ox y oy = Ok y' -> length y' = length y.
  Proof.
    unfold dgemv_nx. destruct (_ || _); [now intros [= <-]|]. intros E. refine (for_keep (fun s => length s = length y) _ m _ y y' E eq_refl).
    intros i s s' E1 L. repeat ok1 E1. lens. congruence.
  Qed.
  Section Sweeps.
    Variables (dim : nat) (ranks npu npc : list nat).
    Variable evf : nat -> nat -> nat -> nat -> list R -> outcome (R * list R).
    Hypothesis Hev : forall k i u p ge v ge', evf k i u p ge = Ok (v, ge') -> length ge' = length ge.
    Let P (s0 s : pst (R := R)) : Prop := length (p_mem s) = length (p_mem s0) /\ length (p_ev s) = length (p_ev s0) /\ length (p_ge s) = length (p_ge s0).
    Lemma forward_len s s' : pg_forward dim ranks npu evf s = Ok s' -> P s s'.
    Proof.
      intros E. refine (for_keep (P s) _ dim _ s s' E _); [|now repeat split]. intros k s1 s2 E1 H1.
      repeat ok1 E1. assert (H3 : P s a1).
      { refine (for_keep (P s) _ a0 _ s1 a1 E3 H1). intros col t t' E5 H. destruct (0 <? k).
        - ok1 E5. refine (for_keep (P s) _ a _ _ t' E5 _).
          + intros row q q' E7 (Q1 & Q2 & Q3). repeat ok1 E7. injection E7 as <-. unfold P. cbn [p_mem p_ev p_ge]. apply Hev in E6. lens. repeat split; congruence.
          + destruct H as (Q1 & Q2 & Q3). unfold P. cbn [p_mem p_ev p_ge]. lens. repeat split; congruence.
        - repeat ok1 E5. injection E5 as <-. destruct H as (Q1 & Q2 & Q3). unfold P. cbn [p_mem p_ev p_ge]. apply Hev in E4. lens. repeat split; congruence. }
      injection E1 as <-. destruct (0 <? k); exact H3.
    Qed.
    Lemma backward_len (ev ge grad mem : list R) uni par ind grad' mem' : pg_backward (R := R) dim ranks npu npc ev ge grad (mem, uni, par, ind) = Ok (grad', mem') ->
      length grad' = length grad /\ length mem' = length mem.
    Proof.
      unfold pg_backward. intros E. ok1 E. destruct a as [[[[g1 m1] u1] p1] i1].
      assert (H : length g1 = length grad /\ length m1 = length mem).
      { refine (for_keep (fun t : list R * list R * nat * nat * nat => length (fst (fst (fst (fst t)))) = length grad /\ length (snd (fst (fst (fst t)))) = length mem) _ (dim - 1) _ _ _ E0 (conj eq_refl eq_refl)).
        intros zz [[[[g m] u] p] i] t' E1 [L1 L2]. cbn [fst snd] in L1, L2. ok1 E1. ok1 E1. ok1 E1. destruct (_ <? dim - 1).
        - ok1 E1. destruct a2 as [[g2 u2] p2]. ok1 E1. injection E1 as <-. cbn [fst snd].
          apply dgemv_nx_len in E6. split; [|congruence]. rewrite <- L1.
          refine (for_keep (fun t : list R * nat * nat => length (fst (fst t)) = length g) _ a0 _ _ _ E5 eq_refl).
          intros ii t t' E7 L. ok1 E7. refine (for_keep (fun t : list R * nat * nat => length (fst (fst t)) = length g) _ a _ _ _ E7 L).
          intros kk [[g3 u3] p3] t3 E9 L3. cbn [fst] in L3. repeat ok1 E9. injection E9 as <-. cbn [fst]. match goal with H : pg_fill _ _ _ _ = _ |- _ => apply fill_len in H end. congruence.
        - ok1 E1. destruct a2 as [[[g2 m2] u2] p2]. injection E1 as <-. cbn [fst snd]. rewrite <- L1, <- L2.
          refine (for_keep (fun t : list R * list R * nat * nat => length (fst (fst (fst t))) = length g /\ length (snd (fst (fst t))) = length m) _ a _ _ _ E5 (conj eq_refl eq_refl)).
          intros kk [[[g3 m3] u3] p3] t3 E9 [L3 L4]. cbn [fst snd] in L3, L4. repeat ok1 E9. injection E9 as <-. cbn [fst snd].
          match goal with H : pg_fill _ _ _ _ = _ |- _ => apply fill_len in H end. lens. split; congruence. }
      destruct H as [H1 H2]. ok1 E. ok1 E. ok1 E. ok1 E. destruct a2 as [[g2 u2] p2]. injection E as <- <-. split; [|exact H2]. rewrite <- H1.
      refine (for_keep (fun t : list R * nat * nat => length (fst (fst t)) = length g1) _ a0 _ _ _ E4 eq_refl).
      intros kk [[g3 u3] p3] t3 E9 L3. cbn [fst] in L3. repeat ok1 E9. injection E9 as <-. cbn [fst]. match goal with H : pg_fill _ _ _ _ = _ |- _ => apply fill_len in H end. congruence.
    Qed.
    Lemma gradeval_len grad ge mem ev v grad' mem' ev' ge' : pg_gradeval dim ranks npu npc evf grad ge mem ev = Ok (v, grad', mem', ev', ge') ->
      length grad' = length grad /\ length mem' = length mem /\ length ev' = length ev /\ length ge' = length ge.
    Proof.
      unfold pg_gradeval. intros E. ok1 E. ok1 E. ok1 E. ok1 E. ok1 E. destruct a3 as [g m]. injection E as _ <- <- <- <-.
      apply forward_len in E2 as (A & B & C). apply backward_len in E4 as [D1 D2]. cbn [p_mem p_ev p_ge] in *. repeat split; congruence.
    Qed.
  End Sweeps.
  Lemma ftp_gradeval_len {U} pge (ftp : ftparam R U) x grad ge mem ev v grad' mem' ev' ge' : ftp_gradeval pge ftp x grad ge mem ev = Ok (v, grad', mem', ev', ge') ->
    length grad' = length grad /\ length mem' = length mem /\ length ev' = length ev /\ length ge' = length ge.
  Proof.
    apply gradeval_len. intros k i u p g w g' E. repeat ok1 E. injection E as _ <-. lens. congruence.
  Qed.
  Lemma ftp_gradeval_lin_len {U} (ftp : ftparam R U) grad ge mem ev v grad' mem' ev' ge' : ftp_gradeval_lin ftp grad ge mem ev = Ok (v, grad', mem', ev', ge') ->
    length grad' = length grad /\ length mem' = length mem /\ length ev' = length ev /\ length ge' = length ge.
  Proof. apply gradeval_len. intros k i u p g w g' E. repeat ok1 E. injection E as _ <-. reflexivity. Qed.
End Len.
