(** Facts about the pieces of the line searches: the projected step, the checks,
    inner products and distances. *)
From Verif Require Export Base BaseFacts TensorFacts ParamFacts FOps OptModel QuadFacts OpeFacts.
From Coq Require Import ZArith Reals Lra Psatz.
Open Scope R_scope.

Notation RO := (Rops tol15).
Ltac rnorm := change (fcar RO) with R in *.

(** ** Specification, independent of the model *)
Definition dotv (d : nat) (a b : list R) : R := rs d (fun i => nth i a 0 * nth i b 0).
Definition distv (d : nat) (a b : list R) : R := sqrt (rs d (fun i => (nth i a 0 - nth i b 0) ^ 2)).
Definition inbox (d : nat) (lb ub x : list R) : Prop :=
  length x = d /\ forall i, (i < d)%nat -> nth i lb 0 <= nth i x 0 <= nth i ub 0.
(** the point reached from [x] by the step [t], projected to the box *)
Definition reached (d : nat) (lb ub x dir : list R) (t : R) (y : list R) : Prop :=
  length y = d /\ forall i, (i < d)%nat -> nth i y 0 = Rmax (nth i lb 0) (Rmin (nth i ub 0) (nth i x 0 + t * nth i dir 0)).

Lemma reached_inbox d lb ub x dir t y : (forall i, (i < d)%nat -> nth i lb 0 <= nth i ub 0) ->
  reached d lb ub x dir t y -> inbox d lb ub y.
Proof.
  intros H (L & E). split; auto. intros i Hi. rewrite E by auto. specialize (H i Hi). split; [apply Rmax_l|].
  apply Rmax_lub; auto. apply Rmin_l.
Qed.
Lemma reached_unique d lb ub x dir t y z : reached d lb ub x dir t y -> reached d lb ub x dir t z -> y = z.
Proof.
  intros (L & E) (L2 & E2). apply (nth_ext _ _ 0 0); [congruence|]. intros i Hi. rewrite E, E2 by lia. reflexivity.
Qed.

Definition clip (l u a : R) : R := Rmax l (Rmin u a).
Lemma clip_model l u a : l <= u -> (if Rleb a l then l else if Rleb u a then u else a) = clip l u a.
Proof.
  intros H. unfold clip. destruct (Rleb_spec a l).
  - rewrite Rmax_left; auto. apply (Rle_trans _ a); auto. apply Rmin_r.
  - destruct (Rleb_spec u a).
    + rewrite Rmin_left by lra. rewrite Rmax_right; lra.
    + rewrite Rmin_right by lra. rewrite Rmax_right; lra.
Qed.

Section OptFacts.
  Variable o : lsopt RO.
  Notation d := (ls_d RO o).
  Notation lb := (ls_lb RO o : list R).
  Notation ub := (ls_ub RO o : list R).
  Hypothesis Hlb : @length R lb = d.
  Hypothesis Hub : @length R ub = d.
  Hypothesis Hle : forall i, (i < d)%nat -> nth i lb 0 <= nth i ub 0.

  Definition moved (x dir : list R) (t : R) : list R :=
    tab d (fun i => clip (nth i lb 0) (nth i ub 0) (nth i x 0 + t * nth i dir 0)).
  Lemma moved_reached x dir t : reached d lb ub x dir t (moved x dir t).
  Proof. split; [apply tab_length|]. intros i Hi. unfold moved. now rewrite nth_tab. Qed.
  Lemma moved_length x dir t : length (moved x dir t) = d.
  Proof. apply tab_length. Qed.

  Lemma odot_ok (a b : list R) : length a = d -> length b = d -> odot RO o a b = Ok (dotv d a b).
  Proof using.
    clear Hlb Hub Hle. intros Ha Hb. unfold odot. apply (for_det (fun n => rs n (fun i => nth i a 0 * nth i b 0))).
    intros i Hi. rewrite !aget_nth by lia. reflexivity.
  Qed.
  Lemma norm2diff_ok (a b : list R) : length a = d -> length b = d -> norm2diff RO sqrt o a b = Ok (distv d a b).
  Proof using.
    clear Hlb Hub Hle. intros Ha Hb. unfold norm2diff.
    rewrite (for_det (fun n => rs n (fun i => (nth i a 0 - nth i b 0) ^ 2))); [reflexivity|].
    intros i Hi. rewrite !aget_nth by lia. cbn [obind rs]. apply f_equal. cbn [fadd fmul fsub Rops].
    match goal with |- ?a = ?b => change (@eq R a b) end. ring.
  Qed.
  Lemma blit_all (dst src : list R) : length dst = d -> length src = d -> blit dst 0 src 0 d = Ok src.
  Proof using.
    clear Hlb Hub Hle. intros Hd Hs. rewrite blit_ok by (cbn; lia). cbn [skipn firstn app Nat.add]. f_equal.
    unfold splice. cbn [firstn app]. rewrite (skipn_all2 dst) by (rewrite firstn_length; lia). rewrite app_nil_r, <- Hs. apply firstn_all.
  Qed.
  Lemma x_move_ok (t : R) (x dir newx : list R) : length x = d -> length dir = d -> length newx = d ->
    x_move RO o t dir x newx = Ok (moved x dir t).
  Proof.
    intros Hx Hd Hn. unfold x_move. rewrite blit_all by auto. cbn [obind].
    destruct (upd_loop 0 d (fun i a => a + t * nth i dir 0)
      (fun ii nx => do a <- aget nx ii; do b <- aget dir ii; aset nx ii (@fadd RO a (@fmul RO t b))) x) as (c & E & L & N); [|cbn; lia|].
    { intros i c' Hi Lc _. rewrite !aget_nth by lia. reflexivity. }
    unfold for_. refine (eq_trans (f_equal (fun r => obind r _) E) _). cbn [obind].
    destruct (upd_loop 0 d (fun i a => if Rleb a (nth i lb 0) then nth i lb 0 else if Rleb (nth i ub 0) a then nth i ub 0 else a)
      (fun ii nx => do a <- aget nx ii; do l <- aget lb ii; if @fleb RO a l then aset nx ii l else
                    do u <- aget ub ii; if @fleb RO u a then aset nx ii u else Ok nx) c) as (c2 & E2 & L2 & N2); [|cbn; lia|].
    { intros i c' Hi Lc _. rewrite !aget_nth by lia. cbn [obind]. cbn [fleb Rops].
      destruct (Rleb _ _); [reflexivity|]. destruct (Rleb _ _); [reflexivity|].
      rewrite aset_ok by lia. f_equal. symmetry. apply (nth_ext _ _ 0 0); [apply upd_length|].
      intros k Hk. rewrite upd_length in Hk. rewrite nth_upd by lia. destruct (Nat.eqb_spec k i); congruence. }
    refine (eq_trans E2 _). f_equal. apply (nth_ext _ _ 0 0); [rewrite moved_length; lia|].
    intros i Hi. rewrite N2, N. unfold moved. rewrite nth_tab by lia.
    replace ((0 <=? i) && (i <? 0 + d))%nat with true by (symmetry; apply andb_true_intro; split; [reflexivity|apply Nat.ltb_lt; lia]).
    apply clip_model, Hle. lia.
  Qed.
  Lemma eval_grad_ok (g : list R -> list R) (x grad : list R) : length (g x) = d -> length grad = d -> eval_grad RO g o x grad = Ok (g x).
  Proof. intros H1 H2. now apply blit_all. Qed.

  (** the checks *)
  Lemma ls_check_pass (x : list R) : 0 < ls_alpha RO o < 1 / 2 -> inbox d lb ub x -> ls_check RO o x = Ok None.
  Proof.
    intros Ha (Hx & Hb). unfold ls_check, fhalf. cbn [fleb f0 f1 fdiv fnat fltb Rops]. change (INR 2) with 2.
    destruct (Rleb_spec (ls_alpha RO o) 0); [lra|]. destruct (Rleb_spec (1 / 2) (ls_alpha RO o)); [lra|]. cbn [orb].
    replace (Rleb (ls_beta RO o) 0 && Rleb 1 (ls_beta RO o)) with false
      by (destruct (Rleb_spec (ls_beta RO o) 0), (Rleb_spec 1 (ls_beta RO o)); auto; lra).
    rewrite (for_det (fun _ => false)); [reflexivity|]. intros i Hi. rewrite !aget_nth by lia. cbn [obind].
    specialize (Hb i Hi). rnorm. destruct (Rltb_spec (nth i x 0) (nth i lb 0)); [lra|]. f_equal.
    destruct (Rltb_spec (nth i ub 0) (nth i x 0)); [lra|reflexivity].
  Qed.
  Lemma ls_check_alpha (x : list R) : ~ (0 < ls_alpha RO o < 1 / 2) -> ls_check RO o x = Ok (Some (-1)%Z).
  Proof using.
    clear Hlb Hub Hle. intros Ha. unfold ls_check, fhalf. cbn [fleb f0 f1 fdiv fnat fltb Rops]. change (INR 2) with 2.
    destruct (Rleb_spec (ls_alpha RO o) 0); [reflexivity|]. destruct (Rleb_spec (1 / 2) (ls_alpha RO o)); [reflexivity|]. lra.
  Qed.
  Lemma ls_check_box (x : list R) : 0 < ls_alpha RO o < 1 / 2 -> length x = d -> ~ inbox d lb ub x -> ls_check RO o x = Ok (Some (-3)%Z).
  Proof.
    intros Ha Hx Hb. unfold ls_check, fhalf. cbn [fleb f0 f1 fdiv fnat fltb Rops]. change (INR 2) with 2.
    destruct (Rleb_spec (ls_alpha RO o) 0); [lra|]. destruct (Rleb_spec (1 / 2) (ls_alpha RO o)); [lra|]. cbn [orb].
    replace (Rleb (ls_beta RO o) 0 && Rleb 1 (ls_beta RO o)) with false
      by (destruct (Rleb_spec (ls_beta RO o) 0), (Rleb_spec 1 (ls_beta RO o)); auto; lra).
    destruct (for_inv (fun n (b : bool) => b = false -> forall i, (i < n)%nat -> nth i lb 0 <= nth i x 0 <= nth i ub 0)
      (fun ii (bad : bool) => if bad then Ok bad else do a <- aget x ii; do l <- aget lb ii;
         if Rltb a l then Ok true else do u <- aget ub ii; Ok (Rltb u a)) d false) as (b & E & I).
    { intros _ i Hi. lia. }
    { intros i b Hi IH. destruct b; [exists true; split; auto; discriminate|].
      rewrite !aget_nth by lia. cbn [obind]. rnorm. destruct (Rltb_spec (nth i x 0) (nth i lb 0)); [exists true; split; auto; discriminate|].
      eexists. split; [reflexivity|]. destruct (Rltb_spec (nth i ub 0) (nth i x 0)); [discriminate|].
      intros _ j Hj. destruct (Nat.eq_dec j i) as [->|]; [lra|]. apply IH; auto; lia. }
    refine (eq_trans (f_equal (fun r => obind r _) E) _). cbn [obind]. destruct b; [reflexivity|]. destruct Hb. split; auto.
  Qed.
End OptFacts.
