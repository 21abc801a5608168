(** The truncation sweep over an orthogonalised train: norms and inner products. *)
From Coq Require Import Reals Lra.
From Verif Require Export RoundSvd PropOrth FTProd.
Open Scope R_scope.

Lemma rsum_le n f g : (forall i, (i < n)%nat -> f i <= g i) -> rsum n f <= rsum n g.
Proof. induction n as [|n IH]; intros H; cbn; [lra|]. specialize (IH (fun i Hi => H i (Nat.lt_lt_succ_r _ _ Hi))). specialize (H n (Nat.lt_succ_diag_r n)). lra. Qed.

Section Sweep.
  Context {U : uops Rring} (P : (U -> R) -> Prop).
  Notation inn := (fun f g : U => (uinner f g : R)).
  Notation e2 := (ent2 (R := Rring) (fun f g : U => uinner f g)).
  Notation en := (ent (R := Rring)).

  (** Inner products with a fixed function are among the functionals [P]. *)
  Hypothesis Pin : forall g : U, P (fun f => (uinner f g : R)).
  Hypothesis Sym : forall f g : U, (uinner f g : R) = uinner g f.

  (** B = M C and B = C M under [P]. *)
  Definition lmul (B : qma U) (M : nat -> nat -> R) (C : qma U) : Prop :=
    forall phi i j, P phi -> (i < nr B)%nat -> (j < nc B)%nat ->
      en phi B i j = rsum (nr C) (fun k => M i k * en phi C k j).
  Definition rmul (B : qma U) (C : qma U) (M : nat -> nat -> R) : Prop :=
    forall phi i j, P phi -> (i < nr B)%nat -> (j < nc B)%nat ->
      en phi B i j = rsum (nc C) (fun k => M k j * en phi C i k).

  Lemma e2_sym B i j D l b : e2 B i j D l b = e2 D l b B i j.
  Proof. unfold ent2. destruct (entry B i j), (entry D l b); auto. Qed.
  Lemma e2_en B i j D l b : e2 B i j D l b = match entry D l b with Some g => en (fun f => uinner f g) B i j | None => 0 end.
  Proof. unfold ent2, ent. destruct (entry B i j), (entry D l b); auto. Qed.
  Lemma lmul_e2 B M C D i j l b : lmul B M C -> (i < nr B)%nat -> (j < nc B)%nat ->
    e2 B i j D l b = rsum (nr C) (fun k => M i k * e2 C k j D l b).
  Proof.
    intros H Hi Hj. rewrite e2_en. destruct (entry D l b) as [g|] eqn:E.
    - rewrite (H _ i j (Pin g) Hi Hj). apply rsum_ext. intros k _. rewrite e2_en, E. reflexivity.
    - symmetry. apply rsum_zero. intros k _. rewrite e2_en, E. ring.
  Qed.
  Lemma rmul_e2 B C M D i j l b : rmul B C M -> (i < nr B)%nat -> (j < nc B)%nat ->
    e2 B i j D l b = rsum (nc C) (fun k => M k j * e2 C i k D l b).
  Proof.
    intros H Hi Hj. rewrite e2_en. destruct (entry D l b) as [g|] eqn:E.
    - rewrite (H _ i j (Pin g) Hi Hj). apply rsum_ext. intros k _. rewrite e2_en, E. reflexivity.
    - symmetry. apply rsum_zero. intros k _. rewrite e2_en, E. ring.
  Qed.

  (** Inner product of two suffixes, from row [i] and row [l]. *)
  Fixpoint v2 (cs ds : list (qma U)) (i l : nat) : R :=
    match cs, ds with
    | c :: cs', d :: ds' => rsum (nc c) (fun j => rsum (nc d) (fun m => e2 c i j d l m * v2 cs' ds' j m))
    | _, _ => 1
    end.
  Lemma v2_val2 cs ds : length cs = length ds -> forall i l,
    v2 cs ds i l = val2 (R := Rring) (repeat (fun f g : U => uinner f g) (length cs)) cs ds i l.
  Proof.
    revert ds; induction cs as [|c cs IH]; intros [|d ds] H i l; try discriminate; [reflexivity|].
    cbn [length repeat v2 val2]. rewrite rsum_sum. apply (sum_ext Rring). intros j _.
    rewrite rsum_sum. apply (sum_ext Rring). intros m _. rewrite IH by (now injection H). reflexivity.
  Qed.
  Lemma v2_sym cs ds i l : v2 cs ds i l = v2 ds cs l i.
  Proof.
    revert ds i l; induction cs as [|c cs IH]; intros [|d ds] i l; try reflexivity.
    cbn [v2]. rewrite rsum_swap. apply rsum_ext. intros j _. apply rsum_ext. intros m _. now rewrite e2_sym, IH.
  Qed.
  Lemma v2_lmul B M C cs ds i l : lmul B M C -> (i < nr B)%nat -> nc B = nc C -> ds <> [] ->
    v2 (B :: cs) ds i l = rsum (nr C) (fun k => M i k * v2 (C :: cs) ds k l).
  Proof.
    intros H Hi Hc Hd. destruct ds as [|d ds]; [congruence|]. cbn [v2]. rewrite Hc.
    transitivity (rsum (nc C) (fun j => rsum (nr C) (fun k => rsum (nc d) (fun m => M i k * (e2 C k j d l m * v2 cs ds j m))))).
    - apply rsum_ext. intros j Hj. rewrite rsum_swap. apply rsum_ext. intros m _.
      rewrite (lmul_e2 B M C d i j l m H Hi) by lia. rewrite <- rsum_mul_r. apply rsum_ext. intros; ring.
    - rewrite rsum_swap. apply rsum_ext. intros k _. rewrite <- rsum_scal. apply rsum_ext. intros j _. apply rsum_scal.
  Qed.

  (** Rows of a suffix are orthonormal. *)
  Definition row_orth (c : qma U) : Prop :=
    forall i j, (i < nr c)%nat -> (j < nr c)%nat -> row_ip c i j = if (i =? j)%nat then 1 else 0.
  Lemma suffix_orth cs r : chain r cs 1 -> (forall c, In c cs -> row_orth c) ->
    forall i j, (i < r)%nat -> (j < r)%nat -> v2 cs cs i j = if (i =? j)%nat then 1 else 0.
  Proof.
    revert r; induction cs as [|c cs IH]; intros r Hc Ho i j Hi Hj.
    - cbn in Hc. subst r. assert (i = 0%nat) as -> by lia. assert (j = 0%nat) as -> by lia. reflexivity.
    - destruct Hc as (Hr & Hw & Hp & Hp' & Hc). cbn [v2]. rewrite <- (Ho c (or_introl eq_refl) i j) by lia.
      unfold row_ip. apply rsum_ext. intros a Ha.
      transitivity (rsum (nc c) (fun m => (if (m =? a)%nat then 1 else 0) * e2 c i a c j m)).
      + apply rsum_ext. intros m Hm. rewrite (IH (nc c) Hc (fun x H => Ho x (or_intror H)) a m Ha Hm).
        rewrite Nat.eqb_sym. ring.
      + now apply delta_sum.
  Qed.

  (** One truncation: A is replaced by the core [Ua] of [rank] columns and the next core G
      by [temp]; [w] are the singular values of A and [V] its right singular vectors. *)
  Record step (A G : qma U) (rank : nat) (Ua temp : qma U) (w : nat -> R) (V : nat -> nat -> R) : Prop := {
    st_A : qwf A; st_U : qwf Ua; st_T : qwf temp;
    st_Unr : nr Ua = nr A; st_Unc : nc Ua = rank; st_Tnr : nr temp = rank; st_Tnc : nc temp = nc G;
    st_G : nr G = nc A;
    st_rank : (1 <= rank <= nc A)%nat;
    st_AA : forall a b, (a < nc A)%nat -> (b < nc A)%nat ->
              col_ip2 A a A b = rsum (nc A) (fun k => w k * w k * (V k a * V k b));
    st_AU : forall a b, (a < nc A)%nat -> (b < rank)%nat -> col_ip2 A a Ua b = w b * V b a;
    st_UU : forall a b, (a < rank)%nat -> (b < rank)%nat -> col_ip Ua a b = if (a =? b)%nat then 1 else 0;
    st_V : forall k l, (k < nc A)%nat -> (l < nc A)%nat ->
             rsum (nc A) (fun a => V k a * V l a) = if (k =? l)%nat then 1 else 0;
    st_temp : lmul temp (fun b a => w b * V b a) G }.
  Definition dropped (n rank : nat) (w : nat -> R) : R := rsum (n - rank) (fun k => w (rank + k)%nat * w (rank + k)%nat).

  (** How the ranks are chosen. *)
  Context (rule : nat -> nat -> (nat -> R) -> Prop).
  Inductive sweep : qma U -> list (qma U) -> list (qma U) -> R -> Prop :=
  | sweep_nil A : sweep A [] [A] 0
  | sweep_cons A G Gs rank Ua temp w V outs dd :
      step A G rank Ua temp w V -> rule (nc A) rank w -> sweep temp Gs outs dd ->
      sweep A (G :: Gs) (Ua :: outs) (dropped (nc A) rank w + dd).

  Lemma sweep_ne A Gs outs dd : sweep A Gs outs dd -> outs <> [].
  Proof. destruct 1; discriminate. Qed.
  Lemma sweep_len A Gs outs dd : sweep A Gs outs dd -> length outs = S (length Gs).
  Proof. induction 1; cbn; auto. Qed.

  Definition tr (n : nat) (f : nat -> nat -> R) : R := rsum n (fun i => f i i).

  Lemma tr_cons (A B : qma U) cs ds : nr A = nr B ->
    tr (nr A) (v2 (A :: cs) (B :: ds)) = rsum (nc A) (fun a => rsum (nc B) (fun b => col_ip2 A a B b * v2 cs ds a b)).
  Proof.
    intros H. unfold tr. cbn [v2]. rewrite rsum_swap. apply rsum_ext. intros a _. rewrite rsum_swap. apply rsum_ext. intros b _.
    unfold col_ip2. apply rsum_mul_r.
  Qed.

  (** Σ_k w_k² *)
  Lemma tr_head A G rank Ua temp w V Gs : step A G rank Ua temp w V ->
    chain (nr G) (G :: Gs) 1 -> (forall c, In c (G :: Gs) -> row_orth c) ->
    tr (nr A) (v2 (A :: G :: Gs) (A :: G :: Gs)) = rsum (nc A) (fun k => w k * w k).
  Proof.
    intros S Hc Ho. rewrite tr_cons by reflexivity.
    transitivity (rsum (nc A) (fun a => col_ip2 A a A a)).
    - apply rsum_ext. intros a Ha.
      transitivity (rsum (nc A) (fun b => (if (b =? a)%nat then 1 else 0) * col_ip2 A a A b)); [|now apply delta_sum].
      apply rsum_ext. intros b Hb. rewrite (suffix_orth _ _ Hc Ho a b) by (rewrite (st_G _ _ _ _ _ _ _ S); auto).
      rewrite Nat.eqb_sym. ring.
    - transitivity (rsum (nc A) (fun a => rsum (nc A) (fun k => w k * w k * (V k a * V k a)))).
      + apply rsum_ext. intros a Ha. now rewrite (st_AA _ _ _ _ _ _ _ S).
      + rewrite rsum_swap. apply rsum_ext. intros k Hk. rewrite rsum_scal, (st_V _ _ _ _ _ _ _ S) by auto.
        rewrite Nat.eqb_refl. ring.
  Qed.
  Lemma tr_temp A G rank Ua temp w V Gs : step A G rank Ua temp w V ->
    chain (nr G) (G :: Gs) 1 -> (forall c, In c (G :: Gs) -> row_orth c) ->
    tr (nr temp) (v2 (temp :: Gs) (temp :: Gs)) = rsum rank (fun k => w k * w k).
  Proof.
    intros S Hc Ho. unfold tr. rewrite (st_Tnr _ _ _ _ _ _ _ S). apply rsum_ext. intros k Hk.
    pose proof (st_rank _ _ _ _ _ _ _ S) as Hr. pose proof (st_Tnr _ _ _ _ _ _ _ S) as Ht. pose proof (st_G _ _ _ _ _ _ _ S) as HG.
    rewrite (v2_lmul temp _ G Gs (temp :: Gs) k k (st_temp _ _ _ _ _ _ _ S)) by (try lia; try discriminate; apply S).
    rewrite HG.
    transitivity (rsum (nc A) (fun a => w k * w k * (V k a * V k a))).
    - apply rsum_ext. intros a Ha. rewrite v2_sym.
      rewrite (v2_lmul temp _ G Gs (G :: Gs) k a (st_temp _ _ _ _ _ _ _ S)) by (try lia; try discriminate; apply S).
      rewrite HG. rewrite (rsum_ext _ _ (fun b => (if (b =? a)%nat then 1 else 0) * (w k * V k b))).
      + rewrite delta_sum by auto. ring.
      + intros b Hb. rewrite (suffix_orth _ _ Hc Ho b a) by lia. ring.
    - rewrite rsum_scal, (st_V _ _ _ _ _ _ _ S) by lia. rewrite Nat.eqb_refl. ring.
  Qed.
  (** Replacing A by Ua and G by temp leaves both traces alone. *)
  Lemma tr_UU A G rank Ua temp w V outs : step A G rank Ua temp w V ->
    tr (nr A) (v2 (Ua :: outs) (Ua :: outs)) = tr rank (v2 outs outs).
  Proof.
    intros S. rewrite <- (st_Unr _ _ _ _ _ _ _ S), tr_cons by reflexivity. rewrite (st_Unc _ _ _ _ _ _ _ S).
    apply rsum_ext. intros a Ha.
    transitivity (rsum rank (fun b => (if (b =? a)%nat then 1 else 0) * v2 outs outs a b)); [|now apply delta_sum].
    apply rsum_ext. intros b Hb. change (col_ip2 Ua a Ua b) with (col_ip Ua a b). rewrite (st_UU _ _ _ _ _ _ _ S) by auto.
    now rewrite Nat.eqb_sym.
  Qed.
  Lemma tr_AU A G rank Ua temp w V Gs outs : step A G rank Ua temp w V -> outs <> [] ->
    tr (nr A) (v2 (A :: G :: Gs) (Ua :: outs)) = tr rank (v2 (temp :: Gs) outs).
  Proof.
    intros S Ho. rewrite tr_cons by (symmetry; apply S). rewrite (st_Unc _ _ _ _ _ _ _ S), rsum_swap.
    apply rsum_ext. intros b Hb. pose proof (st_Tnr _ _ _ _ _ _ _ S) as Ht.
    rewrite (v2_lmul temp _ G Gs outs b b (st_temp _ _ _ _ _ _ _ S)) by (try lia; auto; apply S).
    rewrite (st_G _ _ _ _ _ _ _ S). apply rsum_ext. intros a Ha. now rewrite (st_AU _ _ _ _ _ _ _ S).
  Qed.

  Theorem sweep_traces A Gs outs dd : sweep A Gs outs dd ->
    chain (nc A) Gs 1 -> (forall c, In c Gs -> row_orth c) ->
    tr (nr A) (v2 (A :: Gs) outs) = tr (nr A) (v2 outs outs) /\
    tr (nr A) (v2 (A :: Gs) (A :: Gs)) = tr (nr A) (v2 outs outs) + dd.
  Proof.
    induction 1 as [A|A G Gs rank Ua temp w V outs dd S Ru Sw IH]; intros Hc Ho; [split; ring|].
    assert (Hc' : chain (nr G) (G :: Gs) 1) by (rewrite (st_G _ _ _ _ _ _ _ S); exact Hc).
    destruct Hc as (HrG & HwG & HpG & HpG' & Hc).
    destruct IH as [I1 I2].
    { rewrite (st_Tnc _ _ _ _ _ _ _ S). exact Hc. }
    { intros c Hin. apply Ho. now right. }
    rewrite (tr_UU _ _ _ _ _ _ _ outs S), (tr_AU _ _ _ _ _ _ _ Gs outs S) by (eapply sweep_ne; eauto).
    rewrite (tr_head _ _ _ _ _ _ _ Gs S Hc' Ho). rewrite (tr_temp _ _ _ _ _ _ _ Gs S Hc' Ho) in I2.
    rewrite (st_Tnr _ _ _ _ _ _ _ S) in I1, I2. split; [exact I1|].
    pose proof (st_rank _ _ _ _ _ _ _ S) as Hr.
    replace (nc A) with (rank + (nc A - rank))%nat at 1 by lia. rewrite rsum_split. unfold dropped. lra.
  Qed.

  (** All cores of the result but the last have orthonormal columns. *)
  Definition col_orth (c : qma U) : Prop :=
    forall i j, (i < nc c)%nat -> (j < nc c)%nat -> col_ip c i j = if (i =? j)%nat then 1 else 0.
  Lemma sweep_cols A Gs outs dd : sweep A Gs outs dd -> forall k c, (k < length Gs)%nat -> nth_error outs k = Some c -> col_orth c.
  Proof.
    induction 1 as [A|A G Gs rank Ua temp w V outs dd S Ru Sw IH]; intros k c Hk E; [cbn in Hk; lia|].
    destruct k as [|k]; [|apply (IH k c); [cbn in Hk; lia|exact E]].
    injection E as <-. intros i j Hi Hj. rewrite (st_Unc _ _ _ _ _ _ _ S) in Hi, Hj. apply S; auto.
  Qed.
  Lemma sweep_dropped A Gs outs dd delta : sweep A Gs outs dd ->
    (forall n rank w, rule n rank w -> dropped n rank w <= delta) -> dd <= INR (length Gs) * delta.
  Proof.
    intros H Hr. induction H as [A|A G Gs rank Ua temp w V outs dd S Ru Sw IH]; [cbn; lra|].
    cbn [length]. rewrite S_INR. specialize (Hr _ _ _ Ru). lra.
  Qed.
  Lemma sweep_dropped_pos A Gs outs dd : sweep A Gs outs dd -> 0 <= dd.
  Proof.
    induction 1 as [A|A G Gs rank Ua temp w V outs dd S Ru Sw IH]; [lra|].
    assert (0 <= dropped (nc A) rank w) by (apply rsum_pos; intros; apply Rle_0_sqr). lra.
  Qed.
  Lemma sweep_ranks A Gs outs dd (Q : nat -> Prop) : sweep A Gs outs dd ->
    (forall n rank w, rule n rank w -> Q rank) -> Forall (fun c => Q (nc c)) (removelast outs).
  Proof.
    intros H Hr. induction H as [A|A G Gs rank Ua temp w V outs dd S Ru Sw IH]; [constructor|].
    destruct outs as [|o outs]; [exfalso; eapply sweep_ne; eauto|].
    change (removelast (Ua :: o :: outs)) with (Ua :: removelast (o :: outs)). constructor; [|exact IH].
    rewrite (st_Unc _ _ _ _ _ _ _ S). eauto.
  Qed.
  Lemma sweep_chain A Gs outs dd : sweep A Gs outs dd -> qwf A -> (0 < nr A)%nat -> (0 < nc A)%nat -> chain (nc A) Gs 1 ->
    chain (nr A) outs 1 /\ Forall2 (fun c d => (1 <= nc c <= nr d)%nat) (removelast outs) Gs.
  Proof.
    induction 1 as [A|A G Gs rank Ua temp w V outs dd S Ru Sw IH]; intros Hw Hq Hp Hc.
    - cbn in Hc. split; [|constructor]. cbn. repeat split; auto; lia.
    - destruct Hc as (HrG & HwG & HpG & HpG' & Hc).
      pose proof (st_rank _ _ _ _ _ _ _ S) as Hr.
      destruct IH as [I1 I2]; [apply S|rewrite (st_Tnr _ _ _ _ _ _ _ S); lia|rewrite (st_Tnc _ _ _ _ _ _ _ S); auto|rewrite (st_Tnc _ _ _ _ _ _ _ S); auto|].
      rewrite (st_Tnr _ _ _ _ _ _ _ S) in I1. split.
      + cbn. split; [apply S|]. split; [apply S|]. rewrite (st_Unr _ _ _ _ _ _ _ S), (st_Unc _ _ _ _ _ _ _ S).
        split; [lia|]. split; [lia|exact I1].
      + cbn [removelast]. destruct outs as [|o outs]; [exfalso; eapply sweep_ne; eauto|].
        constructor; [|exact I2]. rewrite (st_Unc _ _ _ _ _ _ _ S), HrG. lia.
  Qed.
End Sweep.
