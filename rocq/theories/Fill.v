(** Reasoning about loops that fill an array cell by cell, in any order. *)
From Verif Require Export BaseFacts.

(** [wr T P l l'] : [l'] is [l] after all cells [k] with [P k] have been
    overwritten with [T k]; no other cell changed. *)
Definition wr {A} (T : nat -> A) (P : nat -> Prop) (l l' : list A) : Prop :=
  length l' = length l /\
  (forall k, nth_error l' k = nth_error l k \/ nth_error l' k = Some (T k)) /\
  (forall k, P k -> nth_error l' k = Some (T k)) /\
  (forall k, ~ P k -> nth_error l' k = nth_error l k).

Lemma wr_len {A} (T : nat -> A) P l l' : wr T P l l' -> length l' = length l.
Proof. intros H; apply H. Qed.

Lemma wr_refl {A} (T : nat -> A) l : wr T (fun _ => False) l l.
Proof. repeat split; auto; tauto. Qed.

Lemma wr_trans {A} (T : nat -> A) P Q l1 l2 l3 :
  wr T P l1 l2 -> wr T Q l2 l3 -> wr T (fun k => P k \/ Q k) l1 l3.
Proof.
  intros (La & Aa & Pa & Na) (Lb & Ab & Pb & Nb). repeat split.
  - congruence.
  - intros k. destruct (Ab k) as [E|E]; [rewrite E; apply Aa|now right].
  - intros k [Hp|Hq]; [|auto]. destruct (Ab k) as [E|E]; [rewrite E; auto|auto].
  - intros k Hn. rewrite Nb, Na by tauto. reflexivity.
Qed.

Lemma wr_equiv {A} (T : nat -> A) P Q l l' :
  (forall k, P k <-> Q k) -> wr T P l l' -> wr T Q l l'.
Proof.
  intros H (La & Aa & Pa & Na). repeat split; auto.
  - intros k Hk. apply Pa, H, Hk.
  - intros k Hk. apply Na. rewrite H. exact Hk.
Qed.

Lemma wr_aset {A} (T : nat -> A) l i v :
  i < length l -> v = T i -> exists l', aset l i v = Ok l' /\ wr T (eq i) l l'.
Proof.
  intros Hi ->. exists (upd l i (T i)). split; [now apply aset_ok|].
  repeat split.
  - apply upd_length.
  - intros k. rewrite nth_error_upd by auto. destruct (Nat.eqb_spec i k); subst; auto.
  - intros k <-. now apply nth_error_upd_same.
  - intros k Hk. now apply nth_error_upd_other.
Qed.

Lemma wr_for_from {A} (T : nat -> A) (P : nat -> nat -> Prop) body lo n l :
  (forall i l', lo <= i < lo + n -> length l' = length l ->
     exists l'', body i l' = Ok l'' /\ wr T (P i) l' l'') ->
  exists l', for_from lo n body l = Ok l' /\
             wr T (fun k => exists i, lo <= i < lo + n /\ P i k) l l'.
Proof.
  intros H.
  destruct (for_from_inv (fun m l' => wr T (fun k => exists i, lo <= i < m /\ P i k) l l')
              body lo n l) as [l' [E I]].
  - eapply wr_equiv; [|apply wr_refl]. intros k; split; [tauto|]. intros [i [Hi _]]; lia.
  - intros i s Hi Hs.
    destruct (H i s Hi (wr_len _ _ _ _ Hs)) as [s' [E Hw]].
    exists s'; split; auto.
    eapply wr_equiv; [|eapply wr_trans; eassumption].
    intros k; split.
    + intros [[j [Hj Hp]]|Hp]; [exists j|exists i]; split; auto; lia.
    + intros [j [Hj Hp]]. destruct (Nat.eq_dec j i) as [->|Hne]; [now right|].
      left; exists j; split; auto; lia.
  - exists l'; split; auto.
Qed.

Lemma wr_for {A} (T : nat -> A) (P : nat -> nat -> Prop) body n l :
  (forall i l', i < n -> length l' = length l ->
     exists l'', body i l' = Ok l'' /\ wr T (P i) l' l'') ->
  exists l', for_ n body l = Ok l' /\
             wr T (fun k => exists i, i < n /\ P i k) l l'.
Proof.
  intros H. unfold for_.
  destruct (wr_for_from T P body 0 n l) as [l' [E W]].
  - intros i l' Hi HL; apply H; auto; lia.
  - exists l'; split; auto. eapply wr_equiv; [|exact W].
    intros k; split; intros [i [Hi Hp]]; exists i; split; auto; lia.
Qed.

Lemma wr_full {A} (T : nat -> A) (P : nat -> Prop) l l' n :
  length l = n -> (forall k, k < n -> P k) -> wr T P l l' -> l' = tab n T.
Proof.
  intros HL HP (La & _ & Pa & _). apply tab_eq_intro; [congruence|].
  intros i Hi. apply Pa, HP, Hi.
Qed.

Lemma wr_prefix {A} (T : nat -> A) (P : nat -> Prop) l l' n :
  n <= length l -> (forall k, k < n -> P k) -> wr T P l l' ->
  forall k, k < n -> nth_error l' k = Some (T k).
Proof. intros HL HP (La & _ & Pa & _) k Hk. apply Pa, HP, Hk. Qed.

(** Decomposition of a linear index. *)
Lemma idx_div j m i : i < m -> (j * m + i) / m = j.
Proof. intros Hi. rewrite Nat.div_add_l by lia. rewrite Nat.div_small by auto. lia. Qed.

Lemma idx_mod j m i : i < m -> (j * m + i) mod m = i.
Proof.
  intros Hi. rewrite Nat.add_comm, Nat.mod_add by lia. now apply Nat.mod_small.
Qed.

Lemma idx_lt j m i n : i < m -> j < n -> j * m + i < n * m.
Proof. intros. nia. Qed.

Lemma idx_split k m n : k < n * m -> exists j i, j < n /\ i < m /\ k = j * m + i.
Proof.
  intros Hk. assert (m <> 0) by (intros ->; lia).
  exists (k / m), (k mod m). repeat split.
  - apply Nat.div_lt_upper_bound; lia.
  - now apply Nat.mod_upper_bound.
  - rewrite (Nat.div_mod k m) at 1 by auto. lia.
Qed.

(** Two nested loops writing cell [j*m+i] with [v j i]. *)
Lemma fill2 {A} (v : nat -> nat -> A) n m l (body : nat -> nat -> list A -> outcome (list A)) :
  length l = n * m ->
  (forall j i l', j < n -> i < m -> length l' = length l ->
      body j i l' = aset l' (j * m + i) (v j i)) ->
  for_ n (fun j l => for_ m (fun i l => body j i l) l) l
  = Ok (tab (n * m) (fun k => v (k / m) (k mod m))).
Proof.
  intros HL Hb.
  pose (T := fun k => v (k / m) (k mod m)).
  destruct (wr_for T (fun j k => exists i, i < m /\ k = j * m + i)
              (fun j l => for_ m (fun i l => body j i l) l) n l) as [l' [E W]].
  - intros j l1 Hj HL1.
    destruct (wr_for T (fun i k => j * m + i = k) (fun i l => body j i l) m l1) as [l2 [E2 W2]].
    + intros i l3 Hi HL3. rewrite Hb by (auto; congruence).
      apply wr_aset.
      * rewrite HL3, HL1, HL. apply idx_lt; auto.
      * unfold T. rewrite idx_div, idx_mod by auto. reflexivity.
    + exists l2. split; auto. eapply wr_equiv; [|exact W2].
      intros k; split; intros [i [Hi Hk]]; exists i; split; auto.
  - rewrite E. f_equal. unfold T in W. eapply wr_full; [exact HL| |exact W].
    intros k Hk. destruct (idx_split k m n Hk) as (j & i & Hj & Hi & ->).
    exists j; split; auto. exists i; split; auto.
Qed.

(** The same as rules for array transformers on arrays of length [N]. *)
Definition wrf {A} (T : nat -> A) (N : nat) (P : nat -> Prop) (f : list A -> outcome (list A)) : Prop :=
  forall l, length l = N -> exists l', f l = Ok l' /\ wr T P l l'.

Lemma wrf_aset {A} (T : nat -> A) N i v :
  i < N -> v = T i -> wrf T N (eq i) (fun l => aset l i v).
Proof. intros Hi Hv l HL. apply wr_aset; [lia|auto]. Qed.

Lemma wrf_bind {A} (T : nat -> A) N P Q f g :
  wrf T N P f -> wrf T N Q g -> wrf T N (fun k => P k \/ Q k) (fun l => do x <- f l; g x).
Proof.
  intros Hf Hg l HL. destruct (Hf l HL) as [l1 [E1 W1]]. rewrite E1; simpl.
  destruct (Hg l1) as [l2 [E2 W2]]. { rewrite (wr_len _ _ _ _ W1); auto. }
  exists l2; split; auto. eapply wr_trans; eauto.
Qed.

Lemma wrf_for {A} (T : nat -> A) N (P : nat -> nat -> Prop) n body :
  (forall i, i < n -> wrf T N (P i) (body i)) ->
  wrf T N (fun k => exists i, i < n /\ P i k) (for_ n body).
Proof.
  intros H l HL. apply wr_for. intros i l' Hi HL'. apply H; auto. congruence.
Qed.

Lemma wrf_for_from {A} (T : nat -> A) N (P : nat -> nat -> Prop) lo n body :
  (forall i, lo <= i < lo + n -> wrf T N (P i) (body i)) ->
  wrf T N (fun k => exists i, lo <= i < lo + n /\ P i k) (for_from lo n body).
Proof.
  intros H l HL. apply wr_for_from. intros i l' Hi HL'. apply H; auto. congruence.
Qed.

Lemma wrf_get {A B} (T : nat -> A) N P (m : outcome B) v (f : B -> list A -> outcome (list A)) :
  m = Ok v -> wrf T N P (f v) -> wrf T N P (fun l => do g <- m; f g l).
Proof. intros -> H l HL. simpl. apply H; auto. Qed.

Lemma wrf_full {A} (T : nat -> A) N (P : nat -> Prop) f l :
  wrf T N P f -> length l = N -> (forall k, k < N -> P k) -> f l = Ok (tab N T).
Proof.
  intros H HL HP. destruct (H l HL) as [l' [E W]]. rewrite E. f_equal.
  eapply wr_full; eauto.
Qed.

(** Freezing a completely filled array of slots. *)
Lemma freeze_target {A} N (T : nat -> option A) :
  (forall k, k < N -> exists u, T k = Some u) ->
  exists r, freeze (tab N T) = Ok r /\ length r = N /\ forall k, k < N -> nth_error r k = T k.
Proof.
  induction N as [|N IH]; intros H.
  - exists []. repeat split; auto. intros k Hk; lia.
  - destruct IH as [r [E [L Hr]]]. { intros k Hk; apply H; lia. }
    destruct (H N) as [u Hu]; [lia|].
    exists (r ++ [u]). repeat split.
    + rewrite tab_S, Hu. apply freeze_inv in E. rewrite E.
      change [Some u] with (map Some [u]). rewrite <- map_app. apply freeze_map_Some.
    + rewrite app_length; simpl; lia.
    + intros k Hk. destruct (Nat.eq_dec k N) as [->|Hne].
      * rewrite nth_error_app2 by lia. rewrite L, Nat.sub_diag. simpl. auto.
      * rewrite nth_error_app1 by lia. apply Hr; lia.
Qed.

Lemma freeze_all {A} d (l : list (option A)) :
  length l = d -> (forall k, k < d -> exists c, nth_error l k = Some (Some c)) ->
  exists r, freeze l = Ok r /\ length r = d /\
    forall k c, nth_error l k = Some (Some c) -> nth_error r k = Some c.
Proof.
  intros HL Hall.
  destruct (freeze_target d (fun k => nth k l None)) as [fr [Efr [Lfr Hfr]]].
  { intros k Hk. destruct (Hall k Hk) as [c Hc]. exists c.
    apply nth_error_nth with (d := None) in Hc. auto. }
  assert (El : l = tab d (fun k => nth k l None)).
  { rewrite (list_eq_tab_nth None l) at 1. now rewrite HL. }
  rewrite <- El in Efr. exists fr. repeat split; auto.
  intros k c Hc. rewrite Hfr.
  - now apply nth_error_nth.
  - rewrite <- HL. apply nth_error_Some. congruence.
Qed.
