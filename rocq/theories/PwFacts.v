(** Proofs about trees of pieces: bounds, evaluation, boundaries, maps, flattening. *)
From Coq Require Import Reals Lra Lia.
From Verif Require Import Base BaseFacts FOps PwModel PwSpec.
Open Scope R_scope.

Lemma pw_ind' {L} (P : pw L -> Prop) :
  (forall l, P (Leaf l)) -> (forall bs, (forall b, In b bs -> P b) -> P (Node bs)) -> forall t, P t.
Proof.
  intros HL HN. fix IH 1. intros [l|bs]; [apply HL|].
  apply HN. induction bs as [|b r IHr]; intros c Hc; [destruct Hc|].
  destruct Hc as [<-|Hc]; [apply IH|apply IHr, Hc].
Qed.

Lemma skipn_skipn' {A} n m (l : list A) : skipn n (skipn m l) = skipn (m + n) l.
Proof. revert l; induction m as [|m IH]; intros l; [reflexivity|]. destruct l as [|a l]; [destruct n; reflexivity|apply IH]. Qed.

Section Facts.
  Context {L : Type} (K : leafops L) (tm ts eps junk : R).
  Notation lb := (l_lb K).
  Notation ub := (l_ub K).

  Lemma proper_node (bs : list (pw L)) : proper (Node bs) <-> bs <> nil /\ forall b, In b bs -> proper b.
  Proof.
    simpl. split; intros [H1 H2]; (split; [exact H1|]); clear H1.
    - induction bs as [|b r IH]; intros c Hc; [destruct Hc|]. destruct H2 as [Hb Hr].
      destruct Hc as [<-|Hc]; auto.
    - induction bs as [|b r IH]; [exact I|]. split; [apply H2; left; auto|].
      apply IH. intros c Hc; apply H2; right; auto.
  Qed.

  Lemma pieces_ne t : proper t -> pieces (L:=L) t <> nil.
  Proof.
    induction t as [l|bs IH] using pw_ind'; [discriminate|].
    intros [Hne Hp]%proper_node. destruct bs as [|b r]; [congruence|]. simpl.
    intros E%app_eq_nil. apply (IH b (or_introl eq_refl)); [apply Hp; left; auto|tauto].
  Qed.

  Lemma pw_leaves_pieces t : pw_leaves t = pieces (L:=L) t.
  Proof.
    induction t as [l|bs IH] using pw_ind'; [reflexivity|]. simpl.
    induction bs as [|b r IHr]; [reflexivity|]. simpl.
    rewrite (IH b) by (left; auto). f_equal. apply IHr. intros; apply IH; right; auto.
  Qed.

  Lemma nregions_pieces t : pw_nregions t = length (pieces (L:=L) t).
  Proof.
    induction t as [l|bs IH] using pw_ind'; [reflexivity|]. simpl.
    induction bs as [|b r IHr]; [reflexivity|]. simpl. rewrite app_length.
    rewrite (IH b) by (left; auto). f_equal. apply IHr. intros; apply IH; right; auto.
  Qed.

  Lemma pw_lb_first t : proper t -> exists l r, pieces t = l :: r /\ pw_lb K t = Ok (lb l).
  Proof.
    induction t as [l|bs IH] using pw_ind'; [intros _; exists l, nil; auto|].
    intros [Hne Hp]%proper_node. destruct bs as [|b r]; [congruence|].
    destruct (IH b (or_introl eq_refl)) as (l & q & E & Hl); [apply Hp; left; auto|].
    exists l, (q ++ flat_map pieces r). simpl. rewrite E. auto.
  Qed.

  Lemma pw_ub_last t : proper t -> exists l r, pieces t = r ++ l :: nil /\ pw_ub K t = Ok (ub l).
  Proof.
    induction t as [l|bs IH] using pw_ind'; [intros _; exists l, nil; auto|].
    intros [Hne Hp]%proper_node. simpl.
    induction bs as [|b r IHr]; [congruence|].
    destruct r as [|b' r'].
    - destruct (IH b (or_introl eq_refl)) as (l & q & E & Hl); [apply Hp; left; auto|].
      exists l, q. simpl. rewrite app_nil_r. auto.
    - destruct IHr as (l & q & E & Hl); [intros; apply IH; auto; right; auto|discriminate|intros; apply Hp; right; auto|].
      exists l, (pieces b ++ q). split; [|exact Hl].
      cbn [flat_map] in *. rewrite E, app_assoc. reflexivity.
  Qed.

  (** pieces in the order of their upper bounds *)
  Fixpoint srt (ls : list L) : Prop :=
    match ls with nil => True | l :: r => (forall m, In m r -> ub l <= ub m) /\ srt r end.
  Lemma srt_app a b : srt (a ++ b) <-> srt a /\ srt b /\ forall x y, In x a -> In y b -> ub x <= ub y.
  Proof.
    induction a as [|l r IH]; simpl.
    - split; [intros H; repeat split; auto; intros x y []|tauto].
    - rewrite IH. split.
      + intros (H1 & H2 & H3 & H4). repeat split; auto.
        * intros m Hm; apply H1, in_or_app; auto.
        * intros x y [<-|Hx] Hy; [apply H1, in_or_app; auto|auto].
      + intros ((H1 & H2) & H3 & H4). repeat split; auto.
        intros m [Hm|Hm]%in_app_or; auto.
  Qed.
  Lemma tiles_le u ls v : tiles lb ub u ls v -> u <= v /\ forall m, In m ls -> u <= lb m /\ lb m < ub m /\ ub m <= v.
  Proof.
    revert u; induction ls as [|l r IH]; simpl; intros u; [intros ->; split; [lra|intros m []]|].
    intros (<- & H1 & H2). destruct (IH _ H2) as [H3 H4]. split; [lra|].
    intros m [<-|Hm]; [lra|]. specialize (H4 m Hm). lra.
  Qed.
  Lemma tiles_srt u ls v : tiles lb ub u ls v -> srt ls.
  Proof.
    revert u; induction ls as [|l r IH]; simpl; intros u; [auto|].
    intros (<- & H1 & H2). split; [|eauto]. intros m Hm. destruct (tiles_le _ _ _ H2) as [_ H]. specialize (H m Hm). lra.
  Qed.

  Lemma piece_at_app a b x l : piece_at ub tm (a ++ b) x l <-> piece_at ub tm a x l \/ ((forall m, In m a -> ub m + tm <= x) /\ piece_at ub tm b x l).
  Proof.
    induction a as [|m r IH]; simpl.
    - split; [intros H; right; split; [intros ? []|exact H]|intros [[]|[_ H]]; exact H].
    - rewrite IH. split.
      + intros [H|[H1 [H|[H2 H3]]]]; [left; left; exact H|left; right; auto|].
        right. split; auto. intros k [<-|Hk]; auto.
      + intros [[H|[H1 H2]]|[H1 H2]]; [left; exact H|right; auto|right].
        split; [apply H1; left; reflexivity|]. right. split; [intros k Hk; apply H1; right; exact Hk|exact H2].
  Qed.
  Lemma piece_at_in ls x l : piece_at ub tm ls x l -> In l ls /\ x < ub l + tm.
  Proof. induction ls as [|m r IH]; simpl; [intros []|]. intros [[H ->]|[_ H]]; [auto|]. destruct (IH H); auto. Qed.
  Lemma piece_at_ex ls x l : In l ls -> x < ub l + tm -> exists m, piece_at ub tm ls x m.
  Proof.
    induction ls as [|m r IH]; simpl; [intros []|].
    intros H Hx. destruct (Rlt_le_dec x (ub m + tm)) as [Hm|Hm]; [exists m; auto|].
    destruct H as [->|H]; [lra|]. destruct (IH H Hx) as [k Hk]. exists k; auto.
  Qed.
  Lemma piece_at_fun ls x l m : piece_at ub tm ls x l -> piece_at ub tm ls x m -> l = m.
  Proof. induction ls as [|k r IH]; simpl; [intros []|]. intros [[H ->]|[H H1]] [[H2 ->]|[H2 H3]]; auto; lra. Qed.

  Lemma Rltb_t a b : a < b -> Rltb a b = true. Proof. destruct (Rltb_spec a b); auto; lra. Qed.
  Lemma Rltb_f a b : b <= a -> Rltb a b = false. Proof. destruct (Rltb_spec a b); auto; lra. Qed.

  (** evaluation finds the piece *)
  Lemma pw_at_piece ev t x l : proper t -> srt (pieces t) -> piece_at ub tm (pieces t) x l -> pw_at K tm junk ev t x = ev l x.
  Proof.
    revert l; induction t as [m|bs IH] using pw_ind'; intros l.
    - simpl. intros _ _ [[_ ->]|[_ []]]. reflexivity.
    - intros [Hne Hp]%proper_node. clear Hne. simpl.
      induction bs as [|b r IHr]; [intros _ []|]. cbn [flat_map].
      intros (Hs1 & Hs2 & Hs3)%srt_app Hat.
      destruct (pw_ub_last b) as (k & q & E & Hk); [apply Hp; left; auto|].
      rewrite Hk. cbn [obind].
      assert (Hlast : forall m, In m (pieces b) -> ub m <= ub k).
      { rewrite E in Hs1 |- *. apply srt_app in Hs1. destruct Hs1 as (_ & _ & H).
        intros m [Hm|[<-|[]]]%in_app_or; [apply H; auto; left; auto|lra]. }
      apply piece_at_app in Hat. destruct Hat as [Hat|[H1 Hat]].
      + destruct (piece_at_in _ _ _ Hat) as [Hin Hx].
        rewrite Rltb_t by (specialize (Hlast l Hin); lra).
        apply (IH b); auto; [left; auto|apply Hp; left; auto].
      + rewrite Rltb_f by (apply H1; rewrite E; apply in_or_app; right; left; auto).
        apply IHr; auto; intros; [apply IH; auto; right; auto|apply Hp; right; auto].
  Qed.
  Lemma pw_at_above ev bs x : proper (Node bs) -> (forall l, In l (pieces (Node bs)) -> ub l + tm <= x) -> pw_at K tm junk ev (Node bs) x = Ok junk.
  Proof.
    intros [_ Hp]%proper_node. simpl. induction bs as [|b r IHr]; [reflexivity|]. cbn [flat_map]. intros H.
    destruct (pw_ub_last b) as (k & q & E & Hk); [apply Hp; left; auto|]. rewrite Hk. cbn [obind].
    rewrite Rltb_f by (apply H; rewrite E; apply in_or_app; left; apply in_or_app; right; left; auto).
    apply IHr; intros; [apply Hp; right; auto|apply H, in_or_app; auto].
  Qed.

  (** boundaries *)
  Lemma bfill_ok t pre rest : (length (pieces t) <= length rest)%nat ->
    pw_bfill K t (pre ++ rest, length pre) = Ok (pre ++ map ub (pieces t) ++ skipn (length (pieces t)) rest, (length pre + length (pieces t))%nat).
  Proof.
    revert pre rest; induction t as [l|bs IH] using pw_ind'; intros pre rest Hl.
    - cbn [pieces length] in *. destruct rest as [|r0 rest]; [simpl in Hl; lia|]. cbn [pw_bfill].
      rewrite aset_ok by (rewrite app_length; simpl; lia). cbn [obind]. 
      replace (length pre) with (length pre + 0)%nat at 1 by lia. rewrite upd_app_r. reflexivity.
    - simpl. simpl in Hl. revert pre rest Hl; induction bs as [|b r IHr]; intros pre rest Hl.
      + simpl. rewrite Nat.add_0_r. reflexivity.
      + cbn [flat_map] in *. rewrite app_length in Hl.
        rewrite (IH b) by (try (left; auto); lia). cbn [obind].
        assert (E : (length pre + length (pieces b))%nat = length (pre ++ map ub (pieces b))) by (rewrite app_length, map_length; auto).
        rewrite E, app_assoc, IHr; [|intros; apply IH; auto; right; auto|rewrite skipn_length; lia].
        rewrite map_app, !app_length, map_length. f_equal. f_equal; [|lia].
        rewrite <- !app_assoc. do 2 f_equal. f_equal. apply skipn_skipn'.
  Qed.
  Lemma boundaries_ok t l r : proper t -> pieces t = l :: r -> (r <> nil \/ t = Leaf l) ->
    pw_boundaries K t = Ok (lb l :: map ub (l :: r)).
  Proof.
    intros Hp E Hr. unfold pw_boundaries. rewrite nregions_pieces, E.
    destruct (pw_lb_first t Hp) as (l' & r' & E' & Hlb). rewrite E in E'. injection E' as <- <-.
    destruct ((length (l :: r) + 1 =? 2)%nat) eqn:E2.
    - apply Nat.eqb_eq in E2. simpl in E2. destruct r; [|simpl in E2; lia]. destruct Hr as [Hr| ->]; [congruence|reflexivity].
    - rewrite Hlb. cbn [obind]. rewrite aset_ok by (rewrite repeat_length; simpl; lia). cbn [obind].
      replace (length (l :: r) + 1)%nat with (S (length (l :: r))) by lia. cbn [repeat upd].
      pose proof (bfill_ok t (lb l :: nil) (repeat 0 (length (l :: r)))) as H.
      rewrite E, repeat_length in H. specialize (H (le_n _)). cbn [app] in H.
      change (length (lb l :: nil)) with 1%nat in H. rewrite H. cbn [obind].
      rewrite skipn_all2 by (rewrite repeat_length; auto). rewrite app_nil_r. reflexivity.
  Qed.

  (** maps over the pieces *)
  Lemma pw_map_ok f (P : L -> L -> Prop) t : (forall l, In l (pieces t) -> exists m, f l = Ok m /\ P l m) ->
    exists t', pw_map f t = Ok t' /\ Forall2 P (pieces t) (pieces t') /\ (proper t -> proper t') /\ is_leaf t' = is_leaf t.
  Proof.
    induction t as [l|bs IH] using pw_ind'; intros H.
    - destruct (H l (or_introl eq_refl)) as (m & E & Hm). exists (Leaf m). simpl. rewrite E. repeat split; auto.
    - simpl pw_map.
      assert (G : exists cs, (fix go bs := match bs with nil => Ok nil | b :: r => do c <- pw_map f b; do cs <- go r; Ok (c :: cs) end) bs = Ok cs /\
        Forall2 P (flat_map pieces bs) (flat_map pieces cs) /\ length cs = length bs /\ ((forall b, In b bs -> proper b) -> forall c, In c cs -> proper c)).
      { simpl in H. clear - H IH. induction bs as [|b r IHr].
        - exists nil. split; [reflexivity|]. split; [constructor|]. split; [reflexivity|]. intros _ c [].
        - destruct (IH b (or_introl eq_refl)) as (c & Ec & Fc & Pc & _); [intros l Hl; apply H, in_or_app; auto|].
          destruct IHr as (cs & Es & Fs & Ls & Ps); [intros; apply IH; auto; right; auto|intros l Hl; apply H, in_or_app; auto|].
          exists (c :: cs). rewrite Ec. cbn [obind]. rewrite Es. cbn [obind]. repeat split.
          + cbn [flat_map]. apply Forall2_app; auto.
          + simpl; auto.
          + intros Hb k [<-|Hk]; [apply Pc, Hb; left; auto|apply Ps; auto; intros; apply Hb; right; auto]. }
      destruct G as (cs & E & F & Ln & Pp). rewrite E. cbn [obind]. exists (Node cs). split; [reflexivity|]. split; [exact F|]. split; [|reflexivity].
      intros [Hne Hb]%proper_node. apply proper_node. split; auto. intros ->. destruct bs; [congruence|discriminate].
  Qed.

  (** a quantity summed over the pieces *)
  Lemma pw_integrate_ok I t : (forall l, In l (pieces t) -> l_integrate K l = Ok (I l)) ->
    pw_integrate K t = Ok (psum I (pieces t)).
  Proof.
    induction t as [l|bs IH] using pw_ind'; intros H.
    - simpl. rewrite (H l) by (left; auto). f_equal. unfold psum; simpl. lra.
    - simpl. simpl in H.
      assert (G : forall s, (fix go bs out := match bs with nil => Ok out | b :: r => do v <- pw_integrate K b; go r (out + v) end) bs s = Ok (s + psum I (flat_map pieces bs))).
      { clear -H IH. induction bs as [|b r IHr]; intros s; [simpl; f_equal; unfold psum; simpl; lra|].
        rewrite (IH b) by (try (left; auto); intros; apply H, in_or_app; auto). cbn [obind].
        rewrite IHr; [|intros; apply IH; auto; right; auto|intros; apply H, in_or_app; auto].
        f_equal. cbn [flat_map]. unfold psum. rewrite fold_right_app.
        clear. induction (pieces b) as [|x y IHy]; simpl; lra. }
      rewrite G. f_equal. lra.
  Qed.

  (** flattening *)
  Lemma flat_leaves (ls : list L) : flat_map pieces (map Leaf ls) = ls.
  Proof. induction ls as [|l r IH]; simpl; [|rewrite IH]; auto. Qed.
  Lemma flatten_pieces t : pieces (pw_flatten t) = pieces (L:=L) t.
  Proof.
    unfold pw_flatten. destruct (pw_isflat t) eqn:E; auto. simpl. rewrite flat_leaves. apply pw_leaves_pieces.
  Qed.
  Lemma proper_leaves (ls : list L) : ls <> nil -> proper (Node (map Leaf ls)).
  Proof.
    intros H. apply proper_node. split; [destruct ls; [congruence|discriminate]|].
    intros b (l & <- & _)%in_map_iff. exact I.
  Qed.
  Lemma flatten_proper t : proper t -> proper (pw_flatten (L:=L) t).
  Proof.
    intros Hp. unfold pw_flatten. destruct (pw_isflat t) eqn:E; auto.
    apply proper_leaves. rewrite pw_leaves_pieces. apply pieces_ne, Hp.
  Qed.
  Lemma flatten_leaf t : is_leaf (pw_flatten (L:=L) t) = is_leaf t.
  Proof. unfold pw_flatten. destruct t; simpl; auto. destruct (forallb is_leaf bs); auto. Qed.
  Lemma flatten_form t : pw_flatten (L:=L) t = match t with Leaf l => Leaf l | Node bs => Node (map Leaf (pieces t)) end.
  Proof.
    unfold pw_flatten. destruct t as [l|bs]; [reflexivity|]. cbn [pw_isflat].
    destruct (forallb is_leaf bs) eqn:E; [|rewrite pw_leaves_pieces; reflexivity].
    f_equal. simpl. clear -E. induction bs as [|b r IH]; [reflexivity|]. simpl in E.
    apply andb_prop in E. destruct E as [Eb Er]. destruct b as [l|]; [|discriminate]. simpl. rewrite <- IH; auto.
  Qed.
End Facts.
