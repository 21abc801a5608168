(** Proofs about sums, products and inner products of piecewise functions on different
    grids. *)
From Coq Require Import Reals Lra Lia.
From Verif Require Import Base BaseFacts FOps PwModel PwSpec PwFacts PwMatch.
Open Scope R_scope.

Section Ops.
  Context {L : Type} (K : leafops L) (tm ts eps junk w : R).
  Notation lb := (l_lb K).
  Notation ub := (l_ub K).
  Context (Heps : 0 < eps) (Hew : eps <= w) (Hts : 0 <= ts) (Htw : ts <= w).
  (** the value of an expansion, and the expansions that can be added and so on *)
  Context (val : L -> R -> R) (good : L -> Prop).
  Context (Hev : forall l x, good l -> l_eval K l x = Ok (val l x)).
  Context (Had : forall f g c d, good g -> w < d - c -> (forall x, c + tm <= x < d + tm -> f x = Ok (val g x)) ->
    exists l, l_adapt K f c d = Ok l /\ lb l = c /\ ub l = d /\ good l /\ forall x, val l x = val g x).

  Definition okfun (u v : R) (t : pw L) : Prop := on K u v t /\ Forall good (pieces t).
  (** a single interval is a leaf *)
  Definition splits (t : pw L) : Prop := is_leaf t = true \/ (2 <= length (pieces t))%nat.
  Definition bounds_of (t : pw L) : list R := map lb (pieces t) ++ map ub (pieces t).
  Definition apart (a b : pw L) : Prop :=
    forall p q, In p (bounds_of a ++ bounds_of b) -> In q (bounds_of a ++ bounds_of b) -> p = q \/ w < Rabs (p - q).

  (** the list [ls] describes the same function as [t] on a finer grid *)
  Definition refines (t : pw L) (ls : list L) : Prop :=
    (forall x l', piece_at ub tm ls x l' -> exists l, piece_at ub tm (pieces t) x l /\ forall y, val l' y = val l y) /\
    (forall l', In l' ls -> exists l, In l (pieces t) /\ lb l <= lb l' /\ ub l' <= ub l /\ forall y, val l' y = val l y).

  Lemma refines_refl t : refines t (pieces t).
  Proof. split; [intros x l H; exists l; auto|intros l H; exists l; repeat split; auto; lra]. Qed.

  Lemma eval_piece u v t x l : okfun u v t -> piece_at ub tm (pieces t) x l -> pw_eval K tm junk t x = Ok (val l x).
  Proof.
    intros [[Hp Ht] Hg] H. unfold pw_eval. rewrite (pw_at_piece K tm junk (l_eval K) t x l); auto.
    - apply Hev. rewrite Forall_forall in Hg. apply Hg, (piece_at_in K tm _ _ _ H).
    - eapply tiles_srt; eauto.
  Qed.

  (** the finer grid *)
  Lemma finer_ok u v t m : okfun u v t -> up u m v -> (forall x, In x (map ub (pieces t)) -> In x m) ->
    (forall pre c d post, u :: m = pre ++ c :: d :: post -> w < d - c) -> (2 <= length m)%nat ->
    exists ls, pw_finer_grid K tm junk t (S (length m)) (u :: m) = Ok (Node (map Leaf ls)) /\
      tiles lb ub u ls v /\ map ub ls = m /\ Forall good ls /\ refines t ls.
  Proof.
    intros Ht Hup Hsub Hw Hlm. unfold pw_finer_grid. 
    destruct (Nat.eqb_spec (S (length m)) 0) as [?|_]; [lia|]. destruct (Nat.eqb_spec (S (length m)) 2) as [?|_]; [lia|].
    replace (S (length m) - 1)%nat with (length m) by lia.
    destruct Ht as [[Hp Htl] Hg].
    set (Q := fun (c d : R) (l' : L) => lb l' = c /\ ub l' = d /\ good l' /\ exists l1 l l2, pieces t = l1 ++ l :: l2 /\
      (forall k, In k l1 -> ub k <= c) /\ lb l <= c /\ c < d <= ub l /\ forall y, val l' y = val l y).
    assert (Hloop : exists bs, for_ (length m) (fun ii bs =>
        do u0 <- aget (u :: m) ii; do v0 <- aget (u :: m) (ii + 1);
        do m0 <- l_adapt K (pw_eval K tm junk t) u0 v0; Ok (bs ++ Leaf m0 :: nil)) nil = Ok bs /\
        exists ls, bs = map Leaf ls /\ length ls = length m /\
          forall i c d l', nth_error (u :: m) i = Some c -> nth_error m i = Some d -> nth_error ls i = Some l' -> Q c d l').
    { apply (for_inv (fun i bs => exists ls, bs = map Leaf ls /\ length ls = i /\
          forall j c d l', nth_error (u :: m) j = Some c -> nth_error m j = Some d -> nth_error ls j = Some l' -> Q c d l')).
      - exists nil. repeat split; auto; destruct j; discriminate.
      - intros i bs Hi (ls & -> & Hl & HQ).
        destruct (nth_error m i) as [d|] eqn:Ed; [|apply nth_error_None in Ed; lia].
        destruct (nth_error (u :: m) i) as [c|] eqn:Ec; [|apply nth_error_None in Ec; simpl in Ec; lia].
        assert (Hadj : exists pre post, u :: m = pre ++ c :: d :: post).
        { clear - Ec Ed. revert u i c d Ec Ed. induction m as [|a m IH]; intros u i c d Ec Ed; [destruct i; discriminate|].
          destruct i as [|i]; simpl in Ec, Ed.
          - injection Ec as ->. injection Ed as ->. exists nil, m. reflexivity.
          - destruct (IH a i c d Ec Ed) as (pre & post & E). exists (u :: pre), post. rewrite E. reflexivity. }
        destruct Hadj as (pre & post & Eadj).
        destruct (cover K u (pieces t) v m pre c d post Htl Hup Hsub Eadj) as (l1 & l & l2 & El & G1 & G2 & G3).
        assert (Hgl : good l) by (rewrite Forall_forall in Hg; apply Hg; rewrite El; apply in_or_app; right; left; auto).
        destruct (Had (pw_eval K tm junk t) l c d Hgl (Hw _ _ _ _ Eadj)) as (l' & El' & Hlb & Hub & Hgl' & Hval).
        { intros x Hx. apply (eval_piece u v); [repeat split; auto|]. rewrite El. apply piece_at_app. right.
          split; [intros k Hk; specialize (G1 k Hk); lra|]. left. split; [lra|auto]. }
        eexists. split.
        + rewrite (aget_ok _ _ _ Ec). cbn [obind]. rewrite Nat.add_1_r, (aget_ok _ _ d) by exact Ed. cbn [obind]. rewrite El'. reflexivity.
        + exists (ls ++ l' :: nil). rewrite map_app. split; [auto|]. split; [rewrite app_length; simpl; lia|].
          intros j c' d' k Ec' Ed' Ek. destruct (Nat.lt_ge_cases j i) as [Hj|Hj].
          * rewrite nth_error_app1 in Ek by lia. eauto.
          * assert (j = i). { assert (j < length (ls ++ l' :: nil))%nat by (apply nth_error_Some; congruence). rewrite app_length in H; simpl in H; lia. }
            subst j. rewrite nth_error_app2 in Ek by lia. replace (i - length ls)%nat with 0%nat in Ek by lia. simpl in Ek.
            rewrite Ec in Ec'. rewrite Ed in Ed'. injection Ec' as <-. injection Ed' as <-. injection Ek as <-.
            repeat split; auto. exists l1, l, l2. repeat split; auto; lra. }
    destruct Hloop as (bs & E & ls & -> & Hl & HQ). rewrite E. cbn [obind]. exists ls.
    (* the list against the nodes *)
    assert (Hall : forall l', In l' ls -> exists c d, Q c d l').
    { intros l' (i & Hi)%In_nth_error. assert (i < length ls)%nat by (apply nth_error_Some; congruence).
      destruct (nth_error m i) as [d|] eqn:Ed; [|apply nth_error_None in Ed; lia].
      destruct (nth_error (u :: m) i) as [c|] eqn:Ec; [|apply nth_error_None in Ec; simpl in Ec; lia].
      exists c, d. eauto. }
    assert (Hub : map ub ls = m /\ tiles lb ub u ls v).
    { clear - HQ Hl Hup. assert (HQ' : forall i c d l', nth_error (u :: m) i = Some c -> nth_error m i = Some d -> nth_error ls i = Some l' -> lb l' = c /\ ub l' = d).
      { intros. destruct (HQ i c d l'); auto. intuition. }
      clear HQ. revert u m HQ' Hl Hup. induction ls as [|l r IH]; intros u m HQ Hl Hup.
      - destruct m; [|discriminate]. split; auto.
      - destruct m as [|a m]; [discriminate|]. simpl in Hup. destruct Hup as [U1 U2].
        destruct (HQ 0%nat u a l eq_refl eq_refl eq_refl) as [E1 E2].
        destruct (IH a m) as [I1 I2]; auto.
        { intros i c d l' Hc Hd Hl'. apply (HQ (S i)); auto. }
        simpl. rewrite E2, I1. repeat split; auto. lra. }
    destruct Hub as [Hub Htiles]. repeat split; auto.
    - apply Forall_forall. intros l' Hl'. destruct (Hall l' Hl') as (c & d & _ & _ & Hgd & _). auto.
    - (* evaluation *)
      intros x l' Hat.
      assert (Hstart : exists a b, ls = a ++ l' :: b /\ (forall k, In k a -> ub k + tm <= x) /\ x < ub l' + tm).
      { clear - Hat. revert l' Hat. induction ls as [|k r IH]; simpl; intros l'; [intros []|].
        intros [[H ->]|[H Hat]]; [exists nil, k, r || exists nil, r; repeat split; auto; intros ? []|].
        destruct (IH l' Hat) as (a & b & -> & G1 & G2). exists (k :: a), b. repeat split; auto. intros k' [<-|Hk]; auto. }
      destruct Hstart as (a & b & Els & Ga & Gx).
      destruct (Hall l') as (c & d & Q1 & Q2 & Q3 & l1 & l & l2 & Q4 & Q5 & Q6 & Q7 & Q8); [rewrite Els; apply in_or_app; right; left; auto|].
      exists l. split; auto. rewrite Q4. apply piece_at_app. right. split; [|left; split; [lra|auto]].
      intros k Hk. specialize (Q5 k Hk).
      (* the lower bound of l' is an earlier upper bound, or u *)
      destruct a as [|a0 a'] eqn:Ea.
      + simpl in Els. subst ls. simpl in Htiles. destruct Htiles as (T1 & _).
        assert (Hk' : u < ub k).
        { rewrite Q4 in Htl. destruct (tiles_le K _ _ _ Htl) as [_ T]. specialize (T k (in_or_app _ _ _ (or_introl Hk))). lra. }
        lra.
      + destruct (exists_last (l := a0 :: a')) as (a1 & z & Ez); [discriminate|]. rewrite Ez in Els, Ga.
        assert (Hz : ub z = lb l').
        { clear - Htiles Els. subst ls. revert u Htiles. induction a1 as [|q a1 IH]; simpl; intros u.
          - intros (_ & _ & T & _). auto.
          - intros (_ & _ & T). eapply IH; eauto. }
        assert (ub z + tm <= x) by (apply Ga, in_or_app; right; left; auto). lra.
    - intros l' Hl'. destruct (Hall l' Hl') as (c & d & Q1 & Q2 & Q3 & l1 & l & l2 & Q4 & Q5 & Q6 & Q7 & Q8).
      exists l. rewrite Q4. repeat split; auto; try lra. apply in_or_app; right; left; auto.
  Qed.

  (** the two shapes of a matched pair *)
  Definition shaped (t : pw L) (ls : list L) : Prop := (exists l, t = Leaf l /\ ls = l :: nil) \/ t = Node (map Leaf ls).
  Definition matched (u v : R) (a b aa bb : pw L) : Prop :=
    exists la lc, shaped aa la /\ shaped bb lc /\ is_leaf aa = is_leaf bb /\ tiles lb ub u la v /\ tiles lb ub u lc v /\
      map ub la = map ub lc /\ Forall good la /\ Forall good lc /\ refines a la /\ refines b lc.

  Lemma bounds_nodes u v t : okfun u v t -> splits t -> exists na, pw_boundaries K t = Ok (u :: na) /\ na = map ub (pieces t) /\ up u na v /\ na <> nil /\
    (forall x, In x (u :: na) -> In x (bounds_of t)).
  Proof.
    intros [[Hp Ht] Hg] Hs. destruct (pieces t) as [|l r] eqn:E; [exfalso; apply (pieces_ne t Hp E)|].
    simpl in Ht. destruct Ht as (T1 & T2 & T3). exists (map ub (l :: r)). split.
    - rewrite (boundaries_ok K t l r Hp E).
      + rewrite T1. reflexivity.
      + destruct Hs as [Hs|Hs]; [right; destruct t; [injection E as -> _; auto|discriminate]|left; rewrite E in Hs; simpl in Hs; intros ->; simpl in Hs; lia].
    - split; auto. split; [|split; [discriminate|]].
      + apply (tiles_up K). simpl. auto.
      + intros x [<-|Hx]; unfold bounds_of; rewrite E; [left; auto|apply in_or_app; right; auto].
  Qed.

  Lemma same_list (na nb : list R) : Forall2 (fun u v => Rabs (u - v) <= ts) na nb ->
    (forall p q, In p na -> In q nb -> p = q \/ w < Rabs (p - q)) -> na = nb.
  Proof.
    induction 1 as [|x y na nb H F IH]; intros Hs; auto. f_equal.
    - destruct (Hs x y) as [?|?]; [left; auto|left; auto|auto|lra].
    - apply IH. intros; apply Hs; right; auto.
  Qed.
  Lemma list_same (na : list R) : Forall2 (fun u v => Rabs (u - v) <= ts) na na.
  Proof. induction na; constructor; auto. rewrite Rminus_diag_eq, Rabs_R0; auto. Qed.

  Lemma match_ok u v a b : okfun u v a -> okfun u v b -> splits a -> splits b -> apart a b ->
    exists aa bb, pw_match K tm ts eps junk a b = Ok (aa, bb) /\ matched u v a b aa bb.
  Proof.
    intros Ha Hb Sa Sb Hap.
    destruct (bounds_nodes u v a Ha Sa) as (na & Ea & Na & Ua & Nea & Ina).
    destruct (bounds_nodes u v b Hb Sb) as (nb & Eb & Nb & Ub & Neb & Inb).
    assert (Hsep : forall p q, In p ((u :: na) ++ (u :: nb)) -> In q ((u :: na) ++ (u :: nb)) -> p = q \/ w < Rabs (p - q)).
    { intros p q Hp Hq. apply Hap; apply in_or_app.
      - apply in_app_or in Hp. destruct Hp; [left; apply Ina; auto|right; apply Inb; auto].
      - apply in_app_or in Hq. destruct Hq; [left; apply Ina; auto|right; apply Inb; auto]. }
    unfold pw_match. rewrite Ea. cbn [obind]. rewrite Eb. cbn [obind].
    assert (Hsame : exists s, (if (length (u :: na) =? length (u :: nb))%nat then nodes_same ts (u :: na) (u :: nb) else Ok false) = Ok s /\ (s = true <-> na = nb)).
    { destruct (Nat.eqb_spec (length (u :: na)) (length (u :: nb))) as [El|El].
      - destruct (same_ok ts (u :: na) (u :: nb) El) as (s & E & Hs). exists s. split; auto. rewrite Hs. split.
        + intros F. assert (u :: na = u :: nb); [|congruence]. apply same_list; auto.
          intros p q Hp Hq. apply Hsep; apply in_or_app; auto.
        + intros ->. apply list_same.
      - exists false. split; auto. split; [discriminate|]. intros ->. congruence. }
    destruct Hsame as (s & -> & Hs). cbn [obind]. destruct s.
    - (* the same grid *)
      assert (E : na = nb) by (apply Hs; auto). subst nb. do 2 eexists. split; [reflexivity|].
      exists (pieces a), (pieces b).
      assert (Hsh : forall t, splits t -> proper t -> shaped (pw_flatten t) (pieces t)).
      { intros t _ Hp. rewrite flatten_form. destruct t as [l|bs]; [left; exists l; auto|right; auto]. }
      destruct Ha as [[Pa Ta] Ga], Hb as [[Pb Tb] Gb].
      split; [auto|]. split; [auto|]. split.
      { rewrite !flatten_leaf. rewrite E in Na. assert (Hlen : length (pieces a) = length (pieces b)).
        { rewrite <- (map_length ub), <- (map_length ub (pieces b)), <- Na. congruence. }
        unfold splits in *. destruct a as [la|ba], b as [lb0|bb]; auto; cbn [is_leaf] in *.
        - destruct Sb as [?|Sb]; [discriminate|]. simpl in Hlen, Sb. lia.
        - destruct Sa as [?|Sa]; [discriminate|]. simpl in Hlen, Sa. lia. }
      repeat split; auto; try congruence; apply refines_refl.
    - (* different grids *)
      assert (Hne : na <> nb) by (intros H; apply Hs in H; discriminate).
      change (aget (u :: na) 0) with (Ok u). change (aget (u :: nb) 0) with (Ok u). cbn [obind].
      assert (Hlast : forall n, up u n v -> n <> nil -> aget (u :: n) (length (u :: n) - 1) = Ok v).
      { clear. intros n H Hn. apply aget_ok. simpl. rewrite Nat.sub_0_r. revert u H. induction n as [|c n IH]; intros u H; [congruence|].
        simpl in H. destruct H as [H1 H2]. simpl. destruct n as [|d n]; [simpl in H2; subst; auto|]. apply IH; auto. discriminate. }
      rewrite (Hlast na Ua Nea), (Hlast nb Ub Neb). cbn [obind].
      rewrite (Rltb_f u u), (Rltb_f v v) by lra.
      rewrite aset_ok by (rewrite repeat_length; simpl; lia). cbn [obind].
      assert (Hskip : forall n k, up u n v -> n <> nil -> skip_below (k + 1) (u :: n) u 1 = Ok 1%nat).
      { clear. intros n k H Hn. rewrite Nat.add_1_r. simpl. destruct n as [|c n]; [congruence|]. simpl in H. cbn.
        rewrite Rltb_f by lra. reflexivity. }
      rewrite (Hskip na _ Ua Nea), (Hskip nb _ Ub Neb). cbn [obind].
      replace (length (u :: na) + length (u :: nb))%nat with (S (S (length na + length nb))) by (simpl; lia).
      cbn [repeat upd].
      destruct (merge_ok eps Heps (S (S (length na + length nb)) + 1) (u :: na) (u :: nb) v nil (0 :: repeat 0 (length na + length nb)) 1 1 u na nb)
        as (m & z & E & Um & Hin); auto.
      { intros x y Hx Hy. destruct (Hsep x y) as [?|Hd]; auto; [apply in_or_app; left; right; auto|apply in_or_app; right; right; auto|right; lra]. }
      { lia. }
      { cbn [length]. rewrite repeat_length. lia. }
      cbn [app length Nat.add] in E. cbn [app Nat.add] in *. rewrite E. cbn [obind].
      assert (Efirst : firstn (S (length m)) (u :: m ++ z) = u :: m).
      { cbn [firstn]. f_equal. rewrite firstn_app, Nat.sub_diag, firstn_all, firstn_O, app_nil_r. reflexivity. }
      rewrite Efirst.
      assert (Hm2 : (2 <= length m)%nat).
      { destruct m as [|m1 [|m2 m']]; [| |simpl; lia]; exfalso.
        - simpl in Um. clear - Um Ua Nea. destruct na as [|c na]; [congruence|]. simpl in Ua. destruct Ua as [U1 U2]. apply up_le in U2. lra.
        - assert (Hone : forall n, up u n v -> n <> nil -> (forall x, In x n -> In x (m1 :: nil)) -> n = m1 :: nil).
          { clear. intros [|c [|d n]] H Hn Hi; [congruence| |].
            - destruct (Hi c (or_introl eq_refl)) as [->|[]]; auto.
            - simpl in H. destruct (Hi c (or_introl eq_refl)) as [<-|[]]. destruct (Hi d (or_intror (or_introl eq_refl))) as [<-|[]]. lra. }
          apply Hne. rewrite (Hone na), (Hone nb); auto; intros x Hx; apply Hin; auto. }
      assert (Hw : forall pre c d post, u :: m = pre ++ c :: d :: post -> w < d - c).
      { intros pre c d post Ec.
        assert (Hcd : c < d). { clear - Um Ec. revert u m Um Ec. induction pre as [|p pre IH]; intros u m Um Ec; simpl in Ec.
          - injection Ec as -> ->. simpl in Um. lra.
          - injection Ec as -> Ec. destruct m as [|a m]; [destruct pre; discriminate|]. simpl in Um. eapply IH; [apply Um|exact Ec]. }
        assert (Hi : forall x, In x (u :: m) -> In x ((u :: na) ++ u :: nb)).
        { intros x [<-|Hx]; [left; auto|]. apply Hin in Hx. apply in_or_app. destruct Hx; [left; right; auto|right; right; auto]. }
        destruct (Hsep d c) as [?|Hd]; [apply Hi; rewrite Ec; apply in_or_app; right; right; left; auto|apply Hi; rewrite Ec; apply in_or_app; right; left; auto|lra|].
        rewrite Rabs_pos_eq in Hd by lra. lra. }
      destruct (finer_ok u v a m Ha Um) as (la & Fa & Ta & Ma & Ga & Ra); auto.
      { intros x Hx. apply Hin. left. congruence. }
      destruct (finer_ok u v b m Hb Um) as (lc & Fb & Tb & Mb & Gb & Rb); auto.
      { intros x Hx. apply Hin. right. congruence. }
      rewrite Fa. cbn [obind]. rewrite Fb. cbn [obind]. do 2 eexists. split; [reflexivity|].
      exists la, lc. repeat split; auto; try (right; reflexivity); try congruence; try apply Ra; try apply Rb.
  Qed.

  (** ** Operations on matched pairs *)
  Definition op_ok (f : L -> L -> outcome L) (F : R -> R -> R) : Prop :=
    forall l m, good l -> good m -> lb l = lb m -> ub l = ub m ->
      exists r, f l m = Ok r /\ lb r = lb l /\ ub r = ub l /\ good r /\ forall y, val r y = F (val l y) (val m y).

  Lemma pair_ok f F u v la lc : op_ok f F -> tiles lb ub u la v -> tiles lb ub u lc v -> map ub la = map ub lc -> Forall good la -> Forall good lc ->
    exists lr, tiles lb ub u lr v /\ Forall good lr /\ length lr = length la /\
      (forall i l m, nth_error la i = Some l -> nth_error lc i = Some m -> exists r, nth_error lr i = Some r /\ f l m = Ok r) /\
      forall x r, piece_at ub tm lr x r -> exists l m, piece_at ub tm la x l /\ piece_at ub tm lc x m /\ forall y, val r y = F (val l y) (val m y).
  Proof.
    intros Hop. revert u lc. induction la as [|l la IH]; intros u [|m lc] Ta Tb M Ga Gb; try discriminate.
    - exists nil. repeat split; auto. intros [|i]; discriminate. intros x r [].
    - simpl in Ta, Tb, M. destruct Ta as (A1 & A2 & A3), Tb as (B1 & B2 & B3). injection M as M1 M2.
      inversion Ga; subst; inversion Gb; subst.
      destruct (Hop l m) as (r & E & R1 & R2 & R3 & R4); auto.
      destruct (IH (ub l) lc) as (lr & T & G & Ln & N & P); auto; [rewrite M1; auto|].
      exists (r :: lr). split; [simpl; rewrite R1, R2; auto|]. split; [auto|]. split; [simpl; auto|]. split.
      + intros [|i] l' m' El Em; simpl in *; [injection El as <-; injection Em as <-; eauto|eauto].
      + intros x k. simpl. rewrite R2. intros [[H ->]|[H Hk]].
        * exists l, m. repeat split; auto. left; split; [rewrite <- M1|]; auto.
        * destruct (P x k Hk) as (l' & m' & P1 & P2 & P3). exists l', m'. repeat split; auto. right; split; [rewrite <- M1|]; auto.
  Qed.

  Lemma zip_leaves (f : L -> L -> outcome L) la lc lr : length la = length lc -> length lr = length la ->
    (forall i l m, nth_error la i = Some l -> nth_error lc i = Some m -> exists r, nth_error lr i = Some r /\ f l m = Ok r) ->
    pw_zip f (Node (map Leaf la)) (Node (map Leaf lc)) = Ok (Node (map Leaf lr)).
  Proof.
    intros Hl Hr H. cbn [pw_zip]. rewrite !map_length, Hl, Nat.eqb_refl. cbn [cassert obind].
    assert (G : (fix go (xs ys : list (pw L)) := match xs, ys with
          | nil, _ => Ok nil
          | x :: xs, y :: ys => do z <- pw_zip f x y; do zs <- go xs ys; Ok (z :: zs)
          | _ :: _, nil => UB
          end) (map Leaf la) (map Leaf lc) = Ok (map Leaf lr)).
    { revert lc lr Hl Hr H. induction la as [|l la IH]; intros [|m lc] [|r lr] Hl Hr H; try discriminate; [reflexivity|].
      cbn [map]. destruct (H 0%nat l m eq_refl eq_refl) as (r' & E & Ef). injection E as <-. cbn [pw_zip]. rewrite Ef. cbn [obind].
      rewrite (IH lc lr); auto. intros i l' m' E1 E2. apply (H (S i)); auto. }
    rewrite G. reflexivity.
  Qed.
  Lemma axpy_leaves a la lc lr : length la = length lc -> length lr = length la ->
    (forall i l m, nth_error la i = Some l -> nth_error lc i = Some m -> exists r, nth_error lr i = Some r /\ l_axpy K a l m = Ok r) ->
    pw_matched_axpy K a (Node (map Leaf la)) (Node (map Leaf lc)) = Ok (Node (map Leaf lr)).
  Proof.
    intros Hl Hr H. cbn [pw_matched_axpy].
    assert (G : (fix go (xs ys : list (pw L)) := match xs, ys with
          | nil, _ => Ok ys
          | x :: xs, y :: ys => do z <- pw_matched_axpy K a x y; do zs <- go xs ys; Ok (z :: zs)
          | _ :: _, nil => UB
          end) (map Leaf la) (map Leaf lc) = Ok (map Leaf lr)).
    { revert lc lr Hl Hr H. induction la as [|l la IH]; intros [|m lc] [|r lr] Hl Hr H; try discriminate; [reflexivity|].
      cbn [map]. destruct (H 0%nat l m eq_refl eq_refl) as (r' & E & Ef). injection E as <-. cbn [pw_matched_axpy]. rewrite Ef. cbn [obind].
      rewrite (IH lc lr); auto. intros i l' m' E1 E2. apply (H (S i)); auto. }
    rewrite G. destruct (map Leaf la); reflexivity.
  Qed.

  (** the result of an operation *)
  Definition result (u v : R) (F : R -> R -> R) (a b c : pw L) : Prop :=
    okfun u v c /\ forall x, x < v + tm -> exists p q, pw_eval K tm junk a x = Ok p /\ pw_eval K tm junk b x = Ok q /\ pw_eval K tm junk c x = Ok (F p q).

  Lemma tiles_at u ls v x : tiles lb ub u ls v -> ls <> nil -> x < v + tm -> exists l, piece_at ub tm ls x l.
  Proof.
    intros H Hne Hx. assert (Hl : exists l, In l ls /\ ub l = v).
    { clear Hx. revert u H. induction ls as [|l r IH]; [congruence|]. intros u H. simpl in H. destruct H as (_ & _ & H).
      destruct r as [|l' r]; [exists l; simpl in H; split; [left|]; auto|]. destruct (IH ltac:(discriminate) _ H) as (k & Hk & Ek). exists k; split; [right|]; auto. }
    destruct Hl as (l & Hl & <-). apply (piece_at_ex K tm ls x l); auto.
  Qed.

  Lemma result_ok f F u v a b la lc lr c : okfun u v a -> okfun u v b -> refines a la -> refines b lc ->
    tiles lb ub u lr v -> Forall good lr -> (forall x r, piece_at ub tm lr x r -> exists l m, piece_at ub tm la x l /\ piece_at ub tm lc x m /\ forall y, val r y = F (val l y) (val m y)) ->
    shaped c lr -> lr <> nil -> op_ok f F -> result u v F a b c.
  Proof.
    intros Ha Hb [Ra _] [Rb _] Tr Gr Pr Sc Hne _.
    assert (Hc : okfun u v c).
    { destruct Sc as [(l & -> & ->)| ->].
      - split; [split; [exact I|exact Tr]|exact Gr].
      - unfold okfun, on. simpl pieces. rewrite flat_leaves. split; [split; [apply proper_leaves; auto|exact Tr]|exact Gr]. }
    split; auto. intros x Hx.
    destruct (tiles_at u lr v x Tr Hne Hx) as (r & Hr).
    destruct (Pr x r Hr) as (l & m & Hl & Hm & Hv).
    destruct (Ra x l Hl) as (l0 & Hl0 & Vl). destruct (Rb x m Hm) as (m0 & Hm0 & Vm).
    exists (val l0 x), (val m0 x). repeat split.
    - apply (eval_piece u v); auto.
    - apply (eval_piece u v); auto.
    - rewrite (eval_piece u v c x r); auto; [rewrite Hv, Vl, Vm; auto|].
      destruct Sc as [(k & -> & ->)| ->]; simpl; auto. rewrite flat_leaves. auto.
  Qed.

  Theorem zip_op f F u v a b : op_ok f F -> okfun u v a -> okfun u v b -> splits a -> splits b -> apart a b ->
    exists c, (do (aa, bb) <- pw_match K tm ts eps junk a b; pw_zip f aa bb) = Ok c /\ result u v F a b c.
  Proof.
    intros Hop Ha Hb Sa Sb Hap.
    destruct (match_ok u v a b Ha Hb Sa Sb Hap) as (aa & bb & E & la & lc & S1 & S2 & Hleaf & Ta & Tb & M & Ga & Gb & Ra & Rb).
    rewrite E. cbn [obind].
    destruct (pair_ok f F u v la lc Hop Ta Tb M Ga Gb) as (lr & Tr & Gr & Lr & Nr & Pr).
    assert (Hll : length la = length lc) by (rewrite <- (map_length ub la), M, map_length; auto).
    assert (Hla : la <> nil).
    { intros ->. destruct Ra as [_ _]. simpl in Ta. destruct Ha as [[Pa Tpa] _]. pose proof (pieces_ne a Pa).
      destruct (pieces a) as [|k r]; [congruence|]. simpl in Tpa. destruct Tpa as (T1 & T2 & T3). apply tiles_le in T3. lra. }
    destruct S1 as [(l & -> & ->)| ->], S2 as [(m & -> & ->)| ->]; try discriminate.
    - destruct (Nr 0%nat l m eq_refl eq_refl) as (r & Er & Ef). cbn [pw_zip]. rewrite Ef. cbn [obind].
      destruct lr as [|r' [|]]; try discriminate. injection Er as ->.
      eexists. split; [reflexivity|]. eapply (result_ok f F) with (lr := r :: nil); eauto; [left; eauto|discriminate].
    - rewrite (zip_leaves f la lc lr); auto. eexists. split; [reflexivity|].
      eapply (result_ok f F) with (lr := lr); eauto; [right; auto|]. intros ->. destruct la; [congruence|discriminate].
  Qed.

  Theorem axpy_op k F u v a b : op_ok (l_axpy K k) F -> okfun u v a -> okfun u v b -> splits a -> splits b -> apart a b ->
    exists c, pw_axpy K tm ts eps junk k a b = Ok c /\ result u v F a b c.
  Proof.
    intros Hop Ha Hb Sa Sb Hap.
    assert (Hgen : exists c, (do (aa, bb) <- pw_match K tm ts eps junk a b; pw_matched_axpy K k aa bb) = Ok c /\ result u v F a b c).
    { destruct (match_ok u v a b Ha Hb Sa Sb Hap) as (aa & bb & E & la & lc & S1 & S2 & Hleaf & Ta & Tb & M & Ga & Gb & Ra & Rb).
      rewrite E. cbn [obind].
      destruct (pair_ok (l_axpy K k) F u v la lc Hop Ta Tb M Ga Gb) as (lr & Tr & Gr & Lr & Nr & Pr).
      assert (Hll : length la = length lc) by (rewrite <- (map_length ub la), M, map_length; auto).
      assert (Hla : la <> nil).
      { intros ->. simpl in Ta. destruct Ha as [[Pa Tpa] _]. pose proof (pieces_ne a Pa).
        destruct (pieces a) as [|k' r]; [congruence|]. simpl in Tpa. destruct Tpa as (T1 & T2 & T3). apply tiles_le in T3. lra. }
      destruct S1 as [(l & -> & ->)| ->], S2 as [(m & -> & ->)| ->]; try discriminate.
      - destruct (Nr 0%nat l m eq_refl eq_refl) as (r & Er & Ef). cbn [pw_matched_axpy]. rewrite Ef. cbn [obind].
        destruct lr as [|r' [|]]; try discriminate. injection Er as ->.
        eexists. split; [reflexivity|]. eapply (result_ok (l_axpy K k) F) with (lr := r :: nil); eauto; [left; eauto|discriminate].
      - rewrite (axpy_leaves k la lc lr); auto. eexists. split; [reflexivity|].
        eapply (result_ok (l_axpy K k) F) with (lr := lr); eauto; [right; auto|]. intros ->. destruct la; [congruence|discriminate]. }
    destruct a as [l|as_], b as [m|bs]; try exact Hgen.
    (* two leaves *)
    destruct Ha as [[_ Ta] Ga], Hb as [[_ Tb] Gb]. simpl in Ta, Tb, Ga, Gb. inversion Ga; subst; inversion Gb; subst.
    destruct Ta as (A1 & A2 & A3), Tb as (B1 & B2 & B3).
    destruct (Hop l m) as (r & E & R1 & R2 & R3 & R4); auto; try congruence.
    simpl. rewrite E. cbn [obind]. eexists; split; [reflexivity|]. split.
    - split; [split; [exact I|]|constructor; auto]. cbn [pieces tiles]. rewrite R1, R2. auto.
    - intros x Hx. exists (val l x), (val m x). unfold pw_eval. simpl. rewrite !Hev by auto. rewrite R4. auto.
  Qed.

  (** the inner product: a sum over the intervals of the common grid *)
  Definition covers (t : pw L) (c d : R) (l : L) : Prop := In l (pieces t) /\ lb l <= c /\ d <= ub l.
  Fixpoint over (a b : pw L) (u : R) (ps : list (R * L * L)) (v : R) : Prop :=
    match ps with
    | nil => u = v
    | (d, l, m) :: r => u < d /\ covers a u d l /\ covers b u d m /\ over a b d r v
    end.
  Fixpoint total (I : R -> R -> (R -> R) -> (R -> R) -> R) (u : R) (ps : list (R * L * L)) : R :=
    match ps with nil => 0 | (d, l, m) :: r => I u d (val l) (val m) + total I d r end.

  Theorem inner_op I u v a b : (forall c d f g f' g', (forall x, f x = f' x) -> (forall x, g x = g' x) -> I c d f g = I c d f' g') ->
    (forall l m, good l -> good m -> lb l = lb m -> ub l = ub m -> l_inner K l m = Ok (I (lb l) (ub l) (val l) (val m))) ->
    okfun u v a -> okfun u v b -> splits a -> splits b -> apart a b ->
    exists ps, over a b u ps v /\ pw_inner K tm ts eps junk a b = Ok (total I u ps).
  Proof.
    intros Hext Hin Ha Hb Sa Sb Hap.
    destruct (match_ok u v a b Ha Hb Sa Sb Hap) as (aa & bb & E & la & lc & S1 & S2 & Hleaf & Ta & Tb & M & Ga & Gb & Ra & Rb).
    assert (Hps : exists ps, over a b u ps v /\ forall s, for_ (length la) (fun ii out =>
        do x <- aget (map Leaf la) ii; do x <- leaf_of x; do y <- aget (map Leaf lc) ii; do y <- leaf_of y;
        do v0 <- l_inner K x y; Ok (out + v0)) s = Ok (s + total I u ps)).
    { clear S1 S2 Hleaf E. destruct Ra as [_ Ra], Rb as [_ Rb].
      assert (Hall : exists ps, over a b u ps v /\ forall s,
        (fix go la lc s := match la, lc with l :: la, m :: lc => do v <- l_inner K l m; go la lc (s + v) | _, _ => Ok s end) la lc s = Ok (s + total I u ps)).
      { revert u lc Ta Tb M Gb Ra Rb Ha Hb. clear Sa Sb Hap. 
        assert (G : forall u lc, tiles lb ub u la v -> tiles lb ub u lc v -> map ub la = map ub lc -> Forall good lc ->
          (forall l', In l' la -> exists l, In l (pieces a) /\ lb l <= lb l' /\ ub l' <= ub l /\ forall y, val l' y = val l y) ->
          (forall l', In l' lc -> exists l, In l (pieces b) /\ lb l <= lb l' /\ ub l' <= ub l /\ forall y, val l' y = val l y) ->
          exists ps, over a b u ps v /\ forall s,
          (fix go la lc s := match la, lc with l :: la, m :: lc => do v <- l_inner K l m; go la lc (s + v) | _, _ => Ok s end) la lc s = Ok (s + total I u ps)); [|eauto].
        induction la as [|l la' IH]; intros u [|m lc] Ta Tb M Gb Ra Rb; try discriminate.
        - exists nil. simpl. split; auto. intros s. f_equal. lra.
        - simpl in Ta, Tb, M. destruct Ta as (A1 & A2 & A3), Tb as (B1 & B2 & B3). injection M as M1 M2.
          inversion Ga; subst; inversion Gb; subst.
          destruct (IH ltac:(auto) (ub l) lc) as (ps & Ho & Hs); auto; [rewrite M1; auto|intros; apply Ra; right; auto|intros; apply Rb; right; auto|].
          destruct (Ra l (or_introl eq_refl)) as (l0 & I1 & I2 & I3 & I4).
          destruct (Rb m (or_introl eq_refl)) as (m0 & J1 & J2 & J3 & J4).
          exists ((ub l, l0, m0) :: ps). split.
          + simpl. unfold covers. repeat split; auto; try lra.
          + intros s. rewrite Hin by auto. cbn [obind]. rewrite Hs. f_equal. simpl. rewrite (Hext _ _ _ _ _ _ I4 J4). lra. }
      destruct Hall as (ps & Ho & Hs). exists ps. split; auto. intros s. rewrite <- Hs.
      assert (Hll : length la = length lc) by (rewrite <- (map_length ub la), M, map_length; auto).
      clear - Hll. unfold for_. revert lc s Hll.
      assert (G : forall la lc pa pc s, length la = length lc -> length pa = length pc ->
        for_from (length pa) (length la) (fun ii out =>
          do x <- aget (map Leaf (pa ++ la)) ii; do x <- leaf_of x; do y <- aget (map Leaf (pc ++ lc)) ii; do y <- leaf_of y;
          do v0 <- l_inner K x y; Ok (out + v0)) s =
        (fix go la lc s := match la, lc with l :: la, m :: lc => do v <- l_inner K l m; go la lc (s + v) | _, _ => Ok s end) la lc s).
      { clear. induction la as [|l la IH]; intros [|m lc] pa pc s Hl Hp; try discriminate; [reflexivity|].
        simpl length. cbn [for_from].
        assert (N : forall p k (q : L), nth_error (map Leaf (p ++ q :: k)) (length p) = Some (Leaf q)).
        { clear. intros p k q. rewrite nth_error_map, nth_error_app2, Nat.sub_diag by lia. reflexivity. }
        rewrite (aget_ok _ _ _ (N pa la l)). cbn [obind leaf_of].
        rewrite Hp. rewrite (aget_ok _ _ _ (N pc lc m)). cbn [obind leaf_of]. rewrite <- Hp.
        destruct (l_inner K l m) as [v| | |]; cbn [obind]; auto.
        specialize (IH lc (pa ++ l :: nil) (pc ++ m :: nil) (s + v)). rewrite <- !app_assoc in IH. cbn [app] in IH.
        rewrite <- IH by (rewrite ?app_length; simpl in *; lia).
        replace (length (pa ++ l :: nil)) with (S (length pa)) by (rewrite app_length; simpl; lia). reflexivity. }
      intros lc s Hll. apply (G la lc nil nil s); auto. }
    destruct Hps as (ps & Ho & Hs).
    assert (Hmain : (do (aa, bb) <- pw_match K tm ts eps junk a b;
        let aa := pw_flatten aa in let bb := pw_flatten bb in
        for_ (length (branches aa)) (fun ii out =>
          do x <- aget (branches aa) ii; do x <- leaf_of x; do y <- aget (branches bb) ii; do y <- leaf_of y;
          do v <- l_inner K x y; Ok (out + v)) 0) = Ok (total I u ps) \/ (exists l m, aa = Leaf l /\ bb = Leaf m)).
    { destruct S1 as [(l & -> & ->)| ->], S2 as [(m & -> & ->)| ->]; try discriminate; [right; eauto|left].
      rewrite E. cbn [obind].
      assert (Hf : forall ls : list L, pw_flatten (Node (map Leaf ls)) = Node (map Leaf ls)).
      { intros ls. rewrite flatten_form. simpl pieces. rewrite flat_leaves. reflexivity. }
      rewrite !Hf. cbn [branches]. rewrite map_length, Hs. f_equal. lra. }
    destruct a as [l|as_], b as [m|bs].
    - (* two leaves *)
      destruct Ha as [[_ Ta'] Ga'], Hb as [[_ Tb'] Gb']. simpl in Ta', Tb', Ga', Gb'. inversion Ga'; subst; inversion Gb'; subst.
      destruct Ta' as (A1 & A2 & A3), Tb' as (B1 & B2 & B3).
      exists ((v, l, m) :: nil). split.
      + simpl. unfold covers. simpl. repeat split; auto; try lra.
      + simpl. rewrite Hin; auto; try congruence. f_equal. rewrite A1, A3. lra.
    - exists ps. split; auto. destruct Hmain as [H|(l' & m' & -> & ->)]; [exact H|]. exfalso.
      clear - E Sb Ha Hb S2 Rb Tb. destruct S2 as [(m & Em & ->)|]; [|discriminate].
      destruct Rb as [_ Rb]. simpl in Tb. destruct (Rb m (or_introl eq_refl)) as (k & Hk1 & Hk2 & Hk3 & _).
      destruct Hb as [[Pb Tpb] _]. destruct Sb as [?|Sb]; [discriminate|].
      destruct Tb as (B1 & B2 & B3). rewrite B1 in Hk2. rewrite B3 in Hk3.
      destruct (pieces (Node bs)) as [|p1 [|p2 r]]; simpl in Sb; try lia. simpl in Tpb.
      destruct Tpb as (T1 & T2 & T3 & T4 & T5). apply tiles_le in T5. destruct T5 as [T5 T6].
      destruct Hk1 as [<-|[<-|Hk1]]; [lra|lra|]. specialize (T6 k Hk1). lra.
    - exists ps. split; auto. destruct Hmain as [H|(l' & m' & -> & ->)]; [exact H|]. exfalso.
      clear - E Sa Ha Hb S1 Ra Ta. destruct S1 as [(m0 & Em & ->)|]; [|discriminate].
      destruct Ra as [_ Ra]. simpl in Ta. destruct (Ra m0 (or_introl eq_refl)) as (k & Hk1 & Hk2 & Hk3 & _).
      destruct Ha as [[Pb Tpb] _]. destruct Sa as [?|Sa]; [discriminate|].
      destruct Ta as (B1 & B2 & B3). rewrite B1 in Hk2. rewrite B3 in Hk3.
      destruct (pieces (Node as_)) as [|p1 [|p2 r]]; simpl in Sa; try lia. simpl in Tpb.
      destruct Tpb as (T1 & T2 & T3 & T4 & T5). apply tiles_le in T5. destruct T5 as [T5 T6].
      destruct Hk1 as [<-|[<-|Hk1]]; [lra|lra|]. specialize (T6 k Hk1). lra.
    - exists ps. split; auto. destruct Hmain as [H|(l' & m' & -> & ->)]; [exact H|]. exfalso.
      clear - E Sa Ha Hb S1 Ra Ta. destruct S1 as [(m0 & Em & ->)|]; [|discriminate].
      destruct Ra as [_ Ra]. simpl in Ta. destruct (Ra m0 (or_introl eq_refl)) as (k & Hk1 & Hk2 & Hk3 & _).
      destruct Ha as [[Pb Tpb] _]. destruct Sa as [?|Sa]; [discriminate|].
      destruct Ta as (B1 & B2 & B3). rewrite B1 in Hk2. rewrite B3 in Hk3.
      destruct (pieces (Node as_)) as [|p1 [|p2 r]]; simpl in Sa; try lia. simpl in Tpb.
      destruct Tpb as (T1 & T2 & T3 & T4 & T5). apply tiles_le in T5. destruct T5 as [T5 T6].
      destruct Hk1 as [<-|[<-|Hk1]]; [lra|lra|]. specialize (T6 k Hk1). lra.
  Qed.
End Ops.
