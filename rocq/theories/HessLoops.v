(** The loops of ft_param_hessvec. *)
From Verif Require Export HessFacts.

Lemma offs_inj sz k k' p p' : p < sz k -> p' < sz k' -> offs sz k + p = offs sz k' + p' -> k = k' /\ p = p'.
Proof.
  intros Hp Hp' E. destruct (Nat.lt_trichotomy k k') as [L|[->|L]]; [|split; auto; lia|].
  - assert (H := offs_mono sz (S k) k' ltac:(lia)). cbn [offs] in H. lia.
  - assert (H := offs_mono sz (S k') k ltac:(lia)). cbn [offs] in H. lia.
Qed.

Section Loops.
  Context {R : CRing}.
  Open Scope cr_scope.
  Add Ring Rr40 : (rth R).

  Variables (d : nat) (r : nat -> nat) (ranks npu npc : list nat) (mr : nat) (evals d1 vec : list R).
  Let np q := nth q npu 0.
  Let EO := offs (fun q => r q * r (S q)).
  Let PO := offs np.
  Let N := PO (EO d).
  Hypothesis Hrk : forall k, k <= d -> aget ranks k = Ok (r k).
  Hypothesis Hnpu : EO d <= length npu.
  Hypothesis Hnpc : forall k, k < d -> aget npc k = Ok (PO (EO (S k)) - PO (EO k)).
  Hypothesis Hd1 : N <= length d1.
  Hypothesis Hvec : N <= length vec.

  (** [H m n] is what hess_ij returns for the parameters [m] and [n] *)
  Variable H : nat -> nat -> R.
  Hypothesis HH : forall k i j l k' i' j' l', k < k' -> k' < d -> i < r k -> j < r (S k) -> i' < r k' -> j' < r (S k') ->
    l < np (EO k + (j * r k + i)) -> l' < np (EO k' + (j' * r k' + i')) ->
    forall m n, m = PO (EO k + (j * r k + i)) + l -> n = PO (EO k' + (j' * r k' + i')) + l' ->
    hess_ij d k k' i j i' j' evals (nth m d1 r0) (nth n d1 r0) mr ranks = Ok (H m n).

  Let V n := nth n vec r0.
  (** Contribution of the pair (m, n) to entry [p] *)
  Definition hw m n p : R := (if p =? m then H m n *! V n else r0) +! (if p =? n then H m n *! V m else r0).

  Lemma lo_np q : q < EO d -> aget npu q = Ok (np q).
  Proof. intros Hq. apply aget_ok. apply nth_error_nth'. lia. Qed.

  Lemma lo_q k i j : k < d -> i < r k -> j < r (S k) -> EO k + (j * r k + i) < EO (S k) /\ EO (S k) <= EO d.
  Proof.
    intros Hk Hi Hj. split; [change (EO (S k)) with (EO k + r k * r (S k)); nia|]. apply offs_mono. lia.
  Qed.
  Lemma lo_m k i j l : k < d -> i < r k -> j < r (S k) -> l < np (EO k + (j * r k + i)) ->
    PO (EO k) <= PO (EO k + (j * r k + i)) + l < PO (EO (S k)) /\ PO (EO (S k)) <= N.
  Proof.
    intros Hk Hi Hj Hl. destruct (lo_q k i j Hk Hi Hj) as [A B]. split.
    - assert (E1 := offs_mono np (EO k) (EO k + (j * r k + i)) ltac:(lia)).
      assert (E2 := offs_mono np (S (EO k + (j * r k + i))) (EO (S k)) ltac:(lia)). cbn [offs] in E2. fold PO in E1, E2. unfold PO in *. lia.
    - now apply offs_mono.
  Qed.

  (** hv has grown by the contributions of the pairs (m, n) with s <= n < e *)
  Definition grown (base hv : list R) m s e :=
    length hv = length base /\ forall p v, nth_error base p = Some v -> nth_error hv p = Some (v +! sum (e - s) (fun t => hw m (s + t) p)).

  Lemma grown_step base hv m s e : grown base hv m s e -> s <= e -> m < length base -> e < length base -> m <> e ->
    exists hv1 a b, aget hv m = Ok a /\ hv1 = upd hv m (a +! H m e *! V e) /\ aget hv1 e = Ok b /\ length hv1 = length base /\
      grown base (upd hv1 e (b +! H m e *! V m)) m s (S e).
  Proof.
    intros (L & G) Hse Hm He Ne. destruct (aget_lt hv m) as (a & Ea & Ga); [lia|].
    destruct (aget_lt (upd hv m (a +! H m e *! V e)) e) as (b & Eb & Gb); [rewrite upd_length; lia|].
    exists (upd hv m (a +! H m e *! V e)), a, b. split; [exact Ga|]. split; [reflexivity|]. split; [exact Gb|]. split; [rewrite upd_length; exact L|].
    split; [now rewrite !upd_length|]. intros p v Ev. specialize (G p v Ev). rewrite nth_error_upd_other in Eb by auto.
    replace (S e - s) with (S (e - s)) by lia. cbn [sum]. replace (s + (e - s)) with e by lia. unfold hw at 2.
    assert (Hp : p < length base) by (apply nth_error_Some; congruence).
    destruct (Nat.eqb_spec p m) as [N1|N1], (Nat.eqb_spec p e) as [N2|N2]; try lia; try subst p.
    - rewrite nth_error_upd_other by auto. rewrite nth_error_upd_same by lia. assert (a = v +! sum (e - s) (fun t => hw m (s + t) m)) by congruence. subst a. f_equal. ring.
    - rewrite nth_error_upd_same by (rewrite upd_length; lia). assert (b = v +! sum (e - s) (fun t => hw m (s + t) e)) by congruence. subst b. f_equal. ring.
    - rewrite !nth_error_upd_other by auto. rewrite G. f_equal. ring.
  Qed.

  Lemma hess_row_ok k i j l base m : k < d -> i < r k -> j < r (S k) -> l < np (EO k + (j * r k + i)) -> m = PO (EO k + (j * r k + i)) + l ->
    N <= length base ->
    exists hv, hess_row d ranks npu mr evals d1 vec k i j m (base, PO (EO (S k)), EO (S k)) = Ok (hv, N, EO d) /\
      grown base hv m (PO (EO (S k))) N.
  Proof.
    intros Hk Hi Hj Hl Em LN. unfold hess_row. rewrite Nat.add_1_r. set (s := PO (EO (S k))).
    destruct (lo_m k i j l Hk Hi Hj Hl) as ((B1 & B2) & B3). rewrite <- Em in B1, B2. fold s in B2, B3.
    match goal with |- context [for_from _ _ ?B ?s9] =>
      destruct (for_from_inv (fun k' (st : list R * nat * nat) => let '(hv, pj, uj) := st in
         grown base hv m s pj /\ uj = EO k' /\ pj = PO uj) B (S k) (d - S k) s9) as (st & E & HI) end.
    - split; [|split; reflexivity]. split; [reflexivity|]. intros p v Ev. unfold s. rewrite Nat.sub_diag. cbn [sum]. rewrite Ev. f_equal. ring.
    - intros k' st Hk' HI. rewrite Nat.add_1_r, !Hrk by lia. cbn [obind].
      match goal with |- context [for_ (r (S k')) ?B ?s9] =>
        destruct (for_inv (fun j' (st : list R * nat * nat) => let '(hv, pj, uj) := st in
           grown base hv m s pj /\ uj = EO k' + j' * r k' /\ pj = PO uj) B (r (S k')) s9) as (st1 & E1 & HI1) end.
      + destruct st as [[hv pj] uj]. cbn [Nat.mul]. now rewrite Nat.add_0_r.
      + intros j' st1 Hj' HI1.
        match goal with |- context [for_ (r k') ?B ?s9] =>
          destruct (for_inv (fun i' (st : list R * nat * nat) => let '(hv, pj, uj) := st in
             grown base hv m s pj /\ uj = EO k' + (j' * r k' + i') /\ pj = PO uj) B (r k') s9) as (st2 & E2 & HI2) end.
        * destruct st1 as [[hv pj] uj]. now rewrite Nat.add_0_r.
        * intros i' [[hv pj] uj] Hi' (HG & Hu & Hp). destruct (lo_q k' i' j' ltac:(lia) Hi' Hj') as [Q1 Q2].
          rewrite Hu, lo_np by lia. cbn [obind]. rewrite <- Hu.
          match goal with |- context [for_ (np uj) ?B ?s9] =>
            destruct (for_inv (fun l' (st : list R * nat) => let '(hv, pj) := st in
               grown base hv m s pj /\ pj = PO uj + l') B (np uj) s9) as (st3 & E3 & HI3) end.
          { now rewrite Nat.add_0_r. }
          { intros l' [hv' pj'] Hl' (HG' & Hp'). rewrite Hu in Hl', Hp'.
            destruct (lo_m k' i' j' l' ltac:(lia) Hi' Hj' Hl') as ((C1 & C2) & C3). rewrite <- Hp' in C1, C2.
            assert (C0 : s <= PO (EO k')) by (apply offs_mono, offs_mono; lia).
            destruct (aget_lt d1 m) as (gm & _ & Gm); [lia|]. destruct (aget_lt d1 pj') as (gn & _ & Gn); [lia|].
            assert (gm = nth m d1 r0) by (apply aget_inv in Gm; symmetry; now apply nth_error_nth).
            assert (gn = nth pj' d1 r0) by (apply aget_inv in Gn; symmetry; now apply nth_error_nth). subst gm gn.
            rewrite Gm. cbn [obind]. rewrite Gn. cbn [obind].
            rewrite (HH k i j l k' i' j' l' ltac:(lia) ltac:(lia) Hi Hj Hi' Hj' Hl Hl' m pj' Em Hp'). cbn [obind].
            destruct (grown_step base hv' m s pj' HG') as (hv1 & a & b & Ga & E1' & Gb & L1 & G1); try lia.
            rewrite Ga. cbn [obind].
            destruct (aget_lt vec pj') as (vn & En & Gvn); [lia|]. destruct (aget_lt vec m) as (vm & Evm & Gvm); [lia|].
            assert (vn = V pj') by (symmetry; now apply nth_error_nth). assert (vm = V m) by (symmetry; now apply nth_error_nth). subst vn vm.
            destruct HG' as [LG _].
            rewrite Gvn. cbn [obind]. rewrite aset_ok by lia. cbn [obind]. rewrite <- E1', Gb. cbn [obind]. rewrite Gvm. cbn [obind].
            rewrite aset_ok by lia. cbn [obind]. eexists. split; [reflexivity|]. cbv beta iota. rewrite Nat.add_1_r. split; [exact G1|]. rewrite Hu. lia. }
          destruct st3 as [hv' pj']. destruct HI3 as [HG' Hp']. rewrite E3. cbn [obind]. eexists. split; [reflexivity|]. cbv beta iota.
          split; [exact HG'|]. split; [lia|]. rewrite Nat.add_1_r. exact Hp'.
        * rewrite E2. eexists. split; [reflexivity|]. destruct st2 as [[hv pj] uj]. destruct HI2 as (A1 & A2 & A3). split; auto. split; auto. rewrite A2. cbn [Nat.mul]. lia.
      + rewrite E1. eexists. split; [reflexivity|]. destruct st1 as [[hv pj] uj]. destruct HI1 as (A1 & A2 & A3). split; auto. split; auto. rewrite A2.
        change (EO (S k')) with (EO k' + r k' * r (S k')). lia.
    - replace (S k + (d - S k)) with d in * by lia. destruct st as [[hv pj] uj]. destruct HI as (A1 & -> & ->). exists hv. split; [exact E|exact A1].
  Qed.

  (** The first parameter of the next core *)
  Variable st : nat -> nat.
  Hypothesis Hst : forall k m, k < d -> PO (EO k) <= m < PO (EO (S k)) -> st m = PO (EO (S k)).

  Definition rows (base hv : list R) e :=
    length hv = length base /\ forall p v, nth_error base p = Some v ->
      nth_error hv p = Some (v +! sum e (fun m => sum (N - st m) (fun t => hw m (st m + t) p))).

  Lemma hess_outer_ok base : N <= length base ->
    exists hv a b c e, hess_outer d ranks npu npc mr evals d1 vec base = Ok (hv, a, b, c, e) /\ rows base hv N.
  Proof.
    intros LN. unfold hess_outer.
    match goal with |- context [for_ d ?B ?s9] =>
      destruct (for_inv (fun k (s : list R * nat * nat * nat * nat) => let '(hv, pi, ui, sp, su) := s in
         rows base hv pi /\ ui = EO k /\ pi = PO ui /\ sp = PO (EO k) /\ su = EO k) B d s9) as (s & E & HI) end.
    - split; [|repeat split]. split; [reflexivity|]. intros p v Ev. cbn [sum]. rewrite Ev. f_equal. ring.
    - intros k s Hk HI. destruct s as [[[[hv pi] ui] sp] su]. destruct HI as (HR & Hu & Hp & Hsp & Hsu).
      rewrite Hnpc by auto. cbn [obind]. rewrite Nat.add_1_r, !Hrk by lia. cbn [obind].
      assert (Es : sp + (PO (EO (S k)) - PO (EO k)) = PO (EO (S k))).
      { assert (PO (EO k) <= PO (EO (S k))) by (apply offs_mono, offs_mono; lia). lia. }
      rewrite Es. replace (su + r k * r (S k)) with (EO (S k)) by (rewrite Hsu; reflexivity).
      match goal with |- context [for_ (r (S k)) ?B ?s9] =>
        destruct (for_inv (fun j (s : list R * nat * nat) => let '(hv, pi, ui) := s in
           rows base hv pi /\ ui = EO k + j * r k /\ pi = PO ui) B (r (S k)) s9) as (s1 & E1 & HI1) end.
      + cbn [Nat.mul]. now rewrite Nat.add_0_r.
      + intros j s1 Hj HI1.
        match goal with |- context [for_ (r k) ?B ?s9] =>
          destruct (for_inv (fun i (s : list R * nat * nat) => let '(hv, pi, ui) := s in
             rows base hv pi /\ ui = EO k + (j * r k + i) /\ pi = PO ui) B (r k) s9) as (s2 & E2 & HI2) end.
        * destruct s1 as [[hv1 pi1] ui1]. now rewrite Nat.add_0_r.
        * intros i [[hv2 pi2] ui2] Hi (HR2 & Hu2 & Hp2). destruct (lo_q k i j Hk Hi Hj) as [Q1 Q2].
          rewrite Hu2, lo_np by lia. cbn [obind]. rewrite <- Hu2.
          match goal with |- context [for_ (np ui2) ?B ?s9] =>
            destruct (for_inv (fun l (s : list R * nat) => let '(hv, pi) := s in
               rows base hv pi /\ pi = PO ui2 + l) B (np ui2) s9) as (s3 & E3 & HI3) end.
          { now rewrite Nat.add_0_r. }
          { intros l [hv3 pi3] Hl ((L3 & G3) & Hp3). rewrite Hu2 in Hl, Hp3.
            destruct (hess_row_ok k i j l hv3 pi3 Hk Hi Hj Hl Hp3) as (hv4 & E4 & L4 & G4); [lia|]. rewrite E4. cbn [obind].
            eexists. split; [reflexivity|]. cbv beta iota. split; [|rewrite Hu2; lia]. rewrite Nat.add_1_r. split; [lia|]. intros p v Ev. rewrite (G4 _ _ (G3 _ _ Ev)).
            destruct (lo_m k i j l Hk Hi Hj Hl) as (B12 & _). rewrite <- Hp3 in B12. cbn [sum]. rewrite (Hst k pi3 Hk B12). f_equal. ring. }
          destruct s3 as [hv3 pi3]. destruct HI3 as [HR3 Hp3]. rewrite E3. cbn [obind]. eexists. split; [reflexivity|]. cbv beta iota.
          split; [exact HR3|]. split; [lia|]. rewrite Nat.add_1_r. exact Hp3.
        * rewrite E2. eexists. split; [reflexivity|]. destruct s2 as [[hv2 pi2] ui2]. destruct HI2 as (A1 & A2 & A3). split; auto. split; auto. rewrite A2. cbn [Nat.mul]. lia.
      + rewrite E1. cbn [obind]. destruct s1 as [[hv1 pi1] ui1]. eexists. split; [reflexivity|]. cbv beta iota. destruct HI1 as (A1 & A2 & A3).
        split; auto. split; [|auto]. rewrite A2. change (EO (S k)) with (EO k + r k * r (S k)). lia.
    - destruct s as [[[[hv pi] ui] sp] su]. destruct HI as (A1 & -> & -> & _). exists hv, (PO (EO d)), (EO d), sp, su. split; [exact E|exact A1].
  Qed.

  (** ** Closed form *)
  Lemma sum_shift s n (F : nat -> R) : s <= n -> sum (n - s) (fun t => F (s + t)) = sum n (fun k => if s <=? k then F k else r0).
  Proof.
    intros L. induction n as [|n IH]; [reflexivity|]. destruct (Nat.eq_dec s (S n)) as [->|N1].
    - rewrite Nat.sub_diag. cbn [sum]. symmetry.
      rewrite (sum_ext R n _ (fun _ => r0)).
      + rewrite sum_zero. destruct (Nat.leb_spec (S n) n); [lia|]. ring.
      + intros k Hk. destruct (Nat.leb_spec (S n) k); [lia|reflexivity].
    - replace (S n - s) with (S (n - s)) by lia. cbn [sum]. rewrite IH by lia. replace (s + (n - s)) with n by lia.
      destruct (Nat.leb_spec s n); [reflexivity|lia].
  Qed.

  Hypothesis Hlt : forall m, m < N -> m < st m <= N.
  Hypothesis Hsym : forall m n, m < N -> n < N -> H m n = H n m.
  Hypothesis Hzero : forall m n, m < N -> n < N -> n < st m -> m < st n -> H m n = r0.

  Lemma rows_closed p : p < N ->
    sum N (fun m => sum (N - st m) (fun t => hw m (st m + t) p)) = sum N (fun n => H p n *! V n).
  Proof.
    intros Hp.
    rewrite (sum_ext R N _ (fun m => (if m =? p then sum N (fun n => if st p <=? n then H p n *! V n else r0) else r0)
                                      +! (if st m <=? p then H m p *! V m else r0))).
    - rewrite sum_add, (sum_single R N _ p Hp).
      + rewrite Nat.eqb_refl, <- sum_add. apply sum_ext. intros n Hn.
        destruct (Hlt p Hp) as [L1 L2]. destruct (Hlt n Hn) as [L3 L4].
        destruct (Nat.leb_spec (st p) n), (Nat.leb_spec (st n) p); try lia.
        * ring.
        * rewrite (Hsym n p) by auto. ring.
        * rewrite Hzero by auto. ring.
      + intros m _ Nm. destruct (Nat.eqb_spec m p); [contradiction|reflexivity].
    - intros m Hm. destruct (Hlt m Hm) as [L1 L2].
      rewrite (sum_shift (st m) N (fun n => hw m n p)) by auto.
      destruct (Nat.eqb_spec m p) as [->|Nm].
      + rewrite <- (sum_ext R N (fun k => if st p <=? k then hw p k p else r0) (fun n => if st p <=? n then H p n *! V n else r0)).
        * destruct (Nat.leb_spec (st p) p); [lia|]. ring.
        * intros n Hn. destruct (Nat.leb_spec (st p) n); [|reflexivity]. unfold hw. rewrite Nat.eqb_refl. destruct (Nat.eqb_spec p n); [lia|]. ring.
      + rewrite (sum_ext R N _ (fun n => if n =? p then (if st m <=? p then H m p *! V m else r0) else r0)).
        * rewrite (sum_single R N _ p Hp); [rewrite Nat.eqb_refl; ring|]. intros n _ Nn. destruct (Nat.eqb_spec n p); [contradiction|reflexivity].
        * intros n Hn. destruct (Nat.eqb_spec n p) as [->|Nn].
          -- destruct (Nat.leb_spec (st m) p); [|reflexivity]. unfold hw. rewrite Nat.eqb_refl. destruct (Nat.eqb_spec p m); [lia|]. ring.
          -- destruct (Nat.leb_spec (st m) n); [|reflexivity]. unfold hw. destruct (Nat.eqb_spec p m), (Nat.eqb_spec p n); try lia. ring.
  Qed.
End Loops.
