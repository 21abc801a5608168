(** ft_param_hessvec: the values it starts from, and the result. *)
From Verif Require Export HessTrain.

(** Replaces a read by its result, whatever form the array has *)
Ltac swap_get i v E := match goal with |- context [aget ?a9 i] => replace (aget a9 i) with (Ok v) by (symmetry; exact E) end.

Section Run.
  Context {R : CRing} {F : Type}.
  Open Scope cr_scope.
  Add Ring Rr44 : (rth R).

  Variable z : gfn R F.
  Variable ev : gfn R F -> R -> R.
  Let U := evU z ev.
  Variable ftp : ftparam R U.
  Hypothesis Ok_ : ftp_ok ftp.
  Variable x : list R.
  Let f := fp_ft ftp.
  Hypothesis Hx : length x = ft_dim f.
  Variable pge : gfn R F -> R -> R * list R.
  Hypothesis Hpge : forall u y, gf_wf u -> fst (pge u y) = ev u y /\ length (snd (pge u y)) = length (gf_params u).

  Let d := ft_dim f.
  Let r := frk f.
  Let M := fM f (fun k g => uev g (nth k x r0)).
  Let funs := flat_map fs (ft_cores f).
  Let np q := nth q (map gf_num funs) 0.
  Let EO := offs (fun q => r q * r (S q)).
  Let PO := offs np.
  Let NP := fp_nparams ftp.
  (** The array of values has one cell per parameter *)
  Hypothesis Hcells : length funs <= NP.

  Lemma hr_maxrank : exists mr, hess_maxrank d (ft_ranks f) = Ok mr /\ forall k, k <= d -> r k <= mr.
  Proof using Ok_ Hx.
    clear Hcells Hpge. unfold hess_maxrank. rewrite (pa_rk z ev ftp Ok_ x Hx) by lia. cbn [obind].
    match goal with |- context [for_ d ?B ?s9] =>
      destruct (for_inv (fun i m => 1 <= m /\ forall k, k < i -> r k <= m) B d s9) as (mr & E & H1 & H2) end.
    - split; [|intros; lia]. exact (pa_pos z ev ftp Ok_ x Hx 0 ltac:(lia)).
    - intros i m Hi (H1 & H2). rewrite (pa_rk z ev ftp Ok_ x Hx) by exact (Nat.lt_le_incl _ _ Hi). cbn [obind]. eexists. split; [reflexivity|]. change (frk (fp_ft ftp) i) with (r i).
      destruct (Nat.ltb_spec m (r i)); (split; [lia|]); intros k Hk; destruct (Nat.eq_dec k i) as [->|]; try lia; specialize (H2 k ltac:(lia)); lia.
    - exists mr. split; [exact E|]. intros k Hk. destruct (Nat.eq_dec k d) as [->|].
      + unfold r, d. rewrite frk_d by exact (pa_wf z ev ftp Ok_). lia.
      + apply H2. lia.
  Qed.

  Definition ready (evals d1 : list R) q := forall k p u, k < d -> p < r k * r (S k) -> EO k + p < q -> nth_error funs (EO k + p) = Some u ->
    nth_error evals (EO k + p) = Some (ev u (nth k x r0)) /\
    forall l, l < gf_num u -> nth_error d1 (PO (EO k + p) + l) = Some (nth l (snd (pge u (nth k x r0))) r0).

  Lemma hr_evals : exists evals d1, hess_evals pge ftp x = Ok (evals, d1) /\ length d1 = NP /\ ready evals d1 (EO d).
  Proof.
    unfold hess_evals. match goal with |- context [for_ ?n9 _ _] => replace n9 with d by (symmetry; exact (pa_dim z ev ftp Ok_)) end.
    match goal with |- context [fp_nparams ?q] => change (fp_nparams q) with NP end.
    assert (ED : EO d = length funs) by exact (pa_EOd z ev ftp Ok_).
    assert (PD : PO (EO d) = NP) by exact (pa_POd z ev ftp Ok_).
    match goal with |- context [for_ d ?B ?s9] =>
      destruct (for_inv (fun k (s : list R * list R * nat * nat) => let '(evals, d1, q, p) := s in
         length evals = NP /\ length d1 = NP /\ q = EO k /\ p = PO q /\ ready evals d1 q) B d s9) as (s & E & HI) end.
    - rewrite !repeat_length. do 4 (split; [reflexivity|]). intros k p u _ _ H. lia.
    - intros k s Hk HI. rewrite Nat.add_1_r. swap_get k (r k) (pa_rk z ev ftp Ok_ x Hx k (Nat.lt_le_incl _ _ Hk)). swap_get (S k) (r (S k)) (pa_rk z ev ftp Ok_ x Hx (S k) Hk). cbn [obind].
      match goal with |- context [for_ (r k * r (S k)) ?B ?s9] =>
        destruct (for_inv (fun jj (s : list R * list R * nat * nat) => let '(evals, d1, q, p) := s in
           length evals = NP /\ length d1 = NP /\ q = EO k + jj /\ p = PO q /\ ready evals d1 q) B (r k * r (S k)) s9) as (s' & E & HI') end.
      + destruct s as [[[a b] c] e]. now rewrite Nat.add_0_r.
      + intros jj [[[evals d1] q] p] Hjj (L1 & L2 & Hq & Hp & HR).
        swap_get k (fco f k) (pa_core z ev ftp Ok_ k Hk). cbn [obind].
        destruct (nth_error (fs (fco f k)) jj) as [u|] eqn:Eu.
        2:{ apply nth_error_None in Eu. destruct (canon_core f k (pa_wf z ev ftp Ok_) Hk) as (_ & Q & C1 & C2 & _).
            assert (HQ : length (fs (fco f k)) = r k * r (S k)) by (rewrite Q, C1, C2; reflexivity). lia. }
        match goal with |- context [aget ?a jj] => replace (aget a jj) with (Ok (A := gfn R F) u) by (symmetry; exact (aget_ok _ _ _ Eu)) end. cbn [obind].
        assert (Ex : aget x k = Ok (nth k x r0)) by (apply aget_ok, nth_error_nth'; rewrite Hx; exact Hk). rewrite Ex. cbn [obind].
        assert (Eu' : nth_error funs q = Some u) by (rewrite Hq, <- Eu; exact (funs_nth f (pa_wf z ev ftp Ok_) k jj Hk Hjj)).
        assert (Wu : gf_wf u) by (pose proof (pa_funswf z ev ftp Ok_) as W; rewrite Forall_forall in W; eapply W, nth_error_In, Eu').
        destruct (Hpge u (nth k x r0) Wu) as [Ev Lg]. destruct (pge u (nth k x r0)) as [v g] eqn:Ep. cbn [fst snd] in Ev, Lg.
        assert (Hql : q < length funs) by (apply nth_error_Some; congruence).
        assert (Enp : np q = gf_num u) by (unfold np; apply nth_error_nth; apply map_nth_error; exact Eu').
        assert (Lg' : length g = np q) by (rewrite Lg, Enp; now apply gf_params_length).
        assert (BP : PO q + np q <= NP).
        { rewrite <- PD. change (PO (S q) <= PO (EO d)). apply offs_mono. rewrite ED. exact Hql. }
        rewrite blit_ok by lia. cbn [obind skipn]. rewrite firstn_all. rewrite aset_ok by lia. cbn [obind].
        assert (En : aget (fp_npu ftp) q = Ok (np q)).
        { apply aget_ok. refine (eq_trans (f_equal (fun a => nth_error a q) (pa_npu z ev ftp Ok_)) _). unfold np. apply nth_error_nth'. rewrite map_length. exact Hql. }
        swap_get q (np q) En. cbn [obind]. eexists. split; [reflexivity|]. cbv beta iota. rewrite upd_length.
        split; [exact L1|]. split; [rewrite splice_length; lia|]. split; [lia|]. split; [rewrite Nat.add_1_r, Hp; reflexivity|].
        intros k' p' u' Hk' Hp' Hlt Eu''. destruct (Nat.eq_dec (EO k' + p') q) as [Eq|Ne].
        * assert (E2 : offs (fun q => r q * r (S q)) k' + p' = offs (fun q => r q * r (S q)) k + jj) by (fold EO; lia).
          destruct (offs_inj _ k' k p' jj Hp' Hjj E2) as [-> ->]. rewrite <- Hq in *. assert (u' = u) by congruence. subst u'. split.
          -- rewrite nth_error_upd_same by lia. now rewrite Ev.
          -- intros l Hl. rewrite Ep. cbn [snd]. rewrite nth_error_splice by lia.
             destruct (Nat.leb_spec p (PO q + l)), (Nat.ltb_spec (PO q + l) (p + length g)); cbn [andb]; try lia.
             replace (PO q + l - p) with l by lia. apply nth_error_nth'. lia.
        * assert (Hq' : EO k' + p' < q) by lia. destruct (HR k' p' u' Hk' Hp' Hq' Eu'') as [A1 A2]. split.
          -- rewrite nth_error_upd_other by auto. exact A1.
          -- intros l Hl. rewrite nth_error_splice by lia. rewrite A2 by auto.
             assert (Enp' : np (EO k' + p') = gf_num u') by (unfold np; apply nth_error_nth; apply map_nth_error; exact Eu'').
             assert (B2 : PO (S (EO k' + p')) <= PO q) by (apply offs_mono; lia). change (PO (EO k' + p') + np (EO k' + p') <= PO q) in B2.
             destruct (Nat.leb_spec p (PO (EO k' + p') + l)); cbn [andb]; [lia|reflexivity].
      + rewrite E. eexists. split; [reflexivity|]. exact HI'.
    - rewrite E. destruct s as [[[evals d1] q] p]. destruct HI as (_ & L2 & -> & _ & HR). exists evals, d1. split; [reflexivity|]. split; [exact L2|exact HR].
  Qed.
End Run.

Section Final.
  Context {R : CRing} {F : Type}.
  Open Scope cr_scope.
  Add Ring Rr45 : (rth R).

  Variable z : gfn R F.
  Variable ev : gfn R F -> R -> R.
  Variable bas : gfn R F -> R -> list R.
  Let U := evU z ev.
  Variable ftp : ftparam R U.
  Hypothesis Ok_ : ftp_ok ftp.
  Hypothesis HL : linear_in_params ev bas.
  Variable x : list R.
  Let f := fp_ft ftp.
  Hypothesis Hx : length x = ft_dim f.

  Let d := ft_dim f.
  Let r := frk f.
  Let funs := flat_map fs (ft_cores f).
  Let np q := nth q (map gf_num funs) 0.
  Let EO := offs (fun q => r q * r (S q)).
  Let PO := offs np.
  Let NP := fp_nparams ftp.
  Let tv := tval z ev ftp x.
  Let MT := Mth z ev ftp x.

  Definition second m n s t th : R := tv (bump m s (bump n t th)) -! tv (bump m s th) -! tv (bump n t th) +! tv th.

  Lemma second_sym m n s t th : second m n s t th = second n m t s th.
  Proof. unfold second. rewrite (bump_comm m n). ring. Qed.

  Lemma fr_0 : r 0 = 1. Proof. apply frk_0. exact (pa_wf z ev ftp Ok_). Qed.
  Lemma fr_d : r d = 1. Proof. apply frk_d. exact (pa_wf z ev ftp Ok_). Qed.

  Lemma second_at th k i j u l m k' i' j' u' l' n : length th = NP ->
    k < d -> i < r k -> j < r (S k) -> nth_error funs (EO k + (j * r k + i)) = Some u -> l < gf_num u -> m = PO (EO k + (j * r k + i)) + l ->
    k' < d -> i' < r k' -> j' < r (S k') -> nth_error funs (EO k' + (j' * r k' + i')) = Some u' -> l' < gf_num u' -> n = PO (EO k' + (j' * r k' + i')) + l' ->
    forall s t, second n m s t th = t *! s *!
      (if k =? k' then r0 else
       bw r (repl (repl (MT th) k (unit_at i j (nth l (bas u (nth k x r0)) r0))) k' (unit_at i' j' (nth l' (bas u' (nth k' x r0)) r0))) d 0 0).
  Proof.
    intros L Hk Hi Hj Eu Hl Em Hk' Hi' Hj' Eu' Hl' En s t. unfold second, tv.
    assert (L1 : length (bump m t th) = NP) by now rewrite bump_length.
    assert (L2 : length (bump n s th) = NP) by now rewrite bump_length.
    assert (L3 : length (bump n s (bump m t th)) = NP) by now rewrite bump_length.
    rewrite !(ht_value z ev ftp Ok_ x Hx) by assumption.
    change (frk (fp_ft ftp)) with r. change (ft_dim (fp_ft ftp)) with d.
    set (E1 := unit_at i j (nth l (bas u (nth k x r0)) r0)). set (E2 := unit_at i' j' (nth l' (bas u' (nth k' x r0)) r0)).
    assert (B1 : bw r (MT (bump m t th)) d 0 0 = bw r (plus (MT th) k t E1) d 0 0).
    { apply bw_ext; [rewrite fr_0; lia|]. intros a b c Ha Hb Hc.
      exact (ht_bump z ev bas ftp Ok_ HL x Hx k i j u l m t th Hk Hi Hj Eu Hl Em L a b c (proj2 Ha) Hb Hc). }
    assert (B2 : bw r (MT (bump n s th)) d 0 0 = bw r (plus (MT th) k' s E2) d 0 0).
    { apply bw_ext; [rewrite fr_0; lia|]. intros a b c Ha Hb Hc.
      exact (ht_bump z ev bas ftp Ok_ HL x Hx k' i' j' u' l' n s th Hk' Hi' Hj' Eu' Hl' En L a b c (proj2 Ha) Hb Hc). }
    assert (B3 : bw r (MT (bump n s (bump m t th))) d 0 0 = bw r (plus (plus (MT th) k t E1) k' s E2) d 0 0).
    { apply bw_ext; [rewrite fr_0; lia|]. intros a b c Ha Hb Hc.
      refine (eq_trans (ht_bump z ev bas ftp Ok_ HL x Hx k' i' j' u' l' n s _ Hk' Hi' Hj' Eu' Hl' En L1 a b c (proj2 Ha) Hb Hc) _).
      unfold plus at 1 2. f_equal.
      exact (ht_bump z ev bas ftp Ok_ HL x Hx k i j u l m t th Hk Hi Hj Eu Hl Em L a b c (proj2 Ha) Hb Hc). }
    fold MT. rewrite B1, B2, B3.
    rewrite <- (second_diff r d fr_0 (MT th) k t E1 k' s E2 Hk Hk'). ring.
  Qed.

  Lemma st_exists : exists st : nat -> nat, forall k m, k < d -> PO (EO k) <= m < PO (EO (S k)) -> st m = PO (EO (S k)).
  Proof.
    enough (A : forall e, exists st : nat -> nat, forall k m, k < e -> PO (EO k) <= m < PO (EO (S k)) -> st m = PO (EO (S k))) by apply A.
    induction e as [|e [st IH]]. { exists (fun _ => 0). intros; lia. }
    exists (fun m => if m <? PO (EO e) then st m else PO (EO (S e))). intros k m Hk Hm.
    destruct (Nat.ltb_spec m (PO (EO e))).
    - destruct (Nat.eq_dec k e) as [->|]; [lia|]. apply IH; lia.
    - destruct (Nat.eq_dec k e) as [->|]; [reflexivity|].
      assert (PO (EO (S k)) <= PO (EO e)) by (apply offs_mono, offs_mono; lia). lia.
  Qed.

  Let th0 := fp_params ftp.

  (** The coordinates of a parameter *)
  Lemma fin_locate n : n < NP -> exists k i j u l, k < d /\ i < r k /\ j < r (S k) /\ nth_error funs (EO k + (j * r k + i)) = Some u /\
    l < gf_num u /\ n = PO (EO k + (j * r k + i)) + l /\ PO (EO k) <= n < PO (EO (S k)).
  Proof.
    intros Hn.
    destruct (param_locate z ev (fp_ft ftp) (pa_wf z ev ftp Ok_) (pa_ok z ev ftp Ok_) x Hx n) as (k & i & j & u & l & Hk & Hi & Hj & _ & Eu & _ & Hl & Enp & En).
    { exact (Nat.lt_le_trans _ _ _ Hn (Nat.eq_le_incl _ _ (eq_sym (pa_lnum z ev ftp Ok_)))). }
    exists k, i, j, u, l. do 6 (split; [assumption|]). change (n = PO (EO k + (j * r k + i)) + l) in En.
    change (i < r k) in Hi. change (j < r (S k)) in Hj.
    assert (A : PO (EO k) <= PO (EO k + (j * r k + i))) by (apply offs_mono; lia).
    assert (B : PO (S (EO k + (j * r k + i))) <= PO (EO (S k))) by (apply offs_mono; change (EO (S k)) with (EO k + r k * r (S k)); nia).
    change (PO (EO k + (j * r k + i)) + np (EO k + (j * r k + i)) <= PO (EO (S k))) in B.
    change (np (EO k + (j * r k + i)) = gf_num u) in Enp. lia.
  Qed.

  Lemma zero_loop (n : nat) (hv : list R) : n <= length hv -> exists hv', for_ n (fun ii h => aset h ii r0) hv = Ok hv' /\ length hv' = length hv /\
    (forall i, i < n -> nth_error hv' i = Some r0) /\ forall i, n <= i -> nth_error hv' i = nth_error hv i.
  Proof.
    intros Hn. destruct (for_inv (fun e h => length h = length hv /\ (forall i, i < e -> nth_error h i = Some r0) /\ forall i, e <= i -> nth_error h i = nth_error hv i)
      (fun ii h => aset h ii r0) n hv) as (h & E & H).
    - split; [reflexivity|]. split; [lia|auto].
    - intros i h Hi (L & A & B). rewrite aset_ok by lia. eexists. split; [reflexivity|]. rewrite upd_length. split; [exact L|]. split.
      + intros a Ha. destruct (Nat.eq_dec a i) as [->|]; [apply nth_error_upd_same; lia|]. rewrite nth_error_upd_other by auto. apply A. lia.
      + intros a Ha. rewrite nth_error_upd_other by lia. apply B. lia.
    - exists h. auto.
  Qed.

  Theorem hessvec_ok : forall vec hv, length funs <= NP -> NP <= length vec -> NP <= length hv ->
    exists v hv', ftp_hessvec (fun u y => (ev u y, bas u y)) ftp x vec hv = Ok (v, hv') /\ length hv' = length hv /\
      (forall p, NP <= p -> nth_error hv' p = nth_error hv p) /\
      exists H, (forall m n s t, m < NP -> n < NP -> second m n s t th0 = s *! t *! H m n) /\
        forall p, p < NP -> nth_error hv' p = Some (sum NP (fun n => H p n *! nth n vec r0)).
  Proof.
    intros vec hv Hc Lv Lh.
    set (H := fun m n => second m n r1 r1 th0).
    assert (PD : PO (EO d) = NP) by exact (pa_POd z ev ftp Ok_).
    assert (ED : EO d = length funs) by exact (pa_EOd z ev ftp Ok_).
    assert (Lth : length th0 = NP).
    { unfold th0. refine (eq_trans (f_equal (@length _) (pa_params z ev ftp Ok_)) _). rewrite lparams_length.
      - exact (pa_lnum z ev ftp Ok_). - exact (pa_funswf z ev ftp Ok_). }
    assert (Hsec : forall m n s t, m < NP -> n < NP -> second m n s t th0 = s *! t *! H m n).
    { intros m n s t Hm Hn. destruct (fin_locate n Hn) as (k & i & j & u & l & A1 & A2 & A3 & A4 & A5 & A6 & _).
      destruct (fin_locate m Hm) as (k' & i' & j' & u' & l' & B1 & B2 & B3 & B4 & B5 & B6 & _). unfold H.
      rewrite !(second_at th0 k i j u l n k' i' j' u' l' m Lth A1 A2 A3 A4 A5 A6 B1 B2 B3 B4 B5 B6). ring. }
    destruct (hr_maxrank z ev ftp Ok_ x Hx) as (mr & Emr & Hmr).
    destruct (hr_evals z ev ftp Ok_ x Hx (fun u y => (ev u y, bas u y))) as (evals & d1 & Eev & Ld & HR).
    { intros u y Wu. cbn [fst snd]. split; [reflexivity|]. apply (proj1 HL u y Wu). }
    { exact Hc. }
    destruct (zero_loop NP hv Lh) as (hv0 & E0 & L0 & Z1 & Z2).
    destruct st_exists as (st & Hst).
    assert (Epu : fp_npu ftp = map gf_num funs) by exact (pa_npu z ev ftp Ok_).
    assert (PQ : forall q, offs (fun q => nth q (fp_npu ftp) 0) q = PO q) by exact (pa_PO z ev ftp Ok_).
    assert (HN : offs (fun q => nth q (fp_npu ftp) 0) (EO d) = NP) by (refine (eq_trans (pa_PO z ev ftp Ok_ _) _); exact PD).
    assert (Lnpu : EO d <= length (fp_npu ftp)).
    { rewrite ED. apply Nat.eq_le_incl. symmetry. refine (eq_trans (f_equal (@length _) Epu) _). apply map_length. }
    assert (Est : forall k m, k < d -> offs (fun q => nth q (fp_npu ftp) 0) (EO k) <= m < offs (fun q => nth q (fp_npu ftp) 0) (EO (S k)) ->
              st m = offs (fun q => nth q (fp_npu ftp) 0) (EO (S k))).
    { intros k m Hk Hm. rewrite (PQ (EO k)), (PQ (EO (S k))) in Hm. rewrite (PQ (EO (S k))). exact (Hst k m Hk Hm). }
    destruct (hess_outer_ok d r (ft_ranks f) (fp_npu ftp) (fp_npc ftp) mr evals d1 vec) with (H := H) (st := st) (base := hv0)
      as (hv' & a & b & c & e & Eo & Lr & Hr).
    { intros k Hk. exact (pa_rk z ev ftp Ok_ x Hx k Hk). }
    { exact Lnpu. }
    { intros k Hk. rewrite (PQ (offs _ (S k))), (PQ (offs _ k)). exact (pa_npc z ev ftp Ok_ x Hx k Hk). }
    { fold EO. rewrite HN, Ld. apply Nat.le_refl. }
    { fold EO. rewrite HN. exact Lv. }
    { intros k i j l k' i' j' l' Hkk Hk' Hi Hj Hi' Hj' Hl Hl' m n Em En.
      assert (Hk : k < d) by lia.
      destruct (pa_fun z ev ftp Ok_ x Hx k i j Hk Hi Hj) as (u & _ & Eu & Wu & Nu & _).
      destruct (pa_fun z ev ftp Ok_ x Hx k' i' j' Hk' Hi' Hj') as (u' & _ & Eu' & Wu' & Nu' & _).
      rewrite (pa_npuq z ev ftp Ok_) in Hl, Hl'. rewrite PQ in Em, En.
      assert (Hlu : l < gf_num u) by (rewrite <- Nu; exact Hl). assert (Hlu' : l' < gf_num u') by (rewrite <- Nu'; exact Hl').
      assert (Hp : j * r k + i < r k * r (S k)) by nia. assert (Hp' : j' * r k' + i' < r k' * r (S k')) by nia.
      assert (Hq : EO k + (j * r k + i) < EO d) by (rewrite ED; apply nth_error_Some; intros E9; exact (eq_ind (Some u) (fun o => match o with Some _ => True | None => False end) I None (eq_trans (eq_sym Eu) E9))).
      assert (Hq' : EO k' + (j' * r k' + i') < EO d) by (rewrite ED; apply nth_error_Some; intros E9; exact (eq_ind (Some u') (fun o => match o with Some _ => True | None => False end) I None (eq_trans (eq_sym Eu') E9))).
      destruct (HR k (j * r k + i) u Hk Hp Hq Eu) as [_ G1]. destruct (HR k' (j' * r k' + i') u' Hk' Hp' Hq' Eu') as [_ G2].
      specialize (G1 l Hlu). specialize (G2 l' Hlu'). cbn [snd] in G1, G2.
      assert (D1 : nth m d1 r0 = nth l (bas u (nth k x r0)) r0) by (apply nth_error_nth; rewrite Em; exact G1).
      assert (D2 : nth n d1 r0 = nth l' (bas u' (nth k' x r0)) r0) by (apply nth_error_nth; rewrite En; exact G2).
      rewrite (hess_ij_ok d r (ft_ranks f) (MT th0) evals mr fr_0).
      - f_equal. rewrite fw_total by (exact fr_0 || exact fr_d). unfold H. rewrite second_sym.
        rewrite (second_at th0 k i j u l m k' i' j' u' l' n Lth Hk Hi Hj Eu Hlu Em Hk' Hi' Hj' Eu' Hlu' En).
        destruct (Nat.eqb_spec k k'); [lia|]. unfold chain2. rewrite D1, D2. ring.
      - intros q Hq0. exact (pa_rk z ev ftp Ok_ x Hx q Hq0).
      - exact Hmr.
      - intros q p s Hq0 Hp0 Hs0. destruct (pa_fun z ev ftp Ok_ x Hx q p s Hq0 Hp0 Hs0) as (w & _ & Ew & _ & _ & Mw & Hw).
        assert (Hps : s * r q + p < r q * r (S q)) by nia.
        destruct (HR q (s * r q + p) w Hq0 Hps Hw Ew) as [G _]. refine (eq_trans G _). f_equal. rewrite <- Mw.
        unfold MT, Mth, th0. refine (f_equal (fun g => fM g (fun k g => uev g (nth k x r0)) q p s) _). symmetry. exact (ftw_self ftp Ok_).
      - exact Hkk. - exact Hk'. - exact Hi. - exact Hj. - exact Hi'. - exact Hj'. - exact fr_d. }
    { exact Est. }
    { fold EO. rewrite HN, L0. exact Lh. }
    fold EO in Hr. rewrite HN in Hr.
    assert (HB : forall p, p < NP -> exists k, k < d /\ PO (EO k) <= p < PO (EO (S k)) /\ st p = PO (EO (S k))).
    { intros p Hp. destruct (fin_locate p Hp) as (k & _ & _ & _ & _ & A1 & _ & _ & _ & _ & _ & A2). exists k. auto. }
    exists r0, hv'. split.
    { unfold ftp_hessvec.
      match goal with |- obind (hess_maxrank ?a9 ?b9) _ = _ => replace (hess_maxrank a9 b9) with (Ok mr) by (symmetry; exact Emr) end. cbn [obind].
      match goal with |- obind (hess_evals ?a9 ?b9 ?c9) _ = _ => replace (hess_evals a9 b9 c9) with (Ok (evals, d1)) by (symmetry; exact Eev) end. cbn [obind].
      match goal with |- obind (for_ ?a9 ?b9 ?c9) _ = _ => replace (for_ a9 b9 c9) with (Ok hv0) by (symmetry; exact E0) end. cbn [obind].
      match goal with |- obind (hess_outer ?a9 ?b9 ?c9 ?d9 ?e9 ?f9 ?g9 ?h9 ?i9) _ = _ =>
        replace (hess_outer a9 b9 c9 d9 e9 f9 g9 h9 i9) with (Ok (hv', a, b, c, e)) end.
      - reflexivity.
      - symmetry. refine (eq_trans (f_equal (fun q => hess_outer q _ _ _ _ _ _ _ _) (pa_dim z ev ftp Ok_)) _). exact Eo. }
    split; [congruence|]. split.
    - intros p Hp. destruct (nth_error hv p) as [v|] eqn:Ev.
      + rewrite (Hr p v) by (rewrite Z2; auto). f_equal. rewrite sum_zero_ext; [ring|]. intros m Hm. apply sum_zero_ext. intros t Ht. unfold hw.
        destruct (HB m Hm) as (k & Hk & Hmk & Ek). 
        destruct (Nat.eqb_spec p m); [lia|]. destruct (Nat.eqb_spec p (st m + t)); [lia|ring].
      + apply nth_error_None. apply nth_error_None in Ev. lia.
    - exists H. split; [exact Hsec|]. intros p Hp. rewrite (Hr p r0 (Z1 p Hp)). f_equal.
      transitivity (sum NP (fun m => sum (NP - st m) (fun t => hw vec H m (st m + t) p))); [ring|].
      pose proof (rows_closed d r (fp_npu ftp) d1 vec Lnpu) as RC. fold EO in RC. rewrite HN in RC. apply RC; auto.
      + rewrite Ld. apply Nat.le_refl.
      + intros m Hm. destruct (HB m Hm) as (k & Hk & Hmk & Ek). rewrite Ek. split; [lia|]. rewrite <- PD. apply offs_mono, offs_mono. lia.
      + intros m n _ _. apply second_sym.
      + intros m n Hm Hn N1 N2. destruct (fin_locate n Hn) as (k & i & j & u & l & A1 & A2 & A3 & A4 & A5 & A6 & A7).
        destruct (fin_locate m Hm) as (k' & i' & j' & u' & l' & B1 & B2 & B3 & B4 & B5 & B6 & B7). unfold H.
        rewrite (second_at th0 k i j u l n k' i' j' u' l' m Lth A1 A2 A3 A4 A5 A6 B1 B2 B3 B4 B5 B6).
        rewrite (Hst k' m B1 B7) in N1. rewrite (Hst k n A1 A7) in N2.
        destruct (Nat.eqb_spec k k'); [ring|]. exfalso. destruct (Nat.lt_ge_cases k k').
        * assert (PO (EO (S k)) <= PO (EO k')) by (apply offs_mono, offs_mono; lia). lia.
        * assert (PO (EO (S k')) <= PO (EO k)) by (apply offs_mono, offs_mono; lia). lia.
  Qed.
End Final.
