(** Evaluation of a function train equals the sum over rank paths. *)
From Verif Require Export FTFacts.

Lemma skipn_nth {A} (l : list A) i a : nth_error l i = Some a -> skipn i l = a :: skipn (S i) l.
Proof.
  revert i; induction l as [|h t IH]; intros [|i] H; simpl in *; try discriminate.
  - now inversion H.
  - now apply IH.
Qed.

Section Eval.
  Context {R : CRing} {U : uops R}.
  Open Scope cr_scope.
  Add Ring Rr3 : (rth R).

  Definition evf (h : U -> R) (c : qma U) (k : nat) : R :=
    match nth_error (fs c) k with Some f => h f | None => r0 end.

  Lemma ent_evf h (c : qma U) i j : ent h c i j = evf h c (j * nr c + i).
  Proof. reflexivity. Qed.

  Lemma eval2_scan_ok (f : list U) n ii :
    ii + n <= length f ->
    (ii + n <= 1000 \/ exists k g, ii <= k < 1000 /\ nth_error f k = Some g /\ uispoly g = false) ->
    exists b, eval2_scan n ii f = Ok b /\
      (b = true -> forall k u, ii <= k < ii + n -> nth_error f k = Some u -> uispoly u = true).
  Proof.
    revert ii; induction n as [|n IH]; intros ii HL Hs; cbn [eval2_scan]; [eexists; split; [reflexivity|intros; lia]|].
    destruct (aget_lt f ii) as [g [Eg Ag]]; [lia|]. rewrite Ag. cbn [obind].
    destruct (uispoly g) eqn:Ep; [|eexists; split; [reflexivity|discriminate]].
    assert (Hii : ii < 1000).
    { destruct Hs as [Hs|(k & g' & Hk & _)]; lia. }
    destruct (Nat.ltb_spec ii 1000); [|lia].
    destruct (IH (S ii)) as (b & E & Hb); [lia| |].
    { destruct Hs as [Hs|(k & g' & Hk & Eg' & Ep')]; [left; lia|right].
      exists k, g'. repeat split; auto; try lia.
      destruct (Nat.eq_dec k ii) as [->|]; [|lia]. congruence. }
    exists b. split; [exact E|]. intros B k v Hk Ev. destruct (Nat.eq_dec k ii) as [->|]; [congruence|].
    apply (Hb B k v); auto; lia.
  Qed.

  (** The loop is the same whether or not everything is a polynomial. *)
  Lemma eval2_loop (f : list U) n x (out : list R) :
    n <= length f ->
    (n <= 1000 \/ exists k g, k < 1000 /\ nth_error f k = Some g /\ uispoly g = false) ->
    eval2 n f x out = for_ n (fun ii out => do g <- aget f ii; aset out ii (uev g x)) out.
  Proof.
    intros HL Hs. unfold eval2. destruct (eval2_scan_ok f n 0) as (b & Eb & Hb); [lia| |].
    { destruct Hs as [Hs|(k & g & Hk & Hg)]; [left; lia|right; exists k, g; intuition lia]. }
    rewrite Eb. cbn [obind]. destruct b; [|reflexivity]. apply for_ext. intros k l Hk.
    destruct (aget_lt f k) as [g [Eg Ag]]; [lia|]. rewrite Ag. cbn [obind].
    unfold as_poly. rewrite (Hb eq_refl k g) by (auto; lia). reflexivity.
  Qed.

  Lemma eval2_ok (c : qma U) x out :
    qwf c -> small_core c -> nr c * nc c <= length out ->
    exists out', eval2 (nr c * nc c) (fs c) x out = Ok out' /\ length out' = length out /\
                 pre out' (nr c * nc c) (evf (fun g => uev g x) c).
  Proof.
    intros Hw Hs HL. rewrite eval2_loop.
    -       destruct (wrf_for (evf (fun g => uev g x) c) (length out) (fun i k => i = k) (nr c * nc c)
                  (fun ii out => do g <- aget (fs c) ii; aset out ii (uev g x))) with (l := out)
        as [out' [E W]]; auto.
      + intros i Hi. destruct (aget_lt (fs c) i) as [g [Eg Ag]]. { unfold qwf in Hw; lia. }
        eapply wrf_get; [exact Ag|]. apply wrf_aset; [lia|]. unfold evf. now rewrite Eg.
      + exists out'. split; [exact E|]. split; [apply (wr_len _ _ _ _ W)|].
        intros i Hi. apply (wr_prefix _ _ _ _ _ HL) with (2 := W); auto.
        intros k Hk; exists k; auto.
    - unfold qwf in Hw; lia.
    - destruct Hs as [Hs|(k & g & Hk & Hg)]; [left; lia|right; exists k, g; intuition lia].
  Qed.

  Lemma get_maxrank_ok (f : ftrain U) :
    length (ft_ranks f) = ft_dim f + 1 ->
    exists m, get_maxrank f = Ok m /\ 1 <= m /\ forall r, In r (ft_ranks f) -> r <= m.
  Proof.
    intros HL. unfold get_maxrank.
    destruct (for_inv (fun i m => 1 <= m /\ forall k r, k < i -> nth_error (ft_ranks f) k = Some r -> r <= m)
       (fun ii m => do r <- aget (ft_ranks f) ii; Ok (if m <? r then r else m)) (ft_dim f + 1) 1)
      as [m [E [H1 H2]]].
    - split; [lia|]. intros; lia.
    - intros i m Hi [Hm Hall]. destruct (aget_lt (ft_ranks f) i) as [r [Er Ar]]; [lia|].
      rewrite Ar; simpl. eexists; split; [reflexivity|].
      destruct (Nat.ltb_spec m r) as [Hlt|Hge]; split; try lia.
      + intros k r' Hk Ek. destruct (Nat.eq_dec k i) as [->|]; [replace r' with r by congruence; lia|].
        specialize (Hall k r'). lia || (assert (r' <= m) by (apply Hall; auto; lia); lia).
      + intros k r' Hk Ek. destruct (Nat.eq_dec k i) as [->|]; [replace r' with r by congruence; lia|].
        apply (Hall k r'); auto; lia.
    - exists m. repeat split; auto. intros r Hr. apply In_nth_error in Hr. destruct Hr as [k Hk].
      apply (H2 k r); auto. assert (k < length (ft_ranks f)) by (apply nth_error_Some; congruence). lia.
  Qed.

  Lemma ms_check_ok (m : option (memsp R)) sz :
    ms_wf m ->
    sz <= length (ms_vals (ms_check m 1 sz)) /\
    length (ms_vals (ms_check m 1 sz)) = num_spaces (ms_check m 1 sz) * space_size (ms_check m 1 sz).
  Proof.
    intros Hw. unfold ms_check. destruct m as [s|].
    - destruct (Nat.ltb_spec (num_spaces s) 1); simpl.
      + rewrite repeat_length. lia.
      + destruct (Nat.eqb_spec (space_size s) sz); simpl.
        * simpl in Hw. rewrite Hw. split; [nia|auto].
        * rewrite repeat_length. lia.
    - simpl. rewrite repeat_length. lia.
  Qed.

  (** One step of the sweep: row vector times core. *)
  Lemma eval_next_core_ok (f : ftrain U) core x prev space new c (v : nat -> R) mr :
    0 < core -> nth_error (ft_cores f) core = Some c ->
    qwf c -> small_core c -> 0 < nr c -> 0 < nc c -> nr c <= mr -> nc c <= mr ->
    mr * mr <= length space -> mr * mr <= length new ->
    pre prev (nr c) v ->
    exists space' new', eval_next_core f core x prev space new = Ok (space', new') /\
      length space' = length space /\ length new' = length new /\
      pre new' (nc c) (fun j => sum (nr c) (fun i => v i *! ent (fun g => uev g x) c i j)).
  Proof.
    intros Hc Ec Hw Hs Pr Pc Hr Hm Ls Ln Hv. unfold eval_next_core.
    apply Nat.ltb_lt in Hc. rewrite Hc. cbn [cassert obind].
    rewrite (aget_ok _ _ _ Ec). cbn [obind].
    destruct (eval2_ok c x space Hw Hs) as [sp [E1 [L1 P1]]]. { nia. }
    rewrite E1. cbn [obind].
    destruct (dgemv_t_ok (nr c) (nc c) sp (nr c) prev new
               (fun i j => ent (fun g => uev g x) c i j) v) as [nw [E2 [L2 P2]]]; auto.
    - intros i j Hi Hj. rewrite P1 by nia. now rewrite ent_evf.
    - nia.
    - rewrite E2. cbn [obind]. exists sp, nw. repeat split; auto.
  Qed.

  Lemma chain_skipn (cs : list (qma U)) r r' i c :
    chain r cs r' -> nth_error cs i = Some c ->
    exists q, chain q (skipn i cs) r'.
  Proof.
    revert r i; induction cs as [|c0 cs IH]; intros r [|i] H E; simpl in *; try discriminate.
    - exists r; auto.
    - destruct H as (_ & _ & _ & _ & H). eapply IH; eauto.
  Qed.

  Theorem ft_eval_correct (f : ftrain U) (w : wspace R) (x : list R) :
    ft_wf f -> ft_small f -> ws_wf w -> length x = ft_dim f ->
    exists w', ft_eval f w x = Ok (train_value f x, w') /\ ws_wf w'.
  Proof.
    intros (Hd & Hpos & Hrk & Hch) Hsm (Hw1 & Hw2 & Hw3) Hx.
    set (hs := map (fun xk (g : U) => uev g xk) x).
    assert (HV : train_value f x = val hs (ft_cores f) 0).
    { unfold train_value. apply tsum_val. unfold hs. rewrite map_length. congruence. }
    assert (Lrk : length (ft_ranks f) = ft_dim f + 1).
    { rewrite Hrk. simpl. rewrite map_length. lia. }
    destruct (ft_cores f) as [|c0 cs] eqn:Ecs; [simpl in Hd; lia|].
    assert (Hlast : nth_error (ft_ranks f) (ft_dim f) = Some 1).
    { rewrite Hrk, Hd. clear - Hch. revert Hch. generalize 1 at 1 3. revert c0.
      induction cs as [|c1 cs IH]; intros c0 r Hch.
      - simpl in *. destruct Hch as (_ & _ & _ & _ & ->). reflexivity.
      - destruct Hch as (_ & _ & _ & _ & Hch). specialize (IH c1 (nc c0) Hch).
        simpl in *. exact IH. }
    destruct (get_maxrank_ok f Lrk) as [mr [Emr [Hmr1 Hmr]]].
    assert (Hmc : forall c, In c (ft_cores f) -> nc c <= mr).
    { intros c Hc. apply Hmr. rewrite Hrk. right. apply in_map. rewrite <- Ecs. exact Hc. }
    unfold ft_eval.
    rewrite (aget_ok (ft_ranks f) 0 1) by (rewrite Hrk; reflexivity). cbn [obind].
    change (1 =? 1) with true. cbn [cassert obind].
    rewrite (aget_ok _ _ _ Hlast). cbn [obind]. change (1 =? 1) with true. cbn [cassert obind].
    rewrite Emr. cbn [obind].
    destruct (ms_check_ok (ws1 w) (mr * mr) Hw1) as [L1 W1].
    destruct (ms_check_ok (ws2 w) (mr * mr) Hw2) as [L2 W2].
    destruct (ms_check_ok (ws3 w) (mr * mr) Hw3) as [L3 W3].
    set (m1 := ms_check (ws1 w) 1 (mr * mr)) in *.
    set (m2 := ms_check (ws2 w) 1 (mr * mr)) in *.
    set (m3 := ms_check (ws3 w) 1 (mr * mr)) in *.
    rewrite Ecs. cbn [aget nth_error obind].
    destruct x as [|x0 xs]; [simpl in Hx; lia|].
    cbn [aget nth_error obind].
    destruct Hch as (Hnr0 & Hq0 & P0 & Pc0 & Hch).
    assert (Hnc0 : nc c0 <= mr). { apply Hmc. rewrite Ecs; left; auto. }
    destruct (eval2_ok c0 x0 (ms_vals m1)) as [t1 [E1 [Lt1 Pt1]]]; auto.
    { apply Hsm. rewrite Ecs; left; auto. } { nia. }
    rewrite E1. cbn [obind].
    (* the sweep *)
    pose (V := val hs (c0 :: cs) 0).
    pose (I := fun (ii : nat) (s : list R * list R * list R * nat) =>
      let '(a1, a2, a3, onsol) := s in
      length a1 = length (ms_vals m1) /\ length a2 = length (ms_vals m2) /\
      length a3 = length (ms_vals m3) /\
      onsol = (if ii mod 2 =? 1 then 1 else 2) /\
      exists r v, r <= mr /\ chain r (skipn ii (ft_cores f)) 1 /\
        pre (if ii mod 2 =? 1 then a1 else a3) r v /\
        sum r (fun j => v j *! val (skipn ii hs) (skipn ii (ft_cores f)) j) = V).
    destruct (for_from_inv I
      (fun ii (s : list R * list R * list R * nat) =>
        let '(t1, t2, t3, onsol) := s in
        do xi <- aget (x0 :: xs) ii;
        if ii mod 2 =? 1 then
          do (t2', t3') <- eval_next_core f ii xi t1 t2 t3;
          Ok (t1, t2', t3', 2)
        else
          do (t2', t1') <- eval_next_core f ii xi t3 t2 t1;
          Ok (t1', t2', t3, 1)) 1 (ft_dim f - 1) (t1, ms_vals m2, ms_vals m3, 1))
      as [[[[a1 a2] a3] onsol] [EL IL]].
    - unfold I. rewrite Ecs. repeat split; auto.
      exists (nc c0), (fun j => ent (fun g => uev g x0) c0 0 j).
      split; [auto|]. split; [exact Hch|]. split.
      + intros j Hj. change (1 mod 2 =? 1) with true. cbv iota.
        rewrite Pt1 by nia. rewrite ent_evf. do 2 f_equal. rewrite Hnr0. lia.
      + reflexivity.
    - intros ii [[[b1 b2] b3] os] Hii (B1 & B2 & B3 & Bo & r & v & Hr & Hc & Pv & HS).
      destruct (nth_error (ft_cores f) ii) as [c|] eqn:Ec.
      2:{ apply nth_error_None in Ec. rewrite Ecs, <- Hd in Ec. lia. }
      destruct (nth_error (x0 :: xs) ii) as [xi|] eqn:Ex.
      2:{ apply nth_error_None in Ex. lia. }
      rewrite (aget_ok _ _ _ Ex). cbn [obind].
      rewrite (skipn_nth _ _ _ Ec) in Hc, HS.
      assert (Eh : nth_error hs ii = Some (fun g : U => uev g xi)).
      { unfold hs. rewrite nth_error_map, Ex. reflexivity. }
      rewrite (skipn_nth _ _ _ Eh) in HS.
      destruct Hc as (Hnr & Hq & Pnr & Pnc & Hc).
      assert (Hin : In c (ft_cores f)) by (eapply nth_error_In; eauto).
      assert (Hncm : nc c <= mr) by auto.
      assert (Hsc : small_core c) by (apply Hsm; auto).
      assert (HS' : sum (nc c) (fun j => sum (nr c) (fun i => v i *! ent (fun g => uev g xi) c i j)
                       *! val (skipn (S ii) hs) (skipn (S ii) (ft_cores f)) j) = V).
      { rewrite <- HS. cbn [val]. rewrite Hnr.
        rewrite (sum_ext _ (nc c) _ (fun j => sum r (fun i => v i *! (ent (fun g => uev g xi) c i j
                       *! val (skipn (S ii) hs) (skipn (S ii) (ft_cores f)) j)))).
        - rewrite sum_swap. apply sum_ext. intros i Hi. now rewrite sum_scal_l.
        - intros j Hj. rewrite <- sum_scal_r. apply sum_ext. intros; ring. }
      assert (Hodd : (S ii mod 2 =? 1) = negb (ii mod 2 =? 1)).
      { apply odd_S. }
      destruct (ii mod 2 =? 1) eqn:Eodd.
      + destruct (eval_next_core_ok f ii xi b1 b2 b3 c v mr) as (sp & nw & En & Ls & Ln & Pn);
          auto; try lia.
        { now rewrite Hnr. }
        rewrite En. cbn [obind]. eexists; split; [reflexivity|].
        unfold I. rewrite Hodd. simpl negb. cbv iota. repeat split; auto; try congruence.
        exists (nc c), (fun j => sum (nr c) (fun i => v i *! ent (fun g => uev g xi) c i j)).
        repeat split; auto.
      + destruct (eval_next_core_ok f ii xi b3 b2 b1 c v mr) as (sp & nw & En & Ls & Ln & Pn);
          auto; try lia.
        { now rewrite Hnr. }
        rewrite En. cbn [obind]. eexists; split; [reflexivity|].
        unfold I. rewrite Hodd. simpl negb. cbv iota. repeat split; auto; try congruence.
        exists (nc c), (fun j => sum (nr c) (fun i => v i *! ent (fun g => uev g xi) c i j)).
        repeat split; auto.
    - rewrite EL. cbn [obind]. cbv beta iota.
      replace (1 + (ft_dim f - 1)) with (ft_dim f) in IL by lia.
      destruct IL as (A1 & A2 & A3 & Ao & r & v & Hr & Hc & Pv & HS).
      rewrite skipn_all2 in Hc by (rewrite Ecs, Hd; lia). simpl in Hc. subst r.
      rewrite (skipn_all2 (ft_cores f)) in HS by (rewrite Ecs, Hd; lia).
      assert (Hv0 : v 0 = V).
      { rewrite <- HS. cbn [sum]. rewrite val_nil. ring. }
      assert (Hout : (if onsol =? 2 then aget a3 0 else if onsol =? 1 then aget a1 0 else Abort)
                     = Ok (train_value f (x0 :: xs))).
      { rewrite HV. change (val hs (c0 :: cs) 0) with V. rewrite <- Hv0, Ao.
        destruct (ft_dim f mod 2 =? 1); simpl; apply aget_ok; apply Pv; lia. }
      rewrite Hout. cbn [obind]. eexists; split; [reflexivity|].
      unfold ws_wf, ms_wf; simpl. repeat split; congruence.
  Qed.

  (** The outer ranks are asserted to be one. *)
  Theorem ft_eval_abort (f : ftrain U) w x r0 rd :
    nth_error (ft_ranks f) 0 = Some r0 -> nth_error (ft_ranks f) (ft_dim f) = Some rd ->
    r0 <> 1 \/ rd <> 1 -> ft_eval f w x = Abort.
  Proof.
    intros E0 Ed H. unfold ft_eval.
    rewrite (aget_ok _ _ _ E0). cbn [obind].
    destruct (Nat.eqb_spec r0 1) as [->|]; cbn [cassert obind]; auto.
    rewrite (aget_ok _ _ _ Ed). cbn [obind].
    destruct (Nat.eqb_spec rd 1) as [->|]; cbn [cassert obind]; auto. intuition lia.
  Qed.
End Eval.
