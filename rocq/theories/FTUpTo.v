(** function_train_eval_up_to_core for cores after the first: the product of the
    cores before the named one. *)
From Verif Require Import FTFiber.

Section UpTo.
  Context {R : CRing} {U : uops R}.
  Add Ring Rr26 : (rth R).
  Variable f : ftrain U.
  Hypothesis Wf : ft_wf f.
  Let d := ft_dim f.
  Let r := frk f.

  Theorem up_to_core_before (w : wspace R) (x out : list R) core : ft_small f -> ws_wf w -> length x = d ->
    1 <= core < d -> r (S core) <= length out ->
    exists out', ft_eval_up_to_core f w core x out = Ok (out', r (S core)) /\ length out' = length out /\
      (forall j, j < r core -> j < r (S core) ->
         nth_error out' j = Some (fw r (fM f (fun k g => uev g (nth k x r0))) core j)) /\
      (forall j, r (S core) <= j -> nth_error out' j = nth_error out j).
  Proof.
    intros Hs (Hw1 & Hw2 & Hw3) Hx Hcore Ho. unfold ft_eval_up_to_core. rewrite pt_outer by auto. cbn [obind].
    destruct (get_maxrank_ok f) as (mr & Emr & Hmr1 & _). { apply wf_lens; auto. }
    pose proof (fun k => pt_mr f Wf mr k Emr) as Hmr. fold r d in Hmr.
    unfold pre_eval. rewrite Emr. cbn [obind].
    pose proof (pt_d f Wf) as Hd0. fold d in Hd0.
    destruct (ms_check_ok (ws1 w) (mr * mr) Hw1) as [S1 _].
    destruct (ms_check_ok (ws2 w) (mr * mr) Hw2) as [S2 _].
    destruct (ms_check_ok (ws3 w) (mr * mr) Hw3) as [S3 _].
    assert (Gx : forall k, k < d -> aget x k = Ok (nth k x r0)) by (intros k Hk; apply aget_ok, nth_error_nth'; lia).
    rewrite pt_core by (auto; fold d; lia). rewrite Gx by lia. cbn [obind].
    set (M := fM f (fun k g => uev g (nth k x r0))).
    assert (R0 : r 0 = 1) by now apply frk_0.
    destruct (pt_eval2 f Wf mr 0 (nth 0 x r0) (ms_vals (ms_check (ws1 w) 1 (mr * mr))) Hs Emr Hd0) as (t1 & Et1 & Lt1 & Ht1).
    { fold r. pose proof (Hmr 1 ltac:(lia)). rewrite R0. nia. }
    rewrite Et1. cbn [obind]. fold r in Ht1.
    pose (I := fun (ii : nat) (s : list R * list R * list R * nat) =>
      let '(a1, a2, a3, onsol) := s in
      mr * mr <= length a1 /\ mr * mr <= length a2 /\ mr * mr <= length a3 /\
      onsol = (if ii mod 2 =? 1 then 1 else 2) /\
      pre (if ii mod 2 =? 1 then a1 else a3) (r ii) (fw r M ii)).
    match goal with |- context [for_from 1 (core - 1) ?b00 ?s00] =>
      destruct (for_from_inv I b00 1 (core - 1) s00) as ([[[a1 a2] a3] onsol] & E1 & A1 & A2 & A3 & Ao & AP) end.
    { unfold I. change (1 mod 2 =? 1) with true. cbv iota. repeat split; auto; try lia.
      intros j Hj. rewrite R0 in Ht1. replace j with (j * 1 + 0) at 1 by lia. rewrite Ht1 by lia.
      cbn [fw]. rewrite R0, sum_1. f_equal. unfold M, fM. ring. }
    { intros ii [[[a1 a2] a3] onsol] Hii (A1 & A2 & A3 & Ao & AP).
      rewrite Gx by lia. cbn [obind].
      pose proof (Hmr ii ltac:(lia)) as Hr1. pose proof (Hmr (S ii) ltac:(lia)) as Hr2.
      destruct (canon_core f ii Wf ltac:(fold d; lia)) as (Ec & W & N & C & _). fold r in N, C.
      assert (P1 : 0 < r ii) by (apply pt_pos; auto; fold d; lia).
      assert (P2 : 0 < r (S ii)) by (apply pt_pos; auto; fold d; lia).
      pose proof (odd_S ii) as Hod. unfold I. rewrite Hod.
      assert (Sm : small_core (fco f ii)) by (apply Hs; eapply nth_error_In; eauto).
      destruct (ii mod 2 =? 1); cbn [negb].
      - destruct (eval_next_core_ok f ii (nth ii x r0) a1 a2 a3 (fco f ii) (fw r M ii) mr) as (y2 & y & Ey & Ly2 & Ly & Py); auto; try lia.
        { now rewrite N. }
        rewrite Ey. cbn [obind]. eexists. split; [reflexivity|]. cbv beta iota. repeat split; auto; try lia.
        rewrite C in Py. intros j Hj. rewrite Py by auto. f_equal. cbn [fw]. rewrite N. apply sum_ext. intros; unfold M, fM; ring.
      - destruct (eval_next_core_ok f ii (nth ii x r0) a3 a2 a1 (fco f ii) (fw r M ii) mr) as (y2 & y & Ey & Ly2 & Ly & Py); auto; try lia.
        { now rewrite N. }
        rewrite Ey. cbn [obind]. eexists. split; [reflexivity|]. cbv beta iota. repeat split; auto; try lia.
        rewrite C in Py. intros j Hj. rewrite Py by auto. f_equal. cbn [fw]. rewrite N. apply sum_ext. intros; unfold M, fM; ring. }
    rewrite E1. cbn [obind]. replace (1 + (core - 1)) with core in * by lia.
    rewrite pt_core by (auto; fold d; lia). cbn [obind].
    destruct (canon_core f core Wf ltac:(fold d; lia)) as (Ec & W & N & C & _). fold r in N, C. rewrite C.
    pose proof (Hmr (S core) ltac:(lia)) as Hrc.
    destruct (blitr_ok (r (S core)) (if onsol =? 2 then a3 else a1) out 0 0) as (o & Eo & Lo & H1 & H2).
    { destruct (onsol =? 2); nia. } { lia. }
    rewrite Eo. cbn [obind]. exists o. split; [reflexivity|]. split; [exact Lo|]. split.
    - intros j Hj1 Hj2. specialize (H1 j Hj2). cbn [Nat.add] in H1. rewrite H1. rewrite Ao.
      destruct (core mod 2 =? 1); cbn [Nat.eqb]; apply AP; auto.
    - intros j Hj. apply H2. lia.
  Qed.
End UpTo.
