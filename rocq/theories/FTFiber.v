(** Evaluation at grid indices, along fibers, and up to a core. *)
From Verif Require Export FTPert.

Section Fiber.
  Context {R : CRing} {U : uops R}.
  Open Scope cr_scope.
  Add Ring Rr22 : (rth R).

  Lemma dgemv_tx'_ok m n (A : list R) oA lda x ox y oy (fA : nat -> nat -> R) (fx : nat -> R) :
    0 < m -> 0 < n ->
    (forall i j, i < m -> j < n -> nth_error A (oA + j * lda + i) = Some (fA i j)) ->
    (forall j, j < m -> nth_error x (ox + j) = Some (fx j)) -> oy + n <= length y ->
    exists y', dgemv_tx' m n A oA lda x ox y oy = Ok y' /\ length y' = length y /\
      (forall j, j < n -> nth_error y' (oy + j) = Some (sum m (fun i => fA i j *! fx i))) /\
      (forall k, k < oy \/ oy + n <= k -> nth_error y' k = nth_error y k).
  Proof.
    intros Hm Hn HA Hx Hy. unfold dgemv_tx'.
    destruct (Nat.eqb_spec m 0), (Nat.eqb_spec n 0); try lia. cbn [orb].
    destruct (for_inv (fun j y' => length y' = length y /\
        (forall j', j' < j -> nth_error y' (oy + j') = Some (sum m (fun i => fA i j' *! fx i))) /\
        (forall k, k < oy \/ oy + n <= k -> nth_error y' k = nth_error y k))
      (fun j y => do s <- ddot m A (oA + j * lda) 1 x ox 1; aset y (oy + j) s) n y)
      as (y' & E & L & H1 & H2).
    - repeat split; auto. intros; lia.
    - intros j s Hj (L & H1 & H2).
      rewrite (ddot_ok m A (oA + j * lda) 1 x ox 1 (fun i => fA i j) fx).
      + cbn [obind]. rewrite aset_ok by lia. eexists. split; [reflexivity|].
        rewrite upd_length. split; [auto|]. split.
        * intros i' Hi'. destruct (Nat.eq_dec i' j) as [->|].
          { rewrite nth_error_upd_same by lia. reflexivity. }
          rewrite nth_error_upd_other by lia. apply H1. lia.
        * intros k Hk. rewrite nth_error_upd_other by lia. auto.
      + intros i Hi. rewrite <- (HA i j Hi Hj). f_equal. lia.
      + intros i Hi. rewrite <- (Hx i Hi). f_equal. lia.
    - exists y'. auto.
  Qed.

  Lemma eval2_ind_ok (uevi : U -> nat -> R) (c : qma U) ind out off :
    qwf c -> off + nr c * nc c <= length out ->
    exists out', eval2_ind uevi (nr c * nc c) (fs c) ind out off = Ok out' /\ length out' = length out /\
      (forall k, k < nr c * nc c -> nth_error out' (off + k) = Some (evf (fun g => uevi g ind) c k)) /\
      (forall k, k < off \/ off + nr c * nc c <= k -> nth_error out' k = nth_error out k).
  Proof.
    intros W L. unfold eval2_ind.
    apply (for_inv (fun i d' => length d' = length out /\
      (forall k, k < i -> nth_error d' (off + k) = Some (evf (fun g => uevi g ind) c k)) /\
      (forall k, k < off \/ off + nr c * nc c <= k -> nth_error d' k = nth_error out k))).
    - repeat split; auto. intros; lia.
    - intros i s Hi (L1 & H1 & H2). destruct (aget_lt (fs c) i) as [g [Eg Ag]]. { unfold qwf in W; lia. }
      rewrite Ag. cbn [obind]. rewrite aset_ok by lia. eexists. split; [reflexivity|].
      rewrite upd_length. repeat split; auto.
      + intros k Hk. destruct (Nat.eq_dec k i) as [->|].
        { rewrite nth_error_upd_same by lia. unfold evf. now rewrite Eg. }
        rewrite nth_error_upd_other by lia. apply H1. lia.
      + intros k Hk. rewrite nth_error_upd_other by lia. auto.
  Qed.

  Variable uevi : U -> nat -> R.
  Variable f : ftrain U.
  Hypothesis Wf : ft_wf f.
  Let d := ft_dim f.
  Let r := frk f.

  Lemma fb_eval2 k ind (T : list R) off : k < d -> off + r k * r (S k) <= length T ->
    exists T', eval2_ind uevi (nr (fco f k) * nc (fco f k)) (fs (fco f k)) ind T off = Ok T' /\ length T' = length T /\
      (forall i j, i < r k -> j < r (S k) ->
         nth_error T' (off + j * r k + i) = Some (ent (fun g => uevi g ind) (fco f k) i j)) /\
      (forall q, q < off \/ off + r k * r (S k) <= q -> nth_error T' q = nth_error T q).
  Proof.
    intros Hk HL. destruct (canon_core f k Wf Hk) as (Ec & W & N & C & _). fold r in N, C.
    destruct (eval2_ind_ok uevi (fco f k) ind T off W) as (T' & E & L & H1 & H2).
    { now rewrite N, C. }
    rewrite N, C in *. exists T'. repeat split; auto. intros i j Hi Hj.
    replace (off + j * r k + i) with (off + (j * r k + i)) by lia. rewrite H1 by nia.
    rewrite ent_evf, N. reflexivity.
  Qed.

  Section AtInd.
  Variable ind : list nat.
  Hypothesis Hi : length ind = d.
  Let M := fM f (fun k g => uevi g (nth k ind 0)).

  Lemma fb_ind k : k < d -> aget ind k = Ok (nth k ind 0).
  Proof. intros H. apply aget_ok. apply nth_error_nth'. lia. Qed.

  Theorem eval_ind_correct (w : wspace R) : ws_wf w ->
    ft_eval_ind uevi f w ind = Ok (path_value f (fun k g => uevi g (nth k ind 0))).
  Proof.
    intros (Hw1 & Hw2 & Hw3). unfold ft_eval_ind. rewrite pt_outer by auto. cbn [obind].
    destruct (get_maxrank_ok f) as (mr & Emr & Hmr1 & _). { apply wf_lens; auto. }
    pose proof (fun k => pt_mr f Wf mr k Emr) as Hmr. fold r d in Hmr.
    unfold pre_eval. rewrite Emr. cbn [obind]. fold d.
    pose proof (pt_d f Wf) as Hd0. fold d in Hd0.
    destruct (ms_check_ok (ws1 w) (mr * mr) Hw1) as [S1 _].
    destruct (ms_check_ok (ws2 w) (mr * mr) Hw2) as [S2 _].
    destruct (ms_check_ok (ws3 w) (mr * mr) Hw3) as [S3 _].
    rewrite pt_core by (auto; fold d; lia). rewrite fb_ind by lia. cbn [obind].
    assert (R0 : r 0 = 1) by now apply frk_0. assert (Rd : r d = 1) by now apply frk_d.
    destruct (fb_eval2 0 (nth 0 ind 0) (ms_vals (ms_check (ws1 w) 1 (mr * mr))) 0) as (t1 & Et1 & Lt1 & Ht1 & _).
    { lia. } { pose proof (Hmr 1 ltac:(lia)). rewrite R0. nia. }
    rewrite Et1. cbn [obind].
    pose (I := fun (ii : nat) (s : list R * list R * list R * nat) =>
      let '(a1, a2, a3, onsol) := s in
      mr * mr <= length a1 /\ mr * mr <= length a2 /\ mr * mr <= length a3 /\
      onsol = (if ii mod 2 =? 1 then 1 else 2) /\
      pre (if ii mod 2 =? 1 then a1 else a3) (r ii) (fw r M ii)).
    match goal with |- context [for_from 1 (d - 1) ?b00 ?s00] =>
      destruct (for_from_inv I b00 1 (d - 1) s00) as ([[[a1 a2] a3] onsol] & E1 & A1 & A2 & A3 & Ao & AP) end.
    { unfold I. change (1 mod 2 =? 1) with true. cbv iota. repeat split; auto; try lia.
      intros j Hj. rewrite R0 in Ht1. replace j with (0 + j * 1 + 0) at 1 by lia. rewrite Ht1 by lia.
      cbn [fw]. rewrite R0, sum_1. f_equal. unfold M, fM. ring. }
    { intros ii [[[a1 a2] a3] onsol] Hii (A1 & A2 & A3 & Ao & AP).
      rewrite pt_core by (auto; fold d; lia). rewrite fb_ind by lia. cbn [obind].
      pose proof (Hmr ii ltac:(lia)) as Hr1. pose proof (Hmr (S ii) ltac:(lia)) as Hr2.
      destruct (fb_eval2 ii (nth ii ind 0) a2 0) as (t2 & Et2 & Lt2 & Ht2 & _); [lia|nia|].
      rewrite Et2. cbn [obind]. replace (ii + 1) with (S ii) by lia.
      rewrite (pt_rank f Wf ii), (pt_rank f Wf (S ii)) by (fold d; lia). cbn [obind]. fold r.
      assert (P1 : 0 < r ii) by (apply pt_pos; auto; fold d; lia).
      assert (P2 : 0 < r (S ii)) by (apply pt_pos; auto; fold d; lia).
      pose proof (odd_S ii) as Ho. unfold I. rewrite Ho.
      destruct (ii mod 2 =? 1); cbn [negb].
      - destruct (dgemv_t_ok (r ii) (r (S ii)) t2 (r ii) a1 a3 (M ii) (fw r M ii)) as (y & Ey & Ly & Py); auto.
        { nia. }
        rewrite Ey. cbn [obind]. eexists. split; [reflexivity|]. cbv beta iota. repeat split; auto; try lia.
        intros j Hj. rewrite Py by auto. f_equal. cbn [fw]. apply sum_ext. intros; ring.
      - destruct (dgemv_t_ok (r ii) (r (S ii)) t2 (r ii) a3 a1 (M ii) (fw r M ii)) as (y & Ey & Ly & Py); auto.
        { nia. }
        rewrite Ey. cbn [obind]. eexists. split; [reflexivity|]. cbv beta iota. repeat split; auto; try lia.
        intros j Hj. rewrite Py by auto. f_equal. cbn [fw]. apply sum_ext. intros; ring. }
    rewrite E1. cbn [obind]. replace (1 + (d - 1)) with d in * by lia.
    rewrite path_value_bw by auto. fold r M d. rewrite <- (fw_total r M d R0 Rd).
    rewrite Ao. destruct (d mod 2 =? 1); cbn [Nat.eqb]; apply aget_ok, AP; rewrite Rd; lia.
  Qed.
  End AtInd.

  Theorem co_perturb_ind_correct (x : list nat) (w : wspace R) (dd : ddcache R) (pert : list nat) (vals : list R) :
    length x = d -> ws_wf w -> dd_wf f dd -> 2 <= d -> 2 * d <= length pert -> 2 * d <= length vals ->
    exists vals' dd', ft_eval_co_perturb_ind uevi f w dd x pert vals
        = Ok (path_value f (fun k g => uevi g (nth k x 0)), vals', dd') /\
      length vals' = length vals /\ dd_wf f dd' /\
      (forall k, k < d ->
         nth_error vals' (2 * k)
         = Some (path_value f (fun q g => uevi g (if q =? k then nth (2 * k) pert 0 else nth q x 0))) /\
         nth_error vals' (2 * k + 1)
         = Some (path_value f (fun q g => uevi g (if q =? k then nth (2 * k + 1) pert 0 else nth q x 0)))) /\
      (forall q, 2 * d <= q -> nth_error vals' q = nth_error vals q).
  Proof.
    intros Hx Hw Hdd Hd Hp Hv.
    apply (co_perturb_gen f Wf uevi 0 (fun n f ind out => eval2_ind uevi n f ind out 0)); auto.
    intros k xk T Hk HL. destruct (fb_eval2 k xk T 0 Hk HL) as (T' & E & L & H & _). exists T'. auto.
  Qed.

  Theorem fiber_ind_correct (w : wspace R) (fixed_ind : list nat) N (ind : list nat) v (out : list R) :
    ws_wf w -> v < d -> length fixed_ind = d -> N <= length ind -> N <= length out -> 0 < N ->
    exists out', ft_eval_fiber_ind uevi f w fixed_ind N ind v out = Ok out' /\ length out' = length out /\
      (forall j, j < N -> nth_error out' j
        = Some (path_value f (fun k g => uevi g (if k =? v then nth j ind 0 else nth k fixed_ind 0)))) /\
      (forall q, N <= q -> nth_error out' q = nth_error out q).
  Proof.
    intros (Hw1 & Hw2 & Hw3) Hv Hfi Hni Hno HN. unfold ft_eval_fiber_ind. rewrite pt_outer by auto. cbn [obind].
    destruct (get_maxrank_ok f) as (mr & Emr & Hmr1 & _). { apply wf_lens; auto. }
    pose proof (fun k => pt_mr f Wf mr k Emr) as Hmr. fold r d in Hmr.
    unfold pre_eval. rewrite Emr. cbn [obind]. fold d.
    destruct (ms_check_ok (ws1 w) (mr * mr) Hw1) as [S1 _].
    destruct (ms_check_ok (ws2 w) (mr * mr) Hw2) as [S2 _].
    destruct (ms_check_ok (ws3 w) (mr * mr) Hw3) as [S3 _].
    set (v1 := ms_vals (ms_check (ws1 w) 1 (mr * mr))) in *.
    set (v2 := ms_vals (ms_check (ws2 w) 1 (mr * mr))) in *.
    set (v3 := ms_vals (ms_check (ws3 w) 1 (mr * mr))) in *.
    rewrite pt_core by auto. cbn [obind].
    destruct (canon_core f v Wf Hv) as (_ & _ & Nv & Cv & Pv & Pv1 & _). fold r in Nv, Cv, Pv, Pv1.
    assert (R0 : r 0 = 1) by now apply frk_0. assert (Rd : r d = 1) by now apply frk_d.
    pose (M := fM f (fun k g => uevi g (nth k fixed_ind 0))).
    pose (E := fun jj i j => ent (fun g => uevi g (nth jj ind 0)) (fco f v) i j).
    pose (G := fun jj c => sum (r v) (fun i => fw r M v i *! E jj i c)).
    assert (HFix : forall k, k < d -> aget fixed_ind k = Ok (nth k fixed_ind 0)).
    { intros k Hk. apply aget_ok, nth_error_nth'. lia. }
    (* the values of the varying core *)
    pose (I0 := fun (q : nat) (T : list R) => length T = r v * r (S v) * N /\
       forall jj, jj < q -> forall i j, i < r v -> j < r (S v) ->
         nth_error T (jj * r v * r (S v) + j * r v + i) = Some (E jj i j)).
    match goal with |- context [for_ N ?b00 ?s00] =>
      destruct (for_inv I0 b00 N s00) as (tens & E0 & Lt & Ht) end.
    { unfold I0. rewrite repeat_length, Nv, Cv. split; auto. intros; lia. }
    { intros jj T Hj (LT & HT). rewrite (aget_ok ind jj (nth jj ind 0)) by (apply nth_error_nth'; lia).
      cbn [obind]. rewrite Nv, Cv.
      destruct (fb_eval2 v (nth jj ind 0) T (jj * r v * r (S v)) Hv) as (T' & ET & LT' & H1 & H2). { nia. }
      rewrite Nv, Cv in ET. rewrite ET. eexists. split; [reflexivity|]. unfold I0. split; [lia|].
      intros q Hq i j H3 H4. destruct (Nat.eq_dec q jj) as [->|].
      - now apply H1.
      - rewrite H2 by nia. apply HT; auto. lia. }
    rewrite E0. cbn [obind]. clear E0 I0. rewrite !Nv, !Cv.
    (* the left part *)
    match goal with |- context [obind ?m00 _] =>
      assert (EL : exists tm t1 t2 t3, m00 = Ok (tm, t1, t2, t3) /\
        mr * mr <= length t1 /\ mr * mr <= length t2 /\ mr * mr <= length t3 /\
        length tm = r (S v) * N /\
        (forall jj c, jj < N -> c < r (S v) -> nth_error tm (jj * r (S v) + c) = Some (G jj c))) end.
    { destruct (Nat.eqb_spec v 0) as [->|Hv0].
      - rewrite R0. cbn [cassert Nat.eqb obind].
        destruct (blitr_ok (r 1 * N) tens (repeat r0 (r 1 * N)) 0 0) as (tm & Etm & Ltm & Htm & _).
        { rewrite Lt, R0. lia. } { rewrite repeat_length. lia. }
        rewrite Etm. cbn [obind]. exists tm, v1, v2, v3. repeat split; auto.
        + rewrite Ltm, repeat_length. lia.
        + intros jj c Hj Hc. change (jj * r 1 + c) with (0 + (jj * r 1 + c)). rewrite (Htm (jj * r 1 + c)) by nia. rewrite R0 in Ht.
          replace (0 + (jj * r 1 + c)) with (jj * 1 * r 1 + c * 1 + 0) by lia.
          rewrite Ht by (auto; lia). f_equal. unfold G. rewrite R0, sum_1. cbn [fw]. ring.
      - rewrite pt_core by (auto; fold d; lia). rewrite HFix by lia. cbn [obind].
        destruct (fb_eval2 0 (nth 0 fixed_ind 0) v1 0) as (t1 & Et1 & Lt1 & Ht1 & _).
        { lia. } { pose proof (Hmr 1 ltac:(lia)). rewrite R0. nia. }
        rewrite Et1. cbn [obind].
        pose (I := fun (ii : nat) (s : list R * list R * list R * nat) =>
          let '(a1, a2, a3, onsol) := s in
          mr * mr <= length a1 /\ mr * mr <= length a2 /\ mr * mr <= length a3 /\
          pre (if onsol =? 1 then a1 else a3) (r ii) (fw r M ii)).
        match goal with |- context [for_from 1 (v - 1) ?b00 ?s00] =>
          destruct (for_from_inv I b00 1 (v - 1) s00) as ([[[a1 a2] a3] onsol] & E1 & A1 & A2 & A3 & AP) end.
        { unfold I. cbn [Nat.eqb]. repeat split; auto; try lia.
          intros j Hj. rewrite R0 in Ht1. replace j with (0 + j * 1 + 0) at 1 by lia. rewrite Ht1 by lia.
          cbn [fw]. rewrite R0, sum_1. f_equal. unfold M, fM. ring. }
        { intros ii [[[a1 a2] a3] onsol] Hii (A1 & A2 & A3 & AP).
          rewrite pt_core by (auto; fold d; lia). rewrite HFix by lia. cbn [obind].
          pose proof (Hmr ii ltac:(lia)) as Hr1. pose proof (Hmr (S ii) ltac:(lia)) as Hr2.
          destruct (fb_eval2 ii (nth ii fixed_ind 0) a2 0) as (t2 & Et2 & Lt2 & Ht2 & _); [lia|nia|].
          rewrite Et2. cbn [obind]. replace (ii + 1) with (S ii) by lia.
          assert (P1 : 0 < r ii) by (apply pt_pos; auto; fold d; lia).
          assert (P2 : 0 < r (S ii)) by (apply pt_pos; auto; fold d; lia).
          destruct (canon_core f ii Wf ltac:(fold d; lia)) as (_ & _ & Ni & Ci & _). fold r in Ni, Ci.
          destruct (onsol =? 1).
          - rewrite (pt_rank f Wf ii), (pt_rank f Wf (S ii)) by (fold d; lia). cbn [obind]. fold r.
            destruct (dgemv_t_ok (r ii) (r (S ii)) t2 (r ii) a1 a3 (M ii) (fw r M ii)) as (y & Ey & Ly & Py); auto.
            { nia. }
            rewrite Ey. cbn [obind]. eexists. split; [reflexivity|]. unfold I. cbn [Nat.eqb]. repeat split; auto; try lia.
            intros j Hj. rewrite Py by auto. f_equal. cbn [fw]. apply sum_ext. intros; ring.
          - rewrite Ni, Ci.
            destruct (dgemv_t_ok (r ii) (r (S ii)) t2 (r ii) a3 a1 (M ii) (fw r M ii)) as (y & Ey & Ly & Py); auto.
            { nia. }
            rewrite Ey. cbn [obind]. eexists. split; [reflexivity|]. unfold I. cbn [Nat.eqb]. repeat split; auto; try lia.
            intros j Hj. rewrite Py by auto. f_equal. cbn [fw]. apply sum_ext. intros; ring. }
        rewrite E1. cbn [obind]. replace (1 + (v - 1)) with v in AP by lia.
        pose (I2 := fun (q : nat) (tm : list R) => length tm = r (S v) * N /\
          forall jj c, jj < q -> c < r (S v) -> nth_error tm (jj * r (S v) + c) = Some (G jj c)).
        match goal with |- context [for_ N ?b00 ?s00] =>
          destruct (for_inv I2 b00 N s00) as (tm & E2 & Ltm & Htm) end.
        { unfold I2. rewrite repeat_length. split; auto. intros; lia. }
        { intros jj tm Hj (Ltm & Htm).
          destruct (dgemv_tx'_ok (r v) (r (S v)) tens (jj * r v * r (S v)) (r v)
             (if onsol =? 1 then a1 else a3) 0 tm (jj * r (S v)) (E jj) (fw r M v)) as (y & Ey & Ly & Hy1 & Hy2); auto.
          { nia. }
          rewrite Ey. eexists. split; [reflexivity|]. unfold I2. split; [lia|].
          intros q c Hq Hc. destruct (Nat.eq_dec q jj) as [->|].
          - rewrite Hy1 by auto. f_equal. unfold G. apply sum_ext. intros; ring.
          - rewrite Hy2 by nia. apply Htm; auto. lia. }
        rewrite E2. cbn [obind]. exists tm, a1, a2, a3. repeat split; auto. }
    destruct EL as (tm & t1 & t2 & t3 & -> & L1 & L2 & L3 & Ltm & Htm). cbn [obind].
    assert (Val : forall jj, path_value f (fun k g => uevi g (if k =? v then nth jj ind 0 else nth k fixed_ind 0))
       = sum (r (S v)) (fun c => G jj c *! bw r M (d - 1 - v) (S v) c)).
    { intros jj. rewrite path_value_bw by auto. fold r d.
      rewrite (bw_ext r _ (repl M v (E jj))); [|rewrite R0; lia|].
      - rewrite (bw_repl r M v (E jj) d R0 Hv). unfold G.
        rewrite (sum_ext R (r (S v)) _ (fun c => sum (r v) (fun i => fw r M v i *! E jj i c *! bw r M (d - 1 - v) (S v) c))).
        2:{ intros j Hj. now rewrite <- sum_scal_r. }
        rewrite sum_swap. apply sum_ext. intros i Hi. rewrite <- sum_scal_l. apply sum_ext. intros j Hj. ring.
      - intros k i j _ _ _. unfold repl, M, E, fM. now destruct (Nat.eqb_spec k v) as [->|]. }
    destruct (Nat.eqb_spec v (d - 1)) as [Ev|Hv1].
    - assert (R1 : r (S v) = 1) by (replace (S v) with d by lia; exact Rd).
      destruct (blitr_ok N tm out 0 0) as (o & Eo & Lo & Ho1 & Ho2); [lia|lia|].
      rewrite Eo. exists o. repeat split; auto.
      + intros j Hj. change j with (0 + j) at 1. rewrite (Ho1 j Hj). replace (0 + j) with (j * r (S v) + 0) by lia.
        rewrite Htm by lia. f_equal. rewrite Val, R1, sum_1. replace (d - 1 - v) with 0 by lia. cbn [bw]. ring.
    - rewrite pt_core by (auto; fold d; lia). rewrite HFix by lia. cbn [obind].
      assert (Rl : r (S (d - 1)) = 1) by (replace (S (d - 1)) with d by lia; exact Rd).
      destruct (fb_eval2 (d - 1) (nth (d - 1) fixed_ind 0) t1 0) as (t1' & Et1 & Lt1 & Ht1 & _).
      { lia. } { pose proof (Hmr (d - 1) ltac:(lia)). rewrite Rl. nia. }
      rewrite Et1. cbn [obind].
      pose (I := fun (k : nat) (s : list R * list R * list R * nat) =>
          let '(a1, a2, a3, onsol) := s in
          mr * mr <= length a1 /\ mr * mr <= length a2 /\ mr * mr <= length a3 /\
          pre (if onsol =? 1 then a1 else a3) (r (d - 1 - k)) (bw r M (S k) (d - 1 - k))).
      match goal with |- context [for_ (d - 2 - v) ?b00 ?s00] =>
          destruct (for_inv I b00 (d - 2 - v) s00) as ([[[a1 a2] a3] onsol] & E1 & A1 & A2 & A3 & AP) end.
      { unfold I. cbn [Nat.eqb]. replace (d - 1 - 0) with (d - 1) by lia. repeat split; auto; try lia.
        intros i Hi. replace i with (0 + 0 * r (d - 1) + i) at 1 by lia. rewrite Ht1 by lia.
        cbn [bw]. rewrite Rl, sum_1. f_equal. unfold M, fM. ring. }
      { intros k [[[a1 a2] a3] onsol] Hk (A1 & A2 & A3 & AP).
        set (ii := d - 2 - k). assert (Hii : ii < d) by (unfold ii; lia).
        replace (d - 1 - k) with (S ii) in AP by (unfold ii; lia).
        rewrite pt_core by (auto; fold d; lia). rewrite HFix by lia. cbn [obind].
        pose proof (Hmr ii ltac:(lia)) as Hr1. pose proof (Hmr (S ii) ltac:(lia)) as Hr2.
        destruct (fb_eval2 ii (nth ii fixed_ind 0) a2 0) as (t2' & Et2 & Lt2 & Ht2 & _); [lia|nia|].
        rewrite Et2. cbn [obind].
        assert (P1 : 0 < r ii) by (apply pt_pos; auto; fold d; lia).
        assert (P2 : 0 < r (S ii)) by (apply pt_pos; auto; fold d; lia).
        destruct (canon_core f ii Wf ltac:(fold d; lia)) as (_ & _ & Ni & Ci & _). fold r in Ni, Ci.
        rewrite Ni, Ci. unfold I. replace (d - 1 - S k) with ii by (unfold ii; lia).
        destruct (onsol =? 1).
        - destruct (dgemv_n_ok (r ii) (r (S ii)) t2' (r ii) a1 a3 (M ii) (bw r M (S k) (S ii))) as (y & Ey & Ly & Py); auto.
          { nia. }
          rewrite Ey. cbn [obind]. eexists. split; [reflexivity|]. cbv beta iota. cbn [Nat.eqb]. repeat split; auto; lia.
        - destruct (dgemv_n_ok (r ii) (r (S ii)) t2' (r ii) a3 a1 (M ii) (bw r M (S k) (S ii))) as (y & Ey & Ly & Py); auto.
          { nia. }
          rewrite Ey. cbn [obind]. eexists. split; [reflexivity|]. cbv beta iota. cbn [Nat.eqb]. repeat split; auto; lia. }
      rewrite E1. cbn [obind].
      replace (d - 1 - (d - 2 - v)) with (S v) in AP by lia. replace (S (d - 2 - v)) with (d - 1 - v) in AP by lia.
      destruct (dgemv_tx'_ok (r (S v)) N tm 0 (r (S v)) (if onsol =? 1 then a1 else a3) 0 out 0
         (fun c jj => G jj c) (bw r M (d - 1 - v) (S v))) as (y & Ey & Ly & Hy1 & Hy2); auto.
      { intros c jj Hc Hj. cbn [Nat.add]. now apply Htm. }
      rewrite Ey. exists y. repeat split; auto.
      + intros j Hj. change j with (0 + j) at 1. rewrite (Hy1 j Hj). now rewrite Val.
  Qed.
End Fiber.
