(** The maximum volume procedure as a whole. *)
From Coq Require Import Reals Lra.
From Verif Require Import TensorModel ParamFacts Fill QmaFacts OrthFacts RoundStep RoundRun.
From Verif Require Export MaxvolFacts PropLu.
Open Scope R_scope.

Lemma obind_ok {A B} (o : outcome A) (f : A -> outcome B) b : obind o f = Ok b -> exists a, o = Ok a /\ f a = Ok b.
Proof. destruct o; cbn; intros; try discriminate. eauto. Qed.
Ltac inv_bind H := let a := fresh "a" in let E := fresh "E" in apply obind_ok in H; destruct H as (a & E & H).

Section Run.
  Context (svdf : nat -> nat -> list R -> outcome (list R * list R * list R)).
  Context {U : uops Rring} (W : vops U) (zt : R) (absmax1 : U -> R * R) (nodal : U -> bool).
  Context (onezero2 : list R -> U) (uone : U) (zpoly : list R -> U).
  Context (lo hi : R).
  Let dom (x : R) : Prop := lo <= x <= hi.
  Hypothesis Hd : forall f, dom (snd (absmax1 f)).

  Lemma array_absmax_dom n a oa v k x : array_absmax absmax1 n a oa = Ok (v, k, x) -> dom x.
  Proof.
    unfold array_absmax. intros H. inv_bind H. destruct (absmax1 a0) as [v0 x0] eqn:A0.
    assert (D0 : dom x0) by (pose proof (Hd a0) as X; rewrite A0 in X; exact X).
    assert (G : forall cnt lo x0, dom x0 -> forall r0 i0,
      for_from lo cnt (fun ii (s : R * nat * R) => let '(maxval, ind, x) := s in do f <- aget a (oa + ii)%nat; let '(tv, tx) := absmax1 f in if Rltb maxval tv then Ok (tv, ii, tx) else Ok (maxval, ind, x)) (r0, i0, x0) = Ok (v, k, x) -> dom x).
    { clear E H. induction cnt as [|cnt IH]; intros l z0 D r0 i0 EE; cbn [for_from] in EE; [injection EE as _ _ <-; exact D|].
      apply obind_ok in EE. destruct EE as (s1 & E1 & EE). apply obind_ok in E1. destruct E1 as (g & Eg & E1). destruct (absmax1 g) as [tv tx] eqn:At.
      assert (Dt : dom tx) by (pose proof (Hd g) as X; rewrite At in X; exact X).
      destruct (Rltb r0 tv); injection E1 as <-; (eapply IH; [|exact EE]; assumption). }
    eapply G; [exact D0|exact H].
  Qed.

  Lemma lu_step_dom n m kk s s' : (forall k, (k < kk)%nat -> dom (nth k (lu_px s) 0)) ->
    lu_step W zt absmax1 nodal onezero2 uone zpoly n m kk s = Ok s' -> forall k, (k < S kk)%nat -> dom (nth k (lu_px s') 0).
  Proof.
    intros H E. unfold lu_step in E.
    apply obind_ok in E. destruct E as ([[v p] x] & E0 & E).
    apply obind_ok in E. destruct E as (piv1 & E1 & E).
    apply obind_ok in E. destruct E as (px1 & E2 & E).
    apply obind_ok in E. destruct E as (f & E3 & E).
    apply obind_ok in E. destruct E as ([[Lk q] y] & E4 & E).
    apply obind_ok in E. destruct E as (piv2 & E5 & E).
    apply obind_ok in E. destruct E as (px2 & E6 & E).
    apply obind_ok in E. destruct E as (L' & E7 & E).
    apply obind_ok in E. destruct E as ([A' u'] & E8 & E). injection E as <-. cbn [lu_px].
    destruct (nth_aset _ _ _ _ 0 E2) as [_ V1]. destruct (nth_aset _ _ _ _ 0 E6) as [_ V2].
    assert (Dy : dom y).
    { destruct (Rleb _ _).
      - apply obind_ok in E4. destruct E4 as (f0 & _ & E4). unfold any_L in E4.
        apply obind_ok in E4. destruct E4 as (col & _ & E4). apply obind_ok in E4. destruct E4 as ([[w q'] y'] & EA & E4).
        apply obind_ok in E4. destruct E4 as (g & _ & E4). apply obind_ok in E4. destruct E4 as (t & _ & E4).
        apply obind_ok in E4. destruct E4 as (col' & _ & E4).
        injection E4 as _ _ <-. eapply array_absmax_dom; eauto.
      - apply obind_ok in E4. destruct E4 as (col & _ & E4). injection E4 as _ _ <-. eapply array_absmax_dom; eauto. }
    intros k Hk. rewrite V2. destruct (Nat.eqb_spec k kk) as [->|N]; [exact Dy|]. rewrite V1.
    destruct (Nat.eqb_spec k kk); [contradiction|]. apply H. lia.
  Qed.

  Context (lb ub : U -> R).
  Hypothesis Hlb : forall f, lb f = lo.
  Hypothesis Hub : forall f, ub f = hi.
  Context (N : nat) (F : Prop).
  Hypothesis Hsvd : svd_law N F svdf.
  Hypothesis Hzt : 0 < zt.

  Lemma lu_run (A : qma U) L u piv px : lu_laws W zt absmax1 nodal onezero2 zpoly (nc A) -> (0 < nr A)%nat -> qwf A ->
    length L = (nc A * nr A)%nat -> length u = (nc A * nc A)%nat -> length piv = nc A -> length px = nc A ->
    (qmarray_lu1d W zt absmax1 nodal onezero2 uone zpoly A L u piv px = Abort) \/
    exists s info, qmarray_lu1d W zt absmax1 nodal onezero2 uone zpoly A L u piv px = Ok (s, info) /\ (info <= 0)%Z /\
      inv zt absmax1 (nr A) (nc A) (fs A) (nc A) s /\ (forall k, (k < nc A)%nat -> dom (nth k (lu_px s) 0)) /\
      (nc A = 1%nat -> forall x y i, is_absmax absmax1 dom -> dom x -> (i < nr A)%nat -> dom y ->
         Rabs (aent (fun f => uev f (x : Rring)) (nr A) (fs A) i 0) <= zt \/
         Rabs (aent (fun f => uev f (x : Rring)) (nr A) (fs A) i 0) <= Rabs (aent (fun f => uev f (nth 0 (lu_px s) 0 : Rring)) (nr A) (fs A) (nth 0 (lu_piv s) 0%nat) 0)).
  Proof.
    intros HL Hn HA L1 L2 L3 L4. pose proof HA as HA'. unfold qwf in HA'.
    pose proof (laws_base W zt absmax1 nodal onezero2 uone zpoly _ HL) as Hb. destruct HL as (Hev & Hsc & Hz0 & _ & _ & Ho).
    unfold qmarray_lu1d. set (n := nr A) in *. set (m := nc A) in *.
    match goal with |- context [for_ m ?b0 ?s0] =>
      destruct (for_from_or True (fun kk s => inv zt absmax1 n m (fs A) kk s /\ (forall k, (k < kk)%nat -> dom (nth k (lu_px s) 0)) /\
         (kk = 1%nat -> Rabs (nth 0 (lu_u s) 0) <= zt -> forall x i, is_absmax absmax1 dom -> dom x -> (i < n)%nat -> Rabs (aent (fun f => uev f (x : Rring)) n (fs A) i 0) <= zt) /\
         (kk = 0%nat -> lu_A s = fs A)) b0 0 m s0) as [(s & E & I & D & V & _)|(E & _)] end.
    - split; [apply inv0; auto; rewrite Nat.mul_comm; auto|]. split; [intros; lia|]. split; [intros; lia|]. reflexivity.
    - intros kk s Hk (I & D & _ & HA0). destruct (step_ok W zt absmax1 nodal onezero2 uone zpoly n m Hn Hev Hsc Hz0 Hb Ho (fs A) kk s ltac:(lia) I) as [(s' & E & I' & _ & HV)|[E _]].
      + left. exists s'. split; [exact E|]. split; [exact I'|]. split; [eapply lu_step_dom; eauto|]. split; [|discriminate].
        intros K1 Hsm x i Ha Hx Hi. assert (kk = 0%nat) by lia. subst kk. specialize (HA0 eq_refl). rewrite HA0 in HV. cbn [Nat.mul Nat.add] in HV.
        destruct (absmax_ok absmax1 n Hn (fs A) (0 * n)) as (v & p & y & f & EA & Hp & Ef & Af & Am); [cbn; nia|].
        destruct (Ha f) as (F1 & _ & _). rewrite Af in F1. cbn [fst snd] in F1.
        assert (Hv : v <= zt).
        { destruct (Rle_lt_dec v zt) as [X|X]; [exact X|]. exfalso. apply (Rlt_not_le _ _ (proj2 HV ltac:(
            intros (v' & p' & y' & f' & EA' & Ef' & Hf'); rewrite EA in EA'; injection EA' as <- <- <-; rewrite Ef in Ef'; injection Ef' as <-; lra)) Hsm). }
        unfold aent. cbn [Nat.mul Nat.add]. destruct (nth_error (fs A) i) as [g|] eqn:Eg; [|rewrite Rabs_R0; lra].
        pose proof (Am i g Hi Eg) as Hg. destruct (Ha g) as (_ & _ & G3). specialize (G3 x Hx). lra.
      + right. auto.
    - right. unfold for_. rewrite E. cbn [obind].
      pose proof (info_ok zt n m Hn (lu_u s) (i_u _ _ _ _ _ _ _ I)) as EI. unfold for_ in EI. rewrite EI. cbn [obind].
      eexists s, _. split; [reflexivity|]. split; [lia|]. split; [exact I|]. split; [exact D|].
      intros M1 x y i Ha Hx Hi Hy.
      destruct (Rle_lt_dec (Rabs (nth 0 (lu_u s) 0)) zt) as [Hs|Hs]; [left; apply V; auto; cbn; lia|]. right.
      assert (NV : nv zt m m (lu_u s)) by (intros k Hk; assert (k = 0%nat) by lia; subst k; exact Hs).
      assert (dec : forall z i, (i < n)%nat -> aent (fun f => uev f (z : Rring)) n (fs A) i 0 = nth 0 (lu_u s) 0 * lv n (fun f => uev f (z : Rring)) (lu_L s) 0 i).
      { intros z i' Hi'. pose proof (i_dec _ _ _ _ _ _ _ I (fun f => uev f (z : Rring)) 0 i' (Hev z) ltac:(cbn; lia) Hi') as X.
        change (av n (fun f => uev f (z : Rring)) (fs A) 0 i' = nth 0 (lu_u s) 0 * lv n (fun f => uev f (z : Rring)) (lu_L s) 0 i'). rewrite X.
        rewrite (i_Z _ _ _ _ _ _ _ I NV 0 _ i' ltac:(cbn; lia) (Hev z) Hi'). cbn [Nat.add]. rewrite M1. cbn [rsum Nat.mul Nat.add]. ring. }
      rewrite !dec by (auto; apply (i_piv _ _ _ _ _ _ _ I); cbn; lia).
      rewrite (i_L1 _ _ _ _ _ _ _ I 0 ltac:(cbn; lia)). rewrite !Rabs_mult, Rabs_R1.
      pose proof (i_bd _ _ _ _ _ _ _ I dom Ha 0 ltac:(cbn; lia) Hs i x Hi Hx) as B.
      apply Rmult_le_compat_l; [apply Rabs_pos|exact B].
    - left. unfold for_. rewrite E. reflexivity.
  Qed.

  Lemma unit_abs x : x * x = 1 -> Rabs x = 1.
  Proof. intros H. unfold Rabs. destruct (Rcase_abs x); nra. Qed.

  (** One column: the product with the inverse is nowhere larger than one. *)
  Lemma inv1_bound (A : qma U) pivi pivx inv0 rank a : nc A = 1%nat -> (1 <= N)%nat -> qwf A -> length pivi = 1%nat -> length pivx = 1%nat ->
    (nth 0 pivi 0 < nr A)%nat -> is_pinv svdf zt A pivi pivx inv0 rank ->
    Rabs a <= zt \/ Rabs a <= Rabs (pv A pivi pivx 0 0) -> Rabs (cm 1 inv0 0 0 * a) <= 1.
  Proof.
    intros Hm HN HA L1 L2 HP [EI _] Ha. unfold pivot_inverse in EI. rewrite Hm in EI.
    destruct (pivot_matrix_ok A pivi pivx (repeat 0 (1 * 1))) as (Um & EU & LU & HU); auto; try (rewrite Hm; cbn; lia).
    { intros k Hk. assert (k = 0%nat) by lia. now subst k. }
    rewrite EU in EI. cbn [obind] in EI. rewrite Hm in HU. specialize (HU 0%nat 0%nat ltac:(lia) ltac:(lia)).
    rewrite Hm in LU.
    destruct (Hsvd 1%nat Um ltac:(lia) LU) as [(u & s & vt & Es & Sp)|[Es Fl]].
    2:{ unfold pinv in EI. rewrite Es in EI. discriminate. }
    destruct (pinv_ok svdf 1%nat 1%nat Um zt u s vt Es Sp) as (X & EX & LX & HX).
    { intros k _. destruct (Req_dec (nth k s 0) 0) as [Z|Z]; [left; rewrite Z, Rabs_R0; exact Hzt|now right]. }
    rewrite EX in EI. injection EI as <- _.
    specialize (HX 0%nat 0%nat ltac:(lia) ltac:(lia)). destruct Sp as (_ & _ & _ & O1 & O2 & Sa).
    specialize (O1 0%nat 0%nat ltac:(lia) ltac:(lia)). specialize (O2 0%nat 0%nat ltac:(lia) ltac:(lia)). specialize (Sa 0%nat 0%nat ltac:(lia) ltac:(lia)).
    cbn [rsum Nat.min Nat.eqb] in *. rewrite Rplus_0_l in *. apply unit_abs in O1, O2.
    assert (AP : Rabs (pv A pivi pivx 0 0) = Rabs (nth 0 s 0)).
    { rewrite <- HU, Sa, !Rabs_mult, O1, O2. ring. }
    rewrite HX, !Rabs_mult, O1, O2. unfold sinv. destruct (Rltb_spec (Rabs (nth 0 s 0)) zt) as [H|H].
    - rewrite Rabs_R0. lra.
    - apply Rnot_lt_le in H. rewrite AP in Ha. assert (Ha' : Rabs a <= Rabs (nth 0 s 0)) by lra.
      unfold Rdiv. rewrite Rabs_mult, Rabs_R1, Rabs_inv. assert (P : 0 < Rabs (nth 0 s 0)) by lra.
      apply (Rmult_le_reg_l (Rabs (nth 0 s 0))); [exact P|]. 
      replace (Rabs (nth 0 s 0) * (1 * (1 * / Rabs (nth 0 s 0)) * 1 * Rabs a)) with (Rabs a * (Rabs (nth 0 s 0) * / Rabs (nth 0 s 0))) by ring.
      rewrite Rinv_r by lra. lra.
  Qed.

  Lemma maxvol_run (A : qma U) fuel Asinv pivi pivx : lu_laws W zt absmax1 nodal onezero2 zpoly (nc A) ->
    (0 < nr A)%nat -> (0 < nc A <= N)%nat -> qwf A -> length pivi = nc A -> length pivx = nc A ->
    let run := qmarray_maxvol1d svdf W zt absmax1 nodal onezero2 uone zpoly lb ub fuel A Asinv pivi pivx in
    run = Abort \/ (run = OutOfFuel /\ (1 < nc A)%nat) \/
    exists inv pi px info rank, run = Ok (inv, pi, px, info, rank) /\ (info <= 0)%Z /\
      length pi = nc A /\ length px = nc A /\ length inv = (nc A * nc A)%nat /\
      (forall k, (k < nc A)%nat -> (nth k pi 0 < nr A)%nat) /\
      (forall k, (k < nc A)%nat -> dom (nth k px 0)) /\
      ((1 < nc A)%nat -> is_pinv svdf zt A pi px inv rank /\ forall i j, (i < j < nc A)%nat -> apart zt pi px i j) /\
      (is_absmax absmax1 dom -> is_pinv svdf zt A pi px inv rank).
  Proof.
    intros HL Hn Hm HA L1 L2 run. unfold run, qmarray_maxvol1d.
    destruct (lu_run A (repeat None (nc A * nr A)) (repeat 0 (nc A * nc A)) pivi pivx HL Hn HA (repeat_length _ _) (repeat_length _ _) L1 L2)
      as [E|(s & info & E & Hi & I & D & V)]; rewrite E; cbn [obind]; [now left|].
    rewrite (proj2 (Z.ltb_ge 0 info) Hi).
    pose proof (i_p _ _ _ _ _ _ _ I) as Lp. pose proof (i_x _ _ _ _ _ _ _ I) as Lx. pose proof (i_piv _ _ _ _ _ _ _ I) as HP.
    destruct (pivot_inverse_ok svdf zt N F Hsvd Hzt A (lu_piv s) (lu_px s) ltac:(lia) HA Lp Lx HP) as [(iv & rk & EI & LI)|[EI _]]; rewrite EI; cbn [obind]; [|now left].
    destruct (next_max absmax1 A iv HA Hn ltac:(lia) LI) as (B & x & row & col & v & f & EB & EM & Hr & Hc & Af & Hf & _).
    rewrite EB. cbn [obind]. rewrite EM. cbn [obind].
    pose proof (Hd f) as Df. rewrite Af in Df. cbn [snd] in Df.
    assert (O0 : mv_ok svdf zt A dom (mkmv (lu_piv s) (lu_px s) iv rk x row col v 0)).
    { constructor; cbn; auto. split; auto. }
    destruct (maxvol_loop_ok svdf zt absmax1 N F Hsvd Hzt A dom HA Hn Hm Hd 34 _ O0 ltac:(cbn; lia) ltac:(cbn; lia)) as [(t & ET & OT)|[ET _]].
    2:{ left. rewrite ET. reflexivity. }
    assert (T1 : nc A = 1%nat -> is_absmax absmax1 dom -> t = mkmv (lu_piv s) (lu_px s) iv rk x row col v 0).
    { intros H1 Ha. cbn [maxvol_loop mv_val] in ET. destruct (Rltb_spec (1 + 1 / 100) v) as [X|X]; [|now injection ET].
      exfalso. destruct (Ha f) as (F1 & _ & _). rewrite Af in F1. cbn [fst snd] in F1.
      assert (Hev : forall x : R, linfun (R := Rring) (fun f : U => (uev f (x : Rring) : R))) by apply HL.
      specialize (Hf (fun f => uev f (x : Rring)) (Hev x)). cbn beta in Hf. rewrite Hf in F1. rewrite H1 in *. cbn [rsum] in F1. rewrite Rplus_0_l in F1.
      assert (col = 0%nat) by lia. subst col.
      assert (Bd : Rabs (cm 1 iv 0 0 * ent (R := Rring) (fun f => uev f (x : Rring)) A row 0) <= 1).
      { apply (inv1_bound A (lu_piv s) (lu_px s) iv rk); auto; try lia.
        - split; auto. rewrite H1. exact LI.
        - apply (V eq_refl x x row Ha Df Hr Df). }
      lra. }
    rewrite ET. cbn [obind]. destruct OT as [O1 O2 O3 O4 O5 O6 O7 O8].
    assert (exists p', (if (0 <? mv_iter t)%nat then aset (mv_pivi t) (mv_col t) (mv_row t) else Ok (mv_pivi t)) = Ok p' /\ length p' = nc A /\
       (forall k, (k < nc A)%nat -> (nth k p' 0 < nr A)%nat) /\ (mv_iter t = 0%nat -> p' = mv_pivi t)) as (p' & Ep & Lp' & Hp' & Zp).
    { destruct (Nat.ltb_spec 0 (mv_iter t)) as [Hit|Hit]; [|exists (mv_pivi t); auto].
      assert (exists p', aset (mv_pivi t) (mv_col t) (mv_row t) = Ok p') as [p' E'] by (eexists; apply aset_ok; lia).
      destruct (nth_aset _ _ _ _ 0%nat E') as [X Y]. exists p'. split; [exact E'|]. split; [lia|]. split; [|lia].
      intros k Hk. rewrite Y. destruct (Nat.eqb_spec k (mv_col t)); auto. }
    assert (exists x', (if (0 <? mv_iter t)%nat then aset (mv_pivx t) (mv_col t) (mv_x t) else Ok (mv_pivx t)) = Ok x' /\ length x' = nc A /\
       (forall k, (k < nc A)%nat -> dom (nth k x' 0)) /\ (mv_iter t = 0%nat -> x' = mv_pivx t)) as (x' & Ex & Lx' & Hx' & Zx).
    { destruct (Nat.ltb_spec 0 (mv_iter t)) as [Hit|Hit]; [|exists (mv_pivx t); auto].
      assert (exists p', aset (mv_pivx t) (mv_col t) (mv_x t) = Ok p') as [p1 E'] by (eexists; apply aset_ok; lia).
      destruct (nth_aset _ _ _ _ 0 E') as [X Y]. exists p1. split; [exact E'|]. split; [lia|]. split; [|lia].
      intros k Hk. rewrite Y. destruct (Nat.eqb_spec k (mv_col t)); auto. }
    rewrite Ep. cbn [obind]. rewrite Ex. cbn [obind].
    destruct (Nat.ltb_spec 1 (nc A)) as [H1|H1].
    - destruct (ent_some A 0 0 HA Hn ltac:(lia)) as [f0 Ef0]. cbn [Nat.mul Nat.add] in Ef0. rewrite (aget_ok _ _ _ Ef0). cbn [obind].
      rewrite Hlb, Hub.
      destruct (remove_duplicates_ok zt (nc A) p' lo hi Lp' fuel x' Lx') as [[E' _]|(x'' & E' & L'' & Hw & Hap & _)]; rewrite E'; cbn [obind]; [right; left; auto|].
      assert (D'' : forall k, (k < nc A)%nat -> dom (nth k x'' 0)).
      { unfold dom. apply Hw; [|exact Hx']. pose proof (Hx' 0%nat ltac:(lia)) as [X1 X2]. lra. }
      destruct (pivot_inverse_ok svdf zt N F Hsvd Hzt A p' x'' ltac:(lia) HA Lp' L'' Hp') as [(iv2 & rk2 & EI2 & LI2)|[EI2 _]]; rewrite EI2; cbn [obind]; [|now left].
      right. right. exists iv2, p', x'', info, rk2. split; [reflexivity|]. split; [exact Hi|]. repeat (split; [assumption|]).
      split; [intros _; split; [split; auto|exact Hap]|]. intros _. split; auto.
    - right. right. assert (M1 : nc A = 1%nat) by lia. destruct O5 as [O5 O5'].
      exists (mv_inv t), p', x', info, (mv_rank t). split; [reflexivity|]. split; [exact Hi|]. repeat (split; [assumption|]).
      split; [intros; lia|]. intros Ha. specialize (T1 M1 Ha). rewrite Zp, Zx by (rewrite T1; reflexivity). split; assumption.
  Qed.
End Run.
