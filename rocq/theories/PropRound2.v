(** C69: a run of the rounding, and what goes wrong. *)
From Coq Require Import Reals Lra.
From Verif Require Import FTInt FTCtor FTCtorVal RoundMono.
From Verif Require Export PropRound.
Open Scope R_scope.

(** ** The factorisations of two orthogonal functions *)
Lemma tri2 zro p q x0 y0 x1 y1 l00 l01 l11 : 0 < zro -> 6 * zro < p -> 6 * zro < q ->
  x0 * x0 + y0 * y0 = 1 -> x1 * x1 + y1 * y1 = 1 -> x0 * x1 + y0 * y1 = 0 -> 0 <= l00 -> 0 <= l11 ->
  (p - l00 * x0) * (p - l00 * x0) + (l00 * y0) * (l00 * y0) <= 16 * (zro * zro) ->
  (l01 * x0 + l11 * x1) * (l01 * x0 + l11 * x1) + (q - l01 * y0 - l11 * y1) * (q - l01 * y0 - l11 * y1) <= 16 * (zro * zro) ->
  (2 * zro <= l00 -> p = l00 * x0 /\ 0 = l00 * y0) ->
  (2 * zro <= l11 -> 0 = l01 * x0 + l11 * x1 /\ q = l01 * y0 + l11 * y1) ->
  l00 = p /\ l01 = 0 /\ l11 = q /\ x0 = 1 /\ y0 = 0 /\ x1 = 0 /\ y1 = 1.
Proof.
  intros Hz Hp Hq N0 N1 O P0 P1 E0 E1 X0 X1.
  assert (A0 : 2 * zro <= l00).
  { destruct (Rle_or_lt (2 * zro) l00) as [H|H]; [exact H|exfalso].
    assert (x0 <= 1) by nra. assert (l00 * x0 <= 2 * zro) by nra.
    assert (4 * zro < p - l00 * x0) by lra. nra. }
  destruct (X0 A0) as [H1 H2]. assert (y0 = 0) by nra. subst y0.
  assert (Hx : x0 = 1) by nra. subst x0.
  assert (x1 = 0) by lra. subst x1.
  assert (Hy : (y1 - 1) * (y1 + 1) = 0) by lra.
  assert (A1 : 2 * zro <= l11).
  { destruct (Rle_or_lt (2 * zro) l11) as [H|H]; [exact H|exfalso].
    assert (y1 <= 1) by nra. assert (l11 * y1 <= 2 * zro) by nra.
    assert (4 * zro < q - l01 * 0 - l11 * y1) by lra. nra. }
  destruct (X1 A1) as [H3 H4].
  assert (y1 = 1). { apply Rmult_integral in Hy as [Hy|Hy]; [lra|]. assert (y1 = -1) by lra. subst y1. nra. }
  subst y1. repeat split; lra.
Qed.

Lemma line_snd : vlin lineV snd.
Proof. split; [|split; [|split]]; intros; cbn; ring. Qed.
Lemma line_good_fst : good lineV fst.
Proof.
  split; [|split; [exact line_fst|]].
  - split; [|split].
    + intros. cbn. reflexivity.
    + intros. cbn. reflexivity.
    + intros l. induction l as [|[a f] l IH]; [reflexivity|]. cbn in *. now rewrite IH.
  - intros [a b] H. cbn in *. nra.
Qed.
Lemma line_good_snd : good lineV snd.
Proof.
  split; [|split; [exact line_snd|]].
  - split; [|split].
    + intros. cbn. reflexivity.
    + intros. cbn. reflexivity.
    + intros l. induction l as [|[a f] l IH]; [reflexivity|]. cbn in *. now rewrite IH.
  - intros [a b] H. cbn in *. nra.
Qed.
Lemma line_lin_l : law_inner_lin_l lineU.
Proof.
  intros g. split; [|split].
  - intros. cbn. ring.
  - intros. cbn. ring.
  - intros l. induction l as [|[a f] l IH]; [cbn; ring|]. cbn in IH |- *. refine (eq_trans _ (f_equal (Rplus _) IH)). ring.
Qed.

Definition z0 : R := 1 / 1000.
Definition lorth (_ : nat) := line_orth.
Definition zline : lineU := (0, 0).

Lemma pivots2 p q : 2 * z0 <= p -> 2 * z0 <= q -> pivots_ok z0 2 [p; 0; 0; q] = true.
Proof.
  intros Hp Hq. unfold pivots_ok. cbn. unfold mat. cbn. assert (0 < z0) by (unfold z0; lra).
  destruct (Rleb_spec p 0); [lra|]. destruct (Rleb_spec (2 * z0) p); [|lra].
  destruct (Rleb_spec q 0); [lra|]. destruct (Rleb_spec (2 * z0) q); [|lra]. reflexivity.
Qed.

Lemma line_qr core (p q : R) : 6 * z0 < p -> 6 * z0 < q ->
  checked z0 nc (hqr lineV z0 lorth zline) core (mkq (U := lineU) 1 2 [(p, 0); (0, q)]) (repeat 0 4) =
    Ok (mkq (U := lineU) 1 2 [(1, 0); (0, 1)], [p; 0; 0; q]).
Proof.
  intros Hp Hq. assert (Hz : 0 < z0) by (unfold z0; lra).
  destruct (C36_householder_qr_partial lineV z0 line_orth zline (mkq (U := lineU) 1 2 [(p, 0); (0, q)]) (repeat 0 4) line_laws Hz
     (line_orth_ok 2 ltac:(lia)) eq_refl ltac:(cbn; lia) eq_refl) as (Q & M & E & (I1 & I2 & I3 & I4 & I5) & D & ER).
  unfold checked, hqr, lorth. rewrite E. cbn [obind].
  destruct Q as [r c fs]. destruct I1 as (S1 & S2 & S3). cbn in S1, S2. subst r c. unfold qwf in S3. cbn in S3.
  destruct fs as [|[x0 y0] [|[x1 y1] [|]]]; try discriminate.
  cbn [nc] in I2. destruct M as [|m00 [|m10 [|m01 [|m11 [|]]]]]; try discriminate.
  pose proof (I3 0%nat 0%nat ltac:(cbn; lia) ltac:(cbn; lia)) as O00. pose proof (I3 1%nat 1%nat ltac:(cbn; lia) ltac:(cbn; lia)) as O11.
  pose proof (I3 0%nat 1%nat ltac:(cbn; lia) ltac:(cbn; lia)) as O01.
  pose proof (I4 1%nat 0%nat ltac:(cbn; lia)) as T.
  pose proof (D 0%nat ltac:(cbn; lia)) as D0. pose proof (D 1%nat ltac:(cbn; lia)) as D1.
  pose proof (ER 0%nat ltac:(cbn; lia)) as E0. pose proof (ER 1%nat ltac:(cbn; lia)) as E1.
  assert (X0 : 2 * z0 <= m00 -> p = m00 * x0 /\ 0 = m00 * y0).
  { intros H. pose proof (I5 0%nat 0%nat fst ltac:(cbn; lia) ltac:(cbn; lia) (conj line_fst (or_introl H))) as A1.
    pose proof (I5 0%nat 0%nat snd ltac:(cbn; lia) ltac:(cbn; lia) (conj line_snd (or_introl H))) as A2. cbn in A1, A2. split; lra. }
  assert (X1 : 2 * z0 <= m11 -> 0 = m01 * x0 + m11 * x1 /\ q = m01 * y0 + m11 * y1).
  { intros H. pose proof (I5 0%nat 1%nat fst ltac:(cbn; lia) ltac:(cbn; lia) (conj line_fst (or_introl H))) as A1.
    pose proof (I5 0%nat 1%nat snd ltac:(cbn; lia) ltac:(cbn; lia) (conj line_snd (or_introl H))) as A2. cbn in A1, A2. split; lra. }
  pose proof (Rmin_r (m00 * m00) (4 * (z0 * z0))) as R0. pose proof (Rmin_r (m11 * m11) (4 * (z0 * z0))) as R1.
  cbn in O00, O11, O01, T, D0, D1, E0, E1. unfold qr_err, sq_err, col_ip2 in E0, E1. cbn in E0, E1.
  destruct (tri2 z0 p q x0 y0 x1 y1 m00 m01 m11) as (-> & -> & -> & -> & -> & -> & ->); auto; try lra; try nra.
  subst m10. cbn [nc]. rewrite pivots2 by lra. reflexivity.
Qed.

Lemma line_lq core (p q : R) : 6 * z0 < p -> 6 * z0 < q ->
  checked z0 nr (hlq lineV z0 lorth zline) core (mkq (U := lineU) 2 1 [(p, 0); (0, q)]) (repeat 0 4) =
    Ok (mkq (U := lineU) 2 1 [(1, 0); (0, 1)], [p; 0; 0; q]).
Proof.
  intros Hp Hq. assert (Hz : 0 < z0) by (unfold z0; lra).
  destruct (C36_householder_lq_partial lineV z0 line_orth zline (mkq (U := lineU) 2 1 [(p, 0); (0, q)]) (repeat 0 4) line_laws Hz
     (line_orth_ok 2 ltac:(lia)) eq_refl ltac:(cbn; lia) eq_refl) as (Q & M & E & (I1 & I2 & I3 & I4 & I5) & D & ER).
  unfold checked, hlq, lorth. rewrite E. cbn [obind].
  destruct Q as [r c fs]. destruct I1 as (S1 & S2 & S3). cbn in S1, S2. subst r c. unfold qwf in S3. cbn in S3.
  destruct fs as [|[x0 y0] [|[x1 y1] [|]]]; try discriminate.
  cbn [nr] in I2. destruct M as [|m00 [|m10 [|m01 [|m11 [|]]]]]; try discriminate.
  pose proof (I3 0%nat 0%nat ltac:(cbn; lia) ltac:(cbn; lia)) as O00. pose proof (I3 1%nat 1%nat ltac:(cbn; lia) ltac:(cbn; lia)) as O11.
  pose proof (I3 0%nat 1%nat ltac:(cbn; lia) ltac:(cbn; lia)) as O01.
  pose proof (I4 1%nat 0%nat ltac:(cbn; lia)) as T.
  pose proof (D 0%nat ltac:(cbn; lia)) as D0. pose proof (D 1%nat ltac:(cbn; lia)) as D1.
  pose proof (ER 0%nat ltac:(cbn; lia)) as E0. pose proof (ER 1%nat ltac:(cbn; lia)) as E1.
  assert (X0 : 2 * z0 <= m00 -> p = m00 * x0 /\ 0 = m00 * y0).
  { intros H. pose proof (I5 0%nat 0%nat fst ltac:(cbn; lia) ltac:(cbn; lia) (conj line_fst (or_introl H))) as A1.
    pose proof (I5 0%nat 0%nat snd ltac:(cbn; lia) ltac:(cbn; lia) (conj line_snd (or_introl H))) as A2. cbn in A1, A2. split; lra. }
  assert (X1 : 2 * z0 <= m11 -> 0 = m10 * x0 + m11 * x1 /\ q = m10 * y0 + m11 * y1).
  { intros H. pose proof (I5 0%nat 1%nat fst ltac:(cbn; lia) ltac:(cbn; lia) (conj line_fst (or_introl H))) as A1.
    pose proof (I5 0%nat 1%nat snd ltac:(cbn; lia) ltac:(cbn; lia) (conj line_snd (or_introl H))) as A2. cbn in A1, A2. split; lra. }
  pose proof (Rmin_r (m00 * m00) (4 * (z0 * z0))) as R0. pose proof (Rmin_r (m11 * m11) (4 * (z0 * z0))) as R1.
  cbn in O00, O11, O01, T, D0, D1, E0, E1. unfold lq_err, sq_err, row_ip2 in E0, E1. cbn in E0, E1.
  destruct (tri2 z0 p q x0 y0 x1 y1 m00 m10 m11) as (-> & -> & -> & -> & -> & -> & ->); auto; try lra; try nra.
  subst m01. cbn [nr]. rewrite pivots2 by lra. reflexivity.
Qed.

(** ** A run *)
(** f(x,y) = 1/25 + 3/100 x y, of norm 1/20 in the inner product of [lineU]. *)
Definition rt : ftrain lineU :=
  mkft (U := lineU) 2 [1; 2; 1]%nat [mkq (U := lineU) 1 2 [(1 / 25, 0); (0, 3 / 100)]; mkq (U := lineU) 2 1 [(1, 0); (0, 1)]].
Definition lineK : uctor lineU :=
  mkuctor Rring lineU (fun _ c => (c, 0)) (fun _ a b => (b, a)) (fun _ _ _ => (0, 0)) (fun _ => (0, 0)) (fun _ _ => (0, 0)).

Lemma rt_wf : ft_wf rt.
Proof. unfold ft_wf. cbn. unfold qwf. cbn. repeat split; lia. Qed.
Lemma rt_norm : ip rt rt = 1 / 400.
Proof. unfold ip, train_inner. cbn. unfold tsum, tprod. cbn. field. Qed.
Lemma rt_sqrt : sqrt (Rabs (ip rt rt)) = 1 / 20.
Proof. rewrite rt_norm, Rabs_right by lra. replace (1 / 400) with ((1 / 20) * (1 / 20)) by field. apply sqrt_square. lra. Qed.

(** The orthogonalisation leaves this train as it is. *)
Lemma rt_orthor : ft_orthor (checked z0 nr (hlq lineV z0 lorth zline)) rt = Ok rt.
Proof.
  unfold ft_orthor. cbn [rt ft_dim ft_ranks ft_cores]. cbn [aget nth_error obind Nat.sub nr].
  change (2 * 2)%nat with 4%nat. rewrite line_lq by (unfold z0; lra). cbn [obind].
  cbn [aset repeat length Nat.ltb Nat.leb obind upd for_from]. cbn.
  unfold for_from. cbn. unfold rt.
  replace (1 * (1 / 25) + (0 * 0 + 0)) with (1 / 25) by ring. replace (1 * 0 + (0 * (3 / 100) + 0)) with 0 by ring.
  replace (0 * (1 / 25) + (1 * 0 + 0)) with 0 by ring. replace (0 * 0 + (1 * (3 / 100) + 0)) with (3 / 100) by ring. reflexivity.
Qed.

Lemma HO2 : forall core n, (n <= 2)%nat -> orth_ok (lorth core) zline n.
Proof. intros core n Hn. apply line_orth_ok. exact Hn. Qed.
Lemma z0_pos : 0 < z0.
Proof. unfold z0. lra. Qed.
Lemma rt_bounded : bounded 2 rt.
Proof. intros c [<-|[<-|[]]]; cbn; lia. Qed.

Lemma svd2_law' : svd_law 2 True svd2.
Proof. intros n a Hn Ha. destruct (svd2_law n a Hn Ha) as [H|[_ []]]; auto. Qed.

(** Rounded to accuracy 1/10, a rank one train comes out. *)
Lemma rt_round : exists g h : lineU,
  ft_round_gen svd2 (checked z0 nc (hqr lineV z0 lorth zline)) (checked z0 nr (hlq lineV z0 lorth zline)) lineK z0 None rt (1 / 10) =
    Ok (mkft (U := lineU) 2 [1; 1; 1]%nat [mkq (U := lineU) 1 1 [g]; mkq (U := lineU) 1 1 [h]]).
Proof.
  set (A := mkq (U := lineU) 1 2 [(1 / 25, 0); (0, 3 / 100)]). set (G := mkq (U := lineU) 2 1 [(1, 0); (0, 1)]).
  pose proof line_laws as (Sy & _ & _).
  assert (HQ : exists Q M, checked z0 nc (hqr lineV z0 lorth zline) 0 A (repeat 0 (nc A * nc A)) = Ok (Q, M) /\
     is_qr (fun _ => good lineV) A Q (repeat 0 (nc A * nc A)%nat) M).
  { destruct (checked_qr lineV z0 lorth zline 2 line_laws z0_pos HO2 0%nat A eq_refl ltac:(cbn; lia) ltac:(cbn; lia)) as [H|[H _]]; [exact H|].
    change (nc A * nc A)%nat with 4%nat in H. unfold A in H. rewrite line_qr in H by (unfold z0; lra). discriminate. }
  destruct (round_step_ok (good lineV) (good_inner lineV line_laws line_lin_l) (fun phi H => proj1 H) Sy svd2 _ 2 False svd2_law
     None (1 / 200) 0 A G 2 eq_refl ltac:(cbn; lia) ltac:(cbn; lia) eq_refl eq_refl eq_refl ltac:(discriminate) (or_introl HQ))
    as [(rank & Ua & temp & w & V & E & ST & RU)|[_ []]].
  assert (rank = 1)%nat.
  { pose proof (st_rank _ _ _ _ _ _ _ _ ST) as Hr. cbn in Hr. assert (Hr' : (rank = 1 \/ rank = 2)%nat) by lia. destruct Hr' as [->| ->]; [reflexivity|exfalso].
    destruct RU as [[[_ [H|H]]|H] _]; try discriminate.
    pose proof (st_AA _ _ _ _ _ _ _ _ ST 0%nat 0%nat ltac:(cbn; lia) ltac:(cbn; lia)) as A0.
    pose proof (st_AA _ _ _ _ _ _ _ _ ST 1%nat 1%nat ltac:(cbn; lia) ltac:(cbn; lia)) as A1.
    pose proof (st_V _ _ _ _ _ _ _ _ ST 0%nat 0%nat ltac:(cbn; lia) ltac:(cbn; lia)) as V0.
    pose proof (st_V _ _ _ _ _ _ _ _ ST 1%nat 1%nat ltac:(cbn; lia) ltac:(cbn; lia)) as V1.
    unfold col_ip2 in A0, A1. cbn in A0, A1, V0, V1. unfold dropped in H. cbn in H.
    assert (w 0%nat * w 0%nat * (V 0%nat 0%nat * V 0%nat 0%nat + V 0%nat 1%nat * V 0%nat 1%nat) +
            w 1%nat * w 1%nat * (V 1%nat 0%nat * V 1%nat 0%nat + V 1%nat 1%nat * V 1%nat 1%nat) = 1 / 400) by lra.
    replace (V 0%nat 0%nat * V 0%nat 0%nat + V 0%nat 1%nat * V 0%nat 1%nat) with 1 in H0 by lra.
    replace (V 1%nat 0%nat * V 1%nat 0%nat + V 1%nat 1%nat * V 1%nat 1%nat) with 1 in H0 by lra.
    pose proof (Rle_0_sqr (w 0%nat)) as Q0. unfold Rsqr in Q0. lra. }
  subst rank.
  pose proof (st_U _ _ _ _ _ _ _ _ ST) as WU. pose proof (st_T _ _ _ _ _ _ _ _ ST) as WT.
  pose proof (st_Unr _ _ _ _ _ _ _ _ ST) as U1. pose proof (st_Unc _ _ _ _ _ _ _ _ ST) as U2.
  pose proof (st_Tnr _ _ _ _ _ _ _ _ ST) as T1. pose proof (st_Tnc _ _ _ _ _ _ _ _ ST) as T2.
  destruct Ua as [ur uc uf]. destruct temp as [tr tc tf]. cbn in U1, U2, T1, T2. subst ur uc tr tc.
  unfold qwf in WU, WT. cbn in WU, WT. destruct uf as [|g [|]]; try discriminate. destruct tf as [|h [|]]; try discriminate.
  exists g, h. unfold ft_round_gen, ft_norm2.
  assert (Llr : law_inner_lin_r lineU) by (eapply inner_lin_r_of; [exact line_laws|exact line_lin_l]).
  rewrite ft_inner_ok by (auto using rt_wf). cbn [obind].
  change (train_inner (R := Rring) rt rt) with (ip rt rt). rewrite rt_sqrt.
  destruct (Rltb_spec (1 / 20) z0) as [H|_]; [unfold z0 in H; lra|].
  replace (ft_copy rt) with (Ok rt) by reflexivity. cbn [obind].
  rewrite ft_inner_ok by (auto using rt_wf). cbn [obind].
  change (train_inner (R := Rring) rt rt) with (ip rt rt). rewrite rt_sqrt.
  replace (1 / 20 * (1 / 10) / sqrt (INR (ft_dim rt - 1))) with (1 / 200) by (cbn; rewrite sqrt_1; field).
  rewrite rt_orthor. cbn [obind]. cbn [rt ft_dim ft_ranks ft_cores]. cbn [aset repeat length Nat.add Nat.ltb Nat.leb obind upd aget nth_error].
  fold A. change (nc A) with 2%nat. fold G. rewrite E. cbn [obind]. reflexivity.
Qed.

Theorem C69_round_refuted : exists (U : uops Rring) (W : vops U) zro zt orth uz (K : uctor U) svdf N (a : ftrain U) epsilon b,
  inner_laws W /\ law_inner_lin_l U /\ 0 < zro /\ (forall core n, (n <= N)%nat -> orth_ok (orth core) uz n) /\
  svd_law N True svdf /\ ft_wf a /\ (2 <= ft_dim a)%nat /\ bounded N a /\ 0 < epsilon < 1 /\ 0 < zt <= sqrt (Rabs (ip a a)) /\
  function_train_round W zro zt orth uz K svdf a epsilon = Ok b /\
  6 * (epsilon * sqrt (ip a a)) <= sqrt (dist2 a b).
Proof.
  destruct rt_round as (g & h & E).
  exists lineU, lineV, z0, z0, lorth, zline, lineK, svd2, 2%nat, rt, (1 / 10). eexists.
  split; [exact line_laws|]. split; [exact line_lin_l|]. split; [exact z0_pos|]. split; [exact HO2|]. split; [exact svd2_law'|].
  split; [exact rt_wf|]. split; [cbn; lia|]. split; [exact rt_bounded|]. split; [lra|]. split; [rewrite rt_sqrt; unfold z0; lra|].
  destruct (C69_round_partial lineV z0 z0 lorth zline lineK svd2 2 rt (1 / 10) _ line_laws line_lin_l z0_pos HO2 svd2_law' rt_wf
     ltac:(cbn; lia) rt_bounded ltac:(lra) ltac:(rewrite rt_sqrt; unfold z0; lra) E) as (E' & (_ & _ & _ & _ & CO & AB & _) & _).
  split; [exact E'|].
  pose proof rt_sqrt as RS. rewrite rt_norm, Rabs_right in RS by lra. rewrite rt_norm, RS.
  destruct g as [g1 g2]. destruct h as [h1 h2].
  specialize (CO 0%nat _ ltac:(cbn; lia) eq_refl 0%nat 0%nat ltac:(cbn; lia) ltac:(cbn; lia)). unfold col_ip in CO. cbn in CO.
  unfold dist2. rewrite AB, rt_norm. match type of AB with _ = ?x => set (n := x) in * end.
  assert (Hn : n = h1 * h1 + h2 * h2).
  { unfold n, ip, train_inner. cbn. unfold tsum, tprod. cbn.
    transitivity ((g1 * g1 + g2 * g2) * (h1 * h1 + h2 * h2)); [ring|]. replace (g1 * g1 + g2 * g2) with 1 by lra. ring. }
  assert (Ha : n = 1 / 25 * g1 * h1 + 3 / 100 * g2 * h2).
  { rewrite <- AB. unfold ip, train_inner. cbn. unfold tsum, tprod. cbn. field. }
  clearbody n.
  assert (H1 : n * n <= ((1 / 25 * g1) * (1 / 25 * g1) + (3 / 100 * g2) * (3 / 100 * g2)) * n).
  { rewrite Ha at 1 2. rewrite Hn. pose proof (Rle_0_sqr (1 / 25 * g1 * h2 - 3 / 100 * g2 * h1)) as H. unfold Rsqr in H. nra. }
  assert (H2 : (1 / 25 * g1) * (1 / 25 * g1) + (3 / 100 * g2) * (3 / 100 * g2) <= 1 / 625) by nra.
  assert (H3 : 0 <= n) by nra.
  assert (H4 : n <= 1 / 625).
  { destruct (Rle_or_lt n (1 / 625)) as [H|H]; [exact H|]. nra. }
  apply Rsqr_incr_0_var; [|apply sqrt_pos]. rewrite Rsqr_sqrt by lra. unfold Rsqr. lra.
Qed.
Print Assumptions C69_round_refuted.

(** The run meets the hypotheses of the positive theorems. *)
Example C69_round_example : exists b, function_train_round lineV z0 z0 lorth zline lineK svd2 rt (1 / 10) = Ok b /\
  ft_ranks b = [1; 1; 1]%nat /\ round_spec None rt b /\ dist2 rt b <= 1 / 200.
Proof.
  destruct rt_round as (g & h & E). eexists.
  destruct (C69_round_partial lineV z0 z0 lorth zline lineK svd2 2 rt (1 / 10) _ line_laws line_lin_l z0_pos HO2 svd2_law' rt_wf
     ltac:(cbn; lia) rt_bounded ltac:(lra) ltac:(rewrite rt_sqrt; unfold z0; lra) E) as (E' & S1 & S2).
  split; [exact E'|]. split; [reflexivity|]. split; [exact S1|].
  pose proof rt_sqrt as RS. rewrite rt_norm, Rabs_right in RS by lra. rewrite rt_norm, RS in S2. change (INR (ft_dim rt - 1)) with 1 in S2. rewrite sqrt_1 in S2. lra.
Qed.
Example C69_orthor_example : ft_orthor (hlq lineV z0 lorth zline) rt = Ok rt.
Proof.
  apply (C69_orthor_partial lineV z0 lorth zline 2 rt rt line_laws line_lin_l z0_pos HO2 rt_wf ltac:(cbn; lia) rt_bounded rt_orthor).
Qed.

(** ** One dimension *)
Lemma freeze_length {A} (l : list (option A)) l' : freeze l = Ok l' -> length l' = length l.
Proof.
  revert l'; induction l as [|[x|] l IH]; intros l' H; cbn in H; try discriminate.
  - now injection H as <-.
  - destruct (freeze l) as [r| | |]; cbn in H; try discriminate. injection H as <-. cbn. now rewrite (IH r).
Qed.

(** A train of one variable is never rounded: the code reads the core after the last one. *)
Theorem C69_round_dim1 {U : uops Rring} svdf qr lq (K : uctor U) zt cap (a : ftrain U) epsilon b :
  law_inner_lin_r U -> law_inner_sym U -> ft_wf a -> ft_dim a = 1%nat -> zt <= sqrt (Rabs (ip a a)) ->
  ft_round_gen svdf qr lq K zt cap a epsilon <> Ok b.
Proof.
  intros Llr Lsy Wa Hd Hz H. unfold ft_round_gen, ft_norm2 in H. rewrite ft_inner_ok in H by auto. cbn [obind] in H.
  change (train_inner (R := Rring) a a) with (ip a a) in H. destruct (Rltb_spec (sqrt (Rabs (ip a a))) zt) as [N|_]; [lra|].
  rewrite (ft_copy_ok (R := Rring) a Wa) in H. cbn [obind] in H. rewrite ft_inner_ok in H by auto. cbn [obind] in H.
  destruct (ft_orthor lq a) as [ftrl| | |] eqn:EO; try discriminate. cbn [obind] in H.
  assert (HL : length (ft_cores ftrl) = 1%nat).
  { unfold ft_orthor in EO. rewrite Hd in EO. cbn [Nat.sub for_from] in EO.
    destruct (aget (ft_cores a) 0) as [c| | |]; try discriminate. cbn [obind] in EO.
    destruct (lq 0%nat c (repeat 0 (nr c * nr c))) as [[Q L]| | |]; try discriminate. cbn in EO.
    unfold for_from in EO. cbn in EO.
    destruct (aget (ft_ranks a) 1) as [r| | |]; try discriminate. cbn [obind] in EO.
    destruct (qmam c L r) as [t| | |]; try discriminate. cbn in EO. injection EO as <-. reflexivity. }
  destruct (aset (repeat 0%nat (ft_dim a + 1)) 0 1%nat) as [rk| | |]; try discriminate. cbn [obind] in H.
  destruct (aget (ft_cores ftrl) 0) as [g0| | |]; try discriminate. cbn [obind] in H.
  assert (EN : aget (ft_cores ftrl) 1 = UB). { unfold aget. replace (nth_error (ft_cores ftrl) 1) with (@None (qma U)); [reflexivity|]. symmetry. apply nth_error_None. lia. }
  rewrite EN in H. unfold round_step in H.
  destruct (qmarray_truncated_svd _ _ _ _ _) as [[[[rank Ua] s] vt]| | |]; try discriminate. cbn [obind] in H.
  destruct (cap_rank _ _ _ _ _) as [[[rank' Ua'] vt']| | |]; try discriminate. cbn [obind] in H.
  destruct (diag _ _) as [sd| | |]; try discriminate. cbn [obind] in H.
  destruct (dgemm_nn _ _ _ _ _ _ _ _ _) as [svt| | |]; discriminate.
Qed.
Print Assumptions C69_round_dim1.
