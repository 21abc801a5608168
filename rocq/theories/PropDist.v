(** C74: distances of function trains. *)
From Coq Require Import Reals Lra.
From Verif Require Import Base BaseFacts FTModel FTSpec FTFacts FTArith FTProd FTInt FTMore RoundModel PinvModel DistModel.
From Verif Require Import PropOrth PropRound PropRound2 PropMaxvol.
Open Scope R_scope.

Section C74.
  Context {U : uops Rring}.

  (** the difference of two trains, as the code computes it *)
  Lemma difference (a b : ftrain U) : law_inner_lin_r U -> law_inner_sym U -> ft_wf a -> ft_wf b -> ft_dim a = ft_dim b -> (2 <= ft_dim a)%nat ->
    exists c d, ft_copy b = Ok b /\ ft_scale b (-1 : Rring) = Ok c /\ ft_sum a c = Ok d /\ ft_wf c /\ ft_wf d /\ ft_dim c = ft_dim b /\ ft_dim d = ft_dim a /\
      ip c c = ip b b /\ ip d d = dist2 a b.
  Proof.
    intros HL HS Wa Wb Hd H2. destruct (ft_scale_ok (R := Rring) b (-1 : Rring) Wb) as (c & Ec & Wc & Dc & _).
    destruct (ft_sum_ok (R := Rring) a c Wa Wc ltac:(congruence) H2) as (d & Ed & Wd & Dd & _).
    exists c, d. split; [now apply ft_copy_ok|]. split; [exact Ec|]. split; [exact Ed|]. split; [exact Wc|]. split; [exact Wd|]. split; [exact Dc|]. split; [exact Dd|].
    assert (HC : forall g, ft_wf g -> ft_dim g = ft_dim b -> ip g c = - ip g b).
    { intros g Wg Dg. destruct (FTMore.inner_scale (R := Rring) b g (-1 : Rring) HL Wb Wg ltac:(congruence)) as (c' & Ec' & V). assert (c' = c) as -> by congruence.
      unfold ip. etransitivity; [exact V|]. cbn. ring. }
    assert (HD : forall g, ft_wf g -> ft_dim g = ft_dim b -> ip g d = ip g a + ip g c).
    { intros g Wg Dg. destruct (FTMore.inner_sum (R := Rring) a c g HL Wa Wc Wg ltac:(congruence) ltac:(congruence) ltac:(lia)) as (d' & Ed' & V). assert (d' = d) as -> by congruence. exact V. }
    assert (Sy : forall g h : ftrain U, ft_wf g -> ft_wf h -> ft_dim g = ft_dim h -> ip g h = ip h g).
    { intros g h Wg Wh Dgh. unfold ip. now apply (train_inner_sym (R := Rring)). }
    split.
    - rewrite (HC c Wc Dc), (Sy c b Wc Wb Dc), (HC b Wb eq_refl). ring.
    - rewrite (HD d Wd ltac:(congruence)), (Sy d a Wd Wa Dd), (HD a Wa Hd), (HC a Wa Hd).
      rewrite (Sy d c Wd Wc ltac:(congruence)), (HD c Wc ltac:(congruence)), (Sy c a Wc Wa ltac:(congruence)), (HC a Wa Hd), (HC c Wc Dc), (Sy c b Wc Wb Dc), (HC b Wb eq_refl).
      unfold dist2. ring.
  Qed.

  Lemma ip_inner (d : ftrain U) : law_inner_lin_r U -> law_inner_sym U -> ft_wf d -> ft_inner (R := Rring) d d = Ok (ip d d : Rring).
  Proof. intros. now apply (ft_inner_ok (R := Rring)). Qed.

  (** function_train_norm2diff returns the root of (a,a) - 2 (a,b) + (b,b), for trains of two
      or more variables. *)
  Theorem C74_norm2diff_partial (a b : ftrain U) : law_inner_lin_r U -> law_inner_sym U -> ft_wf a -> ft_wf b -> ft_dim a = ft_dim b -> (2 <= ft_dim a)%nat ->
    ft_norm2diff a b = Ok (sqrt (Rabs (dist2 a b))).
  Proof.
    intros HL HS Wa Wb Hd H2. destruct (difference a b HL HS Wa Wb Hd H2) as (c & d & E1 & E2 & E3 & Wc & Wd & _ & _ & _ & V).
    unfold ft_norm2diff. rewrite E1. cbn [obind]. rewrite E2. cbn [obind]. rewrite E3. cbn [obind]. unfold ft_norm2. rewrite (ip_inner d HL HS Wd). cbn [obind]. now rewrite V.
  Qed.

  (** function_train_relnorm2diff returns the distance divided by the norm of the second
      train, or the distance if that norm squared is at most the threshold. *)
  Theorem C74_relnorm2diff_partial zt (a b : ftrain U) : law_inner_lin_r U -> law_inner_sym U -> ft_wf a -> ft_wf b -> ft_dim a = ft_dim b -> (2 <= ft_dim a)%nat ->
    0 <= zt ->
    exists v, ft_relnorm2diff zt a b = Ok v /\
      (Rabs (ip b b) <= zt -> v = sqrt (Rabs (dist2 a b))) /\
      (zt < Rabs (ip b b) -> v * sqrt (Rabs (ip b b)) = sqrt (Rabs (dist2 a b))).
  Proof.
    intros HL HS Wa Wb Hd H2 Hz. destruct (difference a b HL HS Wa Wb Hd H2) as (c & d & E1 & E2 & E3 & Wc & Wd & _ & _ & Vc & V).
    unfold ft_relnorm2diff. rewrite E1. cbn [obind]. rewrite E2. cbn [obind]. rewrite (ip_inner c HL HS Wc). cbn [obind]. rewrite E3. cbn [obind]. rewrite (ip_inner d HL HS Wd). cbn [obind].
    eexists. split; [reflexivity|]. rewrite V, Vc. split; intros H.
    - now rewrite Rltb_f by exact H.
    - rewrite Rltb_t by exact H. rewrite <- sqrt_mult_alt by apply Rabs_pos. rewrite <- Rabs_mult. f_equal. f_equal. field.
      intros X. rewrite X, Rabs_R0 in H. lra.
  Qed.

  (** In one variable the sum is the column of both trains, and only its first entry is used:
      the distance of any train from itself is its norm. *)
  Theorem C74_dimension_one_refuted (a b : ftrain U) : ft_wf a -> ft_wf b -> ft_dim a = 1%nat -> ft_dim b = 1%nat ->
    ft_norm2diff a b = ft_norm2 a.
  Proof.
    intros Wa Wb Da Db. unfold ft_norm2diff. rewrite ft_copy_ok by exact Wb. cbn [obind].
    destruct (ft_scale_ok (R := Rring) b (-1 : Rring) Wb) as (c & Ec & Wc & Dc & _). rewrite Ec. cbn [obind]. rewrite Db in Dc.
    unfold ft_sum. rewrite Da, Dc.
    destruct (wf_core a 0 Wa) as (a0 & Ea0 & Wa0 & Pa0 & Qa0 & Ra0 & Sa0); [lia|].
    destruct (wf_core c 0 Wc) as (b0 & Eb0 & Wb0 & Pb0 & Qb0 & Rb0 & Sb0); [lia|].
    assert (Na0 : nr a0 = 1%nat) by (rewrite (wf_rank0 a Wa) in Ra0; congruence).
    assert (Nb0 : nr b0 = 1%nat) by (rewrite (wf_rank0 c Wc) in Rb0; congruence).
    pose proof (wf_rankd a Wa) as Ma. rewrite Da, Sa0 in Ma.
    pose proof (wf_rankd c Wc) as Mb. rewrite Dc, Sb0 in Mb.
    rewrite (aget_ok _ _ _ Ea0), (aget_ok _ _ _ Eb0). cbn [obind].
    rewrite qmarray_stackh_ok by (auto; congruence). cbn [obind].
    cbn [repeat aset length Nat.ltb Nat.leb upd obind Nat.add].
    rewrite (aget_ok _ _ _ Ra0). cbn [obind aset length Nat.ltb Nat.leb upd Nat.sub for_from].
    rewrite (aget_ok _ _ _ Ra0), (aget_ok _ _ _ Rb0). cbn [obind aset length Nat.ltb Nat.leb upd].
    rewrite (aget_ok _ _ _ Ea0), (aget_ok _ _ _ Eb0). cbn [obind].
    destruct (qmarray_stackv_ok (R := Rring) a0 b0 Wa0 Wb0) as (cl & Ecl & R1 & C1 & W1 & H1); [congruence|].
    rewrite Ecl. cbn [obind aset length Nat.ltb Nat.leb upd].
    rewrite (aget_ok _ _ _ Sa0). cbn [obind aset length Nat.ltb Nat.leb upd freeze].
    unfold ft_norm2, ft_inner. cbn [ft_dim ft_cores]. rewrite Da. cbn [Nat.eqb cassert obind aget nth_error Nat.sub for_from].
    rewrite (aget_ok _ _ _ Ea0). cbn [obind].
    destruct (qmarray_kron_integrate_ok (R := Rring) a0 a0 Wa0 Wa0) as (r1 & E1 & _ & V1).
    destruct (qmarray_kron_integrate_ok (R := Rring) cl cl W1 W1) as (r2 & E2 & _ & V2).
    rewrite E1, E2. cbn [obind].
    specialize (V1 0%nat 0%nat 0%nat 0%nat ltac:(lia) ltac:(lia) ltac:(lia) ltac:(lia)).
    specialize (V2 0%nat 0%nat 0%nat 0%nat ltac:(lia) ltac:(lia) ltac:(lia) ltac:(lia)). cbn [Nat.mul Nat.add] in V1, V2.
    rewrite (aget_ok _ _ _ V1), (aget_ok _ _ _ V2). cbn [obind]. f_equal. f_equal. f_equal.
    unfold ent2. rewrite (H1 0%nat 0%nat) by lia. rewrite (proj2 (Nat.ltb_lt _ _)) by lia. reflexivity.
  Qed.
End C74.
Print Assumptions C74_norm2diff_partial.
Print Assumptions C74_relnorm2diff_partial.
Print Assumptions C74_dimension_one_refuted.

(** ** The theorems apply: (1+2x)(1) and (1)(1+y), in two variables *)
Ltac wf_concrete := unfold ft_wf, chain, qwf; simpl; repeat split; auto; lia.
Definition da : ftrain lineU := mkft 2 [1; 1; 1]%nat [mkq 1 1 [(1, 2)]; mkq 1 1 [(1, 0)]].
Definition db : ftrain lineU := mkft 2 [1; 1; 1]%nat [mkq 1 1 [(1, 0)]; mkq 1 1 [(1, 1)]].
Lemma line_lin_r : law_inner_lin_r lineU.
Proof. exact (inner_lin_r_of lineV line_laws line_lin_l). Qed.
Lemma line_sym : law_inner_sym lineU.
Proof. intros f g. apply (proj1 line_laws). Qed.
Lemma da_wf : ft_wf da. Proof. wf_concrete. Qed.
Lemma db_wf : ft_wf db. Proof. wf_concrete. Qed.

(** their distance is the root of 5 - 2 + 2 *)
Example C74_example : ft_norm2diff da db = Ok (sqrt 5).
Proof.
  rewrite (C74_norm2diff_partial da db line_lin_r line_sym da_wf db_wf eq_refl ltac:(cbn; lia)). f_equal. f_equal.
  unfold dist2, ip. cbn. rewrite Rabs_pos_eq by lra. ring.
Qed.
(** relative to the second, whose norm squared is 2 *)
Example C74_rel_example : exists v, ft_relnorm2diff (1 / 10) da db = Ok v /\ v * sqrt 2 = sqrt 5.
Proof.
  destruct (C74_relnorm2diff_partial (1 / 10) da db line_lin_r line_sym da_wf db_wf eq_refl ltac:(cbn; lia) ltac:(lra)) as (v & E & _ & H).
  exists v. split; [exact E|]. replace 2 with (Rabs (ip db db)) by (unfold ip; cbn; rewrite Rabs_pos_eq by lra; ring).
  rewrite H; [f_equal; unfold dist2, ip; cbn; rewrite Rabs_pos_eq by lra; ring|]. unfold ip. cbn. rewrite Rabs_pos_eq by lra. lra.
Qed.
(** one variable: the distance of the constant 1 from itself *)
Definition d1 : ftrain lineU := mkft 1 [1; 1]%nat [mkq 1 1 [(1, 0)]].
Example C74_dimension_one_example : ft_norm2diff d1 d1 = Ok 1.
Proof.
  rewrite C74_dimension_one_refuted by (reflexivity || wf_concrete). unfold ft_norm2. cbn. f_equal. rewrite Rabs_pos_eq by lra.
  replace (1 * 1 + 0 * 0) with (1 * 1) by ring. apply sqrt_square. lra.
Qed.
