(** Further facts about function-train evaluation: many points, the stack
    buffer, and the one-dimensional sum. *)
From Verif Require Export FTInt.

Section FTMore.
  Context {R : CRing} {U : uops R}.
  Open Scope cr_scope.
  Add Ring Rr9 : (rth R).

  Lemma aget_firstn {A} (l : list A) d i : i < d -> aget (firstn d l) i = aget l i.
  Proof.
    unfold aget. revert d i; induction l as [|a l IH]; intros [|d] [|i] Hi; simpl; auto; try lia.
    apply IH; lia.
  Qed.

  Lemma ft_eval_firstn (f : ftrain U) w (x : list R) :
    0 < ft_dim f -> ft_eval f w x = ft_eval f w (firstn (ft_dim f) x).
  Proof.
    intros Hd. unfold ft_eval. rewrite aget_firstn by auto.
    destruct (aget (ft_ranks f) 0) as [r| | |]; cbn [obind]; auto.
    destruct (cassert (r =? 1)); cbn [obind]; auto.
    destruct (aget (ft_ranks f) (ft_dim f)) as [r'| | |]; cbn [obind]; auto.
    destruct (cassert (r' =? 1)); cbn [obind]; auto.
    destruct (get_maxrank f) as [mr| | |]; cbn [obind]; auto.
    destruct (aget (ft_cores f) 0) as [c0| | |]; cbn [obind]; auto.
    destruct (aget x 0) as [x0| | |]; cbn [obind]; auto.
    destruct (eval2 _ _ _ _) as [t1| | |]; cbn [obind]; auto.
    match goal with |- obind ?m1 ?k = obind ?m2 _ => assert (E : m1 = m2); [|now rewrite E] end.
    apply for_from_ext. intros i [[[s1 s2] s3] o] Hi. rewrite aget_firstn by lia. reflexivity.
  Qed.

  Theorem ft_evals_correct (f : ftrain U) (w : wspace R) N (x evals : list R) :
    ft_wf f -> ft_small f -> ws_wf w -> N * ft_dim f <= length x -> length evals = N ->
    exists w', ft_evals f w N x evals
      = Ok (tab N (fun n => train_value f (firstn (ft_dim f) (skipn (n * ft_dim f) x))), w')
      /\ ws_wf w'.
  Proof.
    intros Wf Sf Ww Hx Hl. unfold ft_evals.
    set (T := fun n => train_value f (firstn (ft_dim f) (skipn (n * ft_dim f) x))).
    assert (Hd : 0 < ft_dim f) by apply Wf.
    match goal with |- context [for_ N ?bd ?s] =>
      destruct (for_inv (fun n (st : list R * wspace R) =>
        length (fst st) = N /\ ws_wf (snd st) /\ forall k, k < n -> nth_error (fst st) k = Some (T k)) bd N s)
        as [[e w'] [EL (L & W & HI)]] end.
    - cbn. repeat split; auto; try apply Ww. intros k Hk; lia.
    - intros n [e w1] Hn (L & W & HI). cbn [fst snd] in *.
      rewrite ft_eval_firstn by auto.
      destruct (ft_eval_correct f w1 (firstn (ft_dim f) (skipn (n * ft_dim f) x))) as (w2 & E2 & W2); auto.
      { rewrite firstn_length, skipn_length. nia. }
      rewrite E2. cbn [obind]. rewrite aset_ok by lia. cbn [obind].
      eexists; split; [reflexivity|]. cbn [fst snd]. rewrite upd_length. split; [auto|]. split; [auto|].
      intros k Hk. rewrite nth_error_upd by lia. destruct (Nat.eqb_spec n k) as [->|Hne]; [reflexivity|].
      apply HI; lia.
    - cbn [fst snd] in *. rewrite EL. exists w'. split; auto.
      assert (e = tab N T) as -> by (apply tab_eq_intro; auto). reflexivity.
  Qed.

  (** More than 1000 polynomials overflow the stack buffer. *)
  Lemma eval2_scan_overflow (f : list U) n ii :
    ii <= 1000 < ii + n ->
    (forall k, k <= 1000 -> exists g, nth_error f k = Some g /\ uispoly g = true) ->
    eval2_scan n ii f = UB.
  Proof.
    revert ii; induction n as [|n IH]; intros ii Hi H; [lia|].
    cbn [eval2_scan]. destruct (H ii) as (g & Eg & Pg); [lia|].
    rewrite (aget_ok _ _ _ Eg). cbn [obind]. rewrite Pg.
    destruct (Nat.ltb_spec ii 1000); auto. apply IH; auto. lia.
  Qed.

  Theorem eval2_overflow n (f : list U) x out :
    1000 < n ->
    (forall k, k <= 1000 -> exists g, nth_error f k = Some g /\ uispoly g = true) ->
    eval2 n f x out = UB.
  Proof. intros Hn H. unfold eval2. rewrite eval2_scan_overflow; auto. lia. Qed.

  (** Within the limit the buffer holds the values and nothing else changes. *)
  Theorem eval2_value n (f : list U) x (out : list R) :
    n <= length f -> n <= length out ->
    (n <= 1000 \/ exists k g, k < 1000 /\ nth_error f k = Some g /\ uispoly g = false) ->
    exists out', eval2 n f x out = Ok out' /\ length out' = length out /\
      (forall k g, k < n -> nth_error f k = Some g -> nth_error out' k = Some (uev g x)) /\
      (forall k, n <= k -> nth_error out' k = nth_error out k).
  Proof.
    intros Hf Ho Hs. rewrite eval2_loop by auto.
    pose (T := fun k => match nth_error f k with Some g => uev g x | None => r0 end).
    destruct (wr_for T (fun i k => i = k) (fun ii out => do g <- aget f ii; aset out ii (uev g x)) n out)
      as (l' & El & W).
    { intros i l Hi HL. destruct (aget_lt f i) as (g & Eg & Ag); [lia|]. rewrite Ag. cbn [obind].
      apply wr_aset; [lia|]. unfold T. now rewrite Eg. }
    exists l'. split; [exact El|]. destruct W as (W1 & W2 & W3 & W4). split; [auto|]. split.
    - intros k g Hk Eg. rewrite W3 by (exists k; auto). unfold T. now rewrite Eg.
    - intros k Hk. apply W4. intros (i & Hi & ->). lia.
  Qed.

  (** In one dimension the sum of two trains is not a train: evaluation aborts. *)
  Theorem ft_sum_dim1 (a b : ftrain U) :
    ft_wf a -> ft_wf b -> ft_dim a = 1 -> ft_dim b = 1 ->
    exists c, ft_sum a b = Ok c /\ forall w x, ft_eval c w x = Abort.
  Proof.
    intros Wa Wb Da Db. unfold ft_sum. rewrite Da, Db.
    destruct (wf_core a 0 Wa) as (a0 & Ea0 & Wa0 & Pa0 & Qa0 & Ra0 & Sa0); [lia|].
    destruct (wf_core b 0 Wb) as (b0 & Eb0 & Wb0 & Pb0 & Qb0 & Rb0 & Sb0); [lia|].
    assert (Na0 : nr a0 = 1) by (rewrite (wf_rank0 a Wa) in Ra0; congruence).
    assert (Nb0 : nr b0 = 1) by (rewrite (wf_rank0 b Wb) in Rb0; congruence).
    pose proof (wf_rankd a Wa) as Ma. rewrite Da, Sa0 in Ma.
    pose proof (wf_rankd b Wb) as Mb. rewrite Db, Sb0 in Mb.
    rewrite (aget_ok _ _ _ Ea0), (aget_ok _ _ _ Eb0). cbn [obind].
    rewrite qmarray_stackh_ok by (auto; congruence). cbn [obind].
    cbn [repeat aset length Nat.ltb Nat.leb upd obind Nat.add].
    rewrite (aget_ok _ _ _ Ra0). cbn [obind aset length Nat.ltb Nat.leb upd Nat.sub for_from].
    rewrite (aget_ok _ _ _ Ra0), (aget_ok _ _ _ Rb0). cbn [obind aset length Nat.ltb Nat.leb upd].
    rewrite (aget_ok _ _ _ Ea0), (aget_ok _ _ _ Eb0). cbn [obind].
    destruct (qmarray_stackv_ok a0 b0 Wa0 Wb0) as (cl & Ecl & _); [congruence|].
    rewrite Ecl. cbn [obind aset length Nat.ltb Nat.leb upd].
    rewrite (aget_ok _ _ _ Sa0). cbn [obind aset length Nat.ltb Nat.leb upd freeze].
    eexists; split; [reflexivity|]. intros w x.
    eapply ft_eval_abort; [reflexivity|reflexivity|]. left. lia.
  Qed.
End FTMore.

Section InnerBilinear.
  Context {R : CRing} {U : uops R}.
  Open Scope cr_scope.
  Add Ring Rr10 : (rth R).

  Lemma terms_length {V : Type} (cs : list (qma V)) i t : In t (terms cs i) -> length t = length cs.
  Proof.
    revert i t; induction cs as [|c cs IH]; intros i t H; simpl in H.
    - destruct H as [<-|[]]. reflexivity.
    - apply in_flat_map in H. destruct H as (j & _ & H).
      destruct (entry c i j); [|contradiction].
      apply in_map_iff in H. destruct H as (t' & <- & H). simpl. f_equal. eauto.
  Qed.

  Lemma train_inner_sym (a b : ftrain U) :
    law_inner_sym U -> ft_wf a -> ft_wf b -> ft_dim a = ft_dim b ->
    train_inner a b = train_inner b a.
  Proof.
    intros HS Wa Wb Hd. rewrite !train_inner_val2 by (auto; congruence).
    destruct (wf_lens a Wa) as [La _]. destruct (wf_lens b Wb) as [Lb _].
    rewrite val2_swap by congruence. rewrite <- Hd. apply val2_ext; [|now rewrite !repeat_length].
    intros n k k' E1 E2 f g.
    apply nth_error_In in E1. apply repeat_spec in E1. subst k.
    apply nth_error_In in E2. apply repeat_spec in E2. subst k'. apply HS.
  Qed.

  (** Linearity of the inner product in its second argument, for any train [s]
      whose functionals are linear combinations. *)
  Lemma train_inner_lin (a b s g : ftrain U) (x y : R) :
    law_inner_lin_r U -> ft_wf a -> ft_wf b -> ft_wf s -> ft_wf g ->
    ft_dim a = ft_dim g -> ft_dim b = ft_dim g -> ft_dim s = ft_dim g ->
    (forall hs, length hs = ft_dim g -> (forall h, In h hs -> linfun h) ->
       val hs (ft_cores s) 0 = x *! val hs (ft_cores a) 0 +! y *! val hs (ft_cores b) 0) ->
    train_inner g s = x *! train_inner g a +! y *! train_inner g b.
  Proof.
    intros HL Wa Wb Ws Wg Da Db Ds H. unfold train_inner.
    rewrite <- !lsum_map_scal, <- lsum_map_add. f_equal. apply map_ext_in. intros t Ht.
    apply terms_length in Ht.
    destruct (wf_lens a Wa) as [La _]. destruct (wf_lens b Wb) as [Lb _].
    destruct (wf_lens s Ws) as [Ls _]. destruct (wf_lens g Wg) as [Lg _].
    rewrite !tsum_val by (rewrite map_length; congruence).
    apply H; [rewrite map_length; congruence|].
    intros h Hh. apply in_map_iff in Hh. destruct Hh as (u & <- & _). apply HL.
  Qed.

  Theorem inner_sum (a b g : ftrain U) :
    law_inner_lin_r U -> ft_wf a -> ft_wf b -> ft_wf g ->
    ft_dim a = ft_dim g -> ft_dim b = ft_dim g -> 2 <= ft_dim g ->
    exists s, ft_sum a b = Ok s /\ train_inner g s = train_inner g a +! train_inner g b.
  Proof.
    intros HL Wa Wb Wg Da Db H2.
    destruct (ft_sum_ok a b Wa Wb) as (s & Es & Ws & Ds & Hs); [congruence|lia|].
    exists s; split; auto.
    rewrite (train_inner_lin a b s g r1 r1); auto; try congruence.
    - ring.
    - intros hs Lh Hh. rewrite Hs by (auto; congruence). ring.
  Qed.

  Theorem inner_scale (a g : ftrain U) (x : R) :
    law_inner_lin_r U -> ft_wf a -> ft_wf g -> ft_dim a = ft_dim g ->
    exists s, ft_scale a x = Ok s /\ train_inner g s = x *! train_inner g a.
  Proof.
    intros HL Wa Wg Da.
    destruct (ft_scale_ok a x Wa) as (s & Es & Ws & Ds & Rs & Hs).
    exists s; split; auto.
    rewrite (train_inner_lin a a s g x r0); auto; try congruence.
    - ring.
    - intros hs Lh Hh. rewrite Hs by (auto; congruence). ring.
  Qed.
End InnerBilinear.
