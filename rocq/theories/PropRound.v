(** C69: rounding of function trains. *)
From Coq Require Import Reals Lra.
From Verif Require Import FTInt FTCtor FTCtorVal RoundMono.
From Verif Require Export RoundRun Svd2.
Open Scope R_scope.

(** ** Specification *)
Section Spec.
  Context {U : uops Rring}.
  Definition ip (a b : ftrain U) : R := train_inner (R := Rring) a b.
  (** Squared distance of two trains. *)
  Definition dist2 (a b : ftrain U) : R := ip a a - 2 * ip a b + ip b b.

  (** [b] is a good rounding of [a]. *)
  Definition round_spec (cap : option nat) (a : ftrain U) (b : ftrain U) : Prop :=
    ft_wf b /\ ft_dim b = ft_dim a /\
    Forall2 (fun r r0 => 1 <= r <= r0)%nat (ft_ranks b) (ft_ranks a) /\
    (forall mx k r, cap = Some mx -> (0 < k < ft_dim a)%nat -> nth_error (ft_ranks b) k = Some r -> (r <= mx)%nat) /\
    (forall k c, (k + 1 < ft_dim a)%nat -> nth_error (ft_cores b) k = Some c ->
       forall i j, (i < nc c)%nat -> (j < nc c)%nat -> col_ip c i j = if (i =? j)%nat then 1 else 0) /\
    ip a b = ip b b /\ 0 <= ip b b <= ip a a.

  (** Functionals that tell apart only what the inner product tells apart. *)
  Definition good (W : vops U) (phi : U -> R) : Prop :=
    linfun (R := Rring) phi /\ vlin W phi /\ (forall f : U, (uinner f f : R) = 0 -> phi f = 0).
End Spec.

Lemma Forall2_nth {A B} (Q : A -> B -> Prop) l l' : length l = length l' ->
  (forall k x y, nth_error l k = Some x -> nth_error l' k = Some y -> Q x y) -> Forall2 Q l l'.
Proof.
  revert l'; induction l as [|x l IH]; intros [|y l'] HL H; try discriminate; constructor.
  - apply (H 0%nat); reflexivity.
  - apply IH; [now injection HL|]. intros k. apply (H (S k)).
Qed.

Section Main.
  Context {U : uops Rring} (P : (U -> R) -> Prop).
  Hypothesis Pin : forall g : U, P (fun f => (uinner f g : R)).
  Hypothesis Sym : forall f g : U, (uinner f g : R) = uinner g f.
  Hypothesis Pos : forall f : U, 0 <= (uinner f f : R).

  Lemma ip_v2 (a b : ftrain U) : ft_wf a -> ft_wf b -> ft_dim a = ft_dim b -> ip a b = v2 (ft_cores a) (ft_cores b) 0 0.
  Proof.
    intros Wa Wb Hd. unfold ip. rewrite train_inner_val2 by auto. symmetry.
    pose proof Wa as (La & _). pose proof Wb as (Lb & _). rewrite La.
    rewrite v2_val2 by congruence. reflexivity.
  Qed.

  Lemma ranks_le (A : qma U) (Gs outs : list (qma U)) : chain (nc A) Gs 1 -> chain (nr A) outs 1 ->
    Forall2 (fun c d => 1 <= nc c <= nr d)%nat (removelast outs) Gs -> outs <> [] ->
    Forall2 (fun r r0 => 1 <= r <= r0)%nat (map nc outs) (map nc (A :: Gs)).
  Proof.
    revert A outs; induction Gs as [|G Gs IH]; intros A outs HA HO HF Hne.
    - destruct outs as [|o [|o' outs]]; [congruence| |inversion HF].
      cbn in HA, HO. destruct HO as (_ & _ & _ & Hp & H1). cbn. rewrite HA, H1. constructor; [lia|constructor].
    - destruct outs as [|o outs]; [congruence|]. destruct outs as [|o' outs]; [inversion HF|].
      change (removelast (o :: o' :: outs)) with (o :: removelast (o' :: outs)) in HF.
      inversion HF as [|? ? ? ? H1 H2]; subst. destruct HA as (HA1 & HA2 & HA3 & HA4 & HA5).
      destruct HO as (HO1 & HO2 & HO3 & HO4 & HO5).
      cbn [map]. constructor; [lia|]. 
      assert (HO6 : chain (nr o') (o' :: outs) 1). { destruct HO5 as (E & HO5). cbn. split; [reflexivity|exact HO5]. }
      clear - IH HA5 HO6 H2. specialize (IH (mkq (nr o') (nc G) (fs G)) (o' :: outs)). cbn [nc nr map] in IH.
      apply IH; auto. discriminate.
  Qed.

  Lemma sweep_pos rule A Gs outs dd : sweep P rule A Gs outs dd -> chain (nr A) outs 1 -> 0 <= tr (nr A) (v2 outs outs).
  Proof.
    induction 1 as [A|A G Gs rank Ua temp w V outs dd S Ru Sw IH]; intros Ch.
    - destruct Ch as (_ & Hw & _ & _ & H1). cbn in H1. apply rsum_pos. intros i Hi. cbn [v2]. rewrite H1. cbn [rsum].
      unfold ent2. destruct (entry A i 0) as [f|]; [|cbn; lra]. specialize (Pos f). cbn in *. lra.
    - rewrite (tr_UU P _ _ _ _ _ _ _ outs S). destruct Ch as (_ & _ & _ & _ & Ch).
      rewrite (st_Unc _ _ _ _ _ _ _ _ S), <- (st_Tnr _ _ _ _ _ _ _ _ S) in Ch. rewrite <- (st_Tnr _ _ _ _ _ _ _ _ S). auto.
  Qed.

  (** What the sweep says about the trains. *)
  Lemma round_spec_of_sweep cap delta (a : ftrain U) G0 Gs outs dd :
    ft_wf a -> (2 <= ft_dim a)%nat ->
    let b := mkft (ft_dim a) (1%nat :: map nc outs) outs in
    ft_wf b -> sweep P (rank_rule cap delta) G0 Gs outs dd -> chain 1 (G0 :: Gs) 1 -> (forall c, In c Gs -> row_orth c) ->
    map nc (G0 :: Gs) = map nc (ft_cores a) ->
    (forall ds, length ds = ft_dim a -> forall l, v2 (ft_cores a) ds 0 l = v2 (G0 :: Gs) ds 0 l) ->
    round_spec cap a b /\ ip a a = ip b b + dd /\ 0 <= dd /\
    (cap = None -> 0 < delta -> dd <= INR (ft_dim a - 1) * delta).
  Proof.
    intros Wa Hd b Wb SW Ch RO Mnc V2.
    pose proof Wa as (La & _ & Ra & _). pose proof Wb as (Lb & _ & _ & Cb). cbn [ft_cores ft_dim b] in Lb, Cb.
    pose proof Ch as (C1 & C2 & C3 & C4 & C5).
    destruct (sweep_traces P Pin Sym _ _ _ _ _ SW C5 RO) as [T1 T2]. rewrite C1 in T1, T2. unfold tr in T1, T2. cbn [rsum] in T1, T2.
    assert (LG : length (G0 :: Gs) = ft_dim a). { apply (f_equal (@length nat)) in Mnc. rewrite !map_length in Mnc. lia. }
    assert (Eab : ip a b = v2 (G0 :: Gs) outs 0 0).
    { rewrite ip_v2 by auto. cbn [ft_cores b]. apply V2. lia. }
    assert (Ebb : ip b b = v2 outs outs 0 0) by (rewrite ip_v2 by auto; reflexivity).
    assert (Eaa : ip a a = v2 (G0 :: Gs) (G0 :: Gs) 0 0).
    { rewrite ip_v2 by auto. rewrite V2 by lia. rewrite v2_sym by exact Sym. apply V2. lia. }
    pose proof (sweep_dropped_pos P _ _ _ _ _ SW) as Hdd.
    destruct (sweep_chain P _ _ _ _ _ SW C2 C3 C4 C5) as [CH F2].
    assert (Hbb : 0 <= ip b b).
    { rewrite Ebb.
      assert (H : 0 <= tr (nr G0) (v2 outs outs)) by (eapply sweep_pos; eauto; rewrite C1; exact Cb).
      rewrite C1 in H. unfold tr in H. cbn in H. lra. }
    split; [|split; [lra|split; [exact Hdd|]]].
    - split; [exact Wb|]. split; [reflexivity|]. split; [|split; [|split; [|split; [lra|lra]]]].
      + rewrite Ra, <- Mnc. cbn [ft_ranks b]. constructor; [lia|]. apply ranks_le; auto. eapply sweep_ne; eauto.
      + intros mx k r -> Hk Hr. cbn [ft_ranks b] in Hr. destruct k as [|k]; [lia|]. cbn in Hr.
        assert (F : Forall (fun c => (nc c <= mx)%nat) (removelast outs)).
        { apply (sweep_ranks P _ _ _ _ _ (fun r => (r <= mx)%nat) SW). intros n rank w [_ H]. now apply H. }
        rewrite nth_error_map in Hr. destruct (nth_error outs k) as [c|] eqn:E; [|discriminate]. injection Hr as <-.
        rewrite Forall_forall in F. apply F. 
        rewrite (app_removelast_last c) in E by (eapply sweep_ne; eauto).
        rewrite nth_error_app1 in E; [eapply nth_error_In; eauto|].
        assert (length outs = (length (removelast outs) + 1)%nat).
        { rewrite (app_removelast_last c) at 1 by (eapply sweep_ne; eauto). rewrite app_length. reflexivity. }
        lia.
      + intros k c Hk Ek. cbn [ft_cores b] in Ek. apply (sweep_cols P _ _ _ _ _ SW k c); [|exact Ek]. cbn in LG. lia.
    - intros -> Hdel. pose proof (sweep_dropped P _ _ _ _ _ delta SW) as HD.
      replace (ft_dim a - 1)%nat with (length Gs) by (cbn in LG; lia). apply HD.
      intros n rank w [[[[->|H] _]|H] _]; [|lra|discriminate]. unfold dropped. rewrite Nat.sub_diag. cbn. lra.
  Qed.
End Main.

(** ** Rounding with exact factorisations *)
(** [fail] says that a factorisation or the singular value decomposition may refuse; with
    fail = False the rounding always returns. *)
Theorem C69_round_exact {U : uops Rring} (P : (U -> R) -> Prop) svdf qr lq N fail (K : uctor U) zt cap (a : ftrain U) epsilon :
  (forall g : U, P (fun f => (uinner f g : R))) -> (forall phi, P phi -> linfun (R := Rring) phi) ->
  (forall f g : U, (uinner f g : R) = uinner g f) -> (forall f : U, 0 <= (uinner f f : R)) -> law_inner_lin_r U ->
  svd_law N fail svdf -> qr_law P N fail qr -> lq_law P N fail lq ->
  ft_wf a -> (2 <= ft_dim a)%nat -> bounded N a -> (forall mx, cap = Some mx -> (0 < mx)%nat) ->
  0 < epsilon -> 0 < zt <= sqrt (Rabs (ip a a)) ->
  (exists b, ft_round_gen svdf qr lq K zt cap a epsilon = Ok b /\ round_spec cap a b /\
     (cap = None -> dist2 a b <= sqrt (INR (ft_dim a - 1)) * epsilon * sqrt (ip a a))) \/
  (ft_round_gen svdf qr lq K zt cap a epsilon = Abort /\ fail).
Proof.
  intros Pin Plin Sym Pos Llin Hsvd Hqr Hlq Wa Hd HB Hcap He Hz.
  destruct (round_gen_ok P Pin Plin Sym svdf qr lq N fail Hsvd Hqr Hlq K zt Llin cap a epsilon Wa Hd HB Hcap)
    as [[H _]|[(_ & G0 & Gs & outs & dd & E & _ & Wb & SW & Ch & RO & Mnc & V2)|(_ & E & F)]].
  - exfalso. unfold ip in Hz. lra.
  - left. eexists. split; [exact E|].
    destruct (round_spec_of_sweep P Pin Sym Pos cap _ a G0 Gs outs dd Wa Hd Wb SW Ch RO Mnc V2) as (S1 & S2 & S3 & S4).
    split; [exact S1|]. intros ->. unfold dist2. destruct S1 as (_ & _ & _ & _ & _ & Eab & Hb).
    change (train_inner (R := Rring) a a) with (ip a a) in *. rewrite Rabs_right in * by lra.
    set (n := sqrt (ip a a)) in *.
    assert (Hq : 0 < INR (ft_dim a - 1)) by (apply lt_0_INR; lia).
    pose proof (sqrt_lt_R0 _ Hq) as Hs.
    assert (0 < n * epsilon / sqrt (INR (ft_dim a - 1))).
    { apply Rdiv_lt_0_compat; auto. apply Rmult_lt_0_compat; lra. }
    specialize (S4 eq_refl H). rewrite <- (sqrt_sqrt (INR (ft_dim a - 1))) in S4 at 1 by lra.
    replace (sqrt (INR (ft_dim a - 1)) * sqrt (INR (ft_dim a - 1)) * (n * epsilon / sqrt (INR (ft_dim a - 1))))
      with (sqrt (INR (ft_dim a - 1)) * epsilon * n) in S4 by (field; lra). lra.
  - right. auto.
Qed.
Print Assumptions C69_round_exact.

(** ** Rounding with the Householder factorisations of the library *)
(** A factorisation that refuses when a pivot lies strictly between 0 and twice ZERO. *)
Definition pivots_ok (zro : R) (n : nat) (M : list R) : bool :=
  forallb (fun i => Rleb (mat n M i i) 0 || Rleb (2 * zro) (mat n M i i)) (seq 0 n).
Definition checked {U : uops Rring} (zro : R) (size : qma U -> nat)
    (f : nat -> qma U -> list R -> outcome (qma U * list R)) (core : nat) (A : qma U) (M : list R) : outcome (qma U * list R) :=
  do (Q, M') <- f core A M;
  if pivots_ok zro (size A) M' then Ok (Q, M') else Abort.

Lemma checked_ref {U : uops Rring} zro size (f : nat -> qma U -> list R -> outcome (qma U * list R)) c A M :
  ref (checked zro size f c A M) (f c A M).
Proof.
  unfold checked, ref. intros [Q M']. destruct (f c A M) as [[Q0 M0]| | |]; cbn [obind]; try discriminate.
  destruct (pivots_ok zro (size A) M0); try discriminate. congruence.
Qed.

Section Householder.
  Context {U : uops Rring} (W : vops U) (zro zt : R) (orth : nat -> nat -> list U) (uz : U) (K : uctor U).
  Context (svdf : nat -> nat -> list R -> outcome (list R * list R * list R)) (N : nat).
  Hypothesis LAW : inner_laws W.
  Hypothesis Ll : law_inner_lin_l U.
  Hypothesis Hz : 0 < zro.
  Hypothesis HO : forall core n, (n <= N)%nat -> orth_ok (orth core) uz n.

  Lemma good_inner (g : U) : good W (fun f => (uinner f g : R)).
  Proof.
    split; [apply Ll|]. destruct LAW as (L1 & L2 & L3). split; [apply L2|].
    intros f Hf. apply (ip_null_lin U (fun x y : U => (uinner x y : R)) (vaxpy W) (vscale W) (vflip W) (vwsum W) L1 L2 L3 g f Hf).
  Qed.

  Lemma pivots_at M n (phi : U -> R) : pivots_ok zro n M = true -> (forall i, (i < n)%nat -> 0 <= mat n M i i) -> good W phi ->
    forall j, (j < n)%nat -> exact_at W zro (fun j => mat n M j j) j phi.
  Proof.
    intros Hp H0 (_ & G2 & G3) j Hj. unfold pivots_ok in Hp. rewrite forallb_forall in Hp.
    specialize (Hp j ltac:(apply in_seq; lia)). apply orb_true_iff in Hp. split; [exact G2|].
    specialize (H0 j Hj). destruct Hp as [Hp|Hp].
    - destruct (Rleb_spec (mat n M j j) 0) as [H|H]; [|discriminate]. right. split; [lra|exact G3].
    - destruct (Rleb_spec (2 * zro) (mat n M j j)) as [H|H]; [|discriminate]. now left.
  Qed.

  Lemma checked_qr : qr_law (good W) N True (checked zro nc (hqr W zro orth uz)).
  Proof.
    intros core A Hw Hr Hc.
    destruct (C36_householder_qr_partial W zro (orth core) uz A (repeat 0 (nc A * nc A)%nat) LAW Hz (HO core (nc A) ltac:(lia)) Hw Hr (repeat_length _ _))
      as (Q & M & E & I & D & _).
    unfold checked, hqr. rewrite E. cbn [obind]. destruct (pivots_ok zro (nc A) M) eqn:EP; [left|right; auto].
    exists Q, M. split; [reflexivity|]. destruct I as (I1 & I2 & I3 & I4 & I5).
    split; [exact I1|]. split; [exact I2|]. split; [exact I3|]. split; [exact I4|].
    intros k j phi Hk Hj Hg. apply I5; auto. now apply pivots_at.
  Qed.
  Lemma checked_lq : lq_law (good W) N True (checked zro nr (hlq W zro orth uz)).
  Proof.
    intros core A Hw Hr Hc.
    destruct (C36_householder_lq_partial W zro (orth core) uz A (repeat 0 (nr A * nr A)%nat) LAW Hz (HO core (nr A) ltac:(lia)) Hw Hc (repeat_length _ _))
      as (Q & M & E & I & D & _).
    unfold checked, hlq. rewrite E. cbn [obind]. destruct (pivots_ok zro (nr A) M) eqn:EP; [left|right; auto].
    exists Q, M. split; [reflexivity|]. destruct I as (I1 & I2 & I3 & I4 & I5).
    split; [exact I1|]. split; [exact I2|]. split; [exact I3|]. split; [exact I4|].
    intros k j phi Hk Hj Hg. apply I5; auto. now apply pivots_at.
  Qed.
End Householder.

Lemma inner_lin_r_of {U : uops Rring} (W : vops U) : inner_laws W -> law_inner_lin_l U -> law_inner_lin_r U.
Proof.
  intros (Sy & _) Ll g. destruct (Ll g) as (L1 & L2 & L3).
  assert (Sy' : forall f h : U, uinner f h = uinner h f) by (intros; apply Sy).
  split; [|split].
  - intros. rewrite Sy'. rewrite L1. now rewrite Sy'.
  - intros. rewrite Sy'. rewrite L2. now rewrite (Sy' f g), (Sy' g0 g).
  - intros l. rewrite Sy'. rewrite L3. f_equal. apply map_ext. intros p. now rewrite Sy'.
Qed.

(** If every pivot of the factorisations made on the way is 0 or at least twice ZERO, then
    function_train_round returns the rounding described by [round_spec], and the squared
    error is at most sqrt(d-1) * epsilon * norm.  The full statement, error at most
    epsilon * norm, is refuted below. *)
Theorem C69_round_partial {U : uops Rring} (W : vops U) zro zt orth uz (K : uctor U) svdf N (a : ftrain U) epsilon b :
  inner_laws W -> law_inner_lin_l U -> 0 < zro -> (forall core n, (n <= N)%nat -> orth_ok (orth core) uz n) ->
  svd_law N True svdf -> ft_wf a -> (2 <= ft_dim a)%nat -> bounded N a ->
  0 < epsilon -> 0 < zt <= sqrt (Rabs (ip a a)) ->
  ft_round_gen svdf (checked zro nc (hqr W zro orth uz)) (checked zro nr (hlq W zro orth uz)) K zt None a epsilon = Ok b ->
  function_train_round W zro zt orth uz K svdf a epsilon = Ok b /\ round_spec None a b /\
  dist2 a b <= sqrt (INR (ft_dim a - 1)) * epsilon * sqrt (ip a a).
Proof.
  intros LAW Ll Hz HO Hs Wa Hd HB He Hzt E. pose proof LAW as (Sy & _ & Po).
  assert (Llr : law_inner_lin_r U) by (eapply inner_lin_r_of; eauto).
  split.
  { unfold function_train_round. eapply ref_round; [| |exact E]; intros; apply checked_ref. }
  destruct (C69_round_exact (good W) svdf _ _ N True K zt None a epsilon (good_inner W LAW Ll) (fun phi H => proj1 H) Sy Po Llr Hs
    (checked_qr W zro orth uz N LAW Hz HO) (checked_lq W zro orth uz N LAW Hz HO) Wa Hd HB ltac:(discriminate) He Hzt)
    as [(b' & E' & S1 & S2)|[E' _]]; [|congruence].
  assert (b' = b) by congruence. subst b'. auto.
Qed.
Print Assumptions C69_round_partial.

(** The same with a bound on the ranks. *)
Theorem C69_round_maxrank_partial {U : uops Rring} (W : vops U) zro zt orth uz (K : uctor U) svdf N (a : ftrain U) epsilon mx b :
  inner_laws W -> law_inner_lin_l U -> 0 < zro -> (forall core n, (n <= N)%nat -> orth_ok (orth core) uz n) ->
  svd_law N True svdf -> ft_wf a -> (2 <= ft_dim a)%nat -> bounded N a -> (0 < mx)%nat ->
  0 < epsilon -> 0 < zt <= sqrt (Rabs (ip a a)) ->
  ft_round_gen svdf (checked zro nc (hqr W zro orth uz)) (checked zro nr (hlq W zro orth uz)) K zt (Some mx) a epsilon = Ok b ->
  function_train_round_maxrank_all W zro zt orth uz K svdf a epsilon mx = Ok b /\ round_spec (Some mx) a b.
Proof.
  intros LAW Ll Hz HO Hs Wa Hd HB Hm He Hzt E. pose proof LAW as (Sy & _ & Po).
  assert (Llr : law_inner_lin_r U) by (eapply inner_lin_r_of; eauto).
  split.
  { unfold function_train_round_maxrank_all. eapply ref_round; [| |exact E]; intros; apply checked_ref. }
  destruct (C69_round_exact (good W) svdf _ _ N True K zt (Some mx) a epsilon (good_inner W LAW Ll) (fun phi H => proj1 H) Sy Po Llr Hs
    (checked_qr W zro orth uz N LAW Hz HO) (checked_lq W zro orth uz N LAW Hz HO) Wa Hd HB ltac:(intros ? [= <-]; exact Hm) He Hzt)
    as [(b' & E' & S1 & _)|[E' _]]; [|congruence].
  assert (b' = b) by congruence. subst b'. auto.
Qed.
Print Assumptions C69_round_maxrank_partial.

(** Below the threshold the result is the constant 0. *)
Theorem C69_round_zero {U : uops Rring} svdf qr lq (K : uctor U) zt cap (a : ftrain U) epsilon dom :
  law_const K dom -> law_inner_lin_r U -> law_inner_sym U -> ft_wf a -> sqrt (Rabs (ip a a)) < zt ->
  exists b, ft_round_gen svdf qr lq K zt cap a epsilon = Ok b /\ ft_wf b /\ ft_dim b = ft_dim a /\
    forall x, in_dom dom (ft_dim a) x -> train_value (R := Rring) b x = 0.
Proof.
  intros HK Llr Lsy Wa Hn. pose proof Wa as (_ & Hd & _).
  destruct (constant_ok (R := Rring) K dom (ft_dim a) 1 0 HK Hd) as (b & E & Wb & Db & Vb).
  exists b. split.
  - unfold ft_round_gen, ft_norm2. rewrite ft_inner_ok by auto. cbn [obind]. unfold ip in Hn.
    destruct (Rltb_spec (sqrt (Rabs (train_inner (R := Rring) a a))) zt) as [_|N]; [exact E|]. exfalso. apply N. exact Hn.
  - split; [exact Wb|]. split; [exact Db|]. intros x Hx. rewrite (Vb x Hx). cbn. destruct (ft_dim a) as [|d]; [lia|]. cbn. ring.
Qed.
Print Assumptions C69_round_zero.

(** Right orthogonalisation keeps the function and makes all cores but the first have
    orthonormal rows. *)
Theorem C69_orthor_partial {U : uops Rring} (W : vops U) zro orth uz N (a : ftrain U) b :
  inner_laws W -> law_inner_lin_l U -> 0 < zro -> (forall core n, (n <= N)%nat -> orth_ok (orth core) uz n) ->
  ft_wf a -> (2 <= ft_dim a)%nat -> bounded N a ->
  ft_orthor (checked zro nr (hlq W zro orth uz)) a = Ok b ->
  ft_orthor (hlq W zro orth uz) a = Ok b /\ ft_wf b /\ ft_dim b = ft_dim a /\ ft_ranks b = ft_ranks a /\
  (forall k c, (0 < k < ft_dim a)%nat -> nth_error (ft_cores b) k = Some c ->
     forall i j, (i < nr c)%nat -> (j < nr c)%nat -> row_ip c i j = if (i =? j)%nat then 1 else 0) /\
  (forall hs, Forall (good W) hs -> length hs = ft_dim a ->
     tsum (R := Rring) hs (terms (ft_cores b) 0) = tsum (R := Rring) hs (terms (ft_cores a) 0)) /\
  (forall h : ftrain U, ft_wf h -> ft_dim h = ft_dim a -> ip b h = ip a h).
Proof.
  intros LAW Ll Hz HO Wa Hd HB E. pose proof LAW as (Sy & _ & Po). pose proof Wa as (La & _ & Ra & Ca).
  split. { eapply ref_orthor; [|exact E]. intros; apply checked_ref. }
  destruct (orthor_ok (good W) (good_inner W LAW Ll) (fun phi H => proj1 H) _ N True (checked_lq W zro orth uz N LAW Hz HO) a Wa Hd HB)
    as [(G0 & Gs & E' & Mnc & Ch & RO & V1 & V2)|[E' _]]; [|congruence].
  rewrite E' in E. injection E as <-. cbn [ft_cores ft_dim ft_ranks].
  assert (LG : length (G0 :: Gs) = ft_dim a). { apply (f_equal (@length nat)) in Mnc. rewrite !map_length in Mnc. lia. }
  assert (Wb : ft_wf (mkft (ft_dim a) (ft_ranks a) (G0 :: Gs))).
  { split; [|split; [|split]]; cbn [ft_dim ft_cores ft_ranks]; [lia|lia|rewrite Ra; f_equal; symmetry; exact Mnc|exact Ch]. }
  split; [exact Wb|]. split; [reflexivity|]. split; [reflexivity|]. split; [|split].
  - intros k c Hk Ek. destruct k as [|k]; [lia|]. cbn in Ek. apply RO. eapply nth_error_In; eauto.
  - intros hs Hg Hl. rewrite !tsum_val by (etransitivity; [exact Hl|]; first [exact La|exact (eq_sym La)|exact (eq_sym LG)]). rewrite <- !va_val. symmetry. now apply V1.
  - intros h Wh Hh. pose proof Wh as (Lh & _).
    rewrite !ip_v2 by auto. symmetry. apply V2. lia.
Qed.
Print Assumptions C69_orthor_partial.
