(** Values of the trains built by the constructors. *)
From Coq Require Import Reals.
From Verif Require Import FTCtor FTEval RealInst.
Close Scope R_scope.

Section Val.
  Context {R : CRing} {U : uops R} (K : uctor U).
  Open Scope cr_scope.
  Add Ring Rr13 : (rth R).

  Lemma rankone_wf d (f : nat -> U) : 0 < d -> ft_wf (tft d (fun _ => 1) (fun k => mkq 1 1 [f k])).
  Proof.
    intros Hd. apply tft_wf; auto. intros k Hk. unfold qwf. simpl. repeat split; lia.
  Qed.

  Lemma rankone_ok d :
    0 < d ->
    exists f, ft_rankone K d = Ok f /\ ft_wf f /\ ft_dim f = d /\
      forall x, length x = d ->
        train_value f x = lprod (tab d (fun k => uev (uappr K k k) (nth k x r0))).
  Proof.
    intros Hd. rewrite ft_rankone_ok. eexists. split; [reflexivity|].
    split; [now apply rankone_wf|]. split; [reflexivity|]. intros x Hx. now apply rankone_value.
  Qed.

  Lemma initsum_ok (dom : nat -> R -> Prop) d :
    law_const K dom -> 2 <= d ->
    exists f, ft_initsum K d = Ok f /\ ft_wf f /\ ft_dim f = d /\
      forall x, in_dom dom d x ->
        train_value f x = sum d (fun k => uev (uappr K k k) (nth k x r0)).
  Proof.
    intros HL Hd. rewrite ft_initsum_ok by auto. eexists. split; [reflexivity|].
    split; [now apply sumcore_wf|]. split; [reflexivity|]. intros x [Hx HD].
    apply sumcore_value; auto; intros; apply HL, HD; lia.
  Qed.

  Lemma zero_train_value d r (C : nat -> qma U) x :
    0 < d -> length x = d -> r 0 = 1 ->
    (forall k i j, k < d -> ent (fun g : U => uev g (nth k x r0)) (C k) i j = r0) ->
    train_value (tft d r C) x = r0.
  Proof.
    intros Hd Hx _ H. rewrite tft_value by auto. rewrite pv_step by lia.
    apply sum_zero_ext. intros j Hj. rewrite H by lia. ring.
  Qed.

  Lemma zeros_ok (dom : nat -> R -> Prop) d ranks :
    law_zero K dom -> 0 < d -> length ranks = d + 1 ->
    (forall r, In r ranks -> 0 < r) -> nth 0 ranks 0 = 1 -> nth d ranks 0 = 1 ->
    exists f, ft_zeros K d ranks = Ok f /\ ft_wf f /\ ft_dim f = d /\ ft_ranks f = ranks /\
      forall x, in_dom dom d x -> train_value f x = r0.
  Proof.
    intros HL Hd Hlen Hpos H0 Hdd. rewrite ft_zeros_ok by lia.
    eexists. split; [reflexivity|].
    assert (Hn : forall k, k <= d -> 0 < nth k ranks 0).
    { intros k Hk. apply Hpos. apply nth_In. lia. }
    split; [|split; [reflexivity|split]].
    - apply tft_wf; auto. intros k Hk. unfold qwf. cbn [nr nc fs].
      rewrite repeat_length. replace (k + 1) with (S k) by lia. repeat split; auto; apply Hn; lia.
    - unfold tft. cbn [ft_ranks]. rewrite <- Hlen. symmetry. apply list_eq_tab_nth.
    - intros x [Hx HD]. apply zero_train_value; auto. intros k i j Hk. unfold ent, entry. cbn [nr fs].
      destruct (nth_error (repeat _ _) _) as [g|] eqn:E; auto.
      apply nth_error_In, repeat_spec in E. subst g. apply HL, HD, Hk.
  Qed.

  Lemma constant_ok (dom : nat -> R -> Prop) d (sign apow : R) :
    law_const K dom -> 0 < d ->
    exists f, ft_constant K sign apow d = Ok f /\ ft_wf f /\ ft_dim f = d /\
      forall x, in_dom dom d x -> train_value f x = sign *! lprod (repeat apow d).
  Proof.
    intros HL Hd. rewrite ft_constant_ok by auto. eexists. split; [reflexivity|].
    split; [now apply rankone_wf|]. split; [reflexivity|]. intros x [Hx HD].
    rewrite rankone_value by auto.
    destruct d as [|d]; [lia|]. cbn [tab seq map].
    unfold lprod at 1. cbn [fold_right]. rewrite HL by (apply HD; lia). simpl Nat.eqb. cbv iota.
    rewrite (map_ext_in _ (fun _ => apow)).
    2:{ intros k Hk. apply in_seq in Hk. rewrite HL by (apply HD; lia).
        destruct (Nat.eqb_spec k 0); [lia|reflexivity]. }
    assert (E : forall s n, map (fun _ : nat => apow) (seq s n) = repeat apow n).
    { intros s n. revert s. induction n as [|n IH]; intros s; simpl; auto. now rewrite IH. }
    rewrite E. simpl repeat. unfold lprod. simpl. ring.
  Qed.

  Lemma linear_ok (dom : nat -> R -> Prop) d c ldc a lda :
    law_const K dom -> law_linear K dom -> 2 <= d ->
    (d - 1) * ldc < length c -> (d - 1) * lda < length a ->
    exists f, ft_linear K c ldc a lda d = Ok f /\ ft_wf f /\ ft_dim f = d /\
      forall x, in_dom dom d x ->
        train_value f x
        = sum d (fun k => nth (k * ldc) c r0 *! nth k x r0 +! nth (k * lda) a r0).
  Proof.
    intros HL HLl Hd Hc Ha.
    rewrite (ft_linear_ok K c ldc a lda d (fun k => nth (k * ldc) c r0) (fun k => nth (k * lda) a r0)); auto.
    2,3: intros k Hk; apply nth_error_nth'; nia.
    eexists. split; [reflexivity|].
    split; [now apply sumcore_wf|]. split; [reflexivity|]. intros x [Hx HD].
    rewrite sumcore_value; auto; try (intros; apply HL, HD; lia).
    apply sum_ext. intros k Hk. now apply HLl, HD.
  Qed.

  Lemma rankone_prod_ok (dom : nat -> R -> Prop) d c :
    law_linear K dom -> 2 <= d -> d <= length c ->
    exists f, ft_rankone_prod K c d = Ok f /\ ft_wf f /\ ft_dim f = d /\
      forall x, in_dom dom d x ->
        train_value f x = lprod (tab d (fun k => nth k c r0 *! nth k x r0)).
  Proof.
    intros HL Hd Hc.
    rewrite (ft_rankone_prod_ok K c d (fun k => nth k c r0)); auto.
    2: intros k Hk; apply nth_error_nth'; lia.
    eexists. split; [reflexivity|]. split; [apply rankone_wf; lia|]. split; [reflexivity|].
    intros x [Hx HD]. rewrite rankone_value by auto. f_equal. apply tab_ext.
    intros k Hk. rewrite HL by now apply HD. ring.
  Qed.

  Lemma quadratic_aligned_ok (dom : nat -> R -> Prop) d c m :
    law_const K dom -> law_quad K dom -> 2 <= d -> d <= length c -> d <= length m ->
    exists f, ft_quadratic_aligned K c m d = Ok f /\ ft_wf f /\ ft_dim f = d /\
      forall x, in_dom dom d x -> dom (d - 2) (nth (d - 1) x r0) ->
        train_value f x
        = sum d (fun k => nth k c r0 *! ((nth k x r0 -! nth k m r0) *! (nth k x r0 -! nth k m r0))).
  Proof.
    intros HL HQ Hd Hc Hm.
    rewrite (ft_quadratic_aligned_ok K c m d (fun k => nth k c r0) (fun k => nth k m r0)); auto.
    2,3: intros k Hk; apply nth_error_nth'; lia.
    eexists. split; [reflexivity|]. split; [now apply sumcore_wf|]. split; [reflexivity|].
    intros x [Hx HD] HS.
    assert (HD' : forall k, k < d -> dom (if k =? d - 1 then d - 2 else k) (nth k x r0)).
    { intros k Hk. destruct (Nat.eqb_spec k (d - 1)) as [->|]; auto. }
    rewrite sumcore_value; auto; try (intros; apply HL; auto; apply HD; lia).
    apply sum_ext. intros k Hk. apply HQ. auto.
  Qed.

  Lemma quadratic_ok (dom : nat -> R -> Prop) d Q m :
    law_const K dom -> law_linear K dom -> law_quad K dom -> 2 <= d ->
    length Q = d * d -> length m = d ->
    exists f, ft_quadratic K Q m d = Ok f /\ ft_wf f /\ ft_dim f = d /\
      forall x, in_dom dom d x ->
        train_value f x
        = sum d (fun i => sum d (fun j =>
            nth (i * d + j) Q r0 *! ((nth i x r0 -! nth i m r0) *! (nth j x r0 -! nth j m r0)))).
  Proof.
    intros HL HLl HLq Hd HQ Hm. rewrite ft_quadratic_ok by auto.
    eexists. split; [reflexivity|]. split; [now apply qcore_wf|]. split; [reflexivity|].
    intros x HD. rewrite (quad_value K Q m d HQ Hm Hd dom x) by auto.
    unfold qform. rewrite Nat.sub_0_r. apply sum_ext; intros i Hi. apply sum_ext; intros j Hj.
    reflexivity.
  Qed.

  (** Dimension one: the last rank stays 0 and evaluation aborts. *)
  Lemma linear_dim1 (c0 a0 : R) c ldc a lda :
    exists f, ft_linear K (c0 :: c) ldc (a0 :: a) lda 1 = Ok f /\ forall w x, ft_eval f w x = Abort.
  Proof.
    eexists. split; [reflexivity|]. intros w x.
    eapply ft_eval_abort; [reflexivity|reflexivity|]. right. discriminate.
  Qed.

  Lemma quadratic_aligned_dim1 (c0 m0 : R) c m :
    exists f, ft_quadratic_aligned K (c0 :: c) (m0 :: m) 1 = Ok f /\ forall w x, ft_eval f w x = Abort.
  Proof.
    eexists. split; [reflexivity|]. intros w x.
    eapply ft_eval_abort; [reflexivity|reflexivity|]. right. discriminate.
  Qed.

  Lemma quadratic_dim1 Q m : ft_quadratic K Q m 1 = Abort.
  Proof. reflexivity. Qed.
  Lemma rankone_prod_dim1 c : ft_rankone_prod K c 1 = Abort.
  Proof. reflexivity. Qed.
End Val.

(** The constant train over the reals, with the root actually taken. *)
Lemma constant_real (U : uops Rring) (K : uctor U) dom d (a : R) :
  law_const K dom -> 0 < d ->
  exists f, ft_constant K (csign a : Rring) (croot a d) d = Ok f /\ ft_wf f /\ ft_dim f = d /\
    forall x, in_dom dom d x -> train_value f x = a.
Proof.
  intros HL Hd. destruct (constant_ok K dom d (csign a : Rring) (croot a d) HL Hd) as (f & E & W & D & H).
  exists f. repeat split; auto; try apply W. intros x Hx. rewrite H by auto. rewrite lprod_const.
  now apply croot_pow.
Qed.
