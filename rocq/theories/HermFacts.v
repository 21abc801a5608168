(** Hermite polynomials and the mean of the standard normal distribution. *)
From Coq Require Import Reals Lra Lia List.
From Verif Require Import Base BaseFacts RIntLib FFTCheb QuadFacts QuadMore OpeModel OpeSpec LegFacts.
Local Open Scope R_scope.

(** ** Polynomial functions *)
Definition polyf (f : R -> R) : Prop := exists l, forall x, f x = pe l x.
Lemma polyf_ext f g : (forall x, f x = g x) -> polyf f -> polyf g.
Proof. intros E [l L]. exists l. intros x. now rewrite <- E. Qed.
Lemma polyf_const c : polyf (fun _ => c).
Proof. exists (c :: nil). intros x. cbn. ring. Qed.
Lemma polyf_id : polyf (fun x => x).
Proof. exists (0 :: 1 :: nil). intros x. cbn. ring. Qed.
Lemma polyf_add f g : polyf f -> polyf g -> polyf (fun x => f x + g x).
Proof. intros [l L] [m M]. exists (padd l m). intros x. now rewrite pe_padd, L, M. Qed.
Lemma polyf_scal c f : polyf f -> polyf (fun x => c * f x).
Proof. intros [l L]. exists (map (Rmult c) l). intros x. now rewrite pe_scal, L. Qed.
Lemma polyf_x f : polyf f -> polyf (fun x => x * f x).
Proof. intros [l L]. exists (0 :: l). intros x. cbn. rewrite L. ring. Qed.
Lemma polyf_mult f g : polyf f -> polyf g -> polyf (fun x => f x * g x).
Proof.
  intros [l L] G. apply (polyf_ext (fun x => pe l x * g x)); [intros; now rewrite L|]. clear f L.
  induction l as [|c l IH].
  - apply (polyf_ext (fun _ => 0)); [intros; cbn; ring|apply polyf_const].
  - apply (polyf_ext (fun x => c * g x + x * (pe l x * g x))); [intros; cbn; ring|].
    apply polyf_add; [now apply polyf_scal|now apply polyf_x].
Qed.
Lemma polyf_cont f : polyf f -> continuity f.
Proof. intros [l L] x. apply (continuity_pt_locally_ext (pe l) f 1 x); [lra|intros; symmetry; apply L|apply pe_continuity]. Qed.

(** ** The weight *)
Definition gw (x : R) : R := exp (- (x * x) / 2).
Lemma gw_pos x : 0 < gw x. Proof. apply exp_pos. Qed.
Lemma gw_deriv x : derivable_pt_lim gw x (- x * gw x).
Proof.
  unfold gw. eapply deriv_val.
  - apply (derivable_pt_lim_comp (fun x => - (x * x) / 2) exp); [|apply derivable_pt_lim_exp].
    apply (derivable_pt_lim_ext (fun x => (- / 2) * (x * x))); [intros; field|].
    apply (derivable_pt_lim_scal (fun x => x * x)). apply (derivable_pt_lim_mult (fun x => x) (fun x => x)); apply derivable_pt_lim_id.
  - field.
Qed.
Lemma gw_cont : continuity gw.
Proof. intros x. apply derivable_continuous_pt. eexists. apply gw_deriv. Qed.

Lemma gw_pow k : exists B, forall x, Rabs x ^ k * gw x <= B.
Proof.
  set (m := S k). set (a := 2 * INR m). assert (Ha : 0 < a) by (unfold a, m; rewrite S_INR; pose proof (pos_INR k); lra).
  assert (E : forall x, Rabs x ^ (2 * m) * gw x <= a ^ m).
  { intros x.
    assert (G : (x * x / a) ^ m * gw x <= 1).
    { replace (gw x) with (/ (exp (x * x / a) ^ m)).
      - assert (P : 0 < exp (x * x / a)) by apply exp_pos. assert (P' : 0 < exp (x * x / a) ^ m) by (now apply pow_lt).
        apply Rmult_le_reg_r with (exp (x * x / a) ^ m); auto. rewrite Rmult_assoc, Rinv_l by lra. rewrite Rmult_1_l, Rmult_1_r.
        apply pow_incr. split.
        + apply Rmult_le_pos; [nra|]. apply Rlt_le, Rinv_0_lt_compat; auto.
        + pose proof (exp_ineq1_le (x * x / a)). lra.
      - 
        assert (forall n y, exp y ^ n = exp (INR n * y)) as EP.
        { intros n y. induction n as [|n IH]; [cbn; now rewrite Rmult_0_l, exp_0|]. rewrite S_INR. cbn [pow]. rewrite IH, <- exp_plus. f_equal. ring. }
        rewrite EP, <- exp_Ropp. unfold gw. f_equal. unfold a. field. unfold m. apply not_0_INR. lia. }
    assert (X : Rabs x ^ (2 * m) = (x * x / a) ^ m * a ^ m).
    { rewrite pow_mult, <- Rpow_mult_distr. f_equal. rewrite RPow_abs. cbn [pow]. rewrite Rabs_right; [field; lra|nra]. }
    rewrite X. assert (0 < a ^ m) by (now apply pow_lt).
    apply Rle_trans with ((x * x / a) ^ m * gw x * a ^ m); [right; ring|]. nra. }
  exists (1 + a ^ m). intros x.
  assert (L : Rabs x ^ k <= 1 + Rabs x ^ (2 * m)).
  { destruct (Rle_dec (Rabs x) 1) as [L|L].
    - assert (Rabs x ^ k <= 1) by (rewrite <- (pow1 k); apply pow_incr; split; [apply Rabs_pos|auto]).
      assert (0 <= Rabs x ^ (2 * m)) by (apply pow_le, Rabs_pos). lra.
    - assert (Rabs x ^ k <= Rabs x ^ (2 * m)) by (apply Rle_pow; [lra|unfold m; lia]). lra. }
  assert (gw x <= 1).
  { unfold gw. rewrite <- exp_0. destruct (Req_dec (x * x) 0) as [->|N]; [right; f_equal; field|]. apply Rlt_le, exp_increasing. nra. }
  pose proof (gw_pos x). specialize (E x).
  apply Rle_trans with ((1 + Rabs x ^ (2 * m)) * gw x); [apply Rmult_le_compat_r; lra|]. lra.
Qed.

Lemma gw_pe l : forall k, exists B, forall x, Rabs x ^ k * Rabs (pe l x) * gw x <= B.
Proof.
  induction l as [|c l IH]; intros k.
  - exists 0. intros x. cbn [pe]. rewrite Rabs_R0. lra.
  - destruct (IH (S k)) as [B HB]. destruct (gw_pow k) as [C HC]. exists (Rabs c * C + B). intros x. cbn [pe].
    specialize (HB x). specialize (HC x). cbn [pow] in HB. pose proof (gw_pos x). assert (0 <= Rabs x ^ k) by (apply pow_le, Rabs_pos).
    pose proof (Rabs_triang c (x * pe l x)) as T. rewrite Rabs_mult in T. pose proof (Rabs_pos c).
    assert (Rabs x ^ k * Rabs (c + x * pe l x) * gw x <= Rabs c * (Rabs x ^ k * gw x) + Rabs x * Rabs x ^ k * Rabs (pe l x) * gw x).
    { apply Rle_trans with (Rabs x ^ k * (Rabs c + Rabs x * Rabs (pe l x)) * gw x); [|right; ring].
      apply Rmult_le_compat_r; [lra|]. now apply Rmult_le_compat_l. }
    assert (Rabs c * (Rabs x ^ k * gw x) <= Rabs c * C) by (now apply Rmult_le_compat_l). lra.
Qed.

(** ** The mean of [f] under the standard normal distribution is [v] *)
Definition gauss_mean (f : R -> R) (v : R) : Prop :=
  forall eps, 0 < eps -> exists M0, forall M, M0 <= M -> exists i z,
    is_RInt (fun x => f x * exp (- (x * x) / 2)) (- M) M i /\ is_RInt (fun x => exp (- (x * x) / 2)) (- M) M z /\
    0 < z /\ Rabs (i / z - v) < eps.

(** [z] is bounded below *)
Lemma gw_mass : exists d, 0 < d /\ forall M, 1 <= M -> exists z, is_RInt gw (- M) M z /\ d <= z.
Proof.
  exists (2 * exp (- (1 * 1) / 2)). split; [pose proof (exp_pos (- (1 * 1) / 2)); lra|]. intros M HM.
  destruct (cont_RInt gw (-1) 1) as [z1 [p1 Z1]]; [lra|apply gw_cont|].
  destruct (cont_RInt gw (- M) (-1)) as [z0 [p0 Z0]]; [lra|apply gw_cont|].
  destruct (cont_RInt gw 1 M) as [z2 [p2 Z2]]; [lra|apply gw_cont|].
  exists (z0 + z1 + z2). split.
  - apply is_RInt_chasles with 1; [apply is_RInt_chasles with (-1)|]; eexists; eauto.
  - assert (A : forall a b (p : Riemann_integrable gw a b), a <= b -> 0 <= RiemannInt p).
    { intros a b p L. pose proof (RiemannInt_P14 a b 0) as q. rewrite <- (Rmult_0_l (b - a)), <- (RiemannInt_P15 q).
      apply RiemannInt_P19; auto. intros x _. unfold fct_cte. left. apply gw_pos. }
    assert (B : exp (- (1 * 1) / 2) * (1 - -1) <= RiemannInt p1).
    { pose proof (RiemannInt_P14 (-1) 1 (exp (- (1 * 1) / 2))) as q. rewrite <- (RiemannInt_P15 q).
      apply RiemannInt_P19; [lra|]. intros x Hx. unfold fct_cte, gw. 
      apply Rlt_le, exp_increasing. nra. }
    pose proof (A _ _ p0 ltac:(lra)). pose proof (A _ _ p2 ltac:(lra)). lra.
Qed.

Lemma gm_const c : gauss_mean (fun _ => c) c.
Proof.
  intros eps He. destruct gw_mass as (d & D0 & D). exists 1. intros M HM. destruct (D M HM) as (z & Z & L).
  exists (0 * (M - - M) + c * z), z. repeat split; auto; try lra.
  - eapply is_RInt_ext_all; [|apply (is_RInt_comb _ _ _ _ c _ _ (is_RInt_const 0 (- M) M) Z)]. intros x. unfold gw. cbv beta. ring.
  - replace ((0 * (M - - M) + c * z) / z - c) with 0 by (field; lra). now rewrite Rabs_R0.
Qed.
Lemma gm_comb f g l v w : gauss_mean f v -> gauss_mean g w -> gauss_mean (fun x => f x + l * g x) (v + l * w).
Proof.
  intros F G eps He.
  destruct (F (eps / 2)) as [M1 H1]; [lra|]. 
  assert (Hl : 0 < 2 * (Rabs l + 1)) by (pose proof (Rabs_pos l); lra).
  destruct (G (eps / (2 * (Rabs l + 1)))) as [M2 H2]; [apply Rdiv_lt_0_compat; lra|].
  exists (Rmax M1 M2). intros M HM. destruct (H1 M) as (i & z & I & Z & P & E); [eapply Rle_trans; [apply Rmax_l|exact HM]|].
  destruct (H2 M) as (j & z' & J & Z' & _ & E'); [eapply Rle_trans; [apply Rmax_r|exact HM]|].
  assert (z' = z) by (eapply is_RInt_unique; eauto). subst z'.
  exists (i + l * j), z. repeat split; auto.
  - eapply is_RInt_ext_all; [|apply (is_RInt_comb _ _ _ _ l _ _ I J)]. intros x. cbv beta. ring.
  - replace ((i + l * j) / z - (v + l * w)) with ((i / z - v) + l * (j / z - w)) by (field; lra).
    eapply Rle_lt_trans; [apply Rabs_triang|]. rewrite Rabs_mult.
    assert (Rabs l * Rabs (j / z - w) <= Rabs l * (eps / (2 * (Rabs l + 1)))) by (apply Rmult_le_compat_l; [apply Rabs_pos|lra]).
    assert (Rabs l * (eps / (2 * (Rabs l + 1))) <= eps / 2).
    { replace (eps / 2) with ((Rabs l + 1) * (eps / (2 * (Rabs l + 1)))) by (field; lra).
      apply Rmult_le_compat_r; [apply Rlt_le, Rdiv_lt_0_compat; lra|lra]. }
    lra.
Qed.
Lemma gm_ext f g v : (forall x, f x = g x) -> gauss_mean f v -> gauss_mean g v.
Proof.
  intros E F eps He. destruct (F eps He) as [M0 H]. exists M0. intros M HM. destruct (H M HM) as (i & z & I & R).
  exists i, z. split; auto. eapply is_RInt_ext_all; [|exact I]. intros x. cbv beta. now rewrite E.
Qed.
Lemma gm_unique f v w : gauss_mean f v -> gauss_mean f w -> v = w.
Proof.
  intros F G. destruct (Req_dec v w) as [E|N]; auto. exfalso.
  assert (P : 0 < Rabs (v - w)) by (apply Rabs_pos_lt; lra).
  destruct (F (Rabs (v - w) / 2)) as [M1 H1]; [lra|]. destruct (G (Rabs (v - w) / 2)) as [M2 H2]; [lra|].
  destruct (H1 (Rmax M1 M2) (Rmax_l _ _)) as (i & z & I & Z & _ & E). destruct (H2 (Rmax M1 M2) (Rmax_r _ _)) as (i' & z' & I' & Z' & _ & E').
  assert (z' = z) by (eapply is_RInt_unique; eauto). assert (i' = i) by (eapply is_RInt_unique; eauto). subst.
  assert (Rabs (v - w) <= Rabs (i / z - v) + Rabs (i / z - w)).
  { replace (v - w) with (- (i / z - v) + (i / z - w)) by ring. eapply Rle_trans; [apply Rabs_triang|]. rewrite Rabs_Ropp. lra. }
  lra.
Qed.

(** integration by parts *)
Lemma gm_stein g g' : polyf g -> polyf g' -> (forall x, derivable_pt_lim g x (g' x)) -> gauss_mean (fun x => x * g x - g' x) 0.
Proof.
  intros G G' D eps He. destruct gw_mass as (d & D0 & DM). destruct G as [l L].
  destruct (gw_pe l 1) as [B HB].
  set (B1 := Rabs B + 1). assert (HB1 : 0 < B1) by (unfold B1; pose proof (Rabs_pos B); lra).
  assert (HB' : forall x, Rabs x * Rabs (pe l x) * gw x <= B1).
  { intros x. specialize (HB x). cbn [pow] in HB. rewrite Rmult_1_r in HB. unfold B1. pose proof (Rle_abs B). lra. }
  exists (Rmax 1 (4 * B1 / (d * eps))). intros M HM.
  assert (M1 : 1 <= M) by (eapply Rle_trans; [apply Rmax_l|exact HM]).
  assert (M2 : 4 * B1 / (d * eps) <= M) by (eapply Rle_trans; [apply Rmax_r|exact HM]).
  destruct (DM M M1) as (z & Z & Lz).
  set (F := fun x => - g x * gw x).
  exists (F M - F (- M)), z. split; [|split; [exact Z|split; [lra|]]].
  - apply (is_RInt_ext_all (fun x => (x * g x - g' x) * gw x)); [reflexivity|]. apply is_RInt_prim.
    + intros x. unfold F. eapply deriv_val.
      * apply (derivable_pt_lim_mult (fun x => - g x) gw); [apply (derivable_pt_lim_opp g); apply D|apply gw_deriv].
      * cbv beta. ring.
    + apply cont_mult; [|apply gw_cont]. apply polyf_cont.
      apply (polyf_ext (fun x => x * g x + -1 * g' x)); [intros; ring|]. apply polyf_add; [apply polyf_x; exists l; exact L|now apply polyf_scal].
  - assert (K : forall s, Rabs s = M -> Rabs (F s) <= B1 / M).
    { intros s Hs. specialize (HB' s). rewrite Hs in HB'. unfold F. rewrite Rabs_mult, Rabs_Ropp, L, (Rabs_right (gw s)) by (pose proof (gw_pos s); lra).
      apply Rmult_le_reg_l with M; [lra|]. replace (M * (B1 / M)) with B1 by (field; lra). lra. }
    pose proof (K M ltac:(apply Rabs_right; lra)) as K1. pose proof (K (- M) ltac:(rewrite Rabs_Ropp; apply Rabs_right; lra)) as K2.
    rewrite Rminus_0_r. unfold Rdiv. rewrite Rabs_mult, Rabs_inv, (Rabs_right z) by lra.
    assert (Rabs (F M - F (- M)) <= 2 * (B1 / M)).
    { unfold Rminus. eapply Rle_trans; [apply Rabs_triang|]. rewrite Rabs_Ropp. lra. }
    assert (2 * (B1 / M) <= d * eps / 2).
    { apply Rmult_le_reg_l with M; [lra|]. replace (M * (2 * (B1 / M))) with (2 * B1) by (field; lra).
      assert (4 * B1 <= M * (d * eps)); [|lra]. apply Rmult_le_reg_r with (/ (d * eps)); [apply Rinv_0_lt_compat; nra|].
      replace (M * (d * eps) * / (d * eps)) with M by (field; split; lra). exact M2. }
    apply Rmult_lt_reg_r with z; [lra|]. rewrite Rmult_assoc, Rinv_l by lra. rewrite Rmult_1_r. nra.
Qed.

(** ** Hermite polynomials *)
Lemma herP_SS n x : herP (S (S n)) x = x * herP (S n) x - INR (n + 1) * herP n x.
Proof. reflexivity. Qed.
Lemma herP_deriv n x : derivable_pt_lim (herP (S n)) x (INR (n + 1) * herP n x) /\ derivable_pt_lim (herP (S (S n))) x (INR (n + 2) * herP (S n) x).
Proof.
  assert (St : forall k d1 d0, derivable_pt_lim (herP (S k)) x d1 -> derivable_pt_lim (herP k) x d0 ->
     derivable_pt_lim (herP (S (S k))) x (1 * herP (S k) x + x * d1 - INR (k + 1) * d0)).
  { intros k d1 d0 H1 H0. apply (derivable_pt_lim_minus (fun x => x * herP (S k) x) (fun x => INR (k + 1) * herP k x)).
    - apply (derivable_pt_lim_mult (fun x => x) (herP (S k))); [apply derivable_pt_lim_id|auto].
    - now apply (derivable_pt_lim_scal (herP k)). }
  induction n as [|n [I1 I2]].
  - assert (A : derivable_pt_lim (herP 1) x (INR (0 + 1) * herP 0 x)) by (cbn; rewrite Rmult_1_r; apply derivable_pt_lim_id).
    split; auto. eapply deriv_val; [apply (St 0%nat _ _ A (derivable_pt_lim_const 1 x))|]. cbn. ring.
  - replace (S n + 1)%nat with (n + 2)%nat by lia. split; auto.
    eapply deriv_val; [apply (St _ _ _ I2 I1)|]. rewrite herP_SS. replace (S n + 1)%nat with (n + 2)%nat by lia. replace (S n + 2)%nat with (n + 3)%nat by lia.
    rewrite !plus_INR. cbn [INR]. ring.
Qed.
Lemma herP_polyf n : polyf (herP n).
Proof.
  enough (H : polyf (herP n) /\ polyf (herP (S n))) by apply H. induction n as [|n [I1 I2]].
  - split; [apply polyf_const|apply polyf_id].
  - split; auto. apply (polyf_ext (fun x => x * herP (S n) x + - INR (n + 1) * herP n x)); [intros; rewrite herP_SS; ring|].
    apply polyf_add; [now apply polyf_x|now apply polyf_scal].
Qed.
(** H_{n+1} = x H_n - H_n' *)
Definition herD (n : nat) (x : R) : R := match n with O => 0 | S m => INR (m + 1) * herP m x end.
Lemma herP_deriv' n x : derivable_pt_lim (herP n) x (herD n x).
Proof. destruct n; [apply derivable_pt_lim_const|apply (herP_deriv n x)]. Qed.
Lemma herP_S n x : herP (S n) x = x * herP n x - herD n x.
Proof. destruct n; cbn [herD]; [cbn; ring|apply herP_SS]. Qed.
Lemma herD_polyf n : polyf (herD n).
Proof. destruct n; [apply polyf_const|apply polyf_scal, herP_polyf]. Qed.

Lemma her_step i j v : gauss_mean (fun x => herD i x * herP j x) v -> gauss_mean (fun x => herP i x * herP (S j) x) v.
Proof.
  intros H.
  assert (S1 : gauss_mean (fun x => x * (herP i x * herP j x) - (herD i x * herP j x + herP i x * herD j x)) 0).
  { apply (gm_stein (fun x => herP i x * herP j x) (fun x => herD i x * herP j x + herP i x * herD j x)).
    - apply polyf_mult; apply herP_polyf.
    - apply polyf_add; apply polyf_mult; try apply herP_polyf; apply herD_polyf.
    - intros x. apply (derivable_pt_lim_mult (herP i) (herP j)); apply herP_deriv'. }
  pose proof (gm_comb _ _ 1 _ _ S1 H) as C. replace (0 + 1 * v) with v in C by ring.
  eapply gm_ext; [|exact C]. intros x. cbv beta. rewrite herP_S. ring.
Qed.
Lemma her_orth i : forall j, gauss_mean (fun x => herP i x * herP j x) (if (i =? j)%nat then INR (fact i) else 0).
Proof.
  induction i as [|i IH]; intros [|j].
  - apply (gm_ext (fun _ => 1)); [intros; cbn; ring|]. apply gm_const.
  - apply her_step. apply (gm_ext (fun _ => 0)); [intros; cbn; ring|]. apply gm_const.
  - apply (gm_ext (fun x => herP 0 x * herP (S i) x)); [intros; ring|]. apply her_step.
    apply (gm_ext (fun _ => 0)); [intros; cbn; ring|]. apply gm_const.
  - apply her_step. cbn [herD]. specialize (IH j).
    pose proof (gm_comb _ _ (INR (i + 1)) _ _ (gm_const 0) IH) as C.
    replace (if (S i =? S j)%nat then INR (fact (S i)) else 0) with (0 + INR (i + 1) * (if (i =? j)%nat then INR (fact i) else 0)).
    + eapply gm_ext; [|exact C]. intros x. cbv beta. ring.
    + cbn [Nat.eqb]. destruct (i =? j)%nat; [|ring]. rewrite fact_simpl, mult_INR. replace (i + 1)%nat with (S i) by lia. ring.
Qed.
Lemma phi_her_orth i j : gauss_mean (fun x => phi HERMITE i x * phi HERMITE j x) (if (i =? j)%nat then 1 else 0).
Proof.
  assert (P : forall k, 0 < INR (fact k)) by (intros k; apply lt_0_INR, lt_O_fact).
  assert (Q : forall k, sqrt (INR (fact k)) <> 0) by (intros k; pose proof (sqrt_lt_R0 _ (P k)); lra).
  pose proof (gm_comb _ _ (/ sqrt (INR (fact i)) * / sqrt (INR (fact j))) _ _ (gm_const 0) (her_orth i j)) as C.
  replace (if (i =? j)%nat then 1 else 0) with
    (0 + / sqrt (INR (fact i)) * / sqrt (INR (fact j)) * (if (i =? j)%nat then INR (fact i) else 0)).
  - eapply gm_ext; [|exact C]. intros x. cbn [phi]. field. split; apply Q.
  - destruct (Nat.eqb_spec i j) as [<-|_]; [|ring]. specialize (Q i).
    rewrite <- (sqrt_sqrt (INR (fact i))) at 3 by (specialize (P i); lra). field. exact Q.
Qed.
