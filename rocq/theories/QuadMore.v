(** Simpson, Clenshaw-Curtis, Gauss-Chebyshev and the rescaled rules. *)
From Verif Require Import Base BaseFacts CRing RealInst FOps RIntLib FFTModel FFTFacts FFTMore FFTCheb QuadModel QuadFacts.
From Coq Require Import Reals Lra.
Local Open Scope R_scope.

Lemma cubic_RInt c0 c1 c2 c3 a b : is_RInt (fun x => c0 + c1 * x + c2 * x ^ 2 + c3 * x ^ 3) a b
  ((c0 * b + c1 * b ^ 2 / 2 + c2 * b ^ 3 / 3 + c3 * b ^ 4 / 4) - (c0 * a + c1 * a ^ 2 / 2 + c2 * a ^ 3 / 3 + c3 * a ^ 4 / 4)).
Proof.
  pose proof (pe_RInt [c0; c1; c2; c3] a b) as H.
  replace (pprim 0 [c0; c1; c2; c3] b - pprim 0 [c0; c1; c2; c3] a) with
    ((c0 * b + c1 * b ^ 2 / 2 + c2 * b ^ 3 / 3 + c3 * b ^ 4 / 4) - (c0 * a + c1 * a ^ 2 / 2 + c2 * a ^ 3 / 3 + c3 * a ^ 4 / 4)) in H.
  2:{ cbn [pprim INR]. field. }
  apply is_RInt_ext_all with (2 := H). intros x. cbn [pe]. ring.
Qed.

Lemma simpson_exact_odd m a h c0 c1 c2 c3 : (1 <= m)%nat ->
  let f x := c0 + c1 * x + c2 * x ^ 2 + c3 * x ^ 3 in
  is_RInt f a (a + INR (2 * m) * h) (rs (2 * m + 1) (fun i => simpW (2 * m + 1) h i * f (a + INR i * h))).
Proof.
  intros Hm f. set (F := fun x => c0 * x + c1 * x ^ 2 / 2 + c2 * x ^ 3 / 3 + c3 * x ^ 4 / 4).
  rewrite (simpson_odd m h (fun i => f (a + INR i * h)) Hm).
  rewrite (rs_ext _ _ (fun j => F (a + INR (2 * j + 2) * h) - F (a + INR (2 * j) * h))).
  2:{ intros j _. unfold F, f. rewrite !plus_INR. change (INR 1) with 1. change (INR 2) with (1 + 1). field. }
  rewrite (rs_tele2 m (fun i => F (a + INR i * h))).
  replace (F (a + INR 0 * h)) with (F a) by (f_equal; cbn; ring). apply cubic_RInt.
Qed.

Lemma simpson_exact_even m a h c0 c1 : (1 <= m)%nat ->
  let f x := c0 + c1 * x in
  is_RInt f a (a + INR (2 * m + 1) * h) (rs (2 * m + 2) (fun i => simpW (2 * m + 2) h i * f (a + INR i * h))).
Proof.
  intros Hm f. set (F := fun x => c0 * x + c1 * x ^ 2 / 2).
  rewrite (simpson_even m h (fun i => f (a + INR i * h)) Hm).
  rewrite (rs_ext _ _ (fun j => F (a + INR (2 * j + 2) * h) - F (a + INR (2 * j) * h))).
  2:{ intros j _. unfold F, f. rewrite !plus_INR. change (INR 1) with 1. change (INR 2) with (1 + 1). field. }
  rewrite (rs_tele2 m (fun i => F (a + INR i * h))).
  replace (F (a + INR 0 * h)) with (F a) by (f_equal; cbn; ring).
  pose proof (cubic_RInt c0 c1 0 0 a (a + INR (2 * m + 1) * h)) as H.
  match goal with H : is_RInt _ _ _ ?v1 |- is_RInt _ _ _ ?v2 => replace v2 with v1 end.
  - apply is_RInt_ext_all with (2 := H). intros x. unfold f. ring.
  - unfold F, f. rewrite !plus_INR. change (INR 1) with 1. field.
Qed.

(** For an even number of points >= 4 a quadratic is not integrated exactly: the
    last cell contributes the trapezoid's error c2 h^3 / 6. *)
Lemma simpson_even_quadratic m a h c2 : (1 <= m)%nat ->
  is_RInt (fun x => c2 * x ^ 2) a (a + INR (2 * m + 1) * h)
    (rs (2 * m + 2) (fun i => simpW (2 * m + 2) h i * (c2 * (a + INR i * h) ^ 2)) - c2 * h ^ 3 / 6).
Proof.
  intros Hm. set (F := fun x => c2 * x ^ 3 / 3).
  rewrite (simpson_even m h (fun i => c2 * (a + INR i * h) ^ 2) Hm).
  rewrite (rs_ext _ _ (fun j => F (a + INR (2 * j + 2) * h) - F (a + INR (2 * j) * h))).
  2:{ intros j _. unfold F. rewrite !plus_INR. change (INR 1) with 1. change (INR 2) with (1 + 1). field. }
  rewrite (rs_tele2 m (fun i => F (a + INR i * h))).
  replace (F (a + INR 0 * h)) with (F a) by (f_equal; cbn; ring).
  pose proof (cubic_RInt 0 0 c2 0 a (a + INR (2 * m + 1) * h)) as H.
  match goal with H : is_RInt _ _ _ ?v1 |- is_RInt _ _ _ ?v2 => replace v2 with v1 end.
  - apply is_RInt_ext_all with (2 := H). intros x. ring.
  - unfold F. rewrite !plus_INR. change (INR 1) with 1. field.
Qed.

(** ** Chebyshev polynomials: derivatives, integrals, span *)
Fixpoint chebU (k : nat) (x : R) : R :=
  match k with
  | O => 1
  | S O => 2 * x
  | S (S j as k') => 2 * x * chebU k' x - chebU j x
  end.
Lemma chebT_SS k x : chebT (S (S k)) x = 2 * x * chebT (S k) x - chebT k x.
Proof. reflexivity. Qed.
Lemma chebU_SS k x : chebU (S (S k)) x = 2 * x * chebU (S k) x - chebU k x.
Proof. reflexivity. Qed.

Lemma chebTU k x : chebT (S (S k)) x = x * chebU (S k) x - chebU k x /\ chebT (S k) x = chebU (S k) x - x * chebU k x.
Proof.
  induction k as [|k [IH1 IH2]]; [cbn; split; ring|]. split.
  - rewrite chebT_SS, IH1, IH2, chebU_SS. ring.
  - rewrite IH1, chebU_SS. ring.
Qed.
Lemma chebTU2 k x : 2 * chebT (S (S k)) x = chebU (S (S k)) x - chebU k x.
Proof. rewrite (proj1 (chebTU k x)), chebU_SS. ring. Qed.

Lemma chebT_deriv k x : derivable_pt_lim (chebT (S k)) x (INR (S k) * chebU k x) /\
                        derivable_pt_lim (chebT (S (S k))) x (INR (S (S k)) * chebU (S k) x).
Proof.
  assert (D2 : forall k d1 d0, derivable_pt_lim (chebT (S k)) x d1 -> derivable_pt_lim (chebT k) x d0 ->
    derivable_pt_lim (chebT (S (S k))) x (2 * chebT (S k) x + 2 * x * d1 - d0)).
  { intros n d1 d0 H1 H0. apply (derivable_pt_lim_ext (fun x => (2 * x) * chebT (S n) x - chebT n x)); [intros z; reflexivity|].
    apply derivable_pt_lim_minus; auto.
    apply (derivable_pt_lim_mult (fun x => 2 * x) (chebT (S n)) x 2 d1); auto.
    pose proof (derivable_pt_lim_scal id 2 x 1 (derivable_pt_lim_id x)) as G. rewrite Rmult_1_r in G. exact G. }
  induction k as [|k [IH1 IH2]].
  - assert (A : derivable_pt_lim (chebT 1) x (INR 1 * chebU 0 x)).
    { cbn [INR chebU]. replace (1 * 1) with 1 by ring. apply derivable_pt_lim_id. }
    split; auto. replace (INR 2 * chebU 1 x) with (2 * chebT 1 x + 2 * x * (INR 1 * chebU 0 x) - 0) by (cbn; ring).
    apply D2; auto. apply derivable_pt_lim_const.
  - split; auto. pose proof (D2 (S k) _ _ IH2 IH1) as H.
    replace (INR (S (S (S k))) * chebU (S (S k)) x) with
      (2 * chebT (S (S k)) x + 2 * x * (INR (S (S k)) * chebU (S k) x) - INR (S k) * chebU k x); auto.
    rewrite (proj1 (chebTU k x)), chebU_SS, !S_INR. ring.
Qed.

Lemma chebT_continuity k : continuity (chebT k).
Proof.
  intros x. destruct k as [|k]; [apply continuity_pt_const; now intros ? ?|].
  apply derivable_continuous_pt. eexists. apply (proj1 (chebT_deriv k x)).
Qed.

Lemma chebT_1 k : chebT k 1 = 1 /\ chebT (S k) 1 = 1.
Proof. induction k as [|k [IH1 IH2]]; [cbn; auto|]. split; auto. rewrite chebT_SS, IH1, IH2. ring. Qed.
Lemma chebT_m1 k : chebT k (-1) = (-1) ^ k /\ chebT (S k) (-1) = (-1) ^ S k.
Proof. induction k as [|k [IH1 IH2]]; [cbn; split; ring|]. split; auto. rewrite chebT_SS, IH1, IH2. cbn [pow]. ring. Qed.

(** The integral of T_k over [-1,1]. *)
Definition chebI (k : nat) : R := if Nat.even k then 2 / (1 - INR k ^ 2) else 0.

Lemma m1_pow k : (-1) ^ k = if Nat.even k then 1 else -1.
Proof. induction k as [|k IH]; [reflexivity|]. cbn [pow]. rewrite IH, Nat.even_succ, <- Nat.negb_even. destruct (Nat.even k); cbn; ring. Qed.

Lemma evS k : Nat.even (S k) = negb (Nat.even k).
Proof. now rewrite Nat.even_succ, <- Nat.negb_even. Qed.

Lemma INR_even k : Nat.even k = true -> k <> 0%nat -> 1 - INR k ^ 2 <> 0.
Proof.
  intros He Hk. assert (2 <= k)%nat by (destruct k as [|[|k]]; [lia|discriminate|lia]).
  apply le_INR in H. change (INR 2) with (1 + 1) in H. nra.
Qed.

Lemma chebT_RInt k : is_RInt (chebT k) (-1) 1 (chebI k).
Proof.
  destruct k as [|[|k]].
  - unfold chebI. cbn [Nat.even INR]. replace (2 / (1 - 0 ^ 2)) with (1 * (1 - -1)) by field. apply (is_RInt_const 1).
  - unfold chebI. cbn [Nat.even]. replace 0 with (1 ^ 2 / 2 - (-1) ^ 2 / 2) at 1 by field.
    apply (is_RInt_prim (fun x => x ^ 2 / 2) (chebT 1)); [|apply chebT_continuity].
    intros x. apply (derivable_pt_lim_ext (fun x => / 2 * x ^ 2)); [intros; unfold Rdiv; ring|].
    replace (chebT 1 x) with (/ 2 * (INR 2 * x ^ pred 2)) by (cbn; field).
    apply derivable_pt_lim_scal, derivable_pt_lim_pow.
  - set (F := fun x => / (2 * INR (S (S (S k)))) * chebT (S (S (S k))) x - / (2 * INR (S k)) * chebT (S k) x).
    assert (N1 : INR (S (S (S k))) <> 0) by (apply not_0_INR; lia). assert (N2 : INR (S k) <> 0) by (apply not_0_INR; lia).
    pose proof (is_RInt_prim F (chebT (S (S k))) (-1) 1) as H.
    replace (chebI (S (S k))) with (F 1 - F (-1)).
    + apply H; [|apply chebT_continuity]. intros x.
      replace (chebT (S (S k)) x) with (/ (2 * INR (S (S (S k)))) * (INR (S (S (S k))) * chebU (S (S k)) x) - / (2 * INR (S k)) * (INR (S k) * chebU k x)).
      * apply derivable_pt_lim_minus; apply derivable_pt_lim_scal; apply chebT_deriv.
      * pose proof (chebTU2 k x). field_simplify; auto. lra.
    + unfold F, chebI. rewrite !(proj1 (chebT_1 _)), !(proj1 (chebT_m1 _)), !m1_pow.
      rewrite !evS.
      destruct (Nat.even k) eqn:Ek; cbn [negb].
      * assert (1 - INR (S (S k)) ^ 2 <> 0).
        { apply INR_even; [|lia]. now rewrite !evS, Ek. }
        rewrite !S_INR in *. field. repeat split; auto.
      * field. auto.
Qed.

(** Every polynomial is a combination of Chebyshev polynomials. *)
Definition inspan (m : nat) (f : R -> R) : Prop := exists c, forall x, f x = rs m (fun k => c k * chebT k x).

Lemma inspan_x m f : inspan m f -> inspan (S m) (fun x => x * f x).
Proof.
  intros (c & Hc). revert f c Hc. induction m as [|m IH]; intros f c Hc.
  - exists (fun _ => 0). intros x. rewrite Hc. cbn. ring.
  - destruct (IH (fun x => rs m (fun k => c k * chebT k x)) c (fun _ => eq_refl)) as (d & Hd).
    destruct m as [|m].
    + exists (fun k => if k =? 1 then c 0%nat else 0). intros x. rewrite Hc. cbn. ring.
    + exists (fun k => (if k <=? S m then d k else 0) + (if k =? S (S m) then c (S m) / 2 else 0) + (if k =? m then c (S m) / 2 else 0)).
      intros x. rewrite Hc. cbn [rs] in Hd |- *. specialize (Hd x).
      assert (E1 : rs m (fun k => ((if (k <=? S m)%nat then d k else 0) + (if k =? S (S m) then c (S m) / 2 else 0) + (if k =? m then c (S m) / 2 else 0)) * chebT k x)
                   = rs m (fun k => d k * chebT k x)).
      { apply rs_ext. intros k Hk. destruct (Nat.leb_spec k (S m)); [|lia]. destruct (Nat.eqb_spec k (S (S m))); [lia|].
        destruct (Nat.eqb_spec k m); [lia|]. ring. }
      rewrite E1. clear E1.
      rewrite !Nat.eqb_refl. destruct (Nat.leb_spec m (S m)); [|lia]. destruct (Nat.leb_spec (S m) (S m)); [|lia].
      destruct (Nat.leb_spec (S (S m)) (S m)); [lia|].
      destruct (Nat.eqb_spec m (S (S m))); [lia|]. destruct (Nat.eqb_spec (S m) (S (S m))); [lia|].
      destruct (Nat.eqb_spec (S m) m); [lia|]. destruct (Nat.eqb_spec (S (S m)) m); [lia|].
      rewrite chebT_SS. rewrite Rmult_plus_distr_l. rewrite Hd. field.
Qed.

Lemma inspan_pe l : forall m, (length l <= m)%nat -> inspan m (pe l).
Proof.
  induction l as [|a l IH]; intros m Hm.
  - exists (fun _ => 0). intros x. cbn [pe]. symmetry. apply rs_zero. intros; ring.
  - cbn [length] in Hm. destruct m as [|m]; [lia|]. destruct (inspan_x m (pe l) (IH m ltac:(lia))) as (c & Hc).
    exists (fun k => c k + if k =? 0 then a else 0). intros x. cbn [pe]. rewrite Hc.
    rewrite (rs_ext (S m) (fun k => (c k + (if k =? 0 then a else 0)) * chebT k x)
                          (fun k => c k * chebT k x + (if k =? 0 then a else 0) * chebT k x)) by (intros; ring).
    rewrite rs_add. rewrite (rs_single (S m) 0 (fun k => (if k =? 0 then a else 0) * chebT k x)); [cbn; ring|lia|].
    intros i _ Hi. destruct (Nat.eqb_spec i 0); [lia|]. ring.
Qed.

(** A rule that is exact on T_0 .. T_{m-1} is exact on polynomials of m coefficients. *)
Lemma rs_RInt m (f : nat -> R -> R) a b v : (forall k, (k < m)%nat -> is_RInt (f k) a b (v k)) ->
  forall c, is_RInt (fun x => rs m (fun k => c k * f k x)) a b (rs m (fun k => c k * v k)).
Proof.
  induction m as [|m IH]; intros H c.
  - cbn. pose proof (is_RInt_const 0 a b) as G. rewrite Rmult_0_l in G. exact G.
  - cbn [rs]. apply is_RInt_comb; [apply IH; intros; apply H; lia|apply H; lia].
Qed.

Lemma exact_span N m (w x : nat -> R) : 
  (forall k, (k < m)%nat -> rs N (fun i => w i * chebT k (x i)) = chebI k) ->
  forall l, (length l <= m)%nat -> is_RInt (pe l) (-1) 1 (rs N (fun i => w i * pe l (x i))).
Proof.
  intros H l Hl. destruct (inspan_pe l m Hl) as (c & Hc).
  pose proof (rs_RInt m chebT (-1) 1 chebI (fun k _ => chebT_RInt k) c) as I.
  apply (is_RInt_ext_all _ (pe l)) in I; [|intros z; symmetry; apply Hc].
  replace (rs N (fun i => w i * pe l (x i))) with (rs m (fun k => c k * chebI k)); auto.
  rewrite (rs_ext m _ (fun k => rs N (fun i => c k * (w i * chebT k (x i))))).
  2:{ intros k Hk. rewrite rs_scal, H by auto. reflexivity. }
  rewrite rs_swap. apply rs_ext. intros i _. rewrite Hc, <- rs_scal. apply rs_ext. intros. ring.
Qed.

(** ** Sums of cosines *)
Lemma cos_sum n m : (0 < m < 2 * n)%nat -> rs (2 * n) (fun i => cos (PI * INR (i * m) / INR n)) = 0.
Proof.
  intros H. assert (Hn : INR n <> 0) by (apply not_0_INR; lia). assert (Hn0 : 0 < INR n) by (apply lt_0_INR; lia).
  set (al := PI * INR m / (2 * INR n)).
  assert (Hs : 0 < sin al).
  { apply sin_gt_0; unfold al.
    - apply Rmult_lt_0_compat; [apply Rmult_lt_0_compat; [apply PI_RGT_0|apply lt_0_INR; lia]|]. apply Rinv_0_lt_compat. lra.
    - apply Rmult_lt_reg_r with (2 * INR n); [lra|]. unfold Rdiv. rewrite Rmult_assoc, Rinv_l, Rmult_1_r by lra.
      apply Rmult_lt_compat_l; [apply PI_RGT_0|]. replace (2 * INR n) with (INR (2 * n)) by (rewrite mult_INR; cbn; ring).
      apply lt_INR. lia. }
  assert (E : 2 * sin al * rs (2 * n) (fun i => cos (PI * INR (i * m) / INR n)) = 0).
  { rewrite <- rs_scal.
    rewrite (rs_ext _ _ (fun i => sin ((2 * INR (S i) - 1) * al) - sin ((2 * INR i - 1) * al))).
    - rewrite (rs_tele (2 * n) (fun i => sin ((2 * INR i - 1) * al))). cbn [INR].
      replace ((2 * INR (2 * n) - 1) * al) with (- al + 2 * INR m * PI).
      + rewrite sin_period. replace ((2 * 0 - 1) * al) with (- al) by ring. ring.
      + unfold al. rewrite mult_INR. cbn [INR]. field. auto.
    - intros i _. rewrite S_INR. replace (PI * INR (i * m) / INR n) with (2 * INR i * al).
      + replace ((2 * (INR i + 1) - 1) * al) with (2 * INR i * al + al) by ring.
        replace ((2 * INR i - 1) * al) with (2 * INR i * al - al) by ring. rewrite sin_plus, sin_minus. ring.
      + unfold al. rewrite mult_INR. field. auto. }
  apply Rmult_integral in E. destruct E as [E|E]; [lra|auto].
Qed.

Lemma cos_sum_mul n m : (0 < n)%nat -> rs (2 * n) (fun i => cos (PI * INR (i * (2 * n * m)) / INR n)) = 2 * INR n.
Proof.
  intros H. assert (Hn : INR n <> 0) by (apply not_0_INR; lia).
  rewrite (rs_ext _ _ (fun _ => 1)).
  - assert (G : forall k, rs k (fun _ => 1) = INR k) by (induction k as [|k IH]; [reflexivity|]; cbn [rs]; rewrite IH, S_INR; reflexivity).
    rewrite G, mult_INR. cbn [INR]. ring.
  - intros i _. rewrite !mult_INR. cbn [INR]. replace (PI * (INR i * ((1 + 1) * INR n * INR m)) / INR n) with (0 + 2 * INR (i * m) * PI).
    + rewrite cos_period, cos_0. auto.
    + rewrite mult_INR. field. auto.
Qed.
