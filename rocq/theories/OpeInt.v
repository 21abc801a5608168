(** Integrals and inner products of expansions. *)
From Coq Require Import Reals Lra Lia List.
From Verif Require Import Base BaseFacts FOps RIntLib FFTCheb QuadFacts QuadMore OpeModel OpeSpec LegFacts HermFacts OpeBasis OpeFacts OpeLin.
Local Open Scope R_scope.

(** the domain is a proper interval, mapped to [-1,1] *)
Definition dom_ok (p : ope) : Prop := o_t p <> HERMITE /\ o_lb p < o_ub p /\ o_map p = init_map (o_t p) (o_lb p) (o_ub p).

Lemma dom_map p : dom_ok p -> let m := o_map p in sm_slope m = 2 / (o_ub p - o_lb p) /\ sm_islope m = (o_ub p - o_lb p) / 2 /\ map_to m (o_lb p) = -1 /\ map_to m (o_ub p) = 1.
Proof.
  intros (T & L & E) m. unfold m. rewrite E. unfold map_to, init_map, p_upper, p_lower. destruct (o_t p); try congruence; cbn [sm_slope sm_islope sm_off]; repeat split; field; lra.
Qed.

(** ** Change of variables for polynomials *)
Lemma aff_RInt f v p : polyf f -> dom_ok p -> is_RInt f (-1) 1 v -> is_RInt (fun x => f (map_to (o_map p) x)) (o_lb p) (o_ub p) (v * ((o_ub p - o_lb p) / 2)).
Proof.
  intros [l Hl] D I. destruct (dom_map p D) as (S1 & S2 & B1 & B2). destruct D as (_ & L & _).
  assert (V : v = pprim 0 l 1 - pprim 0 l (-1)).
  { eapply is_RInt_unique; [exact I|]. apply (is_RInt_ext_all (pe l)); [intros; now rewrite Hl|]. apply pe_RInt. }
  set (m := o_map p) in *. set (h := (o_ub p - o_lb p) / 2) in *. assert (Hh : 0 < h) by (unfold h; lra).
  assert (Sm : sm_slope m = / h) by (rewrite S1; unfold h; field; lra).
  replace (v * h) with (h * pprim 0 l (map_to m (o_ub p)) - h * pprim 0 l (map_to m (o_lb p))) by (rewrite B1, B2, V; ring).
  apply (is_RInt_prim (fun x => h * pprim 0 l (map_to m x))).
  - intros x. replace (f (map_to m x)) with (h * (pe l (map_to m x) * sm_slope m)) by (rewrite Sm, Hl; field; lra).
    apply derivable_pt_lim_scal. apply (derivable_pt_lim_comp (map_to m) (pprim 0 l)).
    + apply map_to_deriv.
    + replace (pe l (map_to m x)) with (map_to m x ^ 0 * pe l (map_to m x)) by (cbn; ring). apply pprim_deriv.
  - apply polyf_cont. exists (pcomp (sm_off m) (sm_slope m) l). intros x. rewrite pe_pcomp, Hl. f_equal. unfold map_to. ring.
Qed.

(** ** Sums of products under a linear functional *)
Section Func.
  Context (I : (R -> R) -> R -> Prop) (I0 : I (fun _ => 0) 0)
    (Icomb : forall f g l v w, I f v -> I g w -> I (fun x => f x + l * g x) (v + l * w))
    (Iext : forall f g v, (forall x, f x = g x) -> I f v -> I g v).
  Lemma I_sum n (f : nat -> R -> R) c v : (forall k, (k < n)%nat -> I (f k) (v k)) -> I (fun x => rs n (fun k => c k * f k x)) (rs n (fun k => c k * v k)).
  Proof.
    induction n as [|n IH]; intros H; [exact I0|]. cbn [rs]. apply Icomb; [apply IH; intros; apply H; lia|apply H; lia].
  Qed.
  Lemma I_prod n m (f : nat -> R -> R) c d nu : (forall i j, I (fun x => f i x * f j x) (if (i =? j)%nat then nu i else 0)) ->
    I (fun x => rs n (fun i => c i * f i x) * rs m (fun j => d j * f j x)) (rs (Nat.min n m) (fun i => c i * d i * nu i)).
  Proof.
    intros H.
    assert (G : I (fun x => rs n (fun i => c i * rs m (fun j => d j * (f i x * f j x)))) (rs n (fun i => c i * rs m (fun j => d j * (if (i =? j)%nat then nu i else 0))))).
    { apply (I_sum n (fun i x => rs m (fun j => d j * (f i x * f j x)))). intros i Hi. apply (I_sum m (fun j x => f i x * f j x)). intros; apply H. }
    apply (Iext _ (fun x => rs n (fun i => c i * f i x) * rs m (fun j => d j * f j x))) in G.
    - replace (rs (Nat.min n m) (fun i => c i * d i * nu i)) with (rs n (fun i => c i * rs m (fun j => d j * (if (i =? j)%nat then nu i else 0)))); [exact G|].
      rewrite (rs_ext n _ (fun i => if (i <? m)%nat then c i * d i * nu i else 0)).
      + clear. induction n as [|n IH]; [reflexivity|]. cbn [rs]. rewrite IH. destruct (Nat.ltb_spec n m).
        * rewrite !Nat.min_l by lia. reflexivity.
        * rewrite !Nat.min_r by lia. ring.
      + intros i Hi. destruct (Nat.ltb_spec i m).
        * rewrite (rs_single m i); [rewrite Nat.eqb_refl; ring|auto|]. intros j _ Hj. destruct (Nat.eqb_spec i j); [congruence|ring].
        * rewrite rs_zero; [ring|]. intros j Hj. destruct (Nat.eqb_spec i j); [lia|ring].
    - intros x. rewrite Rmult_comm, <- rs_scal. apply rs_ext. intros i _.
      rewrite (rs_ext m _ (fun j => f i x * (d j * f j x))) by (intros; ring). rewrite rs_scal. ring.
  Qed.
End Func.

Lemma phi_polyf t k : polyf (phi t k). Proof. exists (phil t k). intros x. apply phil_pe. Qed.
Lemma rs_polyf n (c : nat -> R) (f : nat -> R -> R) : (forall k, (k < n)%nat -> polyf (f k)) -> polyf (fun x => rs n (fun k => c k * f k x)).
Proof.
  induction n as [|n IH]; intros H; [apply (polyf_const 0)|]. cbn [rs].
  apply (polyf_add (fun x => rs n (fun k => c k * f k x)) (fun x => c n * f n x)); [apply IH; intros; apply H; lia|apply polyf_scal, H; lia].
Qed.
(** the expansion on the reference domain *)
Definition ref_fun (p : ope) (z : R) : R := rs (o_n p) (fun k => co p k * phi (o_t p) k z).
Lemma ope_fun_ref p x : ope_fun p x = ref_fun p (map_to (o_map p) x). Proof. reflexivity. Qed.
Lemma ref_polyf p : polyf (ref_fun p). Proof. apply rs_polyf. intros. apply phi_polyf. Qed.

(** the functional of each family on the reference domain *)
Definition refI (t : ptype) (f : R -> R) (v : R) : Prop :=
  match t with LEGENDRE => is_RInt f (-1) 1 (2 * v) | CHEBYSHEV => is_RInt (fun th => f (cos th)) 0 PI v | HERMITE => gauss_mean f v end.
Lemma refI_0 t : refI t (fun _ => 0) 0.
Proof.
  destruct t; cbn.
  - replace (2 * 0) with (0 * (1 - -1)) by ring. apply (is_RInt_const 0).
  - pose proof (is_RInt_const 0 0 PI) as H. rewrite Rmult_0_l in H. exact H.
  - apply gm_const.
Qed.
Lemma refI_comb t f g l v w : refI t f v -> refI t g w -> refI t (fun x => f x + l * g x) (v + l * w).
Proof.
  destruct t; cbn; intros A B.
  - replace (2 * (v + l * w)) with (2 * v + l * (2 * w)) by ring. now apply is_RInt_comb.
  - apply (is_RInt_comb (fun th => f (cos th)) (fun th => g (cos th))); auto.
  - now apply gm_comb.
Qed.
Lemma refI_ext t f g v : (forall x, f x = g x) -> refI t f v -> refI t g v.
Proof. destruct t; cbn; intros A B; [eapply is_RInt_ext_all; eauto|eapply is_RInt_ext_all; [|exact B]; intros; cbn; auto|eapply gm_ext; eauto]. Qed.
Lemma refI_unique t f v w : refI t f v -> refI t f w -> v = w.
Proof. destruct t; cbn; intros A B; [pose proof (is_RInt_unique _ _ _ _ _ A B); lra|eapply is_RInt_unique; eauto|eapply gm_unique; eauto]. Qed.
Lemma refI_orth t i j : refI t (fun x => phi t i x * phi t j x) (if (i =? j)%nat then p_norm t i else 0).
Proof.
  destruct t; cbn.
  - replace (2 * (if (i =? j)%nat then 1 else 0)) with (if (i =? j)%nat then 2 else 0) by (destruct (i =? j)%nat; ring). apply phi_leg_orth.
  - apply cheb_orth.
  - apply phi_her_orth.
Qed.

(** ** inner_w *)
Lemma sum_loop n (f : nat -> outcome R) (g : nat -> R) : (forall i, (i < n)%nat -> f i = Ok (g i)) ->
  for_ n (fun ii out => do v <- f ii; Ok (out + v)) 0 = Ok (rs n g).
Proof. intros H. apply (for_det (fun i => rs i g)). intros i Hi. now rewrite H. Qed.

Lemma inner_w_val p q : o_t p = o_t q -> ope_ok p -> ope_ok q ->
  ope_inner_w p q = Ok (rs (Nat.min (o_n p) (o_n q)) (fun i => co p i * co q i * p_norm (o_t p) i)).
Proof.
  intros T [P1 P2] [Q1 Q2]. unfold ope_inner_w. rewrite T, ptype_eqb_refl. cbn [cassert obind].
  replace (if (o_n p <? o_n q)%nat then o_n p else o_n q) with (Nat.min (o_n p) (o_n q)) by (destruct (Nat.ltb_spec (o_n p) (o_n q)); lia).
  apply (for_det (fun i => rs i (fun i => co p i * co q i * p_norm (o_t q) i))). intros i Hi. rewrite !aget_nth by lia. reflexivity.
Qed.
Lemma inner_ref p q : o_t p = o_t q -> refI (o_t p) (fun z => ref_fun p z * ref_fun q z) (rs (Nat.min (o_n p) (o_n q)) (fun i => co p i * co q i * p_norm (o_t p) i)).
Proof.
  intros T. unfold ref_fun. rewrite <- T. apply I_prod; [apply refI_0|apply refI_comb|apply refI_ext|]. intros. apply refI_orth.
Qed.

Lemma refI_leg_dom p f v : o_t p = LEGENDRE -> dom_ok p -> polyf f -> refI LEGENDRE f v -> is_RInt (fun x => f (map_to (o_map p) x)) (o_lb p) (o_ub p) (v * (o_ub p - o_lb p)).
Proof. intros T D Pf H. replace (v * (o_ub p - o_lb p)) with (2 * v * ((o_ub p - o_lb p) / 2)) by field. now apply aff_RInt. Qed.

(** ** integrals *)
Lemma int_ref p : ope_ok p -> refI (o_t p) (ref_fun p) (co p 0 * p_norm (o_t p) 0).
Proof.
  intros [P1 P2]. pose proof (I_prod (refI (o_t p)) (refI_0 _) (refI_comb _) (refI_ext _) (o_n p) 1 (phi (o_t p)) (co p) (fun _ => 1) (p_norm (o_t p)) (refI_orth _)) as H.
  rewrite Nat.min_r in H by lia. cbn [rs] in H. replace (co p 0 * p_norm (o_t p) 0) with (0 + co p 0 * 1 * p_norm (o_t p) 0) by ring.
  apply (refI_ext (o_t p) (fun x => rs (o_n p) (fun i => co p i * phi (o_t p) i x) * (0 + 1 * phi (o_t p) 0 x))); [|exact H]. intros x. rewrite phi_0. unfold ref_fun. ring.
Qed.

Lemma half_even n : forall f, rs n (fun k => if Nat.even k then f k else 0) = rs ((n + 1) / 2) (fun k => f (2 * k)%nat).
Proof.
  intros f. induction n as [|n IH]; [reflexivity|]. cbn [rs]. rewrite IH. destruct (Nat.even n) eqn:E.
  - apply Nat.even_spec in E. destruct E as [m ->]. replace ((S (2 * m) + 1) / 2)%nat with (S m) by (apply Nat.div_unique with 0%nat; lia).
    replace ((2 * m + 1) / 2)%nat with m by (apply Nat.div_unique with 1%nat; lia). cbn [rs]. reflexivity.
  - assert (O : Nat.odd n = true) by (unfold Nat.odd; now rewrite E). apply Nat.odd_spec in O. destruct O as [m ->].
    replace ((S (2 * m + 1) + 1) / 2)%nat with (S m) by (apply Nat.div_unique with 1%nat; lia).
    replace ((2 * m + 1 + 1) / 2)%nat with (S m) by (apply Nat.div_unique with 0%nat; lia). ring.
Qed.

Lemma integrate_ok p : ope_ok p -> dom_ok p -> exists v, ope_integrate p = Ok v /\ is_RInt (ope_fun p) (o_lb p) (o_ub p) v.
Proof.
  intros Hok D. destruct (dom_map p D) as (_ & S2 & _). assert (Hok' := Hok). destruct Hok' as [P1 P2]. unfold ope_integrate.
  destruct (o_t p) eqn:T.
  - rewrite aget_nth by lia. cbn [obind]. eexists. split; [reflexivity|]. rewrite S2. fold (co p 0).
    replace (co p 0 * 2 * ((o_ub p - o_lb p) / 2)) with (co p 0 * p_norm LEGENDRE 0 * (o_ub p - o_lb p)) by (cbn; field).
    apply (refI_leg_dom p (ref_fun p)); auto using ref_polyf. rewrite <- T. now apply int_ref.
  - unfold cheb_integrate.
    rewrite (for_det (fun i => rs i (fun k => co p (2 * k) * 2 / (1 - INR (2 * k * (2 * k))))) _ ((o_n p + 1) / 2)).
    2:{ intros i Hi. assert (2 * i < o_n p)%nat. { assert (2 * ((o_n p + 1) / 2) <= o_n p + 1)%nat by (apply Nat.mul_div_le; lia). lia. }
        rewrite aget_nth by lia. reflexivity. }
    cbn [obind]. eexists. split; [reflexivity|]. rewrite S2. apply (aff_RInt (ref_fun p)); auto using ref_polyf.
    unfold ref_fun. rewrite T. rewrite (rs_ext _ _ (fun k => co p (2 * k) * (2 / (1 - INR (2 * k) ^ 2)))).
    2:{ intros k _. rewrite mult_INR. unfold Rdiv. replace (INR (2 * k) ^ 2) with (INR (2 * k) * INR (2 * k)) by ring. ring. }
    rewrite <- (half_even (o_n p) (fun k => co p k * (2 / (1 - INR k ^ 2)))).
    rewrite (rs_ext (o_n p) _ (fun k => co p k * chebI k)) by (intros k _; unfold chebI; destruct (Nat.even k); ring).
    apply (rs_RInt (o_n p) chebT). intros. apply chebT_RInt.
  - destruct D as [D _]. congruence.
Qed.
