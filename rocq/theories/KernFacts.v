(** Facts about kernel expansions, used by PropKern.v *)
From Coq Require Import Reals Lra.
From Verif Require Import Base FOps RIntLib ErfSpec KernModel KernSpec.
Open Scope R_scope.

(** an expansion that holds the given bumps *)
Definition gk (t : bump) : kernel := mkkernel KernGauss [b_s t; b_w t; b_c t].
Definition holds (e : kexp) (ts : list bump) : Prop :=
  e_n e = length ts /\
  (forall i t, nth_error ts i = Some t ->
     nth_error (e_coeff e) i = Some (b_a t) /\ nth_error (e_kern e) i = Some (Some (gk t))).

Lemma for_from_sum {A} (F : A -> R) (body : nat -> R -> outcome R) : forall (l : list A) lo acc,
  (forall i t out, nth_error l i = Some t -> body (lo + i)%nat out = Ok (out + F t)) ->
  for_from lo (length l) body acc = Ok (acc + sumF F l).
Proof.
  induction l as [|t l IH]; intros lo acc H; cbn [length for_from sumF fold_right].
  - f_equal. ring.
  - replace (body lo acc) with (body (lo + 0)%nat acc) by (f_equal; lia).
    rewrite (H 0%nat t acc eq_refl). cbn [obind]. rewrite IH.
    + f_equal. unfold sumF. ring.
    + intros i u out Hi. replace (S lo + i)%nat with (lo + S i)%nat by lia. now apply H.
Qed.
Lemma for_sum {A} (F : A -> R) body (l : list A) acc :
  (forall i t out, nth_error l i = Some t -> body i out = Ok (out + F t)) ->
  for_ (length l) body acc = Ok (acc + sumF F l).
Proof. intros H. apply for_from_sum. intros i t out Hi. now apply H. Qed.

Lemma sumF_ext {A} (F G : A -> R) l : (forall t, In t l -> F t = G t) -> sumF F l = sumF G l.
Proof.
  induction l as [|t l IH]; intros H; [reflexivity|]. cbn. rewrite (H t) by now left. f_equal.
  apply IH. intros u Hu. apply H. now right.
Qed.
Lemma sumF_plus {A} (F G : A -> R) l : sumF (fun t => F t + G t) l = sumF F l + sumF G l.
Proof. induction l as [|t l IH]; cbn; [ring|]. unfold sumF in *. rewrite IH. ring. Qed.
Lemma sumF_scal {A} c (F : A -> R) l : sumF (fun t => c * F t) l = c * sumF F l.
Proof. induction l as [|t l IH]; cbn; [ring|]. unfold sumF in *. rewrite IH. ring. Qed.

Lemma aget_some {A} (l : list A) i a : nth_error l i = Some a -> aget l i = Ok a.
Proof. unfold aget. now intros ->. Qed.
Lemma pget_some {A} (l : list (option A)) i a : nth_error l i = Some (Some a) -> pget l i = Ok a.
Proof. unfold pget. now intros ->. Qed.
Lemma aset_lt {A} (l : list A) i a : (i < length l)%nat -> aset l i a = Ok (upd l i a).
Proof. intros H. unfold aset. destruct (Nat.ltb_spec i (length l)); [reflexivity | lia]. Qed.

Lemma keval_gk t x : kernel_eval (gk t) x = Ok (bump_val t x).
Proof. unfold kernel_eval, gk, bump_val, gauss_kernel_eval. cbn. repeat f_equal. ring. Qed.

Lemma eval_holds e ts x : holds e ts -> kexp_eval e x = Ok (kfun ts x).
Proof.
  intros [Hn H]. unfold kexp_eval. rewrite Hn.
  rewrite (for_sum (fun t => b_a t * bump_val t x)).
  - f_equal. unfold kfun. ring.
  - intros i t out Hi. destruct (H i t Hi) as [H1 H2].
    rewrite (aget_some _ _ _ H1), (pget_some _ _ _ H2). cbn [obind]. now rewrite keval_gk.
Qed.

(** slope of one bump *)
Definition bump_slope (t : bump) (x : R) : R :=
  b_s t * exp (- ((x - b_c t) * (x - b_c t)) / b_w t) * (- 2 * (x - b_c t) / b_w t).
Lemma bump_slope_ok t x : 0 < b_w t -> derivable_pt_lim (bump_val t) x (bump_slope t x).
Proof.
  intros Hw. unfold bump_val, bump_slope. eapply dl_eq; [dl|]. cbv beta. field. lra.
Qed.

Lemma sum_deriv {A} (F F' : A -> R -> R) (l : list A) x :
  (forall t, In t l -> derivable_pt_lim (F t) x (F' t x)) ->
  derivable_pt_lim (fun y => sumF (fun t => F t y) l) x (sumF (fun t => F' t x) l).
Proof.
  induction l as [|t l IH]; intros H.
  - apply (dl_const 0).
  - cbn. apply (derivable_pt_lim_plus (F t) (fun y => sumF (fun t => F t y) l)).
    + apply H. now left.
    + apply IH. intros u Hu. apply H. now right.
Qed.

Lemma kdv_gk t x : 0 < b_w t -> kernel_deriv (gk t) x = Ok (bump_slope t x).
Proof.
  intros Hw. unfold kernel_deriv, gk, bump_slope, gauss_kernel_deriv. cbn. f_equal.
  replace ((x - b_c t) * (- (x - b_c t) / b_w t)) with (- ((x - b_c t) * (x - b_c t)) / b_w t) by (field; lra).
  field. lra.
Qed.

Lemma deriv_holds e ts x : holds e ts -> widths_pos ts ->
  kexp_deriv_eval e x = Ok (sumF (fun t => b_a t * bump_slope t x) ts).
Proof.
  intros [Hn H] Hw. unfold kexp_deriv_eval. rewrite Hn.
  rewrite (for_sum (fun t => b_a t * bump_slope t x)).
  - f_equal. ring.
  - intros i t out Hi. destruct (H i t Hi) as [H1 H2].
    rewrite (aget_some _ _ _ H1), (pget_some _ _ _ H2). cbn [obind].
    rewrite kdv_gk; [reflexivity|]. apply Hw. eapply nth_error_In; eauto.
Qed.

(** slope with respect to the centre *)
Lemma kgc_gk t x : 0 < b_w t -> kernel_grad_center (gk t) x = Ok (- bump_slope t x).
Proof.
  intros Hw. unfold kernel_grad_center, gk, bump_slope, gauss_kernel_deriv. cbn. f_equal.
  replace ((b_c t - x) * (- (b_c t - x) / b_w t)) with (- ((x - b_c t) * (x - b_c t)) / b_w t) by (field; lra).
  field. lra.
Qed.
Definition with_c (t : bump) c := mkbump (b_a t) (b_s t) (b_w t) c.
Definition with_a (t : bump) a := mkbump a (b_s t) (b_w t) (b_c t).
Lemma centre_slope t x : 0 < b_w t ->
  derivable_pt_lim (fun c => bump_val (with_c t c) x) (b_c t) (- bump_slope t x).
Proof.
  intros Hw. unfold bump_val, bump_slope, with_c. cbn. eapply dl_eq; [dl|]. cbv beta. field. lra.
Qed.

(** changing one bump changes the sum by the difference *)
Lemma sumF_upd {A} (F : A -> R) : forall (l : list A) i t u, nth_error l i = Some t ->
  sumF F (upd l i u) = sumF F l - F t + F u.
Proof.
  induction l as [|h l IH]; intros [|i] t u H; try discriminate.
  - injection H as ->. cbn. ring.
  - cbn. unfold sumF in *. rewrite (IH i t u H). ring.
Qed.

(** ** integrals *)
Lemma bump_prim erf t x : is_erf erf -> 0 < b_w t ->
  derivable_pt_lim (fun x => - (0.5 * sqrt PI * sqrt (b_w t) * b_s t * erf ((b_c t - x) / sqrt (b_w t)))) x (bump_val t x).
Proof.
  intros [E0 E] Hw. assert (Hs : 0 < sqrt (b_w t)) by now apply sqrt_lt_R0. assert (HP := sqrt_PI_pos).
  eapply dl_eq.
  - apply derivable_pt_lim_opp. apply derivable_pt_lim_scal.
    apply (dl_comp (fun x => (b_c t - x) / sqrt (b_w t)) erf); [dl | apply E].
  - unfold bump_val.
    replace ((b_c t - x) / sqrt (b_w t) * ((b_c t - x) / sqrt (b_w t)))
      with ((x - b_c t) * (x - b_c t) / (sqrt (b_w t) * sqrt (b_w t))) by (field; lra).
    rewrite sqrt_sqrt by lra.
    replace (- ((x - b_c t) * (x - b_c t) / b_w t)) with (- ((x - b_c t) * (x - b_c t)) / b_w t) by (field; lra).
    replace 0.5 with (1 / 2) by lra. field. split; lra.
Qed.
Lemma bump_cont t : 0 < b_w t -> continuity (bump_val t).
Proof. intros Hw. apply (cont_of_dl _ (bump_slope t)). intros x. now apply bump_slope_ok. Qed.

Lemma kint_gk erf t lb ub : is_erf erf -> 0 < b_w t -> lb <= ub ->
  exists v, kernel_integrate erf (gk t) lb ub = Ok v /\ is_RInt (bump_val t) lb ub v.
Proof.
  intros He Hw Hlu. eexists. split; [reflexivity|].
  assert (H := is_RInt_primitive _ _ lb ub Hlu (fun x => bump_prim erf t x He Hw) (bump_cont t Hw)).
  unfold gauss_kernel_integrate. cbn [gk k_par].
  match goal with H : is_RInt _ _ _ ?a |- is_RInt _ _ _ ?b => replace b with a; [exact H|] end. ring.
Qed.

Lemma is_RInt_scal f a b l v : is_RInt f a b v -> is_RInt (fun x => l * f x) a b (l * v).
Proof.
  intros H. destruct (is_RInt_comb (fun _ => 0) f a b l _ _ (is_RInt_const 0 a b) H) as [p Hp].
  assert (K : is_RInt (fun x => 0 + l * f x) a b (0 * (b - a) + l * v)) by now exists p.
  destruct (Rle_dec a b) as [L|L].
  - replace (l * v) with (0 * (b - a) + l * v) by ring.
    apply is_RInt_ext with (fun x => 0 + l * f x); auto. intros; ring.
  - destruct K as [q Hq].
    assert (X : is_RInt (fun x => l * f x) b a (- (l * v))).
    { apply is_RInt_ext with (fun x => 0 + l * f x); [lra | intros; ring|].
      exists (RiemannInt_P1 q). rewrite (RiemannInt_P8 _ q). rewrite Hq. ring. }
    destruct X as [q' Hq']. exists (RiemannInt_P1 q'). rewrite (RiemannInt_P8 _ q'). rewrite Hq'. ring.
Qed.

Lemma is_RInt_sum {A} (F : A -> R -> R) (V : A -> R) (l : list A) a b :
  a <= b -> (forall t, In t l -> is_RInt (F t) a b (V t)) ->
  is_RInt (fun x => sumF (fun t => F t x) l) a b (sumF V l).
Proof.
  intros Hab. induction l as [|t l IH]; intros H.
  - replace (sumF V (@nil A)) with (0 * (b - a)) by (cbn; ring). apply (is_RInt_const 0).
  - assert (K := is_RInt_comb _ _ a b 1 _ _ (H t (or_introl eq_refl)) (IH (fun u Hu => H u (or_intror Hu)))).
    replace (sumF V (t :: l)) with (V t + 1 * sumF V l) by (cbn; unfold sumF; ring).
    apply is_RInt_ext with (fun x => F t x + 1 * sumF (fun t0 => F t0 x) l); auto.
    intros x _. cbn. unfold sumF. ring.
Qed.

Definition bint erf (t : bump) lb ub := gauss_kernel_integrate erf (b_s t) (b_w t) (b_c t) lb ub.
Lemma integrate_holds erf e ts : is_erf erf -> holds e ts -> widths_pos ts -> e_lb e <= e_ub e ->
  exists v, kexp_integrate erf e = Ok v /\ is_RInt (kfun ts) (e_lb e) (e_ub e) v.
Proof.
  intros He [Hn H] Hw Hlu. eexists. split.
  - unfold kexp_integrate. rewrite Hn.
    apply (for_sum (fun t => b_a t * bint erf t (e_lb e) (e_ub e))).
    intros i t out Hi. destruct (H i t Hi) as [H1 H2].
    rewrite (aget_some _ _ _ H1), (pget_some _ _ _ H2). reflexivity.
  - rewrite Rplus_0_l. unfold kfun. apply is_RInt_sum; [exact Hlu|]. intros t Ht.
    apply is_RInt_scal. destruct (kint_gk erf t _ _ He (Hw t Ht) Hlu) as (v & Ev & Iv).
    injection Ev as <-. exact Iv.
Qed.

(** product of two bumps *)
Lemma prod_prim erf t u x : is_erf erf -> 0 < b_w t -> 0 < b_w u ->
  derivable_pt_lim (fun x => - (sqrt PI * sqrt (b_w t) * sqrt (b_w u) * b_s t * b_s u
      * exp (- (b_c t - b_c u) * (b_c t - b_c u) / (b_w t + b_w u)) / (2 * sqrt (b_w t + b_w u))
      * erf ((b_c t * b_w u + b_w t * b_c u - x * (b_w t + b_w u)) / (sqrt (b_w t) * sqrt (b_w u) * sqrt (b_w t + b_w u)))))
    x (bump_val t x * bump_val u x).
Proof.
  intros [E0 E] Hw Hu.
  assert (H1 : 0 < sqrt (b_w t)) by now apply sqrt_lt_R0.
  assert (H2 : 0 < sqrt (b_w u)) by now apply sqrt_lt_R0.
  assert (H3 : 0 < sqrt (b_w t + b_w u)) by (apply sqrt_lt_R0; lra). assert (HP := sqrt_PI_pos).
  assert (Q1 : sqrt (b_w t) * sqrt (b_w t) = b_w t) by (apply sqrt_sqrt; lra).
  assert (Q2 : sqrt (b_w u) * sqrt (b_w u) = b_w u) by (apply sqrt_sqrt; lra).
  assert (Q3 : sqrt (b_w t + b_w u) * sqrt (b_w t + b_w u) = b_w t + b_w u) by (apply sqrt_sqrt; lra).
  eapply dl_eq.
  - apply derivable_pt_lim_opp. apply derivable_pt_lim_scal.
    apply (dl_comp (fun x => (b_c t * b_w u + b_w t * b_c u - x * (b_w t + b_w u)) / (sqrt (b_w t) * sqrt (b_w u) * sqrt (b_w t + b_w u))) erf); [dl | apply E].
  - cbv beta. unfold bump_val.
    set (s1 := sqrt (b_w t)) in *. set (s2 := sqrt (b_w u)) in *. set (s3 := sqrt (b_w t + b_w u)) in *.
    set (N := b_c t * b_w u + b_w t * b_c u - x * (b_w t + b_w u)).
    replace (N / (s1 * s2 * s3) * (N / (s1 * s2 * s3)))
      with (N * N / ((s1 * s1) * (s2 * s2) * (s3 * s3))) by (field; repeat split; lra).
    rewrite Q1, Q2, Q3.
    replace (b_s t * exp (- ((x - b_c t) * (x - b_c t)) / b_w t) * (b_s u * exp (- ((x - b_c u) * (x - b_c u)) / b_w u)))
      with (b_s t * b_s u * (exp (- ((x - b_c t) * (x - b_c t)) / b_w t) * exp (- ((x - b_c u) * (x - b_c u)) / b_w u))) by ring.
    rewrite <- exp_plus.
    replace (- ((x - b_c t) * (x - b_c t)) / b_w t + - ((x - b_c u) * (x - b_c u)) / b_w u)
      with (- (b_c t - b_c u) * (b_c t - b_c u) / (b_w t + b_w u) + - (N * N / (b_w t * b_w u * (b_w t + b_w u))))
      by (unfold N; field; repeat split; lra).
    rewrite exp_plus.
    set (X := exp (- (b_c t - b_c u) * (b_c t - b_c u) / (b_w t + b_w u))).
    set (Y := exp (- (N * N / (b_w t * b_w u * (b_w t + b_w u))))).
    replace (0 - (1 * (b_w t + b_w u) + x * 0)) with (- (s3 * s3)) by (rewrite Q3; ring).
    field. repeat split; lra.
Qed.

Definition binner erf (t u : bump) lb ub :=
  gauss_kernel_inner erf (b_s t) (b_w t) (b_c t) (b_s u) (b_w u) (b_c u) lb ub.
Lemma binner_ok erf t u lb ub : is_erf erf -> 0 < b_w t -> 0 < b_w u -> lb <= ub ->
  is_RInt (fun x => bump_val t x * bump_val u x) lb ub (binner erf t u lb ub).
Proof.
  intros He Hw Hu Hlu.
  assert (C : continuity (fun x => bump_val t x * bump_val u x)).
  { intros x. apply (continuity_pt_mult (bump_val t) (bump_val u)); now apply bump_cont. }
  assert (H := is_RInt_primitive _ _ lb ub Hlu (fun x => prod_prim erf t u x He Hw Hu) C).
  unfold binner, gauss_kernel_inner. cbv zeta.
  match goal with H : is_RInt _ _ _ ?a |- is_RInt _ _ _ ?b => replace b with a; [exact H|] end.
  ring.
Qed.

Lemma kinner_gk erf t u lb ub : kernel_inner erf (gk t) (gk u) lb ub = Ok (binner erf t u lb ub).
Proof. reflexivity. Qed.

Lemma inner_holds erf a b ts us : holds a ts -> holds b us ->
  kexp_inner erf a b =
  Ok (sumF (fun t => sumF (fun u => b_a t * b_a u * binner erf t u (Rmax (e_lb a) (e_lb b)) (Rmin (e_ub a) (e_ub b))) us) ts).
Proof.
  intros [Hn H] [Hm K]. unfold kexp_inner.
  replace (if Rltb (e_lb a) (e_lb b) then e_lb b else e_lb a) with (Rmax (e_lb a) (e_lb b)).
  2:{ destruct (Rltb_spec (e_lb a) (e_lb b)); [apply Rmax_right; lra | apply Rmax_left; lra]. }
  replace (if Rltb (e_ub b) (e_ub a) then e_ub b else e_ub a) with (Rmin (e_ub a) (e_ub b)).
  2:{ destruct (Rltb_spec (e_ub b) (e_ub a)); [apply Rmin_right; lra | apply Rmin_left; lra]. }
  cbv zeta. rewrite Hn.
  rewrite (for_sum (fun t => sumF (fun u => b_a t * b_a u * binner erf t u (Rmax (e_lb a) (e_lb b)) (Rmin (e_ub a) (e_ub b))) us)).
  - f_equal. ring.
  - intros i t out Hi. destruct (H i t Hi) as [H1 H2]. rewrite Hm. apply for_sum.
    intros j u o Hj. destruct (K j u Hj) as [K1 K2].
    rewrite (aget_some _ _ _ H1), (pget_some _ _ _ H2), (aget_some _ _ _ K1), (pget_some _ _ _ K2).
    reflexivity.
Qed.

Lemma sumF_mul {A B} (F : A -> R) (G : B -> R) l m :
  sumF F l * sumF G m = sumF (fun t => sumF (fun u => F t * G u) m) l.
Proof.
  induction l as [|t l IH].
  - cbn. ring.
  - change (sumF F (t :: l)) with (F t + sumF F l).
    change (sumF (fun t => sumF (fun u => F t * G u) m) (t :: l))
      with (sumF (fun u => F t * G u) m + sumF (fun t => sumF (fun u => F t * G u) m) l).
    rewrite <- IH, (sumF_scal (F t) G m). ring.
Qed.
