(** The error function of the C library, specified and shown to exist and to be the only
    one; bounds on the area under the bell curve, and a rule for derivatives. *)
From Coq Require Import Reals Lra Lia.
From Verif Require Import RIntLib.
Open Scope R_scope.

(** erf(0) = 0 and erf'(x) = 2/sqrt(pi) exp(-x^2) *)
Definition is_erf (erf : R -> R) : Prop :=
  erf 0 = 0 /\ forall x, derivable_pt_lim erf x (2 / sqrt PI * exp (- (x * x))).

Lemma dl_eq f x l l' : derivable_pt_lim f x l -> l = l' -> derivable_pt_lim f x l'.
Proof. now intros H <-. Qed.

Lemma dl_const c x : derivable_pt_lim (fun _ => c) x 0.
Proof. apply (derivable_pt_lim_const c). Qed.

Lemma dl_comp f g x l m :
  derivable_pt_lim f x l -> derivable_pt_lim g (f x) m ->
  derivable_pt_lim (fun y => g (f y)) x (m * l).
Proof. apply (derivable_pt_lim_comp f g). Qed.

(** derivatives of expressions, structurally *)
Ltac dl :=
  lazymatch goal with
  | |- derivable_pt_lim (fun x => x) _ _ => apply derivable_pt_lim_id
  | |- derivable_pt_lim (fun _ => ?c) _ _ => apply dl_const
  | |- derivable_pt_lim (fun x => @?f x + @?g x) _ _ => apply (derivable_pt_lim_plus f g); dl
  | |- derivable_pt_lim (fun x => @?f x - @?g x) _ _ => apply (derivable_pt_lim_minus f g); dl
  | |- derivable_pt_lim (fun x => @?f x * @?g x) _ _ => apply (derivable_pt_lim_mult f g); dl
  | |- derivable_pt_lim (fun x => @?f x / @?g x) _ _ => apply (derivable_pt_lim_mult f (fun x => / g x)); dl
  | |- derivable_pt_lim (fun x => - @?f x) _ _ => apply (derivable_pt_lim_opp f); dl
  | |- derivable_pt_lim (fun x => exp (@?f x)) _ _ =>
      apply (dl_comp f exp); [dl | apply derivable_pt_lim_exp]
  | |- _ => idtac
  end.

Lemma cont_of_dl f f' : (forall x, derivable_pt_lim f x (f' x)) -> continuity f.
Proof. intros H x. apply derivable_continuous_pt. exists (f' x). apply H. Qed.

(** a function that starts at zero and has a nonnegative derivative is nonnegative *)
Lemma nonneg_of_deriv f f' :
  f 0 = 0 -> (forall x, derivable_pt_lim f x (f' x)) -> (forall x, 0 <= x -> 0 <= f' x) ->
  forall x, 0 <= x -> 0 <= f x.
Proof.
  intros H0 Hd Hp x [Hx| <-]; [|lra].
  destruct (MVT_cor2 f f' 0 x Hx) as (c & E & Hc); [auto|].
  assert (0 <= f' c * (x - 0)) by (apply Rmult_le_pos; [apply Hp; lra | lra]). lra.
Qed.

Lemma incr_of_deriv f f' :
  (forall x, derivable_pt_lim f x (f' x)) -> (forall x, 0 < f' x) ->
  forall x y, x < y -> f x < f y.
Proof.
  intros Hd Hp x y Hxy. destruct (MVT_cor2 f f' x y Hxy) as (c & E & Hc); [auto|].
  assert (0 < f' c * (y - x)) by (apply Rmult_lt_0_compat; [apply Hp | lra]). lra.
Qed.

Lemma zero_of_deriv f : f 0 = 0 -> (forall x, derivable_pt_lim f x 0) -> forall x, f x = 0.
Proof.
  intros H0 Hd x.
  destruct (Rtotal_order x 0) as [H|[->|H]]; [|exact H0|].
  - destruct (MVT_cor2 f (fun _ => 0) x 0 H) as (c & E & _); [auto|]. lra.
  - destruct (MVT_cor2 f (fun _ => 0) 0 x H) as (c & E & _); [auto|]. lra.
Qed.

(** ** existence and uniqueness *)
Section Exist.
  Variable f : R -> R.
  Hypothesis fc : continuity f.

  Definition ri a b : Riemann_integrable f a b.
  Proof.
    destruct (Rle_dec a b) as [h|h].
    - apply continuity_implies_RiemannInt; [exact h | intros; apply fc].
    - apply RiemannInt_P1. apply continuity_implies_RiemannInt; [lra | intros; apply fc].
  Defined.

  Lemma prim_deriv x : derivable_pt_lim (fun y => RiemannInt (ri 0 y)) x (f x).
  Proof.
    set (M := Rabs x + 1).
    assert (Hx := Rle_abs x). assert (Hx' := Rle_abs (- x)). rewrite Rabs_Ropp in Hx'.
    assert (h : - M <= M) by (unfold M; lra).
    assert (C0 : forall z, - M <= z <= M -> continuity_pt f z) by (intros; apply fc).
    assert (D := @RiemannInt_P28 f (- M) M x h C0 ltac:(unfold M; lra)).
    intros eps He. destruct (D eps He) as [del Hd].
    assert (Hm : 0 < Rmin del 1) by (apply Rmin_pos; [apply cond_pos | lra]).
    exists (mkposreal _ Hm). intros k Hk Hlt. cbn [pos] in Hlt.
    assert (Hk1 : Rabs k < del) by (eapply Rlt_le_trans; [exact Hlt | apply Rmin_l]).
    assert (Hk2 : Rabs k < 1) by (eapply Rlt_le_trans; [exact Hlt | apply Rmin_r]).
    apply Rabs_def2 in Hk2.
    assert (P : forall z, - M <= z <= M ->
      primitive h (FTC_P1 h C0) z = RiemannInt (ri (- M) 0) + RiemannInt (ri 0 z)).
    { intros z Hz. unfold primitive. destruct (Rle_dec (- M) z); [|lra].
      destruct (Rle_dec z M); [|lra]. symmetry. apply RiemannInt_P26. }
    specialize (Hd k Hk Hk1). rewrite !P in Hd by (unfold M in *; lra).
    replace (RiemannInt (ri 0 (x + k)) - RiemannInt (ri 0 x))
      with (RiemannInt (ri (- M) 0) + RiemannInt (ri 0 (x + k)) - (RiemannInt (ri (- M) 0) + RiemannInt (ri 0 x)))
      by ring. exact Hd.
  Qed.
End Exist.

Lemma gauss_continuity c : continuity (fun x => c * exp (- (x * x))).
Proof.
  apply (cont_of_dl _ (fun x => 0 * exp (- (x * x)) + c * (exp (- (x * x)) * - (1 * x + x * 1)))).
  intros x. eapply dl_eq; [dl | reflexivity].
Qed.

Lemma erf_exists : exists erf, is_erf erf.
Proof.
  exists (fun y => RiemannInt (ri _ (gauss_continuity (2 / sqrt PI)) 0 y)). split.
  - apply RiemannInt_P9.
  - intros x. apply (prim_deriv (fun x => 2 / sqrt PI * exp (- (x * x)))).
Qed.

Lemma erf_unique e1 e2 : is_erf e1 -> is_erf e2 -> forall x, e1 x = e2 x.
Proof.
  intros [A0 A] [B0 B] x.
  assert (e1 x - e2 x = 0); [|lra].
  apply (zero_of_deriv (fun x => e1 x - e2 x)); [lra|].
  intros y. eapply dl_eq; [apply (derivable_pt_lim_minus e1 e2); [apply A | apply B] | ring].
Qed.

Lemma erf_odd erf : is_erf erf -> forall x, erf (- x) = - erf x.
Proof.
  intros [A0 A] x. assert (erf (- x) + erf x = 0); [|lra].
  apply (zero_of_deriv (fun x => erf (- x) + erf x)).
  - rewrite Ropp_0. lra.
  - intros y. eapply dl_eq.
    + apply (derivable_pt_lim_plus (fun x => erf (- x)) erf); [|apply A].
      apply (dl_comp Ropp erf); [|apply A]. apply (derivable_pt_lim_opp id). apply derivable_pt_lim_id.
    + cbv beta. replace (- y * - y) with (y * y) by ring. ring.
Qed.

Lemma sqrt_PI_pos : 0 < sqrt PI.
Proof. apply sqrt_lt_R0, PI_RGT_0. Qed.

Lemma erf_incr erf : is_erf erf -> forall x y, x < y -> erf x < erf y.
Proof.
  intros [_ A]. apply (incr_of_deriv _ _ A). intros x.
  apply Rmult_lt_0_compat; [|apply exp_pos].
  apply Rdiv_lt_0_compat; [lra | apply sqrt_PI_pos].
Qed.

(** ** bounds on exp(-y) for nonnegative y *)
Lemma expm_le1 y : 0 <= y -> exp (- y) <= 1.
Proof. intros H. rewrite <- exp_0. destruct H as [H| <-]; [left; apply exp_increasing; lra | right; f_equal; lra]. Qed.

Lemma expm_ge y : 1 - y <= exp (- y).
Proof. assert (H := exp_ineq1_le (- y)). lra. Qed.

Lemma expm_le2 y : 0 <= y -> exp (- y) <= 1 - y + y * y / 2.
Proof.
  intros H. assert (0 <= 1 - y + y * y / 2 - exp (- y)); [|lra]. revert y H.
  apply (nonneg_of_deriv _ (fun y => exp (- y) - (1 - y))).
  - rewrite Ropp_0, exp_0. field.
  - intros x. eapply dl_eq; [dl | cbv beta; field].
  - intros x Hx. assert (A := expm_ge x). lra.
Qed.

Lemma expm_ge3 y : 0 <= y -> 1 - y + y * y / 2 - y * y * y / 6 <= exp (- y).
Proof.
  intros H. assert (0 <= exp (- y) - (1 - y + y * y / 2 - y * y * y / 6)); [|lra]. revert y H.
  apply (nonneg_of_deriv _ (fun y => (1 - y + y * y / 2) - exp (- y))).
  - rewrite Ropp_0, exp_0. field.
  - intros x. eapply dl_eq; [dl | cbv beta; field].
  - intros x Hx. assert (A := expm_le2 x Hx). lra.
Qed.

Lemma expm_le4 y : 0 <= y -> exp (- y) <= 1 - y + y * y / 2 - y * y * y / 6 + y * y * y * y / 24.
Proof.
  intros H. assert (0 <= 1 - y + y * y / 2 - y * y * y / 6 + y * y * y * y / 24 - exp (- y)); [|lra]. revert y H.
  apply (nonneg_of_deriv _ (fun y => exp (- y) - (1 - y + y * y / 2 - y * y * y / 6))).
  - rewrite Ropp_0, exp_0. field.
  - intros x. eapply dl_eq; [dl | cbv beta; field].
  - intros x Hx. assert (A := expm_ge3 x Hx). lra.
Qed.

(** ** area under exp(-t^2/2) from 0 to x *)
Section Area.
  Variable G : R -> R.
  Hypothesis G0 : G 0 = 0.
  Hypothesis Gd : forall x, derivable_pt_lim G x (exp (- (x * x / 2))).

  Lemma area_ge x : 0 <= x -> x - x * x * x / 6 <= G x.
  Proof.
    intros H. assert (0 <= G x - (x - x * x * x / 6)); [|lra]. revert x H.
    apply (nonneg_of_deriv _ (fun x => exp (- (x * x / 2)) - (1 - x * x / 2))).
    - rewrite G0. field.
    - intros x. eapply dl_eq.
      + apply (derivable_pt_lim_minus G (fun x => x - x * x * x / 6)); [apply Gd | dl].
      + cbv beta. field.
    - intros x _. assert (A := expm_ge (x * x / 2)). lra.
  Qed.

  Definition area_poly x :=
    x - x * x * x / 6 + x * x * x * x * x / 40 - x * x * x * x * x * x * x / 336
      + x * x * x * x * x * x * x * x * x / 3456.

  Lemma area_le x : 0 <= x -> G x <= area_poly x.
  Proof.
    intros H. assert (0 <= area_poly x - G x); [|lra]. revert x H. unfold area_poly.
    apply (nonneg_of_deriv _ (fun x => let y := x * x / 2 in
      (1 - y + y * y / 2 - y * y * y / 6 + y * y * y * y / 24) - exp (- y))).
    - rewrite G0. field.
    - intros x. eapply dl_eq.
      + apply (derivable_pt_lim_minus (fun x => x - x * x * x / 6 + x * x * x * x * x / 40
          - x * x * x * x * x * x * x / 336 + x * x * x * x * x * x * x * x * x / 3456) G); [dl | apply Gd].
      + cbv beta zeta. field.
    - intros x Hx. assert (A := expm_le4 (x * x / 2)). cbv zeta.
      assert (0 <= x * x) by (apply Rmult_le_pos; lra). lra.
  Qed.

  Lemma area_incr x y : x < y -> G x < G y.
  Proof. apply (incr_of_deriv _ _ Gd). intros z. apply exp_pos. Qed.
End Area.

Lemma PI_bounds : 3.115 < PI < 3.17.
Proof.
  assert (H := PI_ineq 20). cbn [Nat.mul Nat.add] in H.
  unfold tg_alt, PI_tg in H. cbn [sum_f_R0 pow Nat.mul Nat.add] in H.
  rewrite !INR_IZR_INZ in H. cbn [Z.of_nat Pos.of_succ_nat Pos.succ] in H. lra.
Qed.
