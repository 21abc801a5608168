(** The Riemann integral of the standard library as a relation, with the few
    rules the nodal function classes need. *)
From Coq Require Import Reals RList RiemannInt_SF RiemannInt Lra Lia List.
Local Open Scope R_scope.

(** [v] is the integral of [h] over [a,b]. *)
Definition is_RInt (h : R -> R) (a b v : R) : Prop :=
  exists pr : Riemann_integrable h a b, RiemannInt pr = v.

Lemma is_RInt_unique h a b v w : is_RInt h a b v -> is_RInt h a b w -> v = w.
Proof. intros [p <-] [q <-]. apply RiemannInt_P5. Qed.

Lemma is_RInt_point h a : is_RInt h a a 0.
Proof. exists (RiemannInt_P7 h a). apply RiemannInt_P9. Qed.

Lemma is_RInt_chasles h a b c v w :
  is_RInt h a b v -> is_RInt h b c w -> is_RInt h a c (v + w).
Proof.
  intros [p <-] [q <-]. exists (RiemannInt_P24 p q). symmetry. apply RiemannInt_P26.
Qed.

Lemma is_RInt_comb f g a b l v w :
  is_RInt f a b v -> is_RInt g a b w -> is_RInt (fun x => f x + l * g x) a b (v + l * w).
Proof.
  intros [p <-] [q <-]. exists (RiemannInt_P10 l p q). apply RiemannInt_P13.
Qed.

Lemma is_RInt_const c a b : is_RInt (fun _ => c) a b (c * (b - a)).
Proof. exists (RiemannInt_P14 a b c). apply RiemannInt_P15. Qed.

Lemma pos_Rl_mono l : ordered_Rlist l ->
  forall i j, (i <= j)%nat -> (j < length l)%nat -> pos_Rl l i <= pos_Rl l j.
Proof.
  intros Ho i j Hij. induction Hij as [|j Hij IH]; intros Hj; [lra|].
  apply Rle_trans with (pos_Rl l j); [apply IH; lia|]. apply Ho. lia.
Qed.

(** Changing a function at the two ends of the interval does not matter. *)
Lemma Riemann_integrable_ext_open f g a b :
  a <= b -> (forall x, a < x < b -> f x = g x) ->
  Riemann_integrable f a b -> Riemann_integrable g a b.
Proof.
  intros Hab Hfg X eps. destruct (X eps) as [phi [psi [H1 H2]]].
  assert (Hmin : Rmin a b = a) by (apply Rmin_left; lra).
  assert (Hmax : Rmax a b = b) by (apply Rmax_right; lra).
  set (phi' := fun x => if Req_EM_T x a then g a else if Req_EM_T x b then g b else phi x).
  assert (Hp : IsStepFun phi' a b).
  { destruct (pre phi) as [l [lf Hl]]. exists l, lf.
    destruct Hl as (Ho & Ha & Hb & Hlen & Hc). repeat split; auto.
    intros i Hi. intros x Hx. rewrite <- (Hc i Hi x Hx). unfold phi', open_interval in *.
    assert (Hpos : (0 < length l)%nat) by lia.
    assert (pos_Rl l 0 <= pos_Rl l i) by (apply pos_Rl_mono; auto; lia).
    assert (pos_Rl l (S i) <= pos_Rl l (pred (length l))) by (apply pos_Rl_mono; auto; lia).
    rewrite Ha, Hmin in *. rewrite Hb, Hmax in *.
    destruct (Req_EM_T x a); [lra|]. destruct (Req_EM_T x b); [lra|]. reflexivity. }
  exists (mkStepFun Hp), psi. split; auto.
  intros t Ht. specialize (H1 t Ht). cbn [fe]. unfold phi'.
  rewrite Hmin, Hmax in Ht. pose proof (Rabs_pos (f t - phi t)) as Hpos.
  destruct (Req_EM_T t a) as [->|]; [rewrite Rminus_diag_eq, Rabs_R0 by auto; lra|].
  destruct (Req_EM_T t b) as [->|]; [rewrite Rminus_diag_eq, Rabs_R0 by auto; lra|].
  rewrite <- Hfg by lra. exact H1.
Qed.

Lemma is_RInt_ext f g a b v :
  a <= b -> (forall x, a < x < b -> f x = g x) -> is_RInt f a b v -> is_RInt g a b v.
Proof.
  intros Hab Hfg [p <-]. exists (Riemann_integrable_ext_open f g a b Hab Hfg p).
  symmetry. now apply RiemannInt_P18.
Qed.

(** Fundamental theorem: a continuous function with a known primitive. *)
Lemma is_RInt_primitive F F' a b :
  a <= b -> (forall x, derivable_pt_lim F x (F' x)) -> continuity F' ->
  is_RInt F' a b (F b - F a).
Proof.
  intros Hab HF Hc.
  set (d0 := fun x => exist _ (F' x) (HF x) : derivable_pt F x).
  assert (E : forall x, derive F d0 x = F' x) by reflexivity.
  assert (Hc' : continuity (derive F d0)) by exact Hc.
  set (C := @mkC1 F d0 Hc').
  assert (P : Riemann_integrable (derive C (diff0 C)) a b).
  { apply continuity_implies_RiemannInt; [exact Hab|]. intros x _. apply Hc. }
  exists P. apply (FTC_Riemann C).
Qed.

(** An affine function on one cell. *)
Lemma is_RInt_affine h a b p q :
  a <= b -> (forall x, a < x < b -> h x = p + q * x) ->
  is_RInt h a b ((p + q * a + (p + q * b)) / 2 * (b - a)).
Proof.
  intros Hab Hh.
  apply is_RInt_ext with (fun x => p + q * x); auto.
  { intros x Hx. now rewrite Hh. }
  replace ((p + q * a + (p + q * b)) / 2 * (b - a))
    with ((p * b + q / 2 * (b * b)) - (p * a + q / 2 * (a * a))) by field.
  apply (is_RInt_primitive (fun x => p * x + q / 2 * (x * x)) (fun x => p + q * x)); auto.
  - intros x. replace (p + q * x) with (p * 1 + q / 2 * (1 * x + x * 1)) by field.
    apply derivable_pt_lim_plus.
    + apply derivable_pt_lim_scal, derivable_pt_lim_id.
    + apply derivable_pt_lim_scal. apply (derivable_pt_lim_mult id id); apply derivable_pt_lim_id.
  - intros x. apply continuity_pt_plus; [apply continuity_pt_const; now intros ? ?|].
    apply continuity_pt_mult; [apply continuity_pt_const; now intros ? ?|].
    apply derivable_continuous_pt, derivable_pt_id.
Qed.
