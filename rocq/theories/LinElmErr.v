(** How far the inner product of piecewise-linear functions is from the integral
    of the product. *)
From Verif Require Import Base BaseFacts FOps LinElmModel LinElmSpec LinElmFacts LinElmMerge LinElmArith LinElmInt ConstElmFacts RIntLib.
From Coq Require Import Reals Lra.
Local Open Scope R_scope.

Lemma is_RInt_prod_affine h a b p q r s : a <= b ->
  (forall x, a < x < b -> h x = (p + q * x) * (r + s * x)) ->
  is_RInt h a b ((p * r * b + (p * s + q * r) * (b ^ 2 / 2) + q * s * (b ^ 3 / 3))
               - (p * r * a + (p * s + q * r) * (a ^ 2 / 2) + q * s * (a ^ 3 / 3))).
Proof.
  intros Hab Hh.
  apply is_RInt_ext with (fun x => (p + q * x) * (r + s * x)); auto.
  { intros x Hx. now rewrite Hh. }
  apply (is_RInt_primitive (fun x => p * r * x + (p * s + q * r) * (x ^ 2 / 2) + q * s * (x ^ 3 / 3))); auto.
  - intros x. replace ((p + q * x) * (r + s * x))
      with (p * r * 1 + (p * s + q * r) * (INR 2 * x ^ 1 * / 2) + q * s * (INR 3 * x ^ 2 * / 3)) by (cbn; field).
    apply derivable_pt_lim_plus; [apply derivable_pt_lim_plus|].
    + apply (derivable_pt_lim_scal (fun x => x) (p * r)), derivable_pt_lim_id.
    + apply (derivable_pt_lim_scal (fun x => x ^ 2 / 2)).
      replace (INR 2 * x ^ 1 * / 2) with (/ 2 * (INR 2 * x ^ 1)) by ring.
      apply (derivable_pt_lim_ext (fun x => / 2 * x ^ 2)); [intros; field|].
      apply (derivable_pt_lim_scal (fun x => x ^ 2)). apply (derivable_pt_lim_pow x 2).
    + apply (derivable_pt_lim_scal (fun x => x ^ 3 / 3)).
      replace (INR 3 * x ^ 2 * / 3) with (/ 3 * (INR 3 * x ^ 2)) by ring.
      apply (derivable_pt_lim_ext (fun x => / 3 * x ^ 3)); [intros; field|].
      apply (derivable_pt_lim_scal (fun x => x ^ 3)). apply (derivable_pt_lim_pow x 3).
  - intros x. apply continuity_pt_mult; apply continuity_pt_plus;
      try (apply continuity_pt_const; intros ? ?; reflexivity);
      apply continuity_pt_mult; try (apply continuity_pt_const; intros ? ?; reflexivity);
      apply derivable_continuous_pt, derivable_pt_id.
Qed.

(** The sum of the products of the jumps. *)
Fixpoint jumps (n : nat) (x y z : nat -> R) : R :=
  match n with
  | S ((S m) as n') => jumps n' x y z + (y (S m) - y m) * (z (S m) - z m) * (x (S m) - x m) / 6
  | _ => 0
  end.

Lemma jumps_SS m x y z : jumps (S (S m)) x y z = jumps (S m) x y z + (y (S m) - y m) * (z (S m) - z m) * (x (S m) - x m) / 6.
Proof. reflexivity. Qed.

Lemma prod_RInt (xs ys zs : list R) (h : R -> R) (hy hz : R -> R) n : (1 <= n)%nat -> sinc n xs ->
  (forall i x, (S i < n)%nat -> nd xs i < x < nd xs (S i) -> on_line (nd xs i) (nd ys i) (nd xs (S i)) (nd ys (S i)) x (hy x)) ->
  (forall i x, (S i < n)%nat -> nd xs i < x < nd xs (S i) -> on_line (nd xs i) (nd zs i) (nd xs (S i)) (nd zs (S i)) x (hz x)) ->
  is_RInt (fun x => hy x * hz x) (nd xs 0) (nd xs (n - 1))
    (trap n (nd xs) (fun i => nd ys i * nd zs i) - jumps n (nd xs) (nd ys) (nd zs)).
Proof.
  intros Hn Hs. destruct n as [|n]; [lia|]. clear Hn. replace (S n - 1)%nat with n by lia.
  induction n as [|n IH]; intros Hy Hz.
  { cbn. rewrite Rminus_0_r. apply is_RInt_point. }
  rewrite trap_SS, jumps_SS.
  match goal with |- is_RInt _ _ _ (?a + ?b - (?c + ?d)) => replace (a + b - (c + d)) with ((a - c) + (b - d)) by ring end.
  apply is_RInt_chasles with (nd xs n).
  - apply IH; [intros i Hi; apply Hs; lia| |]; intros i x Hi; [apply Hy|apply Hz]; lia.
  - assert (Hlt : nd xs n < nd xs (S n)) by (apply Hs; lia).
    set (x0 := nd xs n) in *. set (x1 := nd xs (S n)) in *. set (y0 := nd ys n) in *. set (y1 := nd ys (S n)) in *.
    set (z0 := nd zs n) in *. set (z1 := nd zs (S n)) in *.
    set (sy := (y1 - y0) / (x1 - x0)). set (sz := (z1 - z0) / (x1 - x0)).
    match goal with |- is_RInt _ _ _ ?v00 => replace v00 with
      (((y0 - sy * x0) * (z0 - sz * x0) * x1 + ((y0 - sy * x0) * sz + sy * (z0 - sz * x0)) * (x1 ^ 2 / 2) + sy * sz * (x1 ^ 3 / 3))
      - ((y0 - sy * x0) * (z0 - sz * x0) * x0 + ((y0 - sy * x0) * sz + sy * (z0 - sz * x0)) * (x0 ^ 2 / 2) + sy * sz * (x0 ^ 3 / 3)))
      by (unfold sy, sz; field; lra) end.
    apply is_RInt_prod_affine; [lra|]. intros x Hx.
    assert (L : on_line x0 y0 x1 y1 x (hy x)) by (apply Hy; [lia|auto]).
    assert (L' : on_line x0 z0 x1 z1 x (hz x)) by (apply Hz; [lia|auto]). unfold on_line in L, L'.
    assert (E : hy x = y0 - sy * x0 + sy * x).
    { apply Rmult_eq_reg_r with (x1 - x0); [|lra]. unfold sy. field_simplify; [|lra]. lra. }
    assert (E' : hz x = z0 - sz * x0 + sz * x).
    { apply Rmult_eq_reg_r with (x1 - x0); [|lra]. unfold sz. field_simplify; [|lra]. lra. }
    rewrite E, E'. reflexivity.
Qed.

Section Fix.
Context (tol : R).
Notation K := (Rops tol).
Notation lexpR := (lexp K).
Notation In_f f := (Interp (l_n f) (l_nodes f) (l_coeff f)).

(** On one grid: the error is one sixth of the sum of the products of the jumps
    times the cell lengths. *)
Theorem le_inner_error (f g : lexpR) (hf hg : R -> R) : 0 <= tol -> valid tol f -> valid tol g -> same_grid tol f g ->
  (forall x, nd (l_nodes f) 0 <= x <= nd (l_nodes f) (l_n f - 1) -> In_f f x (hf x)) ->
  (forall x, nd (l_nodes g) 0 <= x <= nd (l_nodes g) (l_n g - 1) -> In_f g x (hg x)) ->
  exists v, @le_inner K f g = Ok v /\
    is_RInt (fun x => hf x * hg x) (nd (l_nodes f) 0) (nd (l_nodes f) (l_n f - 1))
      (v - jumps (l_n f) (nd (l_nodes f)) (nd (l_coeff f)) (nd (l_coeff g))).
Proof.
  intros Ht Vf Vg G Hf Hg. pose proof Vf as [Nf Lf Cf If]. pose proof Vg as [Ng Lg Cg Ig].
  unfold le_inner. setoid_rewrite (same_grid_sdiscp tol f g Ht Vf Vg G). cbn [obind].
  destruct G as [En Hn]. unr. rewrite (le_inner_same_trap tol (l_n f)) by lia. eexists. split; [reflexivity|].
  apply prod_RInt; auto; [lia| |].
  - now apply Interp_graph_line.
  - intros i x Hi Hx. rewrite !Hn in * by lia. apply Interp_graph_line with (n := l_n g); auto. lia.
Qed.

(** Bilinearity on one grid. *)
Theorem le_inner_bilinear (a : R) (f g f' : lexpR) : 0 <= tol -> valid tol f -> valid tol g -> valid tol f' ->
  same_grid tol f g -> same_grid tol f' g ->
  exists h vf vg v, @le_axpy K a f' f = Ok h /\ @le_inner K f g = Ok vf /\ @le_inner K f' g = Ok vg /\
     @le_inner K h g = Ok v /\ v = a * vg + vf.
Proof.
  intros Ht Vf Vg Vf' G G'. pose proof Vf as [Nf Lf Cf If]. pose proof Vg as [Ng Lg Cg Ig]. pose proof Vf' as [Nf' Lf' Cf' If'].
  assert (Gf : same_grid tol f' f).
  { destruct G as [En Hn], G' as [En' Hn']. split; [lia|]. intros i Hi. rewrite Hn' by auto. symmetry. apply Hn. lia. }
  unfold le_axpy. setoid_rewrite (same_grid_sdiscp tol f' f Ht Vf' Vf Gf). cbn [obind].
  pose proof G as [En Hn]. pose proof G' as [En' Hn']. unr.
  destruct (daxpy1_ok tol (l_n f) a (l_coeff f') (l_coeff f)) as (c & E & Lc & Hc & _); try lia.
  setoid_rewrite E. cbn [obind].
  set (h := mkL (l_n f) (l_nodes f) c : lexpR).
  assert (Vh : valid tol h). { constructor; cbn; auto. unr. lia. }
  assert (Gh : same_grid tol h g) by (split; cbn; auto).
  assert (I : forall e : lexpR, valid tol e -> same_grid tol e g -> 
     @le_inner K e g = Ok (trap (l_n e) (nd (l_nodes e)) (fun i => nd (l_coeff e) i * nd (l_coeff g) i))).
  { intros e Ve Ge. unfold le_inner. setoid_rewrite (same_grid_sdiscp tol e g Ht Ve Vg Ge). cbn [obind].
    pose proof Ve as [Ne Le Ce Ie]. destruct Ge as [Ee _]. unr. apply le_inner_same_trap; lia. }
  exists h. eexists _, _, _. split; [reflexivity|]. split; [now apply I|]. split; [now apply I|]. split; [now apply I|].
  rewrite En' , <- En.
  rewrite (trap_ext (l_n f) (nd (l_nodes f')) _ (nd (l_nodes f)) (fun i => nd (l_coeff f') i * nd (l_coeff g) i))
    by (auto; intros i Hi; apply Gf; lia).
  rewrite <- trap_comb. apply trap_ext; auto. intros i Hi. cbn [h l_coeff]. rewrite Hc by auto. ring.
Qed.

End Fix.
