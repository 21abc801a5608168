(** C103: integrals, inner products, sums, multiples and norms of kernel expansions. *)
From Coq Require Import Reals Lra.
From Verif Require Import Base BaseFacts FOps RIntLib ErfSpec KernModel KernSpec KernFacts PropKern.
Open Scope R_scope.

(** The integral over the domain. *)
Theorem C103_integrate erf e ts : is_erf erf -> holds e ts -> widths_pos ts -> e_lb e <= e_ub e ->
  exists v, kexp_integrate erf e = Ok v /\ is_RInt (kfun ts) (e_lb e) (e_ub e) v.
Proof. apply integrate_holds. Qed.
Print Assumptions C103_integrate.

(** The inner product is the integral of the product over the common part of the domains. *)
Theorem C103_inner erf a b ts us : is_erf erf -> holds a ts -> holds b us -> widths_pos ts -> widths_pos us ->
  Rmax (e_lb a) (e_lb b) <= Rmin (e_ub a) (e_ub b) ->
  exists v, kexp_inner erf a b = Ok v /\
    is_RInt (fun x => kfun ts x * kfun us x) (Rmax (e_lb a) (e_lb b)) (Rmin (e_ub a) (e_ub b)) v.
Proof.
  intros He Ha Hb Wt Wu Hlu. eexists. split; [apply (inner_holds erf a b ts us Ha Hb)|].
  set (lb := Rmax _ _) in *. set (ub := Rmin _ _) in *.
  apply is_RInt_ext with (fun x => sumF (fun t => sumF (fun u => b_a t * b_a u * (bump_val t x * bump_val u x)) us) ts); auto.
  - intros x _. unfold kfun. rewrite sumF_mul. apply sumF_ext. intros t _. apply sumF_ext. intros u _. ring.
  - apply (is_RInt_sum (fun t x => sumF (fun u => b_a t * b_a u * (bump_val t x * bump_val u x)) us)); auto.
    intros t Ht. apply (is_RInt_sum (fun u x => b_a t * b_a u * (bump_val t x * bump_val u x))); auto.
    intros u Hu. apply is_RInt_scal. apply binner_ok; auto.
Qed.
Print Assumptions C103_inner.

(** ** multiples and sums *)
Lemma holds_coeff e ts h :
  holds e ts -> (length ts <= length (e_coeff e))%nat ->
  forall cs, (forall j, (j < length ts)%nat -> nth_error cs j = Some (h j)) ->
  forall us, length us = length ts ->
    (forall j t, nth_error ts j = Some t -> nth_error us j = Some (with_a t (h j))) ->
  holds (mkkexp (e_alloc e) (e_n e) cs (e_kern e) (e_lb e) (e_ub e) (e_inc e)) us.
Proof.
  intros [Hn H] Hl cs Hcs us Hlu Hu. split; [cbn; lia|]. cbn. intros i u Hi.
  assert (Hi' : (i < length ts)%nat) by (rewrite <- Hlu; apply nth_error_Some; congruence).
  destruct (nth_error ts i) as [t|] eqn:Et; [|apply nth_error_None in Et; lia].
  rewrite (Hu i t Et) in Hi. injection Hi as <-. destruct (H i t Et) as [_ B]. cbn. split; [now apply Hcs | exact B].
Qed.

Theorem C103_scale a e ts : holds e ts ->
  exists e' us, kexp_scale a e = Ok e' /\ holds e' us /\
    (forall x, kfun us x = a * kfun ts x) /\ e_lb e' = e_lb e /\ e_ub e' = e_ub e.
Proof.
  intros Hh. destruct Hh as [Hn H] eqn:Eh.
  assert (Hl : (length ts <= length (e_coeff e))%nat).
  { destruct (Nat.le_gt_cases (length ts) (length (e_coeff e))) as [|G]; auto.
    destruct (nth_error ts (length (e_coeff e))) as [t|] eqn:Et; [|apply nth_error_None in Et; lia].
    destruct (H _ _ Et) as [A _]. assert (nth_error (e_coeff e) (length (e_coeff e)) <> None) by congruence.
    apply nth_error_Some in H0. lia. }
  set (h := fun i => nth i (e_coeff e) 0 * a).
  destruct (write_loop h (fun i cs => do c <- aget cs i; aset cs i (c * a)) (length ts) (e_coeff e) Hl)
    as (cs & E & L & P & _).
  { intros i l' Hi Hl' Hsame. rewrite (aget_ok l' i (nth i (e_coeff e) 0)).
    - cbn [obind]. apply aset_ok. lia.
    - rewrite Hsame by lia. apply nth_error_nth'. lia. }
  exists (mkkexp (e_alloc e) (e_n e) cs (e_kern e) (e_lb e) (e_ub e) (e_inc e)),
    (map (fun t => with_a t (b_a t * a)) ts).
  split; [unfold kexp_scale; rewrite Hn, E; reflexivity|].
  split; [|repeat split].
  - apply (holds_coeff e ts h Hh Hl cs P); [apply map_length|].
    intros j t Hj. rewrite nth_error_map, Hj. cbn. unfold h.
    destruct (H j t Hj) as [A _]. now rewrite (nth_error_nth _ _ _ A).
  - intros x. unfold kfun. rewrite <- sumF_scal. clear. induction ts as [|t ts IH]; [reflexivity|].
    cbn. unfold sumF in IH. rewrite IH. unfold bump_val. cbn. ring.
Qed.
Print Assumptions C103_scale.

Lemma same_kernel_refl k : (exists t, k = gk t) -> same_kernel k k = Ok true.
Proof.
  intros [t ->]. unfold same_kernel. cbn.
  assert (Z : forall a, Rltb ktol (Rabs (a - a)) = false).
  { intros a. rewrite Rminus_diag_eq, Rabs_R0 by reflexivity. destruct (Rltb_spec ktol 0) as [X|]; [|reflexivity].
    exfalso. unfold ktol in X. assert (0 < / 10 ^ 15) by (apply Rinv_0_lt_compat, pow_lt; lra). lra. }
  now rewrite !Z.
Qed.

(** Adding a multiple of an expansion with the same kernels. *)
Theorem C103_axpy a x y ts us : holds x ts -> holds y us -> length ts = length us ->
  (forall i t u, nth_error ts i = Some t -> nth_error us i = Some u -> gk t = gk u) ->
  exists y' vs, kexp_axpy a x y = Ok y' /\ holds y' vs /\
    (forall z, kfun vs z = kfun us z + a * kfun ts z) /\ e_lb y' = e_lb y /\ e_ub y' = e_ub y.
Proof.
  intros Hx Hy Hlen Hsame. assert (Hx' := Hx). assert (Hy' := Hy).
  destruct Hx' as [Hn H]. destruct Hy' as [Hm K].
  assert (Hl : (length us <= length (e_coeff y))%nat).
  { destruct (Nat.le_gt_cases (length us) (length (e_coeff y))) as [|G]; auto.
    destruct (nth_error us (length (e_coeff y))) as [t|] eqn:Et; [|apply nth_error_None in Et; lia].
    destruct (K _ _ Et) as [A _]. assert (nth_error (e_coeff y) (length (e_coeff y)) <> None) by congruence.
    apply nth_error_Some in H0. lia. }
  assert (S : same_nodes x y = Ok true).
  { unfold same_nodes. rewrite Hn, Hm, Hlen, Nat.eqb_refl. cbn [negb].
    apply (for_det (fun _ => true)). intros i Hi. cbn [negb].
    destruct (nth_error us i) as [u|] eqn:Eu; [|apply nth_error_None in Eu; lia].
    destruct (nth_error ts i) as [t|] eqn:Et; [|apply nth_error_None in Et; lia].
    destruct (H i t Et) as [_ B]. destruct (K i u Eu) as [_ B'].
    rewrite (pget_some _ _ _ B), (pget_some _ _ _ B'). cbn [obind].
    rewrite (Hsame i t u Et Eu). apply same_kernel_refl. now exists u. }
  set (h := fun i => nth i (e_coeff y) 0 + a * nth i (e_coeff x) 0).
  destruct (write_loop h (fun i cs => do cx <- aget (e_coeff x) i; do cy <- aget cs i; aset cs i (cy + a * cx)) (length us) (e_coeff y) Hl)
    as (cs & E & L & P & _).
  { intros i l' Hi Hl' Hs. destruct (nth_error ts i) as [t|] eqn:Et; [|apply nth_error_None in Et; lia].
    destruct (H i t Et) as [A _]. rewrite (aget_ok _ _ _ A). cbn [obind].
    rewrite (aget_ok l' i (nth i (e_coeff y) 0)) by (rewrite Hs by lia; apply nth_error_nth'; lia). cbn [obind].
    unfold h. rewrite (nth_error_nth _ _ _ A). apply aset_ok. lia. }
  exists (mkkexp (e_alloc y) (e_n y) cs (e_kern y) (e_lb y) (e_ub y) (e_inc y)),
    (map (fun p => with_a (snd p) (b_a (snd p) + a * b_a (fst p))) (combine ts us)).
  split; [unfold kexp_axpy; rewrite S; cbn [obind]; rewrite Hm, E; reflexivity|].
  split; [|repeat split].
  - apply (holds_coeff y us h Hy Hl cs P); [rewrite map_length, combine_length; lia|].
    intros j u Hj. destruct (nth_error ts j) as [t|] eqn:Et.
    2:{ apply nth_error_None in Et. assert (nth_error us j <> None) by congruence. apply nth_error_Some in H0. lia. }
    rewrite nth_error_map.
    assert (Ec : nth_error (combine ts us) j = Some (t, u)).
    { clear - Et Hj. revert us j Et Hj. induction ts as [|t0 ts IH]; intros [|u0 us] [|j] Et Hj; try discriminate.
      - injection Et as ->. injection Hj as ->. reflexivity.
      - cbn in *. now apply IH. }
    rewrite Ec. cbn. unfold h. destruct (H j t Et) as [A _]. destruct (K j u Hj) as [B _].
    now rewrite (nth_error_nth _ _ _ A), (nth_error_nth _ _ _ B).
  - intros z. unfold kfun. clear - Hlen Hsame. revert us Hlen Hsame.
    induction ts as [|t ts IH]; intros [|u us] Hlen Hsame; try discriminate; [cbn; ring|].
    cbn [combine map]. change (sumF ?F (?p :: ?l)) with (F p + sumF F l). cbv beta.
    assert (Eq := Hsame 0%nat t u eq_refl eq_refl). injection Eq as E1 E2 E3.
    assert (V : bump_val t z = bump_val u z) by (unfold bump_val; now rewrite E1, E2, E3).
    assert (IH' := IH us (f_equal pred Hlen) (fun i => Hsame (Datatypes.S i))).
    cbn [fold_right sumF] in *. unfold sumF in *. rewrite IH'.
    change (bump_val (with_a (snd (t, u)) (b_a (snd (t, u)) + a * b_a (fst (t, u)))) z) with (bump_val u z).
    rewrite <- V. cbn. ring.
Qed.
Print Assumptions C103_axpy.

(** Expansions with a different number of kernels are rejected. *)
Theorem C103_axpy_rejects a x y : e_n x <> e_n y -> kexp_axpy a x y = Abort.
Proof.
  intros H. unfold kexp_axpy, same_nodes. destruct (Nat.eqb_spec (e_n x) (e_n y)); [contradiction | reflexivity].
Qed.
Print Assumptions C103_axpy_rejects.

(** Exactly which expansions can be added: as many kernels, and heights, squared widths and
    centres that differ by at most 1e-15; everything else is rejected. *)
Definition close_bumps (t u : bump) : Prop :=
  Rabs (b_s t - b_s u) <= / 10 ^ 15 /\ Rabs (b_w t - b_w u) <= / 10 ^ 15 /\ Rabs (b_c t - b_c u) <= / 10 ^ 15.

Lemma same_gk t u : exists b, same_kernel (gk t) (gk u) = Ok b /\ (b = true <-> close_bumps t u).
Proof.
  unfold same_kernel. cbn.
  destruct (Rltb_spec ktol (Rabs (b_s t - b_s u))) as [A|A]; cbn.
  { exists false. split; [reflexivity|]. split; [discriminate|]. unfold close_bumps, ktol in *. intros; lra. }
  destruct (Rltb_spec ktol (Rabs (b_w t - b_w u))) as [B|B]; cbn.
  { exists false. split; [reflexivity|]. split; [discriminate|]. unfold close_bumps, ktol in *. intros; lra. }
  destruct (Rltb_spec ktol (Rabs (b_c t - b_c u))) as [C|C]; cbn.
  { exists false. split; [reflexivity|]. split; [discriminate|]. unfold close_bumps, ktol in *. intros; lra. }
  exists true. split; [reflexivity|]. split; [|reflexivity]. intros _. unfold close_bumps, ktol in *. lra.
Qed.

Theorem C103_axpy_compare a x y ts us : holds x ts -> holds y us -> length ts = length us ->
  ((forall i t u, nth_error ts i = Some t -> nth_error us i = Some u -> close_bumps t u) ->
     exists y', kexp_axpy a x y = Ok y') /\
  ((exists i t u, nth_error ts i = Some t /\ nth_error us i = Some u /\ ~ close_bumps t u) ->
     kexp_axpy a x y = Abort).
Proof.
  intros Hx Hy Hlen. assert (Hx' := Hx). assert (Hy' := Hy).
  destruct Hx' as [Hn H]. destruct Hy' as [Hm K].
  assert (C : exists r, same_nodes x y = Ok r /\
    (r = true <-> forall i t u, nth_error ts i = Some t -> nth_error us i = Some u -> close_bumps t u)).
  { unfold same_nodes. rewrite Hn, Hm, <- Hlen, Nat.eqb_refl. cbn [negb].
    destruct (for_inv (fun k r => r = true <-> forall i t u, (i < k)%nat ->
        nth_error ts i = Some t -> nth_error us i = Some u -> close_bumps t u)
      (fun i (ret : bool) => if negb ret then Ok false
        else do a <- pget (e_kern x) i; do b <- pget (e_kern y) i; same_kernel a b)
      (length ts) true) as (r & E & P).
    - split; auto. intros _ i t u Hi. lia.
    - intros i r Hi P.
      destruct (nth_error us i) as [u|] eqn:Eu; [|apply nth_error_None in Eu; lia].
      destruct (nth_error ts i) as [t|] eqn:Et; [|apply nth_error_None in Et; lia].
      destruct r; cbn [negb].
      + destruct (H i t Et) as [_ B]. destruct (K i u Eu) as [_ B'].
        rewrite (pget_some _ _ _ B), (pget_some _ _ _ B'). cbn [obind].
        destruct (same_gk t u) as (b & -> & Q). exists b. split; [reflexivity|]. rewrite Q. split.
        * intros Hc j t' u' Hj Ht' Hu'. destruct (Nat.eq_dec j i) as [->|]; [congruence|].
          apply (proj1 P eq_refl j); [lia | auto | auto].
        * intros Hall. apply (Hall i); auto.
      + exists false. split; [reflexivity|]. split; [discriminate|]. intros Hall. apply P.
        intros j t' u' Hj. apply Hall. lia.
    - exists r. split; [exact E|]. rewrite P. split.
      + intros Hall i t u Ht Hu. apply (Hall i t u); auto. apply nth_error_Some. congruence.
      + intros Hall i t u _. apply Hall. }
  destruct C as (r & E & P). unfold kexp_axpy. rewrite E. cbn [obind]. split.
  - intros Hall. rewrite (proj2 P Hall).
    assert (Hl : (length us <= length (e_coeff y))%nat).
    { destruct (Nat.le_gt_cases (length us) (length (e_coeff y))) as [|G]; auto.
      destruct (nth_error us (length (e_coeff y))) as [t|] eqn:Et; [|apply nth_error_None in Et; lia].
      destruct (K _ _ Et) as [A _]. assert (X : nth_error (e_coeff y) (length (e_coeff y)) <> None) by congruence.
      apply nth_error_Some in X. lia. }
    rewrite Hm.
    destruct (write_loop (fun i => nth i (e_coeff y) 0 + a * nth i (e_coeff x) 0)
      (fun i cs => do cx <- aget (e_coeff x) i; do cy <- aget cs i; aset cs i (cy + a * cx)) (length us) (e_coeff y) Hl)
      as (cs & -> & _); [|eexists; reflexivity].
    intros i l' Hi Hl' Hs. destruct (nth_error ts i) as [t|] eqn:Et; [|apply nth_error_None in Et; lia].
    destruct (H i t Et) as [A _]. rewrite (aget_ok _ _ _ A). cbn [obind].
    rewrite (aget_ok l' i (nth i (e_coeff y) 0)) by (rewrite Hs by lia; apply nth_error_nth'; lia). cbn [obind].
    rewrite (nth_error_nth _ _ _ A). apply aset_ok. lia.
  - intros (i & t & u & Ht & Hu & Hc). destruct r; [|reflexivity].
    exfalso. apply Hc. now apply (proj1 P eq_refl i).
Qed.
Print Assumptions C103_axpy_compare.

(** Kernels are compared up to 1e-15 in absolute value: for narrow kernels (widths 1e-8 and
    2e-8 here) different kernels pass for the same, and the sum is not the sum. *)
Theorem C103_axpy_refuted : exists x y ts us y' vs z,
  holds x ts /\ holds y us /\ widths_pos ts /\ widths_pos us /\ kexp_axpy 1 x y = Ok y' /\ holds y' vs /\
  kfun vs z > kfun us z + 1 * kfun ts z.
Proof.
  set (w1 := / 10 ^ 16). set (w2 := 4 * / 10 ^ 16).
  assert (Hp : 0 < / 10 ^ 16) by (apply Rinv_0_lt_compat, pow_lt; lra).
  set (mk := fun a w => mkkexp 1 1 [a] [Some (gk (mkbump a 1 w 0))] (- 1) 1 false).
  assert (Hm : forall a w, holds (mk a w) [mkbump a 1 w 0]).
  { intros a w. split; [reflexivity|]. intros [|[|i]] t Hi; try discriminate. injection Hi as <-. now split. }
  exists (mk 1 w1), (mk 1 w2), [mkbump 1 1 w1 0], [mkbump 1 1 w2 0].
  exists (mkkexp 1 1 [1 + 1 * 1] [Some (gk (mkbump 1 1 w2 0))] (- 1) 1 false), [mkbump (1 + 1 * 1) 1 w2 0], (/ 10 ^ 8).
  split; [apply Hm|]. split; [apply Hm|].
  split; [intros t [<-|[]]; cbn; unfold w1; lra|]. split; [intros t [<-|[]]; cbn; unfold w2; lra|].
  split; [|split].
  - assert (Z : forall a b, Rabs (a - b) <= ktol -> Rltb ktol (Rabs (a - b)) = false).
    { intros a b L. destruct (Rltb_spec ktol (Rabs (a - b))); [lra | reflexivity]. }
    assert (Hk : 0 < ktol) by (unfold ktol; apply Rinv_0_lt_compat, pow_lt; lra).
    unfold kexp_axpy, same_nodes, mk, same_kernel. cbn.
    rewrite (Z 1 1) by (rewrite Rminus_diag_eq, Rabs_R0 by reflexivity; lra). cbn.
    rewrite (Z w1 w2). 2:{ rewrite Rabs_left; unfold w1, w2, ktol in *; [|lra].
      replace (/ 10 ^ 15) with (10 * / 10 ^ 16) by (field; apply pow_nonzero; lra). lra. }
    cbn. rewrite (Z 0 0) by (rewrite Rminus_diag_eq, Rabs_R0 by reflexivity; lra). reflexivity.
  - split; [reflexivity|]. intros [|[|i]] t Hi; try discriminate. injection Hi as <-. now split.
  - unfold kfun, bump_val. cbn [sumF fold_right b_a b_s b_w b_c].
    assert (E1 : - ((/ 10 ^ 8 - 0) * (/ 10 ^ 8 - 0)) / w1 = - 1).
    { unfold w1. field. }
    assert (E2 : - ((/ 10 ^ 8 - 0) * (/ 10 ^ 8 - 0)) / w2 = - (1 / 4)).
    { unfold w2. field. }
    rewrite E1, E2. assert (exp (- 1) < exp (- (1 / 4))) by (apply exp_increasing; lra). lra.
Qed.
Print Assumptions C103_axpy_refuted.

(** ** gradient of the squared norm *)
Lemma binner_sym erf t u lb ub : is_erf erf -> 0 < b_w t -> 0 < b_w u -> lb <= ub ->
  binner erf t u lb ub = binner erf u t lb ub.
Proof.
  intros He Ht Hu Hlu. apply (is_RInt_unique (fun x => bump_val t x * bump_val u x) lb ub).
  - now apply binner_ok.
  - apply is_RInt_ext with (fun x => bump_val u x * bump_val t x); auto; [intros; ring|]. now apply binner_ok.
Qed.

(** entry i increases by [scale] times the derivative, with respect to weight i, of the
    integral of the squared function *)
Theorem C103_norm_grad erf e ts scale grad : is_erf erf -> holds e ts -> widths_pos ts ->
  e_lb e <= e_ub e -> e_inc e = false -> (length ts <= length grad)%nat ->
  exists g, kexp_sqnorm_param_grad erf e scale grad = Ok g /\ length g = length grad /\
    (forall j, (length ts <= j)%nat -> nth_error g j = nth_error grad j) /\
    forall i t, nth_error ts i = Some t -> exists N d,
      (forall a, is_RInt (fun x => kfun (upd ts i (with_a t a)) x * kfun (upd ts i (with_a t a)) x) (e_lb e) (e_ub e) (N a)) /\
      derivable_pt_lim N (b_a t) d /\ nth_error g i = Some (nth i grad 0 + scale * d).
Proof.
  intros He Hh Hw Hlu Hinc Hg. destruct Hh as [Hn H].
  set (B := fun t u => binner erf t u (e_lb e) (e_ub e)).
  set (S0 := fun t => sumF (fun u => b_a u * B t u) ts).
  set (h := fun i => nth i grad 0 + 2 * scale * S0 (nth i ts (mkbump 0 0 0 0))).
  assert (Body : forall i t, nth_error ts i = Some t ->
    for_ (length ts) (fun j g1 =>
        do c <- aget (e_coeff e) j; do ki <- pget (e_kern e) i; do kj <- pget (e_kern e) j;
        do v <- kernel_inner erf ki kj (e_lb e) (e_ub e); Ok (g1 + c * v)) 0 = Ok (S0 t)).
  { intros i t Ht. rewrite (for_sum (fun u => b_a u * B t u)); [f_equal; unfold S0; ring|].
    intros j u out Hj. destruct (H i t Ht) as [_ K2]. destruct (H j u Hj) as [K1 K3].
    rewrite (aget_ok _ _ _ K1), (pget_some _ _ _ K2), (pget_some _ _ _ K3). reflexivity. }
  destruct (write_loop h (fun i grad =>
      do g1 <- for_ (length ts) (fun j g1 =>
        do c <- aget (e_coeff e) j; do ki <- pget (e_kern e) i; do kj <- pget (e_kern e) j;
        do v <- kernel_inner erf ki kj (e_lb e) (e_ub e); Ok (g1 + c * v)) 0;
      do g <- aget grad i; aset grad i (g + 2 * scale * g1)) (length ts) grad Hg) as (g & E & L & P & Q).
  { intros i l' Hi Hl' Hs. rewrite (Body i (nth i ts (mkbump 0 0 0 0))) by (apply nth_error_nth'; lia). cbn [obind].
    rewrite (aget_ok l' i (nth i grad 0)) by (rewrite Hs by lia; apply nth_error_nth'; lia). cbn [obind].
    apply aset_ok. lia. }
  exists g. split; [unfold kexp_sqnorm_param_grad; rewrite Hinc, Hn; exact E|]. split; [exact L|]. split; [exact Q|].
  intros i t Hi. assert (Hlt : (i < length ts)%nat) by (apply nth_error_Some; congruence).
  set (N := fun a => sumF (fun t1 => sumF (fun u => b_a t1 * b_a u * B t1 u) (upd ts i (with_a t a))) (upd ts i (with_a t a))).
  exists N, (2 * S0 t). split; [|split].
  - intros a. set (us := upd ts i (with_a t a)).
    assert (Wu : widths_pos us).
    { intros u Hu. apply In_nth_error in Hu. destruct Hu as [j Hj]. unfold us in Hj.
      destruct (Nat.eq_dec j i) as [->|Hne].
      - rewrite nth_error_upd_same in Hj by lia. injection Hj as <-. cbn. apply Hw. eapply nth_error_In; eauto.
      - rewrite nth_error_upd_other in Hj by lia. apply Hw. eapply nth_error_In; eauto. }
    apply is_RInt_ext with (fun x => sumF (fun t => sumF (fun u => b_a t * b_a u * (bump_val t x * bump_val u x)) us) us); auto.
    + intros x _. unfold kfun. rewrite sumF_mul. apply sumF_ext. intros t1 _. apply sumF_ext. intros u _. ring.
    + apply (is_RInt_sum (fun t x => sumF (fun u => b_a t * b_a u * (bump_val t x * bump_val u x)) us)); auto.
      intros t1 Ht1. apply (is_RInt_sum (fun u x => b_a t1 * b_a u * (bump_val t1 x * bump_val u x))); auto.
      intros u Hu. apply is_RInt_scal. apply binner_ok; auto.
  - set (T := sumF (fun t1 => b_a t1 * B t1 t) ts).
    assert (ET : T = S0 t).
    { unfold T, S0. apply sumF_ext. intros u Hu. f_equal. unfold B. apply binner_sym; auto.
      apply Hw. eapply nth_error_In; eauto. }
    assert (EN : forall a, N a = sumF (fun t1 => b_a t1 * S0 t1) ts + (a - b_a t) * T + (a - b_a t) * S0 t
                  + (a - b_a t) * (a - b_a t) * B t t).
    { intros a.
      assert (I1 : forall t1, sumF (fun u => b_a t1 * b_a u * B t1 u) (upd ts i (with_a t a))
                     = b_a t1 * (S0 t1 + (a - b_a t) * B t1 t)).
      { intros t1. rewrite (sumF_upd _ _ _ _ _ Hi).
        replace (sumF (fun u => b_a t1 * b_a u * B t1 u) ts) with (b_a t1 * S0 t1).
        - change (B t1 (with_a t a)) with (B t1 t). cbn [b_a with_a]. ring.
        - unfold S0. rewrite <- sumF_scal. apply sumF_ext. intros; ring. }
      unfold N. rewrite (sumF_ext _ (fun t1 => b_a t1 * (S0 t1 + (a - b_a t) * B t1 t))) by (intros; apply I1).
      rewrite (sumF_upd _ _ _ _ _ Hi).
      change (S0 (with_a t a)) with (S0 t). change (B (with_a t a) t) with (B t t). cbn [b_a with_a].
      rewrite (sumF_ext (fun t1 => b_a t1 * (S0 t1 + (a - b_a t) * B t1 t))
                 (fun t1 => b_a t1 * S0 t1 + (a - b_a t) * (b_a t1 * B t1 t))) by (intros; ring).
      rewrite sumF_plus, sumF_scal. fold T. ring. }
    assert (Z : derivable_pt_lim (fun a => sumF (fun t1 => b_a t1 * S0 t1) ts + (a - b_a t) * T + (a - b_a t) * S0 t
                  + (a - b_a t) * (a - b_a t) * B t t) (b_a t) (2 * S0 t)).
    { eapply dl_eq; [dl|]. cbv beta. rewrite ET. ring. }
    intros eps Heps. destruct (Z eps Heps) as [del Hd]. exists del. intros k. rewrite !EN. apply Hd.
  - rewrite P by lia. unfold h. rewrite (nth_error_nth _ _ _ Hi). f_equal. ring.
Qed.
Print Assumptions C103_norm_grad.

(** With adaptive centres the gradient of the norm is not available. *)
Theorem C103_norm_grad_adaptive erf e scale grad : e_inc e = true ->
  kexp_sqnorm_param_grad erf e scale grad = Abort.
Proof. intros H. unfold kexp_sqnorm_param_grad. now rewrite H. Qed.
Print Assumptions C103_norm_grad_adaptive.

(** a case that meets the hypotheses *)
Example C103_example : exists erf e ts, is_erf erf /\ holds e ts /\ widths_pos ts /\ e_lb e < e_ub e /\
  e_inc e = false /\ length ts = 2%nat /\ kexp_integrate erf e <> Ok 0.
Proof.
  destruct erf_exists as [erf He].
  set (ts := [mkbump 1 1 1 0; mkbump 2 1 4 1]).
  set (e := mkkexp 2 2 [1; 2] [Some (gk (mkbump 1 1 1 0)); Some (gk (mkbump 2 1 4 1))] (- 1) 1 false).
  assert (Hh : holds e ts).
  { split; [reflexivity|]. intros [|[|[|i]]] t Hi; try discriminate; injection Hi as <-; cbn; now split. }
  exists erf, e, ts. split; [exact He|]. split; [exact Hh|]. split; [|split; [|split; [reflexivity|split; [reflexivity|]]]].
  - intros t [<-|[<-|[]]]; cbn; lra.
  - cbn. lra.
  - unfold kexp_integrate, e. cbn. unfold gauss_kernel_integrate. intros X. injection X as X.
    rewrite sqrt_1 in X. replace (sqrt 4) with 2 in X by (symmetry; apply sqrt_lem_1; lra).
    assert (A := erf_incr erf He ((0 - 1) / 1) ((0 - -1) / 1) ltac:(lra)).
    assert (C := erf_incr erf He ((1 - 1) / 2) ((1 - -1) / 2) ltac:(lra)).
    assert (HP := sqrt_PI_pos).
    assert (0 < sqrt PI * (erf ((0 - -1) / 1) - erf ((0 - 1) / 1))) by (apply Rmult_lt_0_compat; lra).
    assert (0 < sqrt PI * (erf ((1 - -1) / 2) - erf ((1 - 1) / 2))) by (apply Rmult_lt_0_compat; lra).
    lra.
Qed.
