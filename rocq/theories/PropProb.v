(** C101: the distribution function of the normal distribution and its inverse.
    The inverse is wrong for most probabilities above one half. *)
From Coq Require Import Reals Lra Lia.
From Verif Require Import Base FOps RIntLib ErfSpec ProbModel.
Open Scope R_scope.

(** ** Specification *)
(** density of the normal distribution *)
Definition npdf (mean std x : R) : R :=
  exp (- (((x - mean) / std) * ((x - mean) / std) / 2)) / (std * sqrt (2 * PI)).

(** F is its distribution function: one half at the mean, and its slope is the density *)
Definition is_ncdf (mean std : R) (F : R -> R) : Prop :=
  F mean = 1 / 2 /\ forall x, derivable_pt_lim F x (npdf mean std x).

(** Halley's method for f(x) = 0 *)
Definition halley_spec (f f1 f2 : R) (x : R) : R := x - 2 * f * f1 / (2 * f1 * f1 - f * f2).

Lemma Rltb_f x y : Rltb x y = false <-> y <= x.
Proof. destruct (Rltb_spec x y); split; intros; try discriminate; try reflexivity; lra. Qed.
Lemma Rltb_t x y : Rltb x y = true <-> x < y.
Proof. destruct (Rltb_spec x y); split; intros; try discriminate; try reflexivity; lra. Qed.
Lemma Rleb_f x y : Rleb x y = false <-> y < x.
Proof. destruct (Rleb_spec x y); split; intros; try discriminate; try reflexivity; lra. Qed.
Lemma Rleb_t x y : Rleb x y = true <-> x <= y.
Proof. destruct (Rleb_spec x y); split; intros; try discriminate; try reflexivity; lra. Qed.

Lemma sqrt2_pos : 0 < sqrt 2. Proof. apply sqrt_lt_R0; lra. Qed.
Lemma s2pi_pos : 0 < sqrt (2 * PI). Proof. apply sqrt_lt_R0. assert (H := PI_RGT_0). lra. Qed.
Lemma s2pi_eq : sqrt (2 * PI) = sqrt 2 * sqrt PI.
Proof. apply sqrt_mult; [lra | left; apply PI_RGT_0]. Qed.

Section P.
  Variable erf : R -> R.
  Hypothesis He : is_erf erf.

  Lemma cdf_is mean std : 0 < std -> is_ncdf mean std (cdf_normal erf mean std).
  Proof.
    intros Hs. assert (H2 := sqrt2_pos). assert (HP := sqrt_PI_pos). destruct He as [E0 E1]. split.
    - unfold cdf_normal. replace ((mean - mean) / std / sqrt 2) with 0 by (field; lra).
      rewrite E0. lra.
    - intros x. unfold cdf_normal. eapply dl_eq.
      + apply (derivable_pt_lim_scal (fun x => 1 + erf ((x - mean) / std / sqrt 2)) 0.5).
        apply (derivable_pt_lim_plus (fun _ => 1)); [apply dl_const|].
        apply (dl_comp (fun x => (x - mean) / std / sqrt 2) erf); [dl | apply E1].
      + unfold npdf. rewrite s2pi_eq. replace 0.5 with (1 / 2) by lra.
        replace ((x - mean) / std / sqrt 2 * ((x - mean) / std / sqrt 2))
          with ((x - mean) / std * ((x - mean) / std) / (sqrt 2 * sqrt 2)) by (field; lra).
        rewrite sqrt_sqrt by lra. field. repeat split; lra.
  Qed.

  Lemma npdf_pos mean std x : 0 < std -> 0 < npdf mean std x.
  Proof.
    intros Hs. apply Rdiv_lt_0_compat; [apply exp_pos | apply Rmult_lt_0_compat; [lra | apply s2pi_pos]].
  Qed.

  Theorem C101_cdf mean std : 0 < std ->
    is_ncdf mean std (cdf_normal erf mean std) /\
    (forall x y, x < y -> cdf_normal erf mean std x < cdf_normal erf mean std y) /\
    (forall t, cdf_normal erf mean std (mean - t) = 1 - cdf_normal erf mean std (mean + t)) /\
    (forall F, is_ncdf mean std F -> forall x, F x = cdf_normal erf mean std x).
  Proof.
    intros Hs. assert (D := cdf_is mean std Hs). assert (H2 := sqrt2_pos).
    split; [exact D|split; [|split]].
    - apply (incr_of_deriv _ _ (proj2 D)). intros x. now apply npdf_pos.
    - intros t. unfold cdf_normal.
      replace ((mean - t - mean) / std / sqrt 2) with (- ((mean + t - mean) / std / sqrt 2)) by (field; lra).
      rewrite erf_odd by exact He. lra.
    - intros F [F0 F1] x. destruct D as [D0 D1].
      assert (Z : forall y, F (y + mean) - cdf_normal erf mean std (y + mean) = 0).
      { apply (zero_of_deriv (fun y => F (y + mean) - cdf_normal erf mean std (y + mean))).
        - rewrite Rplus_0_l. lra.
        - intros y. eapply dl_eq.
          + apply (derivable_pt_lim_minus (fun y => F (y + mean)) (fun y => cdf_normal erf mean std (y + mean))).
            * apply (dl_comp (fun y => y + mean) F); [dl | apply F1].
            * apply (dl_comp (fun y => y + mean) (cdf_normal erf mean std)); [dl | apply D1].
          + cbv beta. ring. }
      specialize (Z (x - mean)). replace (x - mean + mean) with x in Z by ring. lra.
  Qed.

  (** the standard normal: shorthands used below only in proofs *)
  Let Phi := cdf_normal erf 0 1.

  Lemma Phi_erfc w : 0.5 * erfc erf (- w / sqrt 2) = Phi w.
  Proof.
    assert (H2 := sqrt2_pos). unfold erfc, Phi, cdf_normal.
    replace (- w / sqrt 2) with (- (w / sqrt 2)) by (field; lra). rewrite erf_odd by exact He.
    replace ((w - 0) / 1 / sqrt 2) with (w / sqrt 2) by (field; lra). lra.
  Qed.

  Lemma npdf01 w : npdf 0 1 w = exp (- (w * w / 2)) / sqrt (2 * PI).
  Proof.
    assert (H := s2pi_pos). unfold npdf.
    replace ((w - 0) / 1 * ((w - 0) / 1) / 2) with (w * w / 2) by field.
    now replace (1 * sqrt (2 * PI)) with (sqrt (2 * PI)) by ring.
  Qed.

  Lemma npdf_u w e : e * sqrt (2 * PI) * exp (w * w / 2) = e / npdf 0 1 w.
  Proof.
    assert (H := s2pi_pos). rewrite npdf01. rewrite exp_Ropp.
    assert (H' := exp_pos (w * w / 2)). field. split; lra.
  Qed.

  Lemma halley_is p w :
    w - halley erf p w = halley_spec (Phi w - p) (npdf 0 1 w) (- w * npdf 0 1 w) w.
  Proof.
    unfold halley. rewrite Phi_erfc, npdf_u. unfold halley_spec.
    assert (H := npdf_pos 0 1 w Rlt_0_1). set (f := Phi w - p). set (n := npdf 0 1 w) in *.
    destruct (Req_dec (2 * n + f * w) 0) as [E|E].
    - replace (1 + w * (f / n) / 2) with 0.
      2:{ replace (1 + w * (f / n) / 2) with ((2 * n + f * w) / (2 * n)) by (field; lra). rewrite E. field. lra. }
      replace (2 * n * n - f * (- w * n)) with 0.
      2:{ replace (2 * n * n - f * (- w * n)) with ((2 * n + f * w) * n) by ring. rewrite E. ring. }
      unfold Rdiv. rewrite Rinv_0. ring.
    - field. repeat split; try lra.
      + intros X. apply E.
        assert (n * (2 * n + f * w) = 0) by (rewrite <- X; ring).
        apply Rmult_integral in H0. destruct H0; lra.
  Qed.

  (** The slope of the standard normal distribution function is below 0.41. *)
  Lemma npdf_small w : npdf 0 1 w <= 0.41.
  Proof.
    rewrite npdf01. assert (A := expm_le1 (w * w / 2)). assert (0 <= w * w) by apply Rle_0_sqr.
    assert (B := PI_bounds). assert (S := s2pi_pos).
    assert (2.45 <= sqrt (2 * PI)).
    { rewrite <- (sqrt_square 2.45) by lra. apply sqrt_le_1; lra. }
    apply Rmult_le_reg_r with (sqrt (2 * PI)); [lra|].
    unfold Rdiv. rewrite Rmult_assoc, Rinv_l, Rmult_1_r by lra.
    assert (exp (- (w * w / 2)) <= 1) by (apply A; lra). lra.
  Qed.

  Lemma loop_end fuel p : forall val d v,
    icdf_loop erf fuel p val d = Ok v -> (exists w, val = w - d /\ d = halley erf p w) ->
    exists w, v = w - halley erf p w /\ halley erf p w <= 1e-15.
  Proof.
    induction fuel as [|k IH]; intros val d v H (w & E1 & E2); cbn [icdf_loop] in H;
      destruct (Rltb 1e-15 d) eqn:B.
    - discriminate.
    - apply Rltb_f in B. injection H as <-. exists w. subst. split; [reflexivity | lra].
    - apply (IH _ _ _ H). now exists val.
    - apply Rltb_f in B. injection H as <-. exists w. subst. split; [reflexivity | lra].
  Qed.

  (** What is returned is a step of Halley's method from some guess w that did not go down
      by more than 1e-15; when that last step did not go up, and the guess is not
      astronomically large, the result has the wanted probability to within 1e-15. *)
  Theorem C101_icdf_partial fuel mean std p v :
    0 < std -> icdf_normal erf fuel mean std p = Ok v ->
    exists w v', v = mean + std * v' /\
      v' = halley_spec (cdf_normal erf 0 1 w - p) (npdf 0 1 w) (- w * npdf 0 1 w) w /\
      w - v' <= 1e-15 /\
      (v' <= w -> Rabs w <= 1e14 -> 2 * npdf 0 1 w + (cdf_normal erf 0 1 w - p) * w <> 0 ->
       Rabs (cdf_normal erf mean std v - p) <= 1e-15).
  Proof.
    intros Hs H. unfold icdf_normal, icdfnorm in H.
    destruct (icdf_loop _ _ _ _ _) as [u| | |] eqn:EL in H; try discriminate. injection H as <-.
    destruct (loop_end _ _ _ _ _ EL) as (w & -> & Hd).
    { now exists (icdfnorm_rational p). }
    exists w, (w - halley erf p w). split; [reflexivity|]. split; [apply halley_is|].
    split; [lra|]. intros Hup Hw Hden.
    set (d := halley erf p w) in *.
    assert (Hc : cdf_normal erf mean std (mean + std * (w - d)) = Phi (w - d)).
    { unfold Phi, cdf_normal. do 3 f_equal. field. split; [|lra].
      assert (X := sqrt2_pos). lra. }
    rewrite Hc. fold Phi in Hden.
    assert (Hn := npdf_pos 0 1 w Rlt_0_1). assert (Hn' := npdf_small w).
    set (n := npdf 0 1 w) in *. set (f := Phi w - p) in *.
    assert (Ed : d * (2 * n + f * w) = 2 * f).
    { unfold d, halley. rewrite Phi_erfc, npdf_u. fold f n. field. split; [lra|].
      intros X. apply Hden. rewrite <- X. ring. }
    assert (Hwd : Rabs (w * d) <= 0.1).
    { rewrite Rabs_mult. rewrite (Rabs_pos_eq d) by lra.
      apply Rle_trans with (1e14 * 1e-15); [|lra].
      apply Rmult_le_compat; try lra. apply Rabs_pos. }
    assert (Hq1 := Rle_abs (w * d)). assert (Hq2 := Rle_abs (- (w * d))). rewrite Rabs_Ropp in Hq2.
    assert (Ef : f * (2 - w * d) = 2 * n * d) by lra.
    assert (Hf0 : 0 <= f).
    { apply Rmult_le_reg_r with (2 - w * d); [lra|]. rewrite Rmult_0_l, Ef.
      apply Rmult_le_pos; lra. }
    assert (Hf1 : f <= 0.44 * d).
    { apply Rmult_le_reg_r with (2 - w * d); [lra|]. rewrite Ef.
      assert (n * d <= 0.41 * d) by (apply Rmult_le_compat_r; lra).
      assert (d * (w * d) <= d * 0.1) by (apply Rmult_le_compat_l; lra). lra. }
    assert (Hv : Phi (w - d) <= Phi w /\ Phi w - Phi (w - d) <= 0.41 * d).
    { destruct (Req_dec d 0) as [Z|Z].
      - rewrite Z, Rminus_0_r. lra.
      - destruct (MVT_cor2 Phi (npdf 0 1) (w - d) w) as (c & E & _); [lra| |].
        + intros c _. apply (proj2 (cdf_is 0 1 Rlt_0_1)).
        + assert (Q := npdf_small c). assert (Q' := npdf_pos 0 1 c Rlt_0_1).
          replace (w - (w - d)) with d in E by ring. rewrite E.
          assert (0 <= npdf 0 1 c * d) by (apply Rmult_le_pos; lra).
          assert (npdf 0 1 c * d <= 0.41 * d) by (apply Rmult_le_compat_r; lra). lra. }
    apply Rabs_le. unfold f in *. lra.
  Qed.

  (** The median is exact. *)
  Theorem C101_median fuel mean std : icdf_normal erf fuel mean std (1 / 2) = Ok mean.
  Proof.
    assert (R0 : icdfnorm_rational (1 / 2) = 0).
    { unfold icdfnorm_rational. destruct (Req_EM_T (1 / 2) 0); [lra|].
      destruct (Req_EM_T (1 / 2) 1); [lra|].
      rewrite (proj2 (Rleb_f (1 / 2) 0.02425)) by lra.
      rewrite (proj2 (Rleb_t (1 / 2) (1 - 0.02425))) by lra.
      replace (1 / 2 - 0.5) with 0 by lra. unfold a1, a2, a3, a4, a5, a6, b1, b2, b3, b4, b5. lra. }
    unfold icdf_normal, icdfnorm. rewrite R0.
    assert (H0 : halley erf (1 / 2) 0 = 0).
    { unfold halley. rewrite Phi_erfc. unfold Phi. rewrite (proj1 (cdf_is 0 1 Rlt_0_1)). lra. }
    rewrite H0. destruct fuel; cbn [icdf_loop];
      (rewrite (proj2 (Rltb_f 1e-15 0)) by lra); cbn; f_equal; ring.
  Qed.

  (** ** Above one half the search stops after a single step *)

  (** the first guess is the same for p and for 1 - p, so it has the wrong sign for one of them *)
  Theorem C101_guess_even p : 0.02425 < p < 1 - 0.02425 ->
    icdfnorm_rational (1 - p) = icdfnorm_rational p.
  Proof.
    intros Hp. unfold icdfnorm_rational.
    destruct (Req_EM_T p 0); [lra|]. destruct (Req_EM_T p 1); [lra|].
    destruct (Req_EM_T (1 - p) 0); [lra|]. destruct (Req_EM_T (1 - p) 1); [lra|].
    rewrite (proj2 (Rleb_f p 0.02425)) by lra. rewrite (proj2 (Rleb_f (1 - p) 0.02425)) by lra.
    rewrite (proj2 (Rleb_t p (1 - 0.02425))) by lra.
    rewrite (proj2 (Rleb_t (1 - p) (1 - 0.02425))) by lra.
    cbv zeta. replace ((1 - p - 0.5) * (1 - p - 0.5)) with ((p - 0.5) * (p - 0.5)) by lra. reflexivity.
  Qed.

  Lemma guess09 : 0.5126 < icdfnorm_rational 0.9 < 0.5127.
  Proof.
    unfold icdfnorm_rational. destruct (Req_EM_T 0.9 0); [lra|]. destruct (Req_EM_T 0.9 1); [lra|].
    rewrite (proj2 (Rleb_f 0.9 0.02425)) by lra. rewrite (proj2 (Rleb_t 0.9 (1 - 0.02425))) by lra.
    cbv zeta. unfold a1, a2, a3, a4, a5, a6, b1, b2, b3, b4, b5.
    match goal with |- _ < ?n / ?m < _ => set (N := n); set (D := m) end.
    assert (HD : 0 < D) by (unfold D; lra).
    split; (apply Rmult_lt_reg_r with D; [exact HD|]); unfold Rdiv;
      rewrite ?Rmult_assoc, ?Rinv_l, ?Rmult_1_r by lra.
    - apply Rlt_le_trans with N; [unfold N, D; lra | right; field; lra].
    - apply Rle_lt_trans with N; [right; field; lra | unfold N, D; lra].
  Qed.

  Lemma s2pi_bounds : 2.494 < sqrt (2 * PI) < 2.518.
  Proof.
    assert (B := PI_bounds). split.
    - rewrite <- (sqrt_square 2.494) by lra. apply sqrt_lt_1; lra.
    - rewrite <- (sqrt_square 2.518) by lra. apply sqrt_lt_1; lra.
  Qed.

  (** the area from the mean, times the square root of two pi *)
  Let G x := sqrt (2 * PI) * (Phi x - 1 / 2).
  Lemma G_0 : G 0 = 0.
  Proof. unfold G, Phi. rewrite (proj1 (cdf_is 0 1 Rlt_0_1)). ring. Qed.
  Lemma G_d x : derivable_pt_lim G x (exp (- (x * x / 2))).
  Proof.
    assert (H := s2pi_pos). eapply dl_eq.
    - apply (derivable_pt_lim_scal (fun x => Phi x - 1 / 2)).
      apply (derivable_pt_lim_minus Phi (fun _ => 1 / 2)); [apply (proj2 (cdf_is 0 1 Rlt_0_1)) | apply dl_const].
    - rewrite npdf01. field. lra.
  Qed.

  Lemma step09 : - 0.6975 < halley erf 0.9 (icdfnorm_rational 0.9) < 0.
  Proof.
    assert (V := guess09). set (v := icdfnorm_rational 0.9) in *.
    unfold halley. rewrite Phi_erfc.
    assert (S := s2pi_bounds). set (s := sqrt (2 * PI)) in *.
    assert (A1 : 0.49 < G v).
    { apply Rlt_le_trans with (G 0.5126).
      - apply Rlt_le_trans with (0.5126 - 0.5126 * 0.5126 * 0.5126 / 6); [lra|].
        apply (area_ge G G_0 G_d). lra.
      - left. apply (area_incr G G_d). lra. }
    assert (A2 : G v < 0.5127).
    { apply Rlt_le_trans with (G 0.5127); [apply (area_incr G G_d); lra|].
      apply Rle_trans with (area_poly 0.5127); [apply (area_le G G_0 G_d); lra | unfold area_poly; lra]. }
    assert (Ex : 1 <= exp (v * v / 2) < 1.141).
    { assert (0 <= v * v / 2 <= 0.5127 * 0.5127 / 2).
      { assert (0 <= v * v) by apply Rle_0_sqr.
        assert (v * v <= 0.5127 * 0.5127) by (apply Rmult_le_compat; lra). lra. }
      split; [assert (Q := exp_ineq1_le (v * v / 2)); lra|].
      assert (Q := expm_ge3 (0.5127 * 0.5127 / 2) ltac:(lra)).
      assert (Q2 : exp (- (0.5127 * 0.5127 / 2)) <= exp (- (v * v / 2))).
      { destruct (Req_dec (v * v) (0.5127 * 0.5127)) as [E|E]; [rewrite E; lra|].
        left. apply exp_increasing. lra. }
      rewrite (exp_Ropp (v * v / 2)) in Q2. assert (P := exp_pos (v * v / 2)).
      set (X := exp (v * v / 2)) in *.
      assert (0.8768 <= / X) by lra.
      apply Rmult_lt_reg_l with (/ X); [now apply Rinv_0_lt_compat|].
      rewrite Rinv_l by lra. lra. }
    set (X := exp (v * v / 2)) in *.
    assert (Eu : (Phi v - 0.9) * s = G v - 0.4 * s) by (unfold G; fold s; lra).
    rewrite Eu. set (e := G v - 0.4 * s) in *.
    assert (He1 : - 0.5172 < e < - 0.48) by (unfold e; lra).
    assert (Hu : - 0.59013 < e * X < - 0.48).
    { split.
      - assert ((- e) * X < 0.5172 * 1.141) by (apply Rmult_le_0_lt_compat; lra). lra.
      - assert (1 * (- e) <= X * (- e)) by (apply Rmult_le_compat_r; lra). lra. }
    set (u := e * X) in *.
    assert (Hvu : - (0.5127 * 0.59013) < v * u < 0).
    { split.
      - assert (v * (- u) < 0.5127 * 0.59013) by (apply Rmult_le_0_lt_compat; lra). lra.
      - assert (0 < v * (- u)) by (apply Rmult_lt_0_compat; lra). lra. }
    assert (HD : 0.848 < 1 + v * u / 2) by lra.
    set (D := 1 + v * u / 2) in *.
    assert (EE : u / D * D = u) by (field; lra).
    split; (apply Rmult_lt_reg_r with D; [lra|]); rewrite EE; lra.
  Qed.

  Lemma icdf09 fuel :
    icdf_normal erf fuel 0 1 0.9 = Ok (icdfnorm_rational 0.9 - halley erf 0.9 (icdfnorm_rational 0.9)).
  Proof.
    assert (S := step09). unfold icdf_normal, icdfnorm.
    destruct fuel; cbn [icdf_loop]; (rewrite (proj2 (Rltb_f _ _)) by lra); cbn [obind]; f_equal; ring.
  Qed.

  (** The value returned for probability 0.9 is one whose probability is below 0.89. *)
  Theorem C101_icdf_09 fuel : exists v,
    icdf_normal erf fuel 0 1 0.9 = Ok v /\ cdf_normal erf 0 1 v < 0.89.
  Proof.
    eexists. split; [apply icdf09|]. set (v := icdfnorm_rational 0.9 - halley erf 0.9 (icdfnorm_rational 0.9)).
    assert (S := step09). assert (V := guess09). assert (B := s2pi_bounds).
    assert (Hg : G v < 0.39 * 2.494).
    { apply Rle_lt_trans with (area_poly 1.2102).
      - apply Rle_trans with (G 1.2102); [left; apply (area_incr G G_d); unfold v; lra|].
        apply (area_le G G_0 G_d). lra.
      - unfold area_poly. lra. }
    assert (sqrt (2 * PI) * (Phi v - 1 / 2) < sqrt (2 * PI) * 0.39).
    { change (G v < sqrt (2 * PI) * 0.39). lra. }
    apply Rmult_lt_reg_l in H; [unfold Phi in H; lra | lra].
  Qed.
End P.

(** The claim "the distribution function of the returned value is the given probability"
    fails by more than a hundredth, whatever number of iterations is allowed. *)
Theorem C101_icdf_refuted :
  exists p, 0 < p < 1 /\ exists erf, is_erf erf /\ forall fuel, exists v,
    icdf_normal erf fuel 0 1 p = Ok v /\ cdf_normal erf 0 1 v < p - 1 / 100.
Proof.
  exists 0.9. split; [lra|]. destruct erf_exists as [erf He]. exists erf. split; [exact He|].
  intros fuel. destruct (C101_icdf_09 erf He fuel) as (v & E & L). exists v. split; [exact E | lra].
Qed.
Print Assumptions C101_guess_even.
Print Assumptions C101_icdf_09.
Print Assumptions C101_icdf_refuted.
Print Assumptions C101_cdf.
Print Assumptions C101_icdf_partial.
Print Assumptions C101_median.
