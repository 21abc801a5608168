(** The direct transforms (fft_slow, ifft_slow) of every length and stride. *)
From Verif Require Import Base BaseFacts CRing RealInst FFTModel FFTFacts FFTMore.
From Coq Require Import Reals Lra.

Section ISlow.
  Variable K : cxops.
  Open Scope cr_scope.
  Add Ring Rr27 : (rth K).

  Lemma ifft_slow_ok N (x : list K) ox sx (X : list K) oX sX (xv : nat -> K) :
    0 < sX -> (forall j, j < N -> nth_error x (cell ox sx j) = Some (xv j)) ->
    (forall k, k < N -> cell oX sX k < length X) ->
    exists X', ifft_slow N x ox sx X oX sX = Ok X' /\
      cells oX sX N (fun k => cxdivn (idft K N xv k) N) X X'.
  Proof.
    intros HsX Hx HX. unfold ifft_slow.
    match goal with |- context [for_ N ?b00 X] =>
      destruct (for_inv (fun m Y => cells oX sX m (fun k => cxdivn (idft K N xv k) N) X Y) b00 N X) as (X' & E & H) end.
    - split; auto. split; auto. intros k Hk. lia.
    - intros i Y Hi (L & H & F). unfold cell in *.
      rewrite aset_ok by (rewrite L; auto). cbn [obind].
      set (Y0 := upd Y (oX + i * sX) r0).
      assert (LY : length Y0 = length X) by (unfold Y0; rewrite upd_length; auto).
      match goal with |- context [for_ N ?b00 Y0] =>
        destruct (for_inv (fun m Z => length Z = length X /\
           nth_error Z (oX + i * sX) = Some (sum m (fun j => cxV N (j * i) *! xv j)) /\
           (forall l, l <> oX + i * sX -> nth_error Z l = nth_error Y l)) b00 N Y0) as (Z & EZ & LZ & VZ & FZ) end.
      + split; auto. split.
        * unfold Y0. rewrite nth_error_upd_same by (rewrite L; auto). reflexivity.
        * intros l Hl. unfold Y0. apply nth_error_upd_other. auto.
      + intros j Z Hj (LZ & VZ & FZ). rewrite (aget_ok _ _ _ VZ). cbn [obind].
        rewrite (aget_ok _ _ _ (Hx j Hj)). cbn [obind]. rewrite aset_ok by (rewrite LZ; auto).
        eexists. split; [reflexivity|]. rewrite upd_length. split; auto. split.
        * rewrite nth_error_upd_same by (rewrite LZ; auto). cbn [sum]. now rewrite (Nat.mul_comm j i).
        * intros l Hl. rewrite nth_error_upd_other by auto. auto.
      + rewrite EZ. cbn [obind]. rewrite (aget_ok _ _ _ VZ). cbn [obind]. rewrite aset_ok by (rewrite LZ; auto).
        eexists. split; [reflexivity|]. split; [now rewrite upd_length|]. split.
        * intros k Hk. destruct (Nat.eq_dec k i) as [->|N0].
          -- unfold cell. rewrite nth_error_upd_same by (rewrite LZ; auto). reflexivity.
          -- assert (oX + i * sX <> cell oX sX k).
             { intros E. apply N0. symmetry. apply (cell_inj oX sX i k); auto. }
             rewrite nth_error_upd_other by auto. rewrite FZ by auto. apply H. lia.
        * intros l Hl. assert (l <> oX + i * sX) by (apply (Hl i); lia).
          rewrite nth_error_upd_other by auto. rewrite FZ by auto. apply F. intros k Hk. apply Hl. lia.
    - exists X'. split; auto.
  Qed.

  Hypothesis Wadd : forall N a b, cxW N (a + b) = (cxW N a *! cxW N b : K).
  Hypothesis Vadd : forall N a b, cxV N (a + b) = (cxV N a *! cxV N b : K).
  Hypothesis VW : forall N k, cxV N k *! cxW N k = (r1 : K).
  Hypothesis W_sum : forall N m, 0 < m < N -> sum N (fun j => cxW N (j * m)) = (r0 : K).
  Hypothesis V_sum : forall N m, 0 < m < N -> sum N (fun j => cxV N (j * m)) = (r0 : K).

  (** Orthogonality gives the inversion formula for every length. *)
  Lemma idft_dft_any N x k : k < N -> idft K N (dft K N x) k = sum N (fun _ => x k).
  Proof.
    intros Hk. unfold idft, dft.
    rewrite (sum_ext _ _ _ (fun j => sum N (fun l => cxV N (j * k) *! cxW N (l * j) *! x l))).
    2:{ intros j _. rewrite <- sum_scal_l. apply sum_ext. intros l _. ring. }
    rewrite sum_swap. rewrite (sum_single K N _ k); auto.
    - apply sum_ext. intros j _. rewrite (Nat.mul_comm k j), VW. ring.
    - intros l Hl Nl. rewrite sum_scal_r. replace (sum N (fun i => cxV N (i * k) *! cxW N (l * i))) with (r0 : K); [ring|].
      symmetry. destruct (Nat.lt_ge_cases k l) as [H|H].
      + rewrite <- (W_sum N (l - k)) by lia. apply sum_ext. intros i Hi.
        replace (l * i) with (i * k + i * (l - k)) by nia. rewrite Wadd.
        transitivity ((cxV N (i * k) *! cxW N (i * k)) *! cxW N (i * (l - k)) : K); [ring|]. rewrite VW. ring.
      + rewrite <- (V_sum N (k - l)) by lia. apply sum_ext. intros i Hi.
        replace (i * k) with (l * i + i * (k - l)) by nia. rewrite Vadd.
        transitivity ((cxV N (l * i) *! cxW N (l * i)) *! cxV N (i * (k - l)) : K); [ring|]. rewrite VW. ring.
  Qed.
End ISlow.

(** * Roots of unity of every order *)
Local Open Scope R_scope.

(** A geometric sum telescopes. *)
Lemma Cgeom (w : nat -> Cops) m : (forall a b, w (a + b)%nat = rmul (w a) (w b)) ->
  rmul (rsub (w 1%nat) r1) (sum m w) = (rsub (w m) (w 0%nat) : Cops).
Proof.
  intros Hw. induction m as [|m IH].
  - cbn [sum]. cbn. unfold Cmul, Csub. destruct (w 0%nat), (w 1%nat). cbn. f_equal; ring.
  - cbn [sum]. rewrite (Radd_comm (rth Cops)), (Rmul_comm (rth Cops)), (Rdistr_l (rth Cops)).
    rewrite (Rmul_comm (rth Cops) (sum m w)), IH. replace (S m) with (m + 1)%nat by lia. rewrite Hw.
    cbn. unfold Cmul, Csub, Cadd. destruct (w 0%nat), (w 1%nat), (w m). cbn. f_equal; ring.
Qed.

Lemma ang_lt N m : (0 < m < N)%nat -> 0 < ang N m < 2 * PI.
Proof.
  intros [H1 H2]. unfold ang. apply lt_INR in H1, H2. cbn [INR] in H1. assert (HP := PI_RGT_0).
  assert (0 < INR N) by lra.
  assert (0 < INR m / INR N < 1).
  { split; [apply Rdiv_lt_0_compat; lra|]. apply Rmult_lt_reg_r with (INR N); [lra|].
    unfold Rdiv. rewrite Rmult_assoc, Rinv_l, Rmult_1_r, Rmult_1_l; lra. }
  unfold Rdiv in *. rewrite Rmult_assoc. split; [apply Rmult_lt_0_compat; lra|].
  rewrite <- (Rmult_1_r (2 * PI)) at 2. apply Rmult_lt_compat_l; lra.
Qed.

Lemma cos_ne1 t : 0 < t < 2 * PI -> cos t <> 1.
Proof.
  intros [H1 H2] E. assert (E2 : sin (t / 2) = 0).
  { assert (cos (2 * (t / 2)) = 1) by (replace (2 * (t / 2)) with t by field; auto).
    rewrite cos_2a_sin in H. assert (sin (t / 2) * sin (t / 2) = 0) by lra.
    destruct (Rmult_integral _ _ H0); auto. }
  assert (0 < sin (t / 2)) by (apply sin_gt_0; lra). lra.
Qed.

Lemma ang_full N j : (0 < N)%nat -> cos (ang N (N * j)) = 1 /\ sin (ang N (N * j)) = 0.
Proof.
  intros HN. replace (ang N (N * j)) with (0 + 2 * INR j * PI).
  - rewrite cos_period, sin_period. split; [apply cos_0|apply sin_0].
  - unfold ang. rewrite mult_INR. field. apply not_0_INR. lia.
Qed.

Lemma Corth (s : bool) N m : (0 < m < N)%nat ->
  sum N (fun j => (cos (ang N (j * m)), if s then sin (ang N (j * m)) else - sin (ang N (j * m))) : Cops) = (r0 : Cops).
Proof.
  intros Hm. set (w := fun j => (cos (ang N (j * m)), if s then sin (ang N (j * m)) else - sin (ang N (j * m))) : Cops).
  assert (Hw : forall a b, w (a + b)%nat = rmul (w a) (w b)).
  { intros a b. unfold w. rewrite Nat.mul_add_distr_r, ang_add, cos_plus, sin_plus. cbn. unfold Cmul. cbn.
    destruct s; f_equal; ring. }
  assert (G := Cgeom w N Hw).
  assert (E0 : w 0%nat = (1, 0)).
  { unfold w. cbn [Nat.mul]. replace (ang N 0) with 0 by (unfold ang; cbn [INR]; unfold Rdiv; ring).
    rewrite cos_0, sin_0. destruct s; f_equal; ring. }
  assert (EN : w N = (1, 0)).
  { unfold w. destruct (ang_full N m) as [-> ->]; [lia|]. destruct s; f_equal; ring. }
  rewrite EN, E0 in G.
  assert (E1 : fst (w 1%nat : R * R) <> 1).
  { unfold w. cbn [fst]. rewrite Nat.mul_1_l. apply cos_ne1, ang_lt, Hm. }
  change (sum N w = (r0 : Cops)).
  destruct (w 1%nat) as [a b]. destruct (sum N w) as [c d]. cbn in *. unfold Cmul, Csub in G. cbn in G.
  injection G as G1 G2. assert (D : 0 < (a - 1) * (a - 1) + b * b).
  { assert (0 < (a - 1) * (a - 1)) by (apply Rsqr_pos_lt; lra). assert (0 <= b * b) by apply Rle_0_sqr. lra. }
  f_equal.
  - apply Rmult_eq_reg_l with ((a - 1) * (a - 1) + b * b); [|lra]. rewrite Rmult_0_r.
    replace (((a - 1) * (a - 1) + b * b) * c) with ((a - 1) * ((a - 1) * c - (b - 0) * d) + b * ((a - 1) * d + (b - 0) * c)) by ring.
    rewrite G1, G2. ring.
  - apply Rmult_eq_reg_l with ((a - 1) * (a - 1) + b * b); [|lra]. rewrite Rmult_0_r.
    replace (((a - 1) * (a - 1) + b * b) * d) with ((a - 1) * ((a - 1) * d + (b - 0) * c) - b * ((a - 1) * c - (b - 0) * d)) by ring.
    rewrite G1, G2. ring.
Qed.

Lemma Cidft_dft N x k : (k < N)%nat -> idft Cops N (dft Cops N x) k = sum N (fun _ => x k).
Proof.
  apply idft_dft_any.
  - apply CWadd.
  - intros. cbn. unfold Cmul. cbn. rewrite ang_add, cos_plus, sin_plus. f_equal; ring.
  - apply CVW.
  - intros n m Hm. exact (Corth false n m Hm).
  - intros n m Hm. exact (Corth true n m Hm).
Qed.
