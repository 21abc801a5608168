(** The three families together: recurrence, derivatives, degrees, orthogonality. *)
From Coq Require Import Reals Lra Lia List.
From Verif Require Import Base BaseFacts RIntLib FFTCheb QuadFacts QuadMore QuadCC OpeModel OpeSpec LegFacts HermFacts.
Local Open Scope R_scope.

Lemma phi_0 t x : phi t 0 x = 1.
Proof. destruct t; cbn [phi legP chebT herP fact INR Nat.mul Nat.add]; rewrite ?sqrt_1; field. Qed.
Lemma phi_1 t x : phi t 1 x = p_linc t + p_lin t * x.
Proof.
  destruct t; cbn [phi legP chebT herP fact]; unfold p_lin, p_linc; cbn [Nat.mul Nat.add].
  - replace (INR 3) with 3 by (cbn; ring). ring.
  - ring.
  - cbn [INR]. rewrite sqrt_1. field.
Qed.

Lemma sqrtN n : (0 < n)%nat -> 0 < sqrt (INR n).
Proof. intros. apply sqrt_lt_R0, lt_0_INR. lia. Qed.

Lemma phi_rec t n x : eval_wp t (phi t n x) (phi t (S n) x) (S (S n)) x = phi t (S (S n)) x.
Proof.
  unfold eval_wp, p_bn. destruct t; cbn [phi p_an p_cn].
  - change (legP (S (S n)) x) with ((INR (2 * n + 3) * x * legP (S n) x - INR (n + 1) * legP n x) / INR (n + 2)).
    replace (2 * S (S n) + 1)%nat with (2 * n + 5)%nat by lia. replace (2 * S n + 1)%nat with (2 * n + 3)%nat by lia.
    pose proof (sqrtN (2 * n + 1) ltac:(lia)) as P1. pose proof (sqrtN (2 * n + 3) ltac:(lia)) as P3. pose proof (sqrtN (2 * n + 5) ltac:(lia)) as P5.
    pose proof (pos_INR n) as Pn.
    assert (E1 : 4 * INR (S (S n) * S (S n)) - 1 = INR (2 * n + 3) * INR (2 * n + 5)).
    { rewrite mult_INR, !S_INR, !plus_INR, mult_INR. cbn [INR]. ring. }
    assert (E2 : 2 * INR (S (S n)) + 1 = INR (2 * n + 5)) by (rewrite !S_INR, plus_INR, mult_INR; cbn [INR]; ring).
    assert (E3 : 2 * INR (S (S n)) - 3 = INR (2 * n + 1)) by (rewrite !S_INR, plus_INR, mult_INR; cbn [INR]; ring).
    assert (E4 : INR (S (S n)) - 1 = INR (n + 1)) by (rewrite !S_INR, plus_INR; cbn [INR]; ring).
    rewrite E1, E2, E3, E4, sqrt_mult by apply pos_INR.
    replace (INR (2 * n + 3) * x * legP (S n) x) with (sqrt (INR (2 * n + 3)) * sqrt (INR (2 * n + 3)) * x * legP (S n) x) by (rewrite sqrt_sqrt by apply pos_INR; ring).
    replace (S (S n)) with (n + 2)%nat by lia. field. repeat split; first [apply not_0_INR; lia|lra].
  - cbn [chebT]. ring.
  - rewrite herP_SS. assert (F : forall k, (0 < fact k)%nat) by apply lt_O_fact.
    pose proof (sqrtN (fact n) (F n)) as P0.
    pose proof (sqrtN (S n) ltac:(lia)) as P1. pose proof (sqrtN (S (S n)) ltac:(lia)) as P2.
    assert (E1 : sqrt (INR (fact (S n))) = sqrt (INR (S n)) * sqrt (INR (fact n))) by (rewrite fact_simpl, mult_INR; apply sqrt_mult; apply pos_INR).
    assert (E2 : sqrt (INR (fact (S (S n)))) = sqrt (INR (S (S n))) * (sqrt (INR (S n)) * sqrt (INR (fact n)))).
    { rewrite fact_simpl, mult_INR, <- E1. apply sqrt_mult; apply pos_INR. }
    assert (E3 : sqrt ((INR (S (S n)) - 1) / INR (S (S n))) = sqrt (INR (S n)) / sqrt (INR (S (S n)))).
    { rewrite sqrt_div_alt by (apply lt_0_INR; lia). do 2 f_equal. rewrite (S_INR (S n)). ring. }
    rewrite E1, E2, E3. replace (INR (n + 1)) with (sqrt (INR (S n)) * sqrt (INR (S n))) by (rewrite sqrt_sqrt by apply pos_INR; f_equal; lia).
    field. repeat split; lra.
Qed.

(** derivatives *)
Definition phiD (t : ptype) (k : nat) (x : R) : R :=
  match t with
  | LEGENDRE => sqrt (INR (2 * k + 1)) * legD k x
  | CHEBYSHEV => match k with O => 0 | S j => INR (S j) * chebU j x end
  | HERMITE => herD k x / sqrt (INR (fact k))
  end.
Lemma phi_deriv t k x : derivable_pt_lim (phi t k) x (phiD t k x).
Proof.
  destruct t; cbn [phi phiD].
  - apply (derivable_pt_lim_scal (legP k)), legP_deriv.
  - destruct k; [apply derivable_pt_lim_const|apply (chebT_deriv k x)].
  - apply (derivable_pt_lim_ext (fun x => / sqrt (INR (fact k)) * herP k x)); [intros; cbn [phi]; unfold Rdiv; ring|].
    eapply deriv_val; [apply (derivable_pt_lim_scal (herP k)), herP_deriv'|]. unfold Rdiv. ring.
Qed.
Lemma phiD_0 t x : phiD t 0 x = 0.
Proof. destruct t; cbn; unfold Rdiv; try ring; reflexivity. Qed.
Lemma phiD_1 t x : phiD t 1 x = p_lin t.
Proof.
  apply (uniqueness_limite (phi t 1) x); [apply phi_deriv|].
  apply (derivable_pt_lim_ext (fun x => p_linc t + p_lin t * x)); [intros; symmetry; apply phi_1|].
  eapply deriv_val; [apply (derivable_pt_lim_plus (fun _ => p_linc t) (fun x => p_lin t * x)); [apply derivable_pt_lim_const|apply (derivable_pt_lim_scal (fun x => x)), derivable_pt_lim_id]|]. ring.
Qed.
Lemma phiD_rec t n x : (p_an t (S (S n)) * x + p_bn t (S (S n))) * phiD t (S n) x + p_an t (S (S n)) * phi t (S n) x + p_cn t (S (S n)) * phiD t n x = phiD t (S (S n)) x.
Proof.
  apply (uniqueness_limite (phi t (S (S n))) x); [|apply phi_deriv].
  apply (derivable_pt_lim_ext (fun x => p_an t (S (S n)) * (x * phi t (S n) x) + p_cn t (S (S n)) * phi t n x)).
  { intros z. rewrite <- phi_rec. unfold eval_wp, p_bn. ring. }
  eapply deriv_val.
  - apply (derivable_pt_lim_plus (fun x => p_an t (S (S n)) * (x * phi t (S n) x)) (fun x => p_cn t (S (S n)) * phi t n x)).
    + apply (derivable_pt_lim_scal (fun x => x * phi t (S n) x)). apply (derivable_pt_lim_mult (fun x => x) (phi t (S n))); [apply derivable_pt_lim_id|apply phi_deriv].
    + apply (derivable_pt_lim_scal (phi t n)), phi_deriv.
  - cbv beta. unfold p_bn. ring.
Qed.
Lemma phi_cont t k : continuity (phi t k).
Proof. intros x. apply derivable_continuous_pt. eexists. apply phi_deriv. Qed.

(** ** Degrees *)
Fixpoint phil (t : ptype) (n : nat) {struct n} : list R :=
  match n with
  | O => 1 :: nil
  | S m => match m with
    | O => 0 :: p_lin t :: nil
    | S k => padd (0 :: map (Rmult (p_an t n)) (phil t m)) (map (Rmult (p_cn t n)) (phil t k))
    end
  end.
Lemma phil_pe t n x : phi t n x = pe (phil t n) x.
Proof.
  enough (H : phi t n x = pe (phil t n) x /\ phi t (S n) x = pe (phil t (S n)) x) by apply H.
  induction n as [|n [I1 I2]].
  - rewrite phi_0, phi_1. cbn. unfold p_linc. split; ring.
  - split; auto. rewrite <- phi_rec. unfold eval_wp, p_bn. rewrite I1, I2.
    change (phil t (S (S n))) with (padd (0 :: map (Rmult (p_an t (S (S n)))) (phil t (S n))) (map (Rmult (p_cn t (S (S n)))) (phil t n))).
    rewrite pe_padd. cbn [pe]. rewrite !pe_scal. ring.
Qed.
Lemma phil_length t n : length (phil t n) = S n.
Proof.
  enough (H : length (phil t n) = S n /\ length (phil t (S n)) = S (S n)) by apply H.
  induction n as [|n [I1 I2]]; [auto|]. split; auto.
  change (phil t (S (S n))) with (padd (0 :: map (Rmult (p_an t (S (S n)))) (phil t (S n))) (map (Rmult (p_cn t (S (S n)))) (phil t n))).
  rewrite padd_length. cbn [length]. rewrite !map_length, I1, I2. lia.
Qed.
Lemma padd_nth p : forall q k, nth k (padd p q) 0 = nth k p 0 + nth k q 0.
Proof.
  induction p as [|a p IH]; intros [|b q] k; cbn [padd].
  - destruct k; cbn; ring.
  - destruct k; cbn; ring.
  - destruct k; cbn; ring.
  - destruct k; cbn [nth]; [ring|apply IH].
Qed.
Lemma nth_scal c l k : nth k (map (Rmult c) l) 0 = c * nth k l 0.
Proof. revert k. induction l as [|a l IH]; intros [|k]; cbn; try ring. apply IH. Qed.
Lemma p_an_pos t n : 0 < p_an t (S (S n)).
Proof.
  destruct t; cbn [p_an].
  - apply Rdiv_lt_0_compat; [|apply lt_0_INR; lia]. apply sqrt_lt_R0. rewrite mult_INR, !S_INR. pose proof (pos_INR n). nra.
  - lra.
  - apply Rdiv_lt_0_compat; [lra|]. apply sqrtN. lia.
Qed.
Lemma p_lin_pos t : 0 < p_lin t.
Proof. destruct t; cbn; try lra. rewrite Rmult_1_l. apply sqrt_lt_R0. lra. Qed.
Lemma phil_lead t n : 0 < nth n (phil t n) 0.
Proof.
  enough (H : 0 < nth n (phil t n) 0 /\ 0 < nth (S n) (phil t (S n)) 0) by apply H.
  induction n as [|n [I1 I2]]; [cbn [phil nth]; split; [lra|apply p_lin_pos]|]. split; auto.
  change (phil t (S (S n))) with (padd (0 :: map (Rmult (p_an t (S (S n)))) (phil t (S n))) (map (Rmult (p_cn t (S (S n)))) (phil t n))).
  rewrite padd_nth. cbn [nth]. rewrite nth_scal, (nth_overflow (map _ (phil t n))) by (rewrite map_length, phil_length; lia).
  pose proof (p_an_pos t n). nra.
Qed.

(** ** Chebyshev polynomials are orthogonal with the weight of the arcsine distribution *)
Lemma chebT_prod i : forall j x, 2 * chebT i x * chebT (i + j) x = chebT (i + (i + j)) x + chebT j x.
Proof.
  enough (H : forall j x, 2 * chebT i x * chebT (i + j) x = chebT (i + (i + j)) x + chebT j x /\
     2 * chebT (S i) x * chebT (S i + j) x = chebT (S i + (S i + j)) x + chebT j x) by (intros; apply H).
  induction i as [|i IH]; intros j x.
  - split; [cbn; ring|]. cbn [Nat.add]. rewrite chebT_SS. cbn [chebT]. ring.
  - split; [apply IH|]. destruct (IH (S (S j)) x) as [A _]. destruct (IH (S j) x) as [_ B].
    replace (S (S i) + j)%nat with (i + S (S j))%nat by lia. replace (S i + S j)%nat with (i + S (S j))%nat in B by lia.
    rewrite (chebT_SS i). replace (S (S i) + (i + S (S j)))%nat with (S (S (i + (i + S (S j)))))%nat by lia.
    rewrite (chebT_SS (i + (i + S (S j)))). replace (S i + (i + S (S j)))%nat with (S (i + (i + S (S j))))%nat in B by lia.
    assert (C := chebT_SS j x).
    transitivity (2 * x * (2 * chebT (S i) x * chebT (i + S (S j)) x) - 2 * chebT i x * chebT (i + S (S j)) x); [ring|].
    rewrite A, B, C. ring.
Qed.
Lemma cheb_orth i j : is_RInt (fun th => chebT i (cos th) * chebT j (cos th)) 0 PI (if (i =? j)%nat then p_norm CHEBYSHEV i else 0).
Proof.
  assert (S1 : forall i j, (i <= j)%nat -> is_RInt (fun th => chebT i (cos th) * chebT j (cos th)) 0 PI (if (i =? j)%nat then p_norm CHEBYSHEV i else 0)).
  { clear i j. intros i j L. pose proof (chebT_prod i (j - i)) as P. replace (i + (j - i))%nat with j in P by lia.
    pose proof (is_RInt_comb _ _ 0 PI 1 _ _ (cos_k_RInt (i + j)) (cos_k_RInt (j - i))) as C.
    pose proof (is_RInt_comb _ _ 0 PI (/ 2) _ _ (is_RInt_const 0 0 PI) C) as C'.
    match type of C' with is_RInt _ _ _ ?v => replace (if (i =? j)%nat then p_norm CHEBYSHEV i else 0) with v end.
    - eapply is_RInt_ext_all; [|exact C']. intros th. cbv beta. specialize (P (cos th)).
      assert (chebT (i + j) (cos th) + 1 * chebT (j - i) (cos th) = 2 * (chebT i (cos th) * chebT j (cos th))) as -> by lra. field.
    - cbn [p_norm]. destruct (Nat.eqb_spec i j) as [<-|N].
      + replace (i - i)%nat with 0%nat by lia. cbn [Nat.eqb]. destruct i; cbn [Nat.eqb Nat.add]; field.
      + destruct (Nat.eqb_spec (i + j) 0); [lia|]. destruct (Nat.eqb_spec (j - i) 0); [lia|]. field. }
  destruct (Nat.le_ge_cases i j) as [L|L]; [auto|].
  eapply is_RInt_ext_all; [|replace (if (i =? j)%nat then p_norm CHEBYSHEV i else 0) with (if (j =? i)%nat then p_norm CHEBYSHEV j else 0); [apply (S1 j i L)|]].
  - intros th. cbv beta. ring.
  - destruct (Nat.eqb_spec i j) as [->|N]; [now rewrite Nat.eqb_refl|]. destruct (Nat.eqb_spec j i); [lia|reflexivity].
Qed.
