(** Legendre polynomials: derivative identities, orthogonality, norms. *)
From Coq Require Import Reals Lra Lia.
From Verif Require Import Base BaseFacts RIntLib FFTCheb QuadFacts QuadMore OpeModel OpeSpec.
Local Open Scope R_scope.

Lemma legP_SS n x : INR (n + 2) * legP (S (S n)) x = INR (2 * n + 3) * x * legP (S n) x - INR (n + 1) * legP n x.
Proof.
  change (legP (S (S n)) x) with ((INR (2 * n + 3) * x * legP (S n) x - INR (n + 1) * legP n x) / INR (n + 2)).
  field. apply not_0_INR. lia.
Qed.
(** the derivative *)
Fixpoint legD (n : nat) (x : R) {struct n} : R :=
  match n with
  | O => 0
  | S m => match m with
    | O => 1
    | S k => (INR (2 * k + 3) * (legP m x + x * legD m x) - INR (k + 1) * legD k x) / INR (k + 2)
    end
  end.
Lemma legD_SS n x : INR (n + 2) * legD (S (S n)) x = INR (2 * n + 3) * (legP (S n) x + x * legD (S n) x) - INR (n + 1) * legD n x.
Proof.
  change (legD (S (S n)) x) with ((INR (2 * n + 3) * (legP (S n) x + x * legD (S n) x) - INR (n + 1) * legD n x) / INR (n + 2)).
  field. apply not_0_INR. lia.
Qed.

Lemma deriv_val f x a b : derivable_pt_lim f x a -> a = b -> derivable_pt_lim f x b.
Proof. now intros H <-. Qed.
Lemma legP_deriv n x : derivable_pt_lim (legP n) x (legD n x) /\ derivable_pt_lim (legP (S n)) x (legD (S n) x).
Proof.
  induction n as [|n [I1 I2]].
  - split; [apply derivable_pt_lim_const|apply derivable_pt_lim_id].
  - split; auto.
    apply (derivable_pt_lim_ext (fun x => / INR (n + 2) * (INR (2 * n + 3) * (x * legP (S n) x) - INR (n + 1) * legP n x))).
    { intros z. change (legP (S (S n)) z) with ((INR (2 * n + 3) * z * legP (S n) z - INR (n + 1) * legP n z) / INR (n + 2)). unfold Rdiv. ring. }
    eapply deriv_val.
    + apply (derivable_pt_lim_scal (fun x => INR (2 * n + 3) * (x * legP (S n) x) - INR (n + 1) * legP n x) (/ INR (n + 2))).
      apply (derivable_pt_lim_minus (fun x => INR (2 * n + 3) * (x * legP (S n) x)) (fun x => INR (n + 1) * legP n x)).
      * apply (derivable_pt_lim_scal (fun x => x * legP (S n) x)). apply (derivable_pt_lim_mult (fun x => x) (legP (S n))); [apply derivable_pt_lim_id|exact I2].
      * apply (derivable_pt_lim_scal (legP n)). exact I1.
    + change (legD (S (S n)) x) with ((INR (2 * n + 3) * (legP (S n) x + x * legD (S n) x) - INR (n + 1) * legD n x) / INR (n + 2)).
      unfold Rdiv. ring.
Qed.

Lemma INRs : forall n, INR (n + 1) = INR n + 1 /\ INR (n + 2) = INR n + 2 /\ INR (2 * n + 3) = 2 * INR n + 3 /\ INR (2 * n + 1) = 2 * INR n + 1.
Proof. intros n. rewrite !plus_INR, mult_INR. cbn [INR]. repeat split; ring. Qed.
Ltac inrs n := let A := fresh in let B := fresh in let C := fresh in let D := fresh in
  destruct (INRs n) as (A & B & C & D); rewrite ?A, ?B, ?C, ?D in *; clear A B C D; pose proof (pos_INR n).

(** (i) and (ii) *)
Lemma leg_12 n x : legD (S n) x - x * legD n x = (INR n + 1) * legP n x /\ x * legD (S n) x - legD n x = (INR n + 1) * legP (S n) x.
Proof.
  induction n as [|n [I1 I2]].
  - cbn. split; ring.
  - pose proof (legD_SS n x) as E. pose proof (legP_SS n x) as F. inrs n. rewrite S_INR.
    assert (A : legD (S (S n)) x = x * legD (S n) x + (INR n + 2) * legP (S n) x).
    { apply Rmult_eq_reg_l with (INR n + 2); [|lra]. rewrite E. replace (legD n x) with (x * legD (S n) x - (INR n + 1) * legP (S n) x) by lra. ring. }
    split; [rewrite A; ring|].
    assert (B : (x * x - 1) * legD (S n) x = (INR n + 1) * (x * legP (S n) x - legP n x)).
    { transitivity (x * (x * legD (S n) x - legD n x) - (legD (S n) x - x * legD n x)); [ring|]. rewrite I1, I2. ring. }
    rewrite A. transitivity ((x * x - 1) * legD (S n) x + (INR n + 2) * (x * legP (S n) x)); [ring|]. rewrite B.
    transitivity ((INR n + 2) * legP (S (S n)) x); [rewrite F; ring|ring].
Qed.
Lemma leg_A n x : (x * x - 1) * legD (S n) x = (INR n + 1) * (x * legP (S n) x - legP n x).
Proof.
  destruct (leg_12 n x) as [I1 I2].
  transitivity (x * (x * legD (S n) x - legD n x) - (legD (S n) x - x * legD n x)); [ring|]. rewrite I1, I2. ring.
Qed.
(** (iii) *)
Lemma leg_3 n x : legD (S (S n)) x - legD n x = INR (2 * n + 3) * legP (S n) x.
Proof. destruct (leg_12 (S n) x) as [I1 _]. destruct (leg_12 n x) as [_ I2]. inrs n. rewrite S_INR in I1. lra. Qed.

(** derivative of (x^2-1) P_n' *)
Lemma leg_ode n x : derivable_pt_lim (fun x => (x * x - 1) * legD n x) x (INR n * (INR n + 1) * legP n x).
Proof.
  destruct n as [|n].
  - apply (derivable_pt_lim_ext (fun _ => 0)); [intros z; cbn; ring|]. eapply deriv_val; [apply derivable_pt_lim_const|cbn; ring].
  - apply (derivable_pt_lim_ext (fun x => (INR n + 1) * (x * legP (S n) x - legP n x))); [intros z; now rewrite leg_A|].
    eapply deriv_val.
    + apply (derivable_pt_lim_scal (fun x => x * legP (S n) x - legP n x)).
      apply (derivable_pt_lim_minus (fun x => x * legP (S n) x) (legP n)); [|apply legP_deriv].
      apply (derivable_pt_lim_mult (fun x => x) (legP (S n))); [apply derivable_pt_lim_id|apply legP_deriv].
    + cbv beta. pose proof (proj2 (leg_12 n x)) as E. rewrite S_INR.
      transitivity ((INR n + 1) * (legP (S n) x + (x * legD (S n) x - legD n x))); [ring|]. rewrite E. ring.
Qed.

Lemma legP_continuity n : continuity (legP n).
Proof. intros x. apply derivable_continuous_pt. eexists. apply (legP_deriv n x). Qed.
Lemma cont_mult f g : continuity f -> continuity g -> continuity (fun x => f x * g x).
Proof. intros F G. apply (continuity_mult f g); auto. Qed.
Lemma cont_RInt f a b : a <= b -> continuity f -> exists v, is_RInt f a b v.
Proof. intros L C. eexists. exists (continuity_implies_RiemannInt L (fun x _ => C x)). reflexivity. Qed.

(** orthogonality *)
Lemma leg_orth n m : n <> m -> is_RInt (fun x => legP n x * legP m x) (-1) 1 0.
Proof.
  intros N.
  assert (W : is_RInt (fun x => (INR n * (INR n + 1) - INR m * (INR m + 1)) * (legP n x * legP m x)) (-1) 1 0).
  { set (F := fun x => (x * x - 1) * legD n x * legP m x - legP n x * ((x * x - 1) * legD m x)).
    replace 0 with (F 1 - F (-1)) by (unfold F; ring). apply is_RInt_prim.
    - intros x. unfold F. eapply deriv_val.
      + apply (derivable_pt_lim_minus (fun x => (x * x - 1) * legD n x * legP m x) (fun x => legP n x * ((x * x - 1) * legD m x))).
        * apply (derivable_pt_lim_mult (fun x => (x * x - 1) * legD n x) (legP m)); [apply leg_ode|apply legP_deriv].
        * apply (derivable_pt_lim_mult (legP n) (fun x => (x * x - 1) * legD m x)); [apply legP_deriv|apply leg_ode].
      + cbv beta. ring.
    - apply (continuity_scal (fun x => legP n x * legP m x)). apply cont_mult; apply legP_continuity. }
  destruct (cont_RInt (fun x => legP n x * legP m x) (-1) 1) as [v V]; [lra|apply cont_mult; apply legP_continuity|].
  set (k := INR n * (INR n + 1) - INR m * (INR m + 1)) in *.
  assert (K : k <> 0).
  { unfold k. intros E. assert (E' : (INR n - INR m) * (INR n + INR m + 1) = 0) by (rewrite <- E; ring).
    apply Rmult_integral in E'. destruct E' as [E'|E']; [apply N, INR_eq; lra|]. pose proof (pos_INR n). pose proof (pos_INR m). lra. }
  pose proof (is_RInt_comb _ _ (-1) 1 k _ _ (is_RInt_const 0 (-1) 1) V) as B.
  assert (B' : is_RInt (fun x => k * (legP n x * legP m x)) (-1) 1 (0 * (1 - -1) + k * v)).
  { eapply is_RInt_ext_all; [|exact B]. intros x. cbv beta. ring. }
  pose proof (is_RInt_unique _ _ _ _ _ W B') as E. assert (k * v = 0) by lra.
  apply Rmult_integral in H. destruct H as [H|H]; [contradiction|]. now rewrite <- H.
Qed.

(** norms *)
Lemma leg_norm n : is_RInt (fun x => legP n x * legP n x) (-1) 1 (2 / INR (2 * n + 1)).
Proof.
  induction n as [|n IH].
  - replace (2 / INR (2 * 0 + 1)) with (1 * (1 - -1)) by (cbn; field). eapply is_RInt_ext_all; [|apply (is_RInt_const 1)]. intros x. cbn. ring.
  - destruct (cont_RInt (fun x => x * legP n x * legP (S n) x) (-1) 1) as [u U]; [lra| |].
    { repeat apply cont_mult; try apply legP_continuity. apply derivable_continuous, derivable_id. }
    assert (E1 : INR (2 * n + 3) * u = INR (n + 1) * (2 / INR (2 * n + 1))).
    { assert (O := leg_orth (S (S n)) n ltac:(lia)).
      pose proof (is_RInt_comb _ _ (-1) 1 (INR (n + 2)) _ _ (is_RInt_const 0 (-1) 1) O) as O'.
      pose proof (is_RInt_comb _ _ (-1) 1 (INR (2 * n + 3)) _ _ (is_RInt_const 0 (-1) 1) U) as U1.
      pose proof (is_RInt_comb _ _ (-1) 1 (- INR (n + 1)) _ _ U1 IH) as V.
      assert (V' : is_RInt (fun x => 0 + INR (n + 2) * (legP (S (S n)) x * legP n x)) (-1) 1
                     (0 * (1 - -1) + INR (2 * n + 3) * u + - INR (n + 1) * (2 / INR (2 * n + 1)))).
      { eapply is_RInt_ext_all; [|exact V]. intros x. cbv beta.
        transitivity ((INR (n + 2) * legP (S (S n)) x) * legP n x); [rewrite legP_SS; ring|ring]. }
      pose proof (is_RInt_unique _ _ _ _ _ V' O') as E. lra. }
    assert (G : is_RInt (fun x => legP (S n) x * legP (S n) x) (-1) 1 (INR (2 * n + 1) / INR (n + 1) * u)).
    { destruct n as [|n].
      - cbn [INR Nat.mul Nat.add]. replace (1 / 1 * u) with u by field. eapply is_RInt_ext_all; [|exact U]. intros x. cbn. ring.
      - assert (O := leg_orth n (S (S n)) ltac:(lia)).
        pose proof (is_RInt_comb _ _ (-1) 1 (INR (2 * S n + 1) / INR (S n + 1)) _ _ (is_RInt_const 0 (-1) 1) U) as U1.
        pose proof (is_RInt_comb _ _ (-1) 1 (- INR (n + 1) / INR (S n + 1)) _ _ U1 O) as V.
        replace (INR (2 * S n + 1) / INR (S n + 1) * u) with
          (0 * (1 - -1) + INR (2 * S n + 1) / INR (S n + 1) * u + - INR (n + 1) / INR (S n + 1) * 0) by ring.
        eapply is_RInt_ext_all; [|exact V]. intros x. cbv beta.
        replace (2 * S n + 1)%nat with (2 * n + 3)%nat by lia. replace (S n + 1)%nat with (n + 2)%nat by lia.
        change (legP (S (S n)) x) at 3 with ((INR (2 * n + 3) * x * legP (S n) x - INR (n + 1) * legP n x) / INR (n + 2)).
        unfold Rdiv. ring. }
    replace (2 / INR (2 * S n + 1)) with (INR (2 * n + 1) / INR (n + 1) * u); auto.
    replace (2 * S n + 1)%nat with (2 * n + 3)%nat by lia.
    inrs n. assert (Eu : u = (INR n + 1) * (2 / (2 * INR n + 1)) / (2 * INR n + 3)) by (apply Rmult_eq_reg_l with (2 * INR n + 3); [rewrite E1; field; lra|lra]).
    rewrite Eu. field. lra.
Qed.

(** end points *)
Lemma legP_1 n : legP n 1 = 1 /\ legP (S n) 1 = 1.
Proof.
  induction n as [|n [I1 I2]]; [cbn; auto|]. split; auto.
  pose proof (legP_SS n 1) as E. rewrite I1, I2 in E. inrs n. apply Rmult_eq_reg_l with (INR n + 2); lra.
Qed.

(** ** The orthonormal family *)
Lemma phi_leg_orth i j : is_RInt (fun x => phi LEGENDRE i x * phi LEGENDRE j x) (-1) 1 (if (i =? j)%nat then 2 else 0).
Proof.
  cbn [phi].
  assert (A : forall v, is_RInt (fun x => legP i x * legP j x) (-1) 1 v ->
    is_RInt (fun x => sqrt (INR (2 * i + 1)) * legP i x * (sqrt (INR (2 * j + 1)) * legP j x)) (-1) 1 (sqrt (INR (2 * i + 1)) * sqrt (INR (2 * j + 1)) * v)).
  { intros v V. pose proof (is_RInt_comb _ _ (-1) 1 (sqrt (INR (2 * i + 1)) * sqrt (INR (2 * j + 1))) _ _ (is_RInt_const 0 (-1) 1) V) as B.
    replace (sqrt (INR (2 * i + 1)) * sqrt (INR (2 * j + 1)) * v) with (0 * (1 - -1) + sqrt (INR (2 * i + 1)) * sqrt (INR (2 * j + 1)) * v) by ring.
    eapply is_RInt_ext_all; [|exact B]. intros x. cbv beta. ring. }
  destruct (Nat.eqb_spec i j) as [<-|N].
  - specialize (A _ (leg_norm i)). rewrite sqrt_sqrt in A by apply pos_INR.
    replace (INR (2 * i + 1) * (2 / INR (2 * i + 1))) with 2 in A by (field; apply not_0_INR; lia). exact A.
  - specialize (A _ (leg_orth i j N)). rewrite Rmult_0_r in A. exact A.
Qed.

(** the derivative as an expansion *)
Lemma legD_sum n x : legD n x = rs n (fun k => if Nat.odd (n - k) then INR (2 * k + 1) * legP k x else 0).
Proof.
  enough (H : legD n x = rs n (fun k => if Nat.odd (n - k) then INR (2 * k + 1) * legP k x else 0) /\
              legD (S n) x = rs (S n) (fun k => if Nat.odd (S n - k) then INR (2 * k + 1) * legP k x else 0)) by apply H.
  induction n as [|n [I1 I2]]; [cbn; split; ring|]. split; auto.
  cbn [rs]. replace (S (S n) - S n)%nat with 1%nat by lia. replace (S (S n) - n)%nat with 2%nat by lia. cbn [Nat.odd Nat.even negb].
  rewrite (rs_ext n _ (fun k => if Nat.odd (n - k) then INR (2 * k + 1) * legP k x else 0)).
  2:{ intros k Hk. replace (S (S n) - k)%nat with (S (S (n - k))) by lia. now rewrite Nat.odd_succ, Nat.even_succ. }
  rewrite <- I1. pose proof (leg_3 n x) as E. replace (2 * S n + 1)%nat with (2 * n + 3)%nat by lia. lra.
Qed.
