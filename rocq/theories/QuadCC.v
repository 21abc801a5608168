(** Clenshaw-Curtis, Gauss-Chebyshev, rescaling, and the rule called fejer2. *)
From Verif Require Import Base BaseFacts CRing RealInst FOps RIntLib FFTModel FFTFacts FFTMore FFTCheb QuadModel QuadFacts QuadMore.
From Coq Require Import Reals Lra.
Local Open Scope R_scope.

(** Real numbers with the cosine. *)
Definition Rq (tol : R) : qops := mkQops (Rops tol) PI (fun k m => cos (PI * INR k / INR m)).

Definition ccB (n j : nat) : R := if (2 * j =? n)%nat then 1 else 2.
Definition ccT (n j i : nat) : R := ccB n j * cos (PI * INR (2 * j * i) / INR n) / (4 * (INR j * INR j) - 1).
Definition ccU (n i : nat) : R := 1 - rs (n / 2) (fun j => ccT n (S j) i).
Definition ccW (n i : nat) : R := (if orb (i =? 0) (i =? n) then ccU n i else 2 * ccU n i) / INR n.
Definition ccX (n i : nat) : R := cos (PI * INR (n - i) / INR n).

(** ** What the routine stores *)
Definition agree (N : nat) (f : nat -> R) (s0 s : list R) : Prop :=
  length s = length s0 /\ (forall i, (i < N)%nat -> nth_error s i = Some (f i)) /\
  (forall i, (N <= i)%nat -> nth_error s i = nth_error s0 i).

Ltac req := match goal with |- @eq _ ?a00 ?b00 => change (@eq R a00 b00) end.

Lemma cc_ok tol N (pts wts : list R) : (2 <= N)%nat -> (N <= length pts)%nat -> (N <= length wts)%nat ->
  exists P W, clenshaw_curtis (K := Rq tol) N pts wts = Ok (P, W) /\
    agree N (ccX (N - 1)) pts P /\ agree N (ccW (N - 1)) wts W.
Proof.
  intros HN Lp Lw. unfold clenshaw_curtis. cbn [f0 f1 fadd fsub fmul fdiv fnat qcos qpi qf Rq Rops fcar].
  destruct (Nat.eqb_spec N 1) as [|_]; [lia|]. set (n := (N - 1)%nat). assert (Hn : (1 <= n)%nat) by (unfold n; lia).
  assert (Hn0 : INR n <> 0) by (apply not_0_INR; lia).
  match goal with |- context [for_from ?lo00 ?n00 ?b00 pts] =>
    destruct (for_from_inv (fun m (s : list R) => length s = length pts /\
       (forall i, (1 <= i < m)%nat -> nth_error s i = Some (ccX n i)) /\
       (forall i, (N <= i)%nat -> nth_error s i = nth_error pts i)) b00 lo00 n00 pts)
      as (P1 & E1 & L1 & V1 & F1) end.
  { repeat split; auto. intros; lia. }
  { intros i s Hi (L & V & F). rewrite aset_ok by lia. eexists. split; [reflexivity|]. rewrite upd_length. split; auto. split.
    - intros j Hj. destruct (Nat.eq_dec i j) as [<-|Nj]; [rewrite nth_error_upd_same by lia; reflexivity|].
      rewrite nth_error_upd_other by auto. apply V. lia.
    - intros j Hj. rewrite nth_error_upd_other by lia. auto. }
  rewrite E1. cbn [obind]. rewrite aset_ok by lia. cbn [obind].
  assert (EP : exists P2, (if N mod 2 =? 1 then aset (upd P1 0 (0 - 1)) (n / 2) 0 else Ok (upd P1 0 (0 - 1))) = Ok P2 /\
    length P2 = length pts /\ (forall i, (0 <= i < n)%nat -> nth_error P2 i = Some (ccX n i)) /\ (forall i, (N <= i)%nat -> nth_error P2 i = nth_error pts i)).
  { assert (X0 : nth_error (upd P1 0 (0 - 1)) 0 = Some (ccX n 0)).
    { rewrite nth_error_upd_same by lia. f_equal. unfold ccX. rewrite Nat.sub_0_r.
      replace (PI * INR n / INR n) with PI by (field; auto). rewrite cos_PI. cbn. ring. }
    assert (B : forall i, (0 <= i < n)%nat -> nth_error (upd P1 0 (0 - 1)) i = Some (ccX n i)).
    { intros i Hi. destruct (Nat.eq_dec i 0) as [->|N0]; auto. rewrite nth_error_upd_other by lia. apply V1. lia. }
    destruct (Nat.eqb_spec (N mod 2) 1) as [Ho|Ho].
    - assert (En : (n = 2 * (n / 2))%nat).
      { pose proof (Nat.div_mod N 2 ltac:(lia)) as D. rewrite Ho in D. unfold n.
        replace (N - 1)%nat with (N / 2 * 2)%nat by lia. rewrite Nat.div_mul by lia. lia. }
      rewrite aset_ok by (rewrite upd_length; lia). eexists. split; [reflexivity|]. rewrite !upd_length. split; auto. split.
      + intros i Hi. destruct (Nat.eq_dec (n / 2) i) as [<-|Nj].
        * rewrite nth_error_upd_same by (rewrite upd_length; lia). f_equal. unfold ccX.
          replace (PI * INR (n - n / 2) / INR n) with (PI / 2); [rewrite cos_PI2; reflexivity|].
          replace (n - n / 2)%nat with (n / 2)%nat by lia. rewrite En at 2. rewrite mult_INR. cbn [INR]. field.
          apply not_0_INR. lia.
        * rewrite nth_error_upd_other by auto. apply B; auto.
      + intros i Hi. rewrite !nth_error_upd_other by lia. auto.
    - eexists. split; [reflexivity|]. rewrite !upd_length. split; auto. split; [exact B|].
      intros i Hi. rewrite !nth_error_upd_other by lia. auto. }
  destruct EP as (P2 & -> & LP2 & VP2 & FP2). cbn [obind]. rewrite aset_ok by lia. cbn [obind].
  match goal with |- context [for_ N ?b00 wts] =>
    destruct (for_inv (fun m (s : list R) => agree m (ccU n) wts s) b00 N wts)
      as (W1 & E2 & LW1 & VW1 & FW1) end.
  { repeat split; auto. intros; lia. }
  { intros i s Hi (L & V & F). rewrite aset_ok by lia. cbn [obind].
    match goal with |- context [for_from ?lo00 ?n00 ?b00 ?s00] =>
    destruct (for_from_inv (fun m (s1 : list R) => length s1 = length wts /\
       nth_error s1 i = Some (1 - rs (m - 1) (fun j => ccT n (S j) i)) /\
       (forall j, j <> i -> nth_error s1 j = nth_error s j)) b00 lo00 n00 s00) as (s2 & E & L2 & V2 & F2) end.
    { rewrite upd_length. split; auto. split.
      - rewrite nth_error_upd_same by lia. f_equal. cbn. ring.
      - intros j Hj. now rewrite nth_error_upd_other by auto. }
    { intros j s1 Hj (L1' & V1' & F1'). rewrite (aget_ok s1 i _ V1'). cbn [obind]. rewrite aset_ok by lia.
      eexists. split; [reflexivity|]. rewrite upd_length. split; auto. split.
      - rewrite nth_error_upd_same by lia. f_equal. destruct j as [|j]; [lia|].
        replace (S (S j) - 1)%nat with (S j) by lia. replace (S j - 1)%nat with j by lia. cbn [rs].
        generalize (rs j (fun j0 : nat => ccT n (S j0) i)). intros r00. unfold ccT, ccB.
        replace (INR 4) with 4 by (cbn; ring). replace (INR 2) with 2 by (cbn; ring).
        destruct (2 * S j =? n)%nat; unfold Rdiv; ring.
      - intros k Hk. rewrite nth_error_upd_other by auto. auto. }
    rewrite E. eexists. split; [reflexivity|]. split; [lia|]. split.
    - intros j Hj. destruct (Nat.eq_dec j i) as [->|Nj].
      + rewrite V2. unfold ccU. replace (1 + n / 2 - 1)%nat with (n / 2)%nat by lia. reflexivity.
      + rewrite F2 by auto. apply V. lia.
    - intros j Hj. rewrite F2 by lia. apply F. lia. }
  rewrite E2. cbn [obind]. rewrite (aget_ok W1 0 _ (VW1 0%nat ltac:(lia))). cbn [obind]. rewrite aset_ok by lia. cbn [obind].
  match goal with |- context [for_from ?lo00 ?n00 ?b00 ?s00] =>
    destruct (for_from_inv (fun m (s : list R) => length s = length wts /\
       (forall i, (i < m)%nat -> (i < n)%nat -> nth_error s i = Some (ccW n i)) /\
       (forall i, (m <= i)%nat -> nth_error s i = nth_error W1 i)) b00 lo00 n00 s00)
      as (W2 & E3 & L3 & V3 & F3) end.
  { rewrite upd_length. split; auto. split.
    - intros i Hi Hi'. assert (i = 0)%nat as -> by lia. rewrite nth_error_upd_same by lia. f_equal.
    - intros i Hi. now rewrite nth_error_upd_other by lia. }
  { intros i s Hi (L & V & F). rewrite (aget_ok s i (ccU n i)) by (rewrite F by lia; apply VW1; lia). cbn [obind].
    rewrite aset_ok by lia. eexists. split; [reflexivity|]. rewrite upd_length. split; auto. split.
    - intros j Hj Hj'. destruct (Nat.eq_dec i j) as [<-|Nj].
      + rewrite nth_error_upd_same by lia. f_equal. unfold ccW. destruct (Nat.eqb_spec i 0); [lia|]. destruct (Nat.eqb_spec i n); [lia|]. reflexivity.
      + rewrite nth_error_upd_other by auto. apply V; lia.
    - intros j Hj. rewrite nth_error_upd_other by lia. apply F. lia. }
  rewrite E3. cbn [obind].
  rewrite (aget_ok W2 n (ccU n n)) by (rewrite F3 by lia; apply VW1; lia). cbn [obind]. rewrite aset_ok by lia. cbn [obind].
  do 2 eexists. split; [reflexivity|]. split; (split; [rewrite upd_length; lia|]; split).
  - intros i Hi. destruct (Nat.eq_dec n i) as [<-|Ni].
    + rewrite nth_error_upd_same by lia. f_equal. unfold ccX. rewrite Nat.sub_diag. cbn [INR].
      replace (PI * 0 / INR n) with 0 by (field; auto). now rewrite cos_0.
    + rewrite nth_error_upd_other by auto. apply VP2. lia.
  - intros i Hi. rewrite nth_error_upd_other by lia. auto.
  - intros i Hi. destruct (Nat.eq_dec n i) as [<-|Ni].
    + rewrite nth_error_upd_same by lia. f_equal. unfold ccW. rewrite Nat.eqb_refl, Bool.orb_true_r. reflexivity.
    + rewrite nth_error_upd_other by auto. apply V3; lia.
  - intros i Hi. rewrite nth_error_upd_other by lia. rewrite F3 by lia. apply FW1. lia.
Qed.

(** ** Exactness *)
Definition ccD (n m : nat) : R := rs (2 * n) (fun i => cos (PI * INR (i * m) / INR n)).
Lemma ccD_0 n : (0 < n)%nat -> ccD n 0 = 2 * INR n.
Proof. intros H. unfold ccD. rewrite <- (cos_sum_mul n 0 H). apply rs_ext. intros. repeat f_equal. lia. Qed.
Lemma ccD_2n n : (0 < n)%nat -> ccD n (2 * n) = 2 * INR n.
Proof. intros H. unfold ccD. rewrite <- (cos_sum_mul n 1 H). apply rs_ext. intros i _. replace (2 * n * 1)%nat with (2 * n)%nat by lia. reflexivity. Qed.

Lemma cos_pair n i a b : (0 < n)%nat -> (b <= a)%nat ->
  cos (PI * INR (i * a) / INR n) * cos (PI * INR (i * b) / INR n) =
  (cos (PI * INR (i * (a + b)) / INR n) + cos (PI * INR (i * (a - b)) / INR n)) / 2.
Proof.
  intros Hn Hab. assert (INR n <> 0) by (apply not_0_INR; lia).
  replace (PI * INR (i * (a + b)) / INR n) with (PI * INR (i * a) / INR n + PI * INR (i * b) / INR n).
  2:{ rewrite !mult_INR, plus_INR. field; auto. }
  replace (PI * INR (i * (a - b)) / INR n) with (PI * INR (i * a) / INR n - PI * INR (i * b) / INR n).
  2:{ rewrite !mult_INR, minus_INR by auto. field; auto. }
  rewrite cos_plus, cos_minus. field.
Qed.

Definition dist (a b : nat) : nat := (a - b) + (b - a).
Lemma cos_sum_pair n a b : (0 < n)%nat ->
  rs (2 * n) (fun i => cos (PI * INR (i * a) / INR n) * cos (PI * INR (i * b) / INR n)) = (ccD n (a + b) + ccD n (dist a b)) / 2.
Proof.
  intros Hn. unfold ccD, Rdiv at 3. rewrite Rmult_comm, <- rs_add, <- rs_scal. apply rs_ext. intros i _. unfold dist.
  destruct (Nat.le_ge_cases b a) as [L|L].
  - rewrite cos_pair by auto. replace (b - a)%nat with 0%nat by lia. rewrite Nat.add_0_r. field.
  - rewrite Rmult_comm, cos_pair by auto. replace (a - b)%nat with 0%nat by lia. rewrite (Nat.add_comm b a). cbn [Nat.add]. field.
Qed.

Lemma cos_refl n m k : (0 < n)%nat -> (k <= 2 * n)%nat -> cos (PI * INR (m * (2 * n - k)) / INR n) = cos (PI * INR (m * k) / INR n).
Proof.
  intros Hn Hk. assert (INR n <> 0) by (apply not_0_INR; lia).
  replace (PI * INR (m * (2 * n - k)) / INR n) with (- (PI * INR (m * k) / INR n) + 2 * INR m * PI).
  - rewrite cos_period, cos_neg. reflexivity.
  - rewrite !mult_INR, minus_INR, mult_INR by auto. cbn [INR]. field. auto.
Qed.
Lemma cos_refl1 n j k : (0 < n)%nat -> (k <= n)%nat -> cos (PI * INR (2 * j * (n - k)) / INR n) = cos (PI * INR (2 * j * k) / INR n).
Proof.
  intros Hn Hk. assert (INR n <> 0) by (apply not_0_INR; lia).
  replace (PI * INR (2 * j * (n - k)) / INR n) with (- (PI * INR (2 * j * k) / INR n) + 2 * INR j * PI).
  - rewrite cos_period, cos_neg. reflexivity.
  - rewrite !mult_INR, minus_INR by auto. cbn [INR]. field. auto.
Qed.

Lemma ccU_refl n k : (0 < n)%nat -> (k <= n)%nat -> ccU n (n - k) = ccU n k.
Proof. intros Hn Hk. unfold ccU. f_equal. apply rs_ext. intros j _. unfold ccT. now rewrite cos_refl1. Qed.
Lemma ccW_refl n k : (0 < n)%nat -> (k <= n)%nat -> ccW n (n - k) = ccW n k.
Proof.
  intros Hn Hk. unfold ccW. rewrite ccU_refl by auto. f_equal.
  replace (orb (n - k =? 0) (n - k =? n))%nat with (orb (k =? 0) (k =? n))%nat; auto.
  destruct (Nat.eqb_spec k 0), (Nat.eqb_spec k n), (Nat.eqb_spec (n - k) 0), (Nat.eqb_spec (n - k) n); cbn; auto; lia.
Qed.

Lemma cc_fold n (g : nat -> R) : (0 < n)%nat -> (forall k, (0 < k < n)%nat -> g (2 * n - k)%nat = g k) ->
  rs (S n) (fun i => if orb (i =? 0) (i =? n) then g i else 2 * g i) = rs (2 * n) g.
Proof.
  intros Hn Hg. rewrite (rs_rsum (2 * n) g), (sum_sym n g Hn Hg), <- rs_rsum, <- rs_scal.
  apply rs_ext. intros i _. destruct (orb (i =? 0) (i =? n)); field.
Qed.

Lemma ccT_den j : 4 * (INR (S j) * INR (S j)) - 1 <> 0.
Proof. assert (1 <= INR (S j)) by (rewrite S_INR; pose proof (pos_INR j); lra). nra. Qed.

Lemma cc_chebT n k : (1 <= n)%nat -> (k <= n)%nat -> rs (S n) (fun i => ccW n i * chebT k (ccX n i)) = chebI k.
Proof.
  intros Hn Hk. assert (Hn0 : INR n <> 0) by (apply not_0_INR; lia).
  rewrite rs_rev.
  rewrite (rs_ext _ _ (fun i => / INR n * (if orb (i =? 0) (i =? n) then ccU n i * cos (PI * INR (i * k) / INR n) else 2 * (ccU n i * cos (PI * INR (i * k) / INR n))))).
  2:{ intros i Hi. replace (S n - 1 - i)%nat with (n - i)%nat by lia. rewrite ccW_refl by lia. unfold ccX.
      replace (n - (n - i))%nat with i by lia. rewrite chebT_cos.
      replace (INR k * (PI * INR i / INR n)) with (PI * INR (i * k) / INR n) by (rewrite mult_INR; field; auto).
      unfold ccW. destruct (orb (i =? 0) (i =? n)); field; auto. }
  rewrite rs_scal. rewrite (cc_fold n (fun i => ccU n i * cos (PI * INR (i * k) / INR n))); [|lia|].
  2:{ intros i Hi. f_equal.
      - unfold ccU. f_equal. apply rs_ext. intros j _. unfold ccT. now rewrite cos_refl by lia.
      - rewrite Nat.mul_comm, cos_refl, Nat.mul_comm by lia. reflexivity. }
  unfold ccU.
  rewrite (rs_ext _ _ (fun i => cos (PI * INR (i * k) / INR n) + -1 * rs (n / 2) (fun j => ccT n (S j) i * cos (PI * INR (i * k) / INR n)))).
  2:{ intros i _. rewrite (rs_ext _ (fun j => ccT n (S j) i * cos (PI * INR (i * k) / INR n)) (fun j => cos (PI * INR (i * k) / INR n) * ccT n (S j) i)) by (intros; ring).
      rewrite rs_scal. ring. }
  rewrite rs_add, rs_scal, rs_swap. fold (ccD n k).
  rewrite (rs_ext (n / 2) _ (fun j => ccB n (S j) / (4 * (INR (S j) * INR (S j)) - 1) * ((ccD n (2 * S j + k) + ccD n (dist (2 * S j) k)) / 2))).
  2:{ intros j _. rewrite <- cos_sum_pair by lia. rewrite <- rs_scal. apply rs_ext. intros i _. unfold ccT.
      replace (2 * S j * i)%nat with (i * (2 * S j))%nat by lia. field. apply ccT_den. }
  assert (Hh : (2 * (n / 2) <= n)%nat) by (apply Nat.mul_div_le; lia).
  unfold chebI. destruct (Nat.eq_dec k 0) as [->|Nk].
  - rewrite ccD_0 by lia. rewrite rs_zero; [cbn [Nat.even INR]; field; auto|].
    intros j Hj. unfold dist. rewrite Nat.add_0_r, Nat.sub_0_r. replace (0 - 2 * S j)%nat with 0%nat by lia. rewrite Nat.add_0_r.
    unfold ccD. rewrite cos_sum by lia. unfold Rdiv. ring.
  - assert (Ek : ccD n k = 0) by (unfold ccD; apply cos_sum; lia). rewrite Ek.
    destruct (Nat.even k) eqn:Ev.
    + apply Nat.even_spec in Ev. destruct Ev as (m & ->).
      rewrite (rs_single (n / 2) (m - 1)).
      * replace (S (m - 1)) with m by lia. unfold dist. rewrite Nat.sub_diag. cbn [Nat.add]. rewrite ccD_0 by lia. unfold ccB.
        assert (Dm : 4 * (INR m * INR m) - 1 <> 0) by (replace m with (S (m - 1)) by lia; apply ccT_den).
        assert (Dm' : 1 - INR (2 * m) ^ 2 <> 0) by (rewrite mult_INR; cbn [INR pow]; lra).
        rewrite mult_INR in Dm' |- *. change (INR 2) with (1 + 1) in *. replace (1 + 1) with 2 in * by ring.
        destruct (Nat.eqb_spec (2 * m) n) as [E|E].
        -- replace (2 * m + 2 * m)%nat with (2 * n)%nat by lia. rewrite ccD_2n by lia. field. repeat split; auto; lra.
        -- assert (Ez : ccD n (2 * m + 2 * m) = 0) by (unfold ccD; apply cos_sum; lia). rewrite Ez. field. repeat split; auto; lra.
      * pose proof (Nat.div_le_lower_bound n 2 m). lia.
      * intros j Hj Nj. assert (E1 : ccD n (2 * S j + 2 * m) = 0) by (unfold ccD; apply cos_sum; lia).
        assert (E2 : ccD n (dist (2 * S j) (2 * m)) = 0) by (unfold ccD, dist; apply cos_sum; lia). rewrite E1, E2. unfold Rdiv. ring.
    + assert (Ho : exists m, k = (2 * m + 1)%nat) by (apply Nat.odd_spec; unfold Nat.odd; now rewrite Ev). destruct Ho as (m & ->).
      rewrite rs_zero; [field; auto|]. intros j Hj.
      assert (E1 : ccD n (2 * S j + (2 * m + 1)) = 0) by (unfold ccD; apply cos_sum; lia).
      assert (E2 : ccD n (dist (2 * S j) (2 * m + 1)) = 0) by (unfold ccD, dist; apply cos_sum; lia). rewrite E1, E2. unfold Rdiv. ring.
Qed.

(** ** Gauss-Chebyshev *)
Definition cgX (N i : nat) : R := cos (PI * INR (2 * (i + 1) - 1) / INR (2 * N)).

Lemma cg_ok tol N (pts wts : list R) : (N <= length pts)%nat -> (N <= length wts)%nat ->
  exists P W, cheb_gauss (K := Rq tol) N pts wts = Ok (P, W) /\ agree N (cgX N) pts P /\ agree N (fun _ => PI / INR N) wts W.
Proof.
  intros Lp Lw. unfold cheb_gauss. change (fcar (qf (Rq tol))) with R.
  match goal with |- context [for_ N ?b00 ?s00] =>
    destruct (for_inv (fun m (s : list R * list R) => agree m (cgX N) pts (fst s) /\ agree m (fun _ => PI / INR N) wts (snd s)) b00 N s00)
      as ([P W] & E & A & B) end.
  { split; (split; [reflexivity|]; split; [intros; lia|auto]). }
  { intros i [P W] Hi ((L1 & V1 & F1) & (L2 & V2 & F2)). cbn [fst snd] in *. rewrite aset_ok by lia. cbn [obind]. rewrite aset_ok by lia.
    cbn [obind]. eexists. split; [reflexivity|]. cbn [fst snd].
    split; (split; [rewrite upd_length; auto|]; split).
    - intros j Hj. destruct (Nat.eq_dec i j) as [<-|Nj]; [rewrite nth_error_upd_same by lia; reflexivity|]. rewrite nth_error_upd_other by auto. apply V1. lia.
    - intros j Hj. rewrite nth_error_upd_other by lia. apply F1. lia.
    - intros j Hj. destruct (Nat.eq_dec i j) as [<-|Nj]; [rewrite nth_error_upd_same by lia; reflexivity|]. rewrite nth_error_upd_other by auto. apply V2. lia.
    - intros j Hj. rewrite nth_error_upd_other by lia. apply F2. lia. }
  rewrite E. exists P, W. auto.
Qed.

Lemma cg_sum N k : (0 < k < 2 * N)%nat -> rs N (fun i => cos (INR k * (PI * INR (2 * (i + 1) - 1) / INR (2 * N)))) = 0.
Proof.
  intros H. assert (Hn : INR N <> 0) by (apply not_0_INR; lia). assert (Hn0 : 0 < INR N) by (apply lt_0_INR; lia).
  set (al := PI * INR k / (2 * INR N)).
  assert (Hs : 0 < sin al).
  { apply sin_gt_0; unfold al.
    - apply Rmult_lt_0_compat; [apply Rmult_lt_0_compat; [apply PI_RGT_0|apply lt_0_INR; lia]|]. apply Rinv_0_lt_compat. lra.
    - apply Rmult_lt_reg_r with (2 * INR N); [lra|]. unfold Rdiv. rewrite Rmult_assoc, Rinv_l, Rmult_1_r by lra.
      apply Rmult_lt_compat_l; [apply PI_RGT_0|]. replace (2 * INR N) with (INR (2 * N)) by (rewrite mult_INR; cbn; ring).
      apply lt_INR. lia. }
  assert (E : 2 * sin al * rs N (fun i => cos (INR k * (PI * INR (2 * (i + 1) - 1) / INR (2 * N)))) = 0).
  { rewrite <- rs_scal.
    rewrite (rs_ext _ _ (fun i => sin (2 * INR (S i) * al) - sin (2 * INR i * al))).
    - rewrite (rs_tele N (fun i => sin (2 * INR i * al))). cbn [INR].
      replace (2 * INR N * al) with (INR k * PI) by (unfold al; field; auto).
      rewrite !Rmult_0_r, Rmult_0_l, sin_0.
      assert (S0 : forall j, sin (INR j * PI) = 0).
      { intros j. destruct (sin_eq_0_1 (INR j * PI)) as []; auto. exists (Z.of_nat j). rewrite <- INR_IZR_INZ. reflexivity. }
      rewrite S0. ring.
    - intros i _. rewrite S_INR. replace (INR k * (PI * INR (2 * (i + 1) - 1) / INR (2 * N))) with (2 * INR i * al + al).
      + replace (2 * (INR i + 1) * al) with ((2 * INR i * al + al) + al) by ring.
        replace (2 * INR i * al) with ((2 * INR i * al + al) - al) at 3 by ring.
        rewrite (sin_plus (2 * INR i * al + al) al), (sin_minus (2 * INR i * al + al) al). ring.
      + unfold al. replace (2 * (i + 1) - 1)%nat with (2 * i + 1)%nat by lia. rewrite plus_INR, !mult_INR. cbn [INR]. field. auto. }
  apply Rmult_integral in E. destruct E as [E|E]; [lra|auto].
Qed.

(** The integral of T_k against 1/sqrt(1-x^2) on [-1,1], written with x = cos t. *)
Lemma cos_k_RInt k : is_RInt (fun t => chebT k (cos t)) 0 PI (if k =? 0 then PI else 0).
Proof.
  apply (is_RInt_ext_all (fun t => cos (INR k * t))); [intros; symmetry; apply chebT_cos|].
  destruct (Nat.eqb_spec k 0) as [->|Nk].
  - apply (is_RInt_ext_all (fun _ => 1)); [intros; cbn; now rewrite Rmult_0_l, cos_0|].
    pose proof (is_RInt_const 1 0 PI) as G. replace (1 * (PI - 0)) with PI in G by ring. exact G.
  - assert (Hk : INR k <> 0) by (now apply not_0_INR).
    pose proof (is_RInt_prim (fun t => / INR k * sin (INR k * t)) (fun t => cos (INR k * t)) 0 PI) as G.
    replace 0 with (/ INR k * sin (INR k * PI) - / INR k * sin (INR k * 0)) at 2; [apply G|].
    + intros t. replace (cos (INR k * t)) with (/ INR k * (cos (INR k * t) * (INR k * 1))) by (field; auto).
      apply (derivable_pt_lim_scal (comp sin (mult_real_fct (INR k) id))).
      apply derivable_pt_lim_comp; [apply (derivable_pt_lim_scal id), derivable_pt_lim_id|apply derivable_pt_lim_sin].
    + intros t. apply (continuity_pt_comp (mult_real_fct (INR k) id) cos); [|apply continuity_cos].
      apply derivable_continuous_pt, derivable_pt_scal, derivable_pt_id.
    + rewrite Rmult_0_r, sin_0. assert (S0 : sin (INR k * PI) = 0).
      { apply sin_eq_0_1. exists (Z.of_nat k). rewrite <- INR_IZR_INZ. reflexivity. }
      rewrite S0. ring.
Qed.

Lemma cg_exact N l : (1 <= N)%nat -> (length l <= 2 * N)%nat ->
  is_RInt (fun t => pe l (cos t)) 0 PI (rs N (fun i => PI / INR N * pe l (cgX N i))).
Proof.
  intros HN Hl. assert (Hn : INR N <> 0) by (apply not_0_INR; lia).
  destruct (inspan_pe l (2 * N) Hl) as (c & Hc).
  pose proof (rs_RInt (2 * N) (fun k t => chebT k (cos t)) 0 PI (fun k => if k =? 0 then PI else 0) (fun k _ => cos_k_RInt k) c) as I.
  apply (is_RInt_ext_all _ (fun t => pe l (cos t))) in I; [|intros z; symmetry; apply Hc].
  match goal with H : is_RInt _ _ _ ?v1 |- is_RInt _ _ _ ?v2 => replace v2 with v1; auto end.
  rewrite (rs_ext (2 * N) _ (fun k => rs N (fun i => c k * (PI / INR N * chebT k (cgX N i))))).
  2:{ intros k Hk. rewrite !rs_scal. f_equal.
      rewrite (rs_ext N _ (fun i => cos (INR k * (PI * INR (2 * (i + 1) - 1) / INR (2 * N))))) by (intros; unfold cgX; now rewrite chebT_cos).
      destruct (Nat.eqb_spec k 0) as [->|Nk]; [|rewrite cg_sum by lia; ring].
      rewrite (rs_ext N _ (fun _ => 1)) by (intros; cbn [INR]; now rewrite Rmult_0_l, cos_0).
      assert (G : forall k, rs k (fun _ => 1) = INR k) by (induction k as [|k IH]; [reflexivity|]; cbn [rs]; rewrite IH, S_INR; reflexivity).
      rewrite G. field. auto. }
  rewrite rs_swap. apply rs_ext. intros i _. rewrite Hc, <- rs_scal. apply rs_ext. intros. ring.
Qed.

(** ** Rescaling *)
Lemma rescale_ok tol N (pts wts : list R) (x w : nat -> R) a b :
  (forall i, (i < N)%nat -> nth_error pts i = Some (x i)) -> (forall i, (i < N)%nat -> nth_error wts i = Some (w i)) ->
  exists P W, rescale_cc (K := Rops tol) N pts wts a b = Ok (P, W) /\
    agree N (fun i => (a + b) / 2 + (b - a) / 2 * x i) pts P /\ agree N (fun i => (b - a) / 2 * w i) wts W.
Proof.
  intros Hx Hw. unfold rescale_cc. change (fcar (Rops tol)) with R.
  match goal with |- context [for_ N ?b00 ?s00] =>
    destruct (for_inv (fun m (s : list R * list R) => agree m (fun i => (a + b) / 2 + (b - a) / 2 * x i) pts (fst s) /\ agree m (fun i => (b - a) / 2 * w i) wts (snd s)) b00 N s00)
      as ([P W] & E & A & B) end.
  { split; (split; [reflexivity|]; split; [intros; lia|auto]). }
  { intros i [P W] Hi ((L1 & V1 & F1) & (L2 & V2 & F2)). cbn [fst snd] in *.
    assert (Gp : nth_error P i = Some (x i)) by (rewrite F1 by lia; auto). assert (Gw : nth_error W i = Some (w i)) by (rewrite F2 by lia; auto).
    assert (i < length P)%nat by (apply nth_error_Some; now rewrite Gp). assert (i < length W)%nat by (apply nth_error_Some; now rewrite Gw).
    rewrite (aget_ok P i _ Gp). cbn [obind]. rewrite aset_ok by lia. cbn [obind]. rewrite (aget_ok W i _ Gw). cbn [obind]. rewrite aset_ok by lia.
    cbn [obind]. eexists. split; [reflexivity|]. cbn [fst snd].
    split; (split; [rewrite upd_length; auto|]; split).
    - intros j Hj. destruct (Nat.eq_dec i j) as [<-|Nj]; [rewrite nth_error_upd_same by lia; f_equal; wfld|]. rewrite nth_error_upd_other by auto. apply V1. lia.
    - intros j Hj. rewrite nth_error_upd_other by lia. apply F1. lia.
    - intros j Hj. destruct (Nat.eq_dec i j) as [<-|Nj]; [rewrite nth_error_upd_same by lia; f_equal; wfld|]. rewrite nth_error_upd_other by auto. apply V2. lia.
    - intros j Hj. rewrite nth_error_upd_other by lia. apply F2. lia. }
  rewrite E. exists P, W. auto.
Qed.

Lemma rescale_exact N d (x w : nat -> R) a b :
  (forall l, (length l <= d)%nat -> is_RInt (pe l) (-1) 1 (rs N (fun i => w i * pe l (x i)))) ->
  forall l, (length l <= d)%nat ->
    is_RInt (pe l) a b (rs N (fun i => (b - a) / 2 * w i * pe l ((a + b) / 2 + (b - a) / 2 * x i))).
Proof.
  intros H l Hl. pose proof (pe_RInt l a b) as I.
  match goal with H : is_RInt _ a b ?v1 |- is_RInt _ _ _ ?v2 => replace v2 with v1; auto end. clear I.
  set (q := pcomp ((a + b) / 2) ((b - a) / 2) l).
  assert (Q : is_RInt (pe q) (-1) 1 (rs N (fun i => w i * pe q (x i)))) by (apply H; unfold q; now rewrite pcomp_length).
  pose proof (is_RInt_comb (fun _ => 0) (pe q) (-1) 1 ((b - a) / 2) _ _ (is_RInt_const 0 (-1) 1) Q) as I1. cbn beta in I1.
  set (F := fun x => pprim 0 l ((a + b) / 2 + (b - a) / 2 * x)).
  assert (D : forall x, derivable_pt_lim F x (0 + (b - a) / 2 * pe q x)).
  { intros z. replace (0 + (b - a) / 2 * pe q z) with ((1 * pe l ((a + b) / 2 + (b - a) / 2 * z)) * (0 + (b - a) / 2 * 1)) by (unfold q; rewrite pe_pcomp; ring).
    apply (derivable_pt_lim_comp (fun x => (a + b) / 2 + (b - a) / 2 * x) (pprim 0 l)).
    - apply (derivable_pt_lim_plus (fct_cte ((a + b) / 2)) (mult_real_fct ((b - a) / 2) id)); [apply derivable_pt_lim_const|].
      apply derivable_pt_lim_scal, derivable_pt_lim_id.
    - apply (pprim_deriv l 0). }
  pose proof (is_RInt_prim F (fun x => 0 + (b - a) / 2 * pe q x) (-1) 1 D) as I2.
  assert (C : continuity (fun x => 0 + (b - a) / 2 * pe q x)).
  { intros z. apply (continuity_pt_plus (fun _ => 0) (mult_real_fct ((b - a) / 2) (pe q))); [apply continuity_pt_const; now intros ? ?|].
    apply continuity_pt_scal, pe_continuity. }
  specialize (I2 C). pose proof (is_RInt_unique _ _ _ _ _ I1 I2) as E.
  unfold F in E. replace ((a + b) / 2 + (b - a) / 2 * 1) with b in E by field. replace ((a + b) / 2 + (b - a) / 2 * -1) with a in E by field.
  rewrite <- E, <- rs_scal. rewrite Rmult_0_l, Rplus_0_l. apply rs_ext. intros i _. unfold q. rewrite pe_pcomp. ring.
Qed.

(** ** fejer2: the inner nodes and weights of Clenshaw-Curtis *)
Lemma ccU_0 n : (1 <= n)%nat -> 0 < ccU n 0.
Proof.
  intros Hn. unfold ccU.
  assert (B : forall m, rs m (fun j => 2 / (4 * (INR (S j) * INR (S j)) - 1)) = 1 - / (2 * INR m + 1)).
  { induction m as [|m IH]; [cbn; field|]. cbn [rs]. rewrite IH. pose proof (ccT_den m). pose proof (pos_INR m). rewrite S_INR in *. field. repeat split; lra. }
  assert (Le : rs (n / 2) (fun j => ccT n (S j) 0) <= rs (n / 2) (fun j => 2 / (4 * (INR (S j) * INR (S j)) - 1))).
  { generalize (n / 2)%nat as m. induction m as [|m IH]; [cbn; lra|]. cbn [rs]. apply Rplus_le_compat; auto.
    unfold ccT. rewrite Nat.mul_0_r. replace (PI * INR 0 / INR n) with 0 by (cbn; unfold Rdiv; ring). rewrite cos_0.
    assert (P : 0 < / (4 * (INR (S m) * INR (S m)) - 1)).
    { apply Rinv_0_lt_compat. assert (1 <= INR (S m)) by (rewrite S_INR; pose proof (pos_INR m); lra). nra. }
    unfold ccB, Rdiv. destruct (2 * S m =? n)%nat; nra. }
  rewrite B in Le. pose proof (pos_INR (n / 2)). assert (0 < / (2 * INR (n / 2) + 1)) by (apply Rinv_0_lt_compat; lra). lra.
Qed.

Lemma copy1_ok tol N (dst src : list R) (v : nat -> R) : (N <= length dst)%nat ->
  (forall i, (i < N)%nat -> nth_error src (i + 1) = Some (v i)) ->
  exists d, copy1 (K := Rq tol) N dst src = Ok d /\ agree N v dst d.
Proof.
  intros Hl Hv. unfold copy1. change (fcar (qf (Rq tol))) with R.
  match goal with |- context [for_ N ?b00 ?s00] =>
    destruct (for_inv (fun m (s : list R) => agree m v dst s) b00 N s00) as (P & E & A) end.
  { split; [reflexivity|]. split; [intros; lia|auto]. }
  { intros i s Hi (L & V & F). rewrite (aget_ok src (i + 1) (v i)) by auto. cbn [obind]. rewrite aset_ok by lia. eexists. split; [reflexivity|].
    split; [now rewrite upd_length|]. split.
    - intros j Hj. destruct (Nat.eq_dec i j) as [<-|Nj]; [rewrite nth_error_upd_same by lia; reflexivity|]. rewrite nth_error_upd_other by auto. apply V. lia.
    - intros j Hj. rewrite nth_error_upd_other by lia. apply F. lia. }
  rewrite E. eauto.
Qed.

Lemma fejer2_ok tol N (pts wts : list R) : (2 < N)%nat -> (N <= length pts)%nat -> (N <= length wts)%nat ->
  exists P W, fejer2 (K := Rq tol) N pts wts = Ok (P, W) /\
    agree N (fun i => ccX (N + 1) (i + 1)) pts P /\ agree N (fun i => ccW (N + 1) (i + 1)) wts W.
Proof.
  intros HN Lp Lw. unfold fejer2. destruct (Nat.ltb_spec 2 N); [|lia].
  destruct (cc_ok tol (N + 2) (repeat 0 (N + 2)) (repeat 0 (N + 2))) as (P & W & E & (_ & VP & _) & (_ & VW & _)); [lia|rewrite repeat_length; lia|rewrite repeat_length; lia|].
  change (f0 : Rq tol) with 0. change (fcar (qf (Rq tol))) with R in *. rewrite E. cbn [obind fst snd]. replace (N + 2 - 1)%nat with (N + 1)%nat in * by lia.
  destruct (copy1_ok tol N pts P (fun i => ccX (N + 1) (i + 1)) Lp) as (P' & EP & AP); [intros; apply VP; lia|].
  destruct (copy1_ok tol N wts W (fun i => ccW (N + 1) (i + 1)) Lw) as (W' & EW & AW); [intros; apply VW; lia|].
  rewrite EP. cbn [obind]. rewrite EW. cbn [obind]. eauto.
Qed.

(** They do not add up to the length of the interval. *)
Lemma fejer2_short N : (1 <= N)%nat -> rs N (fun i => ccW (N + 1) (i + 1)) < 2.
Proof.
  intros HN. pose proof (cc_chebT (N + 1) 0 ltac:(lia) ltac:(lia)) as E. unfold chebI in E. cbn [Nat.even INR] in E.
  rewrite (rs_ext _ _ (ccW (N + 1))) in E by (intros; cbn [chebT]; ring).
  replace (S (N + 1)) with (S (S N)) in E by lia. rewrite rs_S_l in E. cbn [rs] in E.
  rewrite (rs_ext N (fun i => ccW (N + 1) (S i)) (fun i => ccW (N + 1) (i + 1))) in E by (intros; f_equal; lia).
  assert (Hn : 0 < INR (N + 1)) by (apply lt_0_INR; lia).
  assert (P0 : 0 < ccW (N + 1) 0).
  { unfold ccW. cbn [Nat.eqb orb]. apply Rmult_lt_0_compat; [apply ccU_0; lia|now apply Rinv_0_lt_compat]. }
  assert (P1 : ccW (N + 1) (S N) = ccW (N + 1) 0).
  { rewrite <- (ccW_refl (N + 1) 0) by lia. f_equal. lia. }
  rewrite P1 in E. replace (2 / (1 - 0 ^ 2)) with 2 in E by field. lra.
Qed.
