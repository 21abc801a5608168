(** Evaluation and derivatives of expansions at a point. *)
From Coq Require Import Reals Lra Lia List.
From Verif Require Import Base BaseFacts RIntLib FOps FFTCheb QuadFacts QuadMore QuadCC OpeModel OpeSpec LegFacts HermFacts OpeBasis.
Local Open Scope R_scope.

Lemma aget_nth (c : list R) i : (i < length c)%nat -> aget c i = Ok (nth i c 0).
Proof. intros H. apply aget_ok. now apply nth_error_nth'. Qed.
Lemma nth_upd (c : list R) i k v : (i < length c)%nat -> nth k (upd c i v) 0 = if (k =? i)%nat then v else nth k c 0.
Proof.
  intros H. destruct (Nat.eqb_spec k i) as [->|N].
  - apply nth_error_nth with (d := 0). now apply nth_error_upd_same.
  - destruct (Nat.lt_ge_cases k (length c)) as [L|L].
    + apply nth_error_nth with (d := 0). rewrite nth_error_upd_other by lia. now apply nth_error_nth'.
    + rewrite !nth_overflow; auto. now rewrite upd_length.
Qed.
(** a loop that changes the cells one by one *)
Lemma upd_loop lo n (F : nat -> R -> R) body (c : list R) :
  (forall i c', (lo <= i < lo + n)%nat -> length c' = length c -> (forall k, (i <= k)%nat -> nth k c' 0 = nth k c 0) -> body i c' = aset c' i (F i (nth i c' 0))) ->
  (lo + n <= length c)%nat ->
  exists c', for_from lo n body c = Ok c' /\ length c' = length c /\
    forall k, nth k c' 0 = if ((lo <=? k) && (k <? lo + n))%nat then F k (nth k c 0) else nth k c 0.
Proof.
  intros Hb HL.
  destruct (for_from_inv (fun i c' => length c' = length c /\ forall k, nth k c' 0 = if ((lo <=? k) && (k <? i))%nat then F k (nth k c 0) else nth k c 0)
    body lo n c) as (c' & E & I).
  - split; auto. intros k. destruct (Nat.leb_spec lo k), (Nat.ltb_spec k lo); cbn; auto; lia.
  - intros i s Hi [L H]. 
    assert (Hk : forall k, (i <= k)%nat -> nth k s 0 = nth k c 0).
    { intros k Hk. rewrite H. destruct (Nat.ltb_spec k i); [lia|]. now rewrite Bool.andb_false_r. }
    rewrite Hb, aset_ok by (auto; lia). eexists. split; [reflexivity|].
    rewrite upd_length. split; auto. intros k. rewrite nth_upd by lia. destruct (Nat.eqb_spec k i) as [->|N].
    + rewrite Hk by lia. destruct (Nat.leb_spec lo i), (Nat.ltb_spec i (S i)); cbn; auto; lia.
    + rewrite H. destruct (Nat.leb_spec lo k), (Nat.ltb_spec k i), (Nat.ltb_spec k (S i)); cbn; auto; lia.
  - exists c'. destruct I. auto.
Qed.

(** the usable expansions *)
Definition ope_ok (p : ope) : Prop := (1 <= o_n p <= length (o_c p))%nat.

(** ** The loop over the polynomials *)
Lemma poly_loop_for {S} t n x (f : nat -> R -> S -> outcome S) s : (1 <= n)%nat ->
  poly_loop t n x f s = for_ n (fun k s => f k (phi t k x) s) s.
Proof.
  intros Hn. unfold poly_loop, for_. destruct n as [|[|n]]; [lia| |].
  - cbn [for_from]. rewrite phi_0. unfold p_const. reflexivity.
  - change (1 <? Datatypes.S (Datatypes.S n))%nat with true. cbv iota.
    change (for_from 0 (Datatypes.S (Datatypes.S n)) (fun k s => f k (phi t k x) s) s) with
      (do s' <- f 0%nat (phi t 0 x) s; do s' <- f 1%nat (phi t 1 x) s'; for_from 2 n (fun k s => f k (phi t k x) s) s').
    rewrite phi_0, phi_1. unfold p_const. destruct (f 0%nat 1 s) as [s1| | |]; cbn [obind]; auto.
    destruct (f 1%nat (p_linc t + p_lin t * x) s1) as [s2| | |]; cbn [obind]; auto.
    replace (Datatypes.S (Datatypes.S n) - 2)%nat with n by lia.
    assert (G : forall m lo s, for_from (Datatypes.S (Datatypes.S lo)) m (fun iter st =>
        let '(p0, p1, s) := st in let pnew := eval_wp t p0 p1 iter x in do s <- f iter pnew s; Ok (p1, pnew, s)) (phi t lo x, phi t (Datatypes.S lo) x, s) =
        (do s <- for_from (Datatypes.S (Datatypes.S lo)) m (fun k s => f k (phi t k x) s) s; Ok (phi t (lo + m) x, phi t (Datatypes.S (lo + m)) x, s))).
    { induction m as [|m IH]; intros lo st.
      - cbn [for_from obind]. now rewrite Nat.add_0_r.
      - cbn [for_from obind]. rewrite phi_rec. destruct (f (Datatypes.S (Datatypes.S lo)) (phi t (Datatypes.S (Datatypes.S lo)) x) st) as [s'| | |]; cbn [obind]; auto.
        rewrite IH. replace (lo + Datatypes.S m)%nat with (Datatypes.S lo + m)%nat by lia. reflexivity. }
    specialize (G n 0%nat s2). rewrite phi_0, phi_1 in G.
    match goal with |- obind ?e0 ?k0 = _ => transitivity (obind (do s <- for_from 2 n (fun k s => f k (phi t k x) s) s2; Ok (phi t (0 + n) x, phi t (Datatypes.S (0 + n)) x, s)) k0) end.
    { f_equal. exact G. }
    destruct (for_from 2 n (fun k s => f k (phi t k x) s) s2); reflexivity.
Qed.

(** ** Clenshaw's algorithm *)
Lemma clenshaw (c : nat -> R) x n :
  exists st, st 0%nat = (0, 0) /\
    (forall k, (k < n)%nat -> st (S k) = (c (n - k)%nat + 2 * x * fst (st k) - snd (st k), fst (st k))) /\
    c 0%nat + x * fst (st n) - snd (st n) = rs (S n) (fun k => c k * chebT k x).
Proof.
  set (st := fix st k := match k with O => (0, 0) | S k => (c (n - k)%nat + 2 * x * fst (st k) - snd (st k), fst (st k)) end).
  exists st. split; [reflexivity|]. split; [reflexivity|].
  (* invariant: the sum from n-k+1 on is b_{n-k+1} T_{n-k+1} - b_{n-k+2} T_{n-k} *)
  assert (I : forall k, (k <= n)%nat -> rs k (fun i => c (n - i)%nat * chebT (n - i) x) =
     match k with O => 0 | S k' => fst (st k) * chebT (n - k') x - snd (st k) * chebT (S (n - k')) x +
       (snd (st k) * (2 * x * chebT (n - k') x)) - snd (st k) * (2 * x * chebT (n - k') x) + 
       snd (st k) * chebT (S (n - k')) x - snd (st k) * (chebT (n - k' - 1) x) +
       (if (n - k' =? 0)%nat then snd (st k) * (1 - x) else 0) end).
  { induction k as [|k IH]; intros Hk; [reflexivity|]. cbn [rs]. rewrite IH by lia. destruct k as [|k].
    - cbn [st fst snd]. destruct (n - 0 =? 0)%nat; ring.
    - replace (n - S k)%nat with (n - k - 1)%nat by lia.
      change (st (S (S k))) with (c (n - S k)%nat + 2 * x * fst (st (S k)) - snd (st (S k)), fst (st (S k))). cbn [fst snd].
      replace (n - S k)%nat with (n - k - 1)%nat by lia.
      destruct (Nat.eqb_spec (n - k) 0) as [E|_]; [lia|].
      destruct (Nat.eqb_spec (n - k - 1) 0) as [E|N].
      + rewrite E. replace (n - k)%nat with 1%nat by lia. cbn [chebT Nat.sub]. ring.
      + destruct (n - k - 1)%nat as [|j] eqn:Ej; [lia|]. replace (n - k)%nat with (S (S j)) by lia.
        replace (S j - 1)%nat with j by lia. rewrite !chebT_SS. ring. }
  rewrite rs_rev. change (rs (S n) (fun i => c (S n - 1 - i)%nat * chebT (S n - 1 - i) x)) with
    (rs n (fun i => c (S n - 1 - i)%nat * chebT (S n - 1 - i) x) + c (S n - 1 - n)%nat * chebT (S n - 1 - n) x).
  replace (S n - 1 - n)%nat with 0%nat by lia.
  rewrite (rs_ext n _ (fun i => c (n - i)%nat * chebT (n - i) x)) by (intros i Hi; now replace (S n - 1 - i)%nat with (n - i)%nat by lia).
  rewrite I by lia. destruct n as [|n]; [cbn; ring|].
  replace (S n - n)%nat with 1%nat by lia. cbn [chebT Nat.sub Nat.eqb]. ring.
Qed.

Lemma cheb_eval_ok p x : o_t p = CHEBYSHEV -> ope_ok p -> o_kr p = false -> cheb_eval p x = Ok (ope_fun p x).
Proof.
  intros Ht [Hn HL] Hk. unfold cheb_eval, ope_fun. rewrite Hk, Ht. cbn [negb cassert obind].
  destruct (Nat.eqb_spec (o_n p) 0); [lia|]. set (xn := map_to (o_map p) x).
  destruct (clenshaw (co p) xn (o_n p - 1)) as (st & S0 & SS & E). rewrite <- S0.
  rewrite (for_det st).
  - cbn [obind]. destruct (st (o_n p - 1)%nat) as [p0 p1] eqn:Es. rewrite aget_nth by lia. cbn [obind]. f_equal.
    replace (S (o_n p - 1)) with (o_n p) in E by lia. cbn [phi]. rewrite <- E. reflexivity.
  - intros k Hk'. rewrite SS by lia. destruct (st k) as [p0 p1]. cbn [fst snd]. rewrite aget_nth by lia. reflexivity.
Qed.

Lemma eval_loop p x : ope_ok p ->
  poly_loop (o_t p) (o_n p) (map_to (o_map p) x) (fun iter v s =>
        let '(out, den) := s in
        do c <- aget (o_c p) iter;
        Ok (out + v * c, den + v * v)) (0, 0) =
  Ok (ope_fun p x, rs (o_n p) (fun k => phi (o_t p) k (map_to (o_map p) x) ^ 2)).
Proof.
  intros [Hn HL]. rewrite poly_loop_for by lia. set (xn := map_to (o_map p) x).
  unfold ope_fun. fold xn.
  apply (for_det (fun n => (rs n (fun k => co p k * phi (o_t p) k xn), rs n (fun k => phi (o_t p) k xn ^ 2)))).
  intros k Hk. rewrite aget_nth by lia. cbn [obind rs]. do 2 f_equal; unfold co; ring.
Qed.

Theorem ope_eval_ok p x : ope_ok p -> o_kr p = false -> ope_eval p x = Ok (ope_fun p x).
Proof.
  intros Hp Hk. unfold ope_eval. pose proof (eval_loop p x Hp) as E. destruct (o_t p) eqn:Ht; rewrite ?E; cbn [obind]; rewrite ?Hk; auto.
  now apply cheb_eval_ok.
Qed.
Lemma ope_eval_kr p x : ope_ok p -> o_kr p = true -> o_t p <> CHEBYSHEV ->
  ope_eval p x = Ok (ope_fun p x / sqrt (rs (o_n p) (fun k => phi (o_t p) k (map_to (o_map p) x) ^ 2) / INR (o_n p))).
Proof.
  intros Hp Hk Hc. unfold ope_eval. pose proof (eval_loop p x Hp) as E. destruct (o_t p) eqn:Ht; rewrite ?E; cbn [obind]; rewrite ?Hk; auto. congruence.
Qed.
Lemma ope_weight_ok p x : ope_ok p ->
  ope_kristoffel_weight p x = Ok (sqrt (rs (o_n p) (fun k => phi (o_t p) k (map_to (o_map p) x) ^ 2) / INR (o_n p))).
Proof.
  intros [Hn HL]. unfold ope_kristoffel_weight. rewrite poly_loop_for by lia.
  rewrite (for_det (fun n => rs n (fun k => phi (o_t p) k (map_to (o_map p) x) ^ 2))); [reflexivity|].
  intros k Hk. cbn [rs]. f_equal. ring.
Qed.

(** ** Derivatives at a point *)
Definition ope_funD (p : ope) (x : R) : R := rs (o_n p) (fun k => co p k * phiD (o_t p) k (map_to (o_map p) x)) * sm_slope (o_map p).
Lemma rs_deriv n (f : nat -> R -> R) (d : nat -> R) x : (forall k, (k < n)%nat -> derivable_pt_lim (f k) x (d k)) ->
  derivable_pt_lim (fun x => rs n (fun k => f k x)) x (rs n d).
Proof.
  induction n as [|n IH]; intros H; [apply derivable_pt_lim_const|].
  cbn [rs]. apply (derivable_pt_lim_plus (fun x => rs n (fun k => f k x)) (f n)); [apply IH; intros; apply H; lia|apply H; lia].
Qed.
Lemma map_to_deriv m x : derivable_pt_lim (map_to m) x (sm_slope m).
Proof.
  unfold map_to. eapply deriv_val.
  - apply (derivable_pt_lim_plus (fun x => sm_slope m * x) (fun _ => sm_off m)); [apply (derivable_pt_lim_scal (fun x => x)), derivable_pt_lim_id|apply derivable_pt_lim_const].
  - ring.
Qed.
Lemma ope_fun_deriv p x : derivable_pt_lim (ope_fun p) x (ope_funD p x).
Proof.
  unfold ope_fun, ope_funD.
  rewrite Rmult_comm, <- rs_scal.
  apply (rs_deriv (o_n p) (fun k x => co p k * phi (o_t p) k (map_to (o_map p) x))). intros k _.
  eapply deriv_val.
  - apply (derivable_pt_lim_scal (fun x => phi (o_t p) k (map_to (o_map p) x))).
    apply (derivable_pt_lim_comp (map_to (o_map p)) (phi (o_t p) k)); [apply map_to_deriv|apply phi_deriv].
  - ring.
Qed.

Lemma deriv_eval_ok p x : ope_ok p -> o_kr p = false -> ope_deriv_eval p x = Ok (ope_funD p x).
Proof.
  intros [Hn HL] Hk. unfold ope_deriv_eval, ope_funD. rewrite Hk. cbn [negb cassert obind]. rewrite aget_nth by lia. cbn [obind].
  set (t := o_t p). set (xn := map_to (o_map p) x).
  destruct (Nat.ltb_spec 1 (o_n p)) as [L|L].
  - rewrite aget_nth by lia. cbn [obind].
    pose (st := fun n => (phi t (n - 2) xn, phi t (n - 1) xn, phiD t (n - 2) xn, phiD t (n - 1) xn, rs n (fun k => co p k * phiD t k xn))).
    assert (S2 : st 2%nat = (p_const t, p_linc t + p_lin t * xn, 0, p_lin t, 0 + 0 * nth 0 (o_c p) 0 + p_lin t * nth 1 (o_c p) 0)).
    { unfold st. cbn [Nat.sub rs]. rewrite phi_0, phi_1, phiD_0, phiD_1. unfold p_const, co. apply f_equal2; [reflexivity|ring]. }
    rewrite <- S2. rewrite (for_from_det st).
    + replace (2 + (o_n p - 2))%nat with (o_n p) by lia. reflexivity.
    + intros i Hi. unfold st at 1. rewrite aget_nth by lia. cbn [obind].
      destruct i as [|[|n]]; try lia. replace (S (S n) - 2)%nat with n by lia. replace (S (S n) - 1)%nat with (S n) by lia.
      rewrite phi_rec, phiD_rec. unfold st. replace (S (S (S n)) - 2)%nat with (S n) by lia. replace (S (S (S n)) - 1)%nat with (S (S n)) by lia. reflexivity.
  - cbn [obind]. f_equal. replace (o_n p) with 1%nat by lia. cbn [rs]. rewrite phiD_0. unfold co. ring.
Qed.

Lemma chebU_T k x : 2 * chebT (S k) x + 2 * x * (INR (S k) * chebU k x) - (match k with O => 0 | S j => INR (S j) * chebU j x end) = INR (S (S k)) * chebU (S k) x.
Proof.
  destruct k as [|k]; [cbn; ring|]. rewrite (proj1 (chebTU k x)), chebU_SS, !S_INR. ring.
Qed.
Lemma cheb_deriv_eval_ok p x : o_t p = CHEBYSHEV -> ope_ok p -> o_kr p = false -> cheb_deriv_eval p x = Ok (ope_funD p x).
Proof.
  intros Ht [Hn HL] Hk. unfold cheb_deriv_eval, ope_funD. rewrite Hk, Ht. cbn [negb cassert obind].
  set (xn := map_to (o_map p) x). set (dm := sm_slope (o_map p)).
  destruct (o_n p) as [|[|[|[|n]]]] eqn:En; [lia| | | |].
  - f_equal. cbn. ring.
  - rewrite aget_nth by lia. cbn [obind]. f_equal. unfold co. cbn. ring.
  - rewrite !aget_nth by lia. cbn [obind]. f_equal. unfold co. cbn. ring.
  - rewrite !aget_nth by lia. cbn [obind].
    pose (st := fun n => (chebT (n - 2) xn, chebT (n - 1) xn, phiD CHEBYSHEV (n - 2) xn, phiD CHEBYSHEV (n - 1) xn, rs n (fun k => co p k * phiD CHEBYSHEV k xn))).
    assert (S3 : (xn, 2 * xn * xn - 1, 1, 4 * xn, nth 1 (o_c p) 0 * 1 + nth 2 (o_c p) 0 * (4 * xn)) = st 3%nat).
    { unfold st. cbn [Nat.sub rs chebT phiD chebU INR]. unfold co. repeat match goal with |- (_, _) = (_, _) => apply f_equal2 end; ring. }
    rewrite S3, (for_from_det st).
    + replace (3 + (S (S (S (S n))) - 3))%nat with (S (S (S (S n)))) by lia. reflexivity.
    + intros i Hi. unfold st at 1. rewrite aget_nth by lia. cbn [obind].
      destruct i as [|[|[|j]]]; try lia. replace (S (S (S j)) - 2)%nat with (S j) by lia. replace (S (S (S j)) - 1)%nat with (S (S j)) by lia.
      unfold st. replace (S (S (S (S j))) - 2)%nat with (S (S j)) by lia. replace (S (S (S (S j))) - 1)%nat with (S (S (S j))) by lia.
      rewrite <- chebT_SS. cbn [phiD]. pose proof (chebU_T (S j) xn) as E. cbv iota in E. rewrite E. reflexivity.
Qed.

(** second derivatives of the Chebyshev polynomials *)
Fixpoint chebDD (k : nat) (x : R) : R :=
  match k with
  | O => 0
  | S O => 0
  | S (S j as k') => 4 * phiD CHEBYSHEV k' x + 2 * x * chebDD k' x - chebDD j x
  end.
Lemma chebDD_SS k x : chebDD (S (S k)) x = 4 * phiD CHEBYSHEV (S k) x + 2 * x * chebDD (S k) x - chebDD k x.
Proof. reflexivity. Qed.
Lemma phiD_cheb_SS k x : phiD CHEBYSHEV (S (S k)) x = 2 * chebT (S k) x + 2 * x * phiD CHEBYSHEV (S k) x - phiD CHEBYSHEV k x.
Proof. cbn [phiD]. rewrite <- (chebU_T k x). destruct k; reflexivity. Qed.
Lemma chebDD_deriv k x : derivable_pt_lim (phiD CHEBYSHEV k) x (chebDD k x).
Proof.
  enough (H : derivable_pt_lim (phiD CHEBYSHEV k) x (chebDD k x) /\ derivable_pt_lim (phiD CHEBYSHEV (S k)) x (chebDD (S k) x)) by apply H.
  induction k as [|k [I1 I2]].
  - split; [apply derivable_pt_lim_const|]. apply (derivable_pt_lim_ext (fun _ => 1)); [intros; cbn; ring|apply derivable_pt_lim_const].
  - split; auto.
    apply (derivable_pt_lim_ext (fun x => 2 * chebT (S k) x + 2 * (x * phiD CHEBYSHEV (S k) x) + -1 * phiD CHEBYSHEV k x)).
    { intros z. rewrite phiD_cheb_SS. ring. }
    eapply deriv_val.
    + apply (derivable_pt_lim_plus (fun x => 2 * chebT (S k) x + 2 * (x * phiD CHEBYSHEV (S k) x)) (fun x => -1 * phiD CHEBYSHEV k x)).
      * apply (derivable_pt_lim_plus (fun x => 2 * chebT (S k) x) (fun x => 2 * (x * phiD CHEBYSHEV (S k) x))).
        -- apply (derivable_pt_lim_scal (chebT (S k))). apply (phi_deriv CHEBYSHEV).
        -- apply (derivable_pt_lim_scal (fun x => x * phiD CHEBYSHEV (S k) x)). apply (derivable_pt_lim_mult (fun x => x) (phiD CHEBYSHEV (S k))); [apply derivable_pt_lim_id|exact I2].
      * apply (derivable_pt_lim_scal (phiD CHEBYSHEV k)). exact I1.
    + cbv beta. rewrite chebDD_SS. ring.
Qed.
Definition ope_funDD (p : ope) (x : R) : R := rs (o_n p) (fun k => co p k * chebDD k (map_to (o_map p) x)) * (sm_slope (o_map p) * sm_slope (o_map p)).
Lemma ope_funD_deriv p x : o_t p = CHEBYSHEV -> derivable_pt_lim (ope_funD p) x (ope_funDD p x).
Proof.
  intros Ht. apply (derivable_pt_lim_ext (fun x => rs (o_n p) (fun k => sm_slope (o_map p) * (co p k * phiD CHEBYSHEV k (map_to (o_map p) x))))).
  { intros z. unfold ope_funD. rewrite Ht, rs_scal. ring. }
  unfold ope_funDD. rewrite Rmult_comm, <- rs_scal.
  apply (rs_deriv (o_n p) (fun k x => sm_slope (o_map p) * (co p k * phiD CHEBYSHEV k (map_to (o_map p) x)))). intros k _.
  eapply deriv_val.
  - apply (derivable_pt_lim_scal (fun x => co p k * phiD CHEBYSHEV k (map_to (o_map p) x))).
    apply (derivable_pt_lim_scal (fun x => phiD CHEBYSHEV k (map_to (o_map p) x))).
    apply (derivable_pt_lim_comp (map_to (o_map p)) (phiD CHEBYSHEV k)); [apply map_to_deriv|apply chebDD_deriv].
  - ring.
Qed.
Lemma cheb_dderiv_eval_ok p x : o_t p = CHEBYSHEV -> ope_ok p -> o_kr p = false -> o_n p <> 3%nat \/ sm_slope (o_map p) = 1 ->
  cheb_dderiv_eval p x = Ok (ope_funDD p x).
Proof.
  intros Ht [Hn HL] Hk H3. unfold cheb_dderiv_eval, ope_funDD. rewrite Hk. cbn [negb cassert obind].
  set (xn := map_to (o_map p) x). set (dm := sm_slope (o_map p)) in *.
  destruct (o_n p) as [|[|[|[|[|n]]]]] eqn:En; [lia| | | | |].
  - f_equal. cbn. ring.
  - f_equal. cbn. ring.
  - destruct H3 as [H3|H3]; [congruence|]. rewrite aget_nth by lia. cbn [obind]. rewrite H3. f_equal. unfold co. cbn. ring.
  - rewrite !aget_nth by lia. cbn [obind]. f_equal. unfold co. cbn. ring.
  - rewrite !aget_nth by lia. cbn [obind].
    pose (st := fun n => (chebT (n - 2) xn, chebT (n - 1) xn, phiD CHEBYSHEV (n - 2) xn, phiD CHEBYSHEV (n - 1) xn, chebDD (n - 2) xn, chebDD (n - 1) xn,
       rs n (fun k => co p k * chebDD k xn))).
    match goal with |- context [for_from 4 _ _ ?s0] => assert (S4 : s0 = st 4%nat) end.
    { unfold st. cbn [Nat.sub rs chebT phiD chebU chebDD INR]. unfold co. repeat match goal with |- (_, _) = (_, _) => apply f_equal2 end; ring. }
    rewrite S4, (for_from_det st).
    + replace (4 + (S (S (S (S (S n)))) - 4))%nat with (S (S (S (S (S n))))) by lia. reflexivity.
    + intros i Hi. unfold st at 1. rewrite aget_nth by lia. cbn [obind].
      destruct i as [|[|j]]; try lia. replace (S (S j) - 2)%nat with j by lia. replace (S (S j) - 1)%nat with (S j) by lia.
      unfold st. replace (S (S (S j)) - 2)%nat with (S j) by lia. replace (S (S (S j)) - 1)%nat with (S (S j)) by lia.
      rewrite <- chebT_SS, <- phiD_cheb_SS, <- chebDD_SS. reflexivity.
Qed.
