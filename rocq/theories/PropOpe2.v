(** C76: sums, multiples and rounding of expansions are exact except for coefficients below a
    threshold, which become zero. *)
From Coq Require Import Reals Lra Lia List.
From Verif Require Import Base BaseFacts FOps FFTCheb QuadFacts OpeModel OpeSpec LegFacts HermFacts OpeBasis OpeFacts OpeLin OpeLin2.
Import ListNotations.
Local Open Scope R_scope.

(** [coz p k] is coefficient [k] of [p], zero from [o_n p] on; [ope_wf p] says that the block
    of coefficients has exactly the recorded size and holds all of them.  [thrN zt N M] is
    zt max(1, N M). *)

(** ** What coefficients within [e] mean for the function *)
Theorem C76_function p (f : nat -> R) e N x : (o_n p <= N)%nat -> (forall k, Rabs (coz p k - f k) <= e) ->
  Rabs (ope_fun p x - rs N (fun k => f k * phi (o_t p) k (map_to (o_map p) x))) <= e * rs N (fun k => Rabs (phi (o_t p) k (map_to (o_map p) x))).
Proof. apply ope_fun_close. Qed.
Print Assumptions C76_function.

(** ** Rounding: every coefficient is kept or, when it is small, made zero *)
Theorem C76_round zt p M : 0 < zt -> ope_ok p -> (forall k, (k < o_n p)%nat -> Rabs (nth k (o_c p) 0) <= M) ->
  exists q, ope_round zt p = Ok q /\ same_shape p q /\ (1 <= o_n q <= o_n p)%nat /\ (ope_wf p -> ope_wf q) /\
    forall k, coz q k = coz p k \/ (coz q k = 0 /\ Rabs (coz p k) < thrN zt (o_n p) M).
Proof.
  intros Hz Ok1 HM. destruct (round_ok zt Hz p M Ok1 HM) as (q & E & Sh & N & A & L & C). exists q. do 3 (split; [assumption|]). split; [|exact C].
  intros W. now apply (round_wf p q).
Qed.
Print Assumptions C76_round.

(** ** Change of sign, exactly *)
Theorem C76_flip_sign p : ope_ok p -> exists q, ope_flip_sign p = Ok q /\ same_shape p q /\ o_n q = o_n p /\ (ope_wf p -> ope_wf q) /\
  (forall k, coz q k = - coz p k) /\ forall x, ope_fun q x = - ope_fun p x.
Proof.
  intros H. destruct (flip_ok p H) as (q & E & Sh & N & A & L & C). exists q. do 3 (split; [assumption|]). split; [unfold ope_wf; rewrite N, A, L; auto|]. split; [exact C|].
  intros x. rewrite (ope_fun_coz q (o_n p)), (ope_fun_coz p (o_n p)) by lia. destruct Sh as (T & _ & _ & P & _). rewrite T, P.
  rewrite (rs_ext _ _ (fun k => -1 * (coz p k * phi (o_t q) k (map_to (o_map q) x)))) by (intros; rewrite C; ring). rewrite rs_scal. ring.
Qed.
Print Assumptions C76_flip_sign.

(** ** Multiples *)
Theorem C76_scale zt a p M : 0 < zt -> ope_wf p -> (forall k, Rabs (a * coz p k) <= M) ->
  exists q, ope_scale zt a p = Ok q /\ same_shape p q /\ ope_wf q /\ (o_n q <= o_n p)%nat /\
    (forall k, coz q k = a * coz p k \/ (coz q k = 0 /\ Rabs (a * coz p k) < thrN zt (o_n p) M)).
Proof.
  intros Hz W HM. destruct (scale_ok zt Hz a p M) as (q & E & Sh & Nq & Aq & Lq & H); auto using ope_wf_ok.
  exists q. split; [exact E|]. split; [exact Sh|]. split; [apply (round_wf p q); auto|]. split; [lia|exact H].
Qed.
Print Assumptions C76_scale.

(** ** y <- a x + y: each coefficient exact, or zero and the exact one at most the threshold *)
Theorem C76_axpy zt eps a x y : ope_ok x -> ope_wf y -> o_t x = o_t y -> Rabs (o_lb x - o_lb y) < eps -> Rabs (o_ub x - o_ub y) < eps ->
  exists y', ope_axpy zt eps a x y = Ok y' /\ same_shape y y' /\ ope_wf y' /\ (o_n y' <= Nat.max (o_n x) (o_n y))%nat /\
    forall k, coz y' k = coz y k + a * coz x k \/ (coz y' k = 0 /\ Rabs (coz y k + a * coz x k) <= zt).
Proof. intros. now apply axpy_ok. Qed.
Print Assumptions C76_axpy.
(** other families or other domains are rejected *)
Theorem C76_axpy_rejects zt eps a x y : o_t x <> o_t y \/ eps <= Rabs (o_lb x - o_lb y) \/ eps <= Rabs (o_ub x - o_ub y) -> ope_axpy zt eps a x y = Abort.
Proof.
  intros H. unfold ope_axpy. destruct (ptype_eqb (o_t x) (o_t y)) eqn:T; [|reflexivity]. apply ptype_eqb_eq in T. cbn [cassert obind].
  destruct (Rltb_spec (Rabs (o_lb x - o_lb y)) eps); [|reflexivity]. cbn [cassert obind].
  destruct (Rltb_spec (Rabs (o_ub x - o_ub y)) eps); [|reflexivity]. destruct H as [H|[H|H]]; [contradiction|lra|lra].
Qed.
Print Assumptions C76_axpy_rejects.

(** ** a x + b y *)
Theorem C76_daxpby zt eps a x b y M : 0 < zt -> ope_wf x -> ope_wf y -> o_t x = o_t y -> Rabs (o_lb x - o_lb y) < eps -> Rabs (o_ub x - o_ub y) < eps ->
  (forall k, Rabs (b * coz y k) <= M) ->
  exists q, ope_daxpby zt eps a (Some x) b (Some y) = Ok q /\ same_shape y q /\ ope_wf q /\ (o_n q <= Nat.max (o_n x) (o_n y))%nat /\
    forall k, Rabs (coz q k - (a * coz x k + b * coz y k)) <= thrN zt (o_n y) M + zt.
Proof. intros. now apply daxpby_ok. Qed.
Print Assumptions C76_daxpby.
(** with one argument missing it is a multiple of the other *)
Theorem C76_daxpby_one zt eps a b p M : 0 < zt -> ope_wf p ->
  ((forall k, Rabs (a * coz p k) <= M) -> exists q, ope_daxpby zt eps a (Some p) b None = Ok q /\ same_shape p q /\ ope_wf q /\
     forall k, Rabs (coz q k - a * coz p k) <= thrN zt (o_n p) M) /\
  ((forall k, Rabs (b * coz p k) <= M) -> exists q, ope_daxpby zt eps a None b (Some p) = Ok q /\ same_shape p q /\ ope_wf q /\
     forall k, Rabs (coz q k - b * coz p k) <= thrN zt (o_n p) M).
Proof.
  intros Hz W. destruct (copy_ok p W) as (p1 & E1 & S1 & N1 & W1 & A1 & C1 & _).
  split; intros HM; unfold ope_daxpby; rewrite E1; cbn [obind].
  - destruct (scale_close zt Hz a p1 M W1) as (q & E & Sh & Wq & N & C); [intros k; rewrite C1; apply HM|].
    exists q. split; [exact E|]. split; [eapply same_shape_trans; eauto|]. split; [exact Wq|]. intros k. rewrite <- C1, <- N1. apply C.
  - destruct (scale_close zt Hz b p1 M W1) as (q & E & Sh & Wq & N & C); [intros k; rewrite C1; apply HM|].
    exists q. split; [exact E|]. split; [eapply same_shape_trans; eauto|]. split; [exact Wq|]. intros k. rewrite <- C1, <- N1. apply C.
Qed.
Print Assumptions C76_daxpby_one.

(** ** Combinations of many, with strides; the Kristoffel setting is lost (below) *)
Theorem C76_lin_comb_partial zt n ldx (x : list ope) ldc (c : list R) N M d : 0 < zt -> (1 <= n)%nat ->
  (forall k, (k < n)%nat -> (k * ldx < length x)%nat /\ ope_ok (nth (k * ldx) x d) /\ o_t (nth (k * ldx) x d) = o_t (nth 0 x d) /\ (o_n (nth (k * ldx) x d) <= N)%nat /\ (k * ldc < length c)%nat) ->
  (forall j, Rabs (rs n (fun k => nth (k * ldc) c 0 * coz (nth (k * ldx) x d) j)) <= M) ->
  exists q, ope_lin_comb zt n ldx x ldc c = Ok (Some q) /\
    o_t q = o_t (nth 0 x d) /\ o_lb q = o_lb (nth 0 x d) /\ o_ub q = o_ub (nth 0 x d) /\ o_map q = o_map (nth 0 x d) /\ o_kr q = false /\ ope_wf q /\ (o_n q <= N)%nat /\
    forall j, Rabs (coz q j - rs n (fun k => nth (k * ldc) c 0 * coz (nth (k * ldx) x d) j)) <= thrN zt N M.
Proof. intros. now apply lin_comb_ok. Qed.
Print Assumptions C76_lin_comb_partial.
(** one times an expansion with the Kristoffel weight on is one without *)
Theorem C76_lin_comb_kristoffel_refuted zt : 0 < zt -> exists p q, ope_wf p /\ o_kr p = true /\ ope_lin_comb zt 1 1 [p] 1 [1] = Ok (Some q) /\ o_kr q = false.
Proof.
  intros Hz. set (p := mkope LEGENDRE 1 1 [1] (-1) 1 (mksm 1 0 1 0) true).
  destruct (lin_comb_ok zt Hz 1 1 [p] 1 [1] 1 1 p) as (q & E & _ & _ & _ & _ & K & _).
  - lia.
  - intros k Hk. replace k with 0%nat by lia. cbn. split; [lia|]. split; [unfold ope_ok; cbn; lia|]. split; [reflexivity|]. lia.
  - intros j. cbn [rs]. change (0 * 1)%nat with 0%nat. cbn [nth]. unfold coz. cbn [o_n o_c p]. destruct (Nat.ltb_spec j 1).
    + replace j with 0%nat by lia. cbn [nth]. replace (0 + 1 * 1) with 1 by ring. rewrite Rabs_R1. lra.
    + replace (0 + 1 * 0) with 0 by ring. rewrite Rabs_R0. lra.
  - exists p, q. split; [unfold ope_wf; cbn; lia|]. auto.
Qed.
Print Assumptions C76_lin_comb_kristoffel_refuted.

(** ** z <- a x + b y + c z *)
(** [sum3_good]: z is the longest and x longer than or as long as y, or exactly one of x, y is
    longer than z.  The size recorded for the block stays that of z although the block now has
    [N] numbers (see below). *)
Theorem C76_sum3_up_partial zt a x b y c z M : 0 < zt -> ope_ok x -> ope_ok y -> ope_wf z -> o_t x = o_t y -> o_t y = o_t z ->
  sum3_good (o_n x) (o_n y) (o_n z) ->
  (forall k, Rabs (a * coz x k + b * coz y k + c * coz z k) <= M) ->
  let N := Nat.max (o_n x) (Nat.max (o_n y) (o_n z)) in
  exists q, ope_sum3_up zt a x b y c z = Ok q /\ same_shape z q /\ ope_ok q /\ (o_n q <= N)%nat /\ o_alloc q = o_alloc z /\
    length (o_c q) = (if (o_n z <? N)%nat then N else o_alloc z) /\
    forall k, Rabs (coz q k - (a * coz x k + b * coz y k + c * coz z k)) <= thrN zt N M.
Proof. intros Hz. intros. now apply sum3_ok. Qed.
Print Assumptions C76_sum3_up_partial.

Definition leg (n : nat) (c : list R) : ope := mkope LEGENDRE n (length c) c (-1) 1 (mksm 1 0 1 0) false.
Lemma leg_wf n c : (1 <= n <= length c)%nat -> ope_wf (leg n c).
Proof. unfold ope_wf, leg. cbn [o_n o_alloc o_c]. lia. Qed.

(** x shorter than y: the coefficients between are multiplied by c twice *)
Theorem C76_sum3_up_refuted zt : 0 < zt -> exists x y z q, ope_wf x /\ ope_wf y /\ ope_wf z /\ (o_n x < o_n y <= o_n z)%nat /\
  ope_sum3_up zt 1 x 1 y 2 z = Ok q /\ 1 * coz x 1 + 1 * coz y 1 + 2 * coz z 1 = 2 /\ Rabs (coz q 1 - 2) = 2.
Proof.
  intros Hz. exists (leg 1 [0]), (leg 2 [0; 0]), (leg 2 [1; 1]).
  set (w := leg 2 [2 * 1 + 1 * 0 + 1 * 0; 2 * (2 * 1 + 0 + 1 * 0) + 0 + 0]).
  destruct (round_ok zt Hz w 4) as (q & E & _ & _ & _ & _ & C).
  - apply ope_wf_ok, leg_wf. cbn. lia.
  - intros k Hk. cbn [o_n o_c leg w] in *. destruct k as [|[|k]]; [| |lia]; cbn [nth]; apply Rabs_le; lra.
  - exists q. do 3 (split; [apply leg_wf; cbn; lia|]). split; [cbn; lia|]. split; [exact E|]. unfold coz at 1 2 3. cbn. split; [ring|].
    assert (W1 : coz w 1 = 4) by (unfold coz; cbn; ring). rewrite W1 in C || (pose proof (C 1%nat) as C1; rewrite W1 in C1).
    destruct C1 as [->|[-> _]]; [replace (4 - 2) with 2 by ring|rewrite Rminus_0_l, Rabs_Ropp]; apply Rabs_pos_eq; lra.
Qed.
Print Assumptions C76_sum3_up_refuted.
(** both x and y longer than z: the block is used after realloc gave it back *)
Theorem C76_sum3_up_realloc_refuted zt : exists x y z, ope_wf x /\ ope_wf y /\ ope_wf z /\ ope_sum3_up zt 1 x 1 y 1 z = UB.
Proof. exists (leg 2 [1; 1]), (leg 2 [1; 1]), (leg 1 [1]). do 3 (split; [apply leg_wf; cbn; lia|]). reflexivity. Qed.
Print Assumptions C76_sum3_up_realloc_refuted.
(** x longer than z: the block is shrunk, its recorded size is not, and padding the result
    with zeros to a size within the recorded one writes past the end of the block *)
Theorem C76_sum3_up_size_refuted zt : 0 < zt -> exists x y z q, ope_wf x /\ ope_wf y /\ ope_wf z /\ ope_sum3_up zt 1 x 1 y 1 z = Ok q /\
  ~ ope_wf q /\ (3 <= o_alloc q)%nat /\ ope_pad_params q 3 = UB.
Proof.
  intros Hz. exists (leg 2 [1; 1]), (leg 1 [1]), (leg 1 [1; 0; 0; 0]).
  set (x := leg 2 [1; 1]). set (y := leg 1 [1]). set (z := leg 1 [1; 0; 0; 0]).
  destruct (sum3_ok zt Hz 1 x 1 y 1 z 3) as (q & E & _ & [Oq1 Oq2] & Nq & Aq & Lq & _).
  - apply ope_wf_ok, leg_wf. cbn. lia.
  - apply ope_wf_ok, leg_wf. cbn. lia.
  - apply leg_wf. cbn. lia.
  - reflexivity.
  - reflexivity.
  - unfold sum3_good. cbn. lia.
  - intros k. unfold coz. cbn [o_n o_c x y z leg]. destruct k as [|[|k]]; cbn; apply Rabs_le; lra.
  - cbn in Nq, Lq. exists q. do 3 (split; [apply leg_wf; cbn; lia|]). split; [exact E|].
    rewrite Aq. cbn [o_alloc z leg length]. split; [intros [_ W]; rewrite Aq, Lq in W; discriminate|]. split; [lia|].
    unfold ope_pad_params. rewrite Aq. cbn [o_alloc z leg length Nat.ltb Nat.leb].
    destruct (o_c q) as [|c0 [|c1 [|]]] eqn:Ec; cbn in Lq; try discriminate.
    assert (o_n q = 1 \/ o_n q = 2)%nat as [->| ->] by lia; reflexivity.
Qed.
Print Assumptions C76_sum3_up_size_refuted.

(** ** Rounding to a tolerance keeps the constant only *)
Theorem C76_roundt_refuted : exists p q, ope_wf p /\ ope_roundt p 0 = Ok q /\ coz p 1 = 1 /\ o_n q = 1%nat /\ forall x, ope_fun q x = ope_fun p x - sqrt 3 * x.
Proof.
  assert (W : ope_wf (leg 2 [1; 1])) by (apply leg_wf; cbn; lia).
  eexists (leg 2 [1; 1]), _. split; [exact W|]. split.
  - unfold ope_roundt. destruct (Rleb_spec 0 0); [|lra]. cbn [obind]. reflexivity.
  - split; [reflexivity|]. split; [reflexivity|]. intros x. unfold ope_fun, co, phi. cbn. unfold map_to. cbn.
    replace (1 + 1 + 1) with 3 by ring. ring.
Qed.
Print Assumptions C76_roundt_refuted.

(** In general: whatever the tolerance, only the first coefficient is left. *)
Theorem C76_roundt_keeps_one p thresh : 0 <= thresh -> ope_ok p ->
  exists q, ope_roundt p thresh = Ok q /\ same_shape p q /\ ope_wf q /\ o_n q = 1%nat /\ coz q 0 = coz p 0.
Proof.
  intros Ht [Hn HL]. unfold ope_roundt. destruct (Rleb_spec 0 thresh); [|lra]. cbn [obind]. cbn [for_ for_from]. rewrite aget_nth by lia.
  cbn. eexists. split; [reflexivity|]. split; [repeat split|]. split; [split; cbn [with_block o_n o_alloc o_c length]; unfold opecalloc; lia|]. split; [reflexivity|].
  unfold coz. cbn. destruct (o_n p); [lia|reflexivity].
Qed.
Print Assumptions C76_roundt_keeps_one.

(** ** Expansions of different families are not combined: the result is NULL *)
Theorem C76_lin_comb_mixed zt n ldx (x : list ope) ldc (c : list R) d k : (k < n)%nat ->
  (forall k, (k < n)%nat -> (k * ldx < length x)%nat) -> o_t (nth (k * ldx) x d) <> o_t (nth 0 x d) ->
  ope_lin_comb zt n ldx x ldc c = Ok None.
Proof.
  intros Hk Hx Ht. unfold ope_lin_comb.
  assert (ga : forall i, (i < length x)%nat -> aget x i = Ok (nth i x d)).
  { intros i Hi. unfold aget. rewrite (nth_error_nth' x d) by lia. reflexivity. }
  rewrite ga by (pose proof (Hx 0%nat); lia). cbn [obind].
  match goal with |- context[for_ n ?body ?s0] =>
    destruct (for_inv (fun i (s : bool * nat) => (k < i)%nat -> fst s = false) body n s0) as (s & E & I) end.
  - lia.
  - intros i [same mx] Hi I. destruct same.
    + rewrite ga by auto. cbn [obind]. destruct (ptype_eqb _ _) eqn:T.
      * eexists. split; [reflexivity|]. intros L. apply ptype_eqb_eq in T.
        destruct (Nat.eq_dec i k) as [->|]; [contradiction|]. discriminate I. lia.
      * eexists. split; [reflexivity|]. reflexivity.
    + eexists. split; [reflexivity|]. reflexivity.
  - rewrite E. cbn [obind]. destruct s as [same mx]. specialize (I Hk). cbn in I. subst same. reflexivity.
Qed.
Print Assumptions C76_lin_comb_mixed.
Example C76_lin_comb_mixed_ex zt : ope_lin_comb zt 2 1 [leg 1 [1]; mkope CHEBYSHEV 1 1 [1] (-1) 1 (mksm 1 0 1 0) false] 1 [1; 1] = Ok None.
Proof. apply (C76_lin_comb_mixed _ _ _ _ _ _ (leg 0 []) 1); [lia| |discriminate]. intros k Hk. cbn. lia. Qed.

(** ** An expansion without polynomials can neither be evaluated nor added in place:
    the index num_poly - 1 wraps around *)
Theorem C76_empty_refuted : exists p, o_n p = 0%nat /\ (forall zt eps a, 0 < eps -> ope_axpy zt eps a p p = UB) /\
  (forall x, cheb_eval (mkope CHEBYSHEV 0 1 [0] (-1) 1 (mksm 1 0 1 0) false) x = UB).
Proof.
  exists (leg 0 [0]). split; [reflexivity|]. split; [|reflexivity]. intros zt eps a He. unfold ope_axpy. cbn [leg o_t ptype_eqb cassert obind o_lb o_ub].
  replace (-1 - -1) with 0 by ring. replace (1 - 1) with 0 by ring. rewrite !Rabs_R0, !Rltb_t by auto. cbn [cassert obind]. reflexivity.
Qed.
Print Assumptions C76_empty_refuted.

(** ** A concrete case *)
Example C76_example : exists q, ope_axpy (1 / 1000) (1 / 1000) 2 (leg 3 [1; 1; 1]) (leg 2 [1; -2]) = Ok q /\ ope_wf q /\
  coz q 0 = 3 /\ coz q 1 = 0 /\ coz q 2 = 2 /\ coz q 3 = 0.
Proof.
  destruct (C76_axpy (1 / 1000) (1 / 1000) 2 (leg 3 [1; 1; 1]) (leg 2 [1; -2])) as (q & E & _ & W & N & C).
  - apply ope_wf_ok, leg_wf. cbn. lia.
  - apply leg_wf. cbn. lia.
  - reflexivity.
  - cbn. replace (-1 - -1) with 0 by ring. rewrite Rabs_R0. lra.
  - cbn. replace (1 - 1) with 0 by ring. rewrite Rabs_R0. lra.
  - exists q. split; [exact E|]. split; [exact W|].
    pose proof (C 0%nat) as C0. pose proof (C 1%nat) as C1. pose proof (C 2%nat) as C2. pose proof (C 3%nat) as C3. clear C.
    unfold coz at 2 3 5 6 in C0. unfold coz at 2 3 5 6 in C1. unfold coz at 2 3 5 6 in C2. unfold coz at 2 3 5 6 in C3.
    cbn [o_n o_c leg Nat.ltb Nat.leb nth] in *.
    repeat split.
    + destruct C0 as [C0|[_ C0]]; [lra|]. rewrite Rabs_pos_eq in C0; lra.
    + destruct C1 as [C1|[C1 _]]; lra.
    + destruct C2 as [C2|[_ C2]]; [lra|]. rewrite Rabs_pos_eq in C2; lra.
    + destruct C3 as [C3|[C3 _]]; lra.
Qed.
