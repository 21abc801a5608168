(** The BFGS update of an inverse Hessian as a matrix, and facts about the vector
    and matrix operations of the model. *)
From Verif Require Export Base BaseFacts TensorFacts ParamFacts FOps BfgsModel QuadFacts OpeFacts OptFacts.
From Coq Require Import ZArith Reals Lra Psatz.
Open Scope R_scope.

(** ** Specification, independent of the model: vectors are functions, matrices too *)
Definition vec (l : list R) : nat -> R := fun i => nth i l 0.
Definition ip (d : nat) (a b : nat -> R) : R := rs d (fun i => a i * b i).
Definition mv (d : nat) (M : nat -> nat -> R) (v : nat -> R) : nat -> R := fun i => rs d (fun j => M i j * v j).
Definition mm (d : nat) (A B : nat -> nat -> R) : nat -> nat -> R := fun i j => rs d (fun k => A i k * B k j).
Definition trn (A : nat -> nat -> R) : nat -> nat -> R := fun i j => A j i.
Definition delta (i j : nat) : R := if (i =? j)%nat then 1 else 0.
(** [(I - rho s y^T) M (I - rho y s^T) + rho s s^T] with [rho = 1 / (s . y)] *)
Definition bfgs_left (d : nat) (s y : nat -> R) : nat -> nat -> R := fun i j => delta i j - s i * y j / ip d s y.
Definition bfgs (d : nat) (M : nat -> nat -> R) (s y : nat -> R) : nat -> nat -> R :=
  fun i j => mm d (mm d (bfgs_left d s y) M) (trn (bfgs_left d s y)) i j + s i * s j / ip d s y.
Definition symmetric (d : nat) (M : nat -> nat -> R) : Prop := forall i j, (i < d)%nat -> (j < d)%nat -> M i j = M j i.
Definition posdef (d : nat) (M : nat -> nat -> R) : Prop :=
  forall v, (exists i, (i < d)%nat /\ v i <> 0) -> 0 < ip d v (mv d M v).

Lemma zero_or_not n (u : nat -> R) : (exists i, (i < n)%nat /\ u i <> 0) \/ (forall i, (i < n)%nat -> u i = 0).
Proof.
  induction n as [|n [(i & Hi & H)|IH]].
  - right. lia.
  - left. exists i. split; auto.
  - destruct (Req_dec (u n) 0) as [E|E].
    + right. intros i Hi. destruct (Nat.eq_dec i n); [now subst|apply IH; lia].
    + left. exists n. split; auto.
Qed.

Section Spec.
  Variable d : nat.
  Notation ip := (ip d).
  Notation mv := (mv d).

  Lemma ip_ext a a' b b' : (forall i, (i < d)%nat -> a i = a' i) -> (forall i, (i < d)%nat -> b i = b' i) -> ip a b = ip a' b'.
  Proof. intros H H'. apply rs_ext. intros i Hi. now rewrite H, H'. Qed.
  Lemma ip_comm a b : ip a b = ip b a.
  Proof. apply rs_ext. intros. ring. Qed.
  Lemma ip_add_l a b c : ip (fun i => a i + b i) c = ip a c + ip b c.
  Proof. unfold BfgsFacts.ip. rewrite <- rs_add. apply rs_ext. intros. ring. Qed.
  Lemma ip_scal_l k a c : ip (fun i => k * a i) c = k * ip a c.
  Proof. unfold BfgsFacts.ip. rewrite <- rs_scal. apply rs_ext. intros. ring. Qed.
  Lemma ip_add_r a b c : ip c (fun i => a i + b i) = ip c a + ip c b.
  Proof. unfold BfgsFacts.ip. rewrite <- rs_add. apply rs_ext. intros. ring. Qed.
  Lemma ip_scal_r k a c : ip c (fun i => k * a i) = k * ip c a.
  Proof. unfold BfgsFacts.ip. rewrite <- rs_scal. apply rs_ext. intros. ring. Qed.
  Lemma mv_ext M M' v v' i : (forall j, (j < d)%nat -> M i j = M' i j) -> (forall j, (j < d)%nat -> v j = v' j) -> mv M v i = mv M' v' i.
  Proof. intros H H'. apply rs_ext. intros j Hj. now rewrite H, H'. Qed.
  Lemma mv_add M a b i : mv M (fun j => a j + b j) i = mv M a i + mv M b i.
  Proof. unfold BfgsFacts.mv. rewrite <- rs_add. apply rs_ext. intros. ring. Qed.
  Lemma mv_scal M k a i : mv M (fun j => k * a j) i = k * mv M a i.
  Proof. unfold BfgsFacts.mv. rewrite <- rs_scal. apply rs_ext. intros. ring. Qed.
  Lemma mv_mm A B v i : mv (mm d A B) v i = mv A (mv B v) i.
  Proof.
    unfold BfgsFacts.mv, mm. transitivity (rs d (fun j => rs d (fun k => A i k * B k j * v j))).
    - apply rs_ext. intros j Hj. rewrite (Rmult_comm (rs _ _)), <- rs_scal. apply rs_ext. intros. ring.
    - rewrite rs_swap. apply rs_ext. intros k Hk. rewrite <- rs_scal. apply rs_ext. intros. ring.
  Qed.
  Lemma ip_mv M a b : ip a (mv M b) = ip (mv (trn M) a) b.
  Proof.
    unfold BfgsFacts.mv, BfgsFacts.ip, trn. transitivity (rs d (fun i => rs d (fun j => a i * (M i j * b j)))).
    - apply rs_ext. intros i Hi. now rewrite rs_scal.
    - rewrite rs_swap. apply rs_ext. intros j Hj. rewrite (Rmult_comm _ (b j)), <- rs_scal. apply rs_ext. intros. ring.
  Qed.
  Lemma ip_mv_sym M a b : symmetric d M -> ip a (mv M b) = ip (mv M a) b.
  Proof.
    intros H. rewrite ip_mv. apply ip_ext; auto. intros i Hi. apply mv_ext; auto. intros j Hj. unfold trn. apply H; auto.
  Qed.
  Lemma delta_sum i (f : nat -> R) : (i < d)%nat -> rs d (fun j => delta i j * f j) = f i.
  Proof.
    intros Hi. rewrite (rs_single d i); auto.
    - unfold delta. rewrite Nat.eqb_refl. ring.
    - intros j Hj Hn. unfold delta. replace (i =? j)%nat with false by (symmetry; now apply Nat.eqb_neq; auto). ring.
  Qed.

  Variables (M : nat -> nat -> R) (s y : nat -> R).
  Notation r := (/ ip s y).

  Lemma left_mv v i : (i < d)%nat -> mv (bfgs_left d s y) v i = v i - r * ip y v * s i.
  Proof.
    intros Hi. unfold BfgsFacts.mv, bfgs_left.
    rewrite (rs_ext _ _ (fun j => delta i j * v j + (- (s i * r)) * (y j * v j))) by (intros; unfold Rdiv; ring).
    rewrite rs_add, rs_scal, delta_sum by auto. fold (ip y v). ring.
  Qed.
  Lemma leftT_mv v i : (i < d)%nat -> mv (trn (bfgs_left d s y)) v i = v i - r * ip s v * y i.
  Proof.
    intros Hi. unfold BfgsFacts.mv, bfgs_left, trn.
    rewrite (rs_ext _ _ (fun j => delta i j * v j + (- (y i * r)) * (s j * v j))).
    - rewrite rs_add, rs_scal, delta_sum by auto. fold (ip s v). ring.
    - intros j Hj. unfold delta. rewrite (Nat.eqb_sym j i). unfold Rdiv. ring.
  Qed.
  (** one step of the two-loop recursion *)
  Lemma bfgs_mv v i : (i < d)%nat ->
    let a := r * ip s v in let w := mv M (fun j => v j - a * y j) in
    mv (bfgs d M s y) v i = w i + (a - r * ip y w) * s i.
  Proof.
    intros Hi a w. unfold bfgs.
    transitivity (mv (mm d (mm d (bfgs_left d s y) M) (trn (bfgs_left d s y))) v i + r * ip s v * s i).
    - replace (r * ip s v * s i) with (rs d (fun j => (r * s i) * (s j * v j))) by (rewrite rs_scal; fold (ip s v); ring).
      unfold BfgsFacts.mv. rewrite <- rs_add. apply rs_ext. intros j Hj. unfold Rdiv. ring.
    - rewrite mv_mm, mv_mm, left_mv by auto. fold a.
      assert (E : forall k, mv M (mv (trn (bfgs_left d s y)) v) k = w k).
      { intros k. unfold w. apply mv_ext; auto. intros j Hj. rewrite leftT_mv by auto. unfold a. ring. }
      rewrite E. rewrite (ip_ext y y _ w) by auto. ring.
  Qed.
  Lemma bfgs_sym : symmetric d M -> symmetric d (bfgs d M s y).
  Proof.
    intros H i j Hi Hj. unfold bfgs. f_equal; [|unfold Rdiv; ring]. unfold mm, trn.
    transitivity (rs d (fun k => rs d (fun l => bfgs_left d s y i l * M l k * bfgs_left d s y j k))).
    - apply rs_ext. intros k Hk. rewrite (Rmult_comm (rs _ _)), <- rs_scal. apply rs_ext. intros. ring.
    - rewrite rs_swap. apply rs_ext. intros k Hk. rewrite (Rmult_comm (rs _ _)), <- rs_scal.
      apply rs_ext. intros l Hl. rewrite (H k l) by auto. ring.
  Qed.
  Lemma bfgs_secant i : ip s y <> 0 -> (i < d)%nat -> mv (bfgs d M s y) y i = s i.
  Proof.
    intros H Hi. rewrite bfgs_mv by auto. cbv zeta.
    assert (E : forall k, mv M (fun j => y j - r * ip s y * y j) k = 0).
    { intros k. unfold BfgsFacts.mv. apply rs_zero. intros j Hj. field; auto. }
    rewrite E. rewrite (ip_ext y y _ (fun _ => 0)) by auto.
    replace (ip y (fun _ => 0)) with 0 by (symmetry; apply rs_zero; intros; ring). field; auto.
  Qed.
  Lemma bfgs_quad v : ip v (mv (bfgs d M s y) v) =
    let u := fun j => v j - r * ip s v * y j in ip u (mv M u) + r * (ip s v * ip s v).
  Proof.
    cbv zeta. set (a := r * ip s v). set (u := fun j => v j - a * y j).
    rewrite (ip_ext v v _ (fun i => mv M u i + (a - r * ip y (mv M u)) * s i)); auto; [|intros i Hi; now rewrite bfgs_mv].
    rewrite ip_add_r, ip_scal_r.
    assert (E : ip u (mv M u) = ip v (mv M u) - a * ip y (mv M u)).
    { unfold u at 1. rewrite (ip_ext _ (fun i => v i + (-a) * y i) _ (mv M u)) by (auto; intros; ring). rewrite ip_add_l, ip_scal_l. ring. }
    rewrite E, (ip_comm v s). unfold a. ring.
  Qed.
  Lemma bfgs_posdef : 0 < ip s y -> posdef d M -> posdef d (bfgs d M s y).
  Proof.
    intros H HM v Hv. rewrite bfgs_quad. cbv zeta. assert (0 < r) by now apply Rinv_0_lt_compat.
    destruct (Req_dec (ip s v) 0) as [Z|Z].
    - rewrite Z. match goal with |- 0 < ?a + _ => assert (0 < a) end.
      { apply HM. destruct Hv as (i & Hi & Hv). exists i. split; auto. rewrite Rmult_0_r, Rmult_0_l. lra. }
      lra.
    - match goal with |- 0 < ?a + _ => assert (0 <= a) end.
      + match goal with |- 0 <= ip ?u _ => destruct (zero_or_not d u) as [C|C] end.
        * left. now apply HM.
        * right. symmetry. apply rs_zero. intros i Hi. rewrite (C i Hi). ring.
      + assert (0 < ip s v * ip s v) by nra. nra.
  Qed.
  (** the expanded form, entry by entry *)
  Lemma bfgs_expand i j : (i < d)%nat -> (j < d)%nat -> symmetric d M ->
    bfgs d M s y i j = M i j - r * (mv M y i * s j + s i * mv M y j) + (r * r * ip y (mv M y) + r) * (s i * s j).
  Proof.
    intros Hi Hj H. unfold bfgs. unfold mm at 1. unfold trn.
    rewrite (rs_ext _ _ (fun k => delta j k * mm d (bfgs_left d s y) M i k + (- (r * s j)) * (y k * mm d (bfgs_left d s y) M i k)))
      by (intros; unfold bfgs_left, Rdiv; ring).
    rewrite rs_add, rs_scal, delta_sum by auto.
    assert (E : forall k, (k < d)%nat -> mm d (bfgs_left d s y) M i k = M i k - r * s i * mv M y k).
    { intros k Hk. unfold mm. rewrite (rs_ext _ _ (fun l => delta i l * M l k + (- (r * s i)) * (M k l * y l))).
      - rewrite rs_add, rs_scal, delta_sum by auto. fold (mv M y k). ring.
      - intros l Hl. rewrite (H k l) by auto. unfold bfgs_left, Rdiv. ring. }
    rewrite E by auto.
    rewrite (rs_ext _ _ (fun k => M i k * y k + (- (r * s i)) * (y k * mv M y k))) by (intros k Hk; rewrite E by auto; ring).
    rewrite rs_add, rs_scal. fold (mv M y i). fold (ip y (mv M y)). unfold Rdiv. ring.
  Qed.
End Spec.

(** ** The vector and matrix operations of the model *)
Section Ops.
  Variable d : nat.

  Lemma vdot_ok (a b : list R) : length a = d -> length b = d -> vdot RO d a b = Ok (ip d (vec a) (vec b)).
  Proof.
    intros Ha Hb. unfold vdot. apply (for_det (fun n => rs n (fun i => nth i a 0 * nth i b 0))).
    intros i Hi. rewrite !aget_nth by lia. reflexivity.
  Qed.
  Lemma upd_tab (F : nat -> R -> R) body (c : list R) : length c = d ->
    (forall i c', (i < d)%nat -> length c' = d -> body i c' = aset c' i (F i (nth i c' 0))) ->
    for_ d body c = Ok (tab d (fun i => F i (nth i c 0))).
  Proof.
    intros L H. destruct (upd_loop 0 d F body c) as (c' & E & L' & N); [intros; apply H; lia|lia|].
    unfold for_. rewrite E. f_equal. apply (nth_ext _ _ 0 0); [rewrite tab_length; lia|].
    intros i Hi. rewrite N, nth_tab by lia. replace ((0 <=? i) && (i <? 0 + d))%nat with true; auto.
    symmetry. apply andb_true_intro. split; [apply Nat.leb_le|apply Nat.ltb_lt]; lia.
  Qed.
  Lemma vaxpy_ok (c : R) (x y : list R) : length x = d -> length y = d ->
    vaxpy RO d c x y = Ok (tab d (fun i => nth i y 0 + c * nth i x 0)).
  Proof.
    intros Hx Hy. unfold vaxpy. apply (upd_tab (fun i v => v + c * nth i x 0)); auto.
    intros i c' Hi L. rewrite !aget_nth by lia. reflexivity.
  Qed.
  Lemma vscal_ok (c : R) (x : list R) : length x = d -> vscal RO d c x = Ok (tab d (fun i => c * nth i x 0)).
  Proof.
    intros Hx. unfold vscal. apply (upd_tab (fun i v => c * v)); auto.
    intros i c' Hi L. rewrite !aget_nth by lia. reflexivity.
  Qed.

  (** the symmetric matrix whose upper triangle is stored, column after column *)
  Definition upper (A : list R) : nat -> nat -> R := fun i j => nth (Nat.min i j + Nat.max i j * d) A 0.
  Lemma upper_sym A : symmetric d (upper A).
  Proof. intros i j _ _. unfold upper. now rewrite Nat.min_comm, Nat.max_comm. Qed.
  Lemma idx_bound i j : (i < d)%nat -> (j < d)%nat -> (i + j * d < d * d)%nat.
  Proof. intros. nia. Qed.
  Lemma idx_inj i j i' j' : (i < d)%nat -> (i' < d)%nat -> (i + j * d = i' + j' * d)%nat -> i = i' /\ j = j'.
  Proof.
    intros Hi Hi' E. assert (j = j') by (destruct (Nat.lt_trichotomy j j') as [H|[H|H]]; auto; exfalso; nia). subst. split; auto. lia.
  Qed.

  Lemma dsymv_ok (c : R) (A x y : list R) : length A = (d * d)%nat -> length x = d -> length y = d ->
    dsymv RO d c A x y = Ok (tab d (fun i => c * mv d (upper A) (vec x) i)).
  Proof.
    intros HA Hx Hy. unfold dsymv. apply (upd_tab (fun i _ => c * mv d (upper A) (vec x) i)); auto.
    intros i c' Hi L.
    match goal with |- obind ?e _ = _ => assert (E : e = Ok (mv d (upper A) (vec x) i)) end.
    { apply (for_det (fun n => rs n (fun j => upper A i j * vec x j))). intros j Hj.
      rewrite !aget_nth; [reflexivity|lia|]. rewrite HA. apply idx_bound; lia. }
    refine (eq_trans (f_equal (fun r => obind r _) E) _). reflexivity.
  Qed.

  Lemma tri_loop (F : nat -> nat -> R -> R) (body : nat -> nat -> list R -> outcome (list R)) (A : list R) :
    length A = (d * d)%nat ->
    (forall i j A', (i <= j < d)%nat -> length A' = (d * d)%nat -> body j i A' = aset A' (i + j * d) (F i j (nth (i + j * d) A' 0))) ->
    exists A', for_ d (fun jj A => for_ (S jj) (fun ii A => body jj ii A) A) A = Ok A' /\ length A' = (d * d)%nat /\
      forall i j, (i < d)%nat -> (j < d)%nat ->
        nth (i + j * d) A' 0 = if (i <=? j)%nat then F i j (nth (i + j * d) A 0) else nth (i + j * d) A 0.
  Proof.
    intros HA HB.
    destruct (for_inv (fun J A' => length A' = (d * d)%nat /\ forall i j, (i < d)%nat -> (j < d)%nat ->
        nth (i + j * d) A' 0 = if ((i <=? j) && (j <? J))%nat then F i j (nth (i + j * d) A 0) else nth (i + j * d) A 0)
      (fun jj A => for_ (S jj) (fun ii A => body jj ii A) A) d A) as (A' & E & L & N).
    - split; auto. intros i j Hi Hj. now rewrite Bool.andb_false_r.
    - intros J A0 HJ [L0 N0].
      destruct (for_inv (fun I A' => length A' = (d * d)%nat /\ forall i j, (i < d)%nat -> (j < d)%nat ->
          nth (i + j * d) A' 0 = if ((j =? J) && (i <? I))%nat then F i j (nth (i + j * d) A0 0) else nth (i + j * d) A0 0)
        (fun ii A => body J ii A) (S J) A0) as (A1 & E1 & L1 & N1).
      + split; auto. intros i j Hi Hj. now rewrite Bool.andb_false_r.
      + intros I A2 HI [L2 N2]. rewrite HB by (auto; lia).
        eexists. split; [apply aset_ok; rewrite L2; apply idx_bound; lia|].
        split; [now rewrite upd_length|]. intros i j Hi Hj. rewrite nth_upd by (rewrite L2; apply idx_bound; lia).
        destruct (Nat.eqb_spec (i + j * d) (I + J * d)) as [Q|Q].
        * apply idx_inj in Q; try lia. destruct Q as [-> ->]. rewrite N2 by lia.
          rewrite Nat.eqb_refl. rewrite Nat.ltb_irrefl. cbn [andb]. replace (I <? S I)%nat with true by (symmetry; apply Nat.ltb_lt; lia). reflexivity.
        * rewrite N2 by lia. destruct (Nat.eqb_spec j J) as [->|]; cbn [andb]; auto.
          destruct (Nat.ltb_spec i I), (Nat.ltb_spec i (S I)); auto; lia.
      + exists A1. split; auto. split; auto. intros i j Hi Hj. rewrite N1, N0 by auto.
        destruct (Nat.eqb_spec j J) as [->|Hn]; cbn [andb].
        * rewrite Nat.ltb_irrefl, Bool.andb_false_r. replace (J <? S J)%nat with true by (symmetry; apply Nat.ltb_lt; lia).
          rewrite Bool.andb_true_r. destruct (Nat.ltb_spec i (S J)), (Nat.leb_spec i J); auto; lia.
        * destruct (Nat.leb_spec i j), (Nat.ltb_spec j J), (Nat.ltb_spec j (S J)); cbn [andb]; auto; lia.
    - exists A'. split; auto. split; auto. intros i j Hi Hj. rewrite N by auto.
      replace (j <? d)%nat with true by (symmetry; now apply Nat.ltb_lt). now rewrite Bool.andb_true_r.
  Qed.

  Lemma dsyr_ok (c : R) (x A : list R) : length A = (d * d)%nat -> length x = d ->
    exists A', dsyr RO d c x A = Ok A' /\ length A' = (d * d)%nat /\ forall i j, (i < d)%nat -> (j < d)%nat ->
      nth (i + j * d) A' 0 = if (i <=? j)%nat then nth (i + j * d) A 0 + c * vec x i * vec x j else nth (i + j * d) A 0.
  Proof.
    intros HA Hx. apply (tri_loop (fun i j a => a + c * vec x i * vec x j)); auto.
    intros i j A' Hij L. rewrite !aget_nth; [reflexivity|lia|lia|]. rewrite L. apply idx_bound; lia.
  Qed.
  Lemma dsyr2_ok (c : R) (x y A : list R) : length A = (d * d)%nat -> length x = d -> length y = d ->
    exists A', dsyr2 RO d c x y A = Ok A' /\ length A' = (d * d)%nat /\ forall i j, (i < d)%nat -> (j < d)%nat ->
      nth (i + j * d) A' 0 = if (i <=? j)%nat then nth (i + j * d) A 0 + c * vec x i * vec y j + c * vec y i * vec x j else nth (i + j * d) A 0.
  Proof.
    intros HA Hx Hy. apply (tri_loop (fun i j a => a + c * vec x i * vec y j + c * vec y i * vec x j)); auto.
    intros i j A' Hij L. rewrite !aget_nth; [reflexivity|lia|lia|lia|lia|]. rewrite L. apply idx_bound; lia.
  Qed.
End Ops.
