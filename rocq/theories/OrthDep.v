(** When Gram-Schmidt stops, and the orthonormal starting family of the Householder
    routines. *)
From Coq Require Import Reals Lra.
From Verif Require Export OrthFacts.
Open Scope R_scope.

Lemma rsum_mul_r n c f : rsum n (fun i => f i * c) = rsum n f * c.
Proof. induction n as [|n IH]; cbn; [lra|]. rewrite IH. lra. Qed.
Lemma rsum_swap n m (f : nat -> nat -> R) :
  rsum n (fun i => rsum m (fun j => f i j)) = rsum m (fun j => rsum n (fun i => f i j)).
Proof.
  induction n as [|n IH]; cbn.
  - symmetry. apply rsum_zero. reflexivity.
  - rewrite IH, <- rsum_add. reflexivity.
Qed.

(** Squared length of the combination with coefficients [d] of the first [m] vectors
    with Gram matrix [G]. *)
Definition quad (m : nat) (G : nat -> nat -> R) (d : nat -> R) : R :=
  rsum m (fun a => rsum m (fun b => d a * d b * G a b)).

Section Dep.
  Variable X : Type.
  Variable ip : X -> X -> R.
  Variable axpy : R -> X -> X -> X.
  Variable scale : R -> X -> X.
  Variable flip : X -> X.
  Variable wsum : R -> X -> R -> X -> X.
  Notation lin' := (lin X axpy scale flip wsum).
  Hypothesis ip_sym : forall x y, ip x y = ip y x.
  Hypothesis ip_lin : forall w, lin' (fun x => ip x w).
  Hypothesis ip_pos : forall x, 0 <= ip x x.
  Variable n : nat.
  Variable zro : R.
  Notation grun' := (grun X ip axpy scale n).

  Lemma quad_comb m (A : nat -> X) d y :
    (forall psi, lin' psi -> psi y = rsum m (fun a => d a * psi (A a))) ->
    ip y y = quad m (fun a b => ip (A a) (A b)) d.
  Proof.
    intros H. rewrite (H (fun x => ip x y) (ip_lin y)). unfold quad. apply rsum_ext. intros a _.
    rewrite ip_sym, (H (fun x => ip x (A a)) (ip_lin (A a))), <- rsum_scal. apply rsum_ext. intros b _.
    rewrite (ip_sym (A b)). ring.
  Qed.

  Fixpoint comb (A : nat -> X) (d : nat -> R) (m : nat) (x : X) : X :=
    match m with O => x | S m' => axpy (d m') (A m') (comb A d m' x) end.
  Lemma comb_lin psi A d m x : lin' psi -> psi (comb A d m x) = rsum m (fun a => d a * psi (A a)) + psi x.
  Proof.
    intros (La & R). pose proof (conj La R : lin' psi) as L. induction m as [|m IH]; cbn; [lra|]. rewrite La, IH. lra.
  Qed.

  Section Run.
    Variable s0 : gst X.
    Hypothesis Hz : 0 <= zro.
    Notation s := (fun m => grun' m s0).
    Notation A0 := (gA X s0).

    (** Independent vectors: no residual is small. *)
    Lemma indep_of_ok :
      (forall i, (i < n)%nat -> zro < sqrt (ip (gA X (s i) i) (gA X (s i) i))) ->
      forall j d, (j < n)%nat -> d j = 1 -> zro * zro < quad (S j) (fun a b => ip (A0 a) (A0 b)) d.
    Proof.
      intros Hp j d Hj Hd.
      pose proof (grun_invariant X ip axpy scale flip wsum ip_sym ip_lin ip_pos n zro s0 n (le_n n) Hz Hp) as (O & _ & D & _ & _ & F).
      set (t := grun' n s0) in *. set (y := comb A0 d j (A0 j)).
      assert (Hy : forall psi, lin' psi -> psi y = rsum (S j) (fun a => d a * psi (A0 a))).
      { intros psi L. unfold y. rewrite comb_lin by exact L. cbn [rsum]. rewrite Hd. lra. }
      rewrite <- (quad_comb (S j) A0 d y Hy).
      assert (Hq : ip y (gA X t j) = gR X t j j).
      { rewrite (Hy (fun x => ip x (gA X t j)) (ip_lin _)). cbn [rsum].
        rewrite rsum_zero.
        - rewrite Hd, (F (fun x => ip x (gA X t j)) (ip_lin _) j Hj). cbn [rsum].
          rewrite rsum_zero; [|intros z Hzj; rewrite (O z j) by lia; unfold delta; rewrite (proj2 (Nat.eqb_neq z j)) by lia; lra].
          rewrite (O j j) by lia. unfold delta. rewrite Nat.eqb_refl. lra.
        - intros a Ha. rewrite (F (fun x => ip x (gA X t j)) (ip_lin _) a ltac:(lia)).
          rewrite rsum_zero; [lra|]. intros z Hza. rewrite (O z j) by lia. unfold delta. rewrite (proj2 (Nat.eqb_neq z j)) by lia. lra. }
      pose proof (D j Hj) as Dj. set (c := gR X t j j) in *.
      pose proof (ip_pos (axpy (- c) (gA X t j) y)) as P.
      pose proof (proj1 (ip_lin (axpy (- c) (gA X t j) y)) (- c) (gA X t j) y) as E1. cbv beta in E1.
      rewrite E1, (ip_sym (gA X t j)), (ip_sym y) in P.
      pose proof (proj1 (ip_lin (gA X t j)) (- c) (gA X t j) y) as E2. cbv beta in E2.
      pose proof (proj1 (ip_lin y) (- c) (gA X t j) y) as E3. cbv beta in E3.
      rewrite E2, E3, (O j j) in P by lia. unfold delta in P. rewrite Nat.eqb_refl, (ip_sym _ y), Hq in P.
      assert (zro * zro < c * c) by (apply Rmult_le_0_lt_compat; lra). lra.
    Qed.

    (** A small residual is a short combination with last coefficient 1. *)
    Lemma dep_of_abort m :
      (m < n)%nat ->
      (forall i, (i < m)%nat -> zro < sqrt (ip (gA X (s i) i) (gA X (s i) i))) ->
      sqrt (ip (gA X (s m) m) (gA X (s m) m)) <= zro ->
      exists d, d m = 1 /\ quad (S m) (fun a b => ip (A0 a) (A0 b)) d <= zro * zro.
    Proof.
      intros Hm Hp Hs.
      pose proof (grun_invariant X ip axpy scale flip wsum ip_sym ip_lin ip_pos n zro s0 m ltac:(lia) Hz Hp) as (_ & _ & D & _ & T & F).
      set (t := grun' m s0) in *.
      assert (HQ : forall K, (K <= m)%nat -> exists C : nat -> nat -> R, forall k, (k < K)%nat ->
                forall psi, lin' psi -> psi (gA X t k) = rsum m (fun a => C k a * psi (A0 a))).
      { induction K as [|K IHK]; intros HK.
        - exists (fun _ _ => 0). intros; lia.
        - destruct (IHK ltac:(lia)) as (C & HC).
          exists (updf C K (fun a => / gR X t K K * (delta a K - rsum K (fun z => gR X t z K * C z a)))).
          intros k Hk psi L. destruct (Nat.eq_dec k K) as [->|Nk]; [|rewrite updf_ne by auto; apply HC; auto; lia].
          rewrite updf_eq. pose proof (F psi L K ltac:(lia)) as FK. cbn [rsum] in FK.
          assert (E : rsum K (fun z => gR X t z K * psi (gA X t z)) =
                      rsum m (fun a => rsum K (fun z => gR X t z K * C z a) * psi (A0 a))).
          { transitivity (rsum K (fun z => rsum m (fun a => gR X t z K * C z a * psi (A0 a)))).
            - apply rsum_ext. intros z Hzk. rewrite (HC z Hzk psi L), <- rsum_scal. apply rsum_ext. intros; ring.
            - rewrite rsum_swap. apply rsum_ext. intros a _. now rewrite rsum_mul_r. }
          rewrite E in FK.
          transitivity (/ gR X t K K * (psi (A0 K) - rsum m (fun a => rsum K (fun z => gR X t z K * C z a) * psi (A0 a)))).
          + rewrite FK. pose proof (D K ltac:(lia)). field. lra.
          + replace (psi (A0 K)) with (rsum m (fun a => delta a K * psi (A0 a))).
            2:{ rewrite (rsum_single m _ K) by (try lia; intros i _ Ni; unfold delta; rewrite (proj2 (Nat.eqb_neq i K)) by auto; lra).
                unfold delta. rewrite Nat.eqb_refl. lra. }
            match goal with |- _ * (?P - ?Q) = _ => replace (P - Q) with (P + -1 * Q) by lra end.
            rewrite <- rsum_scal, <- rsum_add, <- rsum_scal. apply rsum_ext. intros; ring. }
      destruct (HQ m (le_n m)) as (C & HC).
      exists (fun a => if (a =? m)%nat then 1 else - rsum m (fun z => gR X t z m * C z a)).
      rewrite Nat.eqb_refl. split; [reflexivity|].
      rewrite <- (quad_comb (S m) A0 _ (gA X t m)).
      - rewrite <- (sqrt_sqrt (ip (gA X t m) (gA X t m))) by apply ip_pos.
        pose proof (sqrt_pos (ip (gA X t m) (gA X t m))). apply Rmult_le_compat; auto.
      - intros psi L. pose proof (T psi L m ltac:(lia)) as Tm. cbn [rsum]. rewrite Nat.eqb_refl.
        replace (rsum m (fun z => gR X t z m * psi (gA X t z))) with
          (- rsum m (fun a => (if (a =? m)%nat then 1 else - rsum m (fun z => gR X t z m * C z a)) * psi (A0 a))) in Tm; [lra|].
        match goal with |- - ?P = _ => replace (- P) with (-1 * P) by lra end. rewrite <- rsum_scal.
        transitivity (rsum m (fun a => rsum m (fun z => gR X t z m * C z a * psi (A0 a)))).
        + apply rsum_ext. intros a Ha. replace (a =? m)%nat with false by (symmetry; apply Nat.eqb_neq; lia).
          rewrite rsum_mul_r. ring.
        + rewrite rsum_swap. apply rsum_ext. intros z Hzm. rewrite (HC z Hzm psi L), <- rsum_scal. apply rsum_ext. intros; ring.
    Qed.
  End Run.

  (** Householder: what is computed in round [z] is not changed later. *)
  Notation hrun' := (hrun X ip axpy scale flip wsum n zro).
  Lemma hrun_stable s0 m d z : (z < m)%nat ->
    hE X (hrun' (d + m) s0) z = hE X (hrun' m s0) z /\
    hV X (hrun' (d + m) s0) z = hV X (hrun' m s0) z /\
    forall k, hR X (hrun' (d + m) s0) z k = hR X (hrun' m s0) z k.
  Proof.
    intros Hz. induction d as [|d IH]; [auto|]. cbn [Nat.add hrun]. unfold hstep. cbn [hE hV hR].
    destruct IH as (I1 & I2 & I3). rewrite !updf_ne by lia. split; [exact I1|]. split; [exact I2|].
    intros k. replace (z =? d + m)%nat with false by (symmetry; apply Nat.eqb_neq; lia). apply I3.
  Qed.

  (** The error in column [k] has norm at most twice the pivot. *)
  Lemma hrun_error s0 k :
    (k < n)%nat -> 0 < zro -> orthonormal X ip n (hE X s0) ->
    let s := hrun' n s0 in
    exists w, ip w w <= 4 * (hR X s k k * hR X s k k) /\
      forall psi, lin' psi ->
        psi (hA X s0 k) = rsum (S k) (fun z => hR X s z k * psi (hQ X ip axpy (hV X s) (hE X s) z)) + psi w.
  Proof.
    intros Hk Hz HE s.
    pose proof (hrun_invariant X ip axpy scale flip wsum ip_sym ip_lin ip_pos n zro s0 n (le_n n) Hz HE) as (O & _ & VV & VE & _ & _ & _ & _).
    fold s in O, VV, VE.
    pose proof (hQ_orthonormal X ip axpy scale flip wsum ip_sym ip_lin n (hV X s) (hE X s) O VV VE) as OQ.
    pose proof (hrun_invariant X ip axpy scale flip wsum ip_sym ip_lin ip_pos n zro s0 k ltac:(lia) Hz HE) as (_ & _ & VVk & _ & _ & _ & T & _).
    set (t := hrun' k s0) in *.
    assert (Hs : s = hrun' ((n - k) + k)%nat s0) by (unfold s; f_equal; lia).
    assert (Hs1 : s = hrun' ((n - S k) + S k)%nat s0) by (unfold s; f_equal; lia).
    assert (St : forall z, (z < k)%nat -> hE X s z = hE X t z /\ hV X s z = hV X t z /\ forall q, hR X s z q = hR X t z q).
    { intros z Hzk. rewrite Hs. apply hrun_stable. exact Hzk. }
    set (a := hA X t k). set (rho := sqrt (ip a a)).
    assert (Hrr : rho * rho = ip a a) by (apply sqrt_sqrt, ip_pos).
    assert (Hr0 : 0 <= rho) by apply sqrt_pos.
    assert (Rkk : hR X s k k = rho).
    { rewrite Hs1. destruct (hrun_stable s0 (S k) (n - S k) k ltac:(lia)) as (_ & _ & E). rewrite E.
      cbn [hrun]. unfold hstep. cbn [hR]. now rewrite !Nat.eqb_refl. }
    set (Q := hQ X ip axpy (hV X s) (hE X s)) in *.
    set (x := prefl X ip axpy (hV X t) k a).
    assert (Hxx : ip x x = rho * rho).
    { unfold x. rewrite (prefl_iso X ip axpy scale flip wsum ip_sym ip_lin) by (intros; apply VVk; lia). lra. }
    assert (HQQ : ip (Q k) (Q k) = 1) by (rewrite (OQ k k) by lia; unfold delta; now rewrite Nat.eqb_refl).
    assert (Hax : forall c, ip (axpy c (Q k) x) (axpy c (Q k) x) = c * c + 2 * c * ip (Q k) x + rho * rho).
    { intros c. pose proof (proj1 (ip_lin (axpy c (Q k) x)) c (Q k) x) as E1. cbv beta in E1. rewrite E1.
      rewrite (ip_sym (Q k) (axpy c (Q k) x)), (ip_sym x (axpy c (Q k) x)).
      pose proof (proj1 (ip_lin (Q k)) c (Q k) x) as E2. cbv beta in E2.
      pose proof (proj1 (ip_lin x) c (Q k) x) as E3. cbv beta in E3.
      rewrite E2, E3, HQQ, Hxx, (ip_sym x (Q k)). ring. }
    exists (axpy (- rho) (Q k) x). split.
    - rewrite Rkk, Hax. pose proof (ip_pos (axpy rho (Q k) x)) as P. rewrite Hax in P. lra.
    - intros psi L. rewrite (T psi L k) by lia. fold a. fold x. cbn [rsum]. rewrite Rkk.
      pose proof L as (La & _). rewrite La.
      rewrite (rsum_ext k (fun z => hR X s z k * psi (Q z)) (fun z => hR X t z k * psi (hQ X ip axpy (hV X t) (hE X t) z))); [lra|].
      intros z Hzk. destruct (St z Hzk) as (S1 & _ & S3). rewrite S3. f_equal. unfold Q, hQ. rewrite S1. f_equal.
      apply prefl_ext. intros q Hq. apply St. lia.
  Qed.

  (** Squared length of a difference, from inner products. *)
  Lemma err_quad A w (c : nat -> R) (Q : nat -> X) m :
    (forall psi, lin' psi -> psi A = rsum m (fun z => c z * psi (Q z)) + psi w) ->
    ip w w = ip A A - 2 * rsum m (fun z => c z * ip A (Q z)) + rsum m (fun z => rsum m (fun y => c z * c y * ip (Q z) (Q y))).
  Proof.
    intros H. pose proof (H _ (ip_lin A)) as H1. cbv beta in H1.
    pose proof (H _ (ip_lin w)) as H2. cbv beta in H2.
    rewrite (ip_sym w A) in H1.
    assert (E : rsum m (fun z => c z * ip (Q z) A) = rsum m (fun z => rsum m (fun y => c z * c y * ip (Q z) (Q y))) + rsum m (fun z => c z * ip (Q z) w)).
    { rewrite <- rsum_add. apply rsum_ext. intros z _. rewrite (ip_sym (Q z) A), (H _ (ip_lin (Q z))), (ip_sym w (Q z)).
      rewrite Rmult_plus_distr_l, <- rsum_scal. f_equal. apply rsum_ext. intros y _. rewrite (ip_sym (Q y)). ring. }
    rewrite (rsum_ext m (fun z => c z * ip A (Q z)) (fun z => c z * ip (Q z) A)) by (intros; now rewrite ip_sym).
    lra.
  Qed.
End Dep.

(** ** The starting family *)
Section Start.
  Context {U : uops Rring} (W : vops U) (orth : nat -> list U) (uzero : U).
  Notation inner := (fun f g : U => uinner f g : R).
  Hypothesis LAW : inner_laws W.

  (** [orth n] are [n] orthonormal functions and [uzero] is orthogonal to everything. *)
  Definition orth_ok (n : nat) : Prop :=
    length (orth n) = n /\
    (forall i j f g, nth_error (orth n) i = Some f -> nth_error (orth n) j = Some g -> inner f g = delta i j) /\
    (forall f, inner uzero f = 0).

  Definition start (n len : nat) (j k : nat) : U :=
    if (k =? j mod len)%nat then nth (j / len) (orth n) uzero else uzero.

  Lemma start_orthonormal n len : (0 < len)%nat -> orth_ok n -> orthonormal vec (IP len) n (start n len).
  Proof.
    intros Hl (O1 & O2 & O3) i j Hi Hj. unfold IP, start.
    assert (Hlt : forall q, (q < n)%nat -> (q / len < n)%nat).
    { intros q Hq. apply Nat.le_lt_trans with q; auto. apply Nat.div_le_upper_bound; nia. }
    assert (Hnt : forall q, (q < n)%nat -> nth_error (orth n) (q / len) = Some (nth (q / len) (orth n) uzero)).
    { intros q Hq. apply nth_error_nth'. rewrite O1. auto. }
    assert (Oz : forall f, (uinner f uzero : R) = 0).
    { intros f. pose proof (proj1 LAW f uzero) as S. cbv beta in S. rewrite S. apply O3. }
    rewrite (rsum_single len _ (i mod len)).
    - rewrite Nat.eqb_refl. destruct (Nat.eqb_spec (i mod len) (j mod len)) as [E|N].
      + rewrite (O2 (i / len)%nat (j / len)%nat _ _ (Hnt i Hi) (Hnt j Hj)). unfold delta.
        destruct (Nat.eqb_spec i j) as [->|Nij]; [now rewrite Nat.eqb_refl|].
        destruct (Nat.eqb_spec (i / len) (j / len)) as [E2|]; [exfalso|reflexivity].
        apply Nij. rewrite (Nat.div_mod_eq i len), (Nat.div_mod_eq j len). now rewrite E, E2.
      + rewrite Oz. unfold delta. destruct (Nat.eqb_spec i j) as [->|]; [congruence|reflexivity].
    - apply Nat.mod_upper_bound. lia.
    - intros k _ Nk. rewrite (proj2 (Nat.eqb_neq k (i mod len))) by auto. apply O3.
  Qed.

  Section Lay.
    Variables n len si sk : nat.
    Notation p := (fun i k => i * si + k * sk)%nat.
    Notation N := (n * len)%nat.
    Hypothesis L : layout n len p N.
    Hypothesis ON : onto n len p N.

    Lemma orth1d_rep : (0 < len)%nat -> orth_ok n ->
      exists q, orth1d orth uzero n len si sk = Ok q /\ rep n len p N q (start n len).
    Proof.
      intros Hl (O1 & O2 & O3). unfold orth1d.
      match goal with |- context [for_ n ?b ?s] =>
        destruct (for_inv (fun j (u : list (option U) * (nat * nat)) =>
            rep n len p N (fst u) (fun z k => if (z <? j)%nat then Some (start n len z k) else None) /\
            snd u = (j mod len, j / len)%nat) b n s) as ([q [a1 a2]] & E & H & _) end.
      - cbn [fst snd]. split.
        + split; [unfold slots; now rewrite repeat_length|]. intros i k Hi Hk. unfold slots.
          rewrite nth_error_repeat; [reflexivity|]. apply (proj1 L); auto.
        + rewrite Nat.mod_0_l, Nat.div_0_l by lia. reflexivity.
      - intros j [q [on oo]] Hj [R1 R2]. cbn [fst snd] in R1, R2. injection R2 as -> ->.
        assert (Hjl : (j / len < n)%nat) by (apply Nat.le_lt_trans with j; auto; apply Nat.div_le_upper_bound; nia).
        set (f := nth (j / len) (orth n) uzero).
        assert (Hf : nth_error (orth n) (j / len) = Some f) by (apply nth_error_nth'; rewrite O1; auto).
        rewrite (aget_ok _ _ _ Hf). cbn [obind].
        pose proof (Nat.mod_upper_bound j len ltac:(lia)) as Hm. set (m := (j mod len)%nat) in *.
        destruct (rep_set n len p N L q _ j m (Some f) R1 Hj Hm) as (q1 & E1 & R3). cbv beta in E1. rewrite E1. cbn [obind].
        assert (En : gf_norm f = Ok (sqrt (uinner f f))).
        { unfold gf_norm. pose proof (proj2 (proj2 LAW) f) as P. cbv beta in P.
          destruct (Rltb_spec (uinner f f : R) 0) as [Q|Q]; [exfalso; apply (Rlt_not_le _ _ Q); exact P|reflexivity]. }
        rewrite En. cbn [obind].
        set (g := fun z k => if (z <? j)%nat then Some (start n len z k) else None) in *.
        destruct (for_inv (fun c (u : list (option U)) => rep n len p N u
            (fun z k => if (z =? j)%nat then if (k <? c)%nat then Some uzero else if (k =? m)%nat then Some f else g z k else g z k))
            (fun kk q => aset q (j * si + kk * sk)%nat (Some uzero)) m q1) as (q2 & E2 & R4).
        { apply (rep_ext _ _ _ _ _ _ _ R3). intros z k _ _. destruct (z =? j)%nat; cbn [andb]; reflexivity. }
        { intros c u Hc Ru. destruct (rep_set n len p N L u _ j c (Some uzero) Ru Hj ltac:(lia)) as (u' & Eu & Ru'). cbv beta in Eu.
          exists u'. split; [exact Eu|]. apply (rep_ext _ _ _ _ _ _ _ Ru'). intros z k _ _.
          destruct (z =? j)%nat; cbn [andb]; [|reflexivity].
          destruct (Nat.eqb_spec k c) as [->|]; [now rewrite (proj2 (Nat.ltb_lt c (S c))) by lia|].
          replace (k <? S c)%nat with (k <? c)%nat; [reflexivity|]. destruct (Nat.ltb_spec k c), (Nat.ltb_spec k (S c)); auto; lia. }
        rewrite E2. cbn [obind].
        destruct (for_from_inv (fun c (u : list (option U)) => rep n len p N u
            (fun z k => if (z =? j)%nat then if (k =? m)%nat then Some f else if (k <? c)%nat then Some uzero else g z k else g z k))
            (fun kk q => aset q (j * si + kk * sk)%nat (Some uzero)) (m + 1)%nat (len - (m + 1))%nat q2) as (q3 & E3 & R5).
        { apply (rep_ext _ _ _ _ _ _ _ R4). intros z k _ _. destruct (z =? j)%nat; [|reflexivity].
          destruct (Nat.eqb_spec k m) as [->|]; [now rewrite Nat.ltb_irrefl|].
          replace (k <? m + 1)%nat with (k <? m)%nat; [reflexivity|]. destruct (Nat.ltb_spec k m), (Nat.ltb_spec k (m + 1)); auto; lia. }
        { intros c u Hc Ru. destruct (rep_set n len p N L u _ j c (Some uzero) Ru Hj ltac:(lia)) as (u' & Eu & Ru'). cbv beta in Eu.
          exists u'. split; [exact Eu|]. apply (rep_ext _ _ _ _ _ _ _ Ru'). intros z k _ _.
          destruct (z =? j)%nat; cbn [andb]; [|reflexivity].
          destruct (Nat.eqb_spec k c) as [->|].
          - rewrite (proj2 (Nat.eqb_neq c m)) by lia. now rewrite (proj2 (Nat.ltb_lt c (S c))) by lia.
          - replace (k <? S c)%nat with (k <? c)%nat; [reflexivity|]. destruct (Nat.ltb_spec k c), (Nat.ltb_spec k (S c)); auto; lia. }
        rewrite E3. cbn [obind]. replace (m + 1 + (len - (m + 1)))%nat with len in R5 by lia.
        assert (RF : rep n len p N q3 (fun z k => if (z <? S j)%nat then Some (start n len z k) else None)).
        { apply (rep_ext _ _ _ _ _ _ _ R5). intros z k _ Hk. unfold g. destruct (Nat.eqb_spec z j) as [->|Nz].
          - rewrite (proj2 (Nat.ltb_lt j (S j))) by lia. unfold start. fold m. destruct (k =? m)%nat; [reflexivity|].
            now rewrite (proj2 (Nat.ltb_lt k len)) by lia.
          - replace (z <? S j)%nat with (z <? j)%nat; [reflexivity|]. destruct (Nat.ltb_spec z j), (Nat.ltb_spec z (S j)); auto; lia. }
        assert (Hdm : (j = len * (j / len) + m)%nat) by (apply Nat.div_mod_eq).
        destruct (Nat.eqb_spec (m + 1) len) as [El|Nl]; eexists; (split; [reflexivity|]); cbn [fst snd]; (split; [exact RF|]); f_equal.
        + apply (Nat.mod_unique _ _ (j / len + 1)%nat); [lia|]. rewrite Nat.mul_add_distr_l. lia.
        + apply (Nat.div_unique _ _ (j / len + 1)%nat 0%nat); [lia|]. rewrite Nat.mul_add_distr_l. lia.
        + apply (Nat.mod_unique _ _ (j / len)%nat); lia.
        + apply (Nat.div_unique _ _ (j / len)%nat (m + 1)%nat); lia.
      - rewrite E. cbn [obind fst].
        destruct (freeze_all N q) as (V2 & EV2 & LV2 & HV2).
        { apply H. }
        { intros x Hx. destruct (ON x Hx) as (i & k & Hi & Hk & ->). destruct H as [_ H]. specialize (H i k Hi Hk). cbv beta in H. cbn [fst] in H.
          rewrite H. replace (i <? n)%nat with true by (symmetry; apply Nat.ltb_lt; lia). eauto. }
        exists V2. split; [exact EV2|]. split; [exact LV2|]. intros i k Hi Hk. apply HV2. destruct H as [_ H]. specialize (H i k Hi Hk).
        cbv beta in H. cbn [fst] in H. rewrite H. replace (i <? n)%nat with true by (symmetry; apply Nat.ltb_lt; lia). reflexivity.
    Qed.
  End Lay.
End Start.
