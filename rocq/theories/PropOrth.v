(** C35, C36: orthogonal factorisations of quasimatrix arrays. *)
From Coq Require Import Reals Lra.
From Verif Require Import OrthDep QmaFacts.
Open Scope R_scope.

(** ** Specification *)
Section Spec.
  Context {U : uops Rring}.
  (** Inner products of two columns, and of two rows. *)
  Definition col_ip (Q : qma U) (i j : nat) : R :=
    rsum (nr Q) (fun k => ent2 (R := Rring) (fun f g => uinner f g) Q k i Q k j).
  Definition row_ip (Q : qma U) (i j : nat) : R :=
    rsum (nc Q) (fun k => ent2 (R := Rring) (fun f g => uinner f g) Q i k Q j k).
  (** Entry of an [n]-row matrix stored by columns. *)
  Definition mat (n : nat) (M : list R) (i j : nat) : R := nth (j * n + i) M 0.
  Definition same_shape (Q A : qma U) : Prop := nr Q = nr A /\ nc Q = nc A /\ qwf Q.

  (** Squared norm of (column [j] of A) - (column [j] of Q R), by expanding the square. *)
  Definition col_ip2 (A : qma U) (i : nat) (B : qma U) (j : nat) : R :=
    rsum (nr A) (fun k => ent2 (R := Rring) (fun f g => uinner f g) A k i B k j).
  Definition row_ip2 (A : qma U) (i : nat) (B : qma U) (j : nat) : R :=
    rsum (nc A) (fun k => ent2 (R := Rring) (fun f g => uinner f g) A i k B j k).
  Definition sq_err (ipAA : R) (m : nat) (c : nat -> R) (ipAQ : nat -> R) (ipQQ : nat -> nat -> R) : R :=
    ipAA - 2 * rsum m (fun z => c z * ipAQ z) + rsum m (fun z => rsum m (fun y => c z * c y * ipQQ z y)).
  Definition qr_err (A Q : qma U) (M : list R) (j : nat) : R :=
    sq_err (col_ip2 A j A j) (S j) (fun i => mat (nc A) M i j) (fun i => col_ip2 A j Q i) (fun i k => col_ip2 Q i Q k).
  Definition lq_err (A Q : qma U) (M : list R) (j : nat) : R :=
    sq_err (row_ip2 A j A j) (S j) (fun i => mat (nr A) M j i) (fun i => row_ip2 A j Q i) (fun i k => row_ip2 Q i Q k).

  (** Q has orthonormal columns and A = Q R, [R] upper triangular over the old content of
      the array.  Equality of quasimatrix entries is equality under the functionals [P]. *)
  Definition is_qr (P : nat -> (U -> R) -> Prop) (A Q : qma U) (M0 M : list R) : Prop :=
    same_shape Q A /\ length M = (nc A * nc A)%nat /\
    (forall i j, (i < nc A)%nat -> (j < nc A)%nat -> col_ip Q i j = if (i =? j)%nat then 1 else 0) /\
    (forall i j, (j < i < nc A)%nat -> mat (nc A) M i j = mat (nc A) M0 i j) /\
    (forall k j phi, (k < nr A)%nat -> (j < nc A)%nat -> P j phi ->
       ent (R := Rring) phi A k j = rsum (S j) (fun i => mat (nc A) M i j * ent (R := Rring) phi Q k i)).
  Definition is_lq (P : nat -> (U -> R) -> Prop) (A Q : qma U) (M0 M : list R) : Prop :=
    same_shape Q A /\ length M = (nr A * nr A)%nat /\
    (forall i j, (i < nr A)%nat -> (j < nr A)%nat -> row_ip Q i j = if (i =? j)%nat then 1 else 0) /\
    (forall i j, (j < i < nr A)%nat -> mat (nr A) M j i = mat (nr A) M0 j i) /\
    (forall k j phi, (k < nc A)%nat -> (j < nr A)%nat -> P j phi ->
       ent (R := Rring) phi A j k = rsum (S j) (fun i => mat (nr A) M j i * ent (R := Rring) phi Q i k)).

  (** Every combination of columns (rows) with last coefficient 1 is longer than [z]. *)
  Definition independent (n : nat) (G : nat -> nat -> R) (z : R) : Prop :=
    forall j d, (j < n)%nat -> d j = 1 ->
      z * z < rsum (S j) (fun a => rsum (S j) (fun b => d a * d b * G a b)).
End Spec.

(** ** The two layouts *)
Lemma lay_col n len : layout n len (fun i k => i * len + k * 1)%nat (n * len).
Proof. destruct (layout_col n len) as [H1 H2]. split; intros; rewrite ?Nat.mul_1_r in *; auto. Qed.
Lemma on_col n len : onto n len (fun i k => i * len + k * 1)%nat (n * len).
Proof. intros q Hq. destruct (onto_col n len q Hq) as (i & k & Hi & Hk & E). exists i, k. rewrite Nat.mul_1_r. auto. Qed.
Lemma lay_row n len : layout n len (fun i k => i * 1 + k * n)%nat (n * len).
Proof.
  destruct (layout_row n len) as [H1 H2]. split.
  - intros i k Hi Hk. rewrite Nat.mul_1_r, Nat.add_comm. auto.
  - intros i k i' k' Hi Hk Hi' Hk' E. apply H2; auto; lia.
Qed.
Lemma on_row n len : onto n len (fun i k => i * 1 + k * n)%nat (n * len).
Proof. intros q Hq. destruct (onto_row n len q Hq) as (i & k & Hi & Hk & E). exists i, k. rewrite Nat.mul_1_r. repeat split; auto; lia. Qed.

Section Bridge.
  Context {U : uops Rring}.

  Lemma rep_of_col (A : qma U) z : qwf A -> rep (nc A) (nr A) (fun i k => i * nr A + k * 1)%nat (nc A * nr A) (fs A) (fun i k => egt A z k i).
  Proof. intros H. split; [rewrite H; lia|]. intros i k Hi Hk. now apply egt_col. Qed.
  Lemma rep_of_row (A : qma U) z : qwf A -> rep (nr A) (nc A) (fun i k => i * 1 + k * nr A)%nat (nr A * nc A) (fs A) (fun i k => egt A z i k).
  Proof. intros H. split; [rewrite H; lia|]. intros i k Hi Hk. rewrite Nat.mul_1_r. now apply egt_row. Qed.

  Lemma rep_mat n M : length M = (n * n)%nat -> rep n n (fun i j => j * n + i)%nat (n * n) M (mat n M).
  Proof. intros H. split; [exact H|]. intros i k Hi Hk. unfold mat. apply nth_error_nth'. rewrite H. now apply idx_lt. Qed.
  Lemma rep_mat_t n M : length M = (n * n)%nat -> rep n n (fun i j => i * n + j)%nat (n * n) M (fun i j => mat n M j i).
  Proof. intros H. split; [exact H|]. intros i k Hi Hk. unfold mat. apply nth_error_nth'. rewrite H. now apply idx_lt. Qed.

  (** Reading a result back *)
  Lemma col_entry n len l g i k : rep n len (fun i k => i * len + k * 1)%nat (n * len) l g -> (i < n)%nat -> (k < len)%nat ->
    entry (mkq len n l : qma U) k i = Some (g i k).
  Proof. intros [_ H] Hi Hk. unfold entry. cbn. rewrite <- (H i k Hi Hk). f_equal. lia. Qed.
  Lemma row_entry n len l g i k : rep n len (fun i k => i * 1 + k * n)%nat (n * len) l g -> (i < n)%nat -> (k < len)%nat ->
    entry (mkq n len l : qma U) i k = Some (g i k).
  Proof. intros [_ H] Hi Hk. unfold entry. cbn. rewrite <- (H i k Hi Hk). f_equal. lia. Qed.
  Lemma mat_entry n M g i j : rep n n (fun i j => j * n + i)%nat (n * n) M g -> (i < n)%nat -> (j < n)%nat -> mat n M i j = g i j.
  Proof. intros [_ H] Hi Hj. unfold mat. apply nth_error_nth. apply H; auto. Qed.
  Lemma mat_entry_t n M g i j : rep n n (fun i j => i * n + j)%nat (n * n) M g -> (i < n)%nat -> (j < n)%nat -> mat n M j i = g i j.
  Proof. intros [_ H] Hi Hj. unfold mat. apply nth_error_nth. apply H; auto. Qed.

  Lemma col_ip_egt (A : qma U) z i j : qwf A -> (i < nc A)%nat -> (j < nc A)%nat ->
    IP (nr A) (fun k => egt A z k i) (fun k => egt A z k j) = col_ip A i j.
  Proof. intros H Hi Hj. apply rsum_ext. intros k Hk. apply (egt_ent2 (R := Rring) A A z z (fun f g => uinner f g)); auto. Qed.
  Lemma row_ip_egt (A : qma U) z i j : qwf A -> (i < nr A)%nat -> (j < nr A)%nat ->
    IP (nc A) (fun k => egt A z i k) (fun k => egt A z j k) = row_ip A i j.
  Proof. intros H Hi Hj. apply rsum_ext. intros k Hk. apply (egt_ent2 (R := Rring) A A z z (fun f g => uinner f g)); auto. Qed.
End Bridge.

(** Gram-Schmidt on families *)
Section GS.
  Context {U : uops Rring} (W : vops U) (zro : R).
  Hypothesis LAW : inner_laws W.
  Variables n len si sk : nat.
  Notation p := (fun i k => i * si + k * sk)%nat.
  Notation N := (n * len)%nat.
  Variable rp : nat -> nat -> nat.
  Hypothesis L : layout n len p N.
  Hypothesis LR : layout n n rp (n * n).
  Hypothesis Hz : 0 <= zro.

  Definition first_small (P : nat -> Prop) (Pd : forall i, P i \/ ~ P i) m :
    (forall i, (i < m)%nat -> P i) \/ exists i, (i < m)%nat /\ ~ P i /\ forall k, (k < i)%nat -> P k.
  Proof.
    induction m as [|m [IH|IH]].
    - left. intros; lia.
    - destruct (Pd m) as [H|H].
      + left. intros i Hi. destruct (Nat.eq_dec i m) as [->|]; auto. apply IH. lia.
      + right. exists m. auto.
    - right. destruct IH as (i & Hi & H). exists i. split; [lia|auto].
  Qed.

  Lemma gs_family (A : list U) (M : list R) g M0 :
    rep n len p N A g -> rep n n rp (n * n) M M0 ->
    (exists A' M' q r, gram_schmidt W zro n len si sk rp A M = Ok (A', M') /\
       rep n len p N A' q /\ rep n n rp (n * n) M' r /\
       independent n (fun a b => IP len (g a) (g b)) zro /\
       orthonormal vec (IP len) n q /\
       (forall z, (z < n)%nat -> zro < r z z) /\
       (forall z k, (k < z < n)%nat -> r z k = M0 z k) /\
       (forall phi, vlin W phi -> forall k j, (j < n)%nat -> phi (g j k) = rsum (S j) (fun i => r i j * phi (q i k)))) \/
    (gram_schmidt W zro n len si sk rp A M = Abort /\ ~ independent n (fun a b => IP len (g a) (g b)) zro).
  Proof.
    intros RA RM.
    pose (s := fun m => grun vec (IP len) (Axpy W) (Scale W) n m (mkgs vec g M0)).
    destruct (first_small (fun i => zro < sqrt (IP len (gA _ (s i) i) (gA _ (s i) i)))
               (fun i => match Rlt_dec zro (sqrt (IP len (gA _ (s i) i) (gA _ (s i) i))) with left H => or_introl H | right H => or_intror H end) n)
      as [Hp|(m & Hm & Hn & Hp)].
    - left. destruct (gram_schmidt_ok W zro LAW len n si sk N L rp LR A M g M0 RA RM Hp) as (A' & M' & E & R1 & R2).
      exists A', M', (gA _ (s n)), (gR _ (s n)). split; [exact E|]. split; [exact R1|]. split; [exact R2|].
      pose proof (grun_invariant vec (IP len) (Axpy W) (Scale W) (Flip W) (Wsum W) (IP_sym W LAW len) (IP_lin W LAW len) (IP_pos W LAW len) n zro
        (mkgs vec g M0) n (le_n n) Hz Hp) as (O & _ & D & K & _ & F).
      split.
      { intros j d Hj Hd. apply (indep_of_ok vec (IP len) (Axpy W) (Scale W) (Flip W) (Wsum W) (IP_sym W LAW len) (IP_lin W LAW len) (IP_pos W LAW len) n zro
         (mkgs vec g M0) Hz Hp j d Hj Hd). }
      split; [exact O|]. split; [exact D|]. split; [intros z k Hzk; apply K; lia|].
      intros phi Hphi k j Hj. apply (F (fun x => phi (x k)) (comp_lin W phi k Hphi) j Hj).
    - right. split.
      + apply (gram_schmidt_abort W zro LAW len n si sk N L rp LR A M g M0 m RA RM Hm Hp). exact (Rnot_lt_le _ _ Hn).
      + intros I. destruct (dep_of_abort vec (IP len) (Axpy W) (Scale W) (Flip W) (Wsum W) (IP_sym W LAW len) (IP_lin W LAW len) (IP_pos W LAW len) n zro
         (mkgs vec g M0) Hz m Hm Hp (Rnot_lt_le _ _ Hn)) as (d & Hd & Hq).
        specialize (I m d Hm Hd). exact (Rlt_not_le _ _ I Hq).
  Qed.
End GS.

Section House.
  Context {U : uops Rring} (W : vops U) (zro : R) (orth : nat -> list U) (uzero : U).
  Hypothesis LAW : inner_laws W.
  Variables n len si sk : nat.
  Notation p := (fun i k => i * si + k * sk)%nat.
  Notation N := (n * len)%nat.
  Variable rp : nat -> nat -> nat.
  Hypothesis L : layout n len p N.
  Hypothesis ON : onto n len p N.
  Hypothesis LR : layout n n rp (n * n).
  Hypothesis Hz : 0 < zro.

  Lemma house_family (A : list U) (M : list R) a M0 :
    (0 < len)%nat -> orth_ok orth uzero n ->
    rep n len p N A a -> rep n n rp (n * n) M M0 ->
    exists Q0 Q' M' q r, orth1d orth uzero n len si sk = Ok Q0 /\
       householder W zro n len si sk rp A Q0 M = Ok (Q', M') /\
       rep n len p N Q' q /\ rep n n rp (n * n) M' r /\
       orthonormal vec (IP len) n q /\
       (forall z, (z < n)%nat -> 0 <= r z z) /\
       (forall z k, (k < z < n)%nat -> r z k = M0 z k) /\
       (forall phi, vlin W phi -> forall k j, (k < len)%nat -> (j < n)%nat ->
          2 * zro <= r j j \/ (r j j = 0 /\ forall f : U, (uinner f f : R) = 0 -> phi f = 0) ->
          phi (a j k) = rsum (S j) (fun i => r i j * phi (q i k))) /\
       (forall j, (j < n)%nat -> sq_err (IP len (a j) (a j)) (S j) (fun i => r i j) (fun i => IP len (a j) (q i)) (fun i k => IP len (q i) (q k))
          <= 4 * Rmin (r j j * r j j) (4 * (zro * zro))).
  Proof.
    intros Hl Ho RA RM.
    destruct (orth1d_rep W orth uzero LAW n len si sk L ON Hl Ho) as (Q0 & E0 & RQ).
    destruct (householder_ok W zro LAW len n si sk N L rp LR eq_refl ON A Q0 M a (start orth uzero n len) M0 a RA RQ RM)
      as (Q' & M' & E & R1 & R2).
    set (s := hrun vec (IP len) (Axpy W) (Scale W) (Flip W) (Wsum W) n zro n (mkhs vec a (start orth uzero n len) a M0)) in *.
    exists Q0, Q', M', (hQ vec (IP len) (Axpy W) (hV _ s) (hE _ s)), (hR _ s).
    split; [exact E0|]. split; [exact E|]. split; [exact R1|]. split; [exact R2|].
    destruct (hrun_invariant vec (IP len) (Axpy W) (Scale W) (Flip W) (Wsum W) (IP_sym W LAW len) (IP_lin W LAW len) (IP_pos W LAW len) n zro
      (mkhs vec a (start orth uzero n len) a M0) n (le_n n) Hz (start_orthonormal W orth uzero LAW n len Hl Ho))
      as (O & _ & VV & VE & D & K & _ & F).
    fold s in O, VV, VE, D, K, F.
    split.
    { apply (hQ_orthonormal vec (IP len) (Axpy W) (Scale W) (Flip W) (Wsum W) (IP_sym W LAW len) (IP_lin W LAW len)); auto. }
    split; [exact D|]. split; [intros z k Hzk; apply K; lia|].
    split.
    { intros phi Hphi k j Hk Hj Hor. apply (F (fun x => phi (x k)) (comp_lin W phi k Hphi) j Hj).
      destruct Hor as [H|[H1 H2]]; [left; exact H|right; split; [exact H1|]]. apply (comp_nul W LAW len phi k Hk H2). }
    intros j Hj.
    destruct (hrun_error vec (IP len) (Axpy W) (Scale W) (Flip W) (Wsum W) (IP_sym W LAW len) (IP_lin W LAW len) (IP_pos W LAW len) n zro
      (mkhs vec a (start orth uzero n len) a M0) j Hj Hz (start_orthonormal W orth uzero LAW n len Hl Ho)) as (w & Hw & HwF).
    fold s in Hw, HwF. cbn [hA] in HwF. specialize (D j Hj).
    pose proof (err_quad vec (IP len) (Axpy W) (Scale W) (Flip W) (Wsum W) (IP_sym W LAW len) (IP_lin W LAW len) _ w _ _ _ HwF) as Eq.
    unfold sq_err. rewrite <- Eq.
    assert (Hc : 4 * (zro * zro) <= hR vec s j j * hR vec s j j \/ hR vec s j j * hR vec s j j < 4 * (zro * zro)) by lra.
    destruct Hc as [Hc|Hc]; [rewrite Rmin_right by exact Hc|rewrite Rmin_left by lra; exact Hw].
    assert (H2 : 2 * zro <= hR vec s j j) by nra.
    pose proof (F _ (IP_lin W LAW len w) j Hj (or_introl H2)) as F1. cbv beta in F1. cbn [hA] in F1.
    pose proof (HwF _ (IP_lin W LAW len w)) as F2. cbv beta in F2.
    assert (IP len w w = 0) as -> by lra. nra.
  Qed.
End House.

Lemma some_entry {U : uops Rring} (A : qma U) : qwf A -> (0 < nr A)%nat -> (0 < nc A)%nat -> exists z : U, True.
Proof. intros H Hr Hc. destruct (entry_some A 0 0 H Hr Hc) as [f _]. exists f. exact I. Qed.
Lemma indep_ext n G G' z : (forall i j, (i < n)%nat -> (j < n)%nat -> G i j = G' i j) -> independent n G z -> independent n G' z.
Proof.
  intros H I j d Hj Hd. rewrite <- (rsum_ext (S j) (fun a => rsum (S j) (fun b => d a * d b * G a b))).
  - apply I; auto.
  - intros a Ha. apply rsum_ext. intros b Hb. rewrite H by lia. reflexivity.
Qed.

(** ** C35 *)
(** Gram-Schmidt QR: always returns or aborts, and it returns exactly for columns that
    are numerically independent; then A = Q R with orthonormal Q, diagonal above ZERO. *)
Theorem C35_qr_gs {U : uops Rring} (W : vops U) zro (A : qma U) (M : list R) :
  inner_laws W -> 0 <= zro -> qwf A -> (0 < nr A)%nat -> (0 < nc A)%nat -> length M = (nc A * nc A)%nat ->
  (independent (nc A) (col_ip A) zro /\
   exists Q M', qmarray_qr_gs W zro A M = Ok (Q, M') /\
     is_qr (fun _ phi => vlin W phi) A Q M M' /\
     forall i, (i < nc A)%nat -> zro < mat (nc A) M' i i) \/
  (~ independent (nc A) (col_ip A) zro /\ qmarray_qr_gs W zro A M = Abort).
Proof.
  intros LAW Hz Hw Hr Hc HM. destruct (some_entry A Hw Hr Hc) as [z _].
  destruct (gs_family W zro LAW (nc A) (nr A) (nr A) 1 (fun i j => j * nc A + i)%nat (lay_col _ _)
     (layout_row _ _) Hz (fs A) M _ _ (rep_of_col A z Hw) (rep_mat (nc A) M HM))
    as [(A' & M' & q & r & E & RA & RM & I & O & D & K & F)|(E & I)].
  - left. split; [apply (indep_ext (nc A) _ _ _ (fun i j Hi Hj => col_ip_egt A z i j Hw Hi Hj) I)|].
    exists (mkq (nr A) (nc A) A'), M'. split; [unfold qmarray_qr_gs; now rewrite E|]. split.
    + split; [split; [reflexivity|split; [reflexivity|]]; unfold qwf; cbn; rewrite (proj1 RA); lia|].
      split; [apply RM|]. split; [|split].
      * intros i j Hi Hj. unfold col_ip. cbn [nr]. etransitivity; [|exact (O i j Hi Hj)]. apply rsum_ext. intros k Hk.
        unfold ent2. now rewrite (col_entry _ _ _ _ i k RA Hi Hk), (col_entry _ _ _ _ j k RA Hj Hk).
      * intros i j Hij. rewrite (mat_entry _ _ _ i j RM) by lia. apply K; lia.
      * intros k j phi Hk Hj Hphi. rewrite <- (egt_ent (R := Rring) A z phi k j Hw Hk Hj).
        etransitivity; [apply (F phi Hphi k j Hj)|]. apply rsum_ext. intros i Hi.
        rewrite (mat_entry _ _ _ i j RM) by lia. unfold ent. now rewrite (col_entry _ _ _ _ i k RA ltac:(lia) Hk).
    + intros i Hi. rewrite (mat_entry _ _ _ i i RM) by lia. apply D; lia.
  - right. split; [|unfold qmarray_qr_gs; now rewrite E]. intros I'. apply I.
    apply (indep_ext (nc A) _ _ _ (fun i j Hi Hj => eq_sym (col_ip_egt A z i j Hw Hi Hj)) I').
Qed.

(** The same for rows. *)
Theorem C35_lq_gs {U : uops Rring} (W : vops U) zro (A : qma U) (M : list R) :
  inner_laws W -> 0 <= zro -> qwf A -> (0 < nr A)%nat -> (0 < nc A)%nat -> length M = (nr A * nr A)%nat ->
  (independent (nr A) (row_ip A) zro /\
   exists Q M', qmarray_lq_gs W zro A M = Ok (Q, M') /\
     is_lq (fun _ phi => vlin W phi) A Q M M' /\
     forall i, (i < nr A)%nat -> zro < mat (nr A) M' i i) \/
  (~ independent (nr A) (row_ip A) zro /\ qmarray_lq_gs W zro A M = Abort).
Proof.
  intros LAW Hz Hw Hr Hc HM. destruct (some_entry A Hw Hr Hc) as [z _].
  destruct (gs_family W zro LAW (nr A) (nc A) 1 (nr A) (fun i j => i * nr A + j)%nat (lay_row _ _)
     (layout_col _ _) Hz (fs A) M _ _ (rep_of_row A z Hw) (rep_mat_t (nr A) M HM))
    as [(A' & M' & q & r & E & RA & RM & I & O & D & K & F)|(E & I)].
  - left. split; [apply (indep_ext (nr A) _ _ _ (fun i j Hi Hj => row_ip_egt A z i j Hw Hi Hj) I)|].
    exists (mkq (nr A) (nc A) A'), M'. split; [unfold qmarray_lq_gs; now rewrite E|]. split.
    + split; [split; [reflexivity|split; [reflexivity|]]; unfold qwf; cbn; rewrite (proj1 RA); lia|].
      split; [apply RM|]. split; [|split].
      * intros i j Hi Hj. unfold row_ip. cbn [nc]. etransitivity; [|exact (O i j Hi Hj)]. apply rsum_ext. intros k Hk.
        unfold ent2. now rewrite (row_entry _ _ _ _ i k RA Hi Hk), (row_entry _ _ _ _ j k RA Hj Hk).
      * intros i j Hij. rewrite (mat_entry_t _ _ _ i j RM) by lia. apply K; lia.
      * intros k j phi Hk Hj Hphi. rewrite <- (egt_ent (R := Rring) A z phi j k Hw Hj Hk).
        etransitivity; [apply (F phi Hphi k j Hj)|]. apply rsum_ext. intros i Hi.
        rewrite (mat_entry_t _ _ _ i j RM) by lia. unfold ent. now rewrite (row_entry _ _ _ _ i k RA ltac:(lia) Hk).
    + intros i Hi. rewrite (mat_entry_t _ _ _ i i RM) by lia. apply D; lia.
  - right. split; [|unfold qmarray_lq_gs; now rewrite E]. intros I'. apply I.
    apply (indep_ext (nr A) _ _ _ (fun i j Hi Hj => eq_sym (row_ip_egt A z i j Hw Hi Hj)) I').
Qed.

(** ** C36 *)
(** The functionals for which column [j] is reproduced: all linear ones when the pivot is
    at least twice ZERO, and those that vanish on functions of norm 0 when it is 0. *)
Definition exact_at {U : uops Rring} (W : vops U) (zro : R) (d : nat -> R) (j : nat) (phi : U -> R) : Prop :=
  vlin W phi /\ (2 * zro <= d j \/ (d j = 0 /\ forall f : U, (uinner f f : R) = 0 -> phi f = 0)).

(** Householder QR always succeeds, also for dependent columns: Q is orthonormal, R upper
    triangular with non-negative diagonal, and A = Q R in every column whose pivot is
    exactly 0 or at least twice the threshold. *)
Theorem C36_householder_qr_partial {U : uops Rring} (W : vops U) zro orth uzero (A : qma U) (M : list R) :
  inner_laws W -> 0 < zro -> orth_ok orth uzero (nc A) -> qwf A -> (0 < nr A)%nat -> length M = (nc A * nc A)%nat ->
  exists Q M', householder_simple_qr W zro orth uzero A M = Ok (Q, M') /\
     is_qr (exact_at W zro (fun j => mat (nc A) M' j j)) A Q M M' /\
     (forall i, (i < nc A)%nat -> 0 <= mat (nc A) M' i i) /\
     forall j, (j < nc A)%nat -> qr_err A Q M' j <= 4 * Rmin (mat (nc A) M' j j * mat (nc A) M' j j) (4 * (zro * zro)).
Proof.
  intros LAW Hz Ho Hw Hr HM.
  destruct (house_family W zro orth uzero LAW (nc A) (nr A) (nr A) 1 (fun i j => j * nc A + i)%nat (lay_col _ _) (on_col _ _)
     (layout_row _ _) Hz (fs A) M _ _ Hr Ho (rep_of_col A uzero Hw) (rep_mat (nc A) M HM))
    as (Q0 & A' & M' & q & r & E0 & E & RA & RM & O & D & K & F & ER).
  exists (mkq (nr A) (nc A) A'), M'.
  split; [unfold householder_simple_qr, qmarray_orth1d_columns, qmarray_qr; rewrite E0; cbn [obind fs]; now rewrite E|]. split; [|split].
  - split; [split; [reflexivity|split; [reflexivity|]]; unfold qwf; cbn; rewrite (proj1 RA); lia|].
    split; [apply RM|]. split; [|split].
    + intros i j Hi Hj. unfold col_ip. cbn [nr]. etransitivity; [|exact (O i j Hi Hj)]. apply rsum_ext. intros k Hk.
      unfold ent2. now rewrite (col_entry _ _ _ _ i k RA Hi Hk), (col_entry _ _ _ _ j k RA Hj Hk).
    + intros i j Hij. rewrite (mat_entry _ _ _ i j RM) by lia. apply K; lia.
    + intros k j phi Hk Hj [Hphi Hd]. rewrite <- (egt_ent (R := Rring) A uzero phi k j Hw Hk Hj).
      rewrite (mat_entry _ _ _ j j RM) in Hd by lia.
      etransitivity; [apply (F phi Hphi k j Hk Hj Hd)|]. apply rsum_ext. intros i Hi.
      rewrite (mat_entry _ _ _ i j RM) by lia. unfold ent. now rewrite (col_entry _ _ _ _ i k RA ltac:(lia) Hk).
  - intros i Hi. rewrite (mat_entry _ _ _ i i RM) by lia. apply D; lia.
  - intros j Hj. rewrite (mat_entry _ _ _ j j RM) by lia. refine (Rle_trans _ _ _ (Req_le _ _ _) (ER j Hj)).
    unfold qr_err, sq_err. f_equal; [f_equal; [|f_equal]|].
    + symmetry. apply rsum_ext. intros k Hk. apply (egt_ent2 (R := Rring) A A uzero uzero (fun f g => uinner f g)); auto.
    + apply rsum_ext. intros i Hi. rewrite (mat_entry _ _ _ i j RM) by lia. f_equal. apply rsum_ext. intros k Hk.
      unfold ent2, egt. rewrite (col_entry _ _ _ _ i k RA ltac:(lia) Hk).
      destruct (entry_some A k j Hw Hk Hj) as [f Hf]. now rewrite Hf.
    + apply rsum_ext. intros i Hi. apply rsum_ext. intros i' Hi'. rewrite (mat_entry _ _ _ i j RM), (mat_entry _ _ _ i' j RM) by lia. f_equal.
      apply rsum_ext. cbn [nr]. intros k Hk. unfold ent2. now rewrite (col_entry _ _ _ _ i k RA ltac:(lia) Hk), (col_entry _ _ _ _ i' k RA ltac:(lia) Hk).
Qed.

Theorem C36_householder_lq_partial {U : uops Rring} (W : vops U) zro orth uzero (A : qma U) (M : list R) :
  inner_laws W -> 0 < zro -> orth_ok orth uzero (nr A) -> qwf A -> (0 < nc A)%nat -> length M = (nr A * nr A)%nat ->
  exists Q M', householder_simple_lq W zro orth uzero A M = Ok (Q, M') /\
     is_lq (exact_at W zro (fun j => mat (nr A) M' j j)) A Q M M' /\
     (forall i, (i < nr A)%nat -> 0 <= mat (nr A) M' i i) /\
     forall j, (j < nr A)%nat -> lq_err A Q M' j <= 4 * Rmin (mat (nr A) M' j j * mat (nr A) M' j j) (4 * (zro * zro)).
Proof.
  intros LAW Hz Ho Hw Hc HM.
  destruct (house_family W zro orth uzero LAW (nr A) (nc A) 1 (nr A) (fun i j => i * nr A + j)%nat (lay_row _ _) (on_row _ _)
     (layout_col _ _) Hz (fs A) M _ _ Hc Ho (rep_of_row A uzero Hw) (rep_mat_t (nr A) M HM))
    as (Q0 & A' & M' & q & r & E0 & E & RA & RM & O & D & K & F & ER).
  exists (mkq (nr A) (nc A) A'), M'.
  split; [unfold householder_simple_lq, qmarray_orth1d_rows, qmarray_lq; rewrite E0; cbn [obind fs]; now rewrite E|]. split; [|split].
  - split; [split; [reflexivity|split; [reflexivity|]]; unfold qwf; cbn; rewrite (proj1 RA); lia|].
    split; [apply RM|]. split; [|split].
    + intros i j Hi Hj. unfold row_ip. cbn [nc]. etransitivity; [|exact (O i j Hi Hj)]. apply rsum_ext. intros k Hk.
      unfold ent2. now rewrite (row_entry _ _ _ _ i k RA Hi Hk), (row_entry _ _ _ _ j k RA Hj Hk).
    + intros i j Hij. rewrite (mat_entry_t _ _ _ i j RM) by lia. apply K; lia.
    + intros k j phi Hk Hj [Hphi Hd]. rewrite <- (egt_ent (R := Rring) A uzero phi j k Hw Hj Hk).
      rewrite (mat_entry_t _ _ _ j j RM) in Hd by lia.
      etransitivity; [apply (F phi Hphi k j Hk Hj Hd)|]. apply rsum_ext. intros i Hi.
      rewrite (mat_entry_t _ _ _ i j RM) by lia. unfold ent. now rewrite (row_entry _ _ _ _ i k RA ltac:(lia) Hk).
  - intros i Hi. rewrite (mat_entry_t _ _ _ i i RM) by lia. apply D; lia.
  - intros j Hj. rewrite (mat_entry_t _ _ _ j j RM) by lia. refine (Rle_trans _ _ _ (Req_le _ _ _) (ER j Hj)).
    unfold lq_err, sq_err. f_equal; [f_equal; [|f_equal]|].
    + symmetry. apply rsum_ext. intros k Hk. apply (egt_ent2 (R := Rring) A A uzero uzero (fun f g => uinner f g)); auto.
    + apply rsum_ext. intros i Hi. rewrite (mat_entry_t _ _ _ i j RM) by lia. f_equal. apply rsum_ext. intros k Hk.
      unfold ent2, egt. rewrite (row_entry _ _ _ _ i k RA ltac:(lia) Hk).
      destruct (entry_some A j k Hw Hj Hk) as [f Hf]. now rewrite Hf.
    + apply rsum_ext. intros i Hi. apply rsum_ext. intros i' Hi'. rewrite (mat_entry_t _ _ _ i j RM), (mat_entry_t _ _ _ i' j RM) by lia. f_equal.
      apply rsum_ext. cbn [nc]. intros k Hk. unfold ent2. now rewrite (row_entry _ _ _ _ i k RA ltac:(lia) Hk), (row_entry _ _ _ _ i' k RA ltac:(lia) Hk).
Qed.

(** ** Examples: lines x |-> a + b x with the inner product a a' + b b' *)
Definition lineU : uops Rring :=
  mkuops Rring (R * R) (fun f (x : Rring) => fst f + snd f * x : Rring) (fun _ => true) (fun f => fst f + snd f / 2)
    (fun f g => fst f * fst g + snd f * snd g)
    (fun f g => (fst f * fst g, fst f * snd g + snd f * fst g))
    (fun a f b g => match g with None => (a * fst f, a * snd f) | Some g => (a * fst f + b * fst g, a * snd f + b * snd g) end)
    (fold_right (fun (p : R * (R * R)) acc => (fst p * fst (snd p) + fst acc, fst p * snd (snd p) + snd acc)) (0, 0))
    (fun _ => (0, 0)) (fun f => (snd f, 0)).
Definition lineV : vops lineU :=
  mkvops lineU (fun a f => (a * fst f, a * snd f)) (fun a f g => (a * fst f + fst g, a * snd f + snd g))
    (fun f => (- fst f, - snd f)) (fun a f b g => (a * fst f + b * fst g, a * snd f + b * snd g)).
Definition line_orth (n : nat) : list lineU := firstn n [(1, 0); (0, 1)].

Lemma line_laws : inner_laws lineV.
Proof.
  split; [|split].
  - intros f g. cbn. ring.
  - intros [g1 g2]. split; [|split; [|split]]; intros; cbn; ring.
  - intros [f1 f2]. cbn. nra.
Qed.
Lemma line_fst : vlin lineV fst.
Proof. split; [|split; [|split]]; intros; cbn; ring. Qed.
Lemma line_orth_ok n : (n <= 2)%nat -> orth_ok line_orth ((0, 0) : lineU) n.
Proof.
  intros Hn. split; [|split].
  - destruct n as [|[|[|n]]]; try reflexivity. lia.
  - intros i j f g Hi Hj. destruct n as [|[|[|n]]]; [| | |lia].
    + destruct i; discriminate.
    + destruct i as [|[|]]; [|discriminate|discriminate]. destruct j as [|[|]]; [|discriminate|discriminate].
      injection Hi as <-. injection Hj as <-. cbn. unfold delta. cbn. ring.
    + destruct i as [|[|[|]]]; [| |discriminate|discriminate]; (destruct j as [|[|[|]]]; [| |discriminate|discriminate]);
        injection Hi as <-; injection Hj as <-; cbn; unfold delta; cbn; ring.
  - intros [f1 f2]. cbn. ring.
Qed.

(** Columns 3 + 4x and 5x are independent, 3 + 4x and 6 + 8x are not. *)
Definition lineA : qma lineU := mkq (U := lineU) 1 2 [(3, 4); (0, 5)].
Definition lineB : qma lineU := mkq (U := lineU) 1 2 [(3, 4); (6, 8)].

Example C35_qr_gs_example :
  exists Q M', qmarray_qr_gs lineV (1 / 10) lineA [0; 0; 0; 0] = Ok (Q, M') /\
    is_qr (fun _ phi => vlin lineV phi) lineA Q [0; 0; 0; 0] M'.
Proof.
  destruct (C35_qr_gs lineV (1 / 10) lineA [0; 0; 0; 0] line_laws) as [(_ & Q & M' & E & H & _)|(N & _)];
    try (cbn; lia); try lra; try reflexivity.
  - exists Q, M'. auto.
  - exfalso. apply N. intros [|[|j]] d Hj Hd; [| |cbn in Hj; lia]; cbn; rewrite Hd.
    + lra.
    + pose proof (Rle_0_sqr (5 * d 0%nat + 4)) as P. unfold Rsqr in P. lra.
Qed.
Example C35_qr_gs_abort_example : qmarray_qr_gs lineV (1 / 10) lineB [0; 0; 0; 0] = Abort.
Proof.
  destruct (C35_qr_gs lineV (1 / 10) lineB [0; 0; 0; 0] line_laws) as [(I & _)|(_ & E)];
    try (cbn; lia); try lra; try reflexivity; [|exact E].
  exfalso. specialize (I 1%nat (fun i => if (i =? 0)%nat then -2 else 1)). cbn in I.
  specialize (I ltac:(lia) eq_refl). lra.
Qed.
Example C35_lq_gs_example :
  exists Q M', qmarray_lq_gs lineV (1 / 10) (mkq (U := lineU) 1 2 [(3, 4); (0, 5)]) [0] = Ok (Q, M') /\
    is_lq (fun _ phi => vlin lineV phi) (mkq (U := lineU) 1 2 [(3, 4); (0, 5)]) Q [0] M'.
Proof.
  destruct (C35_lq_gs lineV (1 / 10) (mkq (U := lineU) 1 2 [(3, 4); (0, 5)]) [0] line_laws) as [(_ & Q & M' & E & H & _)|(N & _)];
    try (cbn; lia); try lra; try reflexivity.
  - exists Q, M'. auto.
  - exfalso. apply N. intros [|j] d Hj Hd; [|cbn in Hj; lia]; cbn; rewrite Hd. lra.
Qed.
Example C36_householder_example :
  exists Q M', householder_simple_qr lineV (1 / 10) line_orth (0, 0) lineB [0; 0; 0; 0] = Ok (Q, M') /\
    is_qr (exact_at lineV (1 / 10) (fun j => mat 2 M' j j)) lineB Q [0; 0; 0; 0] M'.
Proof.
  destruct (C36_householder_qr_partial lineV (1 / 10) line_orth (0, 0) lineB [0; 0; 0; 0] line_laws) as (Q & M' & E & H & _);
    try (cbn; lia); try lra; try reflexivity.
  - apply line_orth_ok. cbn. lia.
  - exists Q, M'. auto.
Qed.

(** The full claim is false of the code: a column shorter than ZERO that points along the
    starting function is returned with the wrong sign. *)
Theorem C36_householder_qr_refuted :
  exists (U : uops Rring) (W : vops U) zro orth uzero (A Q : qma U) M',
    inner_laws W /\ 0 < zro /\ orth_ok orth uzero (nc A) /\ qwf A /\ (0 < nr A)%nat /\
    householder_simple_qr W zro orth uzero A (repeat 0 (nc A * nc A)) = Ok (Q, M') /\
    exists phi, vlin W phi /\
      ent (R := Rring) phi A 0 0 <> rsum 1 (fun i => mat (nc A) M' i 0 * ent (R := Rring) phi Q 0 i).
Proof.
  set (A := mkq (U := lineU) 1 1 [(1 / 2, 0)]).
  assert (Hw : qwf A) by reflexivity.
  pose proof (line_orth_ok 1 ltac:(lia)) as Ho.
  destruct (orth1d_rep lineV line_orth (0, 0) line_laws 1 1 1 1 (lay_col 1 1) (on_col 1 1) ltac:(lia) Ho) as (Q0 & E0 & RQ).
  assert (RA : rep 1 1 (fun i k => i * 1 + k * 1)%nat 1 (fs A) (fun _ _ => (1 / 2, 0) : lineU)).
  { split; [reflexivity|]. intros i k Hi Hk. assert (i = 0%nat) as -> by lia. assert (k = 0%nat) as -> by lia. reflexivity. }
  destruct (householder_ok lineV 1 line_laws 1 1 1 1 1 (lay_col 1 1) (fun i j => j * 1 + i)%nat (layout_row 1 1) eq_refl (on_col 1 1)
     (fs A) Q0 [0] (fun _ _ => (1 / 2, 0)) _ (mat 1 [0]) (fun _ _ => (0, 0)) RA RQ (rep_mat 1 [0] eq_refl))
    as (Q' & M' & E & R1 & R2).
  exists lineU, lineV, 1, line_orth, (0, 0), A, (mkq 1 1 Q'), M'.
  split; [exact line_laws|]. split; [lra|]. split; [exact Ho|]. split; [exact Hw|]. split; [cbn; lia|].
  split.
  { unfold householder_simple_qr, qmarray_orth1d_columns, qmarray_qr. 
    change (nc A) with 1%nat. change (nr A) with 1%nat. rewrite E0. cbn [obind].
    etransitivity; [exact (f_equal (fun z => do (f, M) <- z; Ok (mkq 1 1 f, M)) E)|reflexivity]. }
  exists fst. split; [exact line_fst|].
  cbn [rsum]. change (nc A) with 1%nat. rewrite (mat_entry _ _ _ 0 0 R2) by lia.
  unfold ent at 2. rewrite (col_entry _ _ _ _ 0 0 R1) by lia.
  unfold ent. cbn [entry A fs nth_error Nat.mul Nat.add fst].
  cbn [hrun]. unfold hstep, hQ. cbn [hA hE hV hR prefl Nat.eqb].
  rewrite !updf_eq.
  set (st := start line_orth ((0, 0) : lineU) 1 1 0).
  assert (Hst : st 0%nat = (1, 0)) by reflexivity.
  set (a := fun _ : nat => (1 / 2, 0) : lineU).
  assert (Haa : IP 1 a a = 1 / 2 * (1 / 2)) by (unfold IP, a; cbn; lra).
  assert (Hea : IP 1 st a = 1 / 2) by (unfold IP; cbn [rsum]; rewrite Hst; cbn; lra).
  rewrite Haa, sqrt_square by lra.
  assert (He : hsign vec (Flip lineV) 1 (IP 1 st a) st = st).
  { unfold hsign. rewrite Hea, Rabs_right by lra. destruct (Rltb_spec (1 / 2) 1); [reflexivity|lra]. }
  rewrite He. unfold horth.
  set (w := Wsum lineV (1 / 2) st (-1) a).
  assert (Hww : IP 1 w w = 0).
  { unfold IP. cbn [rsum]. unfold w, Wsum. rewrite Hst. unfold a. cbn. lra. }
  assert (Hu : hunit vec (IP 1) (Scale lineV) 1 st w = st).
  { unfold hunit. rewrite Hww, sqrt_0, Rabs_R0. destruct (Rltb_spec 0 1); [reflexivity|lra]. }
  rewrite Hu. unfold refl, Axpy.
  assert (Hss : IP 1 st st = 1) by (unfold IP; cbn [rsum]; rewrite Hst; cbn; lra).
  rewrite Hss, Hst. cbn. lra.
Qed.

Print Assumptions C35_qr_gs.
Print Assumptions C35_lq_gs.
Print Assumptions C36_householder_qr_partial.
Print Assumptions C36_householder_lq_partial.
Print Assumptions C36_householder_qr_refuted.
