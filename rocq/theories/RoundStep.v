(** One truncation of the model is a [step]. *)
From Coq Require Import Reals Lra.
From Verif Require Import BlasFacts Fill.
From Verif Require Export RoundSweep.
Open Scope R_scope.

(** ** Small routines *)
Lemma diag_ok N arr : (N <= length arr)%nat ->
  exists l, diag N arr = Ok l /\ length l = (N * N)%nat /\
    forall i j, (i < N)%nat -> (j < N)%nat -> nth_error l (j * N + i) = Some (if (i =? j)%nat then nth i arr 0 else 0).
Proof.
  intros HN. unfold diag.
  destruct (for_inv (fun c (p : list R) => length p = (N * N)%nat /\
      forall i j, (i < N)%nat -> (j < N)%nat ->
        nth_error p (j * N + i) = Some (if (i =? j)%nat && (i <? c)%nat then nth i arr 0 else 0))
      (fun ii p => do x <- aget arr ii; aset p (ii * N + ii)%nat x) N (repeat 0 (N * N)%nat)) as (p & E & L & H).
  - split; [apply repeat_length|]. intros i j Hi Hj. rewrite andb_false_r. apply nth_error_repeat. nia.
  - intros c p Hc [L H]. rewrite (aget_ok _ c (nth c arr 0)) by (apply nth_error_nth'; lia). cbn [obind].
    rewrite aset_ok by nia. eexists. split; [reflexivity|]. split; [now rewrite upd_length|].
    intros i j Hi Hj. destruct (Nat.eq_dec i c) as [->|Ni].
    + destruct (Nat.eq_dec j c) as [->|Nj].
      * rewrite nth_error_upd_same by nia. rewrite Nat.eqb_refl. rewrite (proj2 (Nat.ltb_lt c (S c))) by lia. reflexivity.
      * rewrite nth_error_upd_other by nia. rewrite H by auto. rewrite (proj2 (Nat.eqb_neq c j)) by lia. reflexivity.
    + rewrite nth_error_upd_other.
      2:{ intros Heq. apply Ni. apply (f_equal (fun q => q mod N)%nat) in Heq. rewrite !idx_mod in Heq by lia. congruence. }
      rewrite H by auto. do 3 f_equal. destruct (Nat.ltb_spec i c), (Nat.ltb_spec i (S c)); auto; lia.
  - exists p. split; [exact E|]. split; [exact L|]. intros i j Hi Hj. rewrite H by auto. rewrite (proj2 (Nat.ltb_lt i N)) by auto. now rewrite andb_true_r.
Qed.

Lemma first_cols_ok {U : uops Rring} (q : qma U) k : qwf q -> (k <= nc q)%nat ->
  exists c, qmarray_first_cols q k = Ok c /\ nr c = nr q /\ nc c = k /\ qwf c /\
    forall i j, (i < nr q)%nat -> (j < k)%nat -> entry c i j = entry q i j.
Proof.
  intros Hw Hk. unfold qmarray_first_cols. rewrite (proj2 (Nat.leb_le k (nc q))) by auto. cbn [cassert obind].
  destruct (Nat.eq_dec (nr q * k) 0) as [Z|NZ].
  { rewrite Z. cbn. eexists. split; [reflexivity|]. cbn. split; [reflexivity|]. split; [reflexivity|].
    split; [unfold qwf; cbn; lia|]. intros i j Hi Hj. nia. }
  assert (Hs : exists u0 : U, True). { destruct (nth_error (fs q) 0) as [u|] eqn:E; [now exists u|]. apply nth_error_None in E. rewrite Hw in E. nia. }
  destruct Hs as [u0 _].
  assert (E : for_ (nr q * k)%nat (fun ii f => do g <- aget (fs q) ii; aset f ii (Some g)) (slots (nr q * k)%nat)
     = Ok (tab (nr q * k)%nat (fun ii => Some (nth ii (fs q) u0)))).
  { etransitivity; [|apply (fill1_all (fun ii => Some (nth ii (fs q) u0))); symmetry; apply repeat_length].
    apply for_ext. intros i s Hi. rewrite (aget_ok _ i (nth i (fs q) u0)); [reflexivity|].
    apply nth_error_nth'. rewrite Hw. nia. }
  rewrite E. cbn [obind]. rewrite freeze_tab. cbn [obind].
  eexists. split; [reflexivity|]. cbn [nr nc]. split; [reflexivity|]. split; [reflexivity|].
  split; [unfold qwf; cbn; now rewrite tab_length|].
  intros i j Hi Hj. unfold entry. cbn [nr fs]. rewrite nth_error_tab by nia. symmetry. apply nth_error_nth'. rewrite Hw. nia.
Qed.

Lemma cap_vt_ok ncols mx rank (vt : list R) : (mx <= rank)%nat -> length vt = (rank * ncols)%nat ->
  exists v, for_ ncols (fun jj v => for_ mx (fun ii v => do x <- aget vt (jj * rank + ii)%nat; aset v (jj * mx + ii)%nat x) v)
              (repeat 0 (mx * ncols)%nat) = Ok v /\
    length v = (mx * ncols)%nat /\
    forall k j, (k < mx)%nat -> (j < ncols)%nat -> cm mx v k j = cm rank vt k j.
Proof.
  intros Hm HL.
  exists (tab (ncols * mx) (fun q => cm rank vt (q mod mx) (q / mx))). split; [|split].
  - apply (fill2 (fun j i => cm rank vt i j) ncols mx).
    + rewrite repeat_length. lia.
    + intros j i l Hj Hi _. rewrite (aget_ok _ (j * rank + i) (cm rank vt i j)); [reflexivity|].
      apply nth_error_nth'. rewrite HL. nia.
  - rewrite tab_length. lia.
  - intros k j Hk Hj. unfold cm at 1. erewrite nth_error_nth; [reflexivity|].
    rewrite nth_error_tab by nia. now rewrite idx_mod, idx_div.
Qed.

(** ** The assumptions on the external parts *)
(** Either the routine answers correctly or the run stops there ([fail] records that
    stopping is possible at all). *)
Definition svd_law (N : nat) (fail : Prop) (svdf : nat -> nat -> list R -> outcome (list R * list R * list R)) : Prop :=
  forall n a, (0 < n <= N)%nat -> length a = (n * n)%nat ->
    (exists u s vt, svdf n n a = Ok (u, s, vt) /\ svd_spec n n a u s vt) \/ (svdf n n a = Abort /\ fail).
Definition qr_law {U : uops Rring} (P : (U -> R) -> Prop) (N : nat) (fail : Prop)
    (qr : nat -> qma U -> list R -> outcome (qma U * list R)) : Prop :=
  forall core A, qwf A -> (0 < nr A)%nat -> (0 < nc A <= N)%nat ->
    (exists Q M, qr core A (repeat 0 (nc A * nc A)) = Ok (Q, M) /\ is_qr (fun _ => P) A Q (repeat 0 (nc A * nc A)%nat) M)
    \/ (qr core A (repeat 0 (nc A * nc A)) = Abort /\ fail).
Definition lq_law {U : uops Rring} (P : (U -> R) -> Prop) (N : nat) (fail : Prop)
    (lq : nat -> qma U -> list R -> outcome (qma U * list R)) : Prop :=
  forall core A, qwf A -> (0 < nr A <= N)%nat -> (0 < nc A)%nat ->
    (exists Q M, lq core A (repeat 0 (nr A * nr A)) = Ok (Q, M) /\ is_lq (fun _ => P) A Q (repeat 0 (nr A * nr A)%nat) M)
    \/ (lq core A (repeat 0 (nr A * nr A)) = Abort /\ fail).

Lemma mat_zeros n i j : mat n (repeat 0 (n * n)) i j = 0.
Proof. unfold mat. destruct (Nat.lt_ge_cases (j * n + i) (n * n)); [now apply nth_repeat|]. apply nth_overflow. rewrite repeat_length. auto. Qed.
Lemma rsum_extend m n f : (m <= n)%nat -> (forall i, (m <= i < n)%nat -> f i = 0) -> rsum m f = rsum n f.
Proof.
  intros H Hz. replace n with (m + (n - m))%nat by lia. rewrite rsum_split.
  rewrite (rsum_zero (n - m)) by (intros; apply Hz; lia). lra.
Qed.

Section Step.
  Context {U : uops Rring} (P : (U -> R) -> Prop).
  Hypothesis Pin : forall g : U, P (fun f => (uinner f g : R)).
  Hypothesis Plin : forall phi, P phi -> linfun (R := Rring) phi.
  Hypothesis Sym : forall f g : U, (uinner f g : R) = uinner g f.
  Notation e2 := (ent2 (R := Rring) (fun f g : U => uinner f g)).
  Notation en := (ent (R := Rring)).

  Lemma qr_rmul A Q M : is_qr (fun _ => P) A Q (repeat 0 (nc A * nc A)%nat) M -> rmul P A Q (mat (nc A) M).
  Proof.
    intros ((E1 & E2 & Hw) & L & _ & Z & F) phi i j Hp Hi Hj. rewrite (F i j phi Hi Hj Hp), E2.
    apply rsum_extend; [lia|]. intros k Hk. rewrite Z by lia. rewrite mat_zeros. ring.
  Qed.
  Lemma lq_lmul A Q M : is_lq (fun _ => P) A Q (repeat 0 (nr A * nr A)%nat) M -> lmul P A (mat (nr A) M) Q.
  Proof.
    intros ((E1 & E2 & Hw) & L & _ & Z & F) phi i j Hp Hi Hj. rewrite (F j i phi Hj Hi Hp), E1.
    apply rsum_extend; [lia|]. intros k Hk. rewrite Z by lia. rewrite mat_zeros. ring.
  Qed.

  Lemma qmam_rmul (Q : qma U) M b : qwf Q -> (0 < nc Q)%nat -> length M = (nc Q * b)%nat ->
    exists c, qmam Q M b = Ok c /\ nr c = nr Q /\ nc c = b /\ qwf c /\ rmul P c Q (cm (nc Q) M).
  Proof.
    intros Hw Hp HM. destruct (qmam_ok Q M b (cm (nc Q) M) Hw Hp) as (c & E & E1 & E2 & Hc & F).
    { intros k i Hk Hi. apply nth_error_nth'. cbn in HM |- *. rewrite HM. nia. }
    exists c. split; [exact E|]. split; [exact E1|]. split; [exact E2|]. split; [exact Hc|].
    intros phi i j Hphi Hi Hj. destruct (F i j ltac:(lia) ltac:(lia)) as (u & Eu & Fu).
    unfold ent at 1. rewrite Eu. rewrite rsum_sum. exact (Fu phi (Plin phi Hphi)).
  Qed.
  Lemma mqma_lmul (Q : qma U) M b (mf : nat -> nat -> R) : qwf Q -> (0 < nr Q)%nat ->
    (forall i k, (i < b)%nat -> (k < nr Q)%nat -> nth_error M (k * b + i) = Some (mf i k)) ->
    exists c, mqma (U := U) M Q b = Ok c /\ nr c = b /\ nc c = nc Q /\ qwf c /\ lmul P c mf Q.
  Proof.
    intros Hw Hp HM. destruct (mqma_ok Q M b mf Hw Hp HM) as (c & E & E1 & E2 & Hc & F).
    exists c. split; [exact E|]. split; [exact E1|]. split; [exact E2|]. split; [exact Hc|].
    intros phi i j Hphi Hi Hj. destruct (F i j ltac:(lia) ltac:(lia)) as (u & Eu & Fu).
    unfold ent at 1. rewrite Eu. rewrite rsum_sum. exact (Fu phi (Plin phi Hphi)).
  Qed.

  Lemma col_ip_mul B B' Q M M' a b : rmul P B Q M -> rmul P B' Q M' -> col_orth Q ->
    nr B = nr Q -> nr B' = nr Q -> (a < nc B)%nat -> (b < nc B')%nat ->
    col_ip2 B a B' b = rsum (nc Q) (fun p => M p a * M' p b).
  Proof.
    intros H H' O E E' Ha Hb. unfold col_ip2. rewrite E.
    transitivity (rsum (nr Q) (fun k => rsum (nc Q) (fun p => rsum (nc Q) (fun q => M p a * M' q b * e2 Q k p Q k q)))).
    - apply rsum_ext. intros k Hk. rewrite (rmul_e2 P Pin B Q M B' k a k b H) by lia. apply rsum_ext. intros p _.
      rewrite e2_sym by exact Sym. rewrite (rmul_e2 P Pin B' Q M' Q k b k p H') by lia. rewrite <- rsum_scal. apply rsum_ext. intros q _.
      rewrite (e2_sym Sym Q k q Q k p). ring.
    - rewrite rsum_swap. apply rsum_ext. intros p Hp. rewrite rsum_swap.
      transitivity (rsum (nc Q) (fun q => (if (q =? p)%nat then 1 else 0) * (M p a * M' q b))); [|now apply delta_sum].
      apply rsum_ext. intros q Hq. rewrite rsum_scal. change (rsum (nr Q) _) with (col_ip Q p q). rewrite (O p q Hp Hq).
      rewrite Nat.eqb_sym. ring.
  Qed.

  (** Parseval for the columns of [u]. *)
  Lemma parseval m n (u : nat -> nat -> R) (c d : nat -> R) : 
    (forall k l, (k < n)%nat -> (l < n)%nat -> rsum m (fun p => u p k * u p l) = if (k =? l)%nat then 1 else 0) ->
    rsum m (fun p => rsum n (fun k => u p k * c k) * rsum n (fun k => u p k * d k)) = rsum n (fun k => c k * d k).
  Proof.
    intros O.
    transitivity (rsum m (fun p => rsum n (fun k => rsum n (fun l => c k * d l * (u p k * u p l))))).
    - apply rsum_ext. intros p _. rewrite rsum_rsum_mul. apply rsum_ext. intros k _. apply rsum_ext. intros l _. ring.
    - rewrite rsum_swap. apply rsum_ext. intros k Hk. rewrite rsum_swap.
      transitivity (rsum n (fun l => (if (l =? k)%nat then 1 else 0) * (c k * d l))); [|now apply delta_sum].
      apply rsum_ext. intros l Hl. rewrite rsum_scal, O by auto. rewrite Nat.eqb_sym. ring.
  Qed.

  Context (svdf : nat -> nat -> list R -> outcome (list R * list R * list R))
          (qr : nat -> qma U -> list R -> outcome (qma U * list R)) (N : nat) (fail : Prop).
  Hypothesis Hsvd : svd_law N fail svdf.

  Definition rank_rule (cap : option nat) (delta : R) (n rank : nat) (w : nat -> R) : Prop :=
    (((rank = n \/ dropped n rank w < delta) /\ (rank = 1%nat \/ delta <= dropped n (rank - 1) w)) \/ cap = Some rank) /\
    forall mx, cap = Some mx -> (rank <= mx)%nat.

  Lemma round_step_ok cap delta core A G sizer :
    qwf A -> (0 < nr A)%nat -> (0 < nc A <= N)%nat -> sizer = nc A ->
    qwf G -> nr G = nc A -> (forall mx, cap = Some mx -> (0 < mx)%nat) ->
    ((exists Q M, qr core A (repeat 0 (nc A * nc A)) = Ok (Q, M) /\ is_qr (fun _ => P) A Q (repeat 0 (nc A * nc A)%nat) M)
     \/ (qr core A (repeat 0 (nc A * nc A)) = Abort /\ fail)) ->
    (exists rank Ua temp w V, round_step svdf qr cap delta core A (Ok G) sizer = Ok (rank, Ua, temp) /\
       step P A G rank Ua temp w V /\ rank_rule cap delta (nc A) rank w) \/
    (round_step svdf qr cap delta core A (Ok G) sizer = Abort /\ fail).
  Proof.
    intros HwA HrA HcA -> HwG HrG Hcap Hq. set (n := nc A) in *.
    unfold round_step, qmarray_truncated_svd. fold n.
    destruct Hq as [(Q & M & EQ & IQ)|[EQ Fl]]; fold n in EQ; rewrite EQ; cbn [obind]; [|right; auto].
    pose proof (qr_rmul A Q M IQ) as RA. destruct IQ as ((Q1 & Q2 & Hw) & LM & QO & _). fold n in Q2, LM, QO, RA.
    destruct (Hsvd n M ltac:(lia) LM) as [(u & s & vt & Es & Sp)|[Es Fl]].
    2:{ right. unfold truncated_svd. rewrite Es. cbn [obind]. auto. }
    left.
    destruct (truncated_svd_ok svdf n n M delta u s vt ltac:(lia) ltac:(lia) Es Sp)
      as (r & u' & s' & vt' & Et & B & D1 & D2 & L1 & L2 & L3 & U1 & S1 & V1).
    rewrite Nat.min_id in B, D1, D2. rewrite Et. cbn [obind].
    assert (HQO : col_orth Q). { intros i j Hi Hj. rewrite Q2 in Hi, Hj. auto. }
    destruct (qmam_rmul Q u' r Hw ltac:(lia)) as (Ua & EU & Ur & Uc & HwU & RU). { rewrite Q2. exact L1. }
    rewrite EU. cbn [obind].
    destruct Sp as (SL1 & SL2 & SL3 & SO1 & SO2 & SF). rewrite Nat.min_id in SL2, SF.
    set (w := fun k => nth k s 0). set (V := cm n vt).
    change (tailsq n s r) with (dropped n r w) in D1. change (tailsq n s (r - 1)) with (dropped n (r - 1) w) in D2.
    assert (RU' : rmul P Ua Q (cm n u)).
    { intros phi i j Hp Hi Hj. rewrite (RU phi i j Hp Hi Hj), Q2. apply rsum_ext. intros k Hk. rewrite U1 by lia. reflexivity. }
    assert (HC : exists r2 Ua2 vt2, cap_rank cap n r Ua vt' = Ok (r2, Ua2, vt2) /\ (1 <= r2 <= r)%nat /\
       qwf Ua2 /\ nr Ua2 = nr Q /\ nc Ua2 = r2 /\ rmul P Ua2 Q (cm n u) /\
       length vt2 = (r2 * n)%nat /\ (forall k j, (k < r2)%nat -> (j < n)%nat -> cm r2 vt2 k j = V k j) /\
       rank_rule cap delta n r2 w).
    { destruct cap as [mx|]; cbn [cap_rank].
      - specialize (Hcap mx eq_refl). destruct (Nat.ltb_spec mx r) as [Hlt|Hge].
        + destruct (first_cols_ok Ua mx HwU ltac:(lia)) as (c & Ec & C1 & C2 & C3 & C4). rewrite Ec. cbn [obind].
          destruct (cap_vt_ok n mx r vt' ltac:(lia) L3) as (v & Ev & Lv & Hv). rewrite Ev. cbn [obind].
          exists mx, c, v. split; [reflexivity|]. split; [lia|]. split; [exact C3|]. split; [congruence|]. split; [exact C2|].
          split; [|split; [exact Lv|split]].
          * intros phi i j Hp Hi Hj. rewrite C1, C2 in *. rewrite <- (RU' phi i j Hp Hi ltac:(lia)).
            unfold ent. now rewrite C4.
          * intros k j Hk Hj. rewrite Hv by auto. rewrite V1 by lia. reflexivity.
          * split; [right; reflexivity|]. intros m0 Hm0. injection Hm0 as <-. lia.
        + exists r, Ua, vt'. split; [reflexivity|]. split; [lia|]. split; [exact HwU|]. split; [exact Ur|]. split; [exact Uc|].
          split; [exact RU'|]. split; [exact L3|]. split; [exact V1|].
          split; [left; auto|]. intros m0 Hm0. injection Hm0 as <-. lia.
      - exists r, Ua, vt'. split; [reflexivity|]. split; [lia|]. split; [exact HwU|]. split; [exact Ur|]. split; [exact Uc|].
          split; [exact RU'|]. split; [exact L3|]. split; [exact V1|].
          split; [left; auto|]. discriminate. }
    destruct HC as (r2 & Ua2 & vt2 & EC & B2 & HwU2 & Ur2 & Uc2 & RU2 & Lv2 & V2 & RR).
    rewrite EC. cbn [obind].
    destruct (diag_ok r2 s' ltac:(lia)) as (sd & Ed & Ld & Hd). rewrite Ed. cbn [obind].
    rewrite (dgemm_nn_ok (R := Rring) r2 n r2 sd r2 vt2 r2 (repeat 0 (r2 * n)%nat) r2
       (fun i l => if (i =? l)%nat then nth i s' 0 else 0) (cm r2 vt2)); auto.
    2:{ intros l j Hl Hj. apply nth_error_nth'. rewrite Lv2. nia. }
    2:{ rewrite repeat_length. lia. }
    cbn [obind].
    match goal with |- context [mqma ?L G r2] => destruct (mqma_lmul G L r2
        (fun b a => w b * V b a) HwG ltac:(lia)) as (temp & ET & T1 & T2 & HwT & RT) end.
    { intros i k Hi Hk. rewrite HrG in Hk. rewrite nth_error_tab by nia. f_equal. rewrite idx_mod, idx_div by auto.
      rewrite <- rsum_sum. cbn. rewrite (rsum_single r2 _ i Hi).
      - rewrite Nat.eqb_refl, S1, V2 by lia. reflexivity.
      - intros l Hl Hne. rewrite (proj2 (Nat.eqb_neq i l)) by auto. ring. }
    rewrite ET. cbn [obind].
    exists r2, Ua2, temp, w, V. split; [reflexivity|]. split; [|exact RR].
    assert (MU : forall b p, (b < n)%nat -> (p < n)%nat -> cm n u p b = rsum n (fun k => cm n u p k * (if (k =? b)%nat then 1 else 0))).
    { intros b p Hb Hp. rewrite (rsum_single n _ b Hb); [rewrite Nat.eqb_refl; ring|].
      intros k Hk Hne. rewrite (proj2 (Nat.eqb_neq k b)) by auto. ring. }
    assert (MA : forall a p, (a < n)%nat -> (p < n)%nat -> mat n M p a = rsum n (fun k => cm n u p k * (w k * V k a))).
    { intros a p Ha Hp. change (mat n M p a) with (cm n M p a). rewrite SF by auto. apply rsum_ext. intros; unfold w, V; ring. }
    constructor; auto; try congruence; try lia.
    - intros a b Ha Hb. rewrite (col_ip_mul A A Q _ _ a b RA RA HQO (eq_sym Q1) (eq_sym Q1) Ha Hb). rewrite Q2.
      etransitivity; [|etransitivity; [exact (parseval n n (cm n u) (fun k => w k * V k a) (fun k => w k * V k b) SO1)|]].
      + apply rsum_ext. intros p Hp. now rewrite !MA.
      + apply rsum_ext. intros; ring.
    - intros a b Ha Hb. rewrite (col_ip_mul A Ua2 Q _ _ a b RA RU2 HQO (eq_sym Q1)) by lia. rewrite Q2.
      etransitivity; [|etransitivity; [exact (parseval n n (cm n u) (fun k => w k * V k a) (fun k => if (k =? b)%nat then 1 else 0) SO1)|]].
      + apply rsum_ext. intros p Hp. rewrite MA by auto. now rewrite <- (MU b p) by lia.
      + rewrite (rsum_ext _ _ (fun k => (if (k =? b)%nat then 1 else 0) * (w k * V k a))) by (intros; ring). apply delta_sum. lia.
    - intros a b Ha Hb. change (col_ip Ua2 a b) with (col_ip2 Ua2 a Ua2 b).
      rewrite (col_ip_mul Ua2 Ua2 Q _ _ a b RU2 RU2 HQO) by lia. rewrite Q2. apply SO1; lia.
  Qed.
End Step.
