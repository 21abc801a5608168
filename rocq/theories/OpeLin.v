(** Rounding, sums and multiples of expansions. *)
From Coq Require Import Reals Lra Lia List.
From Verif Require Import Base BaseFacts FOps FFTCheb QuadFacts OpeModel OpeSpec LegFacts HermFacts OpeBasis OpeFacts.
Local Open Scope R_scope.

(** coefficient [k], zero beyond the last *)
Definition coz (p : ope) (k : nat) : R := if (k <? o_n p)%nat then nth k (o_c p) 0 else 0.
Definition same_shape (p q : ope) : Prop := o_t p = o_t q /\ o_lb p = o_lb q /\ o_ub p = o_ub q /\ o_map p = o_map q /\ o_kr p = o_kr q.
Definition ope_wf (p : ope) : Prop := (1 <= o_n p <= o_alloc p)%nat /\ o_alloc p = length (o_c p).
Lemma ope_wf_ok p : ope_wf p -> ope_ok p. Proof. unfold ope_wf, ope_ok. lia. Qed.

Lemma ope_fun_coz p N x : (o_n p <= N)%nat -> ope_fun p x = rs N (fun k => coz p k * phi (o_t p) k (map_to (o_map p) x)).
Proof.
  intros H. unfold ope_fun. induction H as [|N H IH].
  - apply rs_ext. intros k Hk. unfold coz, co. destruct (Nat.ltb_spec k (o_n p)); [reflexivity|lia].
  - cbn [rs]. rewrite <- IH. unfold coz. destruct (Nat.ltb_spec N (o_n p)); [lia|ring].
Qed.
Lemma rs_le n f g : (forall k, (k < n)%nat -> f k <= g k) -> rs n f <= rs n g.
Proof. intros H. induction n as [|n IH]; [cbn; lra|]. cbn [rs]. assert (rs n f <= rs n g) by (apply IH; intros; apply H; lia). specialize (H n ltac:(lia)). lra. Qed.
Lemma rs_abs n f : Rabs (rs n f) <= rs n (fun k => Rabs (f k)).
Proof. induction n as [|n IH]; [cbn; rewrite Rabs_R0; lra|]. cbn [rs]. eapply Rle_trans; [apply Rabs_triang|]. lra. Qed.
(** coefficients that differ little make functions that differ little *)
Lemma ope_fun_close p (f : nat -> R) e N x : (o_n p <= N)%nat -> (forall k, Rabs (coz p k - f k) <= e) ->
  Rabs (ope_fun p x - rs N (fun k => f k * phi (o_t p) k (map_to (o_map p) x))) <= e * rs N (fun k => Rabs (phi (o_t p) k (map_to (o_map p) x))).
Proof.
  intros HN H. rewrite (ope_fun_coz p N) by auto. set (ph := fun k => phi (o_t p) k (map_to (o_map p) x)).
  replace (rs N (fun k => coz p k * phi (o_t p) k (map_to (o_map p) x)) - rs N (fun k => f k * phi (o_t p) k (map_to (o_map p) x)))
    with (rs N (fun k => (coz p k - f k) * ph k)).
  2:{ rewrite (rs_ext N _ (fun k => coz p k * ph k + -1 * (f k * ph k))) by (intros; ring). rewrite rs_add, rs_scal. unfold ph. ring. }
  eapply Rle_trans; [apply rs_abs|]. rewrite <- rs_scal. apply rs_le. intros k _. rewrite Rabs_mult. apply Rmult_le_compat_r; [apply Rabs_pos|apply H].
Qed.

Section Lin.
  Context (zt eps : R) (Hzt : 0 < zt) (Heps : 0 < eps).

  Lemma Rltb_t a b : a < b -> Rltb a b = true. Proof. destruct (Rltb_spec a b); auto; lra. Qed.
  Lemma Rltb_f a b : b <= a -> Rltb a b = false. Proof. destruct (Rltb_spec a b); auto; lra. Qed.

  Lemma maxloop (c : list R) n : (1 <= n <= length c)%nat ->
    exists m, for_from 1 (n - 1) (fun ii mx => do v <- aget c ii; Ok (if Rltb mx (Rabs v) then Rabs v else mx)) (Rabs (nth 0 c 0)) = Ok m /\
      (forall k, (k < n)%nat -> Rabs (nth k c 0) <= m) /\ (exists k, (k < n)%nat /\ m = Rabs (nth k c 0)).
  Proof.
    intros Hn.
    match goal with |- context [for_from 1 ?k9 ?b9 ?s9] => destruct (for_from_inv (fun i m => (forall k, (k < i)%nat -> Rabs (nth k c 0) <= m) /\ (exists k, (k < i)%nat /\ m = Rabs (nth k c 0))) b9 1 k9 s9) as (m & E & A & B) end.
    - split; [intros k Hk; replace k with 0%nat by lia; lra|exists 0%nat; split; [lia|reflexivity]].
    - intros i m Hi [A B]. rewrite aget_nth by lia. cbn [obind]. eexists. split; [reflexivity|]. destruct (Rltb_spec m (Rabs (nth i c 0))).
      + split; [|exists i; split; [lia|reflexivity]]. intros k Hk. destruct (Nat.eq_dec k i) as [->|]; [lra|]. specialize (A k ltac:(lia)). lra.
      + split; [|destruct B as (k & Hk & B); exists k; split; [lia|auto]]. intros k Hk. destruct (Nat.eq_dec k i) as [->|]; [lra|]. apply A. lia.
    - exists m. replace (1 + (n - 1))%nat with n in * by lia. auto.
  Qed.

  Lemma upd_self (c : list R) i : (i < length c)%nat -> upd c i (nth i c 0) = c.
  Proof.
    intros Hi. apply nth_ext with (d := 0) (d' := 0); [apply upd_length|]. intros j Hj. rewrite nth_upd by auto. destruct (Nat.eqb_spec j i) as [->|]; auto.
  Qed.
  (** [trim] of round *)
  Lemma trim_ok (c : list R) n : (n <= length c)%nat ->
    exists e, (fix trim e := match e with
        | O => Ok O
        | S e' => do v <- aget c e'; if Rltb (Rabs v) zt then trim e' else Ok e
        end) n = Ok e /\ (e <= n)%nat /\ forall k, (e <= k < n)%nat -> Rabs (nth k c 0) < zt.
  Proof.
    induction n as [|n IH]; intros Hn; [exists 0%nat; repeat split; auto; lia|].
    rewrite aget_nth by lia. cbn [obind]. destruct (Rltb_spec (Rabs (nth n c 0)) zt) as [L|L].
    - destruct IH as (e & E & He & H); [lia|]. exists e. split; [exact E|]. split; [lia|]. intros k Hk.
      destruct (Nat.eq_dec k n) as [->|]; [auto|apply H; lia].
    - exists (S n). split; [reflexivity|]. split; [lia|]. intros; lia.
  Qed.

  Definition thr (p : ope) (M : R) : R := zt * Rmax 1 (INR (o_n p) * M).

  (** Rounding keeps each coefficient or makes it zero. *)
  Lemma round_ok p M : ope_ok p -> (forall k, (k < o_n p)%nat -> Rabs (nth k (o_c p) 0) <= M) ->
    exists q, ope_round zt p = Ok q /\ same_shape p q /\ (1 <= o_n q <= o_n p)%nat /\ o_alloc q = o_alloc p /\ length (o_c q) = length (o_c p) /\
      forall k, coz q k = coz p k \/ (coz q k = 0 /\ Rabs (coz p k) < thr p M).
  Proof.
    intros [Hn HL] HM. unfold ope_round. rewrite aget_nth by lia. cbn [obind].
    destruct (maxloop (o_c p) (o_n p)) as (m & Em & Hm & k0 & Hk0 & Ek0); [lia|]. rewrite Em. cbn [obind].
    assert (Mm : m <= M) by (rewrite Ek0; now apply HM). assert (M0 : 0 <= m) by (rewrite Ek0; apply Rabs_pos).
    set (mx := m * INR (o_n p)). assert (Nn : 0 < INR (o_n p)) by (apply lt_0_INR; lia).
    assert (Hmx : 0 <= mx <= INR (o_n p) * M) by (unfold mx; split; [apply Rmult_le_pos; lra|rewrite Rmult_comm; apply Rmult_le_compat_l; lra]).
    set (F := fun v => if Rltb (Rabs v) zt then 0 else if (if Req_EM_T mx 0 then false else Rltb (Rabs v / mx) zt) then 0 else v).
    assert (HF : forall v, F v = v \/ (F v = 0 /\ Rabs v < thr p M)).
    { intros v. unfold F, thr. assert (A1 := Rmax_l 1 (INR (o_n p) * M)). assert (A2 := Rmax_r 1 (INR (o_n p) * M)).
      destruct (Rltb_spec (Rabs v) zt) as [L|L]; [right; split; auto; nra|].
      destruct (Req_EM_T mx 0) as [Z|Z]; [auto|]. destruct (Rltb_spec (Rabs v / mx) zt) as [L2|L2]; [|auto]. right. split; auto.
      assert (Rabs v < zt * mx).
      { apply Rmult_lt_reg_r with (/ mx); [apply Rinv_0_lt_compat; lra|]. replace (zt * mx * / mx) with zt by (field; auto). exact L2. }
      nra. }
    assert (HF0 : forall v, F v = 0 \/ zt <= Rabs (F v)).
    { intros v. unfold F. destruct (Rltb_spec (Rabs v) zt); auto. destruct (if Req_EM_T mx 0 then false else Rltb (Rabs v / mx) zt); auto. right. lra. }
    match goal with |- context [for_ (o_n p) ?b9 ?s9] => destruct (for_inv (fun i (st : list R * bool) => let '(c, az) := st in length c = length (o_c p) /\
        (forall k, nth k c 0 = if (k <? i)%nat then F (nth k (o_c p) 0) else nth k (o_c p) 0) /\ (az = true -> forall k, (k < i)%nat -> nth k c 0 = 0)) b9 (o_n p) s9)
        as ([c az] & Ec & Lc & Hc & Haz) end.
    - split; [reflexivity|]. split; [reflexivity|]. intros _ k Hk. lia.
    - intros i [c az] Hi (Lc & Hc & Haz). rewrite aget_nth by lia. cbn [obind].
      assert (Ei : nth i c 0 = nth i (o_c p) 0) by (rewrite Hc; destruct (Nat.ltb_spec i i); [lia|reflexivity]).
      rewrite Ei. set (v := nth i (o_c p) 0) in *.
      assert (Ext : forall w, F v = w -> forall k, nth k (upd c i w) 0 = if (k <? S i)%nat then F (nth k (o_c p) 0) else nth k (o_c p) 0).
      { intros w Hw k. rewrite nth_upd by lia. destruct (Nat.eqb_spec k i) as [->|Nk].
        - destruct (Nat.ltb_spec i (S i)); [|lia]. now rewrite <- Hw.
        - rewrite Hc. destruct (Nat.ltb_spec k i), (Nat.ltb_spec k (S i)); try lia; reflexivity. }
      assert (Az : az = true -> forall k, (k < S i)%nat -> nth k (upd c i 0) 0 = 0).
      { intros T k Hk. rewrite nth_upd by lia. destruct (Nat.eqb_spec k i); auto. apply Haz; auto. lia. }
      pose proof (eq_refl (F v)) as Fv. unfold F at 2 in Fv.
      destruct (Rltb_spec (Rabs v) zt) as [L|L].
      + rewrite aset_ok by lia. cbn [obind]. rewrite aget_nth by (rewrite upd_length; lia). cbn [obind].
        rewrite nth_upd, Nat.eqb_refl by lia.
        destruct (if Req_EM_T mx 0 then false else Rltb (Rabs 0 / mx) zt).
        * rewrite aset_ok by (rewrite upd_length; lia). cbn [obind]. eexists. split; [reflexivity|]. cbv beta iota. 
          assert (U : upd (upd c i 0) i 0 = upd c i 0) by (rewrite <- (upd_self (upd c i 0) i) at 2 by (rewrite upd_length; lia); rewrite nth_upd, Nat.eqb_refl by lia; reflexivity).
          rewrite U, upd_length. split; [exact Lc|]. split; [exact (Ext 0 Fv)|exact Az].
        * eexists. split; [reflexivity|]. cbv beta iota. rewrite upd_length. split; [exact Lc|]. split; [exact (Ext 0 Fv)|discriminate].
      + cbn [obind]. rewrite aget_nth by lia. cbn [obind]. rewrite Ei. fold v.
        destruct (if Req_EM_T mx 0 then false else Rltb (Rabs v / mx) zt).
        * rewrite aset_ok by lia. cbn [obind]. eexists. split; [reflexivity|]. cbv beta iota. rewrite upd_length. split; [exact Lc|]. split; [exact (Ext 0 Fv)|exact Az].
        * eexists. split; [reflexivity|]. cbv beta iota. split; [exact Lc|]. split; [|discriminate].
          intros k. rewrite <- (Ext v Fv). f_equal. rewrite <- Ei. symmetry. apply upd_self. lia.
    - rewrite Ec. cbn [obind].
      assert (Rel : forall k, (k < o_n p)%nat -> nth k c 0 = coz p k \/ (nth k c 0 = 0 /\ Rabs (coz p k) < thr p M)).
      { intros k Hk. rewrite Hc. unfold coz. destruct (Nat.ltb_spec k (o_n p)); [|lia]. apply HF. }
      assert (Lz : forall k, (k < o_n p)%nat -> Rabs (nth k c 0) < zt -> nth k c 0 = 0).
      { intros k Hk L. rewrite Hc in *. destruct (Nat.ltb_spec k (o_n p)); [|lia]. destruct (HF0 (nth k (o_c p) 0)); auto. lra. }
      (* cutting off zeros *)
      assert (Cut : forall e, (1 <= e <= o_n p)%nat -> (forall k, (e <= k < o_n p)%nat -> nth k c 0 = 0) ->
         forall k, coz (with_c p e c) k = coz p k \/ (coz (with_c p e c) k = 0 /\ Rabs (coz p k) < thr p M)).
      { intros e He Z k. unfold coz at 1 3. cbn [o_n o_c with_c]. destruct (Nat.ltb_spec k e).
        - apply Rel. lia.
        - destruct (Nat.lt_ge_cases k (o_n p)) as [Lk|Lk].
          + specialize (Z k ltac:(lia)). destruct (Rel k Lk) as [E|[_ L]]; [left; congruence|right; auto].
          + left. unfold coz. destruct (Nat.ltb_spec k (o_n p)); [lia|reflexivity]. }
      destruct az.
      + eexists. split; [reflexivity|]. split; [repeat split|]. cbn [o_n with_c]. split; [lia|]. split; [reflexivity|]. split; [exact Lc|]. apply Cut; [lia|].
        intros k Hk. apply Haz; auto. lia.
      + destruct (Nat.ltb_spec 2 (o_n p)) as [L2|L2].
        * destruct (trim_ok c (o_n p)) as (e & Ee & He & Hz); [lia|].
          rewrite Ee. cbn [obind]. eexists. split; [reflexivity|]. split; [repeat split|]. cbn [o_n with_c o_alloc o_c].
          destruct (Nat.ltb_spec 0 e) as [E0|E0].
          -- split; [lia|]. split; [reflexivity|]. split; [exact Lc|]. apply Cut; [lia|]. intros k Hk. apply Lz; [lia|]. now apply Hz.
          -- split; [lia|]. split; [reflexivity|]. split; [exact Lc|]. apply Cut; [lia|]. intros; lia.
        * eexists. split; [reflexivity|]. split; [repeat split|]. cbn [o_n with_c o_alloc o_c].
          split; [lia|]. split; [reflexivity|]. split; [exact Lc|]. apply Cut; [lia|]. intros; lia.
  Qed.
  Lemma round_wf p q : ope_wf p -> (1 <= o_n q <= o_n p)%nat -> o_alloc q = o_alloc p -> length (o_c q) = length (o_c p) -> ope_wf q.
  Proof. unfold ope_wf. intros [A B] C D E. lia. Qed.
  Lemma near_close a b e : a = b \/ (a = 0 /\ Rabs b < e) -> 0 <= e -> Rabs (a - b) <= e.
  Proof. intros [->|[-> H]] He; [replace (b - b) with 0 by ring; now rewrite Rabs_R0|]. rewrite Rminus_0_l, Rabs_Ropp. lra. Qed.
  Lemma thr_pos p M : 0 <= thr p M.
  Proof. unfold thr. assert (1 <= Rmax 1 (INR (o_n p) * M)) by apply Rmax_l. nra. Qed.

  Lemma flip_ok p : ope_ok p -> exists q, ope_flip_sign p = Ok q /\ same_shape p q /\ o_n q = o_n p /\ o_alloc q = o_alloc p /\ length (o_c q) = length (o_c p) /\
    forall k, coz q k = - coz p k.
  Proof.
    intros [Hn HL]. unfold ope_flip_sign, for_.
    destruct (upd_loop 0 (o_n p) (fun _ v => v * -1) (fun ii c => do v <- aget c ii; aset c ii (v * -1)) (o_c p)) as (c & E & L & A).
    - intros i c' Hi Lc _. rewrite aget_nth by lia. reflexivity.
    - lia.
    - rewrite E. cbn [obind]. eexists. split; [reflexivity|]. split; [repeat split|]. split; [reflexivity|]. split; [reflexivity|]. split; [exact L|].
      intros k. unfold coz. cbn [o_n o_c with_c]. rewrite A. cbn [Nat.leb andb]. destruct (Nat.ltb_spec k (o_n p)); [|ring]. destruct (Nat.ltb_spec k (0 + o_n p)); [ring|lia].
  Qed.

  Lemma scale_ok a p M : ope_ok p -> (forall k, Rabs (a * coz p k) <= M) ->
    exists q, ope_scale zt a p = Ok q /\ same_shape p q /\ (1 <= o_n q <= o_n p)%nat /\ o_alloc q = o_alloc p /\ length (o_c q) = length (o_c p) /\
      forall k, coz q k = a * coz p k \/ (coz q k = 0 /\ Rabs (a * coz p k) < thr p M).
  Proof.
    intros [Hn HL] HM. unfold ope_scale, for_.
    destruct (upd_loop 0 (o_n p) (fun _ v => v * a) (fun ii c => do v <- aget c ii; aset c ii (v * a)) (o_c p)) as (c & E & L & A).
    - intros i c' Hi Lc _. rewrite aget_nth by lia. reflexivity.
    - lia.
    - rewrite E. cbn [obind]. set (p1 := with_c p (o_n p) c).
      assert (C1 : forall k, coz p1 k = a * coz p k).
      { intros k. unfold coz, p1. cbn [o_n o_c with_c]. rewrite A. cbn [Nat.leb andb]. destruct (Nat.ltb_spec k (o_n p)); [|ring]. destruct (Nat.ltb_spec k (0 + o_n p)); [ring|lia]. }
      destruct (round_ok p1 M) as (q & Eq & Sh & Nq & Aq & Lq & Hq).
      + unfold ope_ok, p1. cbn [o_n o_c with_c]. lia.
      + intros k Hk. specialize (C1 k). unfold coz at 1 in C1. destruct (Nat.ltb_spec k (o_n p1)); [|lia]. rewrite C1. apply HM.
      + exists q. split; [exact Eq|]. split; [exact Sh|]. split; [exact Nq|]. split; [exact Aq|]. split; [rewrite Lq; exact L|].
        intros k. rewrite <- C1. apply Hq.
  Qed.

  Lemma clip_close v : clip zt v = v \/ (clip zt v = 0 /\ Rabs v < zt).
  Proof. unfold clip. destruct (Rltb_spec (Rabs v) zt); auto. Qed.

  Lemma trim2_ok (c : list R) n : (1 <= n <= length c)%nat ->
    exists e, (fix trim e := match e with
        | S (S e' as e1) => do v <- aget c e1; if Rltb zt (Rabs v) then Ok e else trim e1
        | _ => Ok e
        end) n = Ok e /\ (1 <= e <= n)%nat /\ forall k, (e <= k < n)%nat -> Rabs (nth k c 0) <= zt.
  Proof.
    induction n as [|n IH]; intros Hn; [lia|]. destruct n as [|n]; [exists 1%nat; repeat split; auto; lia|].
    rewrite aget_nth by lia. cbn [obind]. destruct (Rltb_spec zt (Rabs (nth (S n) c 0))) as [L|L].
    - exists (S (S n)). split; [reflexivity|]. split; [lia|]. intros; lia.
    - destruct IH as (e & E & He & H); [lia|]. exists e. split; [exact E|]. split; [lia|]. intros k Hk.
      destruct (Nat.eq_dec k (S n)) as [->|]; [lra|apply H; lia].
  Qed.

  Lemma ptype_eqb_refl t : ptype_eqb t t = true. Proof. now destruct t. Qed.
  Lemma ptype_eqb_eq t u : ptype_eqb t u = true -> t = u. Proof. destruct t, u; cbn; congruence. Qed.

  Definition near (a v : R) : Prop := a = v \/ (a = 0 /\ Rabs v <= zt).
  Lemma axpy_ok a x y : ope_ok x -> ope_wf y -> o_t x = o_t y -> Rabs (o_lb x - o_lb y) < eps -> Rabs (o_ub x - o_ub y) < eps ->
    exists y', ope_axpy zt eps a x y = Ok y' /\ same_shape y y' /\ ope_wf y' /\ (o_n y' <= Nat.max (o_n x) (o_n y))%nat /\
      forall k, near (coz y' k) (coz y k + a * coz x k).
  Proof.
    intros [Hx Lx] [Hy Ay] Ht Hl Hu. unfold ope_axpy. rewrite Ht, ptype_eqb_refl, !Rltb_t by auto. cbn [cassert obind].
    destruct (Nat.ltb_spec (o_n x) (o_n y)) as [Lt|Ge].
    - unfold for_.
      destruct (upd_loop 0 (o_n x) (fun k v => clip zt (v + a * nth k (o_c x) 0)) (fun ii c => do v <- aget c ii; do w <- aget (o_c x) ii; aset c ii (clip zt (v + a * w))) (o_c y)) as (c & E & L & A).
      + intros i c' Hi Lc _. rewrite !aget_nth by lia. reflexivity.
      + lia.
      + rewrite E. cbn [obind]. eexists. split; [reflexivity|]. split; [repeat split|]. split; [unfold ope_wf; cbn [o_n o_alloc o_c with_c]; lia|].
        split; [cbn [o_n with_c]; lia|]. intros k. unfold coz. cbn [o_n o_c with_c]. rewrite A. cbn [Nat.leb andb].
        destruct (Nat.ltb_spec k (o_n y)), (Nat.ltb_spec k (o_n x)), (Nat.ltb_spec k (0 + o_n x)); try lia; unfold near.
        * destruct (clip_close (nth k (o_c y) 0 + a * nth k (o_c x) 0)) as [?|[? ?]]; [auto|right; split; auto; lra].
        * left. ring.
        * left. ring.
    - set (al := if (o_alloc y <? o_n x)%nat then (o_n x + 10)%nat else o_alloc y).
      match goal with |- context [obind ?e9 _] => assert (Blk : exists c0, e9 = Ok (al, c0) /\ length c0 = al /\ forall k, (k < o_n y)%nat -> nth k c0 0 = nth k (o_c y) 0) end.
      { unfold al. destruct (Nat.ltb_spec (o_alloc y) (o_n x)) as [L|L]; [|exists (o_c y); auto]. cbv zeta.
        set (al' := (o_n x + 10)%nat). set (c1 := firstn al' (o_c y) ++ repeat 0 (al' - length (o_c y))).
        assert (L1 : length c1 = al') by (unfold c1; rewrite app_length, firstn_length, repeat_length; unfold al'; lia).
        destruct (upd_loop (o_n y) (al' - o_n y) (fun _ _ => 0) (fun ii c => aset c ii 0) c1) as (c & E & Lc & A).
        - reflexivity.
        - unfold al' in *. lia.
        - rewrite E. cbn [obind]. exists c. split; [reflexivity|]. split; [lia|]. intros k Hk. rewrite A.
          destruct (Nat.leb_spec (o_n y) k); [lia|]. cbn [andb]. unfold c1. rewrite firstn_all2 by (unfold al'; lia). rewrite app_nth1 by lia. reflexivity. }
      destruct Blk as (c0 & E0 & L0 & A0). rewrite E0. cbn [obind].
      assert (Lal : (o_n x <= al)%nat) by (unfold al; destruct (Nat.ltb_spec (o_alloc y) (o_n x)); lia).
      assert (Lal2 : (o_n y <= al)%nat) by lia.
      destruct (upd_loop (o_n y) (o_n x - o_n y) (fun k _ => clip zt (a * nth k (o_c x) 0)) (fun ii c => do w <- aget (o_c x) ii; aset c ii (clip zt (a * w))) c0) as (c1 & E1 & L1 & A1).
      { intros i c' Hi Lc _. rewrite aget_nth by lia. reflexivity. }
      { lia. }
      rewrite E1. cbn [obind]. unfold for_.
      destruct (upd_loop 0 (o_n y) (fun k v => clip zt (v + a * nth k (o_c x) 0)) (fun ii c => do v <- aget c ii; do w <- aget (o_c x) ii; aset c ii (clip zt (v + a * w))) c1) as (c2 & E2 & L2 & A2).
      { intros i c' Hi Lc _. rewrite !aget_nth by lia. reflexivity. }
      { lia. }
      rewrite E2. cbn [obind]. destruct (Nat.eqb_spec (o_n x) 0); [lia|].
      destruct (trim2_ok c2 (o_n x)) as (e & Ee & He & Hz); [lia|]. rewrite Ee. cbn [obind].
      eexists. split; [reflexivity|]. split; [repeat split|]. split; [unfold ope_wf; cbn [o_n o_alloc o_c with_block]; lia|].
      split; [cbn [o_n with_block]; lia|]. intros k.
      assert (V : (k < o_n x)%nat -> near (nth k c2 0) (coz y k + a * coz x k) /\ (Rabs (nth k c2 0) <= zt -> Rabs (coz y k + a * coz x k) <= zt)).
      { intros Hk. assert (W : nth k c2 0 = clip zt (coz y k + a * coz x k)).
        { unfold coz. rewrite A2, A1. cbn [Nat.leb andb].
          destruct (Nat.ltb_spec k (o_n x)); [|lia].
          destruct (Nat.ltb_spec k (0 + o_n y)), (Nat.ltb_spec k (o_n y)), (Nat.leb_spec (o_n y) k), (Nat.ltb_spec k (o_n y + (o_n x - o_n y))); try lia; cbn [andb].
          - rewrite A0 by lia. reflexivity.
          - now rewrite Rplus_0_l. }
        rewrite W. unfold near. destruct (clip_close (coz y k + a * coz x k)) as [Ec|[Ec Lc]]; rewrite Ec; [auto|]. split; [right; split; auto; lra|intros; lra]. }
      unfold coz at 1. cbn [o_n o_c with_block]. destruct (Nat.ltb_spec k e) as [Lk|Lk].
      + apply V. lia.
      + destruct (Nat.lt_ge_cases k (o_n x)) as [Lx'|Gx].
        * right. split; auto. apply V; auto.
        * left. unfold coz. destruct (Nat.ltb_spec k (o_n y)), (Nat.ltb_spec k (o_n x)); try lia. ring.
  Qed.

  Lemma copy_ok p : ope_wf p -> exists q, ope_copy p = Ok q /\ same_shape p q /\ o_n q = o_n p /\ ope_wf q /\ o_alloc q = o_alloc p /\
    (forall k, coz q k = coz p k) /\ (forall k, (o_n p <= k)%nat -> nth k (o_c q) 0 = 0).
  Proof.
    intros [Hn Ha]. unfold ope_copy. destruct (Nat.leb_spec (o_n p) (o_alloc p)); [|lia]. cbn [cassert obind]. unfold for_.
    destruct (upd_loop 0 (o_n p) (fun k _ => nth k (o_c p) 0) (fun ii c => do v <- aget (o_c p) ii; aset c ii v) (repeat 0 (o_alloc p))) as (c & E & L & A).
    - intros i c' Hi Lc _. rewrite aget_nth by lia. reflexivity.
    - rewrite repeat_length. lia.
    - rewrite E. cbn [obind]. eexists. split; [reflexivity|]. split; [repeat split|]. split; [reflexivity|]. rewrite repeat_length in L.
      split; [unfold ope_wf; cbn [o_n o_alloc o_c with_c]; lia|]. split; [reflexivity|]. split.
      + intros k. unfold coz. cbn [o_n o_c with_c]. rewrite A. cbn [Nat.leb andb]. destruct (Nat.ltb_spec k (o_n p)); [|reflexivity]. destruct (Nat.ltb_spec k (0 + o_n p)); [reflexivity|lia].
      + intros k Hk. cbn [o_c with_c]. rewrite A. destruct (Nat.ltb_spec k (0 + o_n p)); [lia|]. rewrite Bool.andb_false_r. apply nth_repeat.
  Qed.
End Lin.
