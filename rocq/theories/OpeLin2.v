(** Linear combinations of expansions. *)
From Coq Require Import Reals Lra Lia List.
From Verif Require Import Base BaseFacts FOps FFTCheb QuadFacts OpeModel OpeSpec LegFacts HermFacts OpeBasis OpeFacts OpeLin.
Local Open Scope R_scope.

Lemma same_shape_trans p q r : same_shape p q -> same_shape q r -> same_shape p r.
Proof. unfold same_shape. intuition congruence. Qed.
Lemma same_shape_refl p : same_shape p p. Proof. repeat split. Qed.

Section Lin2.
  Context (zt eps : R) (Hzt : 0 < zt) (Heps : 0 < eps).

  Definition thrN (N : nat) (M : R) : R := zt * Rmax 1 (INR N * M).
  Lemma thrN_mono n N M : (n <= N)%nat -> 0 <= M -> thrN n M <= thrN N M.
  Proof.
    intros Hn HM. unfold thrN. apply Rmult_le_compat_l; [lra|]. apply Rle_max_compat_l. apply Rmult_le_compat_r; auto. now apply le_INR.
  Qed.
  Lemma thrN_pos N M : 0 < thrN N M.
  Proof. unfold thrN. assert (1 <= Rmax 1 (INR N * M)) by apply Rmax_l. nra. Qed.

  Lemma scale_close a p M : ope_wf p -> (forall k, Rabs (a * coz p k) <= M) ->
    exists q, ope_scale zt a p = Ok q /\ same_shape p q /\ ope_wf q /\ (o_n q <= o_n p)%nat /\ forall k, Rabs (coz q k - a * coz p k) <= thrN (o_n p) M.
  Proof.
    intros W HM. destruct (scale_ok zt Hzt a p M) as (q & E & Sh & Nq & Aq & Lq & H); auto using ope_wf_ok.
    exists q. split; [exact E|]. split; [exact Sh|]. split; [apply (round_wf p q); auto|]. split; [lia|].
    intros k. apply near_close; [apply H|]. left. apply thrN_pos.
  Qed.

  Lemma daxpby_ok a x b y M : ope_wf x -> ope_wf y -> o_t x = o_t y -> Rabs (o_lb x - o_lb y) < eps -> Rabs (o_ub x - o_ub y) < eps ->
    (forall k, Rabs (b * coz y k) <= M) ->
    exists q, ope_daxpby zt eps a (Some x) b (Some y) = Ok q /\ same_shape y q /\ ope_wf q /\ (o_n q <= Nat.max (o_n x) (o_n y))%nat /\
      forall k, Rabs (coz q k - (a * coz x k + b * coz y k)) <= thrN (o_n y) M + zt.
  Proof.
    intros Wx Wy Ht Hl Hu HM. unfold ope_daxpby.
    destruct (copy_ok y Wy) as (y1 & E1 & S1 & N1 & W1 & A1 & C1 & _). rewrite E1. cbn [obind].
    destruct (scale_close b y1 M W1) as (y2 & E2 & S2 & W2 & N2 & C2); [intros k; rewrite C1; apply HM|]. rewrite E2. cbn [obind].
    destruct S1 as (T1 & L1 & U1 & P1 & K1). destruct S2 as (T2 & L2 & U2 & P2 & K2).
    rewrite L1, L2 in Hl. rewrite U1, U2 in Hu.
    destruct (axpy_ok zt eps a x y2) as (q & E & (T & L & U & P & K) & W & N & C); auto using ope_wf_ok; try congruence.
    exists q. split; [exact E|]. split; [unfold same_shape; repeat split; congruence|]. split; [exact W|]. split; [lia|].
    intros k. specialize (C2 k). rewrite C1, N1 in C2.
    replace (coz q k - (a * coz x k + b * coz y k)) with ((coz q k - (coz y2 k + a * coz x k)) + (coz y2 k - b * coz y k)) by ring.
    eapply Rle_trans; [apply Rabs_triang|]. rewrite Rplus_comm. apply Rplus_le_compat; [exact C2|].
    destruct (C k) as [->|[-> D]]; [replace (_ - _) with 0 by ring; rewrite Rabs_R0; lra|]. rewrite Rminus_0_l, Rabs_Ropp. exact D.
  Qed.

  Lemma addloop (p : ope) w (c : list R) : ope_ok p -> (o_n p <= length c)%nat ->
    exists c', for_ (o_n p) (fun ii co => do v <- aget co ii; do u <- aget (o_c p) ii; aset co ii (v + w * u)) c = Ok c' /\ length c' = length c /\
      forall k, nth k c' 0 = nth k c 0 + w * coz p k.
  Proof.
    intros [Hn HL] Hc. unfold for_.
    destruct (upd_loop 0 (o_n p) (fun k v => v + w * nth k (o_c p) 0) (fun ii co => do v <- aget co ii; do u <- aget (o_c p) ii; aset co ii (v + w * u)) c) as (c' & E & L & A).
    - intros i c' Hi Lc _. rewrite !aget_nth by lia. reflexivity.
    - lia.
    - exists c'. split; [exact E|]. split; [exact L|]. intros k. rewrite A. unfold coz. cbn [Nat.leb andb].
      destruct (Nat.ltb_spec k (0 + o_n p)), (Nat.ltb_spec k (o_n p)); try lia; ring.
  Qed.

  Lemma lin_comb_ok n ldx (x : list ope) ldc (c : list R) N M d : (1 <= n)%nat ->
    (forall k, (k < n)%nat -> (k * ldx < length x)%nat /\ ope_ok (nth (k * ldx) x d) /\ o_t (nth (k * ldx) x d) = o_t (nth 0 x d) /\ (o_n (nth (k * ldx) x d) <= N)%nat /\ (k * ldc < length c)%nat) ->
    (forall j, Rabs (rs n (fun k => nth (k * ldc) c 0 * coz (nth (k * ldx) x d) j)) <= M) ->
    exists q, ope_lin_comb zt n ldx x ldc c = Ok (Some q) /\
      o_t q = o_t (nth 0 x d) /\ o_lb q = o_lb (nth 0 x d) /\ o_ub q = o_ub (nth 0 x d) /\ o_map q = o_map (nth 0 x d) /\ o_kr q = false /\ ope_wf q /\ (o_n q <= N)%nat /\
      forall j, Rabs (coz q j - rs n (fun k => nth (k * ldc) c 0 * coz (nth (k * ldx) x d) j)) <= thrN N M.
  Proof.
    intros Hn Hx HM. unfold ope_lin_comb.
    assert (ga : forall i, (i < length x)%nat -> aget x i = Ok (nth i x d)).
    { intros i Hi. unfold aget. rewrite (nth_error_nth' x d) by lia. reflexivity. }
    assert (X0 : (0 < length x)%nat) by (destruct (Hx 0%nat); [lia|]; lia).
    rewrite ga by auto. cbn [obind]. set (q0 := nth 0 x d) in *.
    match goal with |- context [for_ n ?b9 (true, 0%nat)] => destruct (for_inv (fun i (st : bool * nat) => let '(s, mx) := st in s = true /\ (mx <= N)%nat /\ forall k, (k < i)%nat -> (o_n (nth (k * ldx) x d) <= mx)%nat) b9 n (true, 0%nat)) as ([s mx] & E & Es & Hm & Hmx) end.
    - split; [reflexivity|]. split; [lia|]. intros; lia.
    - intros i [s mx] Hi (-> & Hm & Hmx). destruct (Hx i Hi) as (B1 & B2 & B3 & B4 & B5). rewrite ga by auto. cbn [obind].
      rewrite B3, ptype_eqb_refl. eexists. split; [reflexivity|]. cbv beta iota. split; [reflexivity|].
      destruct (Nat.ltb_spec mx (o_n (nth (i * ldx) x d))).
      + split; [lia|]. intros k Hk. destruct (Nat.eq_dec k i) as [->|]; [lia|]. specialize (Hmx k ltac:(lia)). lia.
      + split; [lia|]. intros k Hk. destruct (Nat.eq_dec k i) as [->|]; [lia|]. apply Hmx. lia.
    - rewrite E. cbn [obind]. subst s. cbn [negb].
      assert (M1 : (1 <= mx)%nat) by (destruct (Hx 0%nat Hn) as (_ & [B _] & _); specialize (Hmx 0%nat Hn); lia).
      set (out := with_map (ope_init (o_t q0) mx (o_lb q0) (o_ub q0)) (o_map q0)).
      assert (Lo : length (o_c out) = (mx + opecalloc)%nat) by (apply repeat_length).
      match goal with |- context [for_ n ?b9 (o_c out)] => destruct (for_inv (fun i (co : list R) => length co = length (o_c out) /\ forall j, nth j co 0 = rs i (fun k => nth (k * ldc) c 0 * coz (nth (k * ldx) x d) j)) b9 n (o_c out)) as (co & Ec & Lc & Hc) end.
      + split; [reflexivity|]. intros j. cbn [rs]. unfold out. cbn [o_c with_map ope_init]. apply nth_repeat.
      + intros i co Hi [Lc Hc]. destruct (Hx i Hi) as (B1 & B2 & B3 & B4 & B5). rewrite ga by auto. cbn [obind]. rewrite aget_nth by auto. cbn [obind].
        destruct (addloop (nth (i * ldx) x d) (nth (i * ldc) c 0) co B2) as (co' & E' & L' & A'); [specialize (Hmx i Hi); lia|].
        exists co'. split; [exact E'|]. split; [lia|]. intros j. rewrite A', Hc. cbn [rs]. ring.
      + rewrite Ec. cbn [obind]. set (p1 := with_c out mx co).
        assert (C0 : forall j, (mx <= j)%nat -> rs n (fun k => nth (k * ldc) c 0 * coz (nth (k * ldx) x d) j) = 0).
        { intros j Hj. rewrite (rs_ext n _ (fun _ => 0)).
          - clear. induction n as [|n IH]; cbn [rs]; [reflexivity|rewrite IH; ring].
          - intros k Hk. unfold coz. specialize (Hmx k Hk). destruct (Nat.ltb_spec j (o_n (nth (k * ldx) x d))); [lia|ring]. }
        assert (C1 : forall j, coz p1 j = rs n (fun k => nth (k * ldc) c 0 * coz (nth (k * ldx) x d) j)).
        { intros j. unfold coz at 1. unfold p1. cbn [o_n o_c with_c]. destruct (Nat.ltb_spec j mx); [apply Hc|]. symmetry. now apply C0. }
        destruct (round_ok zt Hzt p1 M) as (q & Eq & (T & L & U & P & K) & Nq & Aq & Lq & Hq).
        * unfold ope_ok, p1. cbn [o_n o_c with_c]. lia.
        * intros k Hk. specialize (C1 k). unfold coz at 1 in C1. destruct (Nat.ltb_spec k (o_n p1)); [|lia]. rewrite C1. apply HM.
        * rewrite Eq. cbn [obind]. exists q. split; [reflexivity|].
          split; [symmetry; exact T|]. split; [symmetry; exact L|]. split; [symmetry; exact U|]. split; [symmetry; exact P|]. split; [symmetry; exact K|].
          assert (n1 : o_n p1 = mx) by reflexivity. split; [|split; [lia|]].
          -- unfold ope_wf. rewrite Aq, Lq. unfold p1. cbn [o_c o_alloc with_c]. rewrite Lc, Lo. unfold out. cbn [o_alloc with_map ope_init]. split; [split|]; lia.
          -- intros j. rewrite <- C1. eapply Rle_trans; [apply (near_close _ _ (thr zt p1 M)); [apply Hq|left; apply thrN_pos]|].
             apply thrN_mono; [lia|]. eapply Rle_trans; [apply Rabs_pos|apply (HM 0%nat)].
  Qed.

  (** One pass of sum3_up over coefficients [lo] to [hi]. *)
  Lemma s3run a b c (x y : ope) lo hi (ux uy uz : bool) blk : (lo <= hi)%nat -> (hi <= length blk)%nat ->
    (ux = true -> (hi <= length (o_c x))%nat) -> (uy = true -> (hi <= length (o_c y))%nat) ->
    exists blk', for_from lo (hi - lo) (fun ii blk =>
      do zv <- (if uz then aget blk ii else Ok 0);
      do xv <- (if ux then aget (o_c x) ii else Ok 0);
      do yv <- (if uy then aget (o_c y) ii else Ok 0);
      aset blk ii ((if uz then c * zv else 0) + (if ux then a * xv else 0) + (if uy then b * yv else 0))) blk = Ok blk' /\ length blk' = length blk /\
      forall k, nth k blk' 0 = if ((lo <=? k) && (k <? hi))%nat then (if uz then c * nth k blk 0 else 0) + (if ux then a * nth k (o_c x) 0 else 0) + (if uy then b * nth k (o_c y) 0 else 0) else nth k blk 0.
  Proof.
    intros Hlo Hhi Hx Hy.
    match goal with |- context [for_from lo (hi - lo) ?b9 blk] => destruct (upd_loop lo (hi - lo) (fun k v => (if uz then c * v else 0) + (if ux then a * nth k (o_c x) 0 else 0) + (if uy then b * nth k (o_c y) 0 else 0)) b9 blk) as (blk' & E & L & A) end.
    - intros i c' Hi Lc _. assert (X : (if ux then aget (o_c x) i else Ok 0) = Ok (if ux then nth i (o_c x) 0 else 0)) by (destruct ux; [specialize (Hx eq_refl); apply aget_nth; lia|reflexivity]).
      assert (Y : (if uy then aget (o_c y) i else Ok 0) = Ok (if uy then nth i (o_c y) 0 else 0)) by (destruct uy; [specialize (Hy eq_refl); apply aget_nth; lia|reflexivity]).
      assert (Z : (if uz then aget c' i else Ok 0) = Ok (if uz then nth i c' 0 else 0)) by (destruct uz; [apply aget_nth; lia|reflexivity]).
      rewrite X, Y, Z. cbn [obind]. f_equal. destruct ux, uy, uz; reflexivity.
    - lia.
    - exists blk'. split; [exact E|]. split; [exact L|]. intros k. rewrite A. now replace (lo + (hi - lo))%nat with hi by lia.
  Qed.

  Definition sum3_good (nx ny nz : nat) : Prop := ((ny < nx <= nz) \/ (nx = ny /\ ny <= nz) \/ (nx <= nz < ny) \/ (ny <= nz < nx))%nat.
  Ltac ok1 := match goal with |- context [obind (Ok ?v) ?f] => change (obind (Ok v) f) with (f v); cbv beta end.
  Lemma sum3_ok a x b y c z M : ope_ok x -> ope_ok y -> ope_wf z -> o_t x = o_t y -> o_t y = o_t z -> sum3_good (o_n x) (o_n y) (o_n z) ->
    (forall k, Rabs (a * coz x k + b * coz y k + c * coz z k) <= M) ->
    let N := Nat.max (o_n x) (Nat.max (o_n y) (o_n z)) in
    exists q, ope_sum3_up zt a x b y c z = Ok q /\ same_shape z q /\ ope_ok q /\ (o_n q <= N)%nat /\ o_alloc q = o_alloc z /\
      length (o_c q) = (if (o_n z <? N)%nat then N else o_alloc z) /\
      forall k, Rabs (coz q k - (a * coz x k + b * coz y k + c * coz z k)) <= thrN N M.
  Proof.
    intros [Hx Lx] [Hy Ly] [Hz Lz] T1 T2 G HM N. unfold ope_sum3_up. rewrite T1, T2, ptype_eqb_refl. change (cassert true) with (Ok tt). ok1. ok1. cbv zeta.
    assert (M0 : 0 <= M) by (eapply Rle_trans; [apply Rabs_pos|apply (HM 0%nat)]).
    (* the end of each branch *)
    assert (Fin : forall blk len, (N <= length blk)%nat -> length blk = len ->
        (forall k, (k < N)%nat -> nth k blk 0 = a * coz x k + b * coz y k + c * coz z k) ->
        exists q, ope_round zt (with_c z N blk) = Ok q /\ same_shape z q /\ ope_ok q /\ (o_n q <= N)%nat /\ o_alloc q = o_alloc z /\ length (o_c q) = len /\
          forall k, Rabs (coz q k - (a * coz x k + b * coz y k + c * coz z k)) <= thrN N M).
    { intros blk len LN Lb V.
      assert (C1 : forall k, coz (with_c z N blk) k = a * coz x k + b * coz y k + c * coz z k).
      { intros k. unfold coz at 1. cbn [o_n o_c with_c]. destruct (Nat.ltb_spec k N); [auto|]. unfold coz, N in *.
        destruct (Nat.ltb_spec k (o_n x)), (Nat.ltb_spec k (o_n y)), (Nat.ltb_spec k (o_n z)); try lia. ring. }
      destruct (round_ok zt Hzt (with_c z N blk) M) as (q & Eq & Sh & Nq & Aq & Lq & Hq).
      - unfold ope_ok. cbn [o_n o_c with_c]. unfold N in *. lia.
      - intros k Hk. specialize (C1 k). unfold coz at 1 in C1. destruct (Nat.ltb_spec k (o_n (with_c z N blk))); [|lia]. rewrite C1. apply HM.
      - cbn [o_n o_c o_alloc with_c] in *. exists q. split; [exact Eq|]. split; [exact Sh|]. split; [unfold ope_ok; lia|]. split; [lia|]. split; [exact Aq|]. split; [lia|].
        intros k. rewrite <- C1. apply near_close; [apply Hq|left; apply thrN_pos]. }
    assert (Rz : forall n k, (o_n z < n)%nat -> (k < o_n z)%nat -> nth k (resize n (o_c z)) 0 = nth k (o_c z) 0).
    { intros n k Hn Hk. unfold resize. rewrite app_nth1 by (rewrite firstn_length; lia).
      rewrite <- (firstn_skipn n (o_c z)) at 2. rewrite app_nth1 by (rewrite firstn_length; lia). reflexivity. }
    assert (Rl : forall n, length (resize n (o_c z)) = n) by (intros n; unfold resize; rewrite app_length, firstn_length, repeat_length; lia).
    assert (B : forall k n m, (k <? n)%nat = true -> (n <= m)%nat -> (k < m)%nat) by (intros k n m H; apply Nat.ltb_lt in H; lia).
    set (nx := o_n x) in *. set (ny := o_n y) in *. set (nz := o_n z) in *.
    Ltac s3cell := let k := fresh "k" in intros k Hk;
      repeat match goal with H : forall k0, nth k0 ?b 0 = _ |- context [nth _ ?b 0] => rewrite H end; unfold coz;
      repeat match goal with |- context [(?u <=? ?v)%nat] => destruct (Nat.leb_spec u v) end;
      repeat match goal with |- context [(?u <? ?v)%nat] => destruct (Nat.ltb_spec u v) end; cbn [andb]; try lia; try ring.
    destruct G as [G|[G|[G|G]]].
    - replace ((nx <=? nz) && (ny <=? nz))%nat with true by (symmetry; apply Bool.andb_true_iff; split; apply Nat.leb_le; lia).
      destruct (Nat.ltb_spec ny nx); [|lia].
      destruct (s3run a b c x y 0 ny true true true (o_c z)) as (b1 & E1 & L1 & A1); try (intros; lia). rewrite E1. ok1.
      destruct (s3run a b c x y ny nx true false true b1) as (b2 & E2 & L2 & A2); try (intros; lia). rewrite E2. ok1.
      destruct (s3run a b c x y nx nz false false true b2) as (b3 & E3 & L3 & A3); try (intros; lia). rewrite E3. ok1.
      replace nz with N by lia. apply Fin; [lia|destruct (Nat.ltb_spec N N); lia|]. unfold nx, ny, nz in *. s3cell.
    - replace ((nx <=? nz) && (ny <=? nz))%nat with true by (symmetry; apply Bool.andb_true_iff; split; apply Nat.leb_le; lia).
      destruct (Nat.ltb_spec ny nx); [lia|].
      destruct (s3run a b c x y 0 nx true true true (o_c z)) as (b1 & E1 & L1 & A1); try (intros; lia). rewrite E1. ok1.
      destruct (s3run a b c x y nx ny false true true b1) as (b2 & E2 & L2 & A2); try (intros; lia). rewrite E2. ok1.
      destruct (s3run a b c x y nx nz false false true b2) as (b3 & E3 & L3 & A3); try (intros; lia). rewrite E3. ok1.
      replace nz with N by lia. apply Fin; [lia|destruct (Nat.ltb_spec N N); lia|]. unfold nx, ny, nz in *. s3cell.
    - replace ((nx <=? nz) && (ny <=? nz))%nat with false by (symmetry; apply Bool.andb_false_iff; right; apply Nat.leb_gt; lia).
      replace ((nx <=? nz) && (nz <? ny))%nat with true by (symmetry; apply Bool.andb_true_iff; split; [apply Nat.leb_le|apply Nat.ltb_lt]; lia).
      assert (Rn := Rl ny). assert (Rk := fun k => Rz ny k ltac:(lia)). set (rz := resize ny (o_c z)) in *.
      destruct (s3run a b c x y 0 nx true true true rz) as (b1 & E1 & L1 & A1); try (intros; lia). rewrite E1. ok1.
      destruct (s3run a b c x y nx nz false true true b1) as (b2 & E2 & L2 & A2); try (intros; lia). rewrite E2. ok1.
      destruct (s3run a b c x y nz ny false true false b2) as (b3 & E3 & L3 & A3); try (intros; lia). rewrite E3. ok1.
      replace ny with N by lia. apply Fin; [lia|destruct (Nat.ltb_spec nz N); lia|]. unfold nx, ny, nz in *. s3cell; rewrite Rk by lia; ring.
    - replace ((nx <=? nz) && (ny <=? nz))%nat with false by (symmetry; apply Bool.andb_false_iff; left; apply Nat.leb_gt; lia).
      replace ((nx <=? nz) && (nz <? ny))%nat with false by (symmetry; apply Bool.andb_false_iff; left; apply Nat.leb_gt; lia).
      replace ((nz <? nx) && (ny <=? nz))%nat with true by (symmetry; apply Bool.andb_true_iff; split; [apply Nat.ltb_lt|apply Nat.leb_le]; lia).
      assert (Rn := Rl nx). assert (Rk := fun k => Rz nx k ltac:(lia)). set (rz := resize nx (o_c z)) in *.
      destruct (s3run a b c x y 0 ny true true true rz) as (b1 & E1 & L1 & A1); try (intros; lia). rewrite E1. ok1.
      destruct (s3run a b c x y ny nz true false true b1) as (b2 & E2 & L2 & A2); try (intros; lia). rewrite E2. ok1.
      destruct (s3run a b c x y nz nx true false false b2) as (b3 & E3 & L3 & A3); try (intros; lia). rewrite E3. ok1.
      replace nx with N by lia. apply Fin; [lia|destruct (Nat.ltb_spec nz N); lia|]. unfold nx, ny, nz in *. s3cell; rewrite Rk by lia; ring.
  Qed.
End Lin2.
