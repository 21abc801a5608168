(** Proofs about the tensor and tensor-train model. *)
From Verif Require Export TensorSpec FTCtor.

(** Cell-by-cell update of a whole array, row after row. *)
Lemma upd_pass {A} n m (h : nat -> A) (G : nat -> nat -> A -> A)
      (body : nat -> nat -> list A -> outcome (list A)) :
  (forall j i l, j < n -> i < m -> body j i l = (do c <- aget l (j * m + i); aset l (j * m + i) (G j i c))) ->
  for_ n (fun j l => for_ m (fun i l => body j i l) l) (tab (n * m) h)
  = Ok (tab (n * m) (fun p => G (p / m) (p mod m) (h p))).
Proof.
  intros Hb.
  pose (st := fun q => tab (n * m) (fun p => if p <? q then G (p / m) (p mod m) (h p) else h p)).
  assert (E0 : tab (n * m) h = st 0) by (apply tab_ext; intros; natcase; reflexivity).
  assert (E1 : tab (n * m) (fun p => G (p / m) (p mod m) (h p)) = st (n * m))
    by (apply tab_ext; intros; natcase; reflexivity).
  rewrite E0, E1. change (st 0) with (st (0 * m)).
  apply (for_det (fun j => st (j * m))). intros j Hj.
  replace (st (j * m)) with (st (j * m + 0)) by (f_equal; lia).
  replace (S j * m) with (j * m + m) by lia.
  apply (for_det (fun i => st (j * m + i))). intros i Hi.
  rewrite Hb by auto. unfold st.
  assert (Hlt : j * m + i < n * m) by (apply idx_lt; auto).
  rewrite aget_tab by auto. cbn [obind]. rewrite aset_tab by auto. f_equal. apply tab_ext.
  intros p Hp. natcase; try reflexivity. subst p. now rewrite idx_div, idx_mod by auto.
Qed.

Lemma upd1 {A} N (h : nat -> A) (G : nat -> A -> A) :
  for_ N (fun i v => do x <- aget v i; aset v i (G i x)) (tab N h) = Ok (tab N (fun p => G p (h p))).
Proof.
  pose (st := fun q => tab N (fun p => if p <? q then G p (h p) else h p)).
  assert (E0 : tab N h = st 0) by (apply tab_ext; intros; natcase; reflexivity).
  assert (E1 : tab N (fun p => G p (h p)) = st N) by (apply tab_ext; intros; natcase; reflexivity).
  rewrite E0, E1. apply (for_det st). intros i Hi. unfold st. rewrite aget_tab by auto. cbn [obind].
  rewrite aset_tab by auto. f_equal. apply tab_ext. intros p Hp. natcase; try reflexivity. now subst p.
Qed.

Lemma wrf_blit {A} (T : nat -> A) N od (src : list A) os n :
  (forall i, i < n -> od + i < N /\ nth_error src (os + i) = Some (T (od + i))) ->
  wrf T N (fun k => exists i, i < n /\ od + i = k) (fun dst => blit dst od src os n).
Proof.
  intros H. unfold blit. apply (wrf_for T N (fun i k => od + i = k)). intros i Hi.
  destruct (H i Hi) as [H1 H2]. eapply wrf_get; [apply aget_ok, H2|]. now apply wrf_aset.
Qed.

(** Three-way linear indices. *)
Lemma idx3_0 n0 n1 i j k : i < n0 -> (i + j * n0 + k * n0 * n1) mod n0 = i.
Proof.
  intros Hi. replace (i + j * n0 + k * n0 * n1) with ((j + k * n1) * n0 + i) by lia.
  now apply idx_mod.
Qed.
Lemma idx3_1 n0 n1 i j k : i < n0 -> j < n1 -> ((i + j * n0 + k * n0 * n1) / n0) mod n1 = j.
Proof.
  intros Hi Hj. replace (i + j * n0 + k * n0 * n1) with ((k * n1 + j) * n0 + i) by lia.
  rewrite idx_div by auto. now apply idx_mod.
Qed.
Lemma idx3_2 n0 n1 i j k : i < n0 -> j < n1 -> (i + j * n0 + k * n0 * n1) / (n0 * n1) = k.
Proof.
  intros Hi Hj. replace (i + j * n0 + k * n0 * n1) with (k * (n0 * n1) + (j * n0 + i)) by lia.
  apply idx_div. nia.
Qed.
Lemma idx3_lt n0 n1 n2 i j k : i < n0 -> j < n1 -> k < n2 -> i + j * n0 + k * n0 * n1 < n0 * n1 * n2.
Proof.
  intros Hi Hj Hk. assert (i + j * n0 < n0 * n1) by nia.
  replace (k * n0 * n1) with (k * (n0 * n1)) by lia. nia.
Qed.
Lemma idx3_split n0 n1 n2 p : p < n0 * n1 * n2 ->
  exists i j k, i < n0 /\ j < n1 /\ k < n2 /\ p = i + j * n0 + k * n0 * n1.
Proof.
  intros Hp. rewrite Nat.mul_comm in Hp. destruct (idx_split p (n0 * n1) n2 Hp) as (k & q & Hk & Hq & ->).
  rewrite Nat.mul_comm in Hq. destruct (idx_split q n0 n1 Hq) as (j & i & Hj & Hi & ->).
  exists i, j, k. repeat split; auto. lia.
Qed.

Section TensorFacts.
  Context {R : CRing}.
  Open Scope cr_scope.
  Add Ring Rr14 : (rth R).

  Definition v3 (n0 n1 n2 : nat) (f : nat -> nat -> nat -> R) : list R :=
    tab (n0 * n1 * n2) (fun p => f (p mod n0) ((p / n0) mod n1) (p / (n0 * n1))).

  Lemma v3_get n0 n1 n2 f i j k :
    i < n0 -> j < n1 -> k < n2 -> nth_error (v3 n0 n1 n2 f) (i + j * n0 + k * n0 * n1) = Some (f i j k).
  Proof.
    intros Hi Hj Hk. unfold v3. rewrite nth_error_tab by now apply idx3_lt.
    now rewrite idx3_0, idx3_1, idx3_2 by auto.
  Qed.

  Lemma v3_aget n0 n1 n2 f i j k :
    i < n0 -> j < n1 -> k < n2 -> aget (v3 n0 n1 n2 f) (i + j * n0 + k * n0 * n1) = Ok (f i j k).
  Proof. intros. apply aget_ok. now apply v3_get. Qed.

  Lemma v3_length n0 n1 n2 f : length (v3 n0 n1 n2 f) = n0 * n1 * n2.
  Proof. apply tab_length. Qed.

  Lemma v3_ext n0 n1 n2 f g :
    (forall i j k, i < n0 -> j < n1 -> k < n2 -> f i j k = g i j k) -> v3 n0 n1 n2 f = v3 n0 n1 n2 g.
  Proof.
    intros H. apply tab_ext. intros p Hp. destruct (idx3_split n0 n1 n2 p Hp) as (i & j & k & Hi & Hj & Hk & ->).
    rewrite idx3_0, idx3_1, idx3_2 by auto. auto.
  Qed.

  Definition mk3 (n0 n1 n2 : nat) (f : nat -> nat -> nat -> R) : tensor R :=
    mktn 3 [n0; n1; n2] (v3 n0 n1 n2 f).

  (** Any well-shaped three-way tensor has this form. *)
  Lemma mk3_canon t n0 n1 n2 :
    t_dim t = 3 -> t_nvals t = [n0; n1; n2] -> length (t_vals t) = n0 * n1 * n2 ->
    t = mk3 n0 n1 n2 (tent t).
  Proof.
    intros Hd Hn Hl. destruct t as [d n v]. simpl in *. subst. unfold mk3. f_equal.
    unfold v3. rewrite (list_eq_tab_nth r0 v) at 1. rewrite Hl. apply tab_ext. intros p Hp.
    destruct (idx3_split n0 n1 n2 p Hp) as (i & j & k & Hi & Hj & Hk & ->).
    rewrite idx3_0, idx3_1, idx3_2 by auto. reflexivity.
  Qed.

  Lemma tent_mk3 n0 n1 n2 f i j k : i < n0 -> j < n1 -> k < n2 -> tent (mk3 n0 n1 n2 f) i j k = f i j k.
  Proof.
    intros Hi Hj Hk. unfold tent, mk3. simpl t_nvals. simpl t_vals. cbn [nth].
    apply nth_error_nth. now apply v3_get.
  Qed.

  (** Filling a three-way array completely. *)
  Lemma v3_fill n0 n1 n2 f N l (F : list R -> outcome (list R)) :
    N = n0 * n1 * n2 -> length l = N ->
    (forall T, (forall i j k, i < n0 -> j < n1 -> k < n2 -> T (i + j * n0 + k * n0 * n1) = f i j k) ->
       exists P : nat -> Prop, wrf T N P F /\
         forall i j k, i < n0 -> j < n1 -> k < n2 -> P (i + j * n0 + k * n0 * n1)) ->
    F l = Ok (v3 n0 n1 n2 f).
  Proof.
    intros -> HL HF.
    destruct (HF (fun p => f (p mod n0) ((p / n0) mod n1) (p / (n0 * n1)))) as [P [HW HP]].
    { intros i j k Hi Hj Hk. now rewrite idx3_0, idx3_1, idx3_2 by auto. }
    unfold v3. apply (wrf_full _ _ _ _ _ HW HL).
    intros p Hp. destruct (idx3_split n0 n1 n2 p Hp) as (i & j & k & Hi & Hj & Hk & ->). auto.
  Qed.

  Lemma dims3_mk3 n0 n1 n2 f : dims3 (mk3 n0 n1 n2 f) = Ok (n0, n1, n2).
  Proof. reflexivity. Qed.

  Lemma iprod3 a b c : iprod [a; b; c] = a * b * c.
  Proof. unfold iprod. simpl. lia. Qed.

  Lemma zeros_v3 n0 n1 n2 : @repeat R r0 (n0 * n1 * n2) = v3 n0 n1 n2 (fun _ _ _ => r0).
  Proof. rewrite repeat_tab. reflexivity. Qed.

  Lemma stack2h_ok a0 a1 a2 f b2 g :
    stack2h (mk3 a0 a1 a2 f) (mk3 a0 a1 b2 g)
    = Ok (mk3 a0 a1 (a2 + b2) (fun i j k => if k <? a2 then f i j k else g i j (k - a2))).
  Proof.
    unfold stack2h. rewrite !dims3_mk3. cbn [obind]. rewrite iprod3.
    assert (E : (do v <- blit (repeat r0 (a0 * a1 * (a2 + b2))) 0 (t_vals (mk3 a0 a1 a2 f)) 0 (a0 * a1 * a2);
                 blit v (a0 * a1 * a2) (t_vals (mk3 a0 a1 b2 g)) 0 (a0 * a1 * b2))
        = Ok (v3 a0 a1 (a2 + b2) (fun i j k => if k <? a2 then f i j k else g i j (k - a2)))).
    - apply (v3_fill a0 a1 (a2 + b2) _ (a0 * a1 * (a2 + b2)) _
        (fun l => do v <- blit l 0 (t_vals (mk3 a0 a1 a2 f)) 0 (a0 * a1 * a2);
                  blit v (a0 * a1 * a2) (t_vals (mk3 a0 a1 b2 g)) 0 (a0 * a1 * b2))); auto.
      + apply repeat_length.
      + intros T HT. eexists; split.
        * apply wrf_bind; apply wrf_blit; intros p Hp; (split; [nia|]); simpl t_vals.
          -- destruct (idx3_split a0 a1 a2 p Hp) as (i & j & k & Hi & Hj & Hk & ->).
             rewrite !Nat.add_0_l. rewrite v3_get, HT by (auto; lia). natcase. reflexivity.
          -- destruct (idx3_split a0 a1 b2 p Hp) as (i & j & k & Hi & Hj & Hk & ->).
             rewrite Nat.add_0_l. rewrite v3_get by auto.
             replace (a0 * a1 * a2 + (i + j * a0 + k * a0 * a1)) with (i + j * a0 + (a2 + k) * a0 * a1) by lia.
             rewrite HT by lia. natcase. now replace (a2 + k - a2) with k by lia.
        * intros i j k Hi Hj Hk. cbv beta. destruct (Nat.lt_ge_cases k a2) as [H|H].
          -- left. eexists. split; [|reflexivity]. now apply idx3_lt.
          -- right. exists (i + j * a0 + (k - a2) * a0 * a1). split; [apply idx3_lt; lia|].
             replace k with (a2 + (k - a2)) at 2 by lia. nia.
    - revert E. match goal with |- context [blit ?a ?b ?c ?d ?e] => destruct (blit a b c d e) end;
        cbn [obind]; intros E; try discriminate. rewrite E. reflexivity.
  Qed.

  Lemma stack2v_ok a0 a1 a2 f b0 g :
    stack2v (mk3 a0 a1 a2 f) (mk3 b0 a1 a2 g)
    = Ok (mk3 (a0 + b0) a1 a2 (fun i j k => if i <? a0 then f i j k else g (i - a0) j k)).
  Proof.
    unfold stack2v. rewrite !dims3_mk3. cbn [obind].
    change (aget (t_nvals (mk3 b0 a1 a2 g)) 0) with (Ok b0). cbn [obind]. rewrite iprod3.
    rewrite (v3_fill (a0 + b0) a1 a2 (fun i j k => if i <? a0 then f i j k else g (i - a0) j k)
              ((a0 + b0) * a1 * a2)); auto.
    - apply repeat_length.
    - intros T HT. eexists; split.
      + eapply wrf_for. intros j Hj. eapply wrf_for. intros k Hk. apply wrf_bind; apply wrf_blit.
        * intros i Hi. replace (j * (a0 + b0) + k * (a0 + b0) * a1 + i)
            with (i + j * (a0 + b0) + k * (a0 + b0) * a1) by lia.
          split; [apply idx3_lt; lia|]. rewrite HT by lia. natcase.
          replace (j * a0 + k * a0 * a1 + i) with (i + j * a0 + k * a0 * a1) by lia. now apply v3_get.
        * intros i Hi. replace (a0 + j * (a0 + b0) + k * (a0 + b0) * a1 + i)
            with ((a0 + i) + j * (a0 + b0) + k * (a0 + b0) * a1) by lia.
          split; [apply idx3_lt; lia|]. rewrite HT by lia. natcase.
          replace (j * b0 + k * b0 * a1 + i) with (i + j * b0 + k * b0 * a1) by lia.
          replace (a0 + i - a0) with i by lia. now apply v3_get.
      + intros i j k Hi Hj Hk. cbv beta. exists j; split; auto. exists k; split; auto.
        destruct (Nat.lt_ge_cases i a0) as [H|H].
        * left. exists i. split; auto. lia.
        * right. exists (i - a0). split; lia.
  Qed.

  Lemma blockdiag3_ok a0 a1 a2 f b0 b2 g :
    blockdiag3 (mk3 a0 a1 a2 f) (mk3 b0 a1 b2 g)
    = Ok (mk3 (a0 + b0) a1 (a2 + b2) (fun i j k =>
        if i <? a0 then (if k <? a2 then f i j k else r0)
        else (if k <? a2 then r0 else g (i - a0) j (k - a2)))).
  Proof.
    unfold blockdiag3. rewrite !dims3_mk3. cbn [obind].
    assert (EZ : forall x y z, init_tensor [x; y; z] = mk3 x y z (fun _ _ _ => (r0 : R))).
    { intros. unfold init_tensor, mk3. rewrite iprod3, zeros_v3. reflexivity. }
    rewrite !EZ. rewrite stack2h_ok. cbn [obind]. rewrite stack2h_ok. cbn [obind].
    rewrite stack2v_ok. reflexivity.
  Qed.

  (** kron_col, writing into a larger array with offset and stride *)
  Lemma kron_col_wrf (T : nat -> R) N n m a oa lda k l b ob ldb oo ldc (A B : nat -> nat -> R) :
    (forall i j, i < n -> j < m -> nth_error a (oa + (j * lda + i)) = Some (A i j)) ->
    (forall i j, i < k -> j < l -> nth_error b (ob + (j * ldb + i)) = Some (B i j)) ->
    (forall i j p q, i < n -> j < m -> p < k -> q < l ->
       oo + ((j * l + q) * ldc + (i * k + p)) < N /\
       T (oo + ((j * l + q) * ldc + (i * k + p))) = A i j *! B p q) ->
    wrf T N (fun z => exists i j p q, i < n /\ j < m /\ p < k /\ q < l /\
              oo + ((j * l + q) * ldc + (i * k + p)) = z)
      (fun out => kron_col n m a oa lda k l b ob ldb out oo ldc).
  Proof.
    intros HA HB HT.
    assert (W : wrf T N (fun z => exists i, i < n /\ exists j, j < m /\ exists p, p < k /\ exists q, q < l /\
              oo + ((j * l + q) * ldc + (i * k + p)) = z)
      (fun out => kron_col n m a oa lda k l b ob ldb out oo ldc)).
    { unfold kron_col.
      apply (wrf_for T N (fun i z => exists j, j < m /\ exists p, p < k /\ exists q, q < l /\
              oo + ((j * l + q) * ldc + (i * k + p)) = z)). intros i Hi.
      apply (wrf_for T N (fun j z => exists p, p < k /\ exists q, q < l /\
              oo + ((j * l + q) * ldc + (i * k + p)) = z)). intros j Hj.
      apply (wrf_for T N (fun p z => exists q, q < l /\
              oo + ((j * l + q) * ldc + (i * k + p)) = z)). intros p Hp.
      apply (wrf_for T N (fun q z => oo + ((j * l + q) * ldc + (i * k + p)) = z)). intros q Hq.
      destruct (HT i j p q Hi Hj Hp Hq) as [H1 H2].
      eapply wrf_get; [apply aget_ok, HA; auto|]. eapply wrf_get; [apply aget_ok, HB; auto|].
      apply wrf_aset; auto. }
    intros L HL. destruct (W L HL) as (L' & E & W'). exists L'. split; auto.
    eapply wr_equiv; [|exact W']. intros z. split.
    - intros (i & Hi & j & Hj & p & Hp & q & Hq & E'). exists i, j, p, q. auto.
    - intros (i & j & p & q & Hi & Hj & Hp & Hq & E'). exists i; split; auto. exists j; split; auto.
      exists p; split; auto. exists q; split; auto.
  Qed.

  Lemma kron3_ok a0 n a2 f b0 b2 g :
    kron3 (mk3 a0 n a2 f) (mk3 b0 n b2 g)
    = Ok (mk3 (a0 * b0) n (a2 * b2) (fun i e j =>
        f (i / b0) e (j / b2) *! g (i mod b0) e (j mod b2))).
  Proof.
    unfold kron3. rewrite !dims3_mk3. cbn [obind]. rewrite iprod3.
    rewrite (v3_fill (a0 * b0) n (a2 * b2) (fun i e j =>
        f (i / b0) e (j / b2) *! g (i mod b0) e (j mod b2)) (a0 * b0 * n * (a2 * b2))); auto.
    - apply repeat_length.
    - intros T HT. eexists; split.
      + eapply wrf_for. intros e He.
        apply (kron_col_wrf T _ a0 a2 _ (e * a0) (a0 * n) b0 b2 _ (e * b0) (b0 * n) (e * (a0 * b0))
                 (a0 * b0 * n) (fun i j => f i e j) (fun i j => g i e j)).
        * intros i j Hi Hj. simpl t_vals.
          replace (e * a0 + (j * (a0 * n) + i)) with (i + e * a0 + j * a0 * n) by lia. now apply v3_get.
        * intros i j Hi Hj. simpl t_vals.
          replace (e * b0 + (j * (b0 * n) + i)) with (i + e * b0 + j * b0 * n) by lia. now apply v3_get.
        * intros i j p q Hi Hj Hp Hq.
          replace (e * (a0 * b0) + ((j * b2 + q) * (a0 * b0 * n) + (i * b0 + p)))
            with ((i * b0 + p) + e * (a0 * b0) + (j * b2 + q) * (a0 * b0) * n) by lia.
          assert (i * b0 + p < a0 * b0) by now apply idx_lt.
          assert (j * b2 + q < a2 * b2) by now apply idx_lt.
          split; [now apply idx3_lt|]. rewrite HT by auto. now rewrite !idx_div, !idx_mod by auto.
      + intros i e j Hi He Hj. cbv beta. exists e; split; auto.
        destruct (idx_split i b0 a0) as (i1 & p & Hi1 & Hp & ->); [lia|].
        destruct (idx_split j b2 a2) as (j1 & q & Hj1 & Hq & ->); [lia|].
        exists i1, j1, p, q. repeat split; auto. lia.
  Qed.

  Lemma copy3_ok n0 n1 n2 f : copy3 (mk3 n0 n1 n2 f) false = Ok (mk3 n0 n1 n2 f).
  Proof.
    unfold copy3. rewrite dims3_mk3. cbn [obind negb]. rewrite iprod3. simpl t_vals.
    rewrite (v3_fill n0 n1 n2 f (n0 * n1 * n2) _
      (fun l => blit l 0 (v3 n0 n1 n2 f) 0 (n0 * n1 * n2))); auto.
    - apply repeat_length.
    - intros T HT. eexists; split.
      + apply wrf_blit. intros p Hp. simpl Nat.add. split; auto.
        destruct (idx3_split n0 n1 n2 p Hp) as (i & j & k & Hi & Hj & Hk & ->).
        rewrite v3_get, HT by auto. reflexivity.
      + intros i j k Hi Hj Hk. cbv beta. eexists. split; [|reflexivity]. now apply idx3_lt.
  Qed.

  (** The transposed copy: right data, but the mode sizes of the original. *)
  Lemma copy3_transposed n0 n1 n2 f :
    copy3 (mk3 n0 n1 n2 f) true
    = Ok (mktn 3 [n0; n1; n2] (v3 n2 n1 n0 (fun i j k => f k j i))).
  Proof.
    unfold copy3. rewrite dims3_mk3. cbn [obind negb]. rewrite iprod3. simpl t_vals.
    rewrite (v3_fill n2 n1 n0 (fun i j k => f k j i) (n0 * n1 * n2)); auto; [lia|apply repeat_length|].
    intros T HT. eexists; split.
    - eapply wrf_for. intros i Hi. eapply wrf_for. intros j Hj. eapply wrf_for. intros k Hk.
      eapply wrf_get.
      + replace (k + j * n0 + i * n1 * n0) with (k + j * n0 + i * n0 * n1) by lia. now apply v3_aget.
      + apply wrf_aset.
        * pose proof (idx3_lt n2 n1 n0 i j k Hi Hj Hk). nia.
        * now rewrite HT by auto.
    - intros i j k Hi Hj Hk. cbv beta. exists i; split; auto. exists j; split; auto. exists k; split; auto.
  Qed.

  Lemma ones3_ok a b c : ones3 a b c = Ok (mk3 a b c (fun _ _ _ => r1)).
  Proof.
    unfold ones3. rewrite iprod3. rewrite repeat_tab. unfold for_.
    rewrite (loop_tab1 _ _ (fun _ => r1)).
    - cbn [obind]. unfold mk3, v3. do 2 f_equal. apply tab_ext. intros; natcase; reflexivity.
    - intros k r Hk. apply aset_tab. lia.
  Qed.

  Lemma sum2_ok n0 n1 n2 f w :
    n1 <= length w ->
    sum2 (mk3 n0 n1 n2 f) w
    = Ok (tab (n2 * n0) (fun p => sum n1 (fun e => nth e w r0 *! f (p mod n0) e (p / n0)))).
  Proof.
    intros Hw. unfold sum2. rewrite dims3_mk3. cbn [obind]. rewrite (Nat.mul_comm n0 n2), repeat_tab.
    apply (for_det (fun ii => tab (n2 * n0) (fun p => sum ii (fun e => nth e w r0 *! f (p mod n0) e (p / n0))))).
    intros e He. rewrite (upd_pass n2 n0 _ (fun j i c => c +! nth e w r0 *! f i e j)).
    - f_equal.
    - intros j i l Hj Hi. destruct (aget l (j * n0 + i)); cbn [obind]; auto.
      rewrite (aget_ok w e (nth e w r0)) by (apply nth_error_nth'; lia). cbn [obind].
      simpl t_vals. rewrite v3_aget by auto. reflexivity.
  Qed.

  (** * BLAS *)
  Lemma dot_loop K (a b : list R) (ia ib : nat -> nat) (A B : nat -> R) :
    (forall p, p < K -> nth_error a (ia p) = Some (A p)) ->
    (forall p, p < K -> nth_error b (ib p) = Some (B p)) ->
    for_ K (fun p s => do x <- aget a (ia p); do y <- aget b (ib p); Ok (s +! x *! y)) r0
    = Ok (sum K (fun p => A p *! B p)).
  Proof.
    intros HA HB. apply (for_det (fun i => sum i (fun p => A p *! B p))).
    intros p Hp. rewrite (aget_ok _ _ _ (HA p Hp)). cbn [obind]. rewrite (aget_ok _ _ _ (HB p Hp)).
    reflexivity.
  Qed.

  Lemma dgemm_rnt_ok M N K a oa lda b ob ldb beta (h : nat -> R) (A B : nat -> nat -> R) :
    0 < N -> 0 < K -> K <= lda -> K <= ldb ->
    (forall i p, i < M -> p < K -> nth_error a (oa + (i * lda + p)) = Some (A i p)) ->
    (forall j p, j < N -> p < K -> nth_error b (ob + (j * ldb + p)) = Some (B j p)) ->
    dgemm_rnt M N K a oa lda b ob ldb beta (tab (M * N) h) N
    = Ok (tab (M * N) (fun q => sum K (fun p => A (q / N) p *! B (q mod N) p) +! beta *! h q)).
  Proof.
    intros HN HK Hla Hlb HA HB. unfold dgemm_rnt.
    destruct (Nat.leb_spec (Nat.max 1 K) lda); [|lia]. cbn [cassert obind].
    destruct (Nat.leb_spec (Nat.max 1 K) ldb); [|lia]. cbn [cassert obind].
    destruct (Nat.leb_spec (Nat.max 1 N) N); [|lia]. cbn [cassert obind].
    rewrite (upd_pass M N h (fun i j c => sum K (fun p => A i p *! B j p) +! beta *! c)); auto.
    intros i j l Hi Hj.
    rewrite (dot_loop K a b (fun p => oa + (i * lda + p)) (fun p => ob + (j * ldb + p)) (A i) (B j)); auto.
  Qed.

  (** vec_kron when the two second factors have equally many columns *)
  Lemma vec_kron_ok m n a oa lda k l b ob ldb v scale (h : nat -> R) (A B V : nat -> nat -> R) :
    0 < m -> 0 < k -> 0 < l -> n = l -> m <= lda -> k <= ldb ->
    (forall i j, i < m -> j < n -> nth_error a (oa + (j * lda + i)) = Some (A i j)) ->
    (forall i j, i < k -> j < l -> nth_error b (ob + (j * ldb + i)) = Some (B i j)) ->
    (forall i p, i < m -> p < k -> nth_error v (i * k + p) = Some (V i p)) ->
    vec_kron m n a oa lda k l b ob ldb v scale (tab (n * l) h)
    = Ok (tab (n * l) (fun q =>
        sum m (fun i => A i (q / l) *! sum k (fun p => B p (q mod l) *! V i p)) +! scale *! h q)).
  Proof.
    intros Hm Hk Hl En Hla Hlb HA HB HV. unfold vec_kron.
    rewrite (Nat.mul_comm m l), repeat_tab.
    rewrite (dgemm_rnt_ok l m k b ob ldb v 0 k r0 (fun _ => r0) (fun j p => B p j) V); auto.
    cbn [obind]. rewrite En at 3. subst n.
    rewrite (dgemm_rnt_ok l l m a oa lda _ 0 m scale h (fun j i => A i j)
              (fun j i => sum k (fun p => B p j *! V i p))); auto.
    intros j i Hj Hi. rewrite nth_error_tab by (simpl; now apply idx_lt). simpl Nat.add.
    rewrite idx_div, idx_mod by auto. f_equal. ring.
  Qed.

  Lemma dgemv_tx_ok m n a oa lda x ox incx (A : nat -> nat -> R) (X : nat -> R) :
    0 < m -> m <= lda -> 0 < incx ->
    (forall i j, i < m -> j < n -> nth_error a (oa + (j * lda + i)) = Some (A i j)) ->
    (forall i, i < m -> nth_error x (ox + i * incx) = Some (X i)) ->
    dgemv_tx m n a oa lda x ox incx = Ok (tab n (fun j => sum m (fun i => A i j *! X i))).
  Proof.
    intros Hm Hla Hinc HA HX. unfold dgemv_tx.
    destruct (Nat.leb_spec (Nat.max 1 m) lda); [|lia]. cbn [cassert obind].
    destruct (Nat.eqb_spec incx 0); [lia|]. cbn [negb cassert obind].
    rewrite repeat_tab. unfold for_ at 1.
    rewrite (loop_tab1 _ _ (fun j => sum m (fun i => A i j *! X i))).
    - f_equal. apply tab_ext. intros; natcase; reflexivity.
    - intros j r Hj.
      rewrite (dot_loop m a x (fun i => oa + (j * lda + i)) (fun i => ox + i * incx) (fun i => A i j) X); auto.
      + cbn [obind]. apply aset_tab. lia.
      + intros i Hi. apply HA; auto. lia.
  Qed.
End TensorFacts.
