(** The array code of OrthModel.v computes the families of OrthAbs.v. *)
From Coq Require Import Reals Lra.
From Verif Require Export OrthModel OrthAbs Fill LinComb.
Open Scope R_scope.

(** An array that stores a family of vectors; entry [k] of vector [i] at [p i k]. *)
Definition layout (n len : nat) (p : nat -> nat -> nat) (N : nat) : Prop :=
  (forall i k, (i < n)%nat -> (k < len)%nat -> (p i k < N)%nat) /\
  (forall i k i' k', (i < n)%nat -> (k < len)%nat -> (i' < n)%nat -> (k' < len)%nat ->
     p i k = p i' k' -> i = i' /\ k = k').

Definition onto (n len : nat) (p : nat -> nat -> nat) (N : nat) : Prop :=
  forall q, (q < N)%nat -> exists i k, (i < n)%nat /\ (k < len)%nat /\ q = p i k.

Section Rep.
  Context {A : Type} (n len : nat) (p : nat -> nat -> nat) (N : nat).
  Definition rep (l : list A) (g : nat -> nat -> A) : Prop :=
    length l = N /\ forall i k, (i < n)%nat -> (k < len)%nat -> nth_error l (p i k) = Some (g i k).
  Hypothesis L : layout n len p N.

  Lemma rep_ext l g g' : rep l g -> (forall i k, (i < n)%nat -> (k < len)%nat -> g i k = g' i k) -> rep l g'.
  Proof. intros [H1 H2] E. split; [exact H1|]. intros i k Hi Hk. rewrite H2, E by auto. reflexivity. Qed.

  Lemma rep_get l g i k : rep l g -> (i < n)%nat -> (k < len)%nat -> aget l (p i k) = Ok (g i k).
  Proof. intros [_ H] Hi Hk. apply aget_ok. auto. Qed.

  Lemma rep_set l g i k x : rep l g -> (i < n)%nat -> (k < len)%nat ->
    exists l', aset l (p i k) x = Ok l' /\
      rep l' (fun i' k' => if (i' =? i)%nat && (k' =? k)%nat then x else g i' k').
  Proof.
    intros [H1 H2] Hi Hk. destruct L as [L1 L2].
    exists (upd l (p i k) x). split; [apply aset_ok; rewrite H1; auto|].
    split; [now rewrite upd_length|]. intros i' k' Hi' Hk'. rewrite nth_error_upd by (rewrite H1; auto).
    destruct (Nat.eqb_spec (p i k) (p i' k')) as [E|E].
    - destruct (L2 _ _ _ _ Hi Hk Hi' Hk' E) as [-> ->]. now rewrite !Nat.eqb_refl.
    - rewrite H2 by auto. destruct (Nat.eqb_spec i' i) as [->|]; [|reflexivity].
      destruct (Nat.eqb_spec k' k) as [->|]; [|reflexivity]. congruence.
  Qed.

  (** A loop that overwrites vector [i]. *)
  Lemma row_loop i (F : nat -> A) body l g :
    (i < n)%nat -> rep l g ->
    (forall k l', (k < len)%nat ->
       rep l' (updf g i (fun q => if (q <? k)%nat then F q else g i q)) ->
       exists l'', body k l' = Ok l'' /\
         rep l'' (updf g i (fun q => if (q <? S k)%nat then F q else g i q))) ->
    exists l', for_ len body l = Ok l' /\ rep l' (updf g i F).
  Proof.
    intros Hi Hr Hb.
    destruct (for_inv (fun k l' => rep l' (updf g i (fun q => if (q <? k)%nat then F q else g i q))) body len l)
      as (l' & E & H).
    - apply (rep_ext _ _ _ Hr). intros i' k' _ _. unfold updf. destruct (Nat.eqb_spec i' i) as [->|]; [|reflexivity].
      reflexivity.
    - intros k l' Hk H. exact (Hb k l' Hk H).
    - exists l'. split; [exact E|]. apply (rep_ext _ _ _ H). intros i' k' Hi' Hk'. unfold updf.
      destruct (i' =? i)%nat; [|reflexivity]. replace (k' <? len)%nat with true by (symmetry; apply Nat.ltb_lt; auto). reflexivity.
  Qed.

  (** One step of such a loop. *)
  Lemma row_set i k (F : nat -> A) g l' x :
    (i < n)%nat -> (k < len)%nat ->
    rep l' (updf g i (fun q => if (q <? k)%nat then F q else g i q)) -> x = F k ->
    exists l'', aset l' (p i k) x = Ok l'' /\
         rep l'' (updf g i (fun q => if (q <? S k)%nat then F q else g i q)).
  Proof.
    intros Hi Hk Hr ->. destruct (rep_set _ _ i k (F k) Hr Hi Hk) as (l'' & E & H).
    exists l''. split; [exact E|]. apply (rep_ext _ _ _ H). intros i' k' Hi' Hk'. unfold updf.
    destruct (Nat.eqb_spec i' i) as [->|]; [|reflexivity]. cbn [andb].
    destruct (Nat.eqb_spec k' k) as [->|].
    - replace (k <? S k)%nat with true by (symmetry; apply Nat.ltb_lt; lia). reflexivity.
    - destruct (Nat.ltb_spec k' k), (Nat.ltb_spec k' (S k)); auto; lia.
  Qed.
End Rep.

Lemma layout_col n len : layout n len (fun i k => i * len + k)%nat (n * len).
Proof.
  split.
  - intros i k Hi Hk. now apply idx_lt.
  - intros i k i' k' Hi Hk Hi' Hk' E. pose proof (f_equal (fun q => (q / len)%nat) E) as E1. cbv beta in E1.
    rewrite !idx_div in E1 by auto. subst i'. lia.
Qed.
Lemma layout_row n len : layout n len (fun i k => k * n + i)%nat (n * len).
Proof.
  split.
  - intros i k Hi Hk. rewrite (Nat.mul_comm n len). now apply idx_lt.
  - intros i k i' k' Hi Hk Hi' Hk' E. pose proof (f_equal (fun q => (q / n)%nat) E) as E1. cbv beta in E1.
    rewrite !idx_div in E1 by auto. subst k'. lia.
Qed.
Lemma onto_col n len : onto n len (fun i k => i * len + k)%nat (n * len).
Proof. intros q Hq. destruct (idx_split q len n Hq) as (j & i & Hj & Hi & E). exists j, i. auto. Qed.
Lemma onto_row n len : onto n len (fun i k => k * n + i)%nat (n * len).
Proof. intros q Hq. rewrite Nat.mul_comm in Hq. destruct (idx_split q n len Hq) as (j & i & Hj & Hi & E). exists i, j. auto. Qed.

Lemma for_from_app {S} (b : nat -> S -> outcome S) lo m k s :
  for_from lo (m + k)%nat b s = (do s' <- for_from lo m b s; for_from (lo + m)%nat k b s').
Proof.
  revert lo s; induction m as [|m IH]; intros lo s.
  - cbn. now rewrite Nat.add_0_r.
  - cbn [for_from Nat.add]. destruct (b lo s); cbn [obind]; try reflexivity. rewrite IH. now rewrite Nat.add_succ_r.
Qed.

Lemma rsum_sum n (f : nat -> R) : rsum n f = sum (R := Rring) n f.
Proof. induction n as [|n IH]; [reflexivity|]. cbn [rsum sum]. rewrite IH. reflexivity. Qed.

Section Facts.
  Context {U : uops Rring} (W : vops U) (zro : R).
  Notation inner := (fun f g : U => uinner f g : R).

  (** Linear functionals on univariate functions. *)
  Definition vlin (phi : U -> R) : Prop :=
    (forall a x y, phi (vaxpy W a x y) = a * phi x + phi y) /\
    (forall a x, phi (vscale W a x) = a * phi x) /\
    (forall x, phi (vflip W x) = - phi x) /\
    (forall a x b y, phi (vwsum W a x b y) = a * phi x + b * phi y).

  (** The inner product is symmetric, bilinear and positive. *)
  Definition inner_laws : Prop :=
    (forall f g, inner f g = inner g f) /\
    (forall g, vlin (fun f => inner f g)) /\
    (forall f, 0 <= inner f f).
  Hypothesis LAW : inner_laws.

  Section Vec.
    Variable len : nat.
    Definition vec := nat -> U.
    Definition IP (x y : vec) : R := rsum len (fun k => inner (x k) (y k)).
    Definition Axpy (a : R) (x y : vec) : vec := fun k => vaxpy W a (x k) (y k).
    Definition Scale (a : R) (x : vec) : vec := fun k => vscale W a (x k).
    Definition Flip (x : vec) : vec := fun k => vflip W (x k).
    Definition Wsum (a : R) (x : vec) (b : R) (y : vec) : vec := fun k => vwsum W a (x k) b (y k).

    Lemma IP_sym x y : IP x y = IP y x.
    Proof. apply rsum_ext. intros. apply LAW. Qed.
    Lemma IP_lin w : lin vec Axpy Scale Flip Wsum (fun x => IP x w).
    Proof.
      destruct LAW as (_ & HL & _). unfold IP.
      split; [|split; [|split]]; intros.
      - rewrite <- rsum_scal, <- rsum_add. apply rsum_ext. intros i _. destruct (HL (w i)) as (H & _). apply H.
      - rewrite <- rsum_scal. apply rsum_ext. intros i _. destruct (HL (w i)) as (_ & H & _). apply H.
      - replace (- rsum len (fun k => inner (x k) (w k))) with (-1 * rsum len (fun k => inner (x k) (w k))) by lra.
        rewrite <- rsum_scal. apply rsum_ext. intros i _. destruct (HL (w i)) as (_ & _ & H & _).
        unfold Flip. pose proof (H (x i)) as E. cbv beta in E. rewrite E. lra.
      - rewrite <- !rsum_scal, <- rsum_add. apply rsum_ext. intros i _. destruct (HL (w i)) as (_ & _ & _ & H). apply H.
    Qed.
    Lemma IP_pos x : 0 <= IP x x.
    Proof. apply rsum_pos. intros. apply LAW. Qed.
    Lemma comp_lin phi k : vlin phi -> lin vec Axpy Scale Flip Wsum (fun x => phi (x k)).
    Proof. intros (H1 & H2 & H3 & H4). split; [|split; [|split]]; intros; cbv beta; [apply H1|apply H2|apply H3|apply H4]. Qed.
    Lemma comp_nul (phi : U -> R) k : (k < len)%nat -> (forall f, inner f f = 0 -> phi f = 0) -> nul vec IP (fun x => phi (x k)).
    Proof. intros Hk H x Hx. apply H. apply (rsum_null len (fun k => inner (x k) (x k))); auto. intros. apply LAW. Qed.
    Lemma IP_ext x y x' y' : (forall k, (k < len)%nat -> x k = x' k) -> (forall k, (k < len)%nat -> y k = y' k) -> IP x y = IP x' y'.
    Proof. intros H1 H2. apply rsum_ext. intros k Hk. rewrite H1, H2 by auto. reflexivity. Qed.

    (** Array helpers on vectors. *)
    Lemma inner_vec a oa lda b ob ldb (x y : vec) :
      (forall k, (k < len)%nat -> nth_error a (oa + k * lda)%nat = Some (x k)) ->
      (forall k, (k < len)%nat -> nth_error b (ob + k * ldb)%nat = Some (y k)) ->
      inner_sum len lda a oa ldb b ob = Ok (IP x y).
    Proof. intros H1 H2. rewrite (inner_sum_ok _ _ _ _ _ _ _ x y H1 H2). unfold IP. rewrite rsum_sum. reflexivity. Qed.

    Lemma norm_vec a oa lda (x : vec) :
      (forall k, (k < len)%nat -> nth_error a (oa + k * lda)%nat = Some (x k)) ->
      array_norm len lda a oa = Ok (sqrt (IP x x)).
    Proof.
      intros H. unfold array_norm.
      etransitivity; [|reflexivity].
      assert (E : for_ len (fun ii (val : R) => do f <- aget a (oa + lda * ii)%nat; do x0 <- gf_norm f; Ok (val + x0 * x0)) 0
                  = Ok (rsum len (fun k => inner (x k) (x k)))).
      { apply (for_det (fun i => rsum i (fun k => inner (x k) (x k)))). intros i Hi.
        rewrite (Nat.mul_comm lda i). rewrite (aget_ok _ _ _ (H i Hi)). cbn [obind]. unfold gf_norm.
        pose proof (proj2 (proj2 LAW) (x i)) as P. cbv beta in P.
        destruct (Rltb_spec (uinner (x i) (x i) : R) 0) as [N|N]; [exfalso; apply (Rlt_not_le _ _ N); exact P|].
        cbn [obind rsum]. f_equal. f_equal. apply sqrt_sqrt. exact P. }
      rewrite E. reflexivity.
    Qed.

    Section Layout0.
      Variables n si sk : nat.
      Notation p := (fun i k => i * si + k * sk)%nat.
      Variable N : nat.
      Hypothesis L : layout n len p N.

      Lemma scale_rep c (a : list U) g i :
        rep n len p N a g -> (i < n)%nat ->
        exists a', array_scale W c a (i * si)%nat sk len = Ok a' /\ rep n len p N a' (updf g i (Scale c (g i))).
      Proof.
        intros Hr Hi. apply (row_loop n len p N i (Scale c (g i)) _ a g Hi Hr).
        intros k l' Hk Hl. pose proof (rep_get _ _ _ _ _ _ i k Hl Hi Hk) as Eg. cbv beta in Eg. rewrite Eg. cbn [obind].
        apply (row_set n len p N L i k (Scale c (g i)) g l'); auto.
        rewrite updf_eq, Nat.ltb_irrefl. reflexivity.
      Qed.
      Lemma flip_rep (a : list U) g i :
        rep n len p N a g -> (i < n)%nat ->
        exists a', array_flip_sign W len sk a (i * si)%nat = Ok a' /\ rep n len p N a' (updf g i (Flip (g i))).
      Proof.
        intros Hr Hi. apply (row_loop n len p N i (Flip (g i)) _ a g Hi Hr).
        intros k l' Hk Hl. pose proof (rep_get _ _ _ _ _ _ i k Hl Hi Hk) as Eg. cbv beta in Eg. rewrite Eg. cbn [obind].
        apply (row_set n len p N L i k (Flip (g i)) g l'); auto.
        rewrite updf_eq, Nat.ltb_irrefl. reflexivity.
      Qed.
      Lemma axpy_in_rep c (a : list U) g i j :
        rep n len p N a g -> (i < n)%nat -> (j < n)%nat -> i <> j ->
        exists a', array_axpy_in W len c a (i * si)%nat (j * si)%nat sk = Ok a' /\
          rep n len p N a' (updf g j (Axpy c (g i) (g j))).
      Proof.
        intros Hr Hi Hj Hij. apply (row_loop n len p N j (Axpy c (g i) (g j)) _ a g Hj Hr).
        intros k l' Hk Hl. pose proof (rep_get _ _ _ _ _ _ i k Hl Hi Hk) as Eg. cbv beta in Eg. rewrite Eg. cbn [obind].
        pose proof (rep_get _ _ _ _ _ _ j k Hl Hj Hk) as Eg2. cbv beta in Eg2. rewrite Eg2. cbn [obind].
        apply (row_set n len p N L j k (Axpy c (g i) (g j)) g l'); auto.
        rewrite updf_eq, Nat.ltb_irrefl, updf_ne by auto. reflexivity.
      Qed.
      Lemma axpy_rep c (x : list U) ox ldx (xv : vec) (a : list U) g j :
        (forall k, (k < len)%nat -> nth_error x (ox + k * ldx)%nat = Some (xv k)) ->
        rep n len p N a g -> (j < n)%nat ->
        exists a', array_axpy W len c x ox ldx a (j * si)%nat sk = Ok a' /\
          rep n len p N a' (updf g j (Axpy c xv (g j))).
      Proof.
        intros Hx Hr Hj. apply (row_loop n len p N j (Axpy c xv (g j)) _ a g Hj Hr).
        intros k l' Hk Hl. rewrite (aget_ok _ _ _ (Hx k Hk)). cbn [obind].
        pose proof (rep_get _ _ _ _ _ _ j k Hl Hj Hk) as Eg2. cbv beta in Eg2. rewrite Eg2. cbn [obind].
        apply (row_set n len p N L j k (Axpy c xv (g j)) g l'); auto.
        rewrite updf_eq, Nat.ltb_irrefl. reflexivity.
      Qed.

    End Layout0.

    Section Layout.
      Variables n si sk : nat.
      Notation p := (fun i k => i * si + k * sk)%nat.
      Variable N : nat.
      Hypothesis L : layout n len p N.

      (** The matrix of coefficients. *)
      Variable rp : nat -> nat -> nat.
      Hypothesis LR : layout n n rp (n * n).
      Notation repU := (rep n len p N).
      Notation repM := (rep n n rp (n * n)).

      Lemma rep_row (a : list U) g i : repU a g -> (i < n)%nat ->
        forall k, (k < len)%nat -> nth_error a (i * si + k * sk)%nat = Some (g i k).
      Proof. intros [_ H] Hi k Hk. exact (H i k Hi Hk). Qed.

      Notation gst' := (gst vec).
      Notation grun' := (grun vec IP Axpy Scale n).
      Notation gstep' := (gstep vec IP Axpy Scale n).

      Lemma gs_iter_ok i (A1 : list U) (M1 : list R) (t : gst') :
        (i < n)%nat -> repU A1 (gA _ t) -> repM M1 (gR _ t) ->
        zro < sqrt (IP (gA _ t i) (gA _ t i)) ->
        exists s', gs_iter W zro n len si sk rp i (A1, M1) = Ok s' /\
          repU (fst s') (gA _ (gstep' i t)) /\ repM (snd s') (gR _ (gstep' i t)).
      Proof.
        intros Hi R1 R2 Hpos. unfold gs_iter.
        rewrite (norm_vec A1 (i * si) sk (gA _ t i) (rep_row A1 _ i R1 Hi)). cbn [obind].
        set (r := sqrt (IP (gA _ t i) (gA _ t i))) in *.
        destruct (rep_set n n rp (n * n) LR M1 _ i i r R2 Hi Hi) as (M2 & -> & R3). cbn [obind].
        destruct (Rltb_spec zro r) as [_|N0]; [|exfalso; apply N0; exact Hpos].
        destruct (scale_rep n si sk N L (1 / r) A1 _ i R1 Hi) as (A2 & -> & R4). cbn [obind].
        set (q := Scale (1 / r) (gA _ t i)) in *.
        match goal with |- context [for_from (i + 1) _ ?b ?s0] =>
          destruct (for_from_inv (fun j (u : list U * list R) =>
             repU (fst u) (fun k => if (i <? k)%nat && (k <? j)%nat then Axpy (- IP q (gA _ t k)) q (gA _ t k)
                                    else if (k =? i)%nat then q else gA _ t k) /\
             repM (snd u) (fun z k => if (z =? i)%nat then
                     if (k =? i)%nat then r
                     else if (i <? k)%nat && (k <? j)%nat then IP q (gA _ t k) else gR _ t z k
                   else gR _ t z k)) b (i + 1)%nat (n - (i + 1))%nat s0)
            as ([A3 M3] & E3 & H3 & H4) end.
        + cbn [fst snd]. split.
          * apply (rep_ext _ _ _ _ _ _ _ R4). intros k l _ _. unfold updf.
            replace ((i <? k)%nat && (k <? i + 1)%nat) with false; [now destruct (k =? i)%nat|].
            symmetry. apply andb_false_iff. destruct (Nat.ltb_spec i k); [right; apply Nat.ltb_ge; lia|left; reflexivity].
          * apply (rep_ext _ _ _ _ _ _ _ R3). intros z k _ _.
            destruct (z =? i)%nat; cbn [andb]; [|reflexivity]. destruct (k =? i)%nat; [reflexivity|].
            replace ((i <? k)%nat && (k <? i + 1)%nat) with false; [reflexivity|].
            symmetry. apply andb_false_iff. destruct (Nat.ltb_spec i k); [right; apply Nat.ltb_ge; lia|left; reflexivity].
        + intros j [A3 M3] Hj [R5 R6]. cbn [fst snd] in R5, R6.
          assert (Hjn : (j < n)%nat) by lia.
          set (h := fun k => if (i <? k)%nat && (k <? j)%nat then Axpy (- IP q (gA _ t k)) q (gA _ t k)
                                    else if (k =? i)%nat then q else gA _ t k) in *.
          assert (hi : h i = q). { unfold h. now rewrite Nat.ltb_irrefl, Nat.eqb_refl. }
          assert (hj : h j = gA _ t j).
          { unfold h. rewrite Nat.ltb_irrefl, andb_false_r. replace (j =? i)%nat with false by (symmetry; apply Nat.eqb_neq; lia). reflexivity. }
          rewrite (inner_vec A3 (i * si) sk A3 (j * si) sk (h i) (h j) (rep_row A3 _ i R5 Hi) (rep_row A3 _ j R5 Hjn)). cbn [obind].
          rewrite hi, hj. set (c := IP q (gA _ t j)).
          destruct (rep_set n n rp (n * n) LR M3 _ i j c R6 Hi Hjn) as (M4 & -> & R7). cbn [obind].
          destruct (axpy_in_rep n si sk N L (- c) A3 h i j R5 Hi Hjn ltac:(lia)) as (A4 & -> & R8). cbn [obind].
          eexists. split; [reflexivity|]. cbn [fst snd]. split.
          * apply (rep_ext _ _ _ _ _ _ _ R8). intros k l _ _. unfold updf. rewrite hi, hj.
            destruct (Nat.eqb_spec k j) as [->|Nk].
            -- replace (i <? j)%nat with true by (symmetry; apply Nat.ltb_lt; lia).
               replace (j <? S j)%nat with true by (symmetry; apply Nat.ltb_lt; lia). reflexivity.
            -- unfold h. replace (k <? S j)%nat with (k <? j)%nat; [reflexivity|].
               destruct (Nat.ltb_spec k j), (Nat.ltb_spec k (S j)); auto; lia.
          * apply (rep_ext _ _ _ _ _ _ _ R7). intros z k _ _.
            destruct (Nat.eqb_spec z i) as [->|]; cbn [andb]; [|reflexivity].
            destruct (Nat.eqb_spec k j) as [->|Nk].
            -- replace (j =? i)%nat with false by (symmetry; apply Nat.eqb_neq; lia).
               replace (i <? j)%nat with true by (symmetry; apply Nat.ltb_lt; lia).
               replace (j <? S j)%nat with true by (symmetry; apply Nat.ltb_lt; lia). reflexivity.
            -- replace (k <? S j)%nat with (k <? j)%nat; [reflexivity|].
               destruct (Nat.ltb_spec k j), (Nat.ltb_spec k (S j)); auto; lia.
        + exists (A3, M3). split; [exact E3|]. replace (i + 1 + (n - (i + 1)))%nat with n in * by lia.
          cbn [fst snd] in *. split; assumption.
      Qed.

      Lemma gs_iter_abort i (A1 : list U) (M1 : list R) (t : gst') :
        (i < n)%nat -> repU A1 (gA _ t) -> repM M1 (gR _ t) ->
        sqrt (IP (gA _ t i) (gA _ t i)) <= zro ->
        gs_iter W zro n len si sk rp i (A1, M1) = Abort.
      Proof.
        intros Hi R1 R2 Hpos. unfold gs_iter.
        rewrite (norm_vec A1 (i * si) sk (gA _ t i) (rep_row A1 _ i R1 Hi)). cbn [obind].
        set (r := sqrt (IP (gA _ t i) (gA _ t i))) in *.
        destruct (rep_set n n rp (n * n) LR M1 _ i i r R2 Hi Hi) as (M2 & -> & R3). cbn [obind].
        destruct (Rltb_spec zro r) as [N0|_]; [lra|reflexivity].
      Qed.

      Lemma gs_prefix (A : list U) (M : list R) g M0 m :
        repU A g -> repM M M0 -> (m <= n)%nat ->
        let s := fun m => grun' m (mkgs vec g M0) in
        (forall i, (i < m)%nat -> zro < sqrt (IP (gA _ (s i) i) (gA _ (s i) i))) ->
        exists s', for_ m (gs_iter W zro n len si sk rp) (A, M) = Ok s' /\
          repU (fst s') (gA _ (s m)) /\ repM (snd s') (gR _ (s m)).
      Proof.
        intros HA HM Hm s Hpos.
        apply (for_inv (fun i (t : list U * list R) => repU (fst t) (gA _ (s i)) /\ repM (snd t) (gR _ (s i)))).
        - split; assumption.
        - intros i [A1 M1] Hi [R1 R2]. apply (gs_iter_ok i A1 M1 (s i)); auto; lia.
      Qed.

      (** Gram-Schmidt completes exactly when no remaining vector vanishes. *)
      Lemma gram_schmidt_ok (A : list U) (M : list R) g M0 :
        repU A g -> repM M M0 ->
        let s := fun m => grun' m (mkgs vec g M0) in
        (forall i, (i < n)%nat -> zro < sqrt (IP (gA _ (s i) i) (gA _ (s i) i))) ->
        exists A' M', gram_schmidt W zro n len si sk rp A M = Ok (A', M') /\
          repU A' (gA _ (s n)) /\ repM M' (gR _ (s n)).
      Proof.
        intros HA HM s Hpos. destruct (gs_prefix A M g M0 n HA HM (le_n n) Hpos) as ([A' M'] & E & H1 & H2).
        exists A', M'. auto.
      Qed.
      Lemma gram_schmidt_abort (A : list U) (M : list R) g M0 m :
        repU A g -> repM M M0 -> (m < n)%nat ->
        let s := fun m => grun' m (mkgs vec g M0) in
        (forall i, (i < m)%nat -> zro < sqrt (IP (gA _ (s i) i) (gA _ (s i) i))) ->
        sqrt (IP (gA _ (s m) m) (gA _ (s m) m)) <= zro ->
        gram_schmidt W zro n len si sk rp A M = Abort.
      Proof.
        intros HA HM Hm s Hpos Hz. destruct (gs_prefix A M g M0 m HA HM ltac:(lia) Hpos) as ([A' M'] & E & H1 & H2).
        unfold gram_schmidt, for_.
        transitivity (for_from 0 (m + S (n - S m))%nat (gs_iter W zro n len si sk rp) (A, M)); [f_equal; lia|].
        rewrite for_from_app. unfold for_ in E. rewrite E. cbn [obind for_from].
        rewrite Nat.add_0_l. rewrite (gs_iter_abort m A' M' (s m) Hm H1 H2 Hz). reflexivity.
      Qed.

      (** * Householder *)
      Notation hstep' := (hstep vec IP Axpy Scale Flip Wsum n zro).
      Notation hrun' := (hrun vec IP Axpy Scale Flip Wsum n zro).
      Definition vr (v : list U) (x : vec) : Prop :=
        length v = len /\ forall k, (k < len)%nat -> nth_error v k = Some (x k).

      Lemma vr_row v x : vr v x -> forall k, (k < len)%nat -> nth_error v (0 + k * 1)%nat = Some (x k).
      Proof. intros [_ H] k Hk. rewrite Nat.mul_1_r. auto. Qed.
      Lemma vr_rep v x : vr v x <-> rep 1 len (fun i k => i * 0 + k * 1)%nat len v (fun _ => x).
      Proof.
        split; intros [H1 H2]; split; auto.
        - intros i k Hi Hk. rewrite Nat.mul_0_r, Nat.mul_1_r. auto.
        - intros k Hk. specialize (H2 0%nat k ltac:(lia) Hk). now rewrite Nat.mul_1_r in H2.
      Qed.
      Lemma vr_layout : layout 1 len (fun i k => i * 0 + k * 1)%nat len.
      Proof. split; intros; lia. Qed.
      Lemma vr_ext v x y : vr v x -> (forall k, (k < len)%nat -> x k = y k) -> vr v y.
      Proof. intros [H1 H2] H. split; auto. intros k Hk. now rewrite H2, H by auto. Qed.

      (** weighted sum into a fresh column *)
      Lemma wsum_vec rho (Q A : list U) (x y : vec) oQ oA :
        (forall k, (k < len)%nat -> nth_error Q (oQ + k * sk)%nat = Some (x k)) ->
        (forall k, (k < len)%nat -> nth_error A (oA + k * sk)%nat = Some (y k)) ->
        exists v, (do v <- for_ len (fun kk v =>
              do f <- aget Q (oQ + kk * sk)%nat;
              do g <- aget A (oA + kk * sk)%nat;
              aset v kk (Some (vwsum W rho f (-1) g))) (slots len);
            freeze v) = Ok v /\ vr v (Wsum rho x (-1) y).
      Proof.
        intros H1 H2. exists (tab len (Wsum rho x (-1) y)). split.
        - assert (E : for_ len (fun kk v =>
              do f <- aget Q (oQ + kk * sk)%nat;
              do g <- aget A (oA + kk * sk)%nat;
              aset v kk (Some (vwsum W rho f (-1) g))) (slots len)
              = Ok (tab len (fun k => Some (Wsum rho x (-1) y k)))).
          { rewrite <- (fill1_all (fun k => Some (Wsum rho x (-1) y k)) len (slots len)) by (symmetry; apply repeat_length).
            apply for_ext. intros k v Hk. rewrite (aget_ok _ _ _ (H1 k Hk)), (aget_ok _ _ _ (H2 k Hk)). reflexivity. }
          rewrite E. cbn [obind]. apply freeze_tab.
        - split; [apply tab_length|]. intros k Hk. now apply nth_error_tab.
      Qed.

      Lemma house_iter_ok i (A Q : list U) (V : list (option U)) (M : list R) (t : hst vec) :
        (i < n)%nat -> repU A (hA _ t) -> repU Q (hE _ t) -> repM M (hR _ t) ->
        rep n len p N V (fun z k => if (z <? i)%nat then Some (hV _ t z k) else None) ->
        exists s', house_iter W zro n len si sk rp i (A, Q, V, M) = Ok s' /\
          repU (fst (fst (fst s'))) (hA _ (hstep' i t)) /\ repU (snd (fst (fst s'))) (hE _ (hstep' i t)) /\
          repM (snd s') (hR _ (hstep' i t)) /\
          rep n len p N (snd (fst s')) (fun z k => if (z <? S i)%nat then Some (hV _ (hstep' i t) z k) else None).
      Proof.
        intros Hi RA RQ RM RV. unfold house_iter.
        set (a := hA _ t i).
        rewrite (norm_vec A (i * si) sk a (rep_row A _ i RA Hi)). cbn [obind].
        set (rho := sqrt (IP a a)).
        destruct (rep_set n n rp (n * n) LR M _ i i rho RM Hi Hi) as (M2 & -> & RM2). cbn [obind].
        rewrite (inner_vec Q (i * si) sk A (i * si) sk (hE _ t i) a (rep_row Q _ i RQ Hi) (rep_row A _ i RA Hi)). cbn [obind].
        set (alpha := IP (hE _ t i) a).
        set (e := hsign vec Flip zro alpha (hE _ t i)).
        set (E := updf (hE _ t) i e).
        assert (HQ : exists Q', (if Rltb (Rabs alpha) zro then Ok Q
             else if Rltb (- alpha / Rabs alpha) 0
                  then array_flip_sign W len sk Q (i * si)%nat else Ok Q) = Ok Q' /\ repU Q' E).
        { assert (R0 : repU Q (updf (hE _ t) i (hE _ t i))).
          { apply (rep_ext _ _ _ _ _ _ _ RQ). intros z k _ _. unfold updf. destruct (Nat.eqb_spec z i) as [->|]; reflexivity. }
          unfold E, e, hsign. destruct (Rltb (Rabs alpha) zro); [exists Q; auto|].
          destruct (Rltb (- alpha / Rabs alpha) 0); [|exists Q; auto].
          apply (flip_rep n si sk N L); auto. }
        destruct HQ as (Q' & -> & RQ'). cbn [obind].
        assert (Ei : E i = e) by apply updf_eq.
        pose proof (rep_row Q' _ i RQ' Hi) as Qi. rewrite Ei in Qi.
        destruct (wsum_vec rho Q' A e a (i * si) (i * si) Qi (rep_row A _ i RA Hi)) as (v0 & Ev0 & Rv0).
        match type of Ev0 with (obind ?X ?F) = _ =>
          destruct X as [w0| | |] eqn:Ew; cbn [obind] in Ev0; try discriminate end.
        clear Ew. cbn [obind]. rewrite Ev0. cbn [obind].
        set (x0 := Wsum rho e (-1) a) in *.
        (* orthogonality *)
        match goal with |- context [for_ i ?b v0] =>
          destruct (for_inv (fun z v => vr v (horth vec IP Axpy E z x0)) b i v0) as (v1 & Ev1 & Rv1) end.
        { exact Rv0. }
        { intros z v Hz Rv.
          rewrite (inner_vec v 0 1 Q' (z * si) sk _ (E z) (vr_row v _ Rv) (rep_row Q' _ z RQ' ltac:(lia))). cbn [obind].
          destruct (vr_rep v (horth vec IP Axpy E z x0)) as [F _].
          destruct (axpy_rep 1 0 1 len vr_layout (- IP (horth vec IP Axpy E z x0) (E z)) Q' (z * si) sk (E z) v
                     (fun _ => horth vec IP Axpy E z x0) 0%nat (rep_row Q' _ z RQ' ltac:(lia)) (F Rv) ltac:(lia)) as (v' & Ev' & Rv').
          exists v'. split; [exact Ev'|]. apply vr_rep. apply (rep_ext _ _ _ _ _ _ _ Rv').
          intros q k Hq _. assert (q = 0%nat) as -> by lia. rewrite updf_eq. reflexivity. }
        rewrite Ev1. cbn [obind]. set (x1 := horth vec IP Axpy E i x0) in *.
        rewrite (inner_vec v1 0 1 v1 0 1 x1 x1 (vr_row v1 _ Rv1) (vr_row v1 _ Rv1)). cbn [obind].
        set (y := hunit vec IP Scale zro e x1).
        assert (HV : exists v2, (if Rltb (Rabs (sqrt (IP x1 x1))) zro
             then for_ len (fun kk v => do f <- aget Q' (i * si + kk * sk)%nat; aset v kk f) v1
             else array_scale W (1 / sqrt (IP x1 x1)) v1 0 1 len) = Ok v2 /\ vr v2 y).
        { unfold y, hunit. destruct (Rltb (Rabs (sqrt (IP x1 x1))) zro).
          - exists (tab len e). split; [|split; [apply tab_length|intros; now apply nth_error_tab]].
            rewrite <- (fill1_all e len v1) by (symmetry; apply Rv1).
            apply for_ext. intros k v Hk. rewrite (aget_ok _ _ _ (Qi k Hk)). reflexivity.
          - destruct (vr_rep v1 x1) as [F _].
            destruct (scale_rep 1 0 1 len vr_layout (1 / sqrt (IP x1 x1)) v1 (fun _ => x1) 0%nat (F Rv1) ltac:(lia)) as (v' & Ev' & Rv').
            exists v'. split; [exact Ev'|]. apply vr_rep. apply (rep_ext _ _ _ _ _ _ _ Rv').
            intros q k Hq _. assert (q = 0%nat) as -> by lia. rewrite updf_eq. reflexivity. }
        destruct HV as (v2 & -> & Rv2). cbn [obind].
        (* store the column *)
        match goal with |- context [for_ len ?b V] =>
          destruct (row_loop n len p N i (fun k => Some (y k)) b V _ Hi RV) as (V' & EV' & RV') end.
        { intros k l' Hk Hl. rewrite (aget_ok _ _ _ (proj2 Rv2 k Hk)). cbn [obind].
          apply (row_set n len p N L i k (fun k => Some (y k)) _ l' (Some (y k)) Hi Hk Hl). reflexivity. }
        rewrite EV'. cbn [obind].
        rewrite (inner_vec Q' (i * si) sk v2 0 1 e y Qi (vr_row v2 _ Rv2)). cbn [obind].
        set (r := fun k => IP e (hA _ t k) + -2 * IP e y * IP y (hA _ t k)).
        match goal with |- context [for_from (i + 1) _ ?b ?s0] =>
          destruct (for_from_inv (fun j (u : list U * list R) =>
             repU (fst u) (fun k => if (i <? k)%nat && (k <? j)%nat
                 then Axpy (- r k) e (Axpy (-2 * IP y (hA _ t k)) y (hA _ t k)) else hA _ t k) /\
             repM (snd u) (fun z k => if (z =? i)%nat then
                     if (k =? i)%nat then rho
                     else if (i <? k)%nat && (k <? j)%nat then r k else hR _ t z k
                   else hR _ t z k)) b (i + 1)%nat (n - (i + 1))%nat s0)
            as ([A3 M3] & E3 & H3 & H4) end.
        - cbn [fst snd]. split.
          + apply (rep_ext _ _ _ _ _ _ _ RA). intros k l _ _.
            replace ((i <? k)%nat && (k <? i + 1)%nat) with false; [reflexivity|].
            symmetry. apply andb_false_iff. destruct (Nat.ltb_spec i k); [right; apply Nat.ltb_ge; lia|left; reflexivity].
          + apply (rep_ext _ _ _ _ _ _ _ RM2). intros z k _ _.
            destruct (z =? i)%nat; cbn [andb]; [|reflexivity]. destruct (k =? i)%nat; [reflexivity|].
            replace ((i <? k)%nat && (k <? i + 1)%nat) with false; [reflexivity|].
            symmetry. apply andb_false_iff. destruct (Nat.ltb_spec i k); [right; apply Nat.ltb_ge; lia|left; reflexivity].
        - intros j [A3 M3] Hj [R5 R6]. cbn [fst snd] in R5, R6.
          assert (Hjn : (j < n)%nat) by lia.
          set (h := fun k => if (i <? k)%nat && (k <? j)%nat
                 then Axpy (- r k) e (Axpy (-2 * IP y (hA _ t k)) y (hA _ t k)) else hA _ t k) in *.
          assert (hj : h j = hA _ t j) by (unfold h; now rewrite Nat.ltb_irrefl, andb_false_r).
          pose proof (rep_row A3 h j R5 Hjn) as Aj. rewrite hj in Aj.
          rewrite (inner_vec v2 0 1 A3 (j * si) sk y (hA _ t j) (vr_row v2 _ Rv2) Aj). cbn [obind].
          rewrite (inner_vec Q' (i * si) sk A3 (j * si) sk e (hA _ t j) Qi Aj). cbn [obind].
          fold (r j).
          destruct (rep_set n n rp (n * n) LR M3 _ i j (r j) R6 Hi Hjn) as (M4 & -> & R7). cbn [obind].
          match goal with |- context [for_ len ?b A3] =>
            destruct (row_loop n len p N j (Axpy (- r j) e (Axpy (-2 * IP y (hA _ t j)) y (hA _ t j))) b A3 h Hjn R5)
              as (A4 & EA4 & R8) end.
          { intros k l' Hk Hl. rewrite (aget_ok _ _ _ (proj2 Rv2 k Hk)). cbn [obind].
            pose proof (rep_get _ _ _ _ _ _ j k Hl Hjn Hk) as Eg. cbv beta in Eg. rewrite Eg. cbn [obind].
            rewrite updf_eq, Nat.ltb_irrefl, hj.
            destruct (rep_set n len p N L l' _ j k (vaxpy W (-2 * IP y (hA _ t j)) (y k) (hA _ t j k)) Hl Hjn Hk) as (l2 & El2 & Rl2).
            rewrite El2. cbn [obind]. rewrite (aget_ok _ _ _ (Qi k Hk)). cbn [obind].
            pose proof (rep_get _ _ _ _ _ _ j k Rl2 Hjn Hk) as Eg2. cbv beta in Eg2. rewrite Eg2. cbn [obind].
            rewrite !Nat.eqb_refl. cbn [andb].
            destruct (rep_set n len p N L l2 _ j k (vaxpy W (- r j) (e k) (vaxpy W (-2 * IP y (hA _ t j)) (y k) (hA _ t j k))) Rl2 Hjn Hk) as (l3 & El3 & Rl3).
            exists l3. split; [exact El3|]. apply (rep_ext _ _ _ _ _ _ _ Rl3).
            intros z q _ Hq. unfold updf. destruct (Nat.eqb_spec z j) as [->|]; cbn [andb]; [|reflexivity].
            destruct (Nat.eqb_spec q k) as [->|].
            - replace (k <? S k)%nat with true by (symmetry; apply Nat.ltb_lt; lia). reflexivity.
            - replace (q <? S k)%nat with (q <? k)%nat; [now rewrite ?hj|].
              destruct (Nat.ltb_spec q k), (Nat.ltb_spec q (S k)); auto; lia. }
          rewrite EA4. cbn [obind]. eexists. split; [reflexivity|]. cbn [fst snd]. split.
          + apply (rep_ext _ _ _ _ _ _ _ R8). intros k l _ _. unfold updf.
            destruct (Nat.eqb_spec k j) as [->|Nk].
            * replace (i <? j)%nat with true by (symmetry; apply Nat.ltb_lt; lia).
              replace (j <? S j)%nat with true by (symmetry; apply Nat.ltb_lt; lia). reflexivity.
            * unfold h. replace (k <? S j)%nat with (k <? j)%nat; [reflexivity|].
              destruct (Nat.ltb_spec k j), (Nat.ltb_spec k (S j)); auto; lia.
          + apply (rep_ext _ _ _ _ _ _ _ R7). intros z k _ _.
            destruct (Nat.eqb_spec z i) as [->|]; cbn [andb]; [|reflexivity].
            destruct (Nat.eqb_spec k j) as [->|Nk].
            * replace (j =? i)%nat with false by (symmetry; apply Nat.eqb_neq; lia).
              replace (i <? j)%nat with true by (symmetry; apply Nat.ltb_lt; lia).
              replace (j <? S j)%nat with true by (symmetry; apply Nat.ltb_lt; lia). reflexivity.
            * replace (k <? S j)%nat with (k <? j)%nat; [reflexivity|].
              destruct (Nat.ltb_spec k j), (Nat.ltb_spec k (S j)); auto; lia.
        - rewrite E3. cbn [obind]. replace (i + 1 + (n - (i + 1)))%nat with n in * by lia.
          eexists. split; [reflexivity|]. cbn [fst snd] in *. split; [exact H3|]. split; [exact RQ'|]. split; [exact H4|].
          apply (rep_ext _ _ _ _ _ _ _ RV'). intros z k Hz _. unfold hstep; cbn [hV]. unfold updf.
          destruct (Nat.eqb_spec z i) as [->|Nz].
          + replace (i <? S i)%nat with true by (symmetry; apply Nat.ltb_lt; lia). reflexivity.
          + replace (z <? S i)%nat with (z <? i)%nat; [reflexivity|].
            destruct (Nat.ltb_spec z i), (Nat.ltb_spec z (S i)); auto; lia.
      Qed.

      (** Accumulation of the reflections, from the last one to the first. *)
      Lemma house_q_ok (V Q : list U) v e :
        repU V v -> repU Q e ->
        exists Q', house_q W n len si sk V Q = Ok Q' /\ repU Q' (fun j => hQ vec IP Axpy v e j).
      Proof.
        intros RV RQ. unfold house_q.
        (* after [c] rounds vector j has been reflected along v_(n-c) .. v_j *)
        pose (back := fix back (lo m : nat) (x : vec) : vec :=
                        match m with O => x | S m' => refl vec IP Axpy (v lo) (back (S lo) m' x) end).
        assert (Hback : forall m lo x, back lo m x = prefl vec IP Axpy (fun q => v (lo + q)%nat) m x).
        { assert (Hp : forall m (w : nat -> vec) x, prefl vec IP Axpy w (S m) x = refl vec IP Axpy (w 0%nat) (prefl vec IP Axpy (fun q => w (S q)) m x)).
          { induction m as [|m IHm]; intros w x; [reflexivity|].
            change (prefl vec IP Axpy w (S (S m)) x) with (prefl vec IP Axpy w (S m) (refl vec IP Axpy (w (S m)) x)). rewrite IHm. reflexivity. }
          induction m as [|m IHm]; intros lo x; [reflexivity|]. rewrite Hp. cbn [back]. rewrite IHm.
          rewrite Nat.add_0_r. f_equal. apply prefl_ext. intros q _. f_equal. lia. }
        match goal with |- context [for_ n ?b Q] =>
          destruct (for_inv (fun c (Q1 : list U) => repU Q1 (fun j => back (n - c)%nat (S j - (n - c))%nat (e j))) b n Q) as (Q' & E & H) end.
        - apply (rep_ext _ _ _ _ _ _ _ RQ). intros j k Hj _. replace (S j - (n - 0))%nat with 0%nat by lia. reflexivity.
        - intros c Q1 Hc R1. set (ii := (n - 1 - c)%nat).
          assert (Hii : (ii < n)%nat) by (unfold ii; lia).
          match goal with |- context [for_from ii _ ?b Q1] =>
            destruct (for_from_inv (fun jj (Q2 : list U) => repU Q2 (fun j => if (ii <=? j)%nat && (j <? jj)%nat
                        then back ii (S j - ii)%nat (e j) else back (n - c)%nat (S j - (n - c))%nat (e j))) b ii (n - ii)%nat Q1) as (Q3 & E3 & H3) end.
          + apply (rep_ext _ _ _ _ _ _ _ R1). intros j k _ _.
            replace ((ii <=? j)%nat && (j <? ii)%nat) with false; [reflexivity|].
            symmetry. apply andb_false_iff. destruct (Nat.leb_spec ii j); [right; apply Nat.ltb_ge; lia|left; reflexivity].
          + intros jj Q2 Hjj R2. assert (Hj : (jj < n)%nat) by lia.
            set (h := fun j => if (ii <=? j)%nat && (j <? jj)%nat
                        then back ii (S j - ii)%nat (e j) else back (n - c)%nat (S j - (n - c))%nat (e j)) in *.
            rewrite (inner_vec Q2 (jj * si) sk V (ii * si) sk (h jj) (v ii) (rep_row Q2 _ jj R2 Hj) (rep_row V _ ii RV Hii)). cbn [obind].
            destruct (axpy_rep n si sk N L (-2 * IP (h jj) (v ii)) V (ii * si) sk (v ii) Q2 h jj (rep_row V _ ii RV Hii) R2 Hj) as (Q4 & E4 & R4).
            exists Q4. split; [exact E4|]. apply (rep_ext _ _ _ _ _ _ _ R4). intros j k _ _. unfold updf.
            destruct (Nat.eqb_spec j jj) as [->|Nj].
            * replace (ii <=? jj)%nat with true by (symmetry; apply Nat.leb_le; lia).
              replace (jj <? S jj)%nat with true by (symmetry; apply Nat.ltb_lt; lia). cbn [andb].
              replace (S jj - ii)%nat with (S (S jj - S ii)) by lia. cbn [back]. unfold refl.
              assert (Hh : h jj = back (S ii) (S jj - S ii)%nat (e jj)).
              { unfold h. rewrite Nat.ltb_irrefl, andb_false_r. replace (n - c)%nat with (S ii) by (unfold ii; lia). reflexivity. }
              rewrite Hh. reflexivity.
            * unfold h. replace (j <? S jj)%nat with (j <? jj)%nat; [reflexivity|].
              destruct (Nat.ltb_spec j jj), (Nat.ltb_spec j (S jj)); auto; lia.
          + exists Q3. split; [exact E3|]. apply (rep_ext _ _ _ _ _ _ _ H3). intros j k Hj _.
            replace (ii + (n - ii))%nat with n by lia. replace (j <? n)%nat with true by (symmetry; apply Nat.ltb_lt; lia).
            rewrite andb_true_r. replace (n - S c)%nat with ii by (unfold ii; lia).
            destruct (Nat.leb_spec ii j); [reflexivity|]. replace (S j - (n - c))%nat with 0%nat by (unfold ii in *; lia).
            replace (S j - ii)%nat with 0%nat by lia. reflexivity.
        - exists Q'. split; [exact E|]. apply (rep_ext _ _ _ _ _ _ _ H). intros j k _ _.
          rewrite Nat.sub_diag, Nat.sub_0_r, Hback. unfold hQ. f_equal.
      Qed.

      Hypothesis HN : N = (n * len)%nat.
      Hypothesis ON : onto n len p N.

      Lemma householder_ok (A Q : list U) (M : list R) a e M0 v0 :
        repU A a -> repU Q e -> repM M M0 ->
        let s := hrun' n (mkhs vec a e v0 M0) in
        exists Q' M', householder W zro n len si sk rp A Q M = Ok (Q', M') /\
          repU Q' (hQ vec IP Axpy (hV _ s) (hE _ s)) /\ repM M' (hR _ s).
      Proof.
        intros RA RQ RM s. unfold householder.
        set (st := fun m => hrun' m (mkhs vec a e v0 M0)).
        destruct (for_inv (fun i (u : list U * list U * list (option U) * list R) =>
            repU (fst (fst (fst u))) (hA _ (st i)) /\ repU (snd (fst (fst u))) (hE _ (st i)) /\
            repM (snd u) (hR _ (st i)) /\
            rep n len p N (snd (fst u)) (fun z k => if (z <? i)%nat then Some (hV _ (st i) z k) else None))
            (house_iter W zro n len si sk rp) n (A, Q, slots (n * len), M)) as ([[[A1 Q1] V1] M1] & E & H1 & H2 & H3 & H4).
        - cbn [fst snd]. split; [exact RA|]. split; [exact RQ|]. split; [exact RM|].
          split; [unfold slots; rewrite repeat_length; auto|]. intros i k Hi Hk. cbv beta.
          unfold slots. rewrite nth_error_repeat; [reflexivity|]. rewrite <- HN. apply (proj1 L); auto.
        - intros i [[[A1 Q1] V1] M1] Hi (H1 & H2 & H3 & H4). cbn [fst snd] in *.
          exact (house_iter_ok i A1 Q1 V1 M1 (st i) Hi H1 H2 H3 H4).
        - cbn [fst snd] in *. rewrite E. cbn [obind].
          destruct (freeze_all N V1) as (V2 & EV2 & LV2 & HV2).
          { apply H4. }
          { intros q Hq. destruct (ON q Hq) as (i & k & Hi & Hk & ->). destruct H4 as [_ H4]. specialize (H4 i k Hi Hk). cbv beta in H4.
            rewrite H4. replace (i <? n)%nat with true by (symmetry; apply Nat.ltb_lt; lia). eauto. }
          rewrite EV2. cbn [obind].
          assert (RV2 : repU V2 (hV _ (st n))).
          { split; [exact LV2|]. intros i k Hi Hk. apply HV2. destruct H4 as [_ H4]. specialize (H4 i k Hi Hk). cbv beta in H4.
            rewrite H4. replace (i <? n)%nat with true by (symmetry; apply Nat.ltb_lt; lia). reflexivity. }
          destruct (house_q_ok V2 Q1 (hV _ (st n)) (hE _ (st n)) RV2 H2) as (Q' & EQ & RQ').
          rewrite EQ. cbn [obind]. exists Q', M1. split; [reflexivity|]. split; assumption.
      Qed.
    End Layout.
  End Vec.
End Facts.
