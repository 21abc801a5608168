(** Proofs about cross approximation: one step of each sweep. *)
From Coq Require Import Reals Lra.
From Verif Require Import Base BaseFacts Fill IdxModel IdxFacts FwrapModel FwrapFacts FTModel FTSpec FTFacts QmaFacts.
From Verif Require Import OrthAbs OrthFacts OrthDep RoundSvd RoundRun LuFacts PinvModel CrossModel CrossFacts.
Open Scope nat_scope.

(** the value at [x] in row [a] and column [b] *)
Definition cv {U : uops Rring} (A : qma U) (x : R) (a b : nat) : R := ent (R := Rring) (fun u => uev u (x : Rring)) A a b.

Definition delta (i j : nat) : R := if i =? j then 1%R else 0%R.

(** ** Algebra: interpolation through the pivots *)
Section Algebra.
  Open Scope R_scope.
  (** [a = q M], [P] the rows of [q] at the pivots, [Z P = I], [w = P M] the rows of [a] there *)
  Lemma through_pivots r (a : R) (q : nat -> R) (M : nat -> R) (P Z : nat -> nat -> R) (w : nat -> R) :
    a = rsum r (fun j => q j * M j) -> (forall i j, (i < r)%nat -> (j < r)%nat -> rsum r (fun l => Z i l * P l j) = delta i j) ->
    (forall k, (k < r)%nat -> w k = rsum r (fun l => P k l * M l)) ->
    a = rsum r (fun k => rsum r (fun j => q j * Z j k) * w k).
  Proof.
    intros -> HI Hw. symmetry. transitivity (rsum r (fun k => rsum r (fun j => q j * (Z j k * w k)))).
    { apply rsum_ext. intros k _. rewrite <- rsum_mul_r. apply rsum_ext. intros; ring. }
    rewrite rsum_swap. apply rsum_ext. intros j Hj. rewrite rsum_scal. f_equal.
    transitivity (rsum r (fun k => rsum r (fun l => Z j k * P k l * M l))).
    { apply rsum_ext. intros k Hk. rewrite (Hw k Hk), <- rsum_scal. apply rsum_ext. intros; ring. }
    rewrite rsum_swap. rewrite (rsum_single r _ j Hj).
    - rewrite rsum_mul_r, HI by auto. unfold delta. rewrite Nat.eqb_refl. ring.
    - intros i Hi Hne. rewrite rsum_mul_r, HI by auto. unfold delta. rewrite (proj2 (Nat.eqb_neq _ _)) by auto. ring.
  Qed.
End Algebra.

Section Steps.
  Context (D : nat -> R -> Prop) (d : nat) (f : list R -> R) {U : uops Rring} (approx1 : nat -> fwrap R R -> outcome U).
  Context (E : nat -> list R -> list R -> U -> Prop) (F G : Prop) (N : nat).
  Context (qr lq : nat -> qma U -> list R -> outcome (qma U * list R)).
  Context (mv : nat -> qma U -> list R -> list nat -> list R -> outcome (list R * list nat * list R * Z * nat)).

  (** ** What is assumed of the parts.  [G] stands for exactness of approximation and
      factorisation; without it only shapes are assumed. *)
  Definition lin_law : Prop := forall ii x, ii < d -> D ii x -> linfun (R := Rring) (fun u : U => uev u (x : Rring)).
  Definition exact_law : Prop := G -> forall l r u, length l + 1 + length r = d -> inD D 0 l -> inD D (length l + 1) r -> E (length l) l r u ->
    forall x, D (length l) x -> uev u (x : Rring) = f (l ++ x :: r).
  Definition xqr_law : Prop := forall ii A, ii < d -> qwf A -> 0 < nr A -> 0 < nc A <= N ->
    safe F (fun st => let '(Q, M) := st in nr Q = nr A /\ nc Q = nc A /\ qwf Q /\ length M = nc A * nc A /\
      (G -> forall x a b, D ii x -> a < nr A -> b < nc A -> cv A x a b = rsum (nc A) (fun j => cv Q x a j * cm (nc A) M j b)%R))
    (qr ii A (repeat 0%R (nc A * nc A))).
  Definition xlq_law : Prop := forall ii A, ii < d -> qwf A -> 0 < nr A <= N -> 0 < nc A ->
    safe F (fun st => let '(Q, M) := st in nr Q = nr A /\ nc Q = nc A /\ qwf Q /\ length M = nr A * nr A /\
      (G -> forall x a b, D ii x -> a < nr A -> b < nc A -> cv A x a b = rsum (nr A) (fun j => cv Q x j b * cm (nr A) M a j)%R))
    (lq ii A (repeat 0%R (nr A * nr A))).
  (** rows in range, locations in the domain, and, if the rank is full, the inverse of the
      values at the pivots *)
  Definition pivoting_ok (ii : nat) (A : qma U) (st : list R * list nat * list R * Z * nat) : Prop :=
    let '(X, rows, xs, info, rank) := st in let r := nc A in
    (info <= 0)%Z -> length rows = r /\ length xs = r /\ length X = r * r /\
    (forall k, k < r -> nth k rows 0 < nr A /\ D ii (nth k xs 0%R)) /\
    (rank = r -> forall i j, i < r -> j < r ->
       rsum r (fun l => cv A (nth i xs 0%R) (nth i rows 0%nat) l * cm r X l j)%R = delta i j /\
       rsum r (fun l => cm r X i l * cv A (nth l xs 0%R) (nth l rows 0%nat) j)%R = delta i j).
  Definition mv_law : Prop := forall ii A M0 p x, ii < d -> qwf A -> 0 < nr A -> 0 < nc A <= N -> length p = nc A -> length x = nc A ->
    safe F (pivoting_ok ii A) (mv ii A M0 p x).

  Context (Hlin : lin_law) (Hex : exact_law) (Hqr : xqr_law) (Hlq : xlq_law) (Hmv : mv_law) (Hap : approx_law D d f approx1 E F).

  (** ** The index sets made of pivots *)
  Lemma single_index_ok r xs : length xs = r -> single_index r xs = Ok (ci_tab 1 r (fun k => [nth k xs 0%R])).
  Proof.
    intros L. unfold single_index.
    match goal with |- for_ ?n00 ?b00 ?s00 = _ =>
      destruct (for_inv (fun k c => c = ci_tab 1 k (fun k => [nth k xs 0%R])) b00 n00 s00) as (r' & E' & I) end.
    - reflexivity.
    - intros k c Hk ->. rewrite (aget_ok xs k (nth k xs 0%R)) by (apply nth_error_nth'; lia). cbn [obind].
      eexists. split; [apply (add_index_ok (0%R : R) (ci_tab 1 k (fun k => [nth k xs 0%R])) [nth k xs 0%R]); reflexivity|].
      unfold ci_tab. cbn [ci_d ci_n ci_nodes]. rewrite tab_S. f_equal. lia.
    - now rewrite E', I.
  Qed.
  Lemma ci_tab_nodes m r g k : k < r -> node (Some (ci_tab m r g)) k = g k.
  Proof. intros H. cbn. unfold ci_tab, tab. cbn. erewrite nth_indep by (now rewrite map_length, seq_length). rewrite map_nth with (d := 0). now rewrite seq_nth. Qed.
  Lemma ci_tab_ok off m r g : (forall k, k < r -> length (g k) = m /\ inD D off (g k)) -> iset_ok D off m r (Some (ci_tab m r g)).
  Proof.
    intros H. split; [|split; [reflexivity|split; [apply le_n|intros k Hk; rewrite ci_tab_nodes by exact Hk; now apply H]]].
    split; [apply tab_length|]. cbn. apply Forall_forall. intros x Hx. unfold tab in Hx. apply in_map_iff in Hx as (k & <- & Hk). apply in_seq in Hk. apply H. lia.
  Qed.

  Lemma cvE (A : qma U) x a b u : entry A a b = Some u -> cv A x a b = uev u (x : Rring).
  Proof. unfold cv, ent. now intros ->. Qed.

  (** the values of the core made of fibers *)
  Lemma prep_values ii li ri nrows ncols (A : qma U) : ii < d -> G ->
    iset_ok D 0 ii nrows li -> iset_ok D (ii + 1) (d - 1 - ii) ncols ri ->
    (forall a b, a < nrows -> b < ncols -> exists u, entry A a b = Some u /\ E ii (node li a) (node ri b) u) ->
    forall x a b, D ii x -> a < nrows -> b < ncols -> cv A x a b = f (node li a ++ x :: node ri b).
  Proof.
    intros Hii g Hl Hr HA x a b Hx Ha Hb. destruct (HA a b Ha Hb) as (u & Eu & Hu).
    destruct (node_value_ok D _ _ _ _ a Hl Ha) as (_ & L1 & D1). destruct (node_value_ok D _ _ _ _ b Hr Hb) as (_ & L2 & D2).
    rewrite (cvE _ _ _ _ u Eu). apply (Hex g (node li a) (node ri b) u); [lia|exact D1|rewrite L1; exact D2|rewrite L1; exact Hu|rewrite L1; exact Hx].
  Qed.

  Lemma core_mul ii (Q : qma U) M b : ii < d -> qwf Q -> 0 < nc Q -> length M = nc Q * b ->
    exists c, qmam Q M b = Ok c /\ nr c = nr Q /\ nc c = b /\ qwf c /\
      forall x a k, D ii x -> a < nr Q -> k < b -> cv c x a k = rsum (nc Q) (fun j => cv Q x a j * cm (nc Q) M j k)%R.
  Proof.
    intros Hii Wq Hp LM. destruct (qmam_ok (R := Rring) Q M b (fun k i => cm (nc Q) M k i) Wq Hp) as (c & Ec & H1 & H2 & H3 & H4).
    { intros k i Hk Hi. unfold cm. apply nth_error_nth'. assert (X : i * nc Q + k < nc Q * b) by nia. rewrite <- LM in X. exact X. }
    exists c. repeat (split; [assumption|]). intros x a k Hx Ha Hk. destruct (H4 a k Ha Hk) as (u & Eu & Hu).
    rewrite (cvE _ _ _ _ u Eu). rewrite (Hu _ (Hlin ii x Hii Hx)). rewrite rsum_sum. apply (sum_ext Rring). intros j Hj. cbn. unfold cv. ring.
  Qed.

  Section LR.
    Context (ranks : list nat) (ii r0 r1 : nat) (li ri : iset).
    Context (Hii : ii + 1 < d) (E0 : nth_error ranks ii = Some r0) (E1 : nth_error ranks (ii + 1) = Some r1) (P0 : 0 < r0 <= N) (P1 : 0 < r1 <= N).
    Context (Hl : iset_ok D 0 ii r0 li) (Hr : iset_ok D (ii + 1) (d - 1 - ii) r1 ri).

    Lemma lr_step_ok (s : cstate U) : wraps d f (cs_fw s) -> nth_error (cs_l s) ii = Some li -> nth_error (cs_r s) ii = Some ri ->
      (0 < ii -> li <> None) -> length (cs_l s) = d -> length (cs_cores s) = d -> length (cs_lrk s) = d ->
      safe F (fun s' => wraps d f (cs_fw s') /\ exists c core rk,
        cs_l s' = upd (cs_l s) (ii + 1) (Some c) /\ cs_r s' = cs_r s /\ cs_cores s' = upd (cs_cores s) ii (Some core) /\
        cs_lrk s' = upd (cs_lrk s) ii rk /\ cs_rrk s' = cs_rrk s /\ cs_full s' = cs_full s && (rk =? r1) /\
        iset_ok D 0 (ii + 1) r1 (Some c) /\ nr core = r0 /\ nc core = r1 /\ qwf core /\
        (rk = r1 -> G -> forall a b x, a < r0 -> b < r1 -> D ii x ->
           f (node li a ++ x :: node ri b) = rsum r1 (fun k => cv core x a k * f (node (Some c) k ++ node ri b))%R))
      (lr_step approx1 qr mv ranks ii s).
    Proof.
      intros Hw EL ER Hsome LL LC LK. unfold lr_step. rewrite (aget_ok _ _ _ E0). cbn [obind]. rewrite (aget_ok _ _ _ E1). cbn [obind].
      eapply safe_bind; [apply (prepCore_ok D d f approx1 E F ii r0 r1 li ri); auto; lia|].
      intros [A w'] (Hw' & A1 & A2 & A3 & A4).
      eapply safe_bind; [apply (Hqr ii A); auto; try lia|]. intros [Q M] (Q1 & Q2 & Q3 & Q4 & Q5).
      eapply safe_bind. { apply (Hmv ii Q M (repeat 0 r1) (repeat 0%R r1)); auto; rewrite ?repeat_length; lia. }
      intros [[[[X rows] xs] info] rk] Hm. cbn [pivoting_ok] in Hm.
      destruct (Z.ltb_spec 0 info) as [Hi|Hi]; [exact I|]. specialize (Hm Hi). destruct Hm as (M1 & M2 & M3 & M4 & M5).
      assert (Hnode : forall k, k < r1 -> length (node li (nth k rows 0)) = ii /\ inD D 0 (node li (nth k rows 0)) /\ D ii (nth k xs 0%R)).
      { intros k Hk. destruct (M4 k ltac:(lia)) as [K1 K2]. destruct (node_value_ok D _ _ _ _ (nth k rows 0) Hl ltac:(lia)) as (_ & L & DD). auto. }
      set (g := fun k => node li (nth k rows 0) ++ [nth k xs 0%R]).
      assert (Ec : (if 0 <? ii then do l <- aget (cs_l s) ii; match l with None => UB | Some old => cross_index_create_nested_ind (0%R : R) false r1 rows xs old end
                    else single_index r1 xs) = Ok (ci_tab (ii + 1) r1 g)).
      { destruct (Nat.ltb_spec 0 ii) as [H0|H0].
        - rewrite (aget_ok _ _ _ EL). cbn [obind]. destruct li as [old|]; [|exfalso; now apply Hsome]. destruct Hl as (Wf & Dm & Hn & _).
          replace r1 with (length rows) by lia. rewrite create_nested_ind_ok; [rewrite Dm; reflexivity|exact Wf|lia|].
          apply Forall_forall. intros q Hq. destruct (In_nth rows q 0 Hq) as (k & Hk & <-). destruct (M4 k ltac:(lia)) as [K _]. lia.
        - assert (ii = 0) as -> by lia. rewrite single_index_ok by lia. f_equal. unfold ci_tab. f_equal.
          unfold tab. apply map_ext_in. intros k Hk. apply in_seq in Hk. unfold g.
          destruct (Hnode k ltac:(lia)) as [L _]. destruct (node li (nth k rows 0)); [reflexivity|discriminate]. }
      match goal with |- safe _ _ (obind ?e _) => replace e with (Ok (ci_tab (ii + 1) r1 g)) by (symmetry; exact Ec) end. cbn [obind].
      rewrite aset_ok by lia. cbn [obind].
      destruct (core_mul ii Q X (nc A)) as (core & Eco & C1 & C2 & C3 & C4); [lia|exact Q3|lia|etransitivity; [exact M3|]; rewrite Q2; reflexivity|].
      rewrite Eco. cbn [obind]. rewrite aset_ok by lia. cbn [obind]. rewrite aset_ok by lia. cbn [obind safe].
      split; [exact Hw'|]. exists (ci_tab (ii + 1) r1 g), core, rk. cbn [cs_l cs_r cs_cores cs_lrk cs_rrk cs_full].
      repeat (split; [reflexivity|]).
      split. { apply ci_tab_ok. intros k Hk. destruct (Hnode k Hk) as (L & DD & Dx). unfold g. rewrite app_length. cbn. split; [lia|].
               apply inD_app; [exact DD|]. rewrite L. apply inD_cons; [exact Dx|apply inD_nil]. }
      split; [lia|]. split; [lia|]. split; [exact C3|].
      intros Hrk g0 a b x Ha Hb Hx. specialize (Q5 g0). specialize (M5 ltac:(lia)).
      pose proof (prep_values ii li ri r0 r1 A ltac:(lia) g0 Hl Hr A4) as VA.
      rewrite <- (VA x a b Hx Ha Hb).
      rewrite (through_pivots r1 (cv A x a b) (fun j => cv Q x a j) (fun j => cm r1 M j b) (fun k j => cv Q (nth k xs 0%R) (nth k rows 0) j) (fun i j => cm r1 X i j)
        (fun k => f (node (Some (ci_tab (ii + 1) r1 g)) k ++ node ri b))).
      - apply rsum_ext. intros k Hk. f_equal. rewrite C4 by (auto; lia). rewrite Q2, A2. reflexivity.
      - rewrite A2 in Q5. rewrite Q5 by (auto; lia). reflexivity.
      - intros i j Hi' Hj'. rewrite Q2, A2 in M5. apply M5; lia.
      - intros k Hk. rewrite ci_tab_nodes by exact Hk. unfold g. rewrite <- app_assoc. cbn [app].
        destruct (M4 k ltac:(lia)) as [K1 K2]. rewrite <- VA by (auto; lia). rewrite A2 in Q5. rewrite Q5 by (auto; lia). reflexivity.
    Qed.
  End LR.

  Section RL.
    Context (ranks : list nat) (ii r0 r1 : nat) (li ri : iset).
    Context (Hii : 0 < ii < d) (E0 : nth_error ranks ii = Some r0) (E1 : nth_error ranks (ii + 1) = Some r1) (P0 : 0 < r0 <= N) (P1 : 0 < r1 <= N).
    Context (Hl : iset_ok D 0 ii r0 li) (Hr : iset_ok D (ii + 1) (d - 1 - ii) r1 ri).

    Lemma rl_step_ok (s : cstate U) : wraps d f (cs_fw s) -> nth_error (cs_l s) ii = Some li -> nth_error (cs_r s) ii = Some ri ->
      (ii < d - 1 -> ri <> None) -> length (cs_r s) = d -> length (cs_cores s) = d -> length (cs_rrk s) = d ->
      safe F (fun s' => wraps d f (cs_fw s') /\ exists c core rk,
        cs_r s' = upd (cs_r s) (ii - 1) (Some c) /\ cs_l s' = cs_l s /\ cs_cores s' = upd (cs_cores s) ii (Some core) /\
        cs_rrk s' = upd (cs_rrk s) ii rk /\ cs_lrk s' = cs_lrk s /\ cs_full s' = cs_full s && (rk =? r0) /\
        iset_ok D ii (d - ii) r0 (Some c) /\ nr core = r0 /\ nc core = r1 /\ qwf core /\
        (rk = r0 -> forall k, k < r0 -> exists b x, b < r1 /\ D ii x /\ node (Some c) k = x :: node ri b /\ forall i, i < r0 -> cv core x i b = delta i k) /\
        (rk = r0 -> G -> forall a b x, a < r0 -> b < r1 -> D ii x ->
           f (node li a ++ x :: node ri b) = rsum r0 (fun k => cv core x k b * f (node li a ++ node (Some c) k))%R))
      (rl_step approx1 lq mv d ranks ii s).
    Proof.
      intros Hw EL ER Hsome LL LC LK. unfold rl_step. rewrite (aget_ok _ _ _ E0). cbn [obind]. rewrite (aget_ok _ _ _ E1). cbn [obind].
      eapply safe_bind; [apply (prepCore_ok D d f approx1 E F ii r0 r1 li ri); auto; lia|].
      intros [A w'] (Hw' & A1 & A2 & A3 & A4).
      eapply safe_bind; [apply (Hlq ii A); auto; try lia|]. intros [Q M] (Q1 & Q2 & Q3 & Q4 & Q5).
      destruct (qmarray_transpose_ok (R := Rring) Q Q3) as (Qt & Et & T1 & T2 & T3 & T4). rewrite Et. cbn [obind].
      assert (VT : forall x i j, i < r0 -> j < r1 -> cv Qt x j i = cv Q x i j).
      { intros x i j Hi Hj. unfold cv, ent. rewrite T4 by lia. reflexivity. }
      eapply safe_bind. { apply (Hmv ii Qt M (repeat 0 r0) (repeat 0%R r0)); auto; rewrite ?repeat_length; lia. }
      intros [[[[X rows] xs] info] rk] Hm. cbn [pivoting_ok] in Hm.
      destruct (Z.ltb_spec 0 info) as [Hi|Hi]; [exact I|]. specialize (Hm Hi). destruct Hm as (M1 & M2 & M3 & M4 & M5).
      assert (N1 : nc Qt = r0) by lia. assert (N2 : nr Qt = r1) by lia. rewrite N1, N2 in *.
      destruct (core_mul ii Qt X (nr A)) as (Q' & Eco & C1 & C2 & C3 & C4); [lia|exact T3|lia|etransitivity; [exact M3|]; rewrite A1, N1; reflexivity|].
      rewrite Eco. cbn [obind]. rewrite A1, A2, ?N1, ?N2 in *.
      destruct (qmarray_transpose_ok (R := Rring) Q' C3) as (core & Et' & K1 & K2 & K3 & K4). rewrite Et'. cbn [obind].
      rewrite ?C1, ?C2 in *.
      assert (VC : forall x k b, D ii x -> k < r0 -> b < r1 -> cv core x k b = rsum r0 (fun j => cv Q x j b * cm r0 X j k)%R).
      { intros x k b Hx Hk Hb. transitivity (cv Q' x b k). { unfold cv, ent. rewrite K4 by lia. reflexivity. }
        rewrite C4 by (auto; lia). apply rsum_ext. intros j Hj. rewrite VT by (auto; lia). reflexivity. }
      rewrite aset_ok by lia. cbn [obind].
      assert (Hnode : forall k, k < r0 -> length (node ri (nth k rows 0)) = d - 1 - ii /\ inD D (ii + 1) (node ri (nth k rows 0)) /\ D ii (nth k xs 0%R)).
      { intros k Hk. destruct (M4 k ltac:(lia)) as [B1 B2]. destruct (node_value_ok D _ _ _ _ (nth k rows 0) Hr ltac:(lia)) as (_ & L & DD). auto. }
      set (g := fun k => nth k xs 0%R :: node ri (nth k rows 0)).
      assert (Ec : (if ii <? d - 1 then do l <- aget (cs_r s) ii; match l with None => UB | Some old => cross_index_create_nested_ind (0%R : R) true r0 rows xs old end
                    else single_index r0 xs) = Ok (ci_tab (d - ii) r0 g)).
      { destruct (Nat.ltb_spec ii (d - 1)) as [H0|H0].
        - rewrite (aget_ok _ _ _ ER). cbn [obind]. destruct ri as [old|]; [|exfalso; now apply Hsome]. destruct Hr as (Wf & Dm & Hn & _).
          assert (Lr0 : r0 = length rows) by lia. rewrite Lr0 at 1. rewrite create_nested_ind_ok; [rewrite Dm; replace (d - 1 - ii + 1) with (d - ii) by lia; rewrite <- Lr0; reflexivity|exact Wf|lia|].
          apply Forall_forall. intros q Hq. destruct (In_nth rows q 0 Hq) as (k & Hk & <-). destruct (M4 k ltac:(lia)) as [B _]. lia.
        - rewrite single_index_ok by lia. f_equal. unfold ci_tab. f_equal; [lia|].
          unfold tab. apply map_ext_in. intros k Hk. apply in_seq in Hk. unfold g.
          destruct (Hnode k ltac:(lia)) as [L _]. destruct (node ri (nth k rows 0)); [reflexivity|cbn in L; lia]. }
      match goal with |- safe _ _ (obind ?e _) => replace e with (Ok (ci_tab (d - ii) r0 g)) by (symmetry; exact Ec) end. cbn [obind].
      rewrite aset_ok by lia. cbn [obind]. rewrite aset_ok by lia. cbn [obind safe].
      split; [exact Hw'|]. exists (ci_tab (d - ii) r0 g), core, rk. cbn [cs_l cs_r cs_cores cs_lrk cs_rrk cs_full].
      repeat (split; [reflexivity|]).
      split. { apply ci_tab_ok. intros k Hk. destruct (Hnode k Hk) as (L & DD & Dx). unfold g. cbn [length]. split; [lia|].
               apply inD_cons; [exact Dx|]. replace (S ii) with (ii + 1) by lia. exact DD. }
      split; [lia|]. split; [lia|]. split; [exact K3|]. split.
      - intros Hrk k Hk. specialize (M5 Hrk). destruct (M4 k Hk) as [B1 B2]. exists (nth k rows 0), (nth k xs 0%R).
        split; [exact B1|]. split; [exact B2|]. split; [apply ci_tab_nodes; exact Hk|]. intros i Hi'. rewrite VC by (auto; lia).
        destruct (M5 k i Hk Hi') as [HM _]. transitivity (delta k i); [|unfold delta; now rewrite Nat.eqb_sym]. rewrite <- HM. apply rsum_ext. intros j Hj. now rewrite VT by lia.
      - intros Hrk g0 a b x Ha Hb Hx. specialize (Q5 g0). specialize (M5 Hrk).
        pose proof (prep_values ii li ri r0 r1 A ltac:(lia) g0 Hl Hr A4) as VA.
        rewrite <- (VA x a b Hx Ha Hb).
        rewrite (through_pivots r0 (cv A x a b) (fun j => cv Q x j b) (fun j => cm r0 M a j) (fun k j => cv Q (nth k xs 0%R) j (nth k rows 0)) (fun i j => cm r0 X i j)
          (fun k => f (node li a ++ node (Some (ci_tab (d - ii) r0 g)) k))).
        + apply rsum_ext. intros k Hk. f_equal. rewrite VC by (auto; lia). reflexivity.
        + apply Q5; auto; lia.
        + intros i j Hi' Hj'. destruct (M5 i j Hi' Hj') as [_ HM]. rewrite <- HM. apply rsum_ext. intros l Hll. destruct (M4 l Hll) as [B1 B2]. now rewrite VT by lia.
        + intros k Hk. rewrite ci_tab_nodes by exact Hk. unfold g. destruct (M4 k Hk) as [B1 B2]. rewrite <- VA by (auto; lia). apply Q5; auto; lia.
    Qed.
  End RL.

  Lemma end_core_ok ranks ii r0 r1 li ri (s : cstate U) : ii < d -> nth_error ranks ii = Some r0 -> nth_error ranks (ii + 1) = Some r1 ->
    iset_ok D 0 ii r0 li -> iset_ok D (ii + 1) (d - 1 - ii) r1 ri ->
    wraps d f (cs_fw s) -> nth_error (cs_l s) ii = Some li -> nth_error (cs_r s) ii = Some ri -> length (cs_cores s) = d ->
    safe F (fun s' => wraps d f (cs_fw s') /\ exists core, s' = mkcs (cs_fw s') (cs_l s) (cs_r s) (upd (cs_cores s) ii (Some core)) (cs_lrk s) (cs_rrk s) (cs_full s) /\
      nr core = r0 /\ nc core = r1 /\ qwf core /\ forall a b, a < r0 -> b < r1 -> exists u, entry core a b = Some u /\ E ii (node li a) (node ri b) u)
    (end_core approx1 ranks ii s).
  Proof.
    intros Hii E0 E1 Hl Hr Hw EL ER LC. unfold end_core. rewrite (aget_ok _ _ _ E0). cbn [obind]. rewrite (aget_ok _ _ _ E1). cbn [obind].
    eapply safe_bind; [apply (prepCore_ok D d f approx1 E F ii r0 r1 li ri); auto; lia|].
    intros [A w'] (Hw' & A1 & A2 & A3 & A4). rewrite aset_ok by lia. cbn [obind safe cs_fw]. split; [exact Hw'|]. exists A. auto 10.
  Qed.
End Steps.
