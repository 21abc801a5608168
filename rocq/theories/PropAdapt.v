(** C38: rank adaptation of cross approximation. *)
From Coq Require Import Reals Lra.
From Verif Require Import BaseFacts IdxFacts RoundRun LuFacts CrossModel.
Open Scope nat_scope.

(** ** Specification *)
(** rank [k] and its limit, [1 <= k < dim] *)
Definition rank (ca : crossargs) (k : nat) : nat := nth k (ca_ranks ca) 0.
Definition limit (ca : crossargs) (k : nat) : nat := nth (k - 1) (ca_max ca) 0.
Definition inner (ca : crossargs) (k : nat) : Prop := 1 <= k < ca_dim ca.
(** arrays of the right length *)
Definition shaped (ca : crossargs) : Prop :=
  1 <= ca_dim ca /\ length (ca_ranks ca) = ca_dim ca + 1 /\ length (ca_max ca) = ca_dim ca - 1.
(** no overflow of size_t (numbers modulo [w]) *)
Definition fits (w : nat) (ca : crossargs) : Prop :=
  forall k, inner ca k -> limit ca k < w /\ limit ca k + ca_kick ca <= w.
(** Arguments that differ from [ca] in the inner ranks only, which are larger but not above
    the limits (a rank already above its limit is kept). *)
Definition grown (ca ca' : crossargs) : Prop :=
  ca' = mkca (ca_dim ca) (ca_ranks ca') (ca_eps ca) (ca_maxiter ca) (ca_adapt ca) (ca_kick ca) (ca_max ca) /\
  length (ca_ranks ca') = length (ca_ranks ca) /\
  (forall k, inner ca k -> rank ca k <= rank ca' k <= Nat.max (rank ca k) (limit ca k)) /\
  (forall k, ~ inner ca k -> rank ca' k = rank ca k).
(** The number of rounds possible: the sum of the distances of the ranks from their limits. *)
Definition gap (ca : crossargs) : nat := list_sum (map (fun k => limit ca k - rank ca k) (seq 1 (ca_dim ca - 1))).

Lemma grown_refl ca : grown ca ca.
Proof. split; [destruct ca; reflexivity|]. split; [reflexivity|]. split; [intros; lia|reflexivity]. Qed.
Lemma grown_inner a b k : grown a b -> (inner a k <-> inner b k) /\ limit b k = limit a k.
Proof. intros [E _]. rewrite E. unfold inner, limit. cbn. split; [tauto|reflexivity]. Qed.
Lemma grown_trans a b c : grown a b -> grown b c -> grown a c.
Proof.
  intros H H'. pose proof H as (E1 & L1 & R1 & N1). pose proof H' as (E2 & L2 & R2 & N2). split; [rewrite E2, E1; reflexivity|].
  split; [congruence|]. split; intros k Hk; destruct (grown_inner a b k H) as [HI HL].
  - specialize (R1 k Hk). specialize (R2 k (proj1 HI Hk)). rewrite HL in R2. lia.
  - rewrite N2 by (rewrite <- HI; exact Hk). now apply N1.
Qed.
Lemma grown_shaped a b : grown a b -> shaped a -> shaped b.
Proof. intros (E & L & _) (H1 & H2 & H3). rewrite E. unfold shaped. cbn. rewrite L. auto. Qed.
Lemma grown_fits w a b : grown a b -> fits w a -> fits w b.
Proof.
  intros H Hf k Hk. destruct (grown_inner a b k H) as [HI HL]. rewrite HL. replace (ca_kick b) with (ca_kick a) by (destruct H as [-> _]; reflexivity).
  apply Hf. now apply HI.
Qed.

Lemma sum_le (f g : nat -> nat) l : (forall k, In k l -> g k <= f k) -> list_sum (map g l) <= list_sum (map f l).
Proof.
  induction l as [|a l IH]; intros H; [apply le_n|]. rewrite !map_cons.
  change (g a + list_sum (map g l) <= f a + list_sum (map f l)). apply Nat.add_le_mono; [apply H; now left|apply IH; intros; apply H; now right].
Qed.
Lemma sum_lt (f g : nat -> nat) l k : In k l -> g k < f k -> (forall k, In k l -> g k <= f k) -> list_sum (map g l) < list_sum (map f l).
Proof.
  induction l as [|a l IH]; intros Hk Hlt H; [destruct Hk|]. pose proof (H a (or_introl eq_refl)) as Ha.
  assert (Hl : forall k, In k l -> g k <= f k) by (intros; apply H; now right).
  rewrite !map_cons. change (g a + list_sum (map g l) < f a + list_sum (map f l)). destruct Hk as [->|Hk].
  - apply Nat.add_lt_le_mono; [exact Hlt|now apply sum_le].
  - apply Nat.add_le_lt_mono; [exact Ha|now apply IH].
Qed.

Section C38.
  Context (w : nat) {FT St : Type}.
  Context (crossf : crossargs -> St -> outcome (FT * St)) (roundf : FT -> outcome FT) (ranks_of : FT -> list nat).
  Context (copylast : nat -> nat -> St -> outcome St).
  (** what holds of the index sets, given the ranks *)
  Context (Inv : list nat -> St -> Prop) (good : FT -> Prop).
  (** whether cross approximation may fail to end *)
  Context (F : Prop).

  (** rounding gives no larger ranks, or stops the program *)
  Definition round_law : Prop := forall ft, good ft ->
    (exists r, roundf ft = Ok r /\ length (ranks_of r) = length (ranks_of ft) /\ forall k, nth k (ranks_of r) 0 <= nth k (ranks_of ft) 0) \/ roundf ft = Abort.
  (** cross approximation called with arguments [ca] *)
  Definition cross_law (ca : crossargs) : Prop := forall s, Inv (ca_ranks ca) s ->
    (exists ft s', crossf ca s = Ok (ft, s') /\ good ft /\ ranks_of ft = ca_ranks ca /\ Inv (ca_ranks ca) s') \/ crossf ca s = Abort \/ (crossf ca s = OutOfFuel /\ F).
  (** repeating the last entry [n] times in the set belonging to rank [k] *)
  Definition copy_law (dim : nat) : Prop := forall rk s k n, Inv rk s -> 1 <= k < dim ->
    exists s', copylast (k - 1) n s = Ok s' /\ Inv (upd rk k (nth k rk 0 + n)) s'.

  Lemma nth_upd l k (v : nat) j : k < length l -> nth j (upd l k v) 0 = if j =? k then v else nth j l 0.
  Proof. intros H. apply (nth_aset l k v (upd l k v) 0). now apply aset_ok. Qed.

  Lemma kicks_ok ca rr s : shaped ca -> fits w ca -> copy_law (ca_dim ca) -> length rr = ca_dim ca + 1 -> Inv (ca_ranks ca) s ->
    exists ca' ad s', kicks w copylast ca (ca_ranks ca) rr s = Ok (ca', ca_ranks ca', ad, s') /\ grown ca ca' /\ Inv (ca_ranks ca') s' /\
      (forall k, inner ca k -> rank ca k = nth k rr 0 /\ rank ca k < limit ca k -> rank ca' k = Nat.min (rank ca k + ca_kick ca) (limit ca k)) /\
      (forall k, inner ca k -> ~ (rank ca k = nth k rr 0 /\ rank ca k < limit ca k) -> rank ca' k = rank ca k) /\
      (ad = true <-> exists k, inner ca k /\ rank ca k = nth k rr 0 /\ rank ca k < limit ca k).
  Proof.
    intros (D & L1 & L2) Hf Hc Lr HI. unfold kicks. set (d := ca_dim ca) in *.
    set (hit := fun k => rank ca k = nth k rr 0 /\ rank ca k < limit ca k).
    match goal with |- context [for_from 1 ?n ?b ?s0] => destruct (for_from_inv (fun i (st : crossargs * list nat * bool * St) =>
      let '(c, found, ad, s) := st in found = ca_ranks c /\
        c = mkca d (ca_ranks c) (ca_eps ca) (ca_maxiter ca) (ca_adapt ca) (ca_kick ca) (ca_max ca) /\ length (ca_ranks c) = d + 1 /\ Inv (ca_ranks c) s /\
        (forall k, 1 <= k < i -> hit k -> rank c k = Nat.min (rank ca k + ca_kick ca) (limit ca k)) /\
        (forall k, 1 <= k < i -> ~ hit k -> rank c k = rank ca k) /\
        (forall k, ~ (1 <= k < i) -> rank c k = rank ca k) /\
        (ad = true <-> exists k, 1 <= k < i /\ hit k)) b 1 n s0) as ([[[c found] ad] s'] & E & -> & Ec & Lc & Ic & K1 & K2 & K3 & K4) end.
    - split; [reflexivity|]. split; [destruct ca; reflexivity|]. split; [exact L1|]. split; [exact HI|].
      split; [intros; lia|]. split; [intros; lia|]. split; [reflexivity|]. split; [discriminate|]. intros (k & Hk & _). lia.
    - intros i [[[c found] ad] s1] Hi (-> & Ec & Lc & Ic & K1 & K2 & K3 & K4). cbn [kick_step].
      assert (In : inner ca i) by (unfold inner; fold d; lia).
      destruct (Hf i In) as [Hw1 Hw2].
      assert (E1 : nth_error (ca_ranks c) i = Some (rank ca i)).
      { rewrite <- (K3 i) by lia. unfold rank. apply nth_error_nth'. lia. }
      assert (E2 : nth_error rr i = Some (nth i rr 0)) by (apply nth_error_nth'; lia).
      rewrite (aget_ok _ _ _ E1). cbn [obind]. rewrite (aget_ok _ _ _ E2). cbn [obind].
      assert (same : ~ hit i -> (ca_ranks c = ca_ranks c /\ c = mkca d (ca_ranks c) (ca_eps ca) (ca_maxiter ca) (ca_adapt ca) (ca_kick ca) (ca_max ca) /\ length (ca_ranks c) = d + 1 /\ Inv (ca_ranks c) s1 /\
        (forall k, 1 <= k < S i -> hit k -> rank c k = Nat.min (rank ca k + ca_kick ca) (limit ca k)) /\
        (forall k, 1 <= k < S i -> ~ hit k -> rank c k = rank ca k) /\
        (forall k, ~ (1 <= k < S i) -> rank c k = rank ca k) /\
        (ad = true <-> exists k, 1 <= k < S i /\ hit k))).
      { intros Hn. split; [reflexivity|]. repeat (split; [assumption|]). split; [|split; [|split]].
        - intros k Hk Hh. destruct (Nat.eq_dec k i) as [->|]; [contradiction|]. apply K1; [lia|exact Hh].
        - intros k Hk Hh. destruct (Nat.eq_dec k i) as [->|]; [apply K3; lia|]. apply K2; [lia|exact Hh].
        - intros k Hk. apply K3. lia.
        - rewrite K4. split; intros (k & Hk & Hh); exists k; (split; [|exact Hh]); [lia|]. destruct (Nat.eq_dec k i) as [->|]; [contradiction|lia]. }
      destruct (Nat.eqb_spec (rank ca i) (nth i rr 0)) as [Er|Nr].
      2:{ eexists (_, _, _, _). split; [reflexivity|]. apply same. intros [X _]. contradiction. }
      cbn [obind].
      assert (E3 : nth_error (ca_max c) (i - 1) = Some (limit ca i)) by (rewrite Ec; unfold limit; cbn [ca_max]; apply nth_error_nth'; lia).
      rewrite (aget_ok _ _ _ E3). cbn [obind].
      destruct (Nat.ltb_spec (rank ca i) (limit ca i)) as [Hlt|Hge].
      2:{ eexists (_, _, _, _). split; [reflexivity|]. apply same. intros [_ X]. lia. }
      assert (Hh : hit i) by (split; assumption).
      replace (ca_kick c) with (ca_kick ca) by (rewrite Ec; reflexivity).
      set (ks := if addw w (rank ca i) (ca_kick ca) <=? limit ca i then ca_kick ca else (limit ca i + w - rank ca i) mod w).
      assert (Eadd : addw w (rank ca i) (ca_kick ca) = rank ca i + ca_kick ca) by (unfold addw; apply Nat.mod_small; lia).
      assert (Eks : rank ca i + ks = Nat.min (rank ca i + ca_kick ca) (limit ca i)).
      { unfold ks. rewrite Eadd. destruct (Nat.leb_spec (rank ca i + ca_kick ca) (limit ca i)) as [X|X]; [lia|].
        replace (limit ca i + w - rank ca i) with ((limit ca i - rank ca i) + 1 * w) by lia. rewrite Nat.mod_add by lia. rewrite Nat.mod_small by lia. lia. }
      assert (Enew : addw w (rank ca i) ks = Nat.min (rank ca i + ca_kick ca) (limit ca i)) by (unfold addw; rewrite Eks; apply Nat.mod_small; lia).
      rewrite Enew. unfold set_rank, ft_cross_args_set_rank. rewrite aset_ok by lia. cbn [obind ca_ranks].
      destruct (Hc _ _ i ks Ic ltac:(lia)) as (s2 & Es & I2). rewrite Es. cbn [obind].
      replace (nth i (ca_ranks c) 0 + ks) with (Nat.min (rank ca i + ca_kick ca) (limit ca i)) in I2 by (rewrite <- Eks; f_equal; symmetry; apply (K3 i); lia).
      eexists (_, _, _, _). split; [reflexivity|]. cbn [ca_ranks]. split; [reflexivity|].
      split; [generalize (upd (ca_ranks c) i (Nat.min (rank ca i + ca_kick ca) (limit ca i))); intros l0; rewrite Ec; reflexivity|].
      split; [rewrite upd_length; exact Lc|]. split; [exact I2|].
      assert (V : forall k, rank (mkca (ca_dim c) (upd (ca_ranks c) i (Nat.min (rank ca i + ca_kick ca) (limit ca i))) (ca_eps c) (ca_maxiter c) (ca_adapt c) (ca_kick c) (ca_max c)) k
                            = if k =? i then Nat.min (rank ca i + ca_kick ca) (limit ca i) else rank c k).
      { intros k. unfold rank at 1. cbn [ca_ranks]. apply nth_upd. lia. }
      split; [|split; [|split]].
      + intros k Hk Hk'. rewrite V. destruct (Nat.eqb_spec k i) as [->|]; [reflexivity|]. apply K1; [lia|exact Hk'].
      + intros k Hk Hk'. rewrite V. destruct (Nat.eqb_spec k i) as [->|]; [contradiction|]. apply K2; [lia|exact Hk'].
      + intros k Hk. rewrite V. destruct (Nat.eqb_spec k i) as [->|]; [exfalso; apply Hk; lia|]. apply K3. lia.
      + split; [|reflexivity]. intros _. exists i. split; [lia|exact Hh].
    - exists c, ad, s'. assert (D1 : 1 + (d - 1) = d) by lia. rewrite D1 in *.
      split; [exact E|]. split; [|split; [exact Ic|split; [|split]]].
      + split; [exact Ec|]. split; [congruence|]. split.
        * intros k Hk. destruct (Nat.eq_dec (rank ca k) (nth k rr 0)) as [Er|Er].
          -- destruct (Nat.lt_ge_cases (rank ca k) (limit ca k)) as [X|X].
             ++ rewrite K1 by (auto; split; auto). lia.
             ++ rewrite K2 by (auto; intros [_ Y]; lia). lia.
          -- rewrite K2 by (auto; intros [Y _]; contradiction). lia.
        * intros k Hk. apply K3. exact Hk.
      + intros k Hk Hh. apply K1; auto.
      + intros k Hk Hh. apply K2; auto.
      + exact K4.
  Qed.

  (** every rank was cut down by the rounding, or has reached its limit *)
  Definition settled (ca : crossargs) (f : FT) : Prop := forall k, inner ca k ->
    nth k (ranks_of f) 0 < rank ca k \/ limit ca k <= rank ca k.

  Lemma gap_lt a b : grown a b -> (exists k, inner a k /\ rank a k < rank b k /\ rank a k < limit a k) -> gap b < gap a.
  Proof.
    intros H (k & Hk & H1 & H2). pose proof H as (E & _ & R & _). unfold gap. replace (ca_dim b) with (ca_dim a) by (rewrite E; reflexivity).
    apply (sum_lt _ _ _ k).
    - apply in_seq. unfold inner in Hk. lia.
    - destruct (grown_inner a b k H) as [_ ->]. lia.
    - intros j Hj. apply in_seq in Hj. destruct (grown_inner a b j H) as [_ ->]. specialize (R j ltac:(unfold inner; lia)). lia.
  Qed.

  Lemma adapt_loop_ok ca0 : shaped ca0 -> fits w ca0 -> 1 <= ca_kick ca0 -> copy_law (ca_dim ca0) -> round_law -> (forall ca, grown ca0 ca -> cross_law ca) ->
    forall fuel ca ad ftr s, grown ca0 ca -> Inv (ca_ranks ca) s -> (ad = true -> gap ca < fuel) ->
      (ad = false -> settled ca ftr /\ forall k, nth k (ranks_of ftr) 0 <= rank ca k) ->
    let run := adapt_loop w crossf roundf ranks_of copylast fuel ca (ca_ranks ca) ad ftr s in
    (run = Abort \/ (run = OutOfFuel /\ F)) \/ exists f ca' s', run = Ok (f, ca', s') /\ grown ca0 ca' /\ Inv (ca_ranks ca') s' /\ settled ca' f /\
      forall k, nth k (ranks_of f) 0 <= rank ca' k.
  Proof.
    intros Hs Hf Hk Hc Hr Hx. induction fuel as [|fuel IH]; intros ca ad ftr s Hg HI Hfu Hset; destruct ad; cbn [adapt_loop];
      [specialize (Hfu eq_refl); lia|right; exists ftr, ca, s; repeat (split; [auto; apply Hset; reflexivity|]); now apply Hset| |right; exists ftr, ca, s; repeat (split; [auto; apply Hset; reflexivity|]); now apply Hset].
    specialize (Hfu eq_refl). pose proof (grown_shaped _ _ Hg Hs) as Sh. pose proof (grown_fits _ _ _ Hg Hf) as Fi.
    assert (Dm : ca_dim ca = ca_dim ca0) by (destruct Hg as [-> _]; reflexivity).
    assert (Km : ca_kick ca = ca_kick ca0) by (destruct Hg as [-> _]; reflexivity).
    destruct (Hx ca Hg s HI) as [(ft & s1 & E & G & Rk & I1)|[E|[E HF]]]; rewrite E; cbn [obind]; [|left; now left|left; right; split; [reflexivity|exact HF]].
    destruct (Hr ft G) as [(f & E2 & Lf & Rf)|E2]; rewrite E2; cbn [obind]; [|left; now left].
    assert (Lf' : length (ranks_of f) = ca_dim ca + 1) by (rewrite Lf, Rk; apply Sh).
    destruct (kicks_ok ca (ranks_of f) s1 Sh Fi ltac:(rewrite Dm; exact Hc) Lf' I1) as (ca' & ad & s2 & E3 & G' & I2 & K1 & K2 & K3).
    rewrite E3. cbn [obind]. cbv zeta. apply IH.
    - eapply grown_trans; eauto.
    - exact I2.
    - intros ->. destruct (proj1 K3 eq_refl) as (k & Hk1 & Hk2 & Hk3).
      assert (gap ca' < gap ca); [|lia]. apply gap_lt; [exact G'|]. exists k. split; [exact Hk1|]. split; [|exact Hk3].
      rewrite (K1 k Hk1 (conj Hk2 Hk3)). lia.
    - intros ->. assert (Same : forall k, rank ca' k = rank ca k).
      { intros k. destruct (Nat.lt_ge_cases k 1) as [X|X]; [destruct G' as (_ & _ & _ & N); apply N; unfold inner; lia|].
        destruct (Nat.lt_ge_cases k (ca_dim ca)) as [Y|Y]; [|destruct G' as (_ & _ & _ & N); apply N; unfold inner; lia].
        apply K2; [split; assumption|]. intros Hh. apply (Bool.diff_false_true). apply K3. exists k. split; [split; assumption|exact Hh]. }
      assert (Le : forall k, nth k (ranks_of f) 0 <= rank ca' k) by (intros k; rewrite Same; unfold rank; rewrite <- Rk; apply Rf).
      split; [|exact Le]. intros k Hk'. destruct (grown_inner ca ca' k G') as [HI' HL]. apply HI' in Hk'. rewrite HL, Same.
      destruct (Nat.lt_ge_cases (rank ca k) (limit ca k)) as [X|X]; [left|right; exact X].
      specialize (Le k). rewrite Same in Le. destruct (Nat.eq_dec (rank ca k) (nth k (ranks_of f) 0)) as [Y|Y]; [|lia].
      exfalso. apply (Bool.diff_false_true). apply K3. exists k. auto.
  Qed.

  (** Ranks are only ever increased and never above the limits: this holds of the arguments of
      every call of the cross approximation (nothing is assumed about other calls) and at the
      end.  The procedure ends after at most [gap ca] rounds of adaptation, and then every
      rank was reduced by the rounding or is at its limit.  The right index sets always have
      the sizes of the ranks. *)
  Theorem C38_rankadapt_partial ca s fuel : shaped ca -> fits w ca -> 1 <= ca_kick ca ->
    copy_law (ca_dim ca) -> round_law -> (forall ca', grown ca ca' -> cross_law ca') -> Inv (ca_ranks ca) s -> gap ca <= fuel ->
    let run := ftapprox_cross_rankadapt w crossf roundf ranks_of copylast fuel ca s in
    (run = Abort \/ (run = OutOfFuel /\ F)) \/ exists f ca' s', run = Ok (f, ca', s') /\ grown ca ca' /\ Inv (ca_ranks ca') s' /\
      (forall k, nth k (ranks_of f) 0 <= rank ca' k) /\ (ca_adapt ca = true -> settled ca' f).
  Proof.
    intros Sh Fi Hk Hc Hr Hx HI Hfu. unfold ftapprox_cross_rankadapt.
    destruct (Hx ca (grown_refl ca) s HI) as [(ft & s1 & E & G & Rk & I1)|[E|[E HF]]]; rewrite E; cbn [obind]; [|left; now left|left; right; split; [reflexivity|exact HF]].
    destruct (ca_adapt ca) eqn:Ea; cbn [negb].
    2:{ right. exists ft, ca, s1. split; [reflexivity|]. split; [apply grown_refl|]. split; [exact I1|]. split; [|discriminate].
        intros k. unfold rank. rewrite Rk. lia. }
    destruct Sh as (D & L1 & L2).
    rewrite (copyn_mid' (ca_dim ca + 1) (ca_ranks ca) (repeat 0 (ca_dim ca + 1)) [] (ca_ranks ca) [] [] (repeat 0 (ca_dim ca + 1)) [] 0 0);
      rewrite ?app_nil_r; cbn; try reflexivity; try lia; [|rewrite repeat_length; lia].
    destruct (Hr ft G) as [(f & E2 & Lf & Rf)|E2]; rewrite E2; cbn [obind]; [|left; now left].
    assert (Lf' : length (ranks_of f) = ca_dim ca + 1) by (rewrite Lf, Rk; exact L1).
    destruct (kicks_ok ca (ranks_of f) s1 (conj D (conj L1 L2)) Fi Hc Lf' I1) as (ca' & ad & s2 & E3 & G' & I2 & K1 & K2 & K3).
    rewrite E3. cbn [obind].
    assert (Same : ad = false -> forall k, rank ca' k = rank ca k).
    { intros -> k. destruct (Nat.lt_ge_cases k 1) as [X|X]; [destruct G' as (_ & _ & _ & N); apply N; unfold inner; lia|].
      destruct (Nat.lt_ge_cases k (ca_dim ca)) as [Y|Y]; [|destruct G' as (_ & _ & _ & N); apply N; unfold inner; lia].
      apply K2; [split; assumption|]. intros Hh. apply (Bool.diff_false_true). apply K3. exists k. split; [split; assumption|exact Hh]. }
    destruct (adapt_loop_ok ca (conj D (conj L1 L2)) Fi Hk Hc Hr Hx fuel ca' ad f s2 G' I2) as [H|(f' & ca'' & s'' & H & H1 & H2 & H3 & H4)].
    - intros ->. destruct (proj1 K3 eq_refl) as (k & Hk1 & Hk2 & Hk3).
      assert (gap ca' < gap ca); [|lia]. apply gap_lt; [exact G'|]. exists k. split; [exact Hk1|]. split; [|exact Hk3].
      rewrite (K1 k Hk1 (conj Hk2 Hk3)). lia.
    - intros Ead. specialize (Same Ead). subst ad.
      assert (Le : forall k, nth k (ranks_of f) 0 <= rank ca' k) by (intros k; rewrite Same; unfold rank; rewrite <- Rk; apply Rf).
      split; [|exact Le]. intros k Hk'. destruct (grown_inner ca ca' k G') as [HI' HL]. apply HI' in Hk'. rewrite HL, Same.
      destruct (Nat.lt_ge_cases (rank ca k) (limit ca k)) as [X|X]; [left|right; exact X].
      specialize (Le k). rewrite Same in Le. destruct (Nat.eq_dec (rank ca k) (nth k (ranks_of f) 0)) as [Y|Y]; [|lia].
      exfalso. apply (Bool.diff_false_true). apply K3. exists k. auto.
    - left. exact H.
    - right. exists f', ca'', s''. auto 10.
  Qed.
End C38.

(** ** Instances and counterexamples *)

Lemma alloc2 w start : ft_cross_args_alloc w 2 start = Ok (mkca 2 [1; start; 1] (1 / 10000000000) 5 true 5 [addw w start (20 mod w)]).
Proof. reflexivity. Qed.

(** Arguments as the program makes them: a train in three variables, start rank 2, hence
    limits 22; the approximation is asked for rank 7. *)
Example C38_example : let w := 2048 in exists ca, ft_cross_args_alloc w 3 2 = Ok ca /\
  shaped ca /\ fits w ca /\ 1 <= ca_kick ca /\ gap ca = 40 /\
  let crossf (c : crossargs) (s : list nat) := Ok (map (Nat.min 7) (ca_ranks c), s) in
  let copylast k n (s : list nat) := Ok (upd s (k + 1) (nth (k + 1) s 0 + n)) in
  exists ca', ftapprox_cross_rankadapt w crossf (fun f => Ok f) (fun f => f) copylast 40 ca (ca_ranks ca)
    = Ok ([1; 7; 7; 1], ca', [1; 12; 12; 1]) /\ ca_ranks ca' = [1; 12; 12; 1].
Proof.
  cbv zeta. exists (mkca 3 [1; 2; 2; 1] (1 / 10000000000) 5 true 5 [22; 22]).
  split; [reflexivity|]. split; [split; [cbn; lia|split; reflexivity]|].
  split; [intros k Hk; unfold inner in Hk; cbn in Hk; assert (k = 1 \/ k = 2) as [-> | ->] by lia; split; apply Nat.ltb_lt || apply Nat.leb_le; reflexivity|].
  split; [cbn; lia|]. split; [reflexivity|]. cbv zeta.
  exists (mkca 3 [1; 12; 12; 1] (1 / 10000000000) 5 true 5 [22; 22]). split; reflexivity.
Qed.

(** The start rank is not compared with the limits: with a start rank of 10 and limits of 5,
    an approximation that rounding cannot reduce is returned with rank 10. *)
Theorem C38_start_above_limit_refuted w : 64 <= w ->
  exists ca0 ca, ft_cross_args_alloc w 2 10 = Ok ca0 /\ ft_cross_args_set_maxrank_all ca0 5 = Ok ca /\ limit ca 1 = 5 /\
  ftapprox_cross_rankadapt w (fun c (s : unit) => Ok (ca_ranks c, s)) (fun f => Ok f) (fun f => f) (fun _ _ s => Ok s) 1 ca tt
    = Ok ([1; 10; 1], ca, tt).
Proof.
  intros _. eexists. eexists. split; [apply alloc2|]. split; [reflexivity|]. split; reflexivity.
Qed.

(** A kick rank of 0 is accepted; adaptation then never ends while rounding keeps the rank. *)
Theorem C38_kick0_refuted w : 64 <= w ->
  exists ca0, ft_cross_args_alloc w 2 2 = Ok ca0 /\
  let ca := ft_cross_args_set_kickrank ca0 0 in shaped ca /\ fits w ca /\
  forall fuel, ftapprox_cross_rankadapt w (fun c (s : unit) => Ok (ca_ranks c, s)) (fun f => Ok f) (fun f => f) (fun _ _ s => Ok s) fuel ca tt = OutOfFuel.
Proof.
  intros Hw. assert (S : forall n, n < 64 -> n mod w = n) by (intros; apply Nat.mod_small; lia).
  eexists. split; [apply alloc2|]. cbv zeta. rewrite (S 20) by lia. unfold addw. rewrite (S (2 + 20)) by lia.
  unfold ft_cross_args_set_kickrank. cbn [ca_dim ca_ranks ca_eps ca_maxiter ca_adapt ca_max].
  set (ca := mkca _ _ _ _ _ _ _).
  split; [split; [cbn; lia|split; reflexivity]|].
  split; [intros k Hk; unfold inner in Hk; cbn in Hk; assert (k = 1) as -> by lia; cbn; lia|].
  assert (K : kicks w (fun _ _ (s : unit) => Ok s) ca (ca_ranks ca) (ca_ranks ca) tt = Ok (ca, ca_ranks ca, true, tt)).
  { assert (A : addw w 2 0 = 2) by (unfold addw; apply S; lia).
    unfold kicks, ca. change (2 - 1) with 1. cbn - [addw Nat.modulo]. rewrite A. cbn - [addw Nat.modulo]. rewrite A. reflexivity. }
  assert (L : forall fuel, adapt_loop w (fun c (s : unit) => Ok (ca_ranks c, s)) (fun f => Ok f) (fun f => f) (fun _ _ s => Ok s) fuel ca (ca_ranks ca) true (ca_ranks ca) tt = OutOfFuel).
  { induction fuel as [|fuel IH]; [reflexivity|]. cbn [adapt_loop obind]. rewrite K. cbn [obind]. exact IH. }
  intros fuel. unfold ftapprox_cross_rankadapt. cbn [obind]. change (ca_adapt ca) with true. cbn [negb].
  match goal with |- context [obind ?e _] => change e with (Ok (ca_ranks ca)) end. cbn [obind]. rewrite K. cbn [obind]. apply L.
Qed.

(** The sum of rank and kick rank may wrap: a kick rank of 2^64 - 1 decreases the rank. *)
Theorem C38_overflow_refuted w : 64 <= w ->
  exists ca0 f ca', ft_cross_args_alloc w 2 3 = Ok ca0 /\
  let ca := ft_cross_args_set_kickrank ca0 (w - 1) in shaped ca /\ rank ca 1 <= limit ca 1 /\
  ftapprox_cross_rankadapt w (fun c (s : unit) => Ok (ca_ranks c, s)) (fun f => Ok (if nth 1 f 0 =? 3 then f else [1; 1; 1])) (fun f => f) (fun _ _ s => Ok s) 2 ca tt = Ok (f, ca', tt) /\
  rank ca' 1 < rank ca 1.
Proof.
  intros Hw. assert (S : forall n, n < 64 -> n mod w = n) by (intros; apply Nat.mod_small; lia).
  exists (mkca 2 [1; 3; 1] (1 / 10000000000) 5 true 5 [23]), [1; 1; 1], (mkca 2 [1; 2; 1] (1 / 10000000000) 5 true (w - 1) [23]).
  split; [rewrite alloc2, (S 20) by lia; unfold addw; rewrite (S (3 + 20)) by lia; reflexivity|]. cbv zeta.
  split; [split; [cbn; lia|split; reflexivity]|]. split; [cbn; lia|]. split; [|cbn; lia].
  assert (A : addw w 3 (w - 1) = 2).
  { unfold addw. replace (3 + (w - 1)) with (2 + 1 * w) by lia. rewrite Nat.mod_add by lia. apply S. lia. }
  unfold ftapprox_cross_rankadapt, ft_cross_args_set_kickrank. remember (w - 1) as k eqn:Ek.
  repeat (cbn - [addw Nat.modulo]; rewrite ?A). reflexivity.
Qed.

Print Assumptions C38_rankadapt_partial.
Print Assumptions C38_start_above_limit_refuted.
Print Assumptions C38_kick0_refuted.
Print Assumptions C38_overflow_refuted.
