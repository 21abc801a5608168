(** C72, C73: the parts of the library satisfy what is assumed of the parts of cross
    approximation, and an example. *)
From Coq Require Import Reals Lra.
From Verif Require Import Base BaseFacts Fill IdxModel IdxFacts FwrapModel FwrapFacts FTModel FTSpec FTFacts QmaFacts FTInt.
From Verif Require Import OrthAbs OrthFacts RoundModel RoundSvd RoundStep RoundRun RoundMono LuFacts PinvModel DistModel CrossModel CrossFacts CrossSteps CrossSweep.
From Verif Require Import PropOrth PropRound PropRound2 PropLu PropPinv PropMaxvol PropDist PropCross.
Open Scope nat_scope.

(** ** A function given to fwrap_set_f *)
Lemma blocks_concat {X} d (pts : list (list X)) : Forall (fun p => length p = d) pts -> blocks d (length pts) (concat pts) = pts.
Proof.
  induction 1 as [|p pts Hp _ IH]; [reflexivity|]. cbn [length concat blocks].
  rewrite firstn_app, skipn_app, Hp, Nat.sub_diag, firstn_O, skipn_O, app_nil_r, firstn_all2, skipn_all2 by lia. cbn [app]. now rewrite IH.
Qed.
Lemma wraps_set_f d f w : fwrap_set_f (fwrap_create d ND) f = Ok w -> wraps d f w.
Proof.
  intros H. exists ND, [OSetF f], (fun n x => (map f (blocks d n x), 0)). split; [|split; [reflexivity|]].
  - apply (agrees_step (0%R : R) d ND (fwrap_create d ND) [] (OSetF f) w); [apply agrees_create|exact H].
  - intros pts Hp. now rewrite blocks_concat.
Qed.

(** ** The difference *)
Lemma relnorm2diff_safe {U : uops Rring} d zt F : law_inner_lin_r U -> law_inner_sym U -> 2 <= d -> (0 <= zt)%R ->
  forall a b : ftrain U, ft_wf a /\ ft_dim a = d -> ft_wf b /\ ft_dim b = d -> safe F (fun _ => True) (ft_relnorm2diff zt a b).
Proof.
  intros HL HS Hd Hz a b [Wa Da] [Wb Db]. destruct (C74_relnorm2diff_partial zt a b HL HS Wa Wb ltac:(congruence) ltac:(lia) Hz) as (v & E & _).
  rewrite E. exact I.
Qed.

(** ** The factorisations *)
Section Factor.
  Context (D : nat -> R -> Prop) (d : nat) {U : uops Rring} (F G : Prop) (N : nat) (P : (U -> R) -> Prop) (fail : Prop).
  Context (HP : forall ii x, ii < d -> D ii x -> P (fun u => uev u (x : Rring))).
  Lemma xqr_of qr : qr_law P N fail qr -> xqr_law D d F G N qr.
  Proof.
    intros H ii A Hii Wf Hr Hc. destruct (H ii A Wf Hr Hc) as [(Q & M & E & (S1 & S2 & W) & LM & _ & Hz & HV)|[E _]]; rewrite E; [|exact I].
    split; [exact S1|]. split; [exact S2|]. split; [exact W|]. split; [exact LM|]. intros _ x a b Hx Ha Hb.
    unfold cv. rewrite (HV a b _ Ha Hb (HP ii x Hii Hx)).
    rewrite (rsum_extend (S b) (nc A) (fun i => (mat (nc A) M i b * ent (R := Rring) (fun u => uev u (x : Rring)) Q a i)%R)) by
      (try lia; intros i Hi; rewrite (Hz i b) by lia; rewrite mat_zeros; ring).
    apply rsum_ext. intros j Hj. unfold mat, cm. ring.
  Qed.
  Lemma xlq_of lq : lq_law P N fail lq -> xlq_law D d F G N lq.
  Proof.
    intros H ii A Hii Wf Hr Hc. destruct (H ii A Wf Hr Hc) as [(Q & M & E & (S1 & S2 & W) & LM & _ & Hz & HV)|[E _]]; rewrite E; [|exact I].
    split; [exact S1|]. split; [exact S2|]. split; [exact W|]. split; [exact LM|]. intros _ x a b Hx Ha Hb.
    unfold cv. rewrite (HV b a _ Hb Ha (HP ii x Hii Hx)).
    rewrite (rsum_extend (S a) (nr A) (fun i => (mat (nr A) M a i * ent (R := Rring) (fun u => uev u (x : Rring)) Q i b)%R)) by
      (try lia; intros i Hi; rewrite (Hz i a) by lia; rewrite mat_zeros; ring).
    apply rsum_ext. intros j Hj. unfold mat, cm. ring.
  Qed.
End Factor.

(** ** The pivots *)
Section Pivots.
  Context (svdf : nat -> nat -> list R -> outcome (list R * list R * list R)).
  Context {U : uops Rring} (W : vops U) (zt : R) (absmax1 : U -> R * R) (nodal : U -> bool).
  Context (onezero2 : list R -> U) (uone : U) (zpoly : list R -> U) (lb ub : U -> R) (lo hi : R) (fuel : nat).
  Definition the_mv (ii : nat) (A : qma U) (M : list R) (p : list nat) (x : list R) :=
    qmarray_maxvol1d svdf W zt absmax1 nodal onezero2 uone zpoly lb ub fuel A M p x.
  Definition box (ii : nat) (x : R) : Prop := (lo <= x <= hi)%R.

  Lemma lu_laws_le m m' : m' <= m -> lu_laws W zt absmax1 nodal onezero2 zpoly m -> lu_laws W zt absmax1 nodal onezero2 zpoly m'.
  Proof.
    intros Hm (H1 & H2 & H3 & H4 & H5 & H6). split; [exact H1|]. split; [exact H2|]. split; [exact H3|]. split; [|split].
    - intros f z x H. intros Hz. apply (H4 f); auto. lia.
    - intros f z x H. intros Hz. apply (H5 f); auto. lia.
    - intros f z H Hz. apply (H6 f); auto. lia.
  Qed.

  Lemma maxvol_law d N (F : Prop) fail : svd_law N fail svdf -> (0 < zt)%R -> lu_laws W zt absmax1 nodal onezero2 zpoly N ->
    is_absmax absmax1 (fun x => lo <= x <= hi)%R -> (forall f, lb f = lo) -> (forall f, ub f = hi) -> F -> mv_law box d F N the_mv (U := U).
  Proof.
    intros Hsvd Hzt HL Hmax Hlb Hub HF ii A M p x Hii Wf Hr Hc Lp Lx. unfold the_mv.
    destruct (C71_maxvol1d svdf W zt absmax1 nodal onezero2 uone zpoly lb ub N fail lo hi A fuel M p x Hsvd Hzt (lu_laws_le N (nc A) ltac:(lia) HL)
      (fun f => proj1 (proj2 (Hmax f))) Hlb Hub Hr Hc Wf Lp Lx) as [E|[[E _]|(X & rows & xs & info & rank & E & Hi & K1 & K2 & K3 & K4 & _ & K6)]].
    - rewrite E. exact I.
    - rewrite E. exact HF.
    - rewrite E. intros _. split; [exact K1|]. split; [exact K2|]. split; [exact K3|]. split; [exact K4|].
      intros Er i j Hi' Hj. destruct (K6 (or_intror Hmax)) as (_ & _ & KI). destruct (KI Er) as [I1 I2].
      split; [exact (I1 i j Hi' Hj)|exact (I2 i j Hi' Hj)].
  Qed.
End Pivots.

(** ** Runs with the factorisations themselves *)
Section Mono.
  Context {U : uops Rring} (approx1 : nat -> fwrap R R -> outcome U).
  Context (qr lq qr' lq' : nat -> qma U -> list R -> outcome (qma U * list R)).
  Context (mv : nat -> qma U -> list R -> list nat -> list R -> outcome (list R * list nat * list R * Z * nat)).
  Context (rdiff : ftrain U -> ftrain U -> outcome R).
  Hypothesis Hqr : forall c A M, ref (qr c A M) (qr' c A M).
  Hypothesis Hlq : forall c A M, ref (lq c A M) (lq' c A M).
  Lemma ref_same {A B} (x : outcome A) (f f' : A -> outcome B) : (forall v, ref (f v) (f' v)) -> ref (obind x f) (obind x f').
  Proof. intros H. apply ref_bind; [apply ref_refl|exact H]. Qed.
  Lemma ref_lr ranks ii s : ref (lr_step approx1 qr mv ranks ii s) (lr_step approx1 qr' mv ranks ii s).
  Proof.
    unfold lr_step. apply ref_same; intros r0. apply ref_same; intros r1. apply ref_same; intros [temp fw].
    apply ref_bind; [apply Hqr|intros [Q M]]. apply ref_refl.
  Qed.
  Lemma ref_rl dim ranks ii s : ref (rl_step approx1 lq mv dim ranks ii s) (rl_step approx1 lq' mv dim ranks ii s).
  Proof.
    unfold rl_step. apply ref_same; intros r0. apply ref_same; intros r1. apply ref_same; intros [temp fw].
    apply ref_bind; [apply Hlq|intros [Q M]]. apply ref_refl.
  Qed.
  Lemma ref_sweeps dim ranks s : ref (sweeps approx1 qr lq mv dim ranks s) (sweeps approx1 qr' lq' mv dim ranks s).
  Proof.
    unfold sweeps. apply ref_bind; [apply ref_for_from; intros; apply ref_lr|intros s1]. apply ref_bind; [apply ref_refl|intros s2].
    apply ref_bind; [apply ref_for_from; intros; apply ref_rl|intros s3]. apply ref_refl.
  Qed.
  Lemma ref_loop fuel ca : forall iter fti fti2 s, ref (cross_loop approx1 qr lq mv rdiff fuel ca iter fti fti2 s) (cross_loop approx1 qr' lq' mv rdiff fuel ca iter fti fti2 s).
  Proof.
    induction fuel as [|fuel IH]; intros iter fti fti2 s; cbn [cross_loop]; [apply ref_refl|]. apply ref_bind; [apply ref_sweeps|intros s1].
    apply ref_bind; [apply ref_refl|intros cs]. apply ref_bind; [apply ref_refl|intros df]. apply ref_bind; [apply ref_refl|intros df2].
    destruct (_ && _); [apply ref_refl|]. destruct (_ =? _); [apply ref_refl|apply IH].
  Qed.
  Lemma ref_cross fuel fw ca l r ftref : ref (ftapprox_cross approx1 qr lq mv rdiff fuel fw ca l r ftref) (ftapprox_cross approx1 qr' lq' mv rdiff fuel fw ca l r ftref).
  Proof. apply ref_loop. Qed.
End Mono.

(** ** Cross approximation with the parts of the library *)
Section Library.
  Context (svdf : nat -> nat -> list R -> outcome (list R * list R * list R)).
  Context {U : uops Rring} (W : vops U) (zro zt : R) (orth : nat -> nat -> list U) (uz : U).
  Context (absmax1 : U -> R * R) (nodal : U -> bool).
  Context (onezero2 : list R -> U) (uone : U) (zpoly : list R -> U) (lb ub : U -> R) (lo hi : R) (mvfuel N d : nat).

  (** What is assumed of the functions of one variable. *)
  Definition functions_ok : Prop :=
    inner_laws W /\ law_inner_lin_l U /\ law_inner_sym U /\ (0 < zro)%R /\ (forall core n, n <= N -> orth_ok (orth core) uz n) /\
    svd_law N True svdf /\ (0 < zt)%R /\ lu_laws W zt absmax1 nodal onezero2 zpoly N /\
    is_absmax absmax1 (fun x => lo <= x <= hi)%R /\ (forall f, lb f = lo) /\ (forall f, ub f = hi) /\
    (forall x, (lo <= x <= hi)%R -> good W (fun u : U => uev u (x : Rring))).
  Definition lib_mv := the_mv svdf W zt absmax1 nodal onezero2 uone zpoly lb ub mvfuel.
  Definition lib_cross (approx1 : nat -> fwrap R R -> outcome U) := ftapprox_cross approx1 (hqr W zro orth uz) (hlq W zro orth uz) lib_mv (ft_relnorm2diff zt).
  (** the same, but stopping at pivots of a factorisation between 0 and twice ZERO *)
  Definition lib_cross_checked (approx1 : nat -> fwrap R R -> outcome U) :=
    ftapprox_cross approx1 (checked zro nc (hqr W zro orth uz)) (checked zro nr (hlq W zro orth uz)) lib_mv (ft_relnorm2diff zt).

  Lemma library_parts f approx1 E (G : Prop) : functions_ok -> 2 <= d -> exact_law (box lo hi) d f E G -> approx_law (box lo hi) d f approx1 E True ->
    parts_ok (box lo hi) d f approx1 E True G N (checked zro nc (hqr W zro orth uz)) (checked zro nr (hlq W zro orth uz)) lib_mv (ft_relnorm2diff zt).
  Proof.
    intros (L1 & L2 & L3 & L4 & L5 & L6 & L7 & L8 & L9 & L10 & L11 & L12) Hd He Ha.
    split; [intros ii x Hii Hx; apply (proj1 (L12 x Hx))|]. split; [exact He|].
    split; [eapply xqr_of; [|apply checked_qr; assumption]; intros ii x _ Hx; now apply L12|].
    split; [eapply xlq_of; [|apply checked_lq; assumption]; intros ii x _ Hx; now apply L12|].
    split; [eapply maxvol_law; eauto|]. split; [exact Ha|]. apply relnorm2diff_safe; [exact (inner_lin_r_of W L1 L2)|exact L3|exact Hd|lra].
  Qed.

  (** Exact univariate approximation, spanning index sets, no pivot between 0 and twice
      ZERO and regular pivot matrices: the train returned by the library is the function. *)
  Theorem C73_cross_exact_library f approx1 E ca fw l r ftref fuel ft s' : functions_ok -> 2 <= d ->
    exact_law (box lo hi) d f E True -> approx_law (box lo hi) d f approx1 E True ->
    ca_dim ca = d -> ranks_ok d N (ca_ranks ca) -> start_ok (box lo hi) d f (ca_ranks ca) fw l r -> ft_wf ftref /\ ft_dim ftref = d ->
    spanning (box lo hi) d f (ca_ranks ca) r ->
    lib_cross_checked approx1 fuel fw ca l r ftref = Ok (ft, s') -> cs_full s' = true ->
    lib_cross approx1 fuel fw ca l r ftref = Ok (ft, s') /\ ft_wf ft /\ ft_ranks ft = ca_ranks ca /\
    forall x, length x = d -> inD (box lo hi) 0 x -> train_value (R := Rring) ft x = f x.
  Proof.
    intros Hf Hd He Ha Ed HR HS Hft HG Erun Hfull. split.
    - exact (ref_cross approx1 (checked zro nc (hqr W zro orth uz)) (checked zro nr (hlq W zro orth uz)) (hqr W zro orth uz) (hlq W zro orth uz) lib_mv (ft_relnorm2diff zt)
        (checked_ref zro nc (hqr W zro orth uz)) (checked_ref zro nr (hlq W zro orth uz)) fuel fw ca l r ftref (ft, s') Erun).
    - pose proof (C73_cross_exact (box lo hi) d f approx1 E True True N _ _ _ _ ca fw l r ftref fuel (library_parts f approx1 E True Hf Hd He Ha) Ed HR HS Hft (or_introl I) I HG) as H.
      unfold lib_cross_checked in Erun. rewrite Erun in H. destruct (H Hfull) as (H1 & H2 & _ & H3). auto.
  Qed.
End Library.
Print Assumptions C73_cross_exact_library.
