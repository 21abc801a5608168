(** C38: rank adaptation with the cross approximation, rounding and index sets of the library. *)
From Coq Require Import Reals Lra.
From Verif Require Import Base BaseFacts Fill IdxModel IdxFacts FwrapModel FwrapFacts FTModel FTSpec FTFacts QmaFacts FTInt FTCtor.
From Verif Require Import OrthAbs OrthFacts RoundModel RoundSvd RoundStep RoundRun RoundMono LuFacts PinvModel DistModel CrossModel CrossFacts CrossSteps CrossSweep.
From Verif Require Import Svd2 PropOrth PropRound PropRound2 PropLu PropPinv PropMaxvol PropDist PropAdapt PropCross PropCross2 PropCross3.
Open Scope nat_scope.

(** The state of rank adaptation: the wrapper and the index sets (ft.c 3764-3925). *)
Section Model.
  Context {U : uops Rring} (approx1 : nat -> fwrap R R -> outcome U).
  Context (qr lq : nat -> qma U -> list R -> outcome (qma U * list R)).
  Context (mv : nat -> qma U -> list R -> list nat -> list R -> outcome (list R * list nat * list R * Z * nat)).
  Context (rdiff : ftrain U -> ftrain U -> outcome R) (fuel : nat) (ftref : ftrain U).
  Definition astate : Type := fwrap R R * list iset * list iset.
  Definition cross_st (ca : crossargs) (s : astate) : outcome (ftrain U * astate) :=
    let '(fw, l, r) := s in
    do (ft, s') <- ftapprox_cross approx1 qr lq mv rdiff fuel fw ca l r ftref;
    Ok (ft, (cs_fw s', cs_l s', cs_r s')).
  (** cross_index_copylast(isr[k],n), ft.c 3832 and 3896 *)
  Definition copylast_st (k n : nat) (s : astate) : outcome astate :=
    let '(fw, l, r) := s in
    do c <- aget r k;
    match c with
    | None => UB
    | Some c => do c' <- cross_index_copylast (0%R : R) c n; do r' <- aset r k (Some c'); Ok (fw, l, r')
    end.
End Model.

Section Inv.
  Context (D : nat -> R -> Prop) (d : nat) (f : list R -> R).
  Definition inv_st (ranks : list nat) (s : astate) : Prop :=
    let '(fw, l, r) := s in start_ok D d f ranks fw l r /\ length ranks = d + 1 /\ nth 0 ranks 0 = 1 /\ nth d ranks 0 = 1 /\ forall j, j <= d -> 0 < nth j ranks 0.

  Lemma last_nth {A} (l : list A) e : last l e = nth (length l - 1) l e.
  Proof. induction l as [|a [|b l] IH]; try reflexivity. change (last (a :: b :: l) e) with (last (b :: l) e). rewrite IH. cbn. now rewrite Nat.sub_0_r. Qed.

  Lemma copylast_set off m n k c : iset_ok D off m n (Some c) -> 0 < n -> exists c', cross_index_copylast (0%R : R) c k = Ok c' /\ iset_ok D off m (n + k) (Some c').
  Proof.
    intros (Wf & Hd & Hn & HD) H0. pose proof Wf as [Ln Fn]. eexists. split; [apply copylast_ok; [exact Wf|lia]|].
    assert (HL : In (last (ci_nodes c) []) (ci_nodes c)) by (rewrite last_nth; apply nth_In; lia).
    split; [split; cbn|split; [exact Hd|split; [cbn; lia|]]].
    - rewrite app_length, repeat_length. lia.
    - apply Forall_app. split; [exact Fn|]. apply Forall_forall. intros y Hy. apply repeat_spec in Hy. subst y. rewrite Forall_forall in Fn. now apply Fn.
    - cbn [ci_n node ci_nodes]. intros j Hj. destruct (Nat.lt_ge_cases j (ci_n c)) as [X|X].
      + rewrite app_nth1 by lia. now apply HD.
      + rewrite app_nth2 by lia. rewrite (nth_indep _ _ (last (ci_nodes c) [])) by (rewrite repeat_length; lia). rewrite nth_repeat.
        rewrite last_nth. apply (HD (length (ci_nodes c) - 1)). lia.
  Qed.

  Lemma copy_law_st : copy_law copylast_st inv_st d.
  Proof.
    intros rk [[fw l] r] k n ((Hw & Ll & Lr & HL & HR) & Lk & R0 & Rd & Rp) Hk. unfold copylast_st.
    destruct (HR (k - 1) ltac:(lia)) as [Hs Hn]. replace (k - 1 + 1) with k in Hs by lia.
    assert (Nr : nth_error r (k - 1) = Some (nth (k - 1) r None)) by (apply nth_error_nth'; unfold iset in *; lia).
    rewrite (aget_ok _ _ _ Nr). cbn [obind]. destruct (nth (k - 1) r None) as [c|] eqn:Ec; [|exfalso; apply Hn; [lia|reflexivity]].
    destruct (copylast_set _ _ _ n c Hs ltac:(apply Rp; lia)) as (c' & E & Hc'). rewrite E. cbn [obind]. rewrite aset_ok by (unfold iset in *; lia). cbn [obind].
    eexists. split; [reflexivity|].
    assert (V : forall j, nth j (upd rk k (nth k rk 0 + n)) 0 = if j =? k then nth k rk 0 + n else nth j rk 0) by (intros j; apply nth_upd; lia).
    split; [|split; [now rewrite upd_length|split; [|split]]].
    - split; [exact Hw|]. split; [exact Ll|]. split; [rewrite upd_length; exact Lr|]. split; [exact HL|].
      intros j Hj. rewrite V. unfold iset in *. rewrite nth_updo by lia. destruct (Nat.eqb_spec j (k - 1)) as [->|Hne].
      + replace (k - 1 + 1) with k in * by lia. rewrite Nat.eqb_refl. split; [exact Hc'|discriminate].
      + rewrite (proj2 (Nat.eqb_neq _ _)) by lia. apply HR. exact Hj.
    - rewrite V. rewrite (proj2 (Nat.eqb_neq _ _)) by lia. exact R0.
    - rewrite V. rewrite (proj2 (Nat.eqb_neq _ _)) by lia. exact Rd.
    - intros j Hj. rewrite V. destruct (j =? k); [specialize (Rp k ltac:(lia)); lia|now apply Rp].
  Qed.
End Inv.

Section Adapt.
  Context (D : nat -> R -> Prop) (d : nat) (f : list R -> R) {U : uops Rring} (approx1 : nat -> fwrap R R -> outcome U).
  Context (E : nat -> list R -> list R -> U -> Prop) (F : Prop) (N : nat).
  Context (qr lq : nat -> qma U -> list R -> outcome (qma U * list R)).
  Context (mv : nat -> qma U -> list R -> list nat -> list R -> outcome (list R * list nat * list R * Z * nat)).
  Context (rdiff : ftrain U -> ftrain U -> outcome R) (cfuel : nat) (ftref : ftrain U).

  Definition good_ft (ft : ftrain U) : Prop := ft_wf ft /\ ft_dim ft = d /\ forall j, j <= d -> nth j (ft_ranks ft) 0 <= N.

  (** ranks and limits at most [N] *)
  Definition small (ca : crossargs) : Prop := forall k, inner ca k -> rank ca k <= N /\ limit ca k <= N.

  Lemma cross_law_st ca0 ca : parts_ok D d f approx1 E F False N qr lq mv rdiff -> ft_wf ftref /\ ft_dim ftref = d -> F \/ 1 <= ca_maxiter ca0 <= cfuel ->
    0 < d -> 0 < N -> ca_dim ca0 = d -> small ca0 -> grown ca0 ca ->
    cross_law (cross_st approx1 qr lq mv rdiff cfuel ftref) ft_ranks (inv_st D d f) good_ft F ca.
  Proof.
    intros P Hft Hfu Hd HN Ed Hs Hg [[fw l] r] (HS & Lk & R0 & Rd & Rp). pose proof Hg as (Eca & _ & Gr & Gn).
    assert (RO : ranks_ok d N (ca_ranks ca)).
    { split; [exact Hd|]. split; [exact Lk|]. split; [exact R0|]. split; [exact Rd|]. intros j Hj. split; [now apply Rp|].
      destruct (Nat.eq_dec j 0) as [->|J0]; [rewrite R0; lia|]. destruct (Nat.eq_dec j d) as [->|Jd]; [rewrite Rd; lia|].
      assert (I0 : inner ca0 j) by (unfold inner; lia). specialize (Gr j I0). destruct (Hs j I0). unfold rank in *. lia. }
    assert (Em : ca_maxiter ca = ca_maxiter ca0) by (rewrite Eca; reflexivity). assert (Ed' : ca_dim ca = d) by (rewrite Eca; exact Ed).
    pose proof (C72_cross_interpolates D d f approx1 E F False N qr lq mv rdiff ca fw l r ftref cfuel P Ed' RO HS Hft ltac:(rewrite Em; exact Hfu) ltac:(contradiction)) as H.
    unfold cross_st. destruct (ftapprox_cross _ _ _ _ _ _ _ _ _ _ _) as [[ft s']| | |]; cbn [obind safe] in *; [left|right; left; reflexivity|contradiction|right; right; split; [reflexivity|exact H]].
    destruct H as (Wf & Dm & Rk & HS' & _). eexists _, _. split; [reflexivity|]. split; [|split; [exact Rk|]].
    - split; [exact Wf|]. split; [exact Dm|]. rewrite Rk. intros j Hj. apply RO. exact Hj.
    - split; [exact HS'|auto].
  Qed.

  Lemma good_bounded ft : good_ft ft -> bounded N ft.
  Proof.
    intros (Wf & Dm & Hr) c Hc. apply In_nth_error in Hc as (k & Hk).
    assert (Hk' : k < ft_dim ft). { rewrite (proj1 Wf). apply nth_error_Some. congruence. }
    destruct (wf_core ft k Wf Hk') as (c' & Ec & _ & _ & _ & E1 & E2). rewrite Hk in Ec. injection Ec as <-.
    split; [specialize (Hr k ltac:(lia))|specialize (Hr (S k) ltac:(lia))]; erewrite nth_error_nth in Hr by eassumption; exact Hr.
  Qed.

  (** rounding with exact factorisations never gives larger ranks *)
  Lemma round_law_st (P : (U -> R) -> Prop) svdf rqr rlq fail (K : uctor U) zt epsr :
    (forall g : U, P (fun f => (uinner f g : R))) -> (forall phi, P phi -> linfun (R := Rring) phi) ->
    (forall f g : U, (uinner f g : R) = uinner g f) -> (forall f : U, 0 <= (uinner f f : R))%R -> law_inner_lin_r U ->
    svd_law N fail svdf -> qr_law P N fail rqr -> lq_law P N fail rlq -> 2 <= d -> (0 < epsr)%R -> (0 < zt)%R ->
    round_law (fun ft => ft_round_gen svdf rqr rlq K zt None ft epsr) ft_ranks good_ft.
  Proof.
    intros Pin Plin Sym Pos Llin Hsvd Hqr Hlq Hd He Hz ft Hg. pose proof Hg as (Wf & Dm & Hr). pose proof (good_bounded ft Hg) as HB.
    assert (Lr : length (ft_ranks ft) = d + 1) by (destruct Wf as (L1 & _ & L2 & _); rewrite L2; cbn; rewrite map_length; lia).
    destruct (Rlt_le_dec (sqrt (Rabs (ip ft ft))) zt) as [X|X].
    - left. destruct (round_gen_ok P Pin Plin Sym svdf rqr rlq N fail Hsvd Hqr Hlq K zt Llin None ft epsr Wf ltac:(lia) HB ltac:(discriminate))
        as [[_ E0]|[(H & _)|(H & _)]]; [|unfold ip in X; lra|unfold ip in X; lra].
      rewrite E0. rewrite ft_constant_ok by lia. eexists. split; [reflexivity|]. cbn [ft_ranks tft]. rewrite Dm. split; [rewrite tab_length; lia|].
      intros k. destruct (Nat.le_gt_cases k d) as [Y|Y].
      + unfold tab. assert (Q : nth k (map (fun _ : nat => 1) (seq 0 (d + 1))) 0 <= 1).
        { destruct (Nat.lt_ge_cases k (length (map (fun _ : nat => 1) (seq 0 (d + 1))))) as [Z|Z]; [|rewrite nth_overflow by exact Z; lia].
          apply (nth_In _ 0) in Z. apply in_map_iff in Z as (q & <- & _). lia. }
        assert (0 < nth k (ft_ranks ft) 0); [|lia].
        destruct (Nat.eq_dec k d) as [->|Hne].
        * destruct (wf_core ft (d - 1) Wf ltac:(lia)) as (c & _ & _ & _ & Hp & _ & E2). replace (S (d - 1)) with d in E2 by lia. erewrite nth_error_nth by eassumption. exact Hp.
        * destruct (wf_core ft k Wf ltac:(lia)) as (c & _ & _ & Hp & _ & E1 & _). erewrite nth_error_nth by eassumption. exact Hp.
      + rewrite nth_overflow; [lia|]. rewrite tab_length. lia.
    - destruct (C69_round_exact P svdf rqr rlq N fail K zt None ft epsr Pin Plin Sym Pos Llin Hsvd Hqr Hlq Wf ltac:(lia) HB ltac:(discriminate) He (conj Hz X))
        as [(b & E0 & (Wb & Db & HF & _) & _)|[E0 _]]; [left|right; exact E0].
      exists b. split; [exact E0|]. split; [clear -HF; induction HF; cbn; lia|].
      intros k. clear -HF. revert k. induction HF as [|x y l l' H _ IH]; intros [|k]; cbn; try lia. apply IH.
  Qed.
End Adapt.

(** ** Runs with the factorisations themselves *)
Lemma ref_adapt {FT St} w (crossf crossf' : crossargs -> St -> outcome (FT * St)) (roundf roundf' : FT -> outcome FT) ranks_of copylast :
  (forall ca s, ref (crossf ca s) (crossf' ca s)) -> (forall ft, ref (roundf ft) (roundf' ft)) ->
  forall fuel ca s, ref (ftapprox_cross_rankadapt w crossf roundf ranks_of copylast fuel ca s) (ftapprox_cross_rankadapt w crossf' roundf' ranks_of copylast fuel ca s).
Proof.
  intros Hc Hr fuel ca s. unfold ftapprox_cross_rankadapt.
  assert (L : forall fuel ca found ad ftr s, ref (adapt_loop w crossf roundf ranks_of copylast fuel ca found ad ftr s) (adapt_loop w crossf' roundf' ranks_of copylast fuel ca found ad ftr s)).
  { clear fuel ca s. induction fuel as [|fuel IH]; intros ca found [|] ftr s; cbn [adapt_loop]; try apply ref_refl.
    apply ref_bind; [apply Hc|intros [ft s1]]. apply ref_bind; [apply Hr|intros f1]. apply ref_bind; [apply ref_refl|intros [[[ca' found'] ad'] s2]]. apply IH. }
  apply ref_bind; [apply Hc|intros [ft s1]]. destruct (negb _); [apply ref_refl|]. apply ref_bind; [apply ref_refl|intros found].
  apply ref_bind; [apply Hr|intros f1]. apply ref_bind; [apply ref_refl|intros [[[ca' found'] ad'] s2]]. apply L.
Qed.

Section Library.
  Context (w : nat) (svdf : nat -> nat -> list R -> outcome (list R * list R * list R)).
  Context {U : uops Rring} (W : vops U) (zro zt : R) (orth : nat -> nat -> list U) (uz : U) (K : uctor U).
  Context (absmax1 : U -> R * R) (nodal : U -> bool).
  Context (onezero2 : list R -> U) (uone : U) (zpoly : list R -> U) (lb ub : U -> R) (lo hi : R) (mvfuel cfuel N d : nat) (epsr : R).
  Context (f : list R -> R) (approx1 : nat -> fwrap R R -> outcome U) (ftref : ftrain U).

  Definition lib_adapt (qr lq : nat -> qma U -> list R -> outcome (qma U * list R)) :=
    ftapprox_cross_rankadapt w
      (cross_st approx1 qr lq (lib_mv svdf W zt absmax1 nodal onezero2 uone zpoly lb ub mvfuel) (ft_relnorm2diff zt) cfuel ftref)
      (fun ft => ft_round_gen svdf qr lq K zt None ft epsr) ft_ranks copylast_st.

  (** Rank adaptation with the parts of the library.  The run with factorisations that stop
      at pivots between 0 and twice ZERO stops the program, does not end in a search for
      pivots, or ends after at most [gap ca] rounds with ranks within the limits, each cut
      by the rounding or at its limit; if it returns, so does the library, with the same. *)
  Theorem C38_rankadapt_library E ca fw l r fuel : functions_ok svdf W zro zt orth uz absmax1 nodal onezero2 zpoly lb ub lo hi N -> 2 <= d -> 0 < N -> (0 < epsr)%R ->
    approx_law (box lo hi) d f approx1 E True -> ft_wf ftref /\ ft_dim ftref = d ->
    ca_dim ca = d -> shaped ca -> fits w ca -> 1 <= ca_kick ca -> small N ca -> inv_st (box lo hi) d f (ca_ranks ca) (fw, l, r) -> gap ca <= fuel ->
    let run := lib_adapt (checked zro nc (hqr W zro orth uz)) (checked zro nr (hlq W zro orth uz)) fuel ca (fw, l, r) in
    run = Abort \/ run = OutOfFuel \/ exists ft ca' s', run = Ok (ft, ca', s') /\
      lib_adapt (hqr W zro orth uz) (hlq W zro orth uz) fuel ca (fw, l, r) = Ok (ft, ca', s') /\
      grown ca ca' /\ inv_st (box lo hi) d f (ca_ranks ca') s' /\
      (forall k, nth k (ft_ranks ft) 0 <= rank ca' k) /\ (ca_adapt ca = true -> settled ft_ranks ca' ft).
  Proof.
    intros Hf Hd HN He Ha Hft Ed Sh Fi Hk Hs HI Hfu run.
    pose proof Hf as (L1 & L2 & L3 & L4 & L5 & L6 & L7 & L8 & L9 & L10 & L11 & L12). pose proof L1 as (Sy & _ & Po).
    assert (Hparts : parts_ok (box lo hi) d f approx1 E True False N (checked zro nc (hqr W zro orth uz)) (checked zro nr (hlq W zro orth uz))
        (lib_mv svdf W zt absmax1 nodal onezero2 uone zpoly lb ub mvfuel) (ft_relnorm2diff zt)).
    { apply library_parts; auto. intros []. }
    destruct (C38_rankadapt_partial w _ (fun ft => ft_round_gen svdf (checked zro nc (hqr W zro orth uz)) (checked zro nr (hlq W zro orth uz)) K zt None ft epsr) ft_ranks copylast_st
      (inv_st (box lo hi) d f) (good_ft d N) True ca (fw, l, r) fuel Sh Fi Hk ltac:(rewrite Ed; apply copy_law_st)
      (round_law_st d N (good W) svdf _ _ True K zt epsr (fun g => good_inner W L1 L2 g) (fun phi Hphi => proj1 Hphi) (fun a b => Sy a b) (fun a => Po a)
         (inner_lin_r_of W L1 L2) L6 (checked_qr W zro orth uz N L1 L4 L5) (checked_lq W zro orth uz N L1 L4 L5) Hd He L7)
      (fun ca' Hg => cross_law_st (box lo hi) d f approx1 E True N _ _ _ _ cfuel ftref ca ca' Hparts Hft (or_introl I) ltac:(lia) HN Ed Hs Hg) HI Hfu)
      as [[H|[H _]]|(ft & ca' & s' & H & G1 & G2 & G3 & G4)]; [left; exact H|right; left; exact H|right; right].
    exists ft, ca', s'. split; [exact H|]. split; [|auto].
    refine (ref_adapt w _ _ _ _ ft_ranks copylast_st _ _ fuel ca (fw, l, r) (ft, ca', s') H).
    - intros c [[fw0 l0] r0]. unfold cross_st. apply ref_bind; [|intros; apply ref_refl]. apply ref_cross; intros; apply checked_ref.
    - intros ft0. apply ref_round; intros; apply checked_ref.
  Qed.
End Library.
Print Assumptions C38_rankadapt_library.

(** ** The hypotheses hold: (1 + x) (2 + y) from rank 1 with limit 2 *)
Definition aargs : crossargs := mkca 2 [1; 1; 1] (1 / 10)%R 1 true 1 [2].
Definition line_adapt := lib_adapt 100 svd2 lineV (1 / 10) lineK line_absmax (fun _ => false) (fun _ => (0, 0)%R) (1, 0)%R line_zpoly (fun _ => 0%R) (fun _ => 1%R) 5 5 (1 / 10)
  line_approx xref.
Example C38_library_example :
  let run := line_adapt (checked z0 nc (hqr lineV z0 lorth zline)) (checked z0 nr (hlq lineV z0 lorth zline)) 1 aargs (xw, [None; None], xr) in
  run = Abort \/ run = OutOfFuel \/ exists ft ca' s', run = Ok (ft, ca', s') /\
    line_adapt (hqr lineV z0 lorth zline) (hlq lineV z0 lorth zline) 1 aargs (xw, [None; None], xr) = Ok (ft, ca', s') /\
    (forall k, nth k (ft_ranks ft) 0 <= rank ca' k) /\ settled ft_ranks ca' ft /\ rank ca' 1 <= 2.
Proof.
  destruct xstart as (X1 & X2 & _).
  destruct (C38_rankadapt_library 100 svd2 lineV z0 (1 / 10) lorth zline lineK line_absmax (fun _ => false) (fun _ => (0, 0)%R) (1, 0)%R line_zpoly (fun _ => 0%R) (fun _ => 1%R) 0 1 5 5 2 2 (1 / 10)
    xf line_approx xref (at_ends xf) aargs xw [None; None] xr 1 line_functions_ok) as [H|[H|(ft & ca' & s' & H1 & H2 & H3 & _ & H5 & H6)]]; try lia; try lra.
  - apply line_approx_law.
  - split; [exact xref_wf|reflexivity].
  - reflexivity.
  - split; [cbn; lia|]. split; reflexivity.
  - intros k [Hk1 Hk2]. cbn in Hk2. assert (k = 1) as -> by lia. cbn. lia.
  - cbn. lia.
  - intros k [Hk1 Hk2]. cbn in Hk2. assert (k = 1) as -> by lia. cbn. lia.
  - split; [exact X2|]. split; [reflexivity|]. split; [reflexivity|]. split; [reflexivity|]. intros [|[|[|j]]] Hj; cbn; lia.
  - cbn. lia.
  - left. exact H.
  - right; left. exact H.
  - right; right. exists ft, ca', s'. split; [exact H1|]. split; [exact H2|]. split; [exact H5|]. split; [apply H6; reflexivity|].
    destruct H3 as (_ & _ & G & _). specialize (G 1). assert (I1 : inner aargs 1) by (split; cbn; lia). specialize (G I1). unfold rank, limit in *. cbn in G. lia.
Qed.
