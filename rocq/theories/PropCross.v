(** C72, C73: cross approximation with given ranks. *)
From Coq Require Import Reals Lra.
From Verif Require Import Base BaseFacts Fill IdxModel IdxFacts FwrapModel FwrapFacts FTModel FTSpec FTFacts QmaFacts FTInt.
From Verif Require Import OrthAbs OrthFacts RoundModel RoundSvd RoundStep RoundRun RoundMono LuFacts PinvModel DistModel CrossModel CrossFacts CrossSteps CrossSweep.
From Verif Require Import PropOrth PropRound PropLu PropPinv PropMaxvol PropDist.
Open Scope nat_scope.

(** ** Specification *)
Section Spec.
  Context (D : nat -> R -> Prop) (d : nat) (f : list R -> R).
  (** Ranks of a train in [d] variables, at most [N]. *)
  Definition ranks_ok (N : nat) (ranks : list nat) : Prop :=
    0 < d /\ length ranks = d + 1 /\ nth 0 ranks 0 = 1 /\ nth d ranks 0 = 1 /\ forall j, j <= d -> 0 < nth j ranks 0 <= N.
  (** What is passed in: a wrapper of [f], and index sets.  Right index set [j] has at least
      r_{j+1} entries, in the domain of the variables after variable [j]; the first left
      index set has an empty entry or is NULL, as may be the last right one. *)
  Definition start_ok (ranks : list nat) (fw : fwrap R R) (l r : list iset) : Prop :=
    wraps d f fw /\ length l = d /\ length r = d /\ iset_ok D 0 0 1 (nth 0 l None) /\
    forall j, j < d -> iset_ok D (j + 1) (d - 1 - j) (nth (j + 1) ranks 0) (nth j r None) /\ (j < d - 1 -> nth j r None <> None).
  (** The right index sets span: [f] with the last variables fixed anywhere is a combination
      of [f] with the last variables fixed at the entries. *)
  Definition spanning (ranks : list nat) (r : list iset) : Prop :=
    forall j, j < d -> forall y, length y = d - 1 - j -> inD D (j + 1) y ->
      exists c, forall p, length p = j + 1 -> inD D 0 p ->
        f (p ++ y) = rsum (nth (j + 1) ranks 0) (fun b => c b * f (p ++ node (nth j r None) b))%R.
End Spec.

Section C72.
  Context (D : nat -> R -> Prop) (d : nat) (f : list R -> R) {U : uops Rring} (approx1 : nat -> fwrap R R -> outcome U).
  Context (E : nat -> list R -> list R -> U -> Prop) (F G : Prop) (N : nat).
  Context (qr lq : nat -> qma U -> list R -> outcome (qma U * list R)).
  Context (mv : nat -> qma U -> list R -> list nat -> list R -> outcome (list R * list nat * list R * Z * nat)).
  Context (rdiff : ftrain U -> ftrain U -> outcome R).

  (** What is assumed of the parts (CrossFacts, CrossSteps). *)
  Definition parts_ok : Prop := lin_law D d (U := U) /\ exact_law D d f E G /\ xqr_law D d F G N qr /\ xlq_law D d F G N lq /\
    mv_law D d F N mv /\ approx_law D d f approx1 E F /\
    (forall a b : ftrain U, ft_wf a /\ ft_dim a = d -> ft_wf b /\ ft_dim b = d -> safe F (fun _ => True) (rdiff a b)).

  (** the train found, the state at the end *)
  Lemma cross_run ca fw l r ftref fuel : parts_ok -> ca_dim ca = d -> ranks_ok d N (ca_ranks ca) -> start_ok D d f (ca_ranks ca) fw l r ->
    ft_wf ftref /\ ft_dim ftref = d -> F \/ 1 <= ca_maxiter ca <= fuel -> (G -> spanning D d f (ca_ranks ca) r) ->
    safe F (fun st => let '(ft, s') := st in done D d f E G (ca_ranks ca) s' /\ exists cs, freeze (cs_cores s') = Ok cs /\ ft = mkft d (ca_ranks ca) cs)
      (ftapprox_cross approx1 qr lq mv rdiff fuel fw ca l r ftref).
  Proof.
    intros (H1 & H2 & H3 & H4 & H5 & H6 & H7) Ed (Hd & Lr & R0 & Rd & Rj) (Hw & Ll & Lrr & HL & HR) Hft Hfu HG.
    unfold ftapprox_cross. rewrite Ed.
    eapply (cross_loop_ok D d f approx1 E F G N qr lq mv H1 H2 H3 H4 H5 H6 (ca_ranks ca) Lr Hd Rj R0 Rd rdiff H7 ca Ed eq_refl); [destruct Hfu; [now left|right; lia]|exact Hft|discriminate|].
    split; [split; [exact Hw|]; cbn; rewrite !repeat_length; auto|]. split; [split; [cbn; rewrite R0; exact HL|lia]|]. split; [intros j Hj; exact (HR j Hj)|].
    intros g _ j Hj. exact (HG g j Hj).
  Qed.

  (** Cross approximation with given ranks does not read or write outside its arrays, and
      when it returns, returns a train with these ranks; the index sets are again such that
      it may be called with them.  If the pivot matrices of the last right-left sweep are
      regular, then the train agrees along the first variable with the univariate
      approximations of the fibers through the entries of the first right index set. *)
  Theorem C72_cross_interpolates ca fw l r ftref fuel : parts_ok -> ca_dim ca = d -> ranks_ok d N (ca_ranks ca) -> start_ok D d f (ca_ranks ca) fw l r ->
    ft_wf ftref /\ ft_dim ftref = d -> F \/ 1 <= ca_maxiter ca <= fuel -> (G -> spanning D d f (ca_ranks ca) r) ->
    safe F (fun st => let '(ft, s') := st in
        ft_wf ft /\ ft_dim ft = d /\ ft_ranks ft = ca_ranks ca /\ start_ok D d f (ca_ranks ca) (cs_fw s') (cs_l s') (cs_r s') /\
        ((forall j, 1 <= j < d -> nth j (cs_rrk s') 0 = nth j (ca_ranks ca) 0) ->
         forall k, k < nth 1 (ca_ranks ca) 0 ->
           length (node (nth 0 (cs_r s') None) k) = d - 1 /\ inD D 1 (node (nth 0 (cs_r s') None) k) /\
           exists u, E 0 [] (node (nth 0 (cs_r s') None) k) u /\
             forall x : R, train_value (R := Rring) ft (x :: node (nth 0 (cs_r s') None) k) = uev u (x : Rring)))
      (ftapprox_cross approx1 qr lq mv rdiff fuel fw ca l r ftref).
  Proof.
    intros P Ed HR HS Hft Hfu HG. pose proof P as (H1 & H2 & H3 & H4 & H5 & H6 & H7). pose proof HR as (Hd & Lr & R0 & Rd & Rj).
    eapply safe_imp; [now apply cross_run|]. intros [ft s'] (Hdone & cs & Ecs & ->).
    destruct (done_cores D d f E G N (ca_ranks ca) Lr Hd Rj R0 Rd s' Hdone) as (cs' & Ecs' & Lcs & HC & Wf). assert (cs' = cs) as -> by congruence.
    split; [exact Wf|]. split; [reflexivity|]. split; [reflexivity|]. split.
    - destruct Hdone as (((Hw & B1 & B2 & _) & KL & KR & _) & _). split; [exact Hw|]. split; [exact B1|]. split; [exact B2|]. split; [|exact KR].
      destruct (KL 0 Hd) as [X _]. rewrite R0 in X. exact X.
    - intros HK k Hk. split; [|split].
      + destruct Hdone as ((_ & _ & KR & _) & _). destruct (KR 0 Hd) as [Or _]. destruct (node_value_ok D _ _ _ _ k Or Hk) as (_ & Ln & _). lia.
      + destruct Hdone as ((_ & _ & KR & _) & _). destruct (KR 0 Hd) as [Or _]. destruct (node_value_ok D _ _ _ _ k Or Hk) as (_ & _ & Dn). exact Dn.
      + eapply (interp_train D d f E G); eauto.
  Qed.

  (** If approximation and factorisations are exact, the right index sets passed in span and
      all pivot matrices met are regular, then the train is the function. *)
  Theorem C73_cross_exact ca fw l r ftref fuel : parts_ok -> ca_dim ca = d -> ranks_ok d N (ca_ranks ca) -> start_ok D d f (ca_ranks ca) fw l r ->
    ft_wf ftref /\ ft_dim ftref = d -> F \/ 1 <= ca_maxiter ca <= fuel -> G -> spanning D d f (ca_ranks ca) r ->
    safe F (fun st => let '(ft, s') := st in cs_full s' = true ->
        ft_wf ft /\ ft_ranks ft = ca_ranks ca /\ spanning D d f (ca_ranks ca) (cs_r s') /\
        forall x, length x = d -> inD D 0 x -> train_value (R := Rring) ft x = f x)
      (ftapprox_cross approx1 qr lq mv rdiff fuel fw ca l r ftref).
  Proof.
    intros P Ed HR HS Hft Hfu g HG. pose proof P as (H1 & H2 & H3 & H4 & H5 & H6 & H7). pose proof HR as (Hd & Lr & R0 & Rd & Rj).
    eapply safe_imp; [now apply cross_run|]. intros [ft s'] (Hdone & cs & Ecs & ->) Hfull.
    destruct (done_cores D d f E G N (ca_ranks ca) Lr Hd Rj R0 Rd s' Hdone) as (cs' & Ecs' & Lcs & HC & Wf). assert (cs' = cs) as -> by congruence.
    split; [exact Wf|]. split; [reflexivity|]. split.
    - destruct Hdone as ((_ & _ & _ & _ & _ & KS) & _). destruct (KS g Hfull) as (SR & _). exact SR.
    - intros x Lx Dx. eapply (exact_train D d f E G); eauto.
  Qed.
End C72.
Print Assumptions C72_cross_interpolates.
Print Assumptions C73_cross_exact.
