(** C107: the weighted integral of a function train over some of its variables. *)
From Verif Require Import FTSubModel FTSubFacts Instances PolyInst PropFT.
From Coq Require Import Sorted ZArith.
From Coq Require Qcanon.

Section Spec.
  Context {R : CRing} {U : uops R}.

  Definition mem (dims : list nat) (k : nat) : bool := existsb (Nat.eqb k) dims.

  (** The coordinates of [x] in the variables that are not named. *)
  Definition others (dims : list nat) (x : list R) : list R :=
    map (fun k => nth k x r0) (filter (fun k => negb (mem dims k)) (seq 0 (length x))).

  (** Sum over rank paths of the product of the univariate integrals of the named
      variables and of the univariate values of the other ones. *)
  Definition partial_integral (f : ftrain U) (dims : list nat) (x : list R) : R :=
    tsum (map (fun k (u : U) => if mem dims k then uint u else uev u (nth k x r0)) (seq 0 (length x)))
         (terms (ft_cores f) 0).
End Spec.

Lemma mem_spec dims k : mem dims k = true <-> In k dims.
Proof.
  unfold mem. rewrite existsb_exists. split.
  - intros (j & I & E). apply Nat.eqb_eq in E. now subst j.
  - intros I. exists k. split; auto. apply Nat.eqb_refl.
Qed.

Lemma sorted_filter : forall c s l, StronglySorted lt l -> Forall (fun k => s <= k < s + c) l -> filter (mem l) (seq s c) = l.
Proof.
  induction c as [|c IH]; intros s l HS HF.
  - destruct l as [|a l]; auto. inversion HF; lia.
  - cbn [seq filter]. destruct l as [|a l].
    + simpl. apply (IH (S s) []); constructor.
    + inversion HS as [|? ? HS' Hlt]; subst. inversion HF as [|? ? Ha HF']; subst. rewrite Forall_forall in Hlt, HF'.
      destruct (Nat.eq_dec a s) as [->|Hne].
      * rewrite (proj2 (mem_spec (s :: l) s)) by (left; auto). f_equal.
        rewrite (filter_ext_in (mem (s :: l)) (mem l)).
        -- apply IH; auto. apply Forall_forall. intros k Hk. specialize (Hlt k Hk). specialize (HF' k Hk). lia.
        -- intros k Hk. apply in_seq in Hk. unfold mem. simpl. destruct (Nat.eqb_spec k s); [lia|reflexivity].
      * destruct (mem (a :: l) s) eqn:E.
        -- apply mem_spec in E as [->|E]; [congruence|]. specialize (Hlt s E). lia.
        -- apply (IH (S s) (a :: l)); auto. constructor; [lia|]. apply Forall_forall. intros k Hk. specialize (Hlt k Hk). specialize (HF' k Hk). lia.
Qed.

Lemma filter_both {A} (p : A -> bool) l : length (filter p l) + length (filter (fun k => negb (p k)) l) = length l.
Proof. induction l as [|a l IH]; simpl; auto. destruct (p a); simpl; lia. Qed.

(** The variables are given in increasing order, at least one and not all. *)
Definition proper (n : nat) (dims : list nat) : Prop :=
  StronglySorted lt dims /\ Forall (fun k => k < n) dims /\ 0 < length dims < n.

Section Main.
  Context {R : CRing} {U : uops R}.
  Open Scope cr_scope.
  Variable f : ftrain U.
  Variable dims : list nat.
  Hypothesis Wf : ft_wf f.
  Hypothesis Hd : proper (ft_dim f) dims.

  Lemma core_lemma : exists g, ft_integrate_subset f dims = Ok g /\ ft_dim g = ft_dim f - length dims /\ ft_wf g /\
    forall h : nat -> U -> R, (forall k, mem dims k = true -> h k = uint (u := U)) -> (forall k, mem dims k = false -> linfun (h k)) ->
      tsum (map h (filter (fun k => negb (mem dims k)) (seq 0 (ft_dim f)))) (terms (ft_cores g) 0)
      = tsum (map h (seq 0 (ft_dim f))) (terms (ft_cores f) 0).
  Proof.
    destruct Hd as (HS & HF & HL).
    assert (E : filter (mem dims) (seq 0 (ft_dim f)) = dims).
    { apply sorted_filter; auto. eapply Forall_impl; [|exact HF]. simpl. intros; lia. }
    destruct (ft_integrate_subset_ok f (mem dims) Wf) as (g & A & B & C & D); [now rewrite E|].
    rewrite E in A, B. exists g. repeat (split; auto).
  Qed.
End Main.

Theorem C107_partial_integral :
  forall (R : CRing) (U : uops R) (f : ftrain U) (dims : list nat),
  law_ev_lin U -> ft_wf f -> proper (ft_dim f) dims ->
  exists g, ft_integrate_subset f dims = Ok g /\ ft_wf g /\ ft_dim g = ft_dim f - length dims /\
    forall x, length x = ft_dim f ->
      length (others dims x) = ft_dim g /\ train_value g (others dims x) = partial_integral f dims x.
Proof.
  intros R U f dims Hev Wf Hd. destruct (core_lemma f dims Wf Hd) as (g & A & B & C & D).
  exists g. split; auto. split; auto. split; auto. intros x Hx.
  assert (T : train_value g (others dims x) = partial_integral f dims x).
  { unfold train_value, others, partial_integral. rewrite Hx, map_map.
    rewrite <- (D (fun k u => if mem dims k then uint u else uev u (nth k x r0))).
    - f_equal. apply map_ext_in. intros k Hk. apply filter_In in Hk as (_ & Hk). now destruct (mem dims k).
    - intros k ->. reflexivity.
    - intros k ->. apply Hev. }
  split; auto. unfold others. rewrite map_length, Hx, B. destruct Hd as (HS & HF & HL).
  assert (E : filter (mem dims) (seq 0 (ft_dim f)) = dims).
  { apply sorted_filter; auto. eapply Forall_impl; [|exact HF]. simpl. intros; lia. }
  pose proof (filter_both (mem dims) (seq 0 (ft_dim f))) as P. rewrite E, seq_length in P. lia.
Qed.
Print Assumptions C107_partial_integral.

(** Integrating what is left gives the integral of the train. *)
Theorem C107_rest :
  forall (R : CRing) (U : uops R) (f : ftrain U) (dims : list nat),
  law_int_lin U -> ft_wf f -> proper (ft_dim f) dims ->
  exists g, ft_integrate_subset f dims = Ok g /\ train_integral g = train_integral f.
Proof.
  intros R U f dims Hint Wf Hd. destruct (core_lemma f dims Wf Hd) as (g & A & B & C & D).
  exists g. split; auto. unfold train_integral.
  specialize (D (fun _ => uint (u := U)) ltac:(auto) ltac:(auto)).
  assert (M : forall (T : Type) (l : list T) (l' : list nat), length l = length l' ->
     map (fun _ (u : U) => uint u) l = map (fun _ => uint (u := U)) l').
  { intros T. induction l as [|a l IH]; intros [|b l'] E; try discriminate; simpl; auto. f_equal. apply IH. simpl in E. lia. }
  rewrite (M _ (ft_cores g) (filter (fun k => negb (mem dims k)) (seq 0 (ft_dim f)))).
  - rewrite (M _ (ft_cores f) (seq 0 (ft_dim f))); auto. rewrite seq_length. symmetry. apply Wf.
  - destruct Hd as (HS & HF & HL).
    assert (E : filter (mem dims) (seq 0 (ft_dim f)) = dims).
    { apply sorted_filter; auto. eapply Forall_impl; [|exact HF]. simpl. intros; lia. }
    pose proof (filter_both (mem dims) (seq 0 (ft_dim f))) as P. rewrite E, seq_length in P.
    destruct C as (C & _). lia.
Qed.
Print Assumptions C107_rest.

(** No variable: the code reads the first entry of the empty list.  All variables: it stops. *)
Theorem C107_none_refuted :
  forall (R : CRing) (U : uops R) (f : ftrain U), ft_wf f -> ft_integrate_subset f [] = UB.
Proof.
  intros R U f (_ & Hp & _). unfold ft_integrate_subset. cbn [length]. rewrite Nat.sub_0_r.
  destruct (Nat.ltb_spec (ft_dim f) 0); [lia|]. unfold cassert. destruct (Nat.ltb_spec 0 (ft_dim f)); [|lia]. reflexivity.
Qed.
Print Assumptions C107_none_refuted.

Theorem C107_all_aborts :
  forall (R : CRing) (U : uops R) (f : ftrain U) (dims : list nat),
  length dims = ft_dim f -> ft_integrate_subset f dims = Abort.
Proof.
  intros R U f dims E. unfold ft_integrate_subset. rewrite E, Nat.ltb_irrefl, Nat.sub_diag. reflexivity.
Qed.
Print Assumptions C107_all_aborts.

Example C107_example_proper : proper 3 [0; 2].
Proof. repeat split; simpl; repeat constructor; lia. Qed.
Example C107_example : ft_dim exA = 3 /\ ft_wf exA /\
  exists g, ft_integrate_subset exA [0; 2] = Ok g /\ ft_dim g = 1 /\ train_value g [qc 3] = partial_integral exA [0; 2] [qc 2; qc 3; qc 5].
Proof.
  split; [reflexivity|]. split; [exact exA_wf|].
  destruct (C107_partial_integral _ _ exA [0; 2] polyU_ev_lin exA_wf C107_example_proper) as (g & A & _ & B & C).
  exists g. split; auto. split; auto. apply (C [qc 2; qc 3; qc 5] eq_refl).
Qed.
Example C107_example_unordered : ft_integrate_subset exA [1; 0] = UB.
Proof. vm_compute. reflexivity. Qed.
Example C107_example_rest : exists g, ft_integrate_subset exA [0; 2] = Ok g /\ train_integral g = train_integral exA.
Proof. exact (C107_rest _ _ exA [0; 2] polyU_int_lin exA_wf C107_example_proper). Qed.
Example C107_example_value : partial_integral exA [0; 2] [qc 2; qc 3; qc 5] <> qc 0.
Proof. intros E. apply (f_equal Qcanon.this) in E. vm_compute in E. discriminate. Qed.
