(** Properties C63 and C64: the value and the gradient with respect to the
    parameters of a function train. *)
From Verif Require Import PGradApp ParamBad PropParam FTRealDeriv Instances RealInst.
From Coq Require Import Reals Lra ZArith.
Open Scope nat_scope.

(** The numbers are neither NaN nor infinite. *)
Definition nobad {A} (_ : A) : bool := false.

Section Common.
  Context {R : CRing} {F : Type}.
  Open Scope cr_scope.
  Add Ring Rr32 : (rth R).
  Notation G := (gfn R F).

  Lemma update_is_with (f : ftrain G) p : ft_ok f -> length (train_params f) <= length p ->
    ft_update nobad r0 f p = Ok (length (train_params f), ft_with f p).
  Proof.
    intros O L. rewrite train_params_length in * by auto. apply ft_update_ok; auto.
  Qed.

  Lemma gf_update_is_with (u : G) p : gf_wf u -> length p = length (gf_params u) ->
    gf_update nobad r0 u (length (gf_params u)) p 0 = Ok (gf_with u p).
  Proof.
    intros W L. rewrite gf_params_length in * by auto. rewrite gf_update_ok; auto; try (cbn; lia).
    cbn [skipn]. rewrite firstn_all2 by lia. reflexivity.
  Qed.

  Lemma npu_length (ftp : ftparam R G) : ftp_ok ftp ->
    length (fp_npu ftp) = length (flat_map fs (ft_cores (fp_ft ftp))).
  Proof. intros (_ & _ & _ & E & _). rewrite E. apply map_length. Qed.

  (** The functions are linear in their parameters: [bas u y] are the values at
      [y] of the basis of [u], which do not depend on the parameters. *)
  Definition linear_in_params (ev : G -> R -> R) (bas : G -> R -> list R) : Prop :=
    (forall u y, gf_wf u -> length (bas u y) = length (gf_params u) /\
       ev u y = sum (length (gf_params u)) (fun l => nth l (gf_params u) r0 *! nth l (bas u y) r0)) /\
    (forall u v y, gf_wf u -> gf_wf v -> gf_rest u = gf_rest v -> bas u y = bas v y).

  (** The gradient [grad'] describes exactly how the value of the train depends
      on each single parameter; the rest of the buffer is untouched. *)
  Definition exact_gradient (z : G) (ev : G -> R -> R) (ftp : ftparam R (evU z ev)) x (grad grad' : list R) : Prop :=
    length grad' = length grad /\
    (forall n, fp_nparams ftp <= n -> nth_error grad' n = nth_error grad n) /\
    (forall n v, nth_error (fp_params ftp) n = Some v ->
      exists g, nth_error grad' n = Some g /\
        forall t, exists f' : ftrain (evU z ev),
          ft_update nobad r0 (fp_ft ftp) (upd (fp_params ftp) n t) = Ok (fp_nparams ftp, f') /\
          train_value f' x = train_value (fp_ft ftp) x +! (t -! v) *! g).

  Lemma linear_gradient z ev bas (ftp : ftparam R (evU z ev)) x grad grad' :
    linear_in_params ev bas -> ftp_ok ftp ->
    grad_is z ev ftp x grad grad' bas -> exact_gradient z ev ftp x grad grad'.
  Proof.
    intros [L1 L2] O (H1 & H2 & H3). split; [exact H1|]. split; [exact H2|].
    intros n v Hn. destruct (H3 n v Hn) as (w & k & u & l & Hk & Iu & Wu & Ev & Eg & Ht).
    eexists. split; [exact Eg|]. intros t.
    assert (Hl : l < length (gf_params u)) by (apply nth_error_Some; congruence).
    assert (EN : fp_nparams ftp = length (train_params (fp_ft ftp))) by apply O.
    assert (EP : fp_params ftp = train_params (fp_ft ftp)) by apply O.
    eexists. split.
    - rewrite EN. apply update_is_with; [apply O|]. rewrite upd_length, EP. lia.
    - etransitivity; [exact (Ht t)|]. f_equal.
      set (u' := gf_with u (upd (gf_params u) l t)). set (y := nth k x r0).
      destruct (gf_with_spec u (upd (gf_params u) l t) Wu) as (W' & P' & R').
      { rewrite upd_length. now apply gf_params_length. }
      fold u' in W', P', R'.
      destruct (L1 u y Wu) as [La Ea]. destruct (L1 u' y W') as [_ Eb]. rewrite Ea, Eb.
      rewrite P', upd_length, (L2 u' u y W' Wu R').
      enough (E : sum (length (gf_params u)) (fun i => nth i (upd (gf_params u) l t) r0 *! nth i (bas u y) r0)
              = sum (length (gf_params u)) (fun i => nth i (gf_params u) r0 *! nth i (bas u y) r0)
                +! (t -! v) *! nth l (bas u y) r0) by (rewrite E; ring).
      transitivity (sum (length (gf_params u)) (fun i => nth i (gf_params u) r0 *! nth i (bas u y) r0
         +! (if i =? l then (t -! v) *! nth l (bas u y) r0 else r0))).
      + apply sum_ext. intros i Hi. destruct (Nat.eqb_spec i l) as [->|Ne].
        * rewrite (nth_error_nth _ _ _ Ev), (nth_error_nth _ _ r0 (nth_error_upd_same _ _ _ Hl)). ring.
        * rewrite (nth_error_nth (upd (gf_params u) l t) i r0 (x := nth i (gf_params u) r0)); [ring|].
          rewrite nth_error_upd_other by auto. now apply nth_error_nth'.
      + rewrite sum_add. f_equal. rewrite (sum_single _ _ _ l); auto.
        * now rewrite Nat.eqb_refl.
        * intros i Hi Ne. destruct (Nat.eqb_spec i l); congruence.
  Qed.

  (** C63, functions that are linear in their parameters *)
  Theorem C63_gradeval_linear : forall (z : G) ev bas (ftp : ftparam R (evU z ev)) x grad ge mem evals,
    linear_in_params ev bas -> ftp_ok ftp -> 2 <= fp_dim ftp -> length x = fp_dim ftp ->
    fp_nparams ftp <= length grad -> fp_nparams ftp <= length ge ->
    length (fp_npu ftp) <= length mem -> length (fp_npu ftp) <= length evals ->
    exists grad' ge' mem' evals',
      ftp_gradeval (fun u y => (ev u y, bas u y)) ftp x grad ge mem evals
      = Ok (train_value (fp_ft ftp) x, grad', mem', evals', ge') /\
      exact_gradient z ev ftp x grad grad'.
  Proof.
    intros z ev bas ftp x grad ge mem evals HL O D Lx Lg Lge Lm Le.
    assert (Dd : fp_dim ftp = ft_dim (fp_ft ftp)) by apply O.
    assert (Ln : length (fp_npu ftp) = length (flat_map fs (ft_cores (fp_ft ftp)))).
    { exact (npu_length ftp O). }
    destruct (gradeval_ok z ev ftp O x (eq_trans Lx Dd) (fun u y => (ev u y, bas u y)) grad ge mem evals)
      as (grad' & ge' & mem' & ev' & E & H); try lia.
    { intros u y W. split; [reflexivity|]. now apply HL. }
    exists grad', ge', mem', ev'. split; [exact E|]. eapply linear_gradient; eauto.
  Qed.

  (** C64: values of the basis functions computed beforehand *)
  Theorem C64_gradeval_lin : forall (z : G) ev bas (ftp : ftparam R (evU z ev)) x grad ge mem evals,
    linear_in_params ev bas -> ftp_ok ftp -> 2 <= fp_dim ftp -> length x = fp_dim ftp ->
    firstn (fp_nparams ftp) ge = concat (basis_blocks bas (ft_cores (fp_ft ftp)) x) ->
    fp_nparams ftp <= length grad ->
    length (fp_npu ftp) <= length mem -> length (fp_npu ftp) <= length evals ->
    exists grad' mem' evals',
      ftp_gradeval_lin ftp grad ge mem evals = Ok (train_value (fp_ft ftp) x, grad', mem', evals', ge) /\
      exact_gradient z ev ftp x grad grad'.
  Proof.
    intros z ev bas ftp x grad ge mem evals HL O D Lx Hge Lg Lm Le.
    assert (Dd : fp_dim ftp = ft_dim (fp_ft ftp)) by apply O.
    assert (Ln : length (fp_npu ftp) = length (flat_map fs (ft_cores (fp_ft ftp)))).
    { exact (npu_length ftp O). }
    destruct (gradeval_lin_ok z ev ftp O x (eq_trans Lx Dd) bas (proj1 HL) ge Hge grad mem evals)
      as (grad' & mem' & ev' & E & H); try lia.
    exists grad', mem', ev'. split; [exact E|]. eapply linear_gradient; eauto.
  Qed.

  Theorem C64_eval_lin : forall (z : G) ev bas (ftp : ftparam R (evU z ev)) x ge mem,
    linear_in_params ev bas -> ftp_ok ftp -> length x = fp_dim ftp ->
    firstn (fp_nparams ftp) ge = concat (basis_blocks bas (ft_cores (fp_ft ftp)) x) ->
    length (fp_npu ftp) <= length mem ->
    exists mem', ftp_eval_lin ftp ge mem = Ok (train_value (fp_ft ftp) x, mem') /\ length mem' = length mem.
  Proof.
    intros z ev bas ftp x ge mem HL O Lx Hge Lm.
    assert (Dd : fp_dim ftp = ft_dim (fp_ft ftp)) by apply O.
    assert (Ln : length (fp_npu ftp) = length (flat_map fs (ft_cores (fp_ft ftp)))).
    { exact (npu_length ftp O). }
    apply (eval_lin_ok z ev ftp O x (eq_trans Lx Dd) bas (proj1 HL) ge Hge mem). lia.
  Qed.

  (** In one dimension the gradient is wrong: every entry is multiplied by the
      value of the function. *)
  Theorem C63_dim1_scaled : forall (z : G) ev pge (ftp : ftparam R (evU z ev)) c u y grad ge mem evals,
    ftp_ok ftp -> fp_dim ftp = 1 -> ft_cores (fp_ft ftp) = [c] -> fs c = [u] ->
    (forall u y, gf_wf u -> fst (pge u y) = ev u y /\ length (snd (pge u y)) = length (gf_params u)) ->
    fp_nparams ftp <= length grad -> fp_nparams ftp <= length ge -> 1 <= length mem -> 1 <= length evals ->
    exists grad' ge' mem' evals',
      ftp_gradeval pge ftp [y] grad ge mem evals = Ok (ev u y, grad', mem', evals', ge') /\
      length grad' = length grad /\
      forall l g, nth_error (snd (pge u y)) l = Some g -> nth_error grad' l = Some (g *! ev u y).
  Proof. intros z ev pge ftp c u y grad ge mem evals. apply (gradeval_dim1 z ev). Qed.
End Common.

(** C63 over the real numbers: whatever the dependence of the univariate
    functions on their parameters, if their gradients are derivatives, so is the
    gradient of the train. *)
Theorem C63_gradeval : forall (F : Type) (z : gfn Rring F) (ev : gfn Rring F -> R -> R)
    (pge : gfn Rring F -> R -> R * list R) (ftp : ftparam Rring (evU (R := Rring) z ev)) x grad ge mem evals,
  (forall u y, gf_wf u -> fst (pge u y) = ev u y /\ length (snd (pge u y)) = length (gf_params u) /\
     forall l v g (fam : R -> gfn Rring F), nth_error (gf_params u) l = Some v -> nth_error (snd (pge u y)) l = Some g ->
       (forall t, gf_update nobad (0%R : Rring) u (length (gf_params u)) (upd (gf_params u) l t) 0 = Ok (fam t)) ->
       derivable_pt_lim (fun t => ev (fam t) y) v g) ->
  ftp_ok ftp -> 2 <= fp_dim ftp -> length x = fp_dim ftp ->
  fp_nparams ftp <= length grad -> fp_nparams ftp <= length ge ->
  length (fp_npu ftp) <= length mem -> length (fp_npu ftp) <= length evals ->
  exists grad' ge' mem' evals',
    ftp_gradeval (R := Rring) pge ftp x grad ge mem evals
    = Ok (train_value (U := evU (R := Rring) z ev) (fp_ft ftp) x, grad', mem', evals', ge') /\
    length grad' = length grad /\
    (forall n, fp_nparams ftp <= n -> nth_error grad' n = nth_error grad n) /\
    (forall n v, nth_error (fp_params ftp) n = Some v ->
      exists g (fam : R -> ftrain (evU (R := Rring) z ev)), nth_error grad' n = Some g /\
        (forall t, ft_update nobad (0%R : Rring) (fp_ft ftp) (upd (fp_params ftp) n t) = Ok (fp_nparams ftp, fam t)) /\
        derivable_pt_lim (fun t => train_value (fam t) x) v g).
Proof.
  intros F z ev pge ftp x grad ge mem evals Hp O D Lx Lg Lge Lm Le.
  assert (Dd : fp_dim ftp = ft_dim (fp_ft ftp)) by apply O.
  assert (Ln : length (fp_npu ftp) = length (flat_map fs (ft_cores (fp_ft ftp)))).
  { exact (npu_length (R := Rring) ftp O). }
  destruct (gradeval_ok (R := Rring) z ev ftp O x (eq_trans Lx Dd) pge grad ge mem evals)
    as (grad' & ge' & mem' & ev' & E & H1 & H2 & H3); try lia.
  { intros u y W. split; apply (Hp u y W). }
  exists grad', ge', mem', ev'. split; [exact E|]. split; [exact H1|]. split; [exact H2|].
  intros n v Hn. destruct (H3 n v Hn) as (w & k & u & l & Hk & Iu & Wu & Ev & Eg & Ht).
  assert (EN : fp_nparams ftp = length (train_params (fp_ft ftp))) by apply O.
  assert (EP : fp_params ftp = train_params (fp_ft ftp)) by apply O.
  eexists _, (fun t => ft_with (fp_ft ftp) (upd (fp_params ftp) n t)). split; [exact Eg|]. split.
  - intros t. rewrite EN. apply (update_is_with (R := Rring)); [apply O|]. rewrite upd_length, EP. lia.
  - set (y := nth k x (@r0 Rring)) in *.
    assert (Hl : l < length (gf_params u)) by (apply nth_error_Some; congruence).
    destruct (Hp u y Wu) as (_ & Lp & Hd).
    assert (Dg := Hd l v (nth l (snd (pge u y)) 0%R) (fun t => gf_with u (upd (gf_params u) l t)) Ev).
    specialize (Dg ltac:(apply nth_error_nth'; lia)).
    specialize (Dg ltac:(intros t; apply (gf_update_is_with (R := Rring)); [exact Wu|apply upd_length])).
    set (V := train_value (U := evU (R := Rring) z ev) (fp_ft ftp) x : R) in *.
    assert (DD : derivable_pt_lim (fun t => V + w * (ev (gf_with u (upd (gf_params u) l t)) y - ev u y))%R v
                   (0 + w * (nth l (snd (pge u y)) 0 - 0))%R).
    { apply (derivable_pt_lim_plus (fun _ => V)); [apply derivable_pt_lim_const|].
      apply (derivable_pt_lim_scal (fun t => ev (gf_with u (upd (gf_params u) l t)) y - ev u y)%R).
      apply (derivable_pt_lim_minus (fun t => ev (gf_with u (upd (gf_params u) l t)) y) (fun _ => ev u y)); auto.
      apply derivable_pt_lim_const. }
    replace (0 + w * (nth l (snd (pge u y)) 0 - 0))%R with (w * nth l (snd (pge u y)) 0)%R in DD by ring.
    refine (derivable_pt_lim_ext _ _ _ _ _ DD). intros t. symmetry. exact (Ht t).
Qed.

(** ** Non-vacuity *)

(** Functions given by their coefficients in the power basis *)
Section Power.
  Context {R : CRing} {F : Type}.
  Open Scope cr_scope.
  Fixpoint rpow (y : R) (n : nat) : R := match n with 0 => r1 | S n => y *! rpow y n end.
  Definition pbas (u : gfn R F) (y : R) : list R := map (rpow y) (seq 0 (gf_num u)).
  Definition pev (u : gfn R F) (y : R) : R :=
    sum (length (gf_params u)) (fun l => nth l (gf_params u) r0 *! rpow y l).
  Lemma rest_num (u v : gfn R F) : gf_rest u = gf_rest v -> gf_num u = gf_num v.
  Proof. destruct u, v; cbn [gf_rest]; intros E; try discriminate; injection E; intros; subst; reflexivity. Qed.
  Example C63_power_linear : linear_in_params pev pbas.
  Proof.
    split.
    - intros u y W. unfold pbas. rewrite map_length, seq_length, gf_params_length by auto. split; [reflexivity|].
      unfold pev. rewrite gf_params_length by auto. apply sum_ext. intros l Hl. f_equal. symmetry. apply nth_error_nth.
      rewrite (map_nth_error (rpow y) l (seq 0 (gf_num u)) (d := l)); auto.
      rewrite (nth_error_nth' _ 0) by (rewrite seq_length; lia). f_equal. apply seq_nth. lia.
    - intros u v y Wu Wv E. unfold pbas. now rewrite (rest_num u v E).
  Qed.
End Power.

(** A train in three dimensions with ranks 1, 2, 3, 1 and functions with 1, 2 or
    3 parameters, one of them with spare storage. *)
Definition gp (l : list Z) : gfn Zring unit := GPoly tt (length l) (length l) l.
Definition exG : ftrain (gfn Zring unit) :=
  mkft 3 [1; 2; 3; 1]
    [mkq 1 2 [GPoly tt 2 4 [1; 2; 90; 91]%Z; gp [3]%Z];
     mkq 2 3 [gp [1; 1]%Z; gp [0; 2; 1]%Z; gp [4]%Z; gp [-1; 3]%Z; GNod tt true 2 [0; 1]%Z [5; 1]%Z; gp [2]%Z];
     mkq 3 1 [gp [1; 0; 2]%Z; gp [7]%Z; gp [-2; 1]%Z]].
Definition exGp : ftparam Zring (gfn Zring unit) :=
  mkftp (R := Zring) exG 3 [2; 1; 2; 3; 1; 2; 2; 1; 3; 1; 2] [3; 11; 6] 20
    ([1; 2; 3; 1; 1; 0; 2; 1; 4; -1; 3; 5; 1; 2; 1; 0; 2; 7; -2; 1]%Z : list Zring).

Example C63_ex_ok : ftp_ok exGp.
Proof.
  split; [|split].
  - unfold ft_wf, chain, qwf. simpl. repeat split; auto; lia.
  - split; [reflexivity|]. repeat constructor.
  - repeat (split; [reflexivity|]). reflexivity.
Qed.
Definition exGE : list Z := [1; 2; 1; 1; 3; 1; 3; 9; 1; 1; 3; 1; 3; 1; 1; -1; 1; 1; 1; -1]%Z.
Example C64_ex_basis : firstn 20 exGE = concat (basis_blocks pbas (ft_cores exG) [2; 3; -1]%Z).
Proof. reflexivity. Qed.
Example C63_ex :
  (do (v, g, m, e, b) <- ftp_gradeval (fun u y => (pev u y, pbas u y)) exGp [2; 3; -1]%Z (repeat 100%Z 21) (repeat 0%Z 20) (repeat 0%Z 11) (repeat 0%Z 11);
   Ok (v, g))
  = Ok (365, [16; 32; 95; 15; 45; 9; 27; 81; 35; 21; 63; -15; -45; -9; 65; -65; 65; 44; 46; -46; 100])%Z /\
  train_value (U := evU (R := Zring) (GPw tt) pev) exG [2; 3; -1]%Z = 365%Z.
Proof. vm_compute. split; reflexivity. Qed.

Example C64_ex :
  (do (v, g, m, e, b) <- ftp_gradeval_lin exGp (repeat 100%Z 21) exGE (repeat 0%Z 11) (repeat 0%Z 11); Ok (v, g))
  = Ok (365, [16; 32; 95; 15; 45; 9; 27; 81; 35; 21; 63; -15; -45; -9; 65; -65; 65; 44; 46; -46; 100])%Z /\
  (do (v, m) <- ftp_eval_lin exGp exGE (repeat 0%Z 11); Ok v) = Ok 365%Z.
Proof. vm_compute. split; reflexivity. Qed.

(** In one dimension: 2 + 3 y at 5 has the value 17 and the gradient (1, 5); the
    result is (17, 85). *)
Definition exG1 : ftparam Zring (gfn Zring unit) :=
  mkftp (R := Zring) (mkft 1 [1; 1] [mkq 1 1 [gp [2; 3]%Z]]) 1 [2] [2] 2 ([2; 3]%Z : list Zring).
Example C63_ex1_ok : ftp_ok exG1.
Proof.
  split; [|split].
  - unfold ft_wf, chain, qwf. simpl. repeat split; auto; lia.
  - split; [reflexivity|]. repeat constructor.
  - repeat (split; [reflexivity|]). reflexivity.
Qed.
Theorem C63_dim1_refuted : exists (z : gfn Zring unit) ev bas (ftp : ftparam Zring (evU (R := Zring) z ev)) x grad ge mem evals,
  linear_in_params ev bas /\ ftp_ok ftp /\ 1 <= fp_dim ftp /\ length x = fp_dim ftp /\
  fp_nparams ftp <= length grad /\ fp_nparams ftp <= length ge /\
  length (fp_npu ftp) <= length mem /\ length (fp_npu ftp) <= length evals /\
  exists grad' ge' mem' evals',
    ftp_gradeval (R := Zring) (fun u y => (ev u y, bas u y)) ftp x grad ge mem evals
    = Ok (train_value (U := evU (R := Zring) z ev) (fp_ft ftp) x, grad', mem', evals', ge') /\
    ~ exact_gradient (R := Zring) z ev ftp x grad grad'.
Proof.
  exists (GPw tt), pev, pbas, exG1, [5%Z], [0; 0]%Z, [0; 0]%Z, [0%Z], [0%Z].
  split; [exact C63_power_linear|]. split; [exact C63_ex1_ok|]. do 6 (split; [cbn; auto|]).
  eexists _, _, _, _. split; [vm_compute; reflexivity|].
  intros (_ & _ & H). destruct (H 0 2%Z eq_refl) as (g & Eg & Ht). cbn in Eg. injection Eg as <-.
  destruct (Ht 3%Z) as (f' & Ef & Ev). vm_compute in Ef. injection Ef as <-. vm_compute in Ev. discriminate.
Qed.

(** Functions that are not linear in their parameters: the sum of p_l^2 y^l. *)
Definition sev (u : gfn Rring unit) (y : R) : R :=
  sum (R := Rring) (length (gf_params u)) (fun l => (nth l (gf_params u) 0 * nth l (gf_params u) 0 * y ^ l)%R).
Definition spge (u : gfn Rring unit) (y : R) : R * list R :=
  (sev u y, map (fun l => (2 * nth l (gf_params u) 0 * y ^ l)%R) (seq 0 (length (gf_params u)))).
Example C63_ex_nonlinear : forall u y, gf_wf u ->
  fst (spge u y) = sev u y /\ length (snd (spge u y)) = length (gf_params u) /\
  forall l v g (fam : R -> gfn Rring unit), nth_error (gf_params u) l = Some v -> nth_error (snd (spge u y)) l = Some g ->
    (forall t, gf_update nobad (0%R : Rring) u (length (gf_params u)) (upd (gf_params u) l t) 0 = Ok (fam t)) ->
    derivable_pt_lim (fun t => sev (fam t) y) v g.
Proof.
  intros u y W. split; [reflexivity|]. cbn [spge snd fst]. rewrite map_length, seq_length. split; [reflexivity|].
  intros l v g fam Ev Eg Hf. set (P := gf_params u) in *.
  assert (Hl : l < length P) by (apply nth_error_Some; congruence).
  assert (Ef : forall t, fam t = gf_with u (upd P l t)).
  { intros t. specialize (Hf t). unfold P in *. rewrite (gf_update_is_with (R := Rring)) in Hf; auto using upd_length. congruence. }
  rewrite (map_nth_error _ l (seq 0 (length P)) (d := l)) in Eg.
  2:{ rewrite (nth_error_nth' _ 0) by (rewrite seq_length; lia). f_equal. apply seq_nth. lia. }
  injection Eg as <-. rewrite (nth_error_nth _ _ _ Ev).
  apply (derivable_pt_lim_ext (fun t => sum (R := Rring) (length P)
    (fun i => if i =? l then (t * t * y ^ i)%R else (nth i P 0 * nth i P 0 * y ^ i)%R))).
  { intros t. unfold sev. rewrite Ef.
    destruct (gf_with_spec u (upd P l t) W) as (_ & -> & _).
    { rewrite upd_length. now apply gf_params_length. }
    rewrite upd_length. apply (sum_ext Rring). intros i Hi. destruct (Nat.eqb_spec i l) as [->|Ne].
    - rewrite (nth_error_nth _ _ 0%R (nth_error_upd_same _ _ _ Hl)). reflexivity.
    - rewrite (nth_error_nth (upd P l t) i 0%R (x := nth i P 0%R)); [reflexivity|].
      rewrite nth_error_upd_other by auto. now apply nth_error_nth'. }
  replace (2 * v * y ^ l)%R with (sum (R := Rring) (length P) (fun i => if i =? l then (2 * v * y ^ i)%R else 0%R)).
  - apply deriv_sum. intros i Hi. destruct (Nat.eqb_spec i l) as [->|Ne]; [|apply derivable_pt_lim_const].
    apply (deriv_scal_r (y ^ l) (fun t => t * t)%R).
    replace (2 * v)%R with (1 * v + v * 1)%R by ring.
    apply (derivable_pt_lim_mult id id); apply derivable_pt_lim_id.
  - rewrite (sum_single Rring _ _ l); auto.
    + now rewrite Nat.eqb_refl.
    + intros i Hi Ne. destruct (Nat.eqb_spec i l); [congruence|reflexivity].
Qed.

Print Assumptions C63_gradeval.
Print Assumptions C63_gradeval_linear.
Print Assumptions C63_dim1_scaled.
Print Assumptions C63_dim1_refuted.
Print Assumptions C64_gradeval_lin.
Print Assumptions C64_eval_lin.
