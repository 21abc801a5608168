(** Property C65: regression by alternating least squares. *)
From Verif Require Import LinSlope PropPGrad PropParam FTRealDeriv Instances RealInst AlsRun AlsSpec.
From Coq Require Import Reals Lra ZArith.
Open Scope nat_scope.

Section AnyRing.
  Context {R : CRing} {F : Type}.
  Open Scope cr_scope.
  Add Ring Rr38 : (rth R).
  Notation G := (gfn R F).

  (** Exact gradient of the objective for functions that are linear in their
      parameters: with the other parameters fixed, the value at sample [s] is
      affine in parameter [n] with slope [Ds s]; [e] is the mean of
      -2 w_s (y_s - value_s) Ds_s. *)
  Definition exact_slope (z : G) ev (rdiv : R -> nat -> R) (f : ftrain (evU z ev)) data wts
      (th : list R) (ind : option nat) (n : nat) (e : R) : Prop :=
    exists Ds : nat -> R,
      (forall s, In s (chosen data ind) -> forall t,
         value z ev f data (upd th n t) s = value z ev f data th s +! (t -! nth n th r0) *! Ds s) /\
      e = rdiv (lsum (chosen data ind) (fun s => weight wts s *! (ropp ((r1 +! r1) *! (target data s -! value z ev f data th s)) *! Ds s)))
               (length (chosen data ind)).

  (** C65, functions that are linear in their parameters: the run is a run of the
      textbook algorithm.  Every value that the optimizer of a subproblem is
      shown is the mean weighted squared residual of the train with the current
      parameters, every gradient is its gradient with respect to the parameters
      of the core, and the result has the parameters that the textbook algorithm
      ends with. *)
  Theorem C65_linear : forall bad (z : G) ev pge bas rdiv opt conv (ftp : ftparam R (evU z ev)) data wts lin0 max,
    (forall v, bad v = false) -> linear_in_params ev bas -> ftp_ok ftp -> 2 <= fp_dim ftp ->
    d_N data * fp_dim ftp <= length (d_x data) -> d_N data <= length (d_y data) ->
    (forall w, wts = Some w -> d_N data <= length w) ->
    d_N data * fp_nparams ftp <= length lin0 ->
    opt_ok z ev opt (fp_ft ftp) data true ->
    exists st, run_als bad z ev pge bas rdiv opt conv true ftp data wts lin0 max = Ok st /\
      ftp_ok (a_ftp z ev st) /\
      fp_ft (a_ftp z ev st) = at_ z ev (fp_ft ftp) (fp_params (a_ftp z ev st)) /\
      run z ev rdiv opt conv (fp_ft ftp) data wts (exact_slope z ev rdiv (fp_ft ftp) data wts)
          max [] (fp_params ftp) (a_log z ev st) (fp_params (a_ftp z ev st)).
  Proof.
    intros bad z ev pge bas rdiv opt conv ftp data wts lin0 max Hbad HL O D2 Lx Ly Lw Ll Ho.
    assert (Ed : fp_dim ftp = ft_dim (fp_ft ftp)) by apply O. rewrite Ed in *.
    destruct (run_als_ok bad Hbad z ev pge bas rdiv true (fun _ => HL) ltac:(discriminate) ftp O D2 data Lx Ly wts Lw opt conv Ho lin0 max Ll)
      as (st & th' & E & Ea & L & HR).
    exists st. split; [exact E|]. rewrite Ea. cbn [Fp set_ftp fp_ft fp_params].
    split; [exact (proj1 (ru_Fp bad Hbad z ev ftp O th' L))|]. split; [reflexivity|].
    revert HR. apply run_mono. intros th ind n e (Lt & Hn & Hs & Ds & HD & He). exists Ds. split; [|exact He].
    intros s Hi t. destruct (HD s Hi) as (y & w & u & l & v & Wu & Eu & Et & Eg & H).
    unfold value, at_. rewrite (H t), (ev_slope ev bas u l v y t HL Wu Eu), Eg, (nth_error_nth _ _ _ Et). ring.
  Qed.

  (** If no subproblem is left with a larger objective than it started with,
      neither is the run. *)
  Theorem C65_descent : forall (z : G) ev rdiv opt conv (f : ftrain (evU z ev)) data wts Gr (le : R -> R -> Prop),
    (forall a, le a a) -> (forall a b c, le a b -> le b c -> le a c) ->
    (forall log c th evs th', c < ft_dim f ->
       follows z ev rdiv f data wts Gr c (opt log c (firstn (npar z ev f c) (skipn (first z ev f c) th))) th evs th' ->
       le (objective z ev rdiv f data wts th' None) (objective z ev rdiv f data wts th None)) ->
    forall max log th log' th', run z ev rdiv opt conv f data wts Gr max log th log' th' ->
      le (objective z ev rdiv f data wts th' None) (objective z ev rdiv f data wts th None).
  Proof.
    intros z ev rdiv opt conv f data wts Gr le Hr Ht H.
    assert (HS : forall cs log th log' th', steps z ev rdiv opt f data wts Gr cs log th log' th' -> (forall c, In c cs -> c < ft_dim f) ->
      le (objective z ev rdiv f data wts th' None) (objective z ev rdiv f data wts th None)).
    { induction 1 as [|c cs log th evs th1 log' th' HF _ IH]; intros Hc; [apply Hr|].
      eapply Ht; [apply IH|eapply H; [|exact HF]]; auto using in_eq, in_cons. }
    assert (HO : forall c, In c (order z ev f) -> c < ft_dim f).
    { intros c Hc. apply in_app_iff in Hc as [Hc|Hc]; [apply in_seq in Hc; lia|].
      rewrite <- in_rev in Hc. apply in_seq in Hc. lia. }
    induction 1; [apply Hr| |].
    - eapply HS; eauto.
    - eapply Ht; [eassumption|]. eapply HS; eauto.
  Qed.
End AnyRing.

(** C65 over the reals, for functions that depend on their parameters in any
    differentiable way: the gradients are those of the objective. *)
Definition true_gradient {F} (z : gfn Rring F) ev rdiv (f : ftrain (evU (R := Rring) z ev)) data wts
    (th : list R) (ind : option nat) (n : nat) (e : R) : Prop :=
  derivable_pt_lim (fun t => objective (R := Rring) z ev rdiv f data wts (upd th n t) ind) (nth n th 0%R) e.

Lemma upd_nth_self (l : list R) n v : nth_error l n = Some v -> upd l n (nth n l 0%R) = l.
Proof.
  revert n. induction l as [|a l IH]; intros [|n] E; try discriminate; cbn; auto. f_equal. now apply IH.
Qed.

Lemma deriv_lsum (l : list nat) (f : nat -> R -> R) (g : nat -> R) x :
  (forall s, In s l -> derivable_pt_lim (f s) x (g s)) ->
  derivable_pt_lim (fun t => lsum (R := Rring) l (fun s => f s t)) x (lsum (R := Rring) l g).
Proof.
  induction l as [|a l IH]; intros H; unfold lsum; cbn [fold_right].
  - apply derivable_pt_lim_const.
  - apply (derivable_pt_lim_plus (f a) (fun t => lsum (R := Rring) l (fun s => f s t))); [apply H; now left|].
    apply IH. intros s Hs. apply H. now right.
Qed.

Lemma grad_of_true : forall (F : Type) (z : gfn Rring F) (ev : gfn Rring F -> R -> R) pge bas rdiv lin
    (ftp : ftparam Rring (evU (R := Rring) z ev)) data wts,
  (forall a n, rdiv a n = (a / INR n)%R) ->
  (lin = true -> linear_in_params (R := Rring) ev bas) ->
  (lin = false -> forall u y, gf_wf u -> fst (pge u y) = ev u y /\ length (snd (pge u y)) = length (gf_params u) /\
     forall l v g (fam : R -> gfn Rring F), nth_error (gf_params u) l = Some v -> nth_error (snd (pge u y)) l = Some g ->
       (forall t, gf_update nobad (0%R : Rring) u (length (gf_params u)) (upd (gf_params u) l t) 0 = Ok (fam t)) ->
       derivable_pt_lim (fun t => ev (fam t) y) v g) ->
  forall th ind n e, grad_of (R := Rring) z ev pge bas rdiv lin ftp data wts th ind n e ->
    true_gradient z ev rdiv (fp_ft ftp) data wts th ind n e.
Proof.
  intros F z ev pge bas rdiv lin ftp data wts Hdiv HL HN th ind n e (Lt & Hn & Hs & Ds & HD & He).
  unfold true_gradient, objective. set (v := nth n th 0%R). set (NN := length (chosen data ind)) in *.
  set (f := fp_ft ftp) in *. rewrite He.
  set (W s := weight (R := Rring) wts s : R). set (Y s := target (R := Rring) data s : R).
  set (V t s := value (R := Rring) z ev f data (upd th n t) s : R).
  set (V0 s := value (R := Rring) z ev f data th s : R).
  assert (HV : forall s, In s (chosen data ind) -> derivable_pt_lim (fun t => V t s) v (Ds s) /\ V v s = V0 s).
  { intros s Hi. destruct (HD s Hi) as (y & w & u & l & v' & Wu & Eu & Et & Eg & H).
    assert (Ev : v' = v) by (unfold v; symmetry; exact (nth_error_nth _ _ _ Et)). subst v'.
    assert (Hl : l < length (gf_params u)) by (apply nth_error_Some; congruence).
    split.
    2:{ unfold V, V0. f_equal. unfold v. now apply upd_nth_self with (v := v). }
    assert (Dg : derivable_pt_lim (fun t => ev (gf_with u (upd (gf_params u) l t)) y) v (nth l (if lin then bas u y else snd (pge u y)) 0%R)).
    { destruct lin.
      - apply (derivable_pt_lim_ext (fun t => (ev u y + (t - v) * nth l (bas u y) 0)%R)).
        + intros t. pose proof (ev_slope (R := Rring) ev bas u l v y t (HL eq_refl) Wu Eu) as E2.
          assert (E3 : (ev (gf_with u (upd (gf_params u) l t)) y - ev u y = (t - v) * nth l (bas u y) 0)%R) by exact E2. lra.
        + assert (DD : derivable_pt_lim (fun t => (ev u y + (t - v) * nth l (bas u y) 0)%R) v (0 + (1 - 0) * nth l (bas u y) 0)%R).
          { apply (derivable_pt_lim_plus (fun _ => ev u y)); [apply derivable_pt_lim_const|].
            apply (deriv_scal_r (nth l (bas u y) 0)%R (fun t => t - v)%R).
            apply (derivable_pt_lim_minus id (fun _ => v)); [apply derivable_pt_lim_id|apply derivable_pt_lim_const]. }
          replace (0 + (1 - 0) * nth l (bas u y) 0)%R with (nth l (bas u y) 0%R) in DD; [exact DD|].
          generalize (nth l (bas u y) 0%R : R). intros b. change (b = (0 + (1 - 0) * b)%R). lra.
      - destruct (HN eq_refl u y Wu) as (_ & Lp & Hd).
        apply (Hd l v _ (fun t => gf_with u (upd (gf_params u) l t)) Eu).
        + apply nth_error_nth'. exact (eq_ind_r (fun q => l < q) Hl Lp).
        + intros t. apply (gf_update_is_with (R := Rring)); [exact Wu|apply upd_length]. }
    rewrite Eg.
    assert (DD : derivable_pt_lim (fun t => V0 s + w * (ev (gf_with u (upd (gf_params u) l t)) y - ev u y))%R v
                   (0 + w * (nth l (if lin then bas u y else snd (pge u y)) 0 - 0))%R).
    { apply (derivable_pt_lim_plus (fun _ => V0 s)); [apply derivable_pt_lim_const|].
      apply (derivable_pt_lim_scal (fun t => ev (gf_with u (upd (gf_params u) l t)) y - ev u y)%R).
      apply (derivable_pt_lim_minus (fun t => ev (gf_with u (upd (gf_params u) l t)) y) (fun _ => ev u y)); auto.
      apply derivable_pt_lim_const. }
    match type of DD with derivable_pt_lim _ _ (0 + w * (?a - 0))%R => replace (0 + w * (a - 0))%R with (w * a)%R in DD by ring end.
    refine (derivable_pt_lim_ext _ _ _ _ _ DD). intros t. symmetry. exact (H t). }
  apply (derivable_pt_lim_ext (fun t => (lsum (R := Rring) (chosen data ind) (fun s => (W s * ((Y s - V t s) * (Y s - V t s)))%R) * / INR NN)%R)).
  { intros t. symmetry. apply Hdiv. }
  rewrite Hdiv. unfold Rdiv. apply (deriv_scal_r (/ INR NN)%R (fun t => lsum (R := Rring) (chosen data ind) (fun s => (W s * ((Y s - V t s) * (Y s - V t s)))%R))).
  apply (deriv_lsum (chosen data ind) (fun s t => (W s * ((Y s - V t s) * (Y s - V t s)))%R)).
  intros s Hi. destruct (HV s Hi) as [H1 H2].
  assert (H3 : derivable_pt_lim (fun t => Y s - V t s)%R v (0 - Ds s)%R).
  { apply (derivable_pt_lim_minus (fun _ => Y s) (fun t => V t s)); [apply derivable_pt_lim_const|exact H1]. }
  assert (H4 := derivable_pt_lim_mult _ _ _ _ _ H3 H3).
  assert (H5 := derivable_pt_lim_scal _ (W s) _ _ H4). unfold mult_real_fct, mult_fct in H5. rewrite H2 in H5.
  match type of H5 with derivable_pt_lim _ _ ?a => match goal with |- derivable_pt_lim _ _ ?b => replace b with a end end.
  - exact H5.
  - cbn. unfold V0, Y, W. ring.
Qed.

Theorem C65_real : forall (F : Type) bad (z : gfn Rring F) (ev : gfn Rring F -> R -> R) pge bas rdiv opt conv lin
    (ftp : ftparam Rring (evU (R := Rring) z ev)) data wts lin0 max,
  (forall v, bad v = false) ->
  (forall a n, rdiv a n = (a / INR n)%R) ->
  (lin = true -> linear_in_params (R := Rring) ev bas) ->
  (lin = false -> forall u y, gf_wf u -> fst (pge u y) = ev u y /\ length (snd (pge u y)) = length (gf_params u) /\
     forall l v g (fam : R -> gfn Rring F), nth_error (gf_params u) l = Some v -> nth_error (snd (pge u y)) l = Some g ->
       (forall t, gf_update nobad (0%R : Rring) u (length (gf_params u)) (upd (gf_params u) l t) 0 = Ok (fam t)) ->
       derivable_pt_lim (fun t => ev (fam t) y) v g) ->
  ftp_ok ftp -> 2 <= fp_dim ftp ->
  d_N data * fp_dim ftp <= length (d_x data) -> d_N data <= length (d_y data) ->
  (forall w, wts = Some w -> d_N data <= length w) ->
  d_N data * fp_nparams ftp <= length lin0 ->
  opt_ok (R := Rring) z ev opt (fp_ft ftp) data lin ->
  exists st, run_als (R := Rring) bad z ev pge bas rdiv opt conv lin ftp data wts lin0 max = Ok st /\
    ftp_ok (a_ftp z ev st) /\
    fp_ft (a_ftp z ev st) = at_ z ev (fp_ft ftp) (fp_params (a_ftp z ev st)) /\
    run (R := Rring) z ev rdiv opt conv (fp_ft ftp) data wts (true_gradient z ev rdiv (fp_ft ftp) data wts)
        max [] (fp_params ftp) (a_log z ev st) (fp_params (a_ftp z ev st)).
Proof.
  intros F bad z ev pge bas rdiv opt conv lin ftp data wts lin0 max Hbad Hdiv HL HN O D2 Lx Ly Lw Ll Ho.
  assert (Ed : fp_dim ftp = ft_dim (fp_ft ftp)) by apply O. rewrite Ed in *.
  assert (HN' : lin = false -> forall u y, gf_wf u -> fst (pge u y) = ev u y /\ length (snd (pge u y)) = length (gf_params u)).
  { intros El u y W. destruct (HN El u y W) as (A & B & _). auto. }
  destruct (run_als_ok (R := Rring) bad Hbad z ev pge bas rdiv lin HL HN' ftp O D2 data Lx Ly wts Lw opt conv Ho lin0 max Ll)
    as (st & th' & E & Ea & L & HR).
  exists st. split; [exact E|]. rewrite Ea. cbn [Fp set_ftp fp_ft fp_params].
  split; [exact (proj1 (ru_Fp (R := Rring) bad Hbad z ev ftp O th' L))|]. split; [reflexivity|].
  revert HR. apply run_mono. intros th ind n e HG. revert HG. apply grad_of_true; auto.
Qed.

(** ** Non-vacuity *)

(** An optimizer that asks for the value and gradient of the objective, for those
    of the second sample at another place, for the value there, and then returns
    a third place. *)
Definition exOpt (_ : list (event (R := Zring))) (c : nat) (guess : list Z) : strat (R := Zring) :=
  let p := upd guess 0 (nth 0 guess 0 + 1)%Z in
  Ask (R := Zring) guess None true (fun v g =>
  Ask (R := Zring) p (Some 1) true (fun _ _ =>
  Ask (R := Zring) p None false (fun v' _ => Stop (R := Zring) (upd guess 0 (if v' <? v then nth 0 p 0 else nth 0 guess 0 - 1)%Z)))).
Definition exData : sldata (R := Zring) := mkdata (R := Zring) 2 ([2; 3; -1; 1; 0; 2]%Z : list Zring) ([370; 20]%Z : list Zring).
Definition zdiv (a : Z) (n : nat) : Z := (a / Z.of_nat n)%Z.
Definition exW : option (list Z) := Some [1; 3]%Z.

Example C65_ex_opt : forall lin, lin = true -> opt_ok (R := Zring) (F := unit) (GPw tt) pev exOpt exG exData lin.
Proof.
  intros lin -> log c guess Hc L. unfold exOpt. cbn [strat_ok]. cbn zeta.
  split; [exact L|]. split; [exact I|]. split; [discriminate|]. intros v g. split; [now rewrite upd_length|].
  split; [cbn; lia|]. split; [discriminate|]. intros v1 g1. split; [now rewrite upd_length|]. split; [exact I|].
  split; [discriminate|]. intros v2 g2. cbn [strat_ok]. now rewrite upd_length.
Qed.

Definition exRun lin opt max := run_als (R := Zring) (F := unit) nobad (GPw tt) pev (fun u y => (pev u y, pbas u y)) pbas zdiv opt (fun _ _ => false)
  lin exGp exData exW (repeat 0%Z 40) max.
Example C65_ex_run : (do st <- exRun true exOpt 2; Ok (fp_params (a_ftp _ _ st), length (a_log _ _ st), firstn 4 (a_log _ _ st)))
  = Ok ([-1; 2; 3; 1; 1; 0; 2; 1; 4; -1; 3; 5; 1; 2; 1; 0; 2; 7; -2; 1]%Z : list Zring, 32,
    [EAsk (R := Zring) 0 [1; 2; 3]%Z None true 7362%Z [7690; 7610; -1945]%Z;
     EAsk (R := Zring) 0 [2; 2; 3]%Z (Some 1) true 34347%Z [23754; 23754; -4494]%Z;
     EAsk (R := Zring) 0 [2; 2; 3]%Z None false 17234%Z [];
     EDone (R := Zring) 0 [0; 2; 3]%Z]).
Proof. vm_compute. reflexivity. Qed.

(** The functions of the example treated as if they were not linear: an optimizer
    that only asks for the complete objective *)
Definition exOptB (_ : list (event (R := Zring))) (c : nat) (guess : list Z) : strat (R := Zring) :=
  Ask (R := Zring) guess None true (fun v g => Stop (R := Zring) (upd guess 0 (nth 0 guess 0 - Z.sgn (nth 0 g 0))%Z)).
Example C65_ex_optB : opt_ok (R := Zring) (F := unit) (GPw tt) pev exOptB exG exData false.
Proof.
  intros log c guess Hc L. cbn [exOptB strat_ok]. split; [exact L|]. split; [exact I|]. split; [reflexivity|].
  intros v g. now rewrite upd_length.
Qed.
Example C65_ex_nonlin : (do a <- exRun false exOptB 2; Ok (fp_params (a_ftp _ _ a), a_log _ _ a))
  = (do a <- exRun true exOptB 2; Ok (fp_params (a_ftp _ _ a), a_log _ _ a)).
Proof. vm_compute. reflexivity. Qed.

(** ** Where the full statement fails *)

Lemma obind_some {A B} (o : outcome A) (f : A -> outcome B) b : obind o f = Ok b -> exists a, o = Ok a /\ f a = Ok b.
Proof. destruct o; cbn; intros H; try discriminate. eauto. Qed.

Lemma firstn_1 {A} (l : list A) e : firstn 1 l = [e] -> exists evs, l = e :: evs.
Proof. destruct l as [|a l]; cbn; intros H; [discriminate|]. injection H as ->. eauto. Qed.

Definition exOptS (_ : list (event (R := Zring))) (c : nat) (guess : list Z) : strat (R := Zring) :=
  Ask (R := Zring) guess (Some 1) true (fun _ _ => Stop (R := Zring) guess).

Lemma exS_run : exists st,
  run_als (R := Zring) (F := unit) nobad (GPw tt) pev (fun u y => (pev u y, pbas u y)) pbas zdiv exOptS (fun _ _ => false) false exGp exData exW (repeat 0%Z 40) 1 = Ok st /\
  firstn 1 (a_log _ _ st) = [EAsk (R := Zring) 0 [1; 2; 3]%Z (Some 1) true 293907%Z [30048; 30048; 178410]%Z].
Proof.
  assert (E0 : (do st <- run_als (R := Zring) (F := unit) nobad (GPw tt) pev (fun u y => (pev u y, pbas u y)) pbas zdiv exOptS (fun _ _ => false) false exGp exData exW (repeat 0%Z 40) 1;
      Ok (firstn 1 (a_log _ _ st)))
    = Ok [EAsk (R := Zring) 0 [1; 2; 3]%Z (Some 1) true 293907%Z [30048; 30048; 178410]%Z]) by (vm_compute; reflexivity).
  apply obind_some in E0 as (st & E & E0). exists st. split; [exact E|]. now injection E0.
Qed.

Lemma exS_bad log : firstn 1 log = [EAsk (R := Zring) 0 [1; 2; 3]%Z (Some 1) true 293907%Z [30048; 30048; 178410]%Z] ->
  exists c p i v g evs, log = EAsk (R := Zring) c p (Some i) true v g :: evs /\ i < 2 /\
    v <> objective (R := Zring) (F := unit) (GPw tt) pev zdiv exG exData exW (splice (first (R := Zring) (F := unit) (GPw tt) pev exG c) p (fp_params exGp)) (Some i).
Proof.
  intros E0. apply firstn_1 in E0 as (evs & Ea).
  do 6 eexists. split; [exact Ea|]. split; [lia|]. clear. vm_compute. discriminate.
Qed.

(** With functions that are not linear in their parameters, the value and the
    gradient of a single sample are wrong: the sample is number 1, but the stored
    evaluations used are those of sample 0. *)
Theorem C65_stochastic_refuted : exists (z : gfn Zring unit) ev pge bas rdiv opt conv (ftp : ftparam Zring (evU (R := Zring) z ev)) data wts lin0 max st c p i v g evs,
  (forall u y, gf_wf u -> fst (pge u y) = ev u y /\ length (snd (pge u y)) = length (gf_params u)) /\
  ftp_ok ftp /\ 2 <= fp_dim ftp /\ d_N data * fp_dim ftp <= length (d_x data) /\ d_N data <= length (d_y data) /\
  (forall w, wts = Some w -> d_N data <= length w) /\ d_N data * fp_nparams ftp <= length lin0 /\
  opt_ok (R := Zring) z ev opt (fp_ft ftp) data true /\
  run_als (R := Zring) nobad z ev pge bas rdiv opt conv false ftp data wts lin0 max = Ok st /\ i < d_N data /\
  a_log z ev st = EAsk (R := Zring) c p (Some i) true v g :: evs /\
  v <> objective (R := Zring) z ev rdiv (fp_ft ftp) data wts (splice (first (R := Zring) z ev (fp_ft ftp) c) p (fp_params ftp)) (Some i).
Proof.
  destruct exS_run as (st & E & E0).
  destruct (exS_bad _ E0) as (c & p & i & v & g & evs & Ea & Hi & Hv).
  exists (GPw tt), pev, (fun u y => (pev u y, pbas u y)), pbas, zdiv, exOptS, (fun _ _ => false), exGp, exData, exW, (repeat 0%Z 40), 1, st.
  exists c, p, i, v, g, evs.
  split. { intros u y W. split; [reflexivity|]. cbn [snd]. now apply C63_power_linear. }
  split; [exact C63_ex_ok|]. split; [cbn; lia|]. split; [cbn; lia|]. split; [cbn; lia|].
  split. { intros w Ew. injection Ew as <-. cbn. lia. }
  split; [cbn; lia|]. split.
  { intros log c' guess Hc L. cbn [strat_ok exOptS]. split; [exact L|]. split; [cbn; lia|]. split; [discriminate|]. intros; exact L. }
  split; [exact E|]. split; [exact Hi|]. split; [exact Ea|exact Hv].
Qed.

(** In one dimension the arrays are indexed out of bounds before the first sweep. *)
Theorem C65_dim1_refuted : exists (z : gfn Zring unit) ev pge bas rdiv opt conv (ftp : ftparam Zring (evU (R := Zring) z ev)) data wts lin0 max,
  linear_in_params (R := Zring) ev bas /\ ftp_ok ftp /\ fp_dim ftp = 1 /\ d_N data = 1 /\
  d_N data * fp_dim ftp <= length (d_x data) /\ d_N data <= length (d_y data) /\ wts = None /\
  d_N data * fp_nparams ftp <= length lin0 /\ opt_ok (R := Zring) z ev opt (fp_ft ftp) data true /\
  run_als (R := Zring) nobad z ev pge bas rdiv opt conv true ftp data wts lin0 max = UB.
Proof.
  exists (GPw tt), pev, (fun u y => (pev u y, pbas u y)), pbas, zdiv, (fun _ _ guess => Stop (R := Zring) guess), (fun _ _ => false),
    exG1, (mkdata (R := Zring) 1 ([5]%Z : list Zring) ([3]%Z : list Zring)), None, ([0; 0]%Z : list Zring), 1.
  split; [exact C63_power_linear|]. split; [exact C63_ex1_ok|]. repeat (split; [cbn; auto|]).
  - intros log c guess Hc L. exact L.
  - vm_compute. reflexivity.
Qed.

Print Assumptions C65_linear.
Print Assumptions C65_real.
Print Assumptions C65_descent.
Print Assumptions C65_stochastic_refuted.
Print Assumptions C65_dim1_refuted.
