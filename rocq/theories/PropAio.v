(** C95: all-at-once regression shows the optimizer the true objective.
    C99: sums of weighted objectives. *)
From Verif Require Import LinSlope PropPGrad PropParam FTRealDeriv Instances RealInst AioRun PropAls.
From Coq Require Import Reals Lra ZArith.
Open Scope nat_scope.

Definition total_gradient {F} (z : gfn Rring F) ev nsq rdiv (f : ftrain (evU (R := Rring) z ev)) data wts reg
    (th : list R) (ind : option nat) (n : nat) (e : R) : Prop :=
  derivable_pt_lim (fun t => total (R := Rring) z ev nsq rdiv f data wts reg (upd th n t) ind) (nth n th 0%R) e.

(** C95: for every optimizer, each value that it is shown is the mean weighted squared
    residual plus the penalty at the parameters it asked for, each gradient is the
    gradient of that, and the result is the train with the parameters it stopped at. *)
Theorem C95_real : forall (F : Type) bad (z : gfn Rring F) (ev : gfn Rring F -> R -> R) pge bas nsq nsg rdiv opt lin
    (ftp : ftparam Rring (evU (R := Rring) z ev)) data wts reg lin0,
  (forall v, bad v = false) ->
  (forall a n, rdiv a n = (a / INR n)%R) ->
  (forall u s, gf_wf u -> length (nsg u s) = length (gf_params u) /\
     forall l v g (fam : R -> gfn Rring F), nth_error (gf_params u) l = Some v -> nth_error (nsg u s) l = Some g ->
       (forall t, gf_update nobad (0%R : Rring) u (length (gf_params u)) (upd (gf_params u) l t) 0 = Ok (fam t)) ->
       derivable_pt_lim (fun t => s * nsq (fam t))%R v g) ->
  (lin = true -> linear_in_params (R := Rring) ev bas) ->
  (lin = false -> forall u y, gf_wf u -> fst (pge u y) = ev u y /\ length (snd (pge u y)) = length (gf_params u) /\
     forall l v g (fam : R -> gfn Rring F), nth_error (gf_params u) l = Some v -> nth_error (snd (pge u y)) l = Some g ->
       (forall t, gf_update nobad (0%R : Rring) u (length (gf_params u)) (upd (gf_params u) l t) 0 = Ok (fam t)) ->
       derivable_pt_lim (fun t => ev (fam t) y) v g) ->
  ftp_ok ftp -> 2 <= fp_dim ftp -> length (fp_npu ftp) <= 2 * fp_nparams ftp ->
  d_N data * fp_dim ftp <= length (d_x data) -> d_N data <= length (d_y data) ->
  (forall w, wts = Some w -> d_N data <= length w) ->
  d_N data * fp_nparams ftp <= length lin0 ->
  asks_ok data (fp_nparams ftp) (opt (fp_params ftp)) ->
  exists ftp' log, run_aio (R := Rring) bad z ev pge bas nsq nsg rdiv opt lin ftp data wts reg lin0 = Ok (ftp', log) /\
    ftp_ok ftp' /\ fp_ft ftp' = at_ z ev (fp_ft ftp) (fp_params ftp') /\
    answers (R := Rring) z ev nsq rdiv (fp_ft ftp) data wts reg (total_gradient z ev nsq rdiv (fp_ft ftp) data wts reg) (fp_nparams ftp)
      (opt (fp_params ftp)) log (fp_params ftp').
Proof.
  intros F bad z ev pge bas nsq nsg rdiv opt lin ftp data wts reg lin0 Hbad Hdiv HS HL HN O D2 Hnf Lx Ly Lw Ll Ho.
  assert (Ed : fp_dim ftp = ft_dim (fp_ft ftp)) by apply O. rewrite Ed in *.
  assert (HN' : lin = false -> forall u y, gf_wf u -> fst (pge u y) = ev u y /\ length (snd (pge u y)) = length (gf_params u)).
  { intros El u y W. destruct (HN El u y W) as (A & B & _). auto. }
  assert (Enf : length (fp_npu ftp) = length (flat_map fs (ft_cores (fp_ft ftp)))).
  { destruct O as (_ & _ & _ & En & _). exact (eq_ind_r (fun q => length q = _) (map_length _ _) En). }
  rewrite Enf in Hnf.
  destruct (run_aio_ok (R := Rring) bad Hbad z ev pge bas nsq nsg (fun u s W => proj1 (HS u s W)) rdiv lin HL HN' ftp O D2 Hnf data Lx Ly wts Lw reg opt lin0 Ll Ho)
    as (g & log & E & L & HA).
  exists (Fp z ev ftp g), log. split; [exact E|]. split; [exact (proj1 (ru_Fp (R := Rring) bad Hbad z ev ftp O g L))|]. split; [reflexivity|].
  cbn [Fp set_ftp fp_params]. revert HA. apply answers_mono. intros th ind n e (e1 & e2 & H1 & H2 & ->).
  pose proof (grad_of_true F z ev pge bas rdiv lin ftp data wts Hdiv HL HN th ind n e1 H1) as T1.
  unfold total_gradient, total. apply (derivable_pt_lim_plus (fun t => objective (R := Rring) z ev rdiv (fp_ft ftp) data wts (upd th n t) ind)); [exact T1|].
  destruct reg as [hw|]; [|subst e2; apply derivable_pt_lim_const].
  destruct H2 as (u & l & v & Wu & Eu & Et & -> & Hp).
  assert (Ev : nth n th 0%R = v) by exact (nth_error_nth _ _ _ Et).
  refine (eq_ind_r (fun q => derivable_pt_lim _ q _) _ Ev). cbv beta.
  destruct (HS u hw Wu) as [Ls Hd].
  assert (Hl : l < length (nsg u hw)) by (rewrite Ls; apply nth_error_Some; congruence).
  assert (DD := Hd l v (nth l (nsg u hw) 0%R) (fun t => gf_with u (upd (gf_params u) l t)) Eu (nth_error_nth' _ _ Hl)
    (fun t => gf_update_is_with (R := Rring) _ _ Wu (upd_length _ _ _))).
  assert (D3 : derivable_pt_lim (fun t => penalty (R := Rring) z ev nsq (fp_ft ftp) hw th + (hw * nsq (gf_with u (upd (gf_params u) l t)) - hw * nsq u))%R v
    (0 + (nth l (nsg u hw) 0 - 0))%R).
  { apply (derivable_pt_lim_plus (fun _ => penalty (R := Rring) z ev nsq (fp_ft ftp) hw th)); [apply derivable_pt_lim_const|].
    apply (derivable_pt_lim_minus (fun t => hw * nsq (gf_with u (upd (gf_params u) l t)))%R (fun _ => hw * nsq u)%R); [exact DD|apply derivable_pt_lim_const]. }
  replace (0 + (nth l (nsg u hw) 0 - 0))%R with (nth l (nsg u hw) 0)%R in D3 by (generalize (nth l (nsg u hw) 0%R : R); intros b; change (b = 0 + (b - 0))%R; lra).
  refine (derivable_pt_lim_ext _ _ _ _ _ D3). intros t. symmetry. exact (Hp t).
Qed.

(** ** Non-vacuity *)

(** The hypotheses on the penalty hold for the sum of the squares of the parameters *)
Example C95_ex_penalty : forall u s, gf_wf u ->
  length (map (Rmult s) (snd (spge u 1%R))) = length (gf_params u) /\
  forall l v g (fam : R -> gfn Rring unit), nth_error (gf_params u) l = Some v -> nth_error (map (Rmult s) (snd (spge u 1%R))) l = Some g ->
    (forall t, gf_update nobad (0%R : Rring) u (length (gf_params u)) (upd (gf_params u) l t) 0 = Ok (fam t)) ->
    derivable_pt_lim (fun t => s * sev (fam t) 1)%R v g.
Proof.
  intros u s W. destruct (C63_ex_nonlinear u 1%R W) as (_ & L & H). rewrite map_length. split; [exact L|].
  intros l v g fam Ev Eg Hf. rewrite nth_error_map in Eg. destruct (nth_error (snd (spge u 1%R)) l) as [g0|] eqn:E0; [|discriminate].
  injection Eg as <-. exact (derivable_pt_lim_scal _ s _ _ (H l v g0 fam Ev E0 Hf)).
Qed.

(** An optimizer that asks for everything, then for the second sample, then for a value *)
Definition exAio (guess : list Z) : strat (R := Zring) := exOpt [] 0 guess.
Definition zsq (u : gfn Zring unit) : Z := fold_right (fun p a => (p * p + a)%Z) 0%Z (gf_params u).
Definition zsg (u : gfn Zring unit) (s : Z) : list Z := map (fun p => (2 * s * p)%Z) (gf_params u).
Example C95_ex_asks : asks_ok (R := Zring) exData 20 (exAio (fp_params exGp)).
Proof. repeat split; cbn; auto; lia. Qed.
Example C95_ex_funs : length (fp_npu exGp) <= 2 * fp_nparams exGp.
Proof. vm_compute. repeat constructor. Qed.
Definition exAioRun lin := run_aio (R := Zring) (F := unit) nobad (GPw tt) pev (fun u y => (pev u y, pbas u y)) pbas zsq zsg zdiv exAio
  lin exGp exData exW (Some 5%Z) (repeat 0%Z 40).
Example C95_ex_run : exists g1 g2 p, exAioRun true = Ok (p, [
    EAsk (R := Zring) 0 (fp_params exGp) None true (7362 + 5 * zsq (gp (fp_params exGp)))%Z g1;
    EAsk (R := Zring) 0 (upd (fp_params exGp) 0 2%Z) (Some 1) true (34347 + 5 * (zsq (gp (fp_params exGp)) + 3))%Z g2;
    EAsk (R := Zring) 0 (upd (fp_params exGp) 0 2%Z) None false (17234 + 5 * (zsq (gp (fp_params exGp)) + 3))%Z [];
    EDone (R := Zring) 0 (upd (fp_params exGp) 0 0%Z)]) /\
  firstn 3 g1 = [7690 + 10; 7610 + 20; -1945 + 30]%Z /\ firstn 3 g2 = [23754 + 20; 23754 + 20; -4494 + 30]%Z /\ exAioRun false = exAioRun true.
Proof. eexists _, _, _. split; [vm_compute; reflexivity|]. split; [reflexivity|]. split; [reflexivity|]. vm_compute. reflexivity. Qed.

(** ** Where the full statement fails *)

(** In one dimension the gradient of a train is multiplied by its value (C63), and so
    the optimizer is shown a gradient that is not the one of the objective. *)
Definition exD1 : sldata (R := Zring) := mkdata (R := Zring) 1 ([5]%Z : list Zring) ([0]%Z : list Zring).
Theorem C95_dim1_refuted : exists (z : gfn Zring unit) ev bas (ftp : ftparam Zring (evU (R := Zring) z ev)) data opt lin0 ftp' p v g n e,
  linear_in_params ev bas /\ ftp_ok ftp /\ fp_dim ftp = 1 /\ length (fp_npu ftp) <= 2 * fp_nparams ftp /\
  d_N data * fp_dim ftp <= length (d_x data) /\ d_N data <= length (d_y data) /\ d_N data * fp_nparams ftp <= length lin0 /\
  asks_ok data (fp_nparams ftp) (opt (fp_params ftp)) /\
  run_aio (R := Zring) nobad z ev (fun u y => (ev u y, bas u y)) bas zsq zsg zdiv opt true ftp data None None lin0
    = Ok (ftp', [EAsk (R := Zring) 0 p None true v g; EDone (R := Zring) 0 p]) /\
  v = objective (R := Zring) z ev zdiv (fp_ft ftp) data None p None /\
  nth_error g n = Some e /\ ~ exact_slope (R := Zring) z ev zdiv (fp_ft ftp) data None p None n e.
Proof.
  exists (GPw tt), pev, pbas, exG1, exD1, (fun g => Ask (R := Zring) g None true (fun _ _ => Stop (R := Zring) g)), (repeat 0%Z 2).
  eexists _, [2; 3]%Z, 289%Z, _, 0, _.
  split; [exact C63_power_linear|]. split; [exact C63_ex1_ok|]. split; [reflexivity|]. split; [cbn; lia|].
  split; [cbn; lia|]. split; [cbn; lia|]. split; [cbn; lia|]. split; [repeat split; cbn; auto|].
  split; [vm_compute; reflexivity|]. split; [reflexivity|]. split; [reflexivity|].
  intros (Ds & H & E). specialize (H 0 (or_introl eq_refl) 3%Z).
  assert (H1 : (18 = 17 + (3 - 2) * Ds 0%nat)%Z) by exact H.
  assert (Ed : Ds 0 = 1%Z) by lia.
  change (chosen exD1 None) with [0] in E. cbn [lsum fold_right length] in E. rewrite Ed in E. vm_compute in E. discriminate.
Qed.

(** ** C99: sums of objectives *)

Section Sums.
  Context {R : CRing} {St : Type}.
  Open Scope cr_scope.
  Add Ring Rr49 : (rth R).

  Definition vadd (a b : list R) : list R := map (fun p => fst p +! snd p) (combine a b).
  Definition vscale (s : R) (a : list R) : list R := map (fun x => s *! x) a.
  (** The objectives of the list, evaluated one after the other from [s], have the
      values and gradients of [l] and add the gradients to the array they are given. *)
  Inductive plays (n : nat) : list (R * objfun (R := R) St) -> St -> list (R * list R) -> St -> Prop :=
  | p_nil s : plays n [] s [] s
  | p_cons w f objs s v d s1 l s' :
      length d = n -> (forall g, length g = n -> f true g s = Ok (v, vadd g d, s1)) ->
      plays n objs s1 l s' -> plays n ((w, f) :: objs) s ((v, d) :: l) s'.

  Definition wsum (objs : list (R * objfun (R := R) St)) (l : list (R * list R)) : R :=
    fold_right (fun p a => fst p *! fst (snd p) +! a) r0 (combine (map fst objs) l).
  (** The gradient of the weighted sum *)
  Definition wgrad (n : nat) (objs : list (R * objfun (R := R) St)) (l : list (R * list R)) : list R :=
    fold_right (fun p a => vadd (vscale (fst p) (snd (snd p))) a) (repeat r0 n) (combine (map fst objs) l).

  Lemma vadd_len a b : length (vadd a b) = Nat.min (length a) (length b).
  Proof. unfold vadd. now rewrite map_length, combine_length. Qed.
  Lemma vadd_0 n a : length a = n -> vadd a (repeat r0 n) = a.
  Proof.
    intros <-. unfold vadd. induction a as [|x a IH]; cbn; [reflexivity|]. f_equal; [ring|exact IH].
  Qed.
  Lemma vadd_0l n a : length a = n -> vadd (repeat r0 n) a = a.
  Proof.
    intros <-. unfold vadd. induction a as [|x a IH]; cbn; [reflexivity|]. f_equal; [ring|exact IH].
  Qed.
  Lemma vadd_assoc a b c : vadd (vadd a b) c = vadd a (vadd b c).
  Proof.
    unfold vadd. revert b c. induction a as [|x a IH]; intros [|y b] [|w c]; cbn; auto. f_equal; [ring|apply IH].
  Qed.
  Lemma vscale_1 a : vscale r1 a = a.
  Proof. unfold vscale. induction a as [|x a IH]; cbn; [reflexivity|]. f_equal; [ring|exact IH]. Qed.
  Lemma vscale_len s a : length (vscale s a) = length a.
  Proof. apply map_length. Qed.
  Lemma wgrad_len n objs s l s' : plays n objs s l s' -> length (wgrad n objs l) = n.
  Proof.
    induction 1 as [|w f objs s v d s1 l s' Ld Hf _ IH]; [apply repeat_length|].
    unfold wgrad in *. cbn [map combine fold_right fst snd]. rewrite vadd_len, vscale_len, IH, Ld. lia.
  Qed.

  (** The value is the weighted sum of the values; if all weights are one, the gradient
      is the gradient of that sum. *)
  Theorem C99_unit : forall n objs s l s', plays n objs s l s' -> Forall (fun p => fst p = r1) objs ->
    objective_eval n objs true s = Ok (wsum objs l, wgrad n objs l, s').
  Proof.
    intros n objs s l s' HP HW. unfold objective_eval.
    assert (H : forall out g, length g = n -> eval_list objs true out g s = Ok (out +! wsum objs l, vadd g (wgrad n objs l), s')).
    { clear - HP HW. induction HP as [s|w f objs s v d s1 l s' Ld Hf HP IH]; intros out g Lg; cbn [eval_list].
      - unfold wsum, wgrad. cbn. rewrite vadd_0 by auto. do 3 f_equal. ring.
      - pose proof (Forall_inv HW) as Ew. pose proof (Forall_inv_tail HW) as HW'. cbn [fst] in Ew. subst w. rewrite Hf by auto. cbn [obind].
        rewrite IH; auto.
        + unfold wsum, wgrad. cbn [map combine fold_right fst snd]. rewrite vscale_1, vadd_assoc. do 3 f_equal. ring.
        + rewrite vadd_len. rewrite Lg, Ld. apply Nat.min_id. }
    rewrite H by apply repeat_length. rewrite vadd_0l by (eapply wgrad_len; eauto). do 3 f_equal. ring.
  Qed.

  (** Whatever the weights are, the value is right. *)
  Theorem C99_value : forall n objs s l s', plays n objs s l s' ->
    exists g, objective_eval n objs true s = Ok (wsum objs l, g, s').
  Proof.
    intros n objs s l s' HP. unfold objective_eval.
    assert (H : forall out g, length g = n -> exists g', eval_list objs true out g s = Ok (out +! wsum objs l, g', s')).
    { clear - HP. induction HP as [s|w f objs s v d s1 l s' Ld Hf HP IH]; intros out g Lg; cbn [eval_list].
      - unfold wsum. cbn. exists g. do 3 f_equal. ring.
      - rewrite Hf by auto. cbn [obind]. destruct (IH (out +! w *! v) (vadd g d)) as (g' & E).
        + rewrite vadd_len. rewrite Lg, Ld. apply Nat.min_id.
        + exists g'. rewrite E. unfold wsum. cbn [map combine fold_right fst snd]. do 3 f_equal. ring. }
    destruct (H r0 (repeat r0 n) (repeat_length _ _)) as (g & E). exists g. rewrite E. do 3 f_equal. ring.
  Qed.
End Sums.

(** A weight other than one is not applied to the gradient: twice x^2 at x = 3. *)
Definition sq3 : objfun (R := Zring) unit := fun want g s => Ok (9%Z, if want then vadd (R := Zring) g [6%Z] else g, s).
Theorem C99_weight_refuted : exists n (objs : list (Z * objfun (R := Zring) unit)) s l s',
  plays (R := Zring) n objs s l s' /\
  exists v g, objective_eval (R := Zring) n objs true s = Ok (v, g, s') /\ v = wsum (R := Zring) objs l /\ g <> wgrad (R := Zring) n objs l.
Proof.
  exists 1, [(2%Z, sq3)], tt, [(9%Z, [6%Z])], tt. split.
  - econstructor; [reflexivity|intros g _; reflexivity|constructor].
  - eexists _, _. split; [vm_compute; reflexivity|]. split; [reflexivity|]. vm_compute. discriminate.
Qed.
Example C99_ex : exists l, plays (R := Zring) 1 [(1%Z, sq3); (1%Z, sq3)] tt l tt /\
  objective_eval (R := Zring) 1 [(1%Z, sq3); (1%Z, sq3)] true tt = Ok (18%Z, [12%Z], tt).
Proof.
  exists [(9%Z, [6%Z]); (9%Z, [6%Z])]. split; [|vm_compute; reflexivity].
  econstructor; [reflexivity|intros g _; reflexivity|]. econstructor; [reflexivity|intros g _; reflexivity|constructor].
Qed.

(** The least squares objective is no summand of the kind above: with another objective
    before it, it also divides the gradient of that one by the number of samples. *)
Definition exInit := aio_init (R := Zring) (F := unit) (GPw tt) pev pbas true exGp 2 (d_x exData) (repeat 0%Z 40).
Definition exLs := aio_least_squares (R := Zring) (F := unit) nobad (GPw tt) pev (fun u y => (pev u y, pbas u y)) zdiv true 20 (fp_params exGp) 2 None exData exW.
Definition exReg := aio_regularizer (R := Zring) (F := unit) (GPw tt) pev zsq zsg 5%Z.
Theorem C99_order_refuted : exists o v1 g1 v2 g2 v g s,
  exInit = Ok o /\
  (do (v1, g1, _) <- objective_eval (R := Zring) 20 [(1%Z, exLs)] true (exGp, o); Ok (v1, g1)) = Ok (v1, g1) /\
  (do (v2, g2, _) <- objective_eval (R := Zring) 20 [(1%Z, exReg)] true (exGp, o); Ok (v2, g2)) = Ok (v2, g2) /\
  objective_eval (R := Zring) 20 [(1%Z, exReg); (1%Z, exLs)] true (exGp, o) = Ok (v, g, s) /\
  v = (v1 + v2)%Z /\ g <> vadd (R := Zring) g1 g2.
Proof.
  eexists _, _, _, _, _, _, _, _. split; [vm_compute; reflexivity|]. split; [vm_compute; reflexivity|].
  split; [vm_compute; reflexivity|]. split; [vm_compute; reflexivity|]. split; [reflexivity|]. vm_compute. discriminate.
Qed.

Print Assumptions C95_real.
Print Assumptions C95_dim1_refuted.
Print Assumptions C99_unit.
Print Assumptions C99_value.
Print Assumptions C99_weight_refuted.
Print Assumptions C99_order_refuted.
