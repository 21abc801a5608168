(** Property C66: the second derivatives of a function train with respect to its
    parameters, times a vector. *)
From Verif Require Import HessRun PropParam FTRealDeriv Instances RealInst.
From Coq Require Import Reals Lra ZArith.
Open Scope nat_scope.

Section Spec.
  Context {R : CRing} {F : Type}.
  Open Scope cr_scope.
  Add Ring Rr46 : (rth R).
  Notation G := (gfn R F).

  (** [v] is the value at [x] of the train whose parameters have been set to [th] *)
  Definition value_at (z : G) (ev : G -> R -> R) (ftp : ftparam R (evU z ev)) x (th : list R) (v : R) : Prop :=
    exists f' : ftrain (evU z ev), ft_update nobad r0 (fp_ft ftp) th = Ok (fp_nparams ftp, f') /\ train_value f' x = v.

  (** [H m n] is the mixed second difference of the value: changing parameter [m]
      by [s] and parameter [n] by [t] has, beyond the two separate changes, the
      effect [s * t * H m n].  For functions that are linear in their parameters
      this is the mixed second derivative, for all [m] and [n]. *)
  Definition mixed (z : G) (ev : G -> R -> R) (ftp : ftparam R (evU z ev)) x (H : nat -> nat -> R) : Prop :=
    forall m n s t, m < fp_nparams ftp -> n < fp_nparams ftp ->
      let th := fp_params ftp in
      exists v00 v10 v01 v11, value_at z ev ftp x th v00 /\
        value_at z ev ftp x (upd th m (nth m th r0 +! s)) v10 /\
        value_at z ev ftp x (upd th n (nth n th r0 +! t)) v01 /\
        (let th' := upd th n (nth n th r0 +! t) in value_at z ev ftp x (upd th' m (nth m th' r0 +! s)) v11) /\
        v11 -! v10 -! v01 +! v00 = s *! t *! H m n.

  (** The buffer holds the product of the second derivatives with the vector *)
  Definition exact_hessvec (z : G) (ev : G -> R -> R) (ftp : ftparam R (evU z ev)) x (vec hv hv' : list R) : Prop :=
    length hv' = length hv /\
    (forall p, fp_nparams ftp <= p -> nth_error hv' p = nth_error hv p) /\
    exists H, mixed z ev ftp x H /\
      forall p, p < fp_nparams ftp -> nth_error hv' p = Some (sum (fp_nparams ftp) (fun n => H p n *! nth n vec r0)).

  Theorem C66_hessvec : forall (z : G) ev bas (ftp : ftparam R (evU z ev)) x vec hv,
    linear_in_params ev bas -> ftp_ok ftp -> length x = fp_dim ftp ->
    length (fp_npu ftp) <= fp_nparams ftp ->
    fp_nparams ftp <= length vec -> fp_nparams ftp <= length hv ->
    exists v hv', ftp_hessvec (fun u y => (ev u y, bas u y)) ftp x vec hv = Ok (v, hv') /\
      exact_hessvec z ev ftp x vec hv hv'.
  Proof.
    intros z ev bas ftp x vec hv HL O Lx Ln Lv Lh.
    assert (Dd : fp_dim ftp = ft_dim (fp_ft ftp)) by apply O.
    assert (Lf : length (flat_map fs (ft_cores (fp_ft ftp))) <= fp_nparams ftp) by (refine (Nat.le_trans _ _ _ (Nat.eq_le_incl _ _ (eq_sym (npu_length ftp O))) Ln)).
    destruct (hessvec_ok z ev bas ftp O HL x (eq_trans Lx Dd) vec hv Lf Lv Lh) as (v & hv' & E & L' & K & H & HS & HV).
    exists v, hv'. split; [exact E|]. split; [exact L'|]. split; [exact K|]. exists H. split; [|exact HV].
    intros m n s t Hm Hn th.
    assert (EN : fp_nparams ftp = length (train_params (fp_ft ftp))) by apply O.
    assert (EP : fp_params ftp = train_params (fp_ft ftp)) by apply O.
    assert (VA : forall th', length th' = fp_nparams ftp -> value_at z ev ftp x th' (tval z ev ftp x th')).
    { intros th' L. exists (ft_with (fp_ft ftp) th'). split; [|reflexivity]. rewrite EN. apply update_is_with; [apply O|]. lia. }
    assert (Lt : length th = fp_nparams ftp) by (unfold th; rewrite EP, EN; reflexivity).
    eexists _, _, _, _. split; [exact (VA th Lt)|]. split; [apply VA; now rewrite upd_length|]. split; [apply VA; now rewrite upd_length|].
    split; [apply VA; now rewrite !upd_length|].
    exact (HS m n s t Hm Hn).
  Qed.

  (** The value that is returned is never computed *)
  Theorem C66_value_zero : forall U (pge : U -> R -> R * list R) ftp x vec hv v hv',
    ftp_hessvec pge ftp x vec hv = Ok (v, hv') -> v = r0.
  Proof.
    intros U pge ftp x vec hv v hv' E. unfold ftp_hessvec in E.
    apply obind_ok in E. destruct E as (a & _ & E). apply obind_ok in E. destruct E as ([b c] & _ & E).
    apply obind_ok in E. destruct E as (e & _ & E). apply obind_ok in E. destruct E as ([[[[k1 k2] k3] k4] k5] & _ & E). congruence.
  Qed.
End Spec.

(** The train of C63: its Hessian at (2, 3, -1) times a vector. *)
Definition exHv : list Z := [1; -1; 2; 0; 3; 1; -2; 1; 0; 1; 1; -1; 2; 1; 0; 4; 1; -3; 1; 2]%Z.
Definition exHx : list Z := [2; 3; -1]%Z.
Definition exHval (th : list Z) : option Z :=
  match ft_update nobad (0%Z : Zring) exG th with
  | Ok (_, f') => Some (train_value (U := evU (R := Zring) (GPw tt) pev) f' exHx) | _ => None end.
(** Independently: the mixed second differences, computed from values alone *)
Definition exHent (m n : nat) : Z :=
  let th := fp_params exGp in
  let b m th := upd th m (nth m th 0%Z + 1)%Z in
  match exHval (b m (b n th)), exHval (b m th), exHval (b n th), exHval th with
  | Some a, Some b, Some c, Some d => (a - b - c + d)%Z | _, _, _, _ => 0%Z end.
Example C66_ex :
  exists hv', ftp_hessvec (R := Zring) (fun u y => (pev u y, pbas u y)) exGp exHx exHv (repeat 100%Z 21) = Ok (0%Z, hv') /\
    hv' = map (fun p => fold_right Z.add 0%Z (map (fun n => (exHent p n * nth n exHv 0)%Z) (seq 0 20))) (seq 0 20) ++ [100%Z] /\
    hv' <> repeat 0%Z 20 ++ [100%Z].
Proof. eexists. split; [vm_compute; reflexivity|]. split; [vm_compute; reflexivity|]. vm_compute. discriminate. Qed.
Example C66_ex_hyps : linear_in_params (R := Zring) (F := unit) pev pbas /\ ftp_ok exGp /\ length exHx = fp_dim exGp /\
  length (fp_npu exGp) <= fp_nparams exGp /\ fp_nparams exGp <= length exHv /\ fp_nparams exGp <= length (repeat 100%Z 21).
Proof. split; [exact C63_power_linear|]. split; [exact C63_ex_ok|]. cbn. lia. Qed.

(** The documentation says that the evaluation is returned *)
Theorem C66_value_refuted : exists (z : gfn Zring unit) ev bas (ftp : ftparam Zring (evU (R := Zring) z ev)) x vec hv v hv',
  linear_in_params ev bas /\ ftp_ok ftp /\ length x = fp_dim ftp /\ length (fp_npu ftp) <= fp_nparams ftp /\
  fp_nparams ftp <= length vec /\ fp_nparams ftp <= length hv /\
  ftp_hessvec (R := Zring) (fun u y => (ev u y, bas u y)) ftp x vec hv = Ok (v, hv') /\
  v <> train_value (U := evU (R := Zring) z ev) (fp_ft ftp) x.
Proof.
  destruct C66_ex as (hv' & E & _). destruct C66_ex_hyps as (H1 & H2 & H3 & H4 & H5 & H6).
  exists (GPw tt), pev, pbas, exGp, exHx, exHv, (repeat 100%Z 21), 0%Z, hv'.
  do 7 (split; [assumption|]). change (0%Z <> train_value (U := evU (R := Zring) (GPw tt) pev) exG [2; 3; -1]%Z).
  rewrite (proj2 C63_ex). discriminate.
Qed.

(** A function without parameters has no room in the array of values: here a
    core of piecewise polynomials, which have none, before a core with one. *)
Definition exHp : ftparam Zring (gfn Zring unit) :=
  mkftp (R := Zring) (mkft 2 [1; 1; 1] [mkq 1 1 [GPw tt]; mkq 1 1 [gp [2]%Z]]) 2 [0; 1] [0; 1] 1 ([2]%Z : list Zring).
Example C66_exp_ok : ftp_ok exHp.
Proof.
  split; [|split].
  - unfold ft_wf, chain, qwf. simpl. repeat split; auto; lia.
  - split; [reflexivity|]. repeat constructor.
  - repeat (split; [reflexivity|]). reflexivity.
Qed.
Theorem C66_overflow_refuted : exists (z : gfn Zring unit) ev bas (ftp : ftparam Zring (evU (R := Zring) z ev)) x vec hv,
  linear_in_params ev bas /\ ftp_ok ftp /\ length x = fp_dim ftp /\
  fp_nparams ftp <= length vec /\ fp_nparams ftp <= length hv /\
  ftp_hessvec (R := Zring) (fun u y => (ev u y, bas u y)) ftp x vec hv = UB.
Proof.
  exists (GPw tt), pev, pbas, exHp, [1; 1]%Z, [1%Z], [0%Z].
  split; [exact C63_power_linear|]. split; [exact C66_exp_ok|]. repeat (split; [cbn; auto|]). vm_compute. reflexivity.
Qed.

(** For functions that are not linear in their parameters the blocks on the
    diagonal are missing.  The train is p^2 q^2 with constant functions of each
    variable, p = q = 1; along p its second derivative is 2, but the product
    with (1, 0) has 0 there. *)
Definition gr (l : list R) : gfn Rring unit := GPoly tt (length l) (length l) l.
Definition exHn : ftparam Rring (gfn Rring unit) :=
  mkftp (R := Rring) (mkft 2 [1; 1; 1] [mkq 1 1 [gr [1]%R]; mkq 1 1 [gr [1]%R]]) 2 [1; 1] [1; 1] 2 ([1; 1]%R : list Rring).
Example C66_exn_ok : ftp_ok exHn.
Proof.
  split; [|split].
  - unfold ft_wf, chain, qwf. simpl. repeat split; auto; lia.
  - split; [reflexivity|]. repeat constructor.
  - repeat (split; [reflexivity|]). reflexivity.
Qed.
Theorem C66_nonlinear_refuted : exists (z : gfn Rring unit) ev (pge : gfn Rring unit -> R -> R * list R)
    (ftp : ftparam Rring (evU (R := Rring) z ev)) x vec hv,
  (forall u y, gf_wf u -> fst (pge u y) = ev u y /\ length (snd (pge u y)) = length (gf_params u) /\
     forall l v g (fam : R -> gfn Rring unit), nth_error (gf_params u) l = Some v -> nth_error (snd (pge u y)) l = Some g ->
       (forall t, gf_update nobad (0%R : Rring) u (length (gf_params u)) (upd (gf_params u) l t) 0 = Ok (fam t)) ->
       derivable_pt_lim (fun t => ev (fam t) y) v g) /\
  ftp_ok ftp /\ length x = fp_dim ftp /\ length (fp_npu ftp) <= fp_nparams ftp /\
  fp_nparams ftp <= length vec /\ fp_nparams ftp <= length hv /\
  vec = [1; 0]%R /\
  exists v hv' (fam : R -> ftrain (evU (R := Rring) z ev)) g,
    ftp_hessvec (R := Rring) pge ftp x vec hv = Ok (v, hv') /\
    (forall t, ft_update nobad (0%R : Rring) (fp_ft ftp) (upd (fp_params ftp) 0 t) = Ok (fp_nparams ftp, fam t)) /\
    (forall t, derivable_pt_lim (fun t => train_value (fam t) x) t (g t)) /\
    derivable_pt_lim g 1%R 2%R /\ nth_error (fp_params ftp) 0 = Some 1%R /\ nth_error hv' 0 = Some 0%R.
Proof.
  exists (GPw tt), sev, spge, exHn, [0; 0]%R, [1; 0]%R, [5; 5]%R.
  split; [exact C63_ex_nonlinear|]. split; [exact C66_exn_ok|]. do 4 (split; [cbn; auto|]). split; [reflexivity|].
  eexists _, _, (fun t => ft_with (fp_ft exHn) [t; 1%R]), (fun t => 2 * t)%R.
  split. { lazy -[Rplus Rmult Ropp IZR pow]. reflexivity. }
  split. { intros t. lazy -[Rplus Rmult Ropp IZR pow]. reflexivity. }
  split.
  { intros t. apply (derivable_pt_lim_ext (fun t => t * t)%R).
    - intros s. lazy -[Rplus Rmult Ropp IZR]. ring.
    - replace (2 * t)%R with (1 * t + t * 1)%R by ring. apply (derivable_pt_lim_mult id id); apply derivable_pt_lim_id. }
  split. { pose proof (derivable_pt_lim_scal id 2 1 1 (derivable_pt_lim_id 1)) as D. rewrite Rmult_1_r in D. exact D. }
  split; [reflexivity|]. cbn [nth_error]. f_equal. ring.
Qed.

Print Assumptions C66_hessvec.
Print Assumptions C66_value_zero.
Print Assumptions C66_value_refuted.
Print Assumptions C66_overflow_refuted.
Print Assumptions C66_nonlinear_refuted.
