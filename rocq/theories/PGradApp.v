(** ft_param_gradeval, ft_param_gradeval_lin and ft_param_eval_lin. *)
From Verif Require Export PGradTrain.

Lemma nth_error_splice {A} off (p l : list A) i : off + length p <= length l ->
  nth_error (splice off p l) i =
  if (off <=? i) && (i <? off + length p) then nth_error p (i - off) else nth_error l i.
Proof.
  intros H. unfold splice. assert (Lf : length (firstn off l) = off) by (rewrite firstn_length; lia).
  destruct (Nat.leb_spec off i), (Nat.ltb_spec i (off + length p)); cbn [andb]; try lia.
  - rewrite nth_error_app2 by lia. rewrite Lf. apply nth_error_app1. lia.
  - rewrite nth_error_app2 by lia. rewrite Lf, nth_error_app2 by lia.
    rewrite <- (firstn_skipn (off + length p) l) at 2.
    assert (length (firstn (off + length p) l) = off + length p) by (rewrite firstn_length; lia).
    rewrite nth_error_app2 by lia. f_equal. lia.
  - rewrite nth_error_app1 by lia. apply nth_error_firstn. lia.
Qed.

(** The values of the basis functions of every univariate function, in the order
    of the parameters: functions of core [k] at coordinate [k]. *)
Fixpoint basis_blocks {A B C} (bas : A -> B -> list C) (cs : list (qma A)) (x : list B) : list (list C) :=
  match cs, x with
  | c :: cs', y :: x' => map (fun u => bas u y) (fs c) ++ basis_blocks bas cs' x'
  | _, _ => []
  end.

Lemma basis_blocks_nth {A B C} (bas : A -> B -> list C) cs x k c y p u :
  nth_error cs k = Some c -> nth_error x k = Some y -> nth_error (fs c) p = Some u ->
  nth_error (basis_blocks bas cs x) (length (flat_map fs (firstn k cs)) + p) = Some (bas u y).
Proof.
  revert cs x. induction k as [|k IH]; intros [|c0 cs] [|y0 x] Ec Ey Eu; try discriminate.
  - injection Ec as ->. injection Ey as ->. cbn [firstn flat_map length Nat.add basis_blocks].
    rewrite nth_error_app1.
    + exact (map_nth_error (fun u => bas u y) p (fs c) Eu).
    + rewrite map_length. apply nth_error_Some. congruence.
  - cbn [nth_error] in *. cbn [firstn flat_map basis_blocks]. rewrite app_length.
    rewrite nth_error_app2 by (rewrite map_length; lia). rewrite map_length.
    replace (length (fs c0) + length (flat_map fs (firstn k cs)) + p - length (fs c0))
      with (length (flat_map fs (firstn k cs)) + p) by lia. now apply IH.
Qed.

Lemma concat_nth {A} (L : list (list A)) sz q b l :
  nth_error L q = Some b -> l < length b -> (forall q b, nth_error L q = Some b -> sz q = length b) ->
  nth_error (concat L) (offs sz q + l) = nth_error b l.
Proof.
  revert sz q. induction L as [|a L IH]; intros sz q E Hl H; [destruct q; discriminate|].
  destruct q as [|q]; cbn [nth_error concat] in *.
  - injection E as ->. cbn [offs Nat.add]. now apply nth_error_app1.
  - assert (Eo : forall n, offs sz (S n) = length a + offs (fun q => sz (S q)) n).
    { induction n as [|n IHn]; cbn [offs] in *.
      - rewrite (H 0 a) by reflexivity. lia.
      - rewrite IHn. lia. }
    rewrite Eo, nth_error_app2 by lia.
    replace (length a + offs (fun q => sz (S q)) q + l - length a) with (offs (fun q => sz (S q)) q + l) by lia.
    apply IH; auto.
Qed.

Section App.
  Context {R : CRing} {F : Type}.
  Open Scope cr_scope.
  Add Ring Rr30 : (rth R).

  (** A consistent parameterized train: the counts and the parameters are those
      of the train. *)
  Definition ftp_ok (ftp : ftparam R (gfn R F)) : Prop :=
    let f := fp_ft ftp in
    ft_wf f /\ ft_ok f /\ fp_dim ftp = ft_dim f /\
    fp_npu ftp = map (fun u => length (gf_params u)) (flat_map fs (ft_cores f)) /\
    fp_npc ftp = map (fun c => length (flat_map gf_params (fs c))) (ft_cores f) /\
    fp_nparams ftp = length (flat_map (fun c => flat_map gf_params (fs c)) (ft_cores f)) /\
    fp_params ftp = flat_map (fun c => flat_map gf_params (fs c)) (ft_cores f).

  Variable z : gfn R F.
  Variable ev : gfn R F -> R -> R.
  Let U := evU z ev.
  Variable ftp : ftparam R U.
  Hypothesis Ok_ : ftp_ok ftp.
  Variable x : list R.
  Let f := fp_ft ftp.
  Hypothesis Hx : length x = ft_dim f.

  Let d := ft_dim f.
  Let r := frk f.
  Let M := fM f (fun k g => uev g (nth k x r0)).
  Let funs := flat_map fs (ft_cores f).
  Let np q := nth q (map gf_num funs) 0.
  Let EO := offs (fun q => r q * r (S q)).
  Let SO := offs (fun q => r (S q)).
  Let PO := offs np.

  Lemma pa_wf : ft_wf f. Proof. apply Ok_. Qed.
  Lemma pa_ok : ft_ok f. Proof. apply Ok_. Qed.
  Lemma pa_npu : fp_npu ftp = map gf_num funs.
  Proof.
    destruct Ok_ as (_ & O & _ & E & _). etransitivity; [exact E|]. fold f funs.
    pose proof (funs_wf f O) as W. change (ft_funs f) with funs in W.
    apply map_ext_in. intros u Hu. apply gf_params_length. rewrite Forall_forall in W. now apply W.
  Qed.
  Lemma pa_npuq q : nth q (fp_npu ftp) 0 = np q.
  Proof. rewrite pa_npu. reflexivity. Qed.
  Lemma pa_PO q : offs (fun q => nth q (fp_npu ftp) 0) q = PO q.
  Proof. apply offs_ext. intros. apply pa_npuq. Qed.
  Lemma pa_dim : fp_dim ftp = d. Proof. apply Ok_. Qed.
  Lemma pa_rk k : k <= d -> aget (ft_ranks f) k = Ok (r k).
  Proof.
    intros H. apply aget_ok. destruct (Nat.eq_dec k d) as [->|].
    - unfold r, d. rewrite frk_d by apply pa_wf. apply wf_rankd, pa_wf.
    - apply canon_core; [apply pa_wf|]. unfold d in *; lia.
  Qed.
  Lemma pa_pos k : k <= d -> 0 < r k.
  Proof.
    intros H. destruct (Nat.eq_dec k d) as [->|].
    - unfold r, d. rewrite frk_d by apply pa_wf. lia.
    - apply canon_core; [apply pa_wf|]. unfold d in *; lia.
  Qed.
  Lemma pa_EOd : EO d = length funs.
  Proof. symmetry. apply funs_total, pa_wf. Qed.
  Lemma pa_POl q : q <= length funs -> PO q = lnum (firstn q funs).
  Proof. apply offs_lnum. Qed.
  Lemma pa_flat : flat_map (fun c => flat_map gf_params (fs c)) (ft_cores f) = lparams funs.
  Proof.
    unfold lparams, funs. induction (ft_cores f) as [|c l IH]; cbn [flat_map]; auto. now rewrite flat_map_app, IH.
  Qed.
  Lemma pa_funswf : Forall gf_wf funs. Proof. exact (funs_wf f pa_ok). Qed.
  Lemma pa_lnum : lnum funs = fp_nparams ftp.
  Proof.
    destruct Ok_ as (W & O & _ & _ & _ & E & _). etransitivity; [|symmetry; exact E].
    rewrite <- lparams_length by apply pa_funswf. f_equal. symmetry. exact pa_flat.
  Qed.
  Lemma pa_POd : PO (EO d) = fp_nparams ftp.
  Proof. rewrite pa_EOd, pa_POl by auto. rewrite firstn_all. apply pa_lnum. Qed.
  Lemma pa_params : fp_params ftp = lparams funs.
  Proof. destruct Ok_ as (_ & _ & _ & _ & _ & _ & E). etransitivity; [exact E|]. exact pa_flat. Qed.

  Lemma pa_npc k : k < d -> aget (fp_npc ftp) k = Ok (PO (EO (S k)) - PO (EO k)).
  Proof.
    intros Hk. apply aget_ok. destruct Ok_ as (W & O & _ & _ & E & _). etransitivity; [apply (f_equal (fun l => nth_error l k) E)|]. fold f.
    destruct (canon_core f k W Hk) as (Ec & Q & N & C & _).
    rewrite (map_nth_error _ _ _ Ec). f_equal.
    assert (H1 : forall j, j <= d -> PO (EO j) = lnum (flat_map fs (firstn j (ft_cores f)))).
    { intros j Hj. rewrite pa_POl.
      - unfold EO, r. rewrite <- (funs_len f W j Hj). f_equal. unfold funs.
        rewrite <- (firstn_skipn j (ft_cores f)) at 2. rewrite flat_map_app, firstn_app, Nat.sub_diag.
        cbn [firstn]. rewrite app_nil_r. apply firstn_all.
      - rewrite <- pa_EOd. apply offs_mono. auto. }
    rewrite !H1 by lia. rewrite (firstn_S_nth _ _ _ Ec), flat_map_app. cbn [flat_map]. rewrite app_nil_r.
    assert (HL : lnum (flat_map fs (firstn k (ft_cores f)) ++ fs (fco f k))
                 = lnum (flat_map fs (firstn k (ft_cores f))) + lnum (fs (fco f k))) by exact (lnum_app _ _).
    rewrite HL. change (flat_map gf_params (fs (fco f k))) with (lparams (fs (fco f k))).
    rewrite lparams_length; [lia|].
    destruct O as [_ O]. rewrite Forall_forall in O. apply O. eapply nth_error_In, Ec.
  Qed.

  (** One function: its place in the train and in the parameter array. *)
  Lemma pa_fun k i j : k < d -> i < r k -> j < r (S k) ->
    exists u, nth_error (fs (fco f k)) (j * r k + i) = Some u /\
      nth_error funs (EO k + (j * r k + i)) = Some u /\ gf_wf u /\
      np (EO k + (j * r k + i)) = gf_num u /\ M k i j = ev u (nth k x r0) /\
      EO k + (j * r k + i) < EO d.
  Proof.
    intros Hk Hi Hj.
    destruct (fM_entry f (fun k g => uev g (nth k x r0)) k i j pa_wf Hk Hi Hj) as (u & Eu & Vu).
    fold r in Eu. exists u. assert (Hp : j * r k + i < r k * r (S k)) by nia.
    assert (Eu' : nth_error funs (EO k + (j * r k + i)) = Some u) by (rewrite <- Eu; apply funs_nth; auto using pa_wf).
    repeat split; auto.
    - pose proof (funs_wf f pa_ok) as W. rewrite Forall_forall in W. apply W. eapply nth_error_In, Eu'.
    - unfold np. apply nth_error_nth. apply map_nth_error. exact Eu'.
    - rewrite pa_EOd. apply nth_error_Some. congruence.
  Qed.

  Lemma pa_core k : k < d -> aget (ft_cores f) k = Ok (fco f k).
  Proof. intros H. apply aget_ok. apply canon_core; auto. apply pa_wf. Qed.

  (** Values of a family, one block per function. *)
  Lemma pa_target (G : nat -> nat -> nat -> nat -> R) :
    exists TG : nat -> R, forall k i j l, k < d -> i < r k -> j < r (S k) -> l < np (EO k + (j * r k + i)) ->
      TG (PO (EO k + (j * r k + i)) + l) = G k i j l.
  Proof.
    destruct (flat_target (fun _ => r0) (fun q => r q * r (S q)) (fun q p => G q (p mod r q) (p / r q)) d) as [TF HTF].
    destruct (flat_target r0 np TF (EO d)) as [TG HTG].
    exists TG. intros k i j l Hk Hi Hj Hl. fold PO in HTG. destruct (pa_fun k i j Hk Hi Hj) as (_ & _ & _ & _ & _ & _ & B).
    rewrite HTG by auto. fold EO in HTF. rewrite HTF by nia. now rewrite idx_mod, idx_div.
  Qed.

  (** What the gradient array contains. *)
  Definition grad_is (grad0 grad : list R) (G : gfn R F -> R -> list R) : Prop :=
    length grad = length grad0 /\
    (forall n, fp_nparams ftp <= n -> nth_error grad n = nth_error grad0 n) /\
    (forall n v, nth_error (fp_params ftp) n = Some v ->
       exists w k u l, k < d /\ In u funs /\ gf_wf u /\ nth_error (gf_params u) l = Some v /\
         nth_error grad n = Some (w *! nth l (G u (nth k x r0)) r0) /\
         forall t, train_value (ft_with f (upd (fp_params ftp) n t) : ftrain U) x
                   = train_value f x +! w *! (ev (gf_with u (upd (gf_params u) l t)) (nth k x r0) -! ev u (nth k x r0))).

  Lemma grad_is_intro grad0 grad G TG :
    (forall k i j l u, k < d -> i < r k -> j < r (S k) -> nth_error funs (EO k + (j * r k + i)) = Some u -> l < gf_num u ->
       TG (PO (EO k + (j * r k + i)) + l) = nth l (G u (nth k x r0)) r0) ->
    length grad = length grad0 ->
    (forall k i j l, k < d -> i < r k -> j < r (S k) -> l < np (EO k + (j * r k + i)) ->
         nth_error grad (PO (EO k + (j * r k + i)) + l) =
         Some (pgw d r M k i j *! TG (PO (EO k + (j * r k + i)) + l))) ->
    (forall p, PO (EO d) <= p -> nth_error grad p = nth_error grad0 p) ->
    grad_is grad0 grad G.
  Proof.
    intros HT HL H1 H2. split; auto. split. { rewrite <- pa_POd. auto. }
    intros n v Ev. rewrite pa_params in Ev. assert (W := funs_wf f pa_ok). change (ft_funs f) with funs in W.
    assert (Hn : n < lnum funs). { rewrite <- lparams_length by auto. apply nth_error_Some. congruence. }
    destruct (param_locate z ev f pa_wf pa_ok x Hx n Hn) as (k & i & j & u & l & Hk & Hi & Hj & Eu & Eu' & Wu & Hl & Enp & En).
    change (nth_error funs (EO k + (j * r k + i)) = Some u) in Eu'.
    change (np (EO k + (j * r k + i)) = gf_num u) in Enp.
    change (n = PO (EO k + (j * r k + i)) + l) in En.
    exists (pgw d r M k i j), k, u, l. repeat split; auto.
    - eapply nth_error_In, Eu'.
    - rewrite <- Ev, En, pa_POl.
      + symmetry. apply lparams_nth; auto.
      + assert (EO k + (j * r k + i) < length funs) by (apply nth_error_Some; congruence). lia.
    - rewrite En, H1 by (auto; rewrite Enp; auto). f_equal. f_equal. now apply HT.
    - intros t. rewrite pa_params. exact (param_change z ev f pa_wf pa_ok x Hx n t Hn k i j u l Hk Hi Hj Eu' Hl En).
  Qed.

  (** ** ft_param_gradeval *)
  Theorem gradeval_ok (pge : U -> R -> R * list R) grad ge mem evals :
    (forall u y, gf_wf u -> fst (pge u y) = ev u y /\ length (snd (pge u y)) = length (gf_params u)) ->
    2 <= d -> fp_nparams ftp <= length grad -> fp_nparams ftp <= length ge ->
    length funs <= length mem -> length funs <= length evals ->
    exists grad' ge' mem' evals',
      ftp_gradeval pge ftp x grad ge mem evals = Ok (train_value f x, grad', mem', evals', ge') /\
      grad_is grad grad' (fun u y => snd (pge u y)).
  Proof.
    intros Hpge Hd2 Lg Lge Lm Le.
    destruct (pa_target (fun k i j l =>
      match nth_error funs (EO k + (j * r k + i)) with
      | Some u => nth l (snd (pge u (nth k x r0))) r0 | None => r0 end)) as [TG HTG].
    unfold ftp_gradeval. fold f. rewrite pa_dim.
    match goal with |- context [pg_gradeval _ _ _ _ ?e _ _ _ _] => set (evf := e) end.
    assert (HSE : SO d <= EO d).
    { unfold SO, EO. assert (H : forall n, n <= d -> offs (fun q => r (S q)) n <= offs (fun q => r q * r (S q)) n).
      { induction n as [|n IH]; intros Hn; cbn [offs]; [lia|]. specialize (IH ltac:(lia)).
        pose proof (pa_pos n ltac:(lia)). nia. }
      apply H. lia. }
    destruct (pg_gradeval_ok d r (ft_ranks f) (fp_npu ftp) (fp_npc ftp) M TG
      (fun q l => length l = length ge /\ pre l (PO q) TG) evf) with (grad := grad) (ge := ge) (mem := mem) (ev := evals)
      as (grad' & mem' & ev' & ge' & E & L1 & L2 & L3 & [L4 G4] & H1 & H2).
    - apply frk_0, pa_wf.
    - apply frk_d, pa_wf.
    - lia.
    - apply pa_rk.
    - apply pa_pos.
    - fold EO. rewrite pa_EOd, pa_npu, map_length. apply Nat.le_refl.
    - intros k Hk. rewrite !pa_PO. now apply pa_npc.
    - intros k i j l Hk Hi Hj [Ll Pl]. rewrite pa_PO. fold EO; fold EO in Pl.
      destruct (pa_fun k i j Hk Hi Hj) as (u & Eu & Eu' & Wu & Enp & EM & B).
      destruct (Hpge u (nth k x r0) Wu) as [Hv Hlen]. rewrite gf_params_length in Hlen by auto.
      unfold evf. rewrite pa_core by auto. cbn [obind]. replace (i + j * r k) with (j * r k + i) by lia.
      rewrite (aget_ok _ _ u) by exact Eu. cbn [obind].
      rewrite (aget_ok x k (nth k x r0)) by (apply nth_error_nth'; unfold d in *; lia). cbn [obind].
      destruct (pge u (nth k x r0)) as [v g] eqn:Ep. cbn [fst snd] in *.
      set (q := EO k + (j * r k + i)) in *.
      assert (PS : PO (S q) = PO q + np q) by reflexivity.
      assert (PM : PO (S q) <= PO (EO d)) by (apply offs_mono; lia). rewrite pa_POd in PM.
      rewrite blit_ok by lia. cbn [obind skipn]. rewrite firstn_all.
      eexists. split; [rewrite EM, <- Hv; reflexivity|]. cbv beta.
      split; [rewrite splice_length; lia|].
      intros p Hp. rewrite nth_error_splice by lia.
      destruct (Nat.leb_spec (PO q) p), (Nat.ltb_spec p (PO q + length g)); cbn [andb]; try lia.
      + replace p with (PO q + (p - PO q)) at 2 by lia. unfold q at 2. rewrite HTG by (auto; fold q; lia).
        fold q. rewrite Eu', Ep. cbn [snd]. apply nth_error_nth'. lia.
      + apply Pl. lia.
    - intros l p [Ll Pl] Hp. rewrite pa_PO in Hp. apply Pl. exact Hp.
    - auto.
    - fold SO. rewrite <- pa_EOd in Lm. lia.
    - fold EO. rewrite pa_EOd. lia.
    - fold EO. rewrite pa_PO, pa_POd. auto.
    - split; auto. intros p Hp. cbn in Hp. lia.
    - exists grad', ge', mem', ev'. split; [rewrite E; do 5 f_equal; symmetry; exact (pt_value z ev f pa_wf x Hx)|].
      apply (grad_is_intro grad grad' _ TG); auto.
      + intros k i j l u Hk Hi Hj Eu Hl. rewrite HTG; auto.
        * now rewrite Eu.
        * destruct (pa_fun k i j Hk Hi Hj) as (u' & _ & Eu' & _ & Enp & _). rewrite Enp. congruence.
      + intros k i j l Hk Hi Hj Hl. specialize (H1 k i j l Hk Hi Hj). rewrite pa_PO, pa_npuq in H1. auto.
      + intros p Hp. apply H2. now rewrite pa_PO.
  Qed.

  (** ** Functions that are linear in their parameters *)
  Variable bas : gfn R F -> R -> list R.
  Hypothesis Hbas : forall u y, gf_wf u ->
    length (bas u y) = length (gf_params u) /\
    ev u y = sum (length (gf_params u)) (fun l => nth l (gf_params u) r0 *! nth l (bas u y) r0).
  Variable ge : list R.
  Hypothesis Hge : firstn (fp_nparams ftp) ge = concat (basis_blocks bas (ft_cores f) x).

  Lemma lin_block k i j u : k < d -> i < r k -> j < r (S k) ->
    nth_error (fs (fco f k)) (j * r k + i) = Some u ->
    nth_error (basis_blocks bas (ft_cores f) x) (EO k + (j * r k + i)) = Some (bas u (nth k x r0)).
  Proof.
    intros Hk Hi Hj Eu. unfold EO, r. rewrite <- (funs_len f pa_wf k) by (unfold d in *; lia).
    destruct (canon_core f k pa_wf Hk) as (Ec & _).
    apply (basis_blocks_nth bas _ _ _ _ _ _ _ Ec); auto. apply nth_error_nth'. unfold d in *; lia.
  Qed.

  Lemma blocks_len q b : nth_error (basis_blocks bas (ft_cores f) x) q = Some b -> q < EO d -> np q = length b.
  Proof.
    intros E Hq. destruct (offs_locate _ _ _ Hq) as (k & p & Hk & Hp & Eq). fold EO in Eq.
    assert (Hrk : 0 < r k) by (apply pa_pos; lia).
    assert (Ep : p / r k * r k + p mod r k = p) by (rewrite (Nat.div_mod p (r k)) at 3 by lia; lia).
    assert (Hi : p mod r k < r k) by (apply Nat.mod_upper_bound; lia).
    assert (Hj : p / r k < r (S k)) by (apply Nat.div_lt_upper_bound; lia).
    destruct (pa_fun k _ _ Hk Hi Hj) as (u & Eu & _ & Wu & Enp & _).
    pose proof (lin_block k _ _ u Hk Hi Hj Eu) as E'. rewrite Ep, <- Eq in E', Enp.
    assert (b = bas u (nth k x r0)) by congruence. subst b.
    rewrite Enp. symmetry. rewrite <- gf_params_length by auto. now apply Hbas.
  Qed.

  Lemma blocks_total : length (basis_blocks bas (ft_cores f) x) = EO d.
  Proof.
    rewrite pa_EOd. unfold funs. assert (L : length x = length (ft_cores f)) by (rewrite Hx; apply pa_wf).
    clear -L. revert L. generalize x as y. generalize (ft_cores f) as cs.
    induction cs as [|c cs IH]; intros [|a y] L; cbn [length] in L; try lia; [reflexivity|].
    cbn [basis_blocks flat_map]. rewrite !app_length, map_length, IH by lia. reflexivity.
  Qed.

  Lemma lin_ge k i j u l : k < d -> i < r k -> j < r (S k) ->
    nth_error (fs (fco f k)) (j * r k + i) = Some u -> l < gf_num u ->
    nth_error ge (PO (EO k + (j * r k + i)) + l) = Some (nth l (bas u (nth k x r0)) r0).
  Proof.
    intros Hk Hi Hj Eu Hl. destruct (pa_fun k i j Hk Hi Hj) as (u' & Eu1 & _ & Wu & Enp & _ & B).
    assert (u' = u) by congruence. subst u'.
    set (q := EO k + (j * r k + i)) in *.
    assert (Hp : PO q + l < fp_nparams ftp).
    { rewrite <- pa_POd. assert (PO (S q) <= PO (EO d)) by (apply offs_mono; lia).
      change (PO (S q)) with (PO q + np q) in H. lia. }
    rewrite <- (nth_error_firstn ge (fp_nparams ftp)) by auto. rewrite Hge.
    destruct (Hbas u (nth k x r0) Wu) as [Lb _]. rewrite gf_params_length in Lb by auto.
    unfold PO. rewrite (concat_nth _ np q (bas u (nth k x r0)) l).
    - apply nth_error_nth'. lia.
    - unfold q. now apply lin_block.
    - lia.
    - intros q' b E. apply blocks_len; auto. rewrite <- blocks_total. apply nth_error_Some. congruence.
  Qed.

  Lemma lin_dot k i j : k < d -> i < r k -> j < r (S k) ->
    ddot (np (EO k + (j * r k + i))) ge (PO (EO k + (j * r k + i))) 1
         (fp_params ftp) (PO (EO k + (j * r k + i))) 1 = Ok (M k i j).
  Proof.
    intros Hk Hi Hj. destruct (pa_fun k i j Hk Hi Hj) as (u & Eu & Eu' & Wu & Enp & EM & B).
    rewrite (ddot_ok _ _ _ _ _ _ _ (fun l => nth l (bas u (nth k x r0)) r0) (fun l => nth l (gf_params u) r0)).
    - f_equal. rewrite EM. destruct (Hbas u (nth k x r0) Wu) as [_ ->].
      rewrite Enp, <- gf_params_length by auto. apply sum_ext. intros l Hl. ring.
    - intros l Hl. rewrite Nat.mul_1_r. apply lin_ge; auto. now rewrite <- Enp.
    - intros l Hl. rewrite Nat.mul_1_r. rewrite pa_params, pa_POl.
      + etransitivity; [apply (lparams_nth funs _ u l pa_funswf Eu'); now rewrite <- Enp|].
        apply nth_error_nth'. rewrite gf_params_length by auto. now rewrite <- Enp.
      + rewrite <- pa_EOd. lia.
  Qed.

  Lemma pa_SE : SO d <= EO d.
  Proof.
    unfold SO, EO. assert (H : forall n, n <= d -> offs (fun q => r (S q)) n <= offs (fun q => r q * r (S q)) n).
    { induction n as [|n IH]; intros Hn; cbn [offs]; [lia|]. specialize (IH ltac:(lia)).
      pose proof (pa_pos n ltac:(lia)). nia. }
    apply H. lia.
  Qed.

  Theorem gradeval_lin_ok grad mem evals :
    2 <= d -> fp_nparams ftp <= length grad ->
    length funs <= length mem -> length funs <= length evals ->
    exists grad' mem' evals',
      ftp_gradeval_lin ftp grad ge mem evals = Ok (train_value f x, grad', mem', evals', ge) /\
      grad_is grad grad' bas.
  Proof.
    intros Hd2 Lg Lm Le.
    destruct (pa_target (fun k i j l =>
      match nth_error funs (EO k + (j * r k + i)) with
      | Some u => nth l (bas u (nth k x r0)) r0 | None => r0 end)) as [TG HTG].
    unfold ftp_gradeval_lin. fold f. rewrite pa_dim.
    match goal with |- context [pg_gradeval _ _ _ _ ?e _ _ _ _] => set (evf := e) end.
    pose proof pa_SE as HSE.
    destruct (pg_gradeval_ok d r (ft_ranks f) (fp_npu ftp) (fp_npc ftp) M TG
      (fun q l => l = ge) evf) with (grad := grad) (ge := ge) (mem := mem) (ev := evals)
      as (grad' & mem' & ev' & ge' & E & L1 & L2 & L3 & -> & H1 & H2).
    - apply frk_0, pa_wf.
    - apply frk_d, pa_wf.
    - lia.
    - apply pa_rk.
    - apply pa_pos.
    - fold EO. rewrite pa_EOd, pa_npu, map_length. apply Nat.le_refl.
    - intros k Hk. rewrite !pa_PO. now apply pa_npc.
    - intros k i j l Hk Hi Hj ->. rewrite pa_PO. fold EO.
      destruct (pa_fun k i j Hk Hi Hj) as (u & Eu & Eu' & Wu & Enp & EM & B).
      unfold evf. rewrite (aget_ok _ _ (np (EO k + (j * r k + i)))).
      2:{ rewrite pa_npu, Enp. apply map_nth_error. exact Eu'. }
      cbn [obind]. rewrite lin_dot by auto. cbn [obind]. eauto.
    - intros l p -> Hp. rewrite pa_PO in Hp. fold EO in Hp.
      destruct (offs_locate _ _ _ Hp) as (q & l & Hq & Hl & Eq). fold PO in Eq.
      destruct (offs_locate _ _ _ Hq) as (k & p' & Hk & Hp' & Eq'). fold EO in Eq'.
      assert (Hrk : 0 < r k) by (apply pa_pos; lia).
      assert (Ep : p' / r k * r k + p' mod r k = p') by (rewrite (Nat.div_mod p' (r k)) at 3 by lia; lia).
      assert (Hi : p' mod r k < r k) by (apply Nat.mod_upper_bound; lia).
      assert (Hj : p' / r k < r (S k)) by (apply Nat.div_lt_upper_bound; lia).
      destruct (pa_fun k _ _ Hk Hi Hj) as (u & Eu & Eu' & Wu & Enp & _).
      specialize (HTG k _ _ l Hk Hi Hj). rewrite Eu' in HTG.
      pose proof (lin_ge k _ _ u l Hk Hi Hj Eu) as HG. rewrite Enp, Ep in *. rewrite <- Eq' in *.
      rewrite Eq, HTG by lia. apply HG. lia.
    - auto.
    - fold SO. rewrite <- pa_EOd in Lm. lia.
    - fold EO. rewrite pa_EOd. lia.
    - fold EO. rewrite pa_PO, pa_POd. auto.
    - reflexivity.
    - exists grad', mem', ev'. split; [rewrite E; do 5 f_equal; symmetry; exact (pt_value z ev f pa_wf x Hx)|].
      apply (grad_is_intro grad grad' _ TG); auto.
      + intros k i j l u Hk Hi Hj Eu Hl. rewrite HTG; auto.
        * now rewrite Eu.
        * destruct (pa_fun k i j Hk Hi Hj) as (u' & _ & Eu' & _ & Enp & _). rewrite Enp. congruence.
      + intros k i j l Hk Hi Hj Hl. specialize (H1 k i j l Hk Hi Hj). rewrite pa_PO, pa_npuq in H1. auto.
      + intros p Hp. apply H2. now rewrite pa_PO.
  Qed.

  (** ** ft_param_eval_lin *)
  Theorem eval_lin_ok mem : length funs <= length mem ->
    exists mem', ftp_eval_lin ftp ge mem = Ok (train_value f x, mem') /\ length mem' = length mem.
  Proof.
    intros Lm. unfold ftp_eval_lin. fold f. assert (Hd : 0 < d) by apply pa_wf.
    assert (R0 : r 0 = 1) by apply frk_0, pa_wf. assert (Rd : r d = 1) by apply frk_d, pa_wf.
    rewrite (pa_rk 0), R0 by lia. cbn [obind Nat.eqb cassert]. rewrite (pa_rk 1) by lia. cbn [obind].
    destruct (flat_target r0 (fun q => r (S q)) (fun q j => fw r M (S q) j) d) as [TL HTL]. fold SO in HTL.
    pose proof pa_SE as HSE. rewrite <- pa_EOd in Lm.
    assert (Hnp : forall k i j, k < d -> i < r k -> j < r (S k) ->
      aget (fp_npu ftp) (EO k + (j * r k + i)) = Ok (np (EO k + (j * r k + i)))).
    { intros k i j Hk Hi Hj. destruct (pa_fun k i j Hk Hi Hj) as (u & Eu & Eu' & Wu & Enp & _).
      apply aget_ok. rewrite pa_npu, Enp. apply map_nth_error. exact Eu'. }
    assert (E1 : EO 1 = r 1) by (unfold EO; cbn [offs]; rewrite R0; lia).
    match goal with |- context [for_ (r 1) ?B ?S0] =>
      destruct (for_inv (fun col (s : list R * nat * nat) => let '(m, uni, par) := s in
        length m = length mem /\ uni = col /\ par = PO col /\ pre m col TL) B (r 1) S0)
        as ([[m uni] par] & E & Lm1 & -> & -> & P1)
    end.
    { repeat split; auto. intros p Hp. lia. }
    { intros col [[m uni] par] Hc (Lm1 & -> & -> & P1).
      assert (Hi0 : 0 < r 0) by lia.
      pose proof (Hnp 0 0 col ltac:(lia) Hi0 Hc) as A1. pose proof (lin_dot 0 0 col ltac:(lia) Hi0 Hc) as A2.
      rewrite R0 in A1, A2. replace (EO 0 + (col * 1 + 0)) with col in A1, A2 by (change (EO 0) with 0; lia).
      rewrite A1. cbn [obind]. rewrite A2. cbn [obind].
      assert (SO 1 <= SO d) by (apply offs_mono; lia). change (SO 1) with (r 1) in H.
      rewrite aset_ok by lia. cbn [obind]. eexists. split; [reflexivity|]. cbv beta iota.
      rewrite upd_length. repeat split; auto; try lia.
      - apply pre_snoc; [now apply pre_upd|]. rewrite nth_error_upd_same by lia. f_equal.
        replace col with (SO 0 + col) by reflexivity. rewrite HTL by auto. cbn [fw]. rewrite R0, sum_1.
        change (SO 0 + col) with col. ring. }
    rewrite E. cbn [obind]. rewrite pa_dim.
    match goal with |- context [for_from 1 (d - 1) ?B ?S0] =>
      destruct (for_from_inv (fun kk (s : list R * nat * nat * nat) => let '(m, uni, par, ind) := s in
        length m = length mem /\ uni = EO kk /\ par = PO (EO kk) /\ ind = SO (kk - 1) /\ pre m (SO kk) TL) B 1 (d - 1) S0)
        as ([[[m2 uni] par] ind] & E2 & Lm2 & -> & -> & -> & P2)
    end.
    { change (SO (1 - 1)) with 0. change (SO 1) with (r 1). rewrite E1. repeat split; auto. }
    { intros kk [[[m2 uni] par] ind] Hkk (Lm2 & -> & -> & -> & P2).
      rewrite (pa_rk kk), (pa_rk (kk + 1)) by lia. cbn [obind]. replace (kk + 1) with (S kk) by lia.
      assert (EK : SO kk = SO (kk - 1) + r kk).
      { destruct kk as [|kk']; [lia|]. replace (S kk' - 1) with kk' by lia. reflexivity. }
      assert (SS : SO (S kk) = SO kk + r (S kk)) by reflexivity.
      assert (ES : EO (S kk) = EO kk + r kk * r (S kk)) by reflexivity.
      assert (SM : SO (S kk) <= SO d) by (apply offs_mono; lia).
      match goal with |- context [for_ (r (S kk)) ?B ?S0] =>
        destruct (for_inv (fun col (s : list R * nat * nat) => let '(m, uni, par) := s in
          length m = length mem /\ uni = EO kk + col * r kk /\ par = PO (EO kk + col * r kk) /\
          pre m (SO kk + col) TL) B (r (S kk)) S0)
          as ([[m3 uni] par] & E3 & Lm3 & -> & -> & P3)
      end.
      - rewrite Nat.mul_0_l, !Nat.add_0_r. repeat split; auto.
      - intros col [[m3 uni] par] Hc (Lm3 & -> & -> & P3).
        rewrite <- EK. rewrite aset_ok by lia. cbn [obind].
        match goal with |- context [for_ (r kk) ?B ?S0] =>
          destruct (for_inv (fun row (s : list R * nat * nat) => let '(m, uni, par) := s in
            length m = length mem /\ uni = EO kk + (col * r kk + row) /\ par = PO (EO kk + (col * r kk + row)) /\
            pre m (SO kk + col) TL /\
            nth_error m (SO kk + col) = Some (sum row (fun i => fw r M kk i *! M kk i col))) B (r kk) S0)
            as ([[m4 uni] par] & E4 & Lm4 & -> & -> & P4 & Q4)
        end.
        + rewrite upd_length, Nat.add_0_r. repeat split; auto.
          * now apply pre_upd.
          * rewrite nth_error_upd_same by lia. reflexivity.
        + intros row [[m4 uni] par] Hrow (Lm4 & -> & -> & P4 & Q4).
          rewrite Hnp by (auto; lia). cbn [obind]. rewrite lin_dot by (auto; lia). cbn [obind].
          rewrite (aget_ok _ _ _ Q4). cbn [obind].
          assert (Hb : nth_error m4 (SO (kk - 1) + row) = Some (fw r M kk row)).
          { rewrite P4 by lia. f_equal. rewrite HTL; try lia.
            - replace (S (kk - 1)) with kk by lia. reflexivity.
            - replace (S (kk - 1)) with kk by lia. auto. }
          rewrite (aget_ok _ _ _ Hb). cbn [obind]. rewrite aset_ok by lia. cbn [obind].
          eexists. split; [reflexivity|]. cbv beta iota. rewrite upd_length.
          replace (EO kk + (col * r kk + S row)) with (S (EO kk + (col * r kk + row))) by lia.
          repeat split; auto; try lia.
          * now apply pre_upd.
          * rewrite nth_error_upd_same by lia. reflexivity.
        + rewrite E4. eexists. split; [reflexivity|]. cbv beta iota.
          replace (S col * r kk) with (col * r kk + r kk) by lia. repeat split; auto.
          replace (SO kk + S col) with (S (SO kk + col)) by lia.
          apply pre_snoc; auto. rewrite Q4. f_equal. rewrite HTL by lia. cbn [fw]. apply sum_ext. intros i Hi. ring.
      - rewrite E3. cbn [obind]. eexists. split; [reflexivity|]. cbv beta iota.
        rewrite ES, SS, (Nat.mul_comm (r kk)). replace (S kk - 1) with kk by lia. repeat split; auto. }
    replace (1 + (d - 1)) with d in * by lia.
    rewrite E2. cbn [obind].
    assert (ESd : SO d = SO (d - 1) + 1).
    { replace d with (S (d - 1)) at 1 by lia. unfold SO. cbn [offs]. replace (S (d - 1)) with d by lia. now rewrite Rd. }
    rewrite (aget_ok m2 _ (train_value f x)).
    - cbn [obind]. eauto.
    - rewrite P2 by lia. f_equal. replace (SO (d - 1)) with (SO (d - 1) + 0) by lia. rewrite HTL; try lia.
      + replace (S (d - 1)) with d by lia. rewrite fw_total by auto. symmetry. exact (pt_value z ev f pa_wf x Hx).
      + replace (S (d - 1)) with d by lia. rewrite Rd. lia.
  Qed.
End App.

(** ** One dimension *)
Section Dim1.
  Context {R : CRing} {F : Type}.
  Open Scope cr_scope.
  Add Ring Rr31 : (rth R).
  Variable z : gfn R F.
  Variable ev : gfn R F -> R -> R.
  Let U := evU z ev.

  Theorem gradeval_dim1 (pge : U -> R -> R * list R) (ftp : ftparam R U) (c : qma U) (u : U) y grad ge mem evals :
    ftp_ok ftp -> fp_dim ftp = 1 -> ft_cores (fp_ft ftp) = [c] -> fs c = [u] ->
    (forall u y, gf_wf u -> fst (pge u y) = ev u y /\ length (snd (pge u y)) = length (gf_params u)) ->
    fp_nparams ftp <= length grad -> fp_nparams ftp <= length ge -> 1 <= length mem -> 1 <= length evals ->
    exists grad' ge' mem' evals',
      ftp_gradeval pge ftp [y] grad ge mem evals = Ok (ev u y, grad', mem', evals', ge') /\
      length grad' = length grad /\
      forall l g, nth_error (snd (pge u y)) l = Some g -> nth_error grad' l = Some (g *! ev u y).
  Proof.
    intros O D1 Ec Eu Hpge Lg Lge Lm Le.
    set (f := fp_ft ftp) in *. pose proof (pa_wf z ev ftp O) as Wf. fold f in Wf.
    assert (D : ft_dim f = 1) by (rewrite <- D1; symmetry; apply O).
    assert (Hx : length [y] = ft_dim f) by (rewrite D; reflexivity).
    assert (Wu : gf_wf u).
    { assert (EE : flat_map fs (ft_cores f) = [u]) by (rewrite Ec; cbn [flat_map]; rewrite Eu; reflexivity).
      pose proof (eq_ind _ (fun l => Forall gf_wf l) (pa_funswf z ev ftp O) _ EE) as W. exact (Forall_inv W). }
    destruct (Hpge u y Wu) as [Hv Hlen].
    assert (Enp : fp_npu ftp = [length (gf_params u)]).
    { destruct O as (_ & _ & _ & E & _). change (fp_ft ftp) with f in E. etransitivity; [exact E|].
      assert (EE : flat_map fs (ft_cores f) = [u]) by (rewrite Ec; cbn [flat_map]; rewrite Eu; reflexivity).
      exact (f_equal (map (fun u => length (gf_params u))) EE). }
    assert (Enpc : fp_npc ftp = [length (gf_params u)]).
    { destruct O as (_ & _ & _ & _ & E & _). change (fp_ft ftp) with f in E. etransitivity; [exact E|].
      etransitivity; [exact (f_equal (map (fun c => length (flat_map gf_params (fs c)))) Ec)|].
      cbn [map]. f_equal. etransitivity; [exact (f_equal (fun l => length (flat_map gf_params l)) Eu)|].
      cbn [flat_map]. now rewrite app_nil_r. }
    assert (En : fp_nparams ftp = length (gf_params u)).
    { destruct O as (_ & _ & _ & _ & _ & E & _). change (fp_ft ftp) with f in E. etransitivity; [exact E|].
      etransitivity; [exact (f_equal (fun l => length (flat_map (fun c => flat_map gf_params (fs c)) l)) Ec)|].
      cbn [flat_map]. rewrite app_nil_r.
      etransitivity; [exact (f_equal (fun l => length (flat_map gf_params l)) Eu)|].
      cbn [flat_map]. now rewrite app_nil_r. }
    assert (R0 : frk f 0 = 1) by now apply frk_0.
    assert (R1 : frk f 1 = 1) by (pose proof (frk_d f Wf) as HH; rewrite D in HH; exact HH).
    unfold ftp_gradeval. fold f. rewrite D1.
    match goal with |- context [pg_gradeval _ _ _ _ ?e _ _ _ _] => set (evf := e) end.
    set (g0 := snd (pge u y)) in *.
    destruct (pg_gradeval_dim1 1 (frk f) (ft_ranks f) (fp_npu ftp) (fp_npc ftp) (fun _ _ _ => ev u y) (fun l => nth l g0 r0)
      (fun q l => length l = length ge /\ (q = 0 \/ forall p, p < length g0 -> nth_error l p = nth_error g0 p)) evf)
      with (grad := grad) (ge := ge) (mem := mem) (ev := evals) as (grad' & mem' & ev' & ge' & E & L1 & H1 & H2).
    - auto.
    - auto.
    - lia.
    - intros k Hk. rewrite <- D in Hk. exact (pa_rk z ev ftp O [y] Hx k Hk).
    - intros k Hk. assert (k = 0 \/ k = 1) as [->| ->] by lia; lia.
    - rewrite Enp. cbn [offs length]. rewrite R0, R1. lia.
    - intros k Hk. assert (k = 0) by lia. subst k. rewrite Enp, Enpc. cbn [offs]. rewrite R0, R1. cbn [Nat.mul Nat.add offs nth].
      rewrite Nat.sub_0_r. reflexivity.
    - intros k i j l Hk Hi Hj [Ll _]. assert (k = 0) by lia. subst k. rewrite R0 in *. rewrite R1 in *.
      assert (i = 0) by lia. assert (j = 0) by lia. subst i j. cbn [offs Nat.mul Nat.add].
      unfold evf. rewrite Ec. cbn [aget nth_error obind]. rewrite Eu. cbn [aget nth_error obind].
      destruct (pge u y) as [v g] eqn:Ep. cbn [fst snd] in *. subst g0. subst v.
      rewrite blit_ok by lia. cbn [obind skipn]. rewrite firstn_all. eexists. split; [reflexivity|].
      split; [rewrite splice_length; lia|]. right. intros p Hp. rewrite nth_error_splice by lia.
      destruct (Nat.ltb_spec p (0 + length g)); [|lia]. cbn [Nat.leb andb]. f_equal. lia.
    - intros l p [Ll Hl] Hp. cbn [offs] in Hl, Hp. rewrite R0, R1 in *. cbn [Nat.mul Nat.add] in *.
      destruct Hl as [Hl|Hl]; [discriminate|]. rewrite Enp in Hp. cbn [offs nth Nat.add] in Hp.
      rewrite Hl by lia. apply nth_error_nth'. lia.
    - reflexivity.
    - cbn [offs]. rewrite R1. lia.
    - cbn [offs]. rewrite R0, R1. lia.
    - cbn [offs]. rewrite R0, R1. cbn [Nat.mul Nat.add offs]. rewrite Enp. cbn [nth]. lia.
    - auto.
    - exists grad', ge', mem', ev'. split; [exact E|]. split; [auto|].
      intros l g Hg. assert (l < length g0) by (apply nth_error_Some; congruence).
      rewrite H1 by (rewrite Enp; cbn [nth]; lia). now rewrite (nth_error_nth _ _ _ Hg).
  Qed.
End Dim1.
