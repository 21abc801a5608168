(** The parameter gradient of a function train. *)
From Verif Require Export PGradFacts ParamBad.

Section OffsMore.
  Lemma offs_locate sz n i : i < offs sz n -> exists q l, q < n /\ l < sz q /\ i = offs sz q + l.
  Proof.
    induction n as [|n IH]; cbn [offs]; intros H; [lia|].
    destruct (Nat.lt_ge_cases i (offs sz n)) as [Hl|Hl].
    - destruct (IH Hl) as (q & l & A & B & C). exists q, l. repeat split; auto.
    - exists n, (i - offs sz n). repeat split; lia.
  Qed.

  Lemma offs_ext sz sz' n : (forall k, k < n -> sz k = sz' k) -> offs sz n = offs sz' n.
  Proof. induction n as [|n IH]; intros H; cbn [offs]; auto. rewrite IH, H by auto. reflexivity. Qed.
End OffsMore.

Section Funs.
  Context {R : CRing} {U : uops R}.
  Variable f : ftrain U.
  Hypothesis Wf : ft_wf f.
  Let r := frk f.
  Let EO := offs (fun q => r q * r (S q)).

  Lemma funs_len k : k <= ft_dim f -> length (flat_map fs (firstn k (ft_cores f))) = EO k.
  Proof.
    induction k as [|k IH]; intros Hk; [reflexivity|].
    destruct (canon_core f k Wf) as (Ec & Q & N & C & _); [lia|].
    rewrite (firstn_S_nth _ _ _ Ec), flat_map_app, app_length, IH by lia. cbn [flat_map app].
    rewrite app_nil_r, Q, N, C. reflexivity.
  Qed.

  Lemma funs_total : length (flat_map fs (ft_cores f)) = EO (ft_dim f).
  Proof. rewrite <- funs_len by auto. rewrite firstn_all2; auto. destruct Wf; lia. Qed.

  Lemma funs_nth k p : k < ft_dim f -> p < r k * r (S k) ->
    nth_error (flat_map fs (ft_cores f)) (EO k + p) = nth_error (fs (fco f k)) p.
  Proof.
    intros Hk Hp. destruct (canon_core f k Wf Hk) as (Ec & Q & N & C & _).
    rewrite <- (firstn_skipn k (ft_cores f)), flat_map_app.
    rewrite nth_error_app2; rewrite funs_len by lia; [|lia].
    replace (EO k + p - EO k) with p by lia. rewrite (skipn_nth _ _ _ Ec). cbn [flat_map].
    rewrite nth_error_app1; auto. rewrite Q, N, C. exact Hp.
  Qed.
End Funs.

Section GfFuns.
  Context {T F : Type}.
  Notation gfn := (gfn T F).

  Lemma offs_lnum (l : list gfn) q : q <= length l -> offs (fun q => nth q (map gf_num l) 0) q = lnum (firstn q l).
  Proof.
    induction q as [|q IH]; intros H; [reflexivity|]. cbn [offs]. rewrite IH by lia.
    destruct (nth_error l q) as [u|] eqn:E; [|apply nth_error_None in E; lia].
    rewrite (firstn_S_nth _ _ _ E), lnum_app. f_equal.
    rewrite (nth_error_nth (map gf_num l) q 0 (x := gf_num u)) by (now rewrite nth_error_map, E).
    unfold lnum. cbn. lia.
  Qed.

  Lemma gf_with_params (u : gfn) : gf_wf u -> gf_with u (gf_params u) = u.
  Proof.
    intros W. destruct (gf_with_spec u (gf_params u) W (gf_params_length u W)) as (A & B & C).
    now apply params_rest_inj.
  Qed.

  Lemma lwith_upd (l : list gfn) q u i v : Forall gf_wf l -> nth_error l q = Some u -> i < gf_num u ->
    lwith l (upd (lparams l) (lnum (firstn q l) + i) v) = upd l q (gf_with u (upd (gf_params u) i v)).
  Proof.
    intros W. revert q. induction W as [|f l Hf Hl IH]; intros [|q] E Hi; try discriminate.
    - injection E as ->. change (lparams (u :: l)) with (gf_params u ++ lparams l).
      cbn [firstn lwith upd]. change (lnum []) with 0. cbn [Nat.add].
      assert (L := gf_params_length u Hf). rewrite upd_app_l by lia.
      assert (Lu : length (upd (gf_params u) i v) = gf_num u) by (rewrite upd_length; lia).
      rewrite firstn_app, firstn_all2, Lu, Nat.sub_diag by lia. cbn [firstn]. rewrite app_nil_r. f_equal.
      rewrite skipn_app, skipn_all2, Lu, Nat.sub_diag by lia. cbn [skipn app]. apply lwith_same; auto.
      + rewrite lparams_length by auto. lia.
      + apply firstn_all2. rewrite lparams_length by auto. lia.
    - cbn [nth_error] in E. change (lparams (f :: l)) with (gf_params f ++ lparams l).
      cbn [firstn lwith upd]. change (lnum (f :: firstn q l)) with (gf_num f + lnum (firstn q l)).
      assert (L := gf_params_length f Hf). rewrite <- !L, <- Nat.add_assoc, upd_app_r.
      rewrite firstn_app, firstn_all2, Nat.sub_diag by lia. cbn [firstn]. rewrite app_nil_r, gf_with_params by auto.
      f_equal. rewrite skipn_app, skipn_all2, Nat.sub_diag by lia. cbn [skipn app]. now apply IH.
  Qed.

  Lemma lparams_nth (l : list gfn) q u i : Forall gf_wf l -> nth_error l q = Some u -> i < gf_num u ->
    nth_error (lparams l) (lnum (firstn q l) + i) = nth_error (gf_params u) i.
  Proof.
    intros W. revert q. induction W as [|f l Hf Hl IH]; intros [|q] E Hi; try discriminate.
    - injection E as ->. change (lparams (u :: l)) with (gf_params u ++ lparams l).
      cbn [firstn]. change (lnum []) with 0. apply nth_error_app1. now rewrite gf_params_length.
    - cbn [nth_error firstn] in *. change (lparams (f :: l)) with (gf_params f ++ lparams l).
      change (lnum (f :: firstn q l)) with (gf_num f + lnum (firstn q l)).
      rewrite nth_error_app2 by (rewrite gf_params_length by auto; lia).
      rewrite gf_params_length by auto. replace (gf_num f + lnum (firstn q l) + i - gf_num f) with (lnum (firstn q l) + i) by lia.
      now apply IH.
  Qed.

  Lemma cwith_wf (cs : list (qma gfn)) p a b : chain a cs b -> chain a (cwith cs p) b.
  Proof.
    revert a p. induction cs as [|c cs IH]; intros a p; cbn [chain cwith]; auto.
    intros (A & B & C & D & E). cbn [nr nc]. repeat split; auto. red. cbn [fs nr nc]. now rewrite lwith_length.
  Qed.

  Lemma cwith_nc (cs : list (qma gfn)) p : map nc (cwith cs p) = map nc cs.
  Proof. revert p. induction cs as [|c cs IH]; intros p; cbn [cwith map nc]; auto. now rewrite IH. Qed.

  Lemma ft_with_wf (f : ftrain gfn) p : ft_wf f -> ft_wf (ft_with f p).
  Proof.
    intros (A & B & C & D). unfold ft_with, ft_wf. cbn [ft_dim ft_ranks ft_cores].
    rewrite cwith_length, cwith_nc. repeat split; auto. now apply cwith_wf.
  Qed.
End GfFuns.

Section ParamGrad.
  Context {R : CRing} {F : Type}.
  Open Scope cr_scope.
  Add Ring Rr29 : (rth R).

  (** Univariate functions with a given evaluation; the other operations, which
      evaluation does not use, are filled with dummies ([z] is any function). *)
  Definition evU (z : gfn R F) (ev : gfn R F -> R -> R) : uops R :=
    mkuops R (gfn R F) ev (fun _ => false) (fun _ => r0) (fun _ _ => r0) (fun f _ => f) (fun _ f _ _ => f)
      (fun _ => z) (fun _ => z) (fun f => f).

  Variable z : gfn R F.
  Variable ev : gfn R F -> R -> R.
  Let U := evU z ev.
  Variable f : ftrain U.
  Hypothesis Wf : ft_wf f.
  Hypothesis Of : ft_ok f.
  Variable x : list R.
  Hypothesis Hx : length x = ft_dim f.

  Let d := ft_dim f.
  Let r := frk f.
  Let M := fM f (fun k g => uev g (nth k x r0)).
  Let funs := flat_map fs (ft_cores f).
  Let np q := nth q (map gf_num funs) 0.
  Let EO := offs (fun q => r q * r (S q)).
  Let PO := offs np.

  Lemma pt_value : train_value f x = bw r M d 0 0.
  Proof. rewrite train_value_path by auto. now rewrite path_value_bw by auto. Qed.

  Lemma pt_EOd : EO d = length funs.
  Proof. symmetry. now apply funs_total. Qed.

  Lemma pt_PO q : q <= length funs -> PO q = lnum (firstn q funs).
  Proof. apply offs_lnum. Qed.

  Lemma pt_POd : PO (EO d) = lnum funs.
  Proof. rewrite pt_EOd, pt_PO by auto. now rewrite firstn_all. Qed.

  Lemma sum_delta n k (g : nat -> R) : k < n -> sum n (fun i => if i =? k then g i else r0) = g k.
  Proof.
    intros H. rewrite (sum_single R n _ k H); [now rewrite Nat.eqb_refl|].
    intros i _ Hne. destruct (Nat.eqb_spec i k); [contradiction|reflexivity].
  Qed.

  (** Exchanging one univariate function changes the value in proportion. *)
  Lemma swap_value (f' : ftrain U) k i j u u' :
    ft_wf f' -> ft_dim f' = d -> ft_ranks f' = ft_ranks f -> k < d -> i < r k -> j < r (S k) ->
    nth_error funs (EO k + (j * r k + i)) = Some u ->
    flat_map fs (ft_cores f') = upd funs (EO k + (j * r k + i)) u' ->
    train_value f' x = train_value f x +! pgw d r M k i j *! (ev u' (nth k x r0) -! ev u (nth k x r0)).
  Proof.
    intros Wf' D' R' Hk Hi Hj Eu Ef'. set (q0 := EO k + (j * r k + i)) in *.
    rewrite pt_value. rewrite train_value_path by (rewrite D'; exact Hx).
    rewrite path_value_bw by auto.
    assert (Hr' : frk f' = r) by (unfold r, frk; now rewrite R'). rewrite Hr', D'.
    assert (Hij : j * r k + i < r k * r (S k)) by nia.
    assert (Hq0 : q0 < length funs) by (apply nth_error_Some; congruence).
    assert (EE : forall k' i' j', k' < d -> i' < r k' -> j' < r (S k') ->
      fM f' (fun k g => uev g (nth k x r0)) k' i' j'
      = if (k' =? k) && (i' =? i) && (j' =? j) then ev u' (nth k x r0) else M k' i' j').
    { intros k' i' j' Hk' Hi' Hj'.
      destruct (fM_entry f' (fun k g => uev g (nth k x r0)) k' i' j' Wf') as (g' & Eg' & ->);
        [rewrite D'; auto|rewrite Hr'; auto|rewrite Hr'; auto|].
      destruct (fM_entry f (fun k g => uev g (nth k x r0)) k' i' j' Wf Hk' Hi' Hj') as (g & Eg & Vg).
      fold r in Eg. rewrite Hr' in Eg'.
      assert (Hp : j' * r k' + i' < r k' * r (S k')) by nia.
      rewrite <- (funs_nth f Wf k') in Eg by auto.
      rewrite <- (funs_nth f' Wf' k') in Eg' by (rewrite ?D', ?Hr'; auto).
      rewrite Hr' in Eg'. fold r EO in Eg, Eg'. fold funs in Eg. rewrite Ef' in Eg'.
      destruct (Nat.eq_dec (EO k' + (j' * r k' + i')) q0) as [Eq|Nq].
      - assert (k' = k).
        { destruct (Nat.lt_trichotomy k' k) as [L|[L|L]]; auto; exfalso.
          - assert (EO (S k') <= EO k) by (apply offs_mono; lia).
            change (EO (S k')) with (EO k' + r k' * r (S k')) in H. unfold q0 in Eq. lia.
          - assert (EO (S k) <= EO k') by (apply offs_mono; lia).
            change (EO (S k)) with (EO k + r k * r (S k)) in H. unfold q0 in Eq. lia. }
        subst k'. assert (Ep : j' * r k + i' = j * r k + i) by (unfold q0 in Eq; lia).
        assert (i' = i) by (pose proof (idx_mod j' (r k) i' Hi') as A1; rewrite Ep, idx_mod in A1; auto).
        assert (j' = j) by (pose proof (idx_div j' (r k) i' Hi') as A1; rewrite Ep, idx_div in A1; auto).
        subst i' j'. rewrite !Nat.eqb_refl. cbn [andb].
        fold q0 in Eg'. rewrite nth_error_upd_same in Eg' by auto. injection Eg' as <-. reflexivity.
      - rewrite nth_error_upd_other in Eg' by auto. assert (g' = g) by congruence. subst g'.
        fold U in Vg. rewrite <- Vg. fold M.
        destruct (Nat.eqb_spec k' k) as [->|]; [|reflexivity].
        destruct (Nat.eqb_spec i' i) as [->|]; [|reflexivity].
        destruct (Nat.eqb_spec j' j) as [->|]; [|reflexivity]. exfalso. now apply Nq. }
    rewrite (bw_ext _ _ (repl M k (fun i' j' => if (i' =? i) && (j' =? j) then ev u' (nth k x r0) else M k i' j'))).
    - assert (R0 : r 0 = 1) by now apply frk_0.
      rewrite (bw_repl r M k _ d R0 Hk), (bw_split r M k d R0 Hk). unfold pgw.
      assert (HM : M k i j = ev u (nth k x r0)).
      { destruct (fM_entry f (fun k g => uev g (nth k x r0)) k i j Wf Hk Hi Hj) as (g & Eg & Vg).
        fold r in Eg. rewrite <- (funs_nth f Wf k) in Eg by auto. fold r EO funs in Eg.
        fold q0 in Eg. assert (g = u) by congruence. subst g. exact Vg. }
      set (A := fw r M k) in *. set (B := bw r M (d - 1 - k) (S k)) in *. rewrite <- HM. set (V := ev u' (nth k x r0)).
      rewrite (sum_ext R (r k) _ (fun i' => A i' *! sum (r (S k)) (fun j' => M k i' j' *! B j')
                +! (if i' =? i then A i' *! (B j *! (V -! M k i j)) else r0))).
      + rewrite sum_add, sum_delta by auto. ring.
      + intros i' Hi'. destruct (Nat.eqb_spec i' i) as [->|]; cbn [andb].
        * rewrite (sum_ext R (r (S k)) _ (fun j' => M k i j' *! B j' +! (if j' =? j then B j *! (V -! M k i j) else r0))).
          -- rewrite sum_add, (sum_delta _ _ (fun _ => _)) by auto. ring.
          -- intros j' Hj'. destruct (Nat.eqb_spec j' j) as [->|]; ring.
        * ring.
    - assert (R0 : r 0 = 1) by now apply frk_0. lia.
    - intros k' i' j' Hk' Hi' Hj'. rewrite EE by (auto; lia). unfold repl.
      destruct (Nat.eqb_spec k' k) as [->|]; reflexivity.
  Qed.

  (** Position of parameter number [n]. *)
  Lemma param_locate n : n < lnum funs ->
    exists k i j u l, k < d /\ i < r k /\ j < r (S k) /\
      nth_error (fs (fco f k)) (j * r k + i) = Some u /\
      nth_error funs (EO k + (j * r k + i)) = Some u /\ gf_wf u /\
      l < gf_num u /\ np (EO k + (j * r k + i)) = gf_num u /\ n = PO (EO k + (j * r k + i)) + l.
  Proof.
    intros Hn. rewrite <- pt_POd in Hn. apply offs_locate in Hn as (q & l & Hq & Hl & En).
    destruct (offs_locate _ _ _ Hq) as (k & p & Hk & Hp & Eq). fold EO in Eq.
    assert (Hrk : 0 < r k) by (apply (canon_core f k Wf Hk)).
    exists k, (p mod r k), (p / r k).
    assert (Ep : p / r k * r k + p mod r k = p) by (rewrite (Nat.div_mod p (r k)) at 3 by lia; lia).
    rewrite Ep, <- Eq.
    destruct (nth_error funs q) as [u|] eqn:Eu.
    2:{ apply nth_error_None in Eu. rewrite pt_EOd in Hq. lia. }
    assert (Enp : np q = gf_num u) by (unfold np; apply nth_error_nth; apply map_nth_error; exact Eu).
    exists u, l. repeat split; auto.
    - apply Nat.mod_upper_bound. lia.
    - apply Nat.div_lt_upper_bound; lia.
    - rewrite <- (funs_nth f Wf k p) by auto. fold r EO funs. now rewrite <- Eq.
    - pose proof (funs_wf f Of) as W. rewrite Forall_forall in W. apply W. eapply nth_error_In, Eu.
    - now rewrite <- Enp.
  Qed.

  (** Changing parameter [n] to [v]. *)
  Lemma param_change n v : n < lnum funs ->
    forall k i j u l, k < d -> i < r k -> j < r (S k) ->
      nth_error funs (EO k + (j * r k + i)) = Some u -> l < gf_num u ->
      n = PO (EO k + (j * r k + i)) + l ->
      train_value (ft_with f (upd (lparams funs) n v) : ftrain U) x
      = train_value f x +! pgw d r M k i j *!
          (ev (gf_with u (upd (gf_params u) l v)) (nth k x r0) -! ev u (nth k x r0)).
  Proof.
    intros Hn k i j u l Hk Hi Hj Eu Hl En. apply swap_value; auto.
    - now apply ft_with_wf.
    - change (flat_map fs (ft_cores (ft_with f (upd (lparams funs) n v))))
        with (cfuns (cwith (ft_cores f) (upd (lparams funs) n v))).
      rewrite cfuns_cwith. change (cfuns (ft_cores f)) with funs. rewrite En.
      assert (Hq : EO k + (j * r k + i) < length funs) by (apply nth_error_Some; congruence).
      rewrite pt_PO by lia. apply lwith_upd; auto. exact (funs_wf f Of).
  Qed.
End ParamGrad.
