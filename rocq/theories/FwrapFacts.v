(** Proofs about fwrap.c. *)
From Verif Require Import Base BaseFacts Fill IdxModel IdxFacts FwrapModel.

Section FwrapSpec.
  Context {X Y : Type}.

  (** ** Specification: what a history of calls (latest first) means *)

  (** The values fixed for fiber [k] since the last initialisation. *)
  Fixpoint fixed_values (k : nat) (h : list (fop X Y)) : option (list X * list X) :=
    match h with
    | [] => None
    | OInit _ _ :: _ => None
    | OAdd i l r :: h => if i =? k then Some (l, r) else fixed_values k h
    | _ :: h => fixed_values k h
    end.

  (** Is the wrapper in fiber mode? *)
  Fixpoint in_fibers (h : list (fop X Y)) : bool :=
    match h with
    | [] => false
    | OInit _ _ :: _ => true
    | OClean :: _ => false
    | _ :: h => in_fibers h
    end.

  Fixpoint never_selected (h : list (fop X Y)) : bool :=
    match h with
    | [] => true
    | OFiber _ :: _ => false
    | _ :: h => never_selected h
    end.

  (** The fiber selected since the last initialisation; fiber 0 if none has ever
      been selected. *)
  Fixpoint selected (h : list (fop X Y)) : option nat :=
    match h with
    | [] => Some 0
    | OFiber k :: _ => Some k
    | OInit _ _ :: h => if never_selected h then Some 0 else None
    | _ :: h => selected h
    end.

  (** The function evaluated: number of points and points to values and code.
      For a function of one point, given by [f], the values at all points. *)
  Fixpoint which_eval (h : list (fop X Y)) : nat :=
    match h with
    | [] => 0
    | OWhich k :: _ => k
    | _ :: h => which_eval h
    end.

  (** Splitting a block of coordinates into points. *)
  Fixpoint blocks (d n : nat) (x : list X) : list (list X) :=
    match n with
    | O => []
    | S n => firstn d x :: blocks d n (skipn d x)
    end.

  Fixpoint point_fun (h : list (fop X Y)) : option (list X -> Y) :=
    match h with [] => None | OSetF f :: _ => Some f | _ :: h => point_fun h end.
  Fixpoint vec_fun (h : list (fop X Y)) : option vfun :=
    match h with [] => None | OSetVec f :: _ => Some f | _ :: h => vec_fun h end.
  Fixpoint mo_fun (h : list (fop X Y)) : option (nat -> vfun) :=
    match h with [] => None | OSetMo f :: _ => Some f | _ :: h => mo_fun h end.
  (** Function [k] of the array, set since the last change of its size. *)
  Fixpoint arr_fun (k : nat) (h : list (fop X Y)) : option vfun :=
    match h with
    | [] => None
    | ONum _ :: _ => None
    | OArr i f :: h => if i =? k then Some f else arr_fun k h
    | _ :: h => arr_fun k h
    end.

  Definition user_fun (d : nat) (t : ftype) (h : list (fop X Y)) : option vfun :=
    match t with
    | ND | INTND => option_map (fun f n x => (map f (blocks d n x), 0)) (point_fun h)
    | VEC => vec_fun h
    | MOVEC => option_map (fun f => f (which_eval h)) (mo_fun h)
    | ARRVEC => arr_fun (which_eval h) h
    end.
End FwrapSpec.

Section Fwrap.
  Context {X Y : Type} (zero : X).
  Notation fw := (fwrap X Y).

  (** State and history agree. *)
  Definition agrees (d : nat) (t : ftype) (w : fw) (h : list (fop X Y)) : Prop :=
    fw_d w = d /\ fw_type w = t /\ fw_fiber_approx w = in_fibers h
    /\ fw_f w = point_fun h /\ fw_fvec w = vec_fun h /\ fw_mofvec w = mo_fun h
    /\ fw_evalfunc w = which_eval h
    /\ (forall k f, arr_fun k h = Some f ->
          exists a, fw_arr w = Some a /\ nth_error a k = Some (Some f))
    /\ (never_selected h = true -> fw_onfiber w = 0)
    /\ (in_fibers h = true -> forall k, selected h = Some k -> fw_onfiber w = k)
    /\ (in_fibers h = true -> exists vals, fw_fiber_vals w = Some vals
          /\ length vals = fw_nfibers w
          /\ Forall (fun v => length v = d) vals
          /\ forall k l r, fixed_values k h = Some (l, r) ->
               length l = fw_fiber_dim w /\ length l + length r + 1 = d
               /\ exists z, nth_error vals k = Some (l ++ z :: r)).

  Lemma agrees_create d t : agrees d t (fwrap_create d t) [].
  Proof.
    unfold agrees. cbn. repeat (split; [reflexivity|]).
    split; [discriminate|]. split; [reflexivity|]. split; [discriminate|]. discriminate.
  Qed.

  Lemma copy2_ok (l r v : list X) : length v = length l + length r + 1 ->
    exists z, (do v <- copyn (length l) l 0 v 0; copyn (length r) r 0 v (length l + 1))
              = Ok (l ++ z :: r).
  Proof.
    intros L.
    assert (E : exists v1 z v2, v = v1 ++ z :: v2 /\ length v1 = length l
                                /\ length v2 = length r).
    { exists (firstn (length l) v).
      destruct (skipn (length l) v) as [|z v2] eqn:Es.
      { apply (f_equal (@length X)) in Es. rewrite skipn_length in Es. cbn in Es. lia. }
      exists z, v2. split; [now rewrite <- Es, firstn_skipn|].
      apply (f_equal (@length X)) in Es. rewrite skipn_length in Es. cbn in Es.
      rewrite firstn_length. lia. }
    destruct E as (v1 & z & v2 & -> & L1 & L2). exists z.
    rewrite (copyn_mid' _ _ _ [] l [] [] v1 (z :: v2)); auto; [|now rewrite app_nil_r].
    cbn [obind app].
    replace (l ++ z :: r) with ((l ++ [z]) ++ r ++ []) by (rewrite app_nil_r, <- app_assoc; reflexivity).
    apply (copyn_mid' _ _ _ [] r [] (l ++ [z]) v2 []); auto.
    - now rewrite app_nil_r.
    - rewrite app_nil_r, <- app_assoc. reflexivity.
    - rewrite app_length. cbn. lia.
  Qed.

  Lemma agrees_step d t w h o w' :
    agrees d t w h -> fstep zero w o = Ok w' -> agrees d t w' (o :: h).
  Proof.
    intros (Hd & Ht & Ha & Hf & Hv & Hm & He & Harr & Hn & Hs & Hfib) E.
    destruct o as [f|f|f|k|n|i f|dm n|i l r|k| |n x]; cbn [fstep] in E.
    - unfold fwrap_set_f in E. destruct (_ || _); [|discriminate]. injection E as <-.
      unfold agrees; cbn. repeat (split; [auto; fail|]). auto.
    - unfold fwrap_set_fvec in E. destruct (ftype_eqb _ _); [|discriminate]. injection E as <-.
      unfold agrees; cbn. repeat (split; [auto; fail|]). auto.
    - unfold fwrap_set_mofvec in E. destruct (ftype_eqb _ _); [|discriminate]. injection E as <-.
      unfold agrees; cbn. repeat (split; [auto; fail|]). auto.
    - unfold fwrap_set_which_eval in E. injection E as <-.
      unfold agrees; cbn. repeat (split; [auto; fail|]). auto.
    - unfold fwrap_set_num_funcs in E. destruct (ftype_eqb _ _); [|discriminate]. injection E as <-.
      unfold agrees; cbn. repeat (split; [auto; fail|]).
      split; [discriminate|]. auto.
    - unfold fwrap_set_func_array in E. destruct (ftype_eqb _ _); [|discriminate].
      destruct (fw_arr w) as [a|] eqn:Ea; [|discriminate].
      unfold cassert in E. destruct (Nat.ltb_spec i (length a)) as [Hi|]; [|discriminate].
      cbn [obind] in E. rewrite aset_ok in E by auto. cbn [obind] in E. injection E as <-.
      unfold agrees; cbn. repeat (split; [auto; fail|]). split; [|auto].
      intros k g Hk. eexists. split; [reflexivity|].
      destruct (Nat.eqb_spec i k) as [->|Hne].
      + rewrite nth_error_upd_same by auto. congruence.
      + rewrite nth_error_upd_other by auto. destruct (Harr k g Hk) as (a' & Ea' & Na).
        congruence.
    - unfold fwrap_initialize_fiber_approx in E. injection E as <-.
      unfold agrees; cbn. repeat (split; [auto; fail|]). split.
      + intros _ k Hk. destruct (never_selected h); [|discriminate].
        injection Hk as <-. auto.
      + intros _. eexists. split; [reflexivity|]. split; [apply repeat_length|].
        split; [|discriminate]. apply Forall_forall. intros v Hv'.
        apply repeat_spec in Hv'. subst v. rewrite repeat_length. exact Hd.
    - unfold fwrap_add_fiber in E. unfold cassert in E.
      destruct (fw_fiber_approx w) eqn:Eap; [|discriminate]. cbn [obind] in E.
      destruct (Nat.eqb_spec (length l + length r + 1) (fw_d w)) as [E1|]; [|discriminate].
      destruct (Nat.eqb_spec (length l) (fw_fiber_dim w)) as [E2|]; [|discriminate].
      destruct (Nat.ltb_spec i (fw_nfibers w)) as [Hi|]; [|discriminate]. cbn [obind] in E.
      destruct (Hfib (eq_sym Ha)) as (vals & Ev & Lv & Fv & Kv). rewrite Ev in E.
      destruct (aget_lt vals i) as (v & Nv & Gv); [lia|]. rewrite Gv in E. cbn [obind] in E.
      assert (Lvi : length v = d)
        by (rewrite Forall_forall in Fv; apply Fv; now apply nth_error_In in Nv).
      destruct (copy2_ok l r v) as (z & Ec); [lia|].
      destruct (copyn (length l) l 0 v 0) as [v'| | |]; cbn [obind] in *; try discriminate.
      rewrite Ec in E. cbn [obind] in E. rewrite aset_ok in E by lia. cbn [obind] in E.
      injection E as <-.
      unfold agrees; cbn. repeat (split; [auto; fail|]).
      intros _. eexists. split; [reflexivity|]. split; [now rewrite upd_length|]. split.
      + apply Forall_forall. intros u Hu. apply In_nth_error in Hu as (j & Hj).
        destruct (Nat.eq_dec j i) as [->|Hne].
        * rewrite nth_error_upd_same in Hj by lia. injection Hj as <-.
          rewrite app_length. cbn. lia.
        * rewrite nth_error_upd_other in Hj by auto. rewrite Forall_forall in Fv.
          apply Fv. now apply nth_error_In in Hj.
      + intros k l' r' Hk. destruct (Nat.eqb_spec i k) as [->|Hne].
        * injection Hk as <- <-. split; [exact E2|]. split; [congruence|].
          exists z. now rewrite nth_error_upd_same by lia.
        * rewrite nth_error_upd_other by auto. now apply Kv.
    - unfold fwrap_set_which_fiber in E. unfold cassert in E.
      destruct (fw_fiber_approx w) eqn:Eap; [|discriminate]. cbn [obind] in E.
      destruct (_ <? _); [|discriminate]. cbn [obind] in E. injection E as <-.
      unfold agrees; cbn. repeat match goal with |- _ /\ _ => split end; auto; intros; congruence.
    - unfold fwrap_clean_fiber_approx in E. injection E as <-.
      unfold agrees; cbn. repeat match goal with |- _ /\ _ => split end; auto; discriminate.
    - destruct (fwrap_eval zero w n x); cbn [obind] in E; try discriminate.
      injection E as <-. unfold agrees; cbn. repeat (split; [auto; fail|]). auto.
  Qed.

  Lemma agrees_run d t ops : forall w h w',
    agrees d t w h -> frun zero w ops = Ok w' -> agrees d t w' (rev ops ++ h).
  Proof.
    induction ops as [|o ops IH]; intros w h w' A E; cbn in E.
    - injection E as <-. exact A.
    - destruct (fstep zero w o) as [w1| | |] eqn:Es; cbn [obind] in E; try discriminate.
      cbn [rev]. rewrite <- app_assoc. eapply IH; [|exact E].
      now apply (agrees_step d t w h o w1).
  Qed.

  Lemma blocks_nth d n : forall (x : list X) i, i < n ->
    nth_error (blocks d n x) i = Some (firstn d (skipn (i * d) x)).
  Proof.
    induction n as [|n IH]; intros x [|i] Hi; try lia; [reflexivity|].
    cbn [blocks nth_error]. rewrite IH by lia. do 2 f_equal. cbn [Nat.mul].
    clear IH. revert x. induction d as [|d IH]; intros x.
    - reflexivity.
    - destruct x as [|y x].
      + now rewrite !skipn_nil.
      + cbn. generalize (i * S d). intros q. clear. revert x q. induction d as [|d IH]; intros x q; [reflexivity|].
        destruct x as [|y x]; [now rewrite !skipn_nil|]. cbn. apply IH.
  Qed.

  Lemma blocks_length d n : forall x : list X, length (blocks d n x) = n.
  Proof. induction n as [|n IH]; intros x; cbn; [reflexivity|]. now rewrite IH. Qed.

  Lemma eval_points_ok d n (f : list X -> Y) x : length x = n * d ->
    eval_points d n f x = Ok (map f (blocks d n x), 0).
  Proof.
    intros L. unfold eval_points.
    set (T := fun i => f (firstn d (skipn (i * d) x))).
    match goal with |- context [for_ n ?b00 ?s00] =>
      destruct (for_inv (fun k out => out = tab k (fun i => Some (T i)) ++ repeat None (n - k))
         b00 n s00) as (out & E & I) end.
    - now rewrite Nat.sub_0_r.
    - intros i out Hi ->. unfold slice. rewrite (proj2 (Nat.leb_le _ _)) by nia. cbn [obind].
      fold (T i). rewrite aset_tab_fill by auto. eauto.
    - rewrite E, I, Nat.sub_diag. cbn [repeat obind]. rewrite app_nil_r, freeze_tab. cbn [obind].
      do 2 f_equal. symmetry. apply tab_eq_intro; [now rewrite map_length, blocks_length|].
      intros i Hi. rewrite nth_error_map, blocks_nth by auto. reflexivity.
  Qed.

  Lemma dispatch_ok d t w h n x u :
    agrees d t w h -> user_fun d t h = Some u -> (t = ND \/ t = INTND -> length x = n * d) ->
    dispatch w n x = Ok (u n x).
  Proof.
    intros (Hd & Ht & Ha & Hf & Hv & Hm & He & Harr & _) Hu Hx.
    unfold dispatch. rewrite Ht, Hf, Hv, Hm, He, Hd. unfold user_fun in Hu.
    destruct t.
    - destruct (point_fun h) as [f|]; [|discriminate]. injection Hu as <-.
      apply eval_points_ok; auto.
    - destruct (point_fun h) as [f|]; [|discriminate]. injection Hu as <-.
      apply eval_points_ok; auto.
    - now rewrite Hu.
    - destruct (mo_fun h) as [f|]; [|discriminate]. now injection Hu as <-.
    - destruct (Harr _ _ Hu) as (a & -> & Na). now rewrite (aget_ok _ _ _ Na).
  Qed.

  (** Outside fiber mode the user's function is evaluated, whatever happened
      before. *)
  Lemma eval_plain d t (ops : list (fop X Y)) w u n x :
    frun zero (fwrap_create d t) ops = Ok w -> in_fibers (rev ops) = false ->
    user_fun d t (rev ops) = Some u -> length x = n * d ->
    fwrap_eval zero w n x = Ok (u n x).
  Proof.
    intros E Hin Hu Hx. pose proof (agrees_run d t ops _ [] w (agrees_create d t) E) as A.
    rewrite app_nil_r in A. unfold fwrap_eval.
    rewrite (proj1 (proj2 (proj2 A))), Hin. eapply dispatch_ok; eauto.
  Qed.

  Lemma fill_row (fv : list X) d ii n (xe : list X) k t :
    length fv = d -> ii < n -> k < d ->
    (exists a b c, xe = a ++ b ++ c /\ length a = ii * d /\ length b = d /\
        exists l z r, fv = l ++ z :: r /\ length l = k /\
        (do xe <- for_ d (fun jj xe => do v <- aget fv jj; aset xe (ii * d + jj) v) xe;
         aset xe (ii * d + k) t) = Ok (a ++ (l ++ t :: r) ++ c))
    \/ length xe <> n * d.
  Proof.
    intros Lf Hi Hk. destruct (Nat.eq_dec (length xe) (n * d)) as [Lx|]; [|now right]. left.
    exists (firstn (ii * d) xe), (firstn d (skipn (ii * d) xe)), (skipn d (skipn (ii * d) xe)).
    assert (La : length (firstn (ii * d) xe) = ii * d) by (rewrite firstn_length; nia).
    assert (Lb : length (firstn d (skipn (ii * d) xe)) = d)
      by (rewrite firstn_length, skipn_length; nia).
    split; [now rewrite !firstn_skipn|]. split; [exact La|]. split; [exact Lb|].
    destruct (nth_error_split fv k) with (a := nth k fv t) as (l & r & Ef & Ll).
    { apply nth_error_nth'. lia. }
    exists l, (nth k fv t), r. split; [exact Ef|]. split; [exact Ll|].
    assert (E : for_ d (fun jj xe => do v <- aget fv jj; aset xe (ii * d + jj) v) xe
              = Ok (firstn (ii * d) xe ++ fv ++ skipn d (skipn (ii * d) xe))).
    { apply (copyn_mid' d fv xe [] fv [] (firstn (ii * d) xe) (firstn d (skipn (ii * d) xe))
               (skipn d (skipn (ii * d) xe)) 0 (ii * d)); auto; try congruence.
      - now rewrite app_nil_r.
      - now rewrite !firstn_skipn. }
    rewrite E. cbn [obind].
    rewrite aset_ok by (rewrite !app_length, La, Lf; nia).
    f_equal. pose proof (upd_app_at (firstn (ii * d) xe) (fv ++ skipn d (skipn (ii * d) xe)) k t) as U.
    rewrite La in U. rewrite U. f_equal.
    pose proof (upd_app_at l (nth k fv t :: r ++ skipn d (skipn (ii * d) xe)) 0 t) as U2.
    rewrite Nat.add_0_r, Ll in U2. cbn [upd] in U2.
    rewrite Ef at 1. rewrite <- !app_assoc. exact U2.
  Qed.

  (** In fiber mode the user's function is evaluated at the points
      (left, t, right) of the selected fiber. *)
  Lemma eval_on_fiber_agrees d t (h : list (fop X Y)) w u k l r n ts :
    agrees d t w h -> in_fibers h = true ->
    selected h = Some k -> fixed_values k h = Some (l, r) ->
    user_fun d t h = Some u -> length ts = n ->
    fwrap_eval zero w n ts = Ok (u n (concat (map (fun t => l ++ t :: r) ts))).
  Proof.
    intros A Hin Hsel Hfix Hu Hts. unfold fwrap_eval.
    pose proof A as (Hd & Ht & Ha & _ & _ & _ & _ & _ & _ & Hs & Hfib).
    rewrite Ha, Hin. unfold fwrap_eval_fiber.
    destruct (Hfib Hin) as (vals & Ev & Lv & Fv & Kv). rewrite Ev.
    destruct (Kv k l r Hfix) as (Hl & Hlr & z & Nz).
    rewrite (Hs Hin k Hsel). rewrite (aget_ok _ _ _ Nz). cbn [obind]. rewrite Hd, <- Hl.
    set (fv := l ++ z :: r).
    assert (Lf : length fv = d) by (unfold fv; rewrite app_length; cbn; lia).
    match goal with |- context [for_ n ?b00 ?s00] =>
      destruct (for_inv (fun i xe => length xe = n * d /\
          firstn (i * d) xe = concat (map (fun t => l ++ t :: r) (firstn i ts)))
         b00 n s00) as (xe & Ex & Lx & I) end.
    - split; [apply repeat_length|reflexivity].
    - intros i xe Hi [Lx I].
      destruct (aget_lt ts i) as (ti & Nt & Gt); [lia|].
      destruct (fill_row fv d i n xe (length l) ti Lf Hi ltac:(lia))
        as [(a & b & c & Exe & La & Lb & l' & z' & r' & Ef & Ll & Eb)|C]; [|contradiction].
      assert (l' = l /\ r' = r) as [-> ->].
      { unfold fv in Ef. clear -Ef Ll.
        revert l' Ef Ll. induction l as [|y l IH]; intros [|y' l'] Ef Ll; try discriminate.
        - cbn in Ef. split; congruence.
        - cbn in Ef, Ll. injection Ef as -> Ef. destruct (IH l' Ef) as [-> ->]; [lia|]. auto. }
      rewrite Gt.
      match goal with |- context [for_ d ?b00 xe] =>
        replace (for_ d b00 xe) with
          (for_ d (fun jj xe => do v <- aget fv jj; aset xe (i * d + jj) v) xe) by reflexivity end.
      destruct (for_ d (fun jj xe => do v <- aget fv jj; aset xe (i * d + jj) v) xe)
        as [x1| | |]; cbn [obind] in *; try discriminate.
      rewrite Eb. eexists. split; [reflexivity|].
      subst xe. rewrite !app_length in *. cbn [length] in *. split; [lia|].
      replace (S i * d) with (i * d + d) by lia.
      assert (Fs : firstn (S i) ts = firstn i ts ++ [ti]).
      { clear -Nt. revert i Nt. induction ts as [|y tl IH]; intros [|i] H; cbn in *; try congruence.
        now rewrite <- (IH i H). }
      rewrite Fs, map_app, concat_app, <- I.
      rewrite <- La. rewrite (firstn_app (length a)), firstn_all, Nat.sub_diag. cbn [firstn].
      rewrite app_nil_r. rewrite firstn_app_2. f_equal. cbn. rewrite app_nil_r.
      replace d with (length (l ++ ti :: r) + 0) by (rewrite app_length; cbn; lia).
      rewrite firstn_app_2. cbn. now rewrite app_nil_r.
    - rewrite Ex. cbn [obind].
      assert (Exe : xe = concat (map (fun t => l ++ t :: r) ts)).
      { rewrite <- Lx, firstn_all in I. now rewrite I, firstn_all2 by lia. }
      rewrite <- Exe. eapply dispatch_ok; eauto.
  Qed.

  Lemma eval_on_fiber d t (ops : list (fop X Y)) w u k l r n ts :
    frun zero (fwrap_create d t) ops = Ok w -> in_fibers (rev ops) = true ->
    selected (rev ops) = Some k -> fixed_values k (rev ops) = Some (l, r) ->
    user_fun d t (rev ops) = Some u -> length ts = n ->
    fwrap_eval zero w n ts = Ok (u n (concat (map (fun t => l ++ t :: r) ts))).
  Proof.
    intros E. pose proof (agrees_run d t ops _ [] w (agrees_create d t) E) as A.
    rewrite app_nil_r in A. now apply eval_on_fiber_agrees.
  Qed.

  Lemma blocks_concat d (pts : list (list X)) : Forall (fun p => length p = d) pts ->
    blocks d (length pts) (concat pts) = pts.
  Proof.
    induction 1 as [|p pts Hp _ IH]; [reflexivity|]. cbn [length concat blocks].
    rewrite <- Hp. rewrite firstn_app, firstn_all, Nat.sub_diag. cbn [firstn].
    rewrite app_nil_r. rewrite skipn_app, skipn_all, Nat.sub_diag. cbn [skipn app].
    rewrite Hp, IH. reflexivity.
  Qed.

  (** For a function of one point this is the list of its values. *)
  Lemma eval_on_fiber_point d t (ops : list (fop X Y)) w f k l r ts :
    t = ND \/ t = INTND ->
    frun zero (fwrap_create d t) ops = Ok w -> in_fibers (rev ops) = true ->
    selected (rev ops) = Some k -> fixed_values k (rev ops) = Some (l, r) ->
    point_fun (rev ops) = Some f ->
    fwrap_eval zero w (length ts) ts = Ok (map (fun t => f (l ++ t :: r)) ts, 0).
  Proof.
    intros Hty E Hin Hsel Hfix Hf.
    pose proof (agrees_run d t ops _ [] w (agrees_create d t) E) as A.
    rewrite app_nil_r in A. destruct A as (_ & _ & _ & _ & _ & _ & _ & _ & _ & _ & Hfib).
    destruct (Hfib Hin) as (vals & _ & _ & _ & Kv). destruct (Kv k l r Hfix) as (_ & Hlr & _).
    rewrite (eval_on_fiber d t ops w (fun n x => (map f (blocks d n x), 0)) k l r
               (length ts) ts E Hin Hsel Hfix); auto.
    - do 2 f_equal. rewrite <- (map_length (fun t => l ++ t :: r) ts) at 1.
      rewrite blocks_concat.
      + now rewrite map_map.
      + apply Forall_forall. intros p Hp. apply in_map_iff in Hp as (y & <- & _).
        rewrite app_length. cbn. lia.
    - unfold user_fun. rewrite Hf. destruct Hty as [-> | ->]; reflexivity.
  Qed.
End Fwrap.
