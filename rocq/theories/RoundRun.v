(** Right orthogonalisation and the rounding loop. *)
From Coq Require Import Reals Lra.
From Verif Require Import Fill ParamFacts FTInt.
From Verif Require Export RoundStep.
Open Scope R_scope.

Lemma for_from_or {S} (F : Prop) (I : nat -> S -> Prop) body lo n s :
  I lo s ->
  (forall i s, (lo <= i < lo + n)%nat -> I i s ->
     (exists s', body i s = Ok s' /\ I (Datatypes.S i) s') \/ (body i s = Abort /\ F)) ->
  (exists s', for_from lo n body s = Ok s' /\ I (lo + n)%nat s') \/ (for_from lo n body s = Abort /\ F).
Proof.
  revert lo s; induction n as [|n IH]; intros lo s H0 Hb.
  - left. exists s. cbn. rewrite Nat.add_0_r. auto.
  - cbn [for_from]. destruct (Hb lo s ltac:(lia) H0) as [(s' & E & H1)|[E Hf]]; rewrite E; cbn [obind]; [|right; auto].
    replace (lo + Datatypes.S n)%nat with (Datatypes.S lo + n)%nat by lia. apply IH; auto. intros i s1 Hi. apply Hb. lia.
Qed.

Lemma upd_mid {A} (z x y : A) k l : upd (repeat z k ++ x :: l) k y = repeat z k ++ y :: l.
Proof. induction k as [|k IH]; cbn; [reflexivity|now rewrite IH]. Qed.
Lemma repeat_last {A} (z : A) k l : repeat z (k + 1) ++ l = repeat z k ++ z :: l.
Proof. induction k as [|k IH]; cbn; [reflexivity|now rewrite IH]. Qed.

Lemma splice_cons {A} off (a : A) p l : (off + S (length p) <= length l)%nat ->
  splice (S off) p (upd l off a) = splice off (a :: p) l.
Proof.
  intros H. pose proof (splice_snoc off [] l a) as E. cbn [length app] in E. rewrite splice_nil, Nat.add_0_r in E. rewrite E by lia.
  pose proof (splice_app off [a] p l) as E2. cbn [length app] in E2. rewrite Nat.add_1_r in E2. rewrite E2 by lia. reflexivity.
Qed.

Lemma splice_end {A} (x y : A) n p q : length p = n ->
  upd (splice (length q) p (q ++ repeat x (S n))) (length q + n) y = q ++ p ++ [y].
Proof.
  intros <-. unfold splice. rewrite firstn_app, Nat.sub_diag, firstn_all. cbn [firstn]. rewrite app_nil_r.
  rewrite skipn_app, skipn_all2 by lia. replace (length q + length p - length q)%nat with (length p) by lia. cbn [app].
  replace (skipn (length p) (repeat x (S (length p)))) with [x].
  - rewrite upd_app_r. f_equal. rewrite <- (Nat.add_0_r (length p)) at 1. now rewrite upd_app_r.
  - generalize (length p). intros m. induction m as [|m IH]; [reflexivity|]. cbn [skipn repeat]. exact IH.
Qed.

Section Wf.
  Context {U : uops Rring}.
  Lemma chain_at r cs r' k : chain (U := U) r cs r' -> (k < length cs)%nat ->
    exists c, nth_error cs k = Some c /\ qwf c /\ (0 < nr c)%nat /\ (0 < nc c)%nat /\
      nth_error (r :: map nc cs) k = Some (nr c) /\ nth_error (r :: map nc cs) (k + 1) = Some (nc c) /\
      skipn k cs = c :: skipn (k + 1) cs /\ chain (nc c) (skipn (k + 1) cs) r'.
  Proof.
    revert r k; induction cs as [|c cs IH]; intros r k H Hk; [cbn in Hk; lia|].
    destruct H as (H1 & H2 & H3 & H4 & H5). destruct k as [|k].
    - exists c. cbn. repeat split; auto.
    - destruct (IH (nc c) k H5) as (c' & E & W & P1 & P2 & R1 & R2 & S1 & C1); [cbn in Hk; lia|].
      exists c'. cbn [nth_error Nat.add map skipn]. auto 10.
  Qed.
  Lemma wf_at (a : ftrain U) k : ft_wf a -> (k < ft_dim a)%nat ->
    exists c, nth_error (ft_cores a) k = Some c /\ qwf c /\ (0 < nr c)%nat /\ (0 < nc c)%nat /\
      nth_error (ft_ranks a) k = Some (nr c) /\ nth_error (ft_ranks a) (k + 1) = Some (nc c) /\
      skipn k (ft_cores a) = c :: skipn (k + 1) (ft_cores a) /\ chain (nc c) (skipn (k + 1) (ft_cores a)) 1.
  Proof. intros (H1 & _ & H2 & H3) Hk. rewrite H2. apply chain_at; auto. lia. Qed.
End Wf.

Section Run.
  Context {U : uops Rring} (P : (U -> R) -> Prop).
  Hypothesis Pin : forall g : U, P (fun f => (uinner f g : R)).
  Hypothesis Plin : forall phi, P phi -> linfun (R := Rring) phi.
  Hypothesis Sym : forall f g : U, (uinner f g : R) = uinner g f.
  Notation e2 := (ent2 (R := Rring) (fun f g : U => uinner f g)).
  Notation en := (ent (R := Rring)).
  Context (svdf : nat -> nat -> list R -> outcome (list R * list R * list R))
          (qr lq : nat -> qma U -> list R -> outcome (qma U * list R)) (N : nat) (fail : Prop).
  Hypothesis Hsvd : svd_law N fail svdf.
  Hypothesis Hqr : qr_law P N fail qr.
  Hypothesis Hlq : lq_law P N fail lq.

  (** Value of a suffix under functionals, with real sums. *)
  Fixpoint va (hs : list (U -> R)) (cs : list (qma U)) (i : nat) : R :=
    match cs, hs with
    | c :: cs', h :: hs' => rsum (nc c) (fun j => en h c i j * va hs' cs' j)
    | _, _ => 1
    end.
  Lemma va_val hs cs i : va hs cs i = val (R := Rring) hs cs i.
  Proof.
    revert hs i; induction cs as [|c cs IH]; intros [|h hs] i; try reflexivity.
    cbn [va val]. rewrite rsum_sum. apply (sum_ext Rring). intros j _. now rewrite IH.
  Qed.

  (** cs = L Gs as a suffix. *)
  Definition suf (r : nat) (cs : list (qma U)) (L : list R) (Gs : list (qma U)) : Prop :=
    (forall hs, Forall P hs -> length hs = length cs -> forall i, (i < r)%nat ->
       va hs cs i = rsum r (fun j => mat r L i j * va hs Gs j)) /\
    (forall ds, length ds = length cs -> forall i l, (i < r)%nat ->
       v2 cs ds i l = rsum r (fun j => mat r L i j * v2 Gs ds j l)).

  Lemma suf_push c T Gs cs L r : suf r cs L Gs -> length cs = length Gs -> nc c = r -> nr T = nr c -> nc T = r -> rmul P T c (cm r L) ->
    (forall hs, Forall P hs -> length hs = S (length cs) -> forall i, (i < nr c)%nat -> va hs (c :: cs) i = va hs (T :: Gs) i) /\
    (forall ds, length ds = S (length cs) -> forall i l, (i < nr c)%nat -> v2 (c :: cs) ds i l = v2 (T :: Gs) ds i l).
  Proof.
    intros [S1 S2] HL Hc HT1 HT2 HM. split.
    - intros [|h hs] Hp Hl i Hi; [discriminate|]. inversion Hp as [|? ? Hh Hp']; subst. injection Hl as Hl. cbn [va].
      transitivity (rsum (nc c) (fun a => rsum (nc c) (fun j => cm (nc c) L a j * en h c i a * va hs Gs j))).
      + apply rsum_ext. intros a Ha. rewrite (S1 hs Hp' Hl a Ha). rewrite <- rsum_scal. apply rsum_ext. intros j _. unfold cm, mat. ring.
      + rewrite rsum_swap, HT2. apply rsum_ext. intros j Hj. rewrite (HM h i j Hh) by lia. apply rsum_mul_r.
    - intros [|d ds] Hl i l Hi; [discriminate|]. injection Hl as Hl. subst r. cbn [v2].
      transitivity (rsum (nc c) (fun a => rsum (nc c) (fun j => rsum (nc d) (fun m => cm (nc c) L a j * e2 c i a d l m * v2 Gs ds j m)))).
      + apply rsum_ext. intros a Ha. rewrite rsum_swap. apply rsum_ext. intros m _. rewrite (S2 ds Hl a m Ha). rewrite <- rsum_scal. apply rsum_ext. intros j _. unfold cm, mat. ring.
      + rewrite rsum_swap, HT2. apply rsum_ext. intros j Hj. rewrite rsum_swap. apply rsum_ext. intros m _.
        rewrite (rmul_e2 P Pin T c _ d i j l m HM) by lia. apply rsum_mul_r.
  Qed.
  Lemma suf_lq T Q L Gs : lmul P T (mat (nr T) L) Q -> nr Q = nr T -> nc Q = nc T -> suf (nr T) (T :: Gs) L (Q :: Gs).
  Proof.
    intros HM H1 H2. split.
    - intros [|h hs] Hp Hl i Hi; [discriminate|]. inversion Hp as [|? ? Hh Hp']; subst. cbn [va]. rewrite H2.
      transitivity (rsum (nc T) (fun j => rsum (nr T) (fun p => mat (nr T) L i p * (en h Q p j * va hs Gs j)))).
      + apply rsum_ext. intros j Hj. rewrite (HM h i j Hh Hi Hj), H1. rewrite <- rsum_mul_r. apply rsum_ext. intros; ring.
      + rewrite rsum_swap. apply rsum_ext. intros p _. apply rsum_scal.
    - intros ds Hl i l Hi. rewrite (v2_lmul P Pin T _ Q Gs ds i l HM Hi) by (auto; intros ->; discriminate). now rewrite H1.
  Qed.
  Lemma suf_ext r cs cs' L Gs : 
    (forall hs, Forall P hs -> length hs = length cs -> forall i, (i < r)%nat -> va hs cs i = va hs cs' i) ->
    (forall ds, length ds = length cs -> forall i l, (i < r)%nat -> v2 cs ds i l = v2 cs' ds i l) -> length cs = length cs' ->
    suf r cs' L Gs -> suf r cs L Gs.
  Proof.
    intros H1 H2 HL [S1 S2]. split.
    - intros hs Hp Hl i Hi. rewrite H1 by auto. apply S1; auto; congruence.
    - intros ds Hl i l Hi. rewrite H2 by auto. apply S2; auto; congruence.
  Qed.

  Definition bounded (a : ftrain U) : Prop := forall c, In c (ft_cores a) -> (nr c <= N)%nat /\ (nc c <= N)%nat.

  Lemma lq_step core T : qwf T -> (0 < nr T <= N)%nat -> (0 < nc T)%nat ->
    (exists Q L, lq core T (repeat 0 (nr T * nr T)) = Ok (Q, L) /\ qwf Q /\ nr Q = nr T /\ nc Q = nc T /\ length L = (nr T * nr T)%nat /\
       row_orth Q /\ forall Gs, suf (nr T) (T :: Gs) L (Q :: Gs)) \/
    (lq core T (repeat 0 (nr T * nr T)) = Abort /\ fail).
  Proof.
    intros Hw Hr Hc. destruct (Hlq core T Hw Hr Hc) as [(Q & L & E & I)|H]; [left|right; auto].
    pose proof (lq_lmul P T Q L I) as HM. destruct I as ((I1 & I2 & I3) & I4 & I5 & _).
    exists Q, L. split; [exact E|]. split; [exact I3|]. split; [exact I1|]. split; [exact I2|]. split; [exact I4|]. split.
    - intros i j Hi Hj. rewrite I1 in Hi, Hj. auto.
    - intros Gs. now apply suf_lq.
  Qed.

  Lemma orthor_ok (a : ftrain U) : ft_wf a -> (2 <= ft_dim a)%nat -> bounded a ->
    (exists G0 Gs, ft_orthor lq a = Ok (mkft (ft_dim a) (ft_ranks a) (G0 :: Gs)) /\
       map nc (G0 :: Gs) = map nc (ft_cores a) /\ chain 1 (G0 :: Gs) 1 /\
       (forall c, In c Gs -> row_orth c) /\
       (forall hs, Forall P hs -> length hs = ft_dim a -> va hs (ft_cores a) 0 = va hs (G0 :: Gs) 0) /\
       (forall ds, length ds = ft_dim a -> forall l, v2 (ft_cores a) ds 0 l = v2 (G0 :: Gs) ds 0 l)) \/
    (ft_orthor lq a = Abort /\ fail).
  Proof.
    intros Hw Hd HB. set (d := ft_dim a) in *. pose proof Hw as (HD & _ & HR & HC).
    unfold ft_orthor. fold d.
    destruct (wf_at a (d - 1) Hw ltac:(unfold d; lia)) as (c & Ec & Wc & Pr & Pc & R1 & R2 & Sk & Ch).
    rewrite (aget_ok _ _ _ Ec). cbn [obind].
    assert (Bc : (nr c <= N)%nat) by (apply HB; eapply nth_error_In; eauto).
    replace (d - 1 + 1)%nat with d in * by lia.
    assert (Sd : skipn d (ft_cores a) = []) by (apply skipn_all2; unfold d; lia). rewrite Sd in *. cbn in Ch.
    destruct (lq_step (d - 1) c Wc ltac:(lia) Pc) as [(Q & L & EQ & WQ & Q1 & Q2 & LL & QO & QS)|[EQ Fl]]; rewrite EQ; cbn [obind]; [|right; auto].
    rewrite aset_ok by (rewrite repeat_length; lia). cbn [obind].
    pose (I := fun ii (s : list (option (qma U)) * list R) => exists Gs r,
       length Gs = (ii - 1)%nat /\ fst s = repeat None (d - ii + 1) ++ map Some Gs /\
       nth_error (ft_ranks a) (d - ii + 1) = Some r /\ length (snd s) = (r * r)%nat /\
       chain r Gs 1 /\ map nc Gs = map nc (skipn (d - ii + 1) (ft_cores a)) /\
       (forall c, In c Gs -> row_orth c) /\ suf r (skipn (d - ii + 1) (ft_cores a)) (snd s) Gs).
    match goal with |- context [for_from 2 (d - 2)%nat ?b ?s] =>
      destruct (for_from_or fail I b 2 (d - 2) s) as [([cs L'] & EL & HI)|[EL Fl]] end.
    - exists [Q], (nr c). cbn [fst snd]. replace (d - 2 + 1)%nat with (d - 1)%nat by lia. split; [reflexivity|]. split.
      { rewrite <- (app_nil_r (repeat None d)). replace (repeat (@None (qma U)) d) with (repeat (@None (qma U)) (d - 1 + 1)) by (f_equal; lia).
        rewrite repeat_last. apply upd_mid. }
      split; [exact R1|]. split; [exact LL|]. split; [cbn; repeat split; auto; lia|]. rewrite Sk.
      split; [cbn; congruence|]. split; [|apply QS]. intros c' [<-|[]]. exact QO.
    - intros ii [cs L1] Hii (Gs & r & G1 & G2 & G3 & G4 & G5 & G6 & G7 & G8). cbn [fst snd] in *. subst cs.
      destruct (wf_at a (d - ii) Hw ltac:(unfold d in *; lia)) as (ck & Eck & Wck & Prk & Pck & Rk1 & Rk2 & Skk & Chk).
      assert (nc ck = r) by congruence. subst r.
      rewrite (aget_ok _ _ _ Eck). cbn [obind]. rewrite (aget_ok _ _ _ Rk2). cbn [obind].
      assert (Bk : (nr ck <= N)%nat) by (apply HB; eapply nth_error_In; eauto).
      destruct (qmam_rmul P Plin ck L1 (nc ck) Wck Pck G4) as (T & ET & T1 & T2 & WT & RT).
      rewrite ET. cbn [obind]. rewrite (aget_ok _ _ _ Rk1). cbn [obind].
      rewrite <- T1.
      destruct (lq_step (d - ii) T WT ltac:(lia) ltac:(lia)) as [(Q' & L2 & EQ' & WQ' & Q1' & Q2' & LL' & QO' & QS')|[EQ' Fl]];
        rewrite EQ'; cbn [obind]; [left|right; auto].
      rewrite aset_ok by (rewrite app_length, repeat_length; lia). cbn [obind].
      eexists. split; [reflexivity|]. exists (Q' :: Gs), (nr T). cbn [fst snd].
      replace (d - S ii + 1)%nat with (d - ii)%nat by lia.
      split; [cbn; lia|]. split.
      { rewrite repeat_last. apply upd_mid. }
      split; [congruence|]. split; [exact LL'|].
      split; [cbn; repeat split; auto; try lia; rewrite Q2', T2; exact G5|].
      rewrite Skk. split; [cbn; rewrite Q2', T2; f_equal; exact G6|].
      split; [intros c' [<-|Hin]; auto|].
      assert (Lsk : length (skipn (d - ii + 1) (ft_cores a)) = length Gs) by (rewrite skipn_length, G1; unfold d in *; lia).
      destruct (suf_push ck T Gs (skipn (d - ii + 1) (ft_cores a)) L1 (nc ck) G8 Lsk eq_refl T1 T2 RT) as [V1 V2].
      apply (suf_ext (nr T) (ck :: skipn (d - ii + 1) (ft_cores a)) (T :: Gs)).
      + intros hs Hp Hl i Hi. apply V1; auto. lia.
      + intros ds Hl i l Hi. apply V2; auto. lia.
      + cbn. now rewrite Lsk.
      + apply QS'.
    - rewrite EL. cbn [obind]. left.
      destruct HI as (Gs & r & G1 & G2 & G3 & G4 & G5 & G6 & G7 & G8). cbn [fst snd] in *. subst cs.
      replace (d - (2 + (d - 2)) + 1)%nat with 1%nat in * by lia. replace (2 + (d - 2) - 1)%nat with (d - 1)%nat in G1 by lia.
      destruct (wf_at a 0 Hw ltac:(unfold d in *; lia)) as (c0 & Ec0 & Wc0 & Pr0 & Pc0 & R10 & R20 & Sk0 & Ch0). cbn [Nat.add] in *.
      assert (nc c0 = r) by congruence. subst r.
      rewrite (aget_ok _ _ _ Ec0). cbn [obind]. rewrite (aget_ok _ _ _ R20). cbn [obind].
      destruct (qmam_rmul P Plin c0 L' (nc c0) Wc0 Pc0 G4) as (T & ET & T1 & T2 & WT & RT).
      rewrite ET. cbn [obind]. cbn [repeat app]. cbn [aset upd length]. 
      rewrite aset_ok by (cbn; lia). cbn [upd obind].
      change (Some T :: map Some Gs) with (map Some (T :: Gs)). rewrite freeze_map_Some. cbn [obind].
      exists T, Gs. split; [reflexivity|].
      assert (Lsk : length (skipn 1 (ft_cores a)) = length Gs) by (rewrite skipn_length, G1; unfold d in *; lia).
      destruct (suf_push c0 T Gs (skipn 1 (ft_cores a)) L' (nc c0) G8 Lsk eq_refl T1 T2 RT) as [V1 V2].
      cbn [skipn] in Sk0.
      assert (Hr1 : nr c0 = 1%nat). { rewrite HR in R10. cbn in R10. congruence. }
      split; [rewrite Sk0; cbn [map]; rewrite T2; f_equal; exact G6|].
      split; [cbn; repeat split; auto; try lia; rewrite T2; exact G5|].
      split; [exact G7|]. split.
      + intros hs Hp Hl. rewrite Sk0. apply V1; [exact Hp|rewrite Lsk, G1; lia|lia].
      + intros ds Hl l. rewrite Sk0. apply V2; [rewrite Lsk, G1; lia|lia].
    - rewrite EL. cbn [obind]. right. auto.
  Qed.

  (** ** The loop *)
  Notation sw cap delta := (sweep P (rank_rule cap delta)).

  Lemma loop_ok cap delta (ranks : list nat) (G : list (qma U)) d :
    (forall mx, cap = Some mx -> (0 < mx)%nat) ->
    length G = d -> (forall c, In c G -> (nc c <= N)%nat) ->
    forall m core temp cs rk, (core + m = d - 1)%nat -> (core < d)%nat ->
    qwf temp -> (0 < nr temp)%nat -> (0 < nc temp <= N)%nat -> chain (nc temp) (skipn (core + 1) G) 1 ->
    (forall k, nth_error ranks (core + 1 + k) = nth_error (nc temp :: map nc (skipn (core + 1) G)) k) ->
    length cs = d -> length rk = (d + 1)%nat ->
    (exists outs temp' dd,
       for_from core m (fun core (s : list (option (qma U)) * list nat * qma U) =>
        let '(cs, rk, temp) := s in
        do sizer <- aget ranks (core + 1)%nat;
        do (ru, temp) <- round_step svdf qr cap delta core temp (aget G (core + 1)%nat) sizer;
        let '(rank, Ua) := ru in
        do cs <- aset cs core (Some Ua);
        do rk <- aset rk (core + 1)%nat rank;
        Ok (cs, rk, temp)) (cs, rk, temp)
       = Ok (splice core (map Some outs) cs, splice (core + 1) (map nc outs) rk, temp') /\
       length outs = m /\ sw cap delta temp (skipn (core + 1) G) (outs ++ [temp']) dd) \/
    (for_from core m (fun core (s : list (option (qma U)) * list nat * qma U) =>
        let '(cs, rk, temp) := s in
        do sizer <- aget ranks (core + 1)%nat;
        do (ru, temp) <- round_step svdf qr cap delta core temp (aget G (core + 1)%nat) sizer;
        let '(rank, Ua) := ru in
        do cs <- aset cs core (Some Ua);
        do rk <- aset rk (core + 1)%nat rank;
        Ok (cs, rk, temp)) (cs, rk, temp) = Abort /\ fail).
  Proof.
    intros Hcap LG BG. induction m as [|m IH]; intros core temp cs rk Hm Hcd Wt Pt Qt Ch Hrk Lcs Lrk.
    - left. exists [], temp, 0. cbn [for_from map]. rewrite !splice_nil. split; [reflexivity|]. split; [reflexivity|].
      rewrite skipn_all2 by lia. constructor.
    - cbn [for_from].
      assert (HG : exists g, nth_error G (core + 1) = Some g /\ skipn (core + 1) G = g :: skipn (core + 1 + 1) G).
      { destruct (nth_error G (core + 1)) as [g|] eqn:E; [|apply nth_error_None in E; lia]. exists g. split; [reflexivity|].
        replace (core + 1 + 1)%nat with (S (core + 1)) by lia. now apply skipn_nth. }
      destruct HG as (g & Eg & Sg). rewrite Sg in Ch, Hrk.
      destruct Ch as (C1 & C2 & C3 & C4 & C5).
      pose proof (Hrk 0%nat) as H0. rewrite Nat.add_0_r in H0. cbn in H0.
      rewrite (aget_ok _ _ _ H0). cbn [obind]. rewrite (aget_ok _ _ _ Eg).
      destruct (round_step_ok P Pin Plin Sym svdf qr N fail Hsvd cap delta core temp g (nc temp) Wt Pt Qt eq_refl C2 C1 Hcap (Hqr core temp Wt Pt Qt))
        as [(rank & Ua & tp & w & V & ES & St & RR)|[ES Fl]]; rewrite ES; cbn [obind]; [|right; auto].
      rewrite aset_ok by lia. cbn [obind]. rewrite aset_ok by lia. cbn [obind].
      pose proof (st_rank _ _ _ _ _ _ _ _ St) as Hr. pose proof (st_Tnr _ _ _ _ _ _ _ _ St) as T1.
      pose proof (st_Tnc _ _ _ _ _ _ _ _ St) as T2.
      destruct (IH (S core) tp (upd cs core (Some Ua)) (upd rk (core + 1) rank)) as [(outs & temp' & dd & EL & LO & SW)|[EL Fl]].
      + lia.
      + lia.
      + apply St.
      + lia.
      + rewrite T2. split; [exact C4|]. apply BG. eapply nth_error_In; eauto.
      + rewrite T2. replace (S core + 1)%nat with (core + 1 + 1)%nat by lia. exact C5.
      + intros k. replace (S core + 1 + k)%nat with (core + 1 + S k)%nat by lia. rewrite Hrk. rewrite T2.
        replace (S core + 1)%nat with (core + 1 + 1)%nat by lia. reflexivity.
      + now rewrite upd_length.
      + now rewrite upd_length.
      + left. exists (Ua :: outs), temp', (dropped (nc temp) rank w + dd). rewrite EL. split; [|split].
        * f_equal. f_equal. f_equal.
          -- cbn [map]. apply splice_cons. rewrite map_length. lia.
          -- cbn [map]. rewrite (st_Unc _ _ _ _ _ _ _ _ St). replace (S core + 1)%nat with (S (core + 1)) by lia.
             apply splice_cons. rewrite map_length. lia.
        * cbn. lia.
        * rewrite Sg. cbn [app]. apply (sweep_cons P _ temp g _ rank Ua tp w V); auto.
          replace (core + 1 + 1)%nat with (S core + 1)%nat by lia. exact SW.
      + right. auto.
  Qed.

  Context (K : uctor U) (zt : R).
  Hypothesis Llin : law_inner_lin_r U.

  Theorem round_gen_ok cap (a : ftrain U) epsilon :
    ft_wf a -> (2 <= ft_dim a)%nat -> bounded a -> (forall mx, cap = Some mx -> (0 < mx)%nat) ->
    let nrm := sqrt (Rabs (train_inner (R := Rring) a a)) in
    let delta := nrm * epsilon / sqrt (INR (ft_dim a - 1)) in
    (nrm < zt /\ ft_round_gen svdf qr lq K zt cap a epsilon = ft_constant K (1 : Rring) (0 : Rring) (ft_dim a)) \/
    (zt <= nrm /\ exists G0 Gs outs dd,
       ft_round_gen svdf qr lq K zt cap a epsilon = Ok (mkft (ft_dim a) (1%nat :: map nc outs) outs) /\
       ft_orthor lq a = Ok (mkft (ft_dim a) (ft_ranks a) (G0 :: Gs)) /\
       ft_wf (mkft (ft_dim a) (1%nat :: map nc outs) outs) /\
       sw cap delta G0 Gs outs dd /\ chain 1 (G0 :: Gs) 1 /\ (forall c, In c Gs -> row_orth c) /\
       map nc (G0 :: Gs) = map nc (ft_cores a) /\
       (forall ds, length ds = ft_dim a -> forall l, v2 (ft_cores a) ds 0 l = v2 (G0 :: Gs) ds 0 l)) \/
    (zt <= nrm /\ ft_round_gen svdf qr lq K zt cap a epsilon = Abort /\ fail).
  Proof.
    intros Hw Hd HB Hcap nrm delta. pose proof Hw as (HD & _ & HR & HC).
    assert (EN : ft_norm2 a = Ok nrm).
    { unfold ft_norm2. rewrite ft_inner_ok by auto. reflexivity. }
    unfold ft_round_gen. rewrite EN. cbn [obind].
    destruct (Rltb_spec nrm zt) as [H|H]; [left; auto|]. right. apply Rnot_lt_le in H.
    rewrite ft_copy_ok by auto. cbn [obind]. rewrite EN. cbn [obind]. fold delta.
    destruct (orthor_ok a Hw Hd HB) as [(G0 & Gs & EO & Mnc & Ch & RO & _ & V2)|[EO Fl]]; rewrite EO; cbn [obind]; [|right; auto].
    set (d := ft_dim a) in *. cbn [ft_cores ft_dim].
    assert (LG : length (G0 :: Gs) = d). { apply (f_equal (@length nat)) in Mnc. rewrite !map_length in Mnc. unfold d. lia. }
    assert (BG : forall c, In c (G0 :: Gs) -> (nc c <= N)%nat).
    { intros c Hin. assert (In (nc c) (map nc (ft_cores a))) as Hin' by (rewrite <- Mnc; now apply in_map).
      apply in_map_iff in Hin' as (c' & <- & Hc'). now apply HB. }
    destruct Ch as (C1 & C2 & C3 & C4 & C5).
    destruct Gs as [|G1 Gs]; [cbn in LG; lia|]. pose proof C5 as (D1 & D2 & D3 & D4 & D5).
    assert (Hde : exists e, d = S (S e)) by (exists (d - 2)%nat; lia). destruct Hde as [e Hde].
    rewrite aset_ok by (rewrite repeat_length; lia). cbn [obind]. rewrite (aget_ok (G0 :: G1 :: Gs) 0 G0) by reflexivity. cbn [obind].
    rewrite (aget_ok (G0 :: G1 :: Gs) 1 G1) by reflexivity.
    destruct (round_step_ok P Pin Plin Sym svdf qr N fail Hsvd cap delta 0 G0 G1 (nc G0) C2 C3 (conj C4 (BG _ (or_introl eq_refl))) eq_refl D2 D1 Hcap (Hqr 0%nat G0 C2 C3 (conj C4 (BG _ (or_introl eq_refl)))))
        as [(rank & Ua & tp & w & V & ES & St & RR)|[ES Fl]]; rewrite ES; cbn [obind]; [|right; auto].
    pose proof (st_rank _ _ _ _ _ _ _ _ St) as Hr. pose proof (st_Tnr _ _ _ _ _ _ _ _ St) as T1.
    pose proof (st_Tnc _ _ _ _ _ _ _ _ St) as T2.
    rewrite aset_ok by (rewrite repeat_length; lia). cbn [obind].
    rewrite aset_ok by (rewrite upd_length, repeat_length; lia). cbn [obind].
    destruct (loop_ok cap delta (ft_ranks a) (G0 :: G1 :: Gs) d Hcap LG BG (d - 1 - 1) 1 tp (upd (repeat None d) 0 (Some Ua))
       (upd (upd (repeat 0%nat (d + 1)) 0 1%nat) 1 rank)) as [(outs & temp' & dd & EL & LO & SW)|[EL Fl]].
    - lia.
    - lia.
    - apply St.
    - lia.
    - rewrite T2. split; [exact D4|]. apply BG. right. now left.
    - rewrite T2. exact D5.
    - intros k. rewrite HR. rewrite T2. cbn [skipn Nat.add]. rewrite <- Mnc. reflexivity.
    - now rewrite upd_length, repeat_length.
    - now rewrite !upd_length, repeat_length.
    - rewrite EL. cbn [obind]. left. split; [exact H|].
      exists G0, (G1 :: Gs), (Ua :: outs ++ [temp']), (dropped (nc G0) rank w + dd).
      assert (SW' : sw cap delta G0 (G1 :: Gs) (Ua :: outs ++ [temp']) (dropped (nc G0) rank w + dd)).
      { apply (sweep_cons P _ G0 G1 Gs rank Ua tp w V); auto. }
      destruct (sweep_chain P _ G0 (G1 :: Gs) _ _ SW' C2 C3 C4 C5) as [CH _]. rewrite C1 in CH.
      assert (Ncl : nc temp' = 1%nat).
      { clear - CH. change (Ua :: outs ++ [temp']) with ((Ua :: outs) ++ [temp']) in CH. revert CH. generalize 1%nat at 1. generalize (Ua :: outs). intros l. 
        induction l as [|c l IH]; intros r (H1 & H2 & H3 & H4 & H5); [exact H5|]. now apply (IH (nc c)). }
      assert (HLo : length outs = e) by lia.
      rewrite Hde. cbn [repeat upd Nat.add].
      pose proof (splice_end (@None (qma U)) (Some temp') e (map Some outs) [Some Ua]) as F1. rewrite map_length in F1. specialize (F1 HLo).
      cbn [length app repeat Nat.add] in F1.
      pose proof (splice_end 0%nat 1%nat e (map nc outs) [1%nat; rank]) as F2. rewrite map_length in F2. specialize (F2 HLo).
      cbn [length app repeat Nat.add] in F2.
      replace (S (S e) - 1)%nat with (S e) by lia.
      rewrite aset_ok by (rewrite splice_length; cbn [length]; rewrite ?map_length, ?repeat_length; lia). cbn [obind]. rewrite F1.
      replace (e + 1)%nat with (S e) by lia. cbn [repeat].
      rewrite aset_ok by (rewrite splice_length; cbn [length]; rewrite ?map_length, ?repeat_length; lia). cbn [obind]. rewrite F2.
      replace (Some Ua :: map Some outs ++ [Some temp']) with (map Some (Ua :: outs ++ [temp'])) by (cbn; now rewrite map_app).
      rewrite freeze_map_Some. cbn [obind].
      split. { f_equal. f_equal. cbn [map]. rewrite map_app, (st_Unc _ _ _ _ _ _ _ _ St). cbn [map]. now rewrite Ncl. }
      split. { rewrite <- Hde. reflexivity. }
      split.
      { split; [|split; [|split]]; cbn [ft_dim ft_cores ft_ranks]; [cbn; rewrite app_length; cbn; lia|lia|reflexivity|exact CH]. }
      split; [exact SW'|]. split; [cbn; auto|]. split; [exact RO|]. split; [exact Mnc|]. rewrite <- Hde. exact V2.
    - rewrite EL. cbn [obind]. right. auto.
  Qed.
End Run.
