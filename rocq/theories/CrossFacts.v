(** Proofs about cross approximation: the cores made from fibers, and the sweeps. *)
From Coq Require Import Reals Lra.
From Verif Require Import Base BaseFacts Fill IdxModel IdxFacts FwrapModel FwrapFacts FTModel FTSpec FTFacts QmaFacts.
From Verif Require Import OrthAbs RoundRun LuFacts PinvModel CrossModel.
Open Scope nat_scope.

(** ** No undefined behaviour: a result with [P], or the program stops; [F] says whether it
    may run forever. *)
Definition safe (F : Prop) {A} (P : A -> Prop) (o : outcome A) : Prop :=
  match o with Ok a => P a | Abort => True | UB => False | OutOfFuel => F end.
Section Safe.
  Context (F : Prop).
  Lemma safe_bind {A B} (P : A -> Prop) (Q : B -> Prop) o k : safe F P o -> (forall a, P a -> safe F Q (k a)) -> safe F Q (obind o k).
  Proof. destruct o; cbn; auto; contradiction. Qed.
  Lemma safe_imp {A} (P Q : A -> Prop) o : safe F P o -> (forall a, P a -> Q a) -> safe F Q o.
  Proof. destruct o; cbn; auto. Qed.
  Lemma safe_ok {A} (P : A -> Prop) o a : o = Ok a -> P a -> safe F P o.
  Proof. now intros ->. Qed.
  Lemma safe_for_from {S} (I : nat -> S -> Prop) body lo n s : I lo s ->
    (forall i s, lo <= i < lo + n -> I i s -> safe F (I (Datatypes.S i)) (body i s)) -> safe F (I (lo + n)) (for_from lo n body s).
  Proof.
    revert lo s; induction n as [|n IH]; intros lo s H0 Hb; cbn [for_from]; [cbn; now rewrite Nat.add_0_r|].
    eapply safe_bind; [apply Hb; [lia|exact H0]|]. cbn beta. intros s' H1. replace (lo + Datatypes.S n) with (Datatypes.S lo + n) by lia.
    apply IH; auto. intros i s1 Hi. apply Hb. lia.
  Qed.
  Lemma safe_for {S} (I : nat -> S -> Prop) body n s : I 0 s ->
    (forall i s, i < n -> I i s -> safe F (I (Datatypes.S i)) (body i s)) -> safe F (I n) (for_ n body s).
  Proof. intros H0 Hb. apply (safe_for_from I body 0 n s H0). intros i s1 Hi. apply Hb. lia. Qed.
  Lemma safe_aget {A} (P : A -> Prop) (l : list A) k a : nth_error l k = Some a -> P a -> safe F P (aget l k).
  Proof. intros H HP. now rewrite (aget_ok _ _ _ H). Qed.
End Safe.

(** The wrapper evaluates [f] at points of dimension [d]. *)
Definition pointwise (d : nat) (f : list R -> R) (u : @vfun R R) : Prop :=
  forall pts, Forall (fun p => length p = d) pts -> u (length pts) (concat pts) = (map f pts, 0).
Definition wraps (d : nat) (f : list R -> R) (w : fwrap R R) : Prop :=
  exists t h u, agrees d t w h /\ user_fun d t h = Some u /\ pointwise d f u.

Lemma user_fun_skip d t (h : list (fop R R)) o :
  match o with OInit _ _ | OAdd _ _ _ | OFiber _ | OClean | OEval _ _ => True | _ => False end -> user_fun d t (o :: h) = user_fun d t h.
Proof. destruct o; cbn; tauto || (intros _; reflexivity). Qed.

(** The entries of an index set; NULL has one entry, the empty one. *)
Definition node (s : iset) (k : nat) : list R := match s with None => [] | Some c => nth k (ci_nodes c) [] end.

Section Facts.
  Context (D : nat -> R -> Prop).
  (** coordinates [off], [off+1], ... of a point of the domain *)
  Definition inD (off : nat) (l : list R) : Prop := forall k x, nth_error l k = Some x -> D (off + k) x.
  Lemma inD_nil off : inD off [].
  Proof. intros [|k] x H; discriminate. Qed.
  Lemma inD_cons off x l : D off x -> inD (S off) l -> inD off (x :: l).
  Proof. intros H1 H2 [|k] y H; cbn in H; [injection H as <-; now rewrite Nat.add_0_r|]. replace (off + S k) with (S off + k) by lia. now apply H2. Qed.
  Lemma inD_app off a b : inD off a -> inD (off + length a) b -> inD off (a ++ b).
  Proof.
    intros H1 H2 k x H. destruct (Nat.lt_ge_cases k (length a)) as [L|L].
    - rewrite nth_error_app1 in H by auto. now apply H1.
    - rewrite nth_error_app2 in H by auto. replace (off + k) with (off + length a + (k - length a)) by lia. now apply H2.
  Qed.

  (** [n] entries of length [m], from coordinate [off] on, in the domain *)
  Definition iset_ok (off m n : nat) (s : iset) : Prop :=
    match s with
    | None => m = 0
    | Some c => ci_wf c /\ ci_d c = m /\ n <= ci_n c /\ forall k, k < ci_n c -> inD off (node s k)
    end.

  Lemma node_value_ok off m n s k : iset_ok off m n s -> k < n -> node_value s k = Ok (node s k, m) /\ length (node s k) = m /\ inD off (node s k).
  Proof.
    intros H Hk. destruct s as [c|]; cbn in *.
    - destruct H as (Wf & <- & Hn & HD). destruct (get_node_ok c k Wf ltac:(lia)) as [E L]. rewrite E. cbn [obind].
      split; [now rewrite L|]. split; [exact L|]. apply HD. lia.
    - subst m. split; [reflexivity|]. split; [reflexivity|apply inD_nil].
  Qed.

  Context (d : nat) (f : list R -> R) {U : uops Rring} (approx1 : nat -> fwrap R R -> outcome U).
  (** what is known of the approximation [u] of [t |-> f (l ++ t :: r)] *)
  Context (E : nat -> list R -> list R -> U -> Prop).

  (** The univariate approximation of a fiber, or the program stops. *)
  Context (F : Prop).
  Definition approx_law : Prop := forall l r w, length l + 1 + length r = d -> inD 0 l -> inD (length l + 1) r ->
    (forall ts, fwrap_eval (0%R : R) w (length ts) ts = Ok (map (fun t => f (l ++ t :: r)) ts, 0)) ->
    safe F (E (length l) l r) (approx1 (length l) w).

  Section Prep.
    Context (ii nrows ncols : nat) (li ri : iset) (Hii : ii < d).
    Context (Hl : iset_ok 0 ii nrows li) (Hr : iset_ok (ii + 1) (d - 1 - ii) ncols ri).

    (** In fiber mode with [n] fibers, those of which [done] says so being set. *)
    Definition fibered (n : nat) (done : nat -> Prop) (w : fwrap R R) : Prop :=
      exists t h u, agrees d t w h /\ user_fun d t h = Some u /\ pointwise d f u /\ in_fibers h = true /\
        fw_fiber_dim w = ii /\ fw_nfibers w = n /\
        forall a b, a < nrows -> b < ncols -> done (b * nrows + a) -> fixed_values (b * nrows + a) h = Some (node li a, node ri b).

    Lemma fibered_add n done w a b : fibered n done w -> a < nrows -> b < ncols -> b * nrows + a < n ->
      exists w', fwrap_add_fiber w (b * nrows + a) ii (node li a) (d - 1 - ii) (node ri b) = Ok w' /\
        fibered n (fun k => done k \/ k = b * nrows + a) w'.
    Proof.
      intros (t & h & u & A & Hu & Hp & Hin & Hd & Hn & Hf) Ha Hb Hab.
      destruct (node_value_ok _ _ _ _ a Hl Ha) as (_ & L1 & _). destruct (node_value_ok _ _ _ _ b Hr Hb) as (_ & L2 & _).
      pose proof A as (Ad & _ & Aap & _ & _ & _ & _ & _ & _ & _ & Afib).
      destruct (Afib Hin) as (vals & Ev & Lv & Fv & _).
      assert (Eq : exists w', fwrap_add_fiber w (b * nrows + a) ii (node li a) (d - 1 - ii) (node ri b) = Ok w' /\ fw_fiber_dim w' = ii /\ fw_nfibers w' = n).
      { unfold fwrap_add_fiber. rewrite Aap, Hin, Ad, Hd, Hn, Ev. cbn [cassert obind].
        rewrite (proj2 (Nat.eqb_eq _ _)) by lia. cbn [cassert obind]. rewrite Nat.eqb_refl. cbn [cassert obind].
        rewrite (proj2 (Nat.ltb_lt _ _)) by lia. cbn [cassert obind].
        destruct (aget_lt vals (b * nrows + a)) as (v & Nv & ->); [lia|]. cbn [obind].
        assert (Lvi : length v = d) by (rewrite Forall_forall in Fv; apply Fv; now apply nth_error_In in Nv).
        destruct (copy2_ok (node li a) (node ri b) v) as (z & Ec); [rewrite L1, L2; lia|]. rewrite L1, L2 in Ec.
        destruct (copyn ii (node li a) 0 v 0) as [v'| | |]; cbn [obind] in *; try discriminate.
        rewrite Ec. cbn [obind]. rewrite aset_ok by lia. cbn [obind]. eexists. split; [reflexivity|]. split; reflexivity. }
      destruct Eq as (w' & Ew & D' & N'). exists w'. split; [exact Ew|].
      set (o := OAdd (Y := R) (b * nrows + a) (node li a) (node ri b)).
      exists t, (o :: h), u. split; [apply (agrees_step (0%R : R) d t w h o w' A); cbn; rewrite L1, L2; exact Ew|].
      split; [now rewrite user_fun_skip|]. split; [exact Hp|]. split; [exact Hin|]. split; [exact D'|]. split; [exact N'|].
      intros a' b' Ha' Hb' Hdone. unfold o. cbn [fixed_values]. destruct (Nat.eqb_spec (b * nrows + a) (b' * nrows + a')) as [Eq|Ne].
      - assert (b = b') as -> by nia. assert (a = a') as -> by lia. reflexivity.
      - apply Hf; auto. destruct Hdone as [X|X]; [exact X|]. exfalso. apply Ne. auto.
    Qed.

    Lemma fibered_ext n (P Q : nat -> Prop) w : (forall k, Q k -> P k) -> fibered n P w -> fibered n Q w.
    Proof. intros H (t & h & u & H1 & H2 & H3 & H4 & H5 & H6 & H7). exists t, h, u. repeat (split; [assumption|]). intros a b Ha Hb Hq. apply H7; auto. Qed.

    (** all fibers are added *)
    Lemma prep_add w : fibered (nrows * ncols) (fun _ => False) w ->
      safe F (fibered (nrows * ncols) (fun _ => True)) (for_ ncols (fun jj fw =>
        do (xr, n2) <- node_value ri jj;
        for_ nrows (fun kk fw =>
          do (xl, n1) <- node_value li kk;
          fwrap_add_fiber fw (jj * nrows + kk) n1 xl n2 xr) fw) w).
    Proof.
      intros H. eapply safe_imp; [apply (safe_for F (fun jj => fibered (nrows * ncols) (fun k => k < jj * nrows)))|].
      - eapply fibered_ext; [|exact H]. cbn. lia.
      - intros jj w1 Hj H1. destruct (node_value_ok _ _ _ _ jj Hr Hj) as (Er & _ & _). rewrite Er. cbn [obind].
        eapply safe_imp; [apply (safe_for F (fun kk => fibered (nrows * ncols) (fun k => k < jj * nrows + kk)))|].
        + eapply fibered_ext; [|exact H1]. cbn. lia.
        + intros kk w2 Hk H2. destruct (node_value_ok _ _ _ _ kk Hl Hk) as (El & _ & _). rewrite El. cbn [obind].
          destruct (fibered_add _ _ _ kk jj H2 Hk Hj ltac:(nia)) as (w3 & E3 & H3). rewrite E3. cbn.
          eapply fibered_ext; [|exact H3]. cbn. lia.
        + intros w2 H2. eapply fibered_ext; [|exact H2]. cbn. lia.
      - intros w1 (t & h & u & H1 & H2 & H3 & H4 & H5 & H6 & H7). exists t, h, u. repeat (split; [assumption|]). intros a b Ha Hb _. apply H7; auto. nia.
    Qed.

    Lemma fibered_select n w a b : fibered n (fun _ => True) w -> a < nrows -> b < ncols -> b * nrows + a < n ->
      exists w', fwrap_set_which_fiber w (b * nrows + a) = Ok w' /\ fibered n (fun _ => True) w' /\
        forall ts, fwrap_eval (0%R : R) w' (length ts) ts = Ok (map (fun t => f (node li a ++ t :: node ri b)) ts, 0).
    Proof.
      intros (t & h & u & A & Hu & Hp & Hin & Hd & Hn & Hf) Ha Hb Hab.
      pose proof A as (Ad & _ & Aap & _).
      exists (set_onfiber' w (b * nrows + a)).
      assert (Ew : fwrap_set_which_fiber w (b * nrows + a) = Ok (set_onfiber' w (b * nrows + a))).
      { unfold fwrap_set_which_fiber. rewrite Aap, Hin, Hn. cbn [cassert obind]. now rewrite (proj2 (Nat.ltb_lt _ _)) by lia. }
      split; [exact Ew|]. set (o := OFiber (X := R) (Y := R) (b * nrows + a)).
      assert (A' : agrees d t (set_onfiber' w (b * nrows + a)) (o :: h)) by (apply (agrees_step (0%R : R) d t w h o _ A); exact Ew).
      split.
      - exists t, (o :: h), u. split; [exact A'|]. split; [now rewrite user_fun_skip|]. repeat (split; [assumption|]). exact Hf.
      - intros ts. rewrite (eval_on_fiber_agrees (0%R : R) d t (o :: h) _ u (b * nrows + a) (node li a) (node ri b) (length ts) ts A'); auto.
        + f_equal. rewrite <- (map_length (fun t => node li a ++ t :: node ri b) ts) at 1. rewrite Hp; [now rewrite map_map|].
          apply Forall_forall. intros p Hpp. apply in_map_iff in Hpp as (y & <- & _). rewrite app_length. cbn.
          destruct (node_value_ok _ _ _ _ a Hl Ha) as (_ & -> & _). destruct (node_value_ok _ _ _ _ b Hr Hb) as (_ & -> & _). lia.
        + cbn. apply Hf; auto.
    Qed.
    Lemma nth_aset_o {A} (l : list (option A)) k v k' : k < length l -> nth k' (upd l k v) None = if k' =? k then v else nth k' l None.
    Proof. intros H. apply (nth_aset l k v (upd l k v) None). now apply aset_ok. Qed.

    Definition filled (n : nat) (done : nat -> Prop) (st : fwrap R R * list (option U)) : Prop :=
      fibered n (fun _ => True) (fst st) /\ length (snd st) = n /\
      forall a b, a < nrows -> b < ncols -> done (b * nrows + a) -> exists u, nth (b * nrows + a) (snd st) None = Some u /\ E ii (node li a) (node ri b) u.
    Lemma prep_fill w : approx_law -> fibered (nrows * ncols) (fun _ => True) w ->
      safe F (filled (nrows * ncols) (fun _ => True)) (for_ ncols (fun jj st => for_ nrows (fun kk st =>
        let '(fw, f) := st in
        do fw <- fwrap_set_which_fiber fw (jj * nrows + kk);
        do u <- approx1 ii fw;
        do f <- aset f (jj * nrows + kk)%nat (Some u);
        Ok (fw, f)) st) (w, slots (nrows * ncols))).
    Proof.
      intros Ha Hw. eapply safe_imp; [apply (safe_for F (fun jj => filled (nrows * ncols) (fun k => k < jj * nrows)))|].
      - split; [exact Hw|]. split; [apply repeat_length|]. cbn. intros; lia.
      - intros jj st Hj H1. eapply safe_imp; [apply (safe_for F (fun kk => filled (nrows * ncols) (fun k => k < jj * nrows + kk)))|].
        + destruct H1 as (K1 & K2 & K3). split; [exact K1|]. split; [exact K2|]. intros. apply K3; auto. lia.
        + intros kk [w2 g] Hk (K1 & K2 & K3). cbn [fst snd] in *.
          destruct (fibered_select _ _ kk jj K1 Hk Hj ltac:(nia)) as (w3 & E3 & H3 & Ev). rewrite E3. cbn [obind].
          destruct (node_value_ok _ _ _ _ kk Hl Hk) as (_ & L1 & D1). destruct (node_value_ok _ _ _ _ jj Hr Hj) as (_ & L2 & D2).
          eapply safe_bind. { rewrite <- L1. apply (Ha (node li kk) (node ri jj)); [lia|exact D1|rewrite L1; exact D2|exact Ev]. }
          cbn beta. rewrite L1. intros u Hu. rewrite aset_ok by nia. cbn [obind safe].
          split; [exact H3|]. cbn [fst snd]. split; [now rewrite upd_length|].
          intros a b Ha' Hb' Hd. rewrite nth_aset_o by nia. destruct (Nat.eqb_spec (b * nrows + a) (jj * nrows + kk)) as [Eq|Ne].
          * assert (b = jj) as -> by nia. assert (a = kk) as -> by lia. eauto.
          * apply K3; auto. lia.
        + intros st' (K1 & K2 & K3). split; [exact K1|]. split; [exact K2|]. intros. apply K3; auto. lia.
      - intros st' (K1 & K2 & K3). split; [exact K1|]. split; [exact K2|]. intros. apply K3; auto. nia.
    Qed.

    (** prepCore: the approximations of the fibers through the entries of the index sets *)
    Lemma prepCore_ok w ls rs : approx_law -> wraps d f w -> nth_error ls ii = Some li -> nth_error rs ii = Some ri ->
      safe F (fun st => let '(A, w') := st in wraps d f w' /\ nr A = nrows /\ nc A = ncols /\ qwf A /\
        forall a b, a < nrows -> b < ncols -> exists u, entry A a b = Some u /\ E ii (node li a) (node ri b) u)
        (prepCore approx1 ii nrows ncols w ls rs).
    Proof.
      intros Ha (t & h & u & A & Hu & Hp) EL ER. unfold prepCore. cbn [fwrap_initialize_fiber_approx obind].
      rewrite (aget_ok _ _ _ ER). cbn [obind]. rewrite (aget_ok _ _ _ EL). cbn [obind].
      eapply safe_bind; [apply prep_add|].
      { set (o := OInit (X := R) (Y := R) ii (nrows * ncols)). exists t, (o :: h), u.
        split; [apply (agrees_step (0%R : R) d t w h o _ A); reflexivity|]. split; [now rewrite user_fun_skip|]. split; [exact Hp|].
        split; [reflexivity|]. split; [reflexivity|]. split; [reflexivity|]. intros; contradiction. }
      intros w1 H1. eapply safe_bind; [apply (prep_fill w1 Ha H1)|]. intros [w2 g] ((t2 & h2 & u2 & A2 & Hu2 & Hp2 & _) & Lg & Hg). cbn [fst snd] in *.
      assert (HT : exists l, freeze g = Ok l /\ length l = nrows * ncols /\ forall a b, a < nrows -> b < ncols -> exists u, nth_error l (b * nrows + a) = Some u /\ E ii (node li a) (node ri b) u).
      { destruct (freeze_all (nrows * ncols) g Lg) as (l & El & Ll & Hl').
        - intros k Hk. assert (Hn : nrows <> 0) by nia. pose proof (Nat.div_mod k nrows Hn) as Ek. pose proof (Nat.mod_upper_bound k nrows Hn) as Hm.
          assert (Hb : k / nrows < ncols) by (apply Nat.div_lt_upper_bound; lia).
          destruct (Hg (k mod nrows) (k / nrows) Hm Hb I) as (v & Ev & _). exists v. replace (k / nrows * nrows + k mod nrows) with k in Ev by lia.
          rewrite <- Ev. apply nth_error_nth'. lia.
        - exists l. split; [exact El|]. split; [exact Ll|]. intros a b Ha' Hb'. destruct (Hg a b Ha' Hb' I) as (v & Ev & Hv). exists v. split; [|exact Hv].
          apply Hl'. rewrite <- Ev. apply nth_error_nth'. nia. }
      destruct HT as (l & El & Ll & Hl'). rewrite El. cbn [obind fwrap_clean_fiber_approx safe].
      split.
      - set (o := OClean (X := R) (Y := R)). exists t2, (o :: h2), u2.
        split; [apply (agrees_step (0%R : R) d t2 w2 h2 o _ A2); reflexivity|]. split; [now rewrite user_fun_skip|exact Hp2].
      - split; [reflexivity|]. split; [reflexivity|]. split; [exact Ll|]. intros a b Ha' Hb'. unfold entry. cbn [fs nr]. now apply Hl'.
    Qed.
  End Prep.
End Facts.
