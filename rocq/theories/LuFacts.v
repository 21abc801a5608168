(** Facts about the LU decomposition of quasimatrix arrays. *)
From Coq Require Import Reals Lra.
From Verif Require Import TensorModel ParamFacts.
From Verif Require Export LuModel RoundSvd.
Open Scope R_scope.

Lemma acc_loop {T} (n : nat) (body : nat -> outcome T) (f : nat -> T) :
  (forall i, (i < n)%nat -> body i = Ok (f i)) ->
  for_ n (fun ii acc => do x <- body ii; Ok (acc ++ [x])) [] = Ok (tab n f).
Proof.
  intros H. change (@nil T) with (tab 0 f). apply (for_det (fun i => tab i f)). intros i Hi. rewrite (H i Hi). cbn [obind].
  unfold tab. rewrite seq_S, map_app. reflexivity.
Qed.

Lemma col_idx n c i j k : (i < n)%nat -> (j < n)%nat -> (c * n + i = k * n + j)%nat -> c = k /\ i = j.
Proof.
  intros Hi Hj E. assert (c = k).
  { assert ((c * n + i) / n = (k * n + j) / n)%nat as X by congruence.
    rewrite !Nat.div_add_l, !Nat.div_small in X by lia. lia. }
  subst. lia.
Qed.

Lemma set_column_ok {T} (n m : nat) (a : list T) (col : nat) (g : list T) :
  length a = (m * n)%nat -> (col < m)%nat -> length g = n ->
  exists a', set_column n a col g = Ok a' /\ length a' = length a /\
    forall j i, (j < m)%nat -> (i < n)%nat ->
      nth_error a' (j * n + i) = if (j =? col)%nat then nth_error g i else nth_error a (j * n + i).
Proof.
  intros La Hc Lg. unfold set_column.
  destruct (for_inv (fun k a' => length a' = length a /\
     forall j i, (j < m)%nat -> (i < n)%nat -> nth_error a' (j * n + i) =
        if (j =? col)%nat && (i <? k)%nat then nth_error g i else nth_error a (j * n + i))
     (fun ii a => do f <- aget g ii; aset a (col * n + ii)%nat f) n a) as (a' & E & L & F).
  - split; [reflexivity|]. intros j i _ _. now rewrite andb_false_r.
  - intros k a' Hk (L & F). destruct (nth_error g k) as [x|] eqn:Ex; [|apply nth_error_None in Ex; lia].
    rewrite (aget_ok _ _ _ Ex). cbn [obind]. rewrite aset_ok by (rewrite L, La; nia). eexists. split; [reflexivity|].
    split; [now rewrite upd_length|]. intros j i Hj Hi. destruct (Nat.eq_dec (col * n + k) (j * n + i)) as [Ei|Ni].
    + destruct (col_idx n col k i j) as [<- <-]; auto; try lia. rewrite nth_error_upd_same by (rewrite L, La; nia).
      rewrite Nat.eqb_refl. destruct (Nat.ltb_spec k (S k)); [|lia]. cbn [andb]. now rewrite Ex.
    + rewrite nth_error_upd_other by exact Ni. rewrite F by auto. destruct (Nat.eqb_spec j col) as [->|]; [|reflexivity]. cbn [andb].
      destruct (Nat.ltb_spec i k), (Nat.ltb_spec i (S k)); try lia; reflexivity.
  - exists a'. split; [exact E|]. split; [exact L|]. intros j i Hj Hi. rewrite F by auto.
    destruct (Nat.ltb_spec i n); [|lia]. now rewrite andb_true_r.
Qed.

Section Lu.
  Context {U : uops Rring} (W : vops U) (zt : R) (absmax1 : U -> R * R) (nodal : U -> bool).
  Context (onezero2 : list R -> U) (uone : U) (zpoly : list R -> U).
  Context (n m : nat).
  Hypothesis Hn : (0 < n)%nat.
  Hypothesis Hev : forall x : R, linfun (R := Rring) (fun f : U => (uev f (x : Rring) : R)).
  Hypothesis Hsc : forall c f x, (uev (vscale W c f) (x : Rring) : R) = c * uev f (x : Rring).
  Notation ev f x := (uev f (x : Rring) : R).
  Notation array_absmax := (array_absmax absmax1).

  Definition lin (phi : U -> R) : Prop := linfun (R := Rring) phi.

  Lemma absmax_ok (a : list U) oa : (oa + n <= length a)%nat ->
    exists v k x f, array_absmax n a oa = Ok (v, k, x) /\ (k < n)%nat /\ nth_error a (oa + k) = Some f /\ absmax1 f = (v, x) /\
      forall i g, (i < n)%nat -> nth_error a (oa + i) = Some g -> fst (absmax1 g) <= v.
  Proof.
    intros Hl. unfold LuModel.array_absmax. destruct (nth_error a oa) as [f0|] eqn:E0; [|apply nth_error_None in E0; lia].
    rewrite (aget_ok _ _ _ E0). cbn [obind]. destruct (absmax1 f0) as [v0 x0] eqn:A0.
    match goal with |- context [for_from 1 (n - 1)%nat ?b0 ?s0] =>
      destruct (for_from_inv (fun k (s : R * nat * R) => let '(v, j, x) := s in exists f, (j < k)%nat /\ nth_error a (oa + j) = Some f /\ absmax1 f = (v, x) /\
        forall i g, (i < k)%nat -> nth_error a (oa + i) = Some g -> fst (absmax1 g) <= v) b0 1 (n - 1) s0) as ([[v j] x] & E & f & H1 & H2 & H3 & H4) end.
    - exists f0. split; [lia|]. rewrite Nat.add_0_r. split; [exact E0|]. split; [exact A0|].
      intros i g Hi Eg. assert (i = 0)%nat by lia. subst i. rewrite Nat.add_0_r in Eg.
      assert (g = f0) by congruence. subst g. rewrite A0. cbn. lra.
    - intros k [[v j] x] Hk (f & H1 & H2 & H3 & H4).
      destruct (nth_error a (oa + k)) as [fk|] eqn:Ek; [|apply nth_error_None in Ek; lia]. rewrite (aget_ok _ _ _ Ek). cbn [obind].
      destruct (absmax1 fk) as [tv tx] eqn:Ak. destruct (Rltb_spec v tv) as [Hlt|Hge]; eexists; (split; [reflexivity|]).
      + exists fk. split; [lia|]. split; [exact Ek|]. split; [exact Ak|]. intros i g Hi Eg.
        destruct (Nat.eq_dec i k) as [->|]; [assert (g = fk) by congruence; subst g; rewrite Ak; cbn; lra|].
        specialize (H4 i g ltac:(lia) Eg). lra.
      + exists f. split; [lia|]. split; [exact H2|]. split; [exact H3|]. intros i g Hi Eg.
        destruct (Nat.eq_dec i k) as [->|]; [assert (g = fk) by congruence; subst g; rewrite Ak; cbn; lra|].
        apply (H4 i g ltac:(lia) Eg).
    - exists v, j, x, f. split; [exact E|]. replace (1 + (n - 1))%nat with n in * by lia. auto.
  Qed.

  (** Value of entry [i] of column [j] under a functional *)
  Definition av (phi : U -> R) (A : list U) (j i : nat) : R :=
    match nth_error A (j * n + i) with Some f => phi f | None => 0 end.
  Definition lv (phi : U -> R) (L : list (option U)) (k i : nat) : R :=
    match nth_error L (k * n + i) with Some (Some f) => phi f | _ => 0 end.
  Definition cv (phi : U -> R) (c : list U) (i : nat) : R :=
    match nth_error c i with Some f => phi f | None => 0 end.

  (** ** One elimination *)
  Lemma elim_ok kk amind amloc val Lk A u : (kk < m)%nat -> (amind < n)%nat -> length A = (m * n)%nat -> length u = (m * m)%nat -> length Lk = n ->
    exists A' u', lu_elim n m kk amind amloc val Lk A u = Ok (A', u') /\ length A' = (m * n)%nat /\ length u' = (m * m)%nat /\
      let c := fun j => if (j =? kk)%nat then val else av (fun f => ev f amloc) A j amind in
      (forall phi j i, lin phi -> (j < m)%nat -> (i < n)%nat -> av phi A' j i = av phi A j i - c j * cv phi Lk i) /\
      (forall j k, (j < m)%nat -> (k < m)%nat -> nth (j * m + k) u' 0 = if (k =? kk)%nat then c j else nth (j * m + k) u 0).
  Proof.
    intros Hk Ha LA Lu LL. cbv zeta. set (c := fun j => if (j =? kk)%nat then val else av (fun f => ev f amloc) A j amind).
    unfold lu_elim.
    match goal with |- context [for_ m ?b0 ?s0] =>
      destruct (for_inv (fun ii (s : list U * list R) => let '(A', u') := s in length A' = (m * n)%nat /\ length u' = (m * m)%nat /\
        (forall phi j i, lin phi -> (j < m)%nat -> (i < n)%nat -> av phi A' j i = if (j <? ii)%nat then av phi A j i - c j * cv phi Lk i else av phi A j i) /\
        (forall j i, (ii <= j < m)%nat -> (i < n)%nat -> nth_error A' (j * n + i) = nth_error A (j * n + i)) /\
        (forall j k, (j < m)%nat -> (k < m)%nat -> nth (j * m + k) u' 0 = if (k =? kk)%nat && (j <? ii)%nat then c j else nth (j * m + k) u 0)) b0 m s0)
       as ([A' u'] & E & LA' & Lu' & F & _ & G) end.
    - split; [exact LA|]. split; [exact Lu|]. split; [reflexivity|]. split; [reflexivity|]. intros. now rewrite andb_false_r.
    - intros ii [A' u'] Hi (LA' & Lu' & F & Old & G). cbn beta iota.
      assert (EU : (if (ii =? kk)%nat then Ok val else do f <- aget A' (ii * n + amind)%nat; Ok (ev f amloc)) = Ok (c ii)).
      { unfold c, av. destruct (Nat.eqb_spec ii kk); [reflexivity|]. rewrite <- Old by lia.
        destruct (nth_error A' (ii * n + amind)) as [f|] eqn:Ef; [|apply nth_error_None in Ef; nia]. rewrite (aget_ok _ _ _ Ef). reflexivity. }
      rewrite EU. cbn [obind]. rewrite aset_ok by (rewrite Lu'; nia). cbn [obind].
      assert (Hne : exists z : U, True). { destruct Lk as [|z Lk']; [cbn in LL; lia|]. now exists z. }
      destruct Hne as [z _].
      set (g := fun i => uaxpby (1 : Rring) (nth (ii * n + i) A' z) (- c ii : Rring) (Some (nth i Lk z))).
      unfold array_daxpby. 
      assert (EA : for_ n (fun ii0 acc => do f <- aget A' (ii * n + ii0)%nat; do g0 <- aget Lk ii0; Ok (acc ++ [uaxpby (1 : Rring) f (- c ii : Rring) (Some g0)])) [] = Ok (tab n g)).
      { rewrite <- (acc_loop n (fun i => do f <- aget A' (ii * n + i)%nat; do g0 <- aget Lk i; Ok (uaxpby (1 : Rring) f (- c ii : Rring) (Some g0))) g).
        - apply for_ext. intros i acc Hii. destruct (aget A' (ii * n + i)) as [f| | |]; try reflexivity. cbn [obind]. destruct (aget Lk i); reflexivity.
        - intros i Hii. rewrite (aget_ok _ _ (nth (ii * n + i) A' z)) by (apply nth_error_nth'; nia). cbn [obind].
          rewrite (aget_ok _ _ (nth i Lk z)) by (apply nth_error_nth'; lia). reflexivity. }
      rewrite EA. cbn [obind].
      destruct (set_column_ok n m A' ii (tab n g) LA' Hi) as (A2 & E2 & L2 & F2).
      { unfold tab. now rewrite map_length, seq_length. }
      rewrite E2. cbn [obind]. eexists. split; [reflexivity|]. cbn beta iota.
      split; [lia|]. split; [now rewrite upd_length|]. split; [|split].
      + intros phi j i Hp Hj Hii. unfold av at 1. rewrite F2 by auto. destruct (Nat.eqb_spec j ii) as [->|Nj].
        * unfold tab. rewrite nth_error_map. rewrite nth_error_seq by lia. cbn [option_map]. unfold g. cbn [Nat.add].
          destruct Hp as (_ & P2 & _). rewrite P2. destruct (Nat.ltb_spec ii (S ii)); [|lia].
          unfold av, cv. rewrite <- (Old ii i) by lia.
          rewrite (nth_error_nth' A' z) by nia. rewrite (nth_error_nth' Lk z) by lia. cbn. ring.
        * change (match nth_error A' (j * n + i) with Some f => phi f | None => 0 end) with (av phi A' j i). rewrite F by auto.
          destruct (Nat.ltb_spec j ii), (Nat.ltb_spec j (S ii)); try lia; reflexivity.
      + intros j i Hj Hii. rewrite F2 by lia. destruct (Nat.eqb_spec j ii); [lia|]. apply Old; lia.
      + intros j k Hj Hkk. destruct (Nat.eq_dec (ii * m + kk) (j * m + k)) as [Ei|Ni].
        * destruct (col_idx m ii kk k j) as [<- <-]; auto. erewrite nth_error_nth by (apply nth_error_upd_same; rewrite Lu'; nia).
          rewrite Nat.eqb_refl. destruct (Nat.ltb_spec ii (S ii)); [reflexivity|lia].
        * assert (X : nth (j * m + k) (upd u' (ii * m + kk) (c ii)) 0 = nth (j * m + k) u' 0).
          { erewrite nth_error_nth; [reflexivity|]. rewrite nth_error_upd_other by exact Ni. apply nth_error_nth'. nia. }
          rewrite X, G by auto. destruct (Nat.eqb_spec k kk) as [->|]; [|reflexivity]. cbn [andb].
          destruct (Nat.ltb_spec j ii), (Nat.ltb_spec j (S ii)); try lia; try reflexivity. all: exfalso; apply Ni; replace j with ii by lia; reflexivity.
    - exists A', u'. split; [exact E|]. split; [exact LA'|]. split; [exact Lu'|]. split.
      + intros phi j i Hp Hj Hi. rewrite F by auto. destruct (Nat.ltb_spec j m); [reflexivity|lia].
      + intros j k Hj Hkk. rewrite G by auto. destruct (Nat.ltb_spec j m); [|lia]. now rewrite andb_true_r.
  Qed.

  (** ** Columns for vanishing pivots *)
  Lemma zeros_ok upto piv px ii : (upto <= length piv)%nat -> (upto <= length px)%nat ->
    exists z, zeros_of upto piv px ii = Ok z /\ (length z <= upto)%nat /\
      forall j, (j < upto)%nat -> nth j piv 0%nat = ii -> In (nth j px 0) z.
  Proof.
    intros H1 H2. unfold zeros_of.
    match goal with |- context [for_ upto ?b0 ?s0] =>
      destruct (for_inv (fun k z => (length z <= k)%nat /\ forall j, (j < k)%nat -> nth j piv 0%nat = ii -> In (nth j px 0) z) b0 upto s0) as (z & E & HL & H) end.
    - split; [cbn; lia|]. intros j Hj. lia.
    - intros k z Hk [HL H]. rewrite (aget_ok _ _ (nth k piv 0%nat)) by (apply nth_error_nth'; lia). cbn [obind].
      destruct (Nat.eqb_spec (nth k piv 0%nat) ii) as [Ek|Nk].
      + rewrite (aget_ok _ _ (nth k px 0)) by (apply nth_error_nth'; lia). cbn [obind]. eexists. split; [reflexivity|]. split; [rewrite app_length; cbn; lia|].
        intros j Hj Ej. apply in_or_app. destruct (Nat.eq_dec j k) as [->|]; [right; now left|left; apply H; auto; lia].
      + eexists. split; [reflexivity|]. split; [lia|]. intros j Hj Ej. apply H; auto. destruct (Nat.eq_dec j k) as [->|]; [contradiction|lia].
    - exists z. auto.
  Qed.

  Definition base (nod : bool) (z : list R) : U := if nod then onezero2 z else match z with [] => uone | _ => zpoly z end.
  Hypothesis Hzt : 0 <= zt.
  (** The base functions vanish where they should, and are not zero where the optimiser
      looks. *)
  Hypothesis Hbase : forall f z x, (length z < m)%nat -> In x z -> ev (base (nodal f) z) x = 0.
  Hypothesis Hone : forall f z, nodal f = true -> (length z < m)%nat -> ev (onezero2 z) (snd (absmax1 (onezero2 z))) <> 0.

  Lemma cv_tab (phi : U -> R) g i : (i < n)%nat -> cv phi (tab n g) i = phi (g i).
  Proof. intros Hi. unfold cv, tab. rewrite nth_error_map, nth_error_seq by lia. reflexivity. Qed.

  Lemma scale_loop c (g : nat -> U) :
    for_ n (fun ii col => do f <- aget col ii; aset col ii (vscale W c f)) (tab n g) = Ok (tab n (fun i => vscale W c (g i))).
  Proof.
    transitivity (for_ n (fun i (l : list U) => aset l i (vscale W c (g i))) (tab n g)).
    2:{ apply fill1_all. unfold tab. now rewrite map_length, seq_length. }
    set (st := fun i => tab n (fun k => if (k <? i)%nat then vscale W c (g k) else g k)).
    assert (E0 : tab n g = st 0%nat). { unfold st. apply map_ext. reflexivity. }
    assert (EU : forall i, (i < n)%nat -> upd (st i) i (vscale W c (g i)) = st (S i)).
    { intros i Hi. apply nth_error_ext.
      - rewrite upd_length. unfold st, tab. now rewrite !map_length.
      - intros k Hk. rewrite upd_length in Hk. unfold st, tab in Hk. rewrite map_length, seq_length in Hk.
        destruct (Nat.eq_dec i k) as [->|Nk].
        + rewrite nth_error_upd_same by (unfold st, tab; rewrite map_length, seq_length; lia).
          unfold st, tab. rewrite nth_error_map, nth_error_seq by lia. cbn [option_map Nat.add]. destruct (Nat.ltb_spec k (S k)); [reflexivity|lia].
        + rewrite nth_error_upd_other by exact Nk. unfold st, tab. rewrite !nth_error_map, nth_error_seq by lia. cbn [option_map Nat.add].
          destruct (Nat.ltb_spec k i), (Nat.ltb_spec k (S i)); try lia; reflexivity. }
    rewrite E0. etransitivity; [apply (for_det st)|symmetry; apply (for_det st)].
    - intros i Hi. rewrite (aget_ok _ _ (g i)).
      + cbn [obind]. rewrite aset_ok by (unfold st, tab; rewrite map_length, seq_length; lia). now rewrite EU.
      + unfold st, tab. rewrite nth_error_map, nth_error_seq by lia. cbn [option_map Nat.add]. destruct (Nat.ltb_spec i i); [lia|reflexivity].
    - intros i Hi. rewrite aset_ok by (unfold st, tab; rewrite map_length, seq_length; lia). now rewrite EU.
  Qed.

  Lemma any_L_ok nod g kk piv px : nod = nodal g -> (kk < m)%nat -> (kk <= length piv)%nat -> (kk <= length px)%nat ->
    (forall j, (j < kk)%nat -> (nth j piv 0%nat < n)%nat) ->
    (exists col p x, any_L W zt absmax1 onezero2 uone zpoly nod n kk piv px = Ok (col, p, x) /\ length col = n /\ (p < n)%nat /\
       cv (fun f => ev f x) col p = 1 /\
       forall j, (j < kk)%nat -> cv (fun f => ev f (nth j px 0)) col (nth j piv 0%nat) = 0) \/
    any_L W zt absmax1 onezero2 uone zpoly nod n kk piv px = Abort.
  Proof.
    intros Eg Hkm H1 H2 HP. unfold any_L.
    assert (HZ : exists zf, forall i, zeros_of kk piv px i = Ok (zf i) /\ (length (zf i) <= kk)%nat /\ forall j, (j < kk)%nat -> nth j piv 0%nat = i -> In (nth j px 0) (zf i)).
    { exists (fun i => match zeros_of kk piv px i with Ok z => z | _ => [] end). intros i.
      destruct (zeros_ok kk piv px i H1 H2) as (z & E & HL & H). rewrite E. auto. }
    destruct HZ as [zf HZ].
    assert (EC : for_ n (fun ii acc => do z <- zeros_of kk piv px ii; Ok (acc ++ [if nod then onezero2 z else match z with [] => uone | _ => zpoly z end])) []
       = Ok (tab n (fun i => base nod (zf i)))).
    { rewrite <- (acc_loop n (fun i => do z <- zeros_of kk piv px i; Ok (base nod z)) (fun i => base nod (zf i))).
      - apply for_ext. intros i acc Hi. destruct (zeros_of kk piv px i); reflexivity.
      - intros i _. rewrite (proj1 (HZ i)). reflexivity. }
    rewrite EC. cbn [obind].
    destruct (absmax_ok (tab n (fun i => base nod (zf i))) 0) as (v & p & x & f & EA & Hp & Ef & Af & _).
    { unfold tab. rewrite map_length, seq_length. lia. }
    rewrite EA. cbn [obind]. cbn [Nat.add] in Ef. rewrite (aget_ok _ _ _ Ef). cbn [obind].
    assert (Ef' : f = base nod (zf p)).
    { unfold tab in Ef. rewrite nth_error_map, nth_error_seq in Ef by lia. cbn in Ef. congruence. }
    destruct (nod || Rltb zt (Rabs (ev f x))) eqn:EN; cbn [cassert obind]; [|right; reflexivity]. left.
    rewrite scale_loop. cbn [obind]. eexists _, p, x. split; [reflexivity|]. split; [unfold tab; now rewrite map_length, seq_length|]. split; [exact Hp|].
    assert (NZ : ev f x <> 0).
    { destruct nod.
      - pose proof (proj1 (proj2 (HZ p))) as HLz. pose proof (Hone g (zf p) (eq_sym Eg) ltac:(lia)) as H. cbn in Ef'. rewrite <- Ef', Af in H. exact H.
      - cbn in EN. destruct (Rltb_spec zt (Rabs (ev f x))) as [H|]; [|discriminate]. intros X. rewrite X, Rabs_R0 in H. lra. }
    split.
    - rewrite cv_tab by exact Hp. rewrite Hsc, <- Ef'. field. exact NZ.
    - intros j Hj. rewrite cv_tab by (apply HP; exact Hj). destruct (HZ (nth j piv 0%nat)) as (_ & HLz & HI). rewrite Hsc, Eg, Hbase; [ring|lia|]. apply HI; auto.
  Qed.

  (** ** The invariant *)
  Definition nv (kk : nat) (u : list R) : Prop := forall k, (k < kk)%nat -> zt < Rabs (nth (k * m + k) u 0).
  Definition true_absmax (dom : R -> Prop) : Prop := forall f, fst (absmax1 f) = Rabs (ev f (snd (absmax1 f))) /\ dom (snd (absmax1 f)) /\
    forall y, dom y -> Rabs (ev f y) <= fst (absmax1 f).

  Record inv (A0 : list U) (kk : nat) (s : lu_state) : Prop := {
    i_A : length (lu_A s) = (m * n)%nat; i_L : length (lu_L s) = (m * n)%nat; i_u : length (lu_u s) = (m * m)%nat;
    i_p : length (lu_piv s) = m; i_x : length (lu_px s) = m;
    i_dec : forall phi j i, lin phi -> (j < m)%nat -> (i < n)%nat ->
      av phi A0 j i = av phi (lu_A s) j i + rsum kk (fun k => nth (j * m + k) (lu_u s) 0 * lv phi (lu_L s) k i);
    i_piv : forall k, (k < kk)%nat -> (nth k (lu_piv s) 0 < n)%nat;
    i_some : forall k i, (k < kk)%nat -> (i < n)%nat -> exists f, nth_error (lu_L s) (k * n + i) = Some (Some f);
    i_L1 : forall k, (k < kk)%nat -> lv (fun f => ev f (nth k (lu_px s) 0)) (lu_L s) k (nth k (lu_piv s) 0%nat) = 1;
    i_L0 : forall j k, (j < k < kk)%nat -> lv (fun f => ev f (nth j (lu_px s) 0)) (lu_L s) k (nth j (lu_piv s) 0%nat) = 0;
    i_A0 : forall k j, (k < kk)%nat -> (kk <= j < m)%nat -> av (fun f => ev f (nth k (lu_px s) 0)) (lu_A s) j (nth k (lu_piv s) 0%nat) = 0;
    i_Z : nv kk (lu_u s) -> forall j phi i, (j < kk)%nat -> lin phi -> (i < n)%nat -> av phi (lu_A s) j i = 0;
    i_U : nv kk (lu_u s) -> forall j k, (j < k < kk)%nat -> nth (j * m + k) (lu_u s) 0 = 0;
    i_span : nv kk (lu_u s) -> forall j, (kk <= j < m)%nat -> exists c, forall phi i, lin phi -> (i < n)%nat ->
      av phi (lu_A s) j i = av phi A0 j i + rsum kk (fun t => c t * av phi A0 t i);
    i_bd : forall dom, true_absmax dom -> forall k, (k < kk)%nat -> zt < Rabs (nth (k * m + k) (lu_u s) 0) ->
      forall i x, (i < n)%nat -> dom x -> Rabs (lv (fun f => ev f x) (lu_L s) k i) <= 1 }.

  (** The pivot found in column [kk] is small. *)
  Definition vanishing (A : list U) (kk : nat) : Prop :=
    exists v p x f, array_absmax n A (kk * n) = Ok (v, p, x) /\ nth_error A (kk * n + p) = Some f /\ Rabs (ev f x) <= zt.

  Lemma lv_set L L' kk Lk phi k i : (k < m)%nat -> (kk < m)%nat -> (i < n)%nat ->
    (forall j i, (j < m)%nat -> (i < n)%nat -> nth_error L' (j * n + i) = if (j =? kk)%nat then nth_error (map Some Lk) i else nth_error L (j * n + i)) ->
    lv phi L' k i = if (k =? kk)%nat then cv phi Lk i else lv phi L k i.
  Proof.
    intros Hk Hkk Hi H. unfold lv at 1. rewrite H by auto. destruct (Nat.eqb_spec k kk); [|reflexivity].
    rewrite nth_error_map. unfold cv. destruct (nth_error Lk i); reflexivity.
  Qed.

  Lemma nth_aset {T} (l : list T) k v l' d : aset l k v = Ok l' -> length l' = length l /\ forall j, nth j l' d = if (j =? k)%nat then v else nth j l d.
  Proof.
    unfold aset. destruct (Nat.ltb_spec k (length l)) as [H|H]; intros E; [|discriminate]. injection E as <-.
    split; [apply upd_length|]. intros j. destruct (Nat.eqb_spec j k) as [->|N].
    - apply nth_error_nth. now apply nth_error_upd_same.
    - destruct (Nat.lt_ge_cases j (length l)) as [Hj|Hj].
      + apply nth_error_nth. rewrite nth_error_upd_other by auto. now apply nth_error_nth'.
      + rewrite !nth_overflow; auto. now rewrite upd_length.
  Qed.

  Lemma step_ok A0 kk s : (kk < m)%nat -> inv A0 kk s ->
    (exists s', lu_step W zt absmax1 nodal onezero2 uone zpoly n m kk s = Ok s' /\ inv A0 (S kk) s' /\
       (forall k, (k < kk)%nat -> nth (k * m + k) (lu_u s') 0 = nth (k * m + k) (lu_u s) 0) /\
       (zt < Rabs (nth (kk * m + kk) (lu_u s') 0) <-> ~ vanishing (lu_A s) kk)) \/
    (lu_step W zt absmax1 nodal onezero2 uone zpoly n m kk s = Abort /\ vanishing (lu_A s) kk).
  Proof.
    intros Hkk I. destruct s as [A L u piv px]. destruct I as [IA IL Iu Ip Ix Idec Ipiv Isome IL1 IL0 IA0 IZ IU Ispan Ibd].
    cbn [lu_A lu_L lu_u lu_piv lu_px] in *. unfold lu_step. cbn [lu_A lu_L lu_u lu_piv lu_px].
    destruct (absmax_ok A (kk * n)) as (v & p & x & f & EA & Hp & Ef & Af & Amax); [nia|].
    rewrite EA. cbn [obind].
    assert (exists piv1, aset piv kk p = Ok piv1) as [piv1 E1] by (eexists; apply aset_ok; lia).
    assert (exists px1, aset px kk x = Ok px1) as [px1 E2] by (eexists; apply aset_ok; lia).
    destruct (nth_aset _ _ _ _ 0%nat E1) as [Lp1 Np1]. destruct (nth_aset _ _ _ _ 0 E2) as [Lx1 Nx1].
    rewrite E1. cbn [obind]. rewrite E2. cbn [obind]. rewrite (aget_ok _ _ _ Ef). cbn [obind].
    set (val := ev f x).
    assert (HC : (exists Lk q y, 
        (if Rleb (Rabs val) zt then do f0 <- aget A (kk * n)%nat; any_L W zt absmax1 onezero2 uone zpoly (nodal f0) n kk piv1 px1
         else do col <- array_scaled n (1 / val) A (kk * n)%nat; Ok (col, p, x)) = Ok (Lk, q, y) /\ length Lk = n /\ (q < n)%nat /\
         cv (fun f => ev f y) Lk q = 1 /\
         (forall j, (j < kk)%nat -> cv (fun f => ev f (nth j px 0)) Lk (nth j piv 0%nat) = 0) /\
         (zt < Rabs val -> q = p /\ y = x /\ forall phi i, lin phi -> (i < n)%nat -> cv phi Lk i = 1 / val * av phi A kk i)) \/
       ((if Rleb (Rabs val) zt then do f0 <- aget A (kk * n)%nat; any_L W zt absmax1 onezero2 uone zpoly (nodal f0) n kk piv1 px1
         else do col <- array_scaled n (1 / val) A (kk * n)%nat; Ok (col, p, x)) = Abort /\ Rabs val <= zt)).
    { destruct (Rleb_spec (Rabs val) zt) as [Hv|Hv].
      - destruct (nth_error A (kk * n)) as [f0|] eqn:E0; [|apply nth_error_None in E0; nia]. rewrite (aget_ok _ _ _ E0). cbn [obind].
        destruct (any_L_ok (nodal f0) f0 kk piv1 px1 eq_refl) as [(col & q & y & EL & C1 & C2 & C3 & C4)|EL]; try lia.
        + intros j Hj. rewrite Np1. destruct (Nat.eqb_spec j kk); [lia|]. now apply Ipiv.
        + left. exists col, q, y. split; [exact EL|]. split; [exact C1|]. split; [exact C2|]. split; [exact C3|]. split; [|lra].
          intros j Hj. specialize (C4 j Hj). rewrite Np1, Nx1 in C4. destruct (Nat.eqb_spec j kk); [lia|]. exact C4.
        + right. auto.
      - left. apply Rnot_le_lt in Hv. assert (NZ : val <> 0) by (intros X; rewrite X, Rabs_R0 in Hv; lra).
        unfold array_scaled.
        assert (EC : for_ n (fun ii acc => do f1 <- aget A (kk * n + ii)%nat; Ok (acc ++ [uaxpby (1 / val : Rring) f1 (0 : Rring) None])) []
            = Ok (tab n (fun i => uaxpby (1 / val : Rring) (nth (kk * n + i) A f) (0 : Rring) None))).
        { rewrite <- (acc_loop n (fun i => do f1 <- aget A (kk * n + i)%nat; Ok (uaxpby (1 / val : Rring) f1 (0 : Rring) None))).
          - apply for_ext. intros i acc Hi. destruct (aget A (kk * n + i)); reflexivity.
          - intros i Hi. rewrite (aget_ok _ _ (nth (kk * n + i) A f)) by (apply nth_error_nth'; nia). reflexivity. }
        rewrite EC. cbn [obind]. eexists _, p, x. split; [reflexivity|]. split; [unfold tab; now rewrite map_length, seq_length|]. split; [exact Hp|].
        assert (FL : forall phi i, lin phi -> (i < n)%nat ->
          cv phi (tab n (fun i => uaxpby (1 / val : Rring) (nth (kk * n + i) A f) (0 : Rring) None)) i = 1 / val * av phi A kk i).
        { intros phi i (P1 & _) Hi. rewrite cv_tab by exact Hi. rewrite P1. unfold av. rewrite (nth_error_nth' A f) by nia. reflexivity. }
        split; [|split; [|auto]].
        + rewrite FL by (auto; apply Hev). unfold av. rewrite Ef. fold val. field. exact NZ.
        + intros j Hj. rewrite FL by (try apply Hev; now apply Ipiv). rewrite IA0 by lia. ring. }
    assert (VV : vanishing A kk <-> Rabs val <= zt).
    { split.
      - intros (v' & p' & x' & f' & E' & Ef' & Hv'). rewrite EA in E'. injection E' as <- <- <-. assert (f' = f) by congruence. subst f'. exact Hv'.
      - intros Hv. exists v, p, x, f. auto. }
    destruct HC as [(Lk & q & y & EC & LLk & Hq & C1 & C0 & CN)|[EC Hv]]; rewrite EC; cbn [obind]; [|right; split; [reflexivity|now apply VV]].
    left.
    assert (exists piv2, aset piv1 kk q = Ok piv2) as [piv2 E3] by (eexists; apply aset_ok; lia).
    assert (exists px2, aset px1 kk y = Ok px2) as [px2 E4] by (eexists; apply aset_ok; lia).
    destruct (nth_aset _ _ _ _ 0%nat E3) as [Lp2 Np2]. destruct (nth_aset _ _ _ _ 0 E4) as [Lx2 Nx2].
    rewrite E3. cbn [obind]. rewrite E4. cbn [obind].
    destruct (set_column_ok n m L kk (map Some Lk) IL Hkk) as (L' & EL & LL' & FL); [now rewrite map_length|]. rewrite EL. cbn [obind].
    destruct (elim_ok kk q y val Lk A u Hkk Hq IA Iu LLk) as (A' & u' & EE & LA' & Lu' & FA & FU). rewrite EE. cbn [obind].
    set (c := fun j => if (j =? kk)%nat then val else av (fun f => ev f y) A j q) in *.
    assert (NP : forall k, nth k piv2 0%nat = if (k =? kk)%nat then q else nth k piv 0%nat).
    { intros k. rewrite Np2, Np1. destruct (k =? kk)%nat; reflexivity. }
    assert (NX : forall k, nth k px2 0 = if (k =? kk)%nat then y else nth k px 0).
    { intros k. rewrite Nx2, Nx1. destruct (k =? kk)%nat; reflexivity. }
    assert (LV : forall phi k i, (k < m)%nat -> (i < n)%nat -> lv phi L' k i = if (k =? kk)%nat then cv phi Lk i else lv phi L k i).
    { intros. now apply (lv_set L). }
    assert (Ukk : nth (kk * m + kk) u' 0 = val).
    { rewrite FU by auto. unfold c. now rewrite !Nat.eqb_refl. }
    assert (Uold : forall j k, (j < m)%nat -> (k < kk)%nat -> nth (j * m + k) u' 0 = nth (j * m + k) u 0).
    { intros j k Hj Hk. rewrite FU by lia. destruct (Nat.eqb_spec k kk); [lia|reflexivity]. }
    assert (NVV : nv (S kk) u' -> nv kk u /\ zt < Rabs val).
    { intros H. split; [|rewrite <- Ukk; apply H; lia]. intros k Hk. rewrite <- Uold by lia. apply H. lia. }
    eexists. split; [reflexivity|]. cbn [lu_u]. split; [|split].
    2:{ intros k Hk. apply Uold; lia. }
    2:{ rewrite Ukk. rewrite VV. split; [lra|]. intros H. lra. }
    constructor; cbn [lu_A lu_L lu_u lu_piv lu_px].
    - exact LA'.
    - lia.
    - exact Lu'.
    - lia.
    - lia.
    - intros phi j i Hp' Hj Hi. rewrite (Idec phi j i Hp' Hj Hi), (FA phi j i Hp' Hj Hi). cbn [rsum].
      rewrite LV by lia. rewrite Nat.eqb_refl. rewrite FU by lia. rewrite Nat.eqb_refl.
      replace (rsum kk (fun k => nth (j * m + k) u' 0 * lv phi L' k i)) with (rsum kk (fun k => nth (j * m + k) u 0 * lv phi L k i)); [ring|].
      apply rsum_ext. intros k Hk. rewrite Uold, LV by lia. destruct (Nat.eqb_spec k kk); [lia|reflexivity].
    - intros k Hk. rewrite NP. destruct (Nat.eqb_spec k kk); [exact Hq|apply Ipiv; lia].
    - intros k i Hk Hi. rewrite FL by lia. destruct (Nat.eqb_spec k kk); [|apply Isome; lia].
      rewrite nth_error_map. destruct (nth_error Lk i) as [g|] eqn:Eg; [now exists g|apply nth_error_None in Eg; lia].
    - intros k Hk. rewrite NX, NP. destruct (Nat.eqb_spec k kk) as [->|].
      + rewrite LV by lia. now rewrite Nat.eqb_refl.
      + rewrite LV by (try apply Ipiv; lia). destruct (Nat.eqb_spec k kk); [lia|]. apply IL1. lia.
    - intros j k Hjk. rewrite NX, NP. destruct (Nat.eqb_spec j kk); [lia|].
      rewrite LV by (try apply Ipiv; lia). destruct (Nat.eqb_spec k kk) as [->|]; [apply C0; lia|apply IL0; lia].
    - intros k j Hk Hj. rewrite NX, NP. destruct (Nat.eqb_spec k kk) as [->|].
      + rewrite FA by (auto; apply Hev || lia). rewrite C1. unfold c. destruct (Nat.eqb_spec j kk); [lia|]. ring.
      + rewrite FA by (try apply Hev; try apply Ipiv; lia). rewrite C0 by lia. rewrite IA0 by lia. ring.
    - intros HN j phi i Hj Hp' Hi. destruct (NVV HN) as [HN' Hv]. destruct (CN Hv) as (-> & -> & FLk).
      rewrite FA, FLk by (auto; lia). assert (NZ : val <> 0) by (intros X; rewrite X, Rabs_R0 in Hv; lra).
      unfold c. destruct (Nat.eqb_spec j kk) as [->|Nj]; [field; exact NZ|].
      rewrite !(IZ HN' j) by (auto; try apply Hev; lia). ring.
    - intros HN j k Hjk. destruct (NVV HN) as [HN' Hv]. destruct (CN Hv) as (-> & -> & FLk).
      rewrite FU by lia. destruct (Nat.eqb_spec k kk) as [->|]; [|apply IU; auto; lia].
      unfold c. destruct (Nat.eqb_spec j kk); [lia|]. apply (IZ HN'); [lia|apply Hev|exact Hp].
    - intros HN j Hj. destruct (NVV HN) as [HN' Hv]. destruct (CN Hv) as (-> & -> & FLk).
      destruct (Ispan HN' j ltac:(lia)) as [cj Hcj]. destruct (Ispan HN' kk ltac:(lia)) as [ck Hck].
      assert (NZ : val <> 0) by (intros X; rewrite X, Rabs_R0 in Hv; lra).
      exists (fun t => if (t <? kk)%nat then cj t - c j / val * ck t else - (c j / val)). intros phi i Hp' Hi.
      rewrite FA, FLk by (auto; lia). rewrite Hcj, Hck by auto. cbn [rsum]. destruct (Nat.ltb_spec kk kk); [lia|].
      replace (rsum kk (fun t => (if (t <? kk)%nat then cj t - c j / val * ck t else - (c j / val)) * av phi A0 t i))
        with (rsum kk (fun t => cj t * av phi A0 t i) + (- (c j / val)) * rsum kk (fun t => ck t * av phi A0 t i)).
      + change (if (j =? kk)%nat then val else av (fun f0 : U => ev f0 x) A j p) with (c j). field. exact NZ.
      + rewrite <- rsum_scal, <- rsum_add. apply rsum_ext. intros t Ht. destruct (Nat.ltb_spec t kk); [ring|lia].
    - intros dom TA k Hk Hv i z Hi Hz. rewrite LV by lia. destruct (Nat.eqb_spec k kk) as [->|Nk].
      + rewrite Ukk in Hv. destruct (CN Hv) as (-> & -> & FLk). rewrite FLk by (auto; apply Hev).
        assert (NZ : val <> 0) by (intros X; rewrite X, Rabs_R0 in Hv; lra).
        unfold av. destruct (nth_error A (kk * n + i)) as [g|] eqn:Eg; [|apply nth_error_None in Eg; nia].
        specialize (Amax i g Hi Eg). destruct (TA f) as (T1 & _). destruct (TA g) as (_ & _ & T3). specialize (T3 z Hz).
        rewrite Af in T1. cbn in T1. fold val in T1. unfold Rdiv. rewrite Rmult_1_l, Rabs_mult, Rabs_inv.
        apply Rabs_pos_lt in NZ. apply (Rmult_le_reg_l (Rabs val)); [exact NZ|]. rewrite <- Rmult_assoc, Rinv_r by lra. lra.
      + apply (Ibd dom TA k); auto; try lia. rewrite <- Uold by lia. exact Hv.
  Qed.

  (** ** The run *)
  Definition final (A0 : list U) (r : lu_state * Z) : Prop := inv A0 m (fst r).

  Lemma inv0 A0 L u piv px : length A0 = (m * n)%nat -> length L = (m * n)%nat -> length u = (m * m)%nat -> length piv = m -> length px = m ->
    inv A0 0 (mklu A0 L u piv px).
  Proof.
    intros. constructor; cbn [lu_A lu_L lu_u lu_piv lu_px]; auto; try (intros; lia).
    - intros. cbn. ring.
    - intros _ j Hj. exists (fun _ => 0). intros. cbn. ring.
  Qed.

  Definition count_small (u : list R) (k : nat) : nat := length (filter (fun i => Rltb (Rabs (nth (i * m + i) u 0)) zt) (seq 0 k)).
  Lemma info_ok u : length u = (m * m)%nat ->
    for_ m (fun kk (info : Z) => do d <- aget u (kk * m + kk)%nat; Ok (if Rltb (Rabs d) zt then (info - 1)%Z else info)) 0%Z = Ok (- Z.of_nat (count_small u m))%Z.
  Proof.
    intros Hu. set (st := fun k => (- Z.of_nat (count_small u k))%Z). change 0%Z with (st 0%nat). apply (for_det st).
    intros k Hk. rewrite (aget_ok _ _ (nth (k * m + k) u 0)) by (apply nth_error_nth'; nia). cbn [obind]. f_equal.
    unfold st, count_small. rewrite seq_S, filter_app, app_length. cbn [filter Nat.add]. destruct (Rltb (Rabs (nth (k * m + k) u 0)) zt); cbn [length]; lia.
  Qed.
End Lu.
