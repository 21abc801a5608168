(** C37: LU decomposition with pivoting of a quasimatrix array (qmarray_lu1d). *)
From Coq Require Import Reals Lra.
From Verif Require Import RoundRun LuFacts PropOrth.
From Coq Require Import Lia List ZArith Permutation.
Import ListNotations.
Open Scope R_scope.

(** ** Specification, independent of the model *)
Section Spec.
  Context {U : uops Rring}.
  (** Entry (i,j) of a quasimatrix array with [n] rows stored by columns, seen through
      [phi] (evaluation at a point, an integral, ...). *)
  Definition aent (phi : U -> R) (n : nat) (A : list U) (i j : nat) : R :=
    match nth_error A (j * n + i) with Some f => phi f | None => 0 end.
  Definition lent (phi : U -> R) (n : nat) (L : list (option U)) (i k : nat) : R :=
    match nth_error L (k * n + i) with Some (Some f) => phi f | _ => 0 end.
  (** Entry (k,j) of the square matrix stored by columns. *)
  Definition uent (m : nat) (u : list R) (k j : nat) : R := nth (j * m + k) u 0.

  (** A = L U + B, entry by entry, for everything linear that can be asked about it. *)
  Definition is_product (n m : nat) (A B : list U) (L : list (option U)) (u : list R) : Prop :=
    forall phi i j, linfun (R := Rring) phi -> (i < n)%nat -> (j < m)%nat ->
      aent phi n A i j = aent phi n B i j + rsum m (fun k => lent phi n L i k * uent m u k j).
  Definition upper_triangular (m : nat) (u : list R) : Prop :=
    forall k j, (j < k < m)%nat -> uent m u k j = 0.
  (** Column k of L is 1 at pivot k and 0 at the pivots before. *)
  Definition unit_pivots (n m : nat) (L : list (option U)) (piv : list nat) (px : list R) : Prop :=
    (forall k, (k < m)%nat -> (nth k piv 0 < n)%nat) /\
    (forall k, (k < m)%nat -> lent (fun f => uev f (nth k px 0 : Rring)) n L (nth k piv 0%nat) k = 1) /\
    (forall j k, (j < k < m)%nat -> lent (fun f => uev f (nth j px 0 : Rring)) n L (nth j piv 0%nat) k = 0).
  Definition filled (n m : nat) (L : list (option U)) : Prop :=
    length L = (m * n)%nat /\ forall k i, (k < m)%nat -> (i < n)%nat -> exists f, nth_error L (k * n + i) = Some (Some f).
  (** The columns are independent beyond the threshold: no column plus a combination of
      the columns before is uniformly within [zt] of zero on the domain. *)
  Definition independent (dom : R -> Prop) (zt : R) (n m : nat) (A : list U) : Prop :=
    forall j (c : nat -> R), (j < m)%nat -> exists i x, (i < n)%nat /\ dom x /\
      zt < Rabs (aent (fun f => uev f (x : Rring)) n A i j + rsum j (fun t => c t * aent (fun f => uev f (x : Rring)) n A i t)).
End Spec.

Section Thm.
  Context {U : uops Rring} (W : vops U) (zt : R) (absmax1 : U -> R * R) (nodal : U -> bool).
  Context (onezero2 : list R -> U) (uone : U) (zpoly : list R -> U).
  (** What is assumed of the univariate functions, for an array with [m] columns:
      evaluation is linear, scaling scales, and the functions made for vanishing columns
      are zero where they are asked to be zero. *)
  Definition lu_laws (m : nat) : Prop :=
    (forall x : R, linfun (R := Rring) (fun f : U => (uev f (x : Rring) : R))) /\
    (forall c f x, (uev (vscale W c f) (x : Rring) : R) = c * uev f (x : Rring)) /\
    0 <= zt /\
    (forall f z x, nodal f = true -> (length z < m)%nat -> In x z -> (uev (onezero2 z) (x : Rring) : R) = 0) /\
    (forall f z x, nodal f = false -> (length z < m)%nat -> In x z -> (uev (zpoly z) (x : Rring) : R) = 0) /\
    (forall f z, nodal f = true -> (length z < m)%nat -> (uev (onezero2 z) (snd (absmax1 (onezero2 z)) : Rring) : R) <> 0).

  (** generic_function_absmax returns the maximum of |f| over the domain and where it is. *)
  Definition is_absmax (dom : R -> Prop) : Prop :=
    forall f, fst (absmax1 f) = Rabs (uev f (snd (absmax1 f) : Rring)) /\ dom (snd (absmax1 f)) /\
      forall y, dom y -> Rabs (uev f (y : Rring)) <= fst (absmax1 f).

  Lemma laws_base m : lu_laws m ->
    forall f z x, (length z < m)%nat -> In x z -> (uev (base onezero2 uone zpoly (nodal f) z) (x : Rring) : R) = 0.
  Proof.
    intros (_ & _ & _ & H1 & H2 & _) f z x Hl Hi. unfold base. destruct (nodal f) eqn:E; [eapply H1; eauto|].
    destruct z; [destruct Hi|]. eapply H2; eauto.
  Qed.

  Lemma lu_product A0 n m s : (inv zt absmax1 n m A0 m s : Prop) ->
    is_product n m A0 (lu_A s) (lu_L s) (lu_u s) /\ filled n m (lu_L s) /\ unit_pivots n m (lu_L s) (lu_piv s) (lu_px s).
  Proof.
    intros I. split; [|split].
    - intros phi i j Hp Hi Hj. transitivity (av n phi A0 j i); [reflexivity|]. rewrite (i_dec _ _ _ _ _ _ _ I phi j i Hp Hj Hi).
      f_equal. apply rsum_ext. intros k Hk. unfold uent. rewrite Rmult_comm. reflexivity.
    - split; [apply (i_L _ _ _ _ _ _ _ I)|]. intros. apply (i_some _ _ _ _ _ _ _ I); auto.
    - split; [|split]; intros; [apply (i_piv _ _ _ _ _ _ _ I)|apply (i_L1 _ _ _ _ _ _ _ I)|apply (i_L0 _ _ _ _ _ _ _ I)]; auto.
  Qed.

  Lemma lu_exact A0 n m s : (inv zt absmax1 n m A0 m s : Prop) -> (forall k, (k < m)%nat -> zt < Rabs (uent m (lu_u s) k k)) ->
    upper_triangular m (lu_u s) /\
    (forall phi i j, linfun (R := Rring) phi -> (i < n)%nat -> (j < m)%nat -> aent phi n (lu_A s) i j = 0).
  Proof.
    intros I N. split.
    - intros k j H. apply (i_U _ _ _ _ _ _ _ I); auto.
    - intros phi i j Hp Hi Hj. apply (i_Z _ _ _ _ _ _ _ I); auto.
  Qed.

  Lemma count_zero m u : (forall k, (k < m)%nat -> zt < Rabs (uent m u k k)) -> count_small zt m u m = 0%nat.
  Proof.
    intros H. unfold count_small. assert (E : filter (fun i => Rltb (Rabs (nth (i * m + i) u 0)) zt) (seq 0 m) = []).
    { assert (X : forall l, (forall k, In k l -> (k < m)%nat) -> filter (fun i => Rltb (Rabs (nth (i * m + i) u 0)) zt) l = []).
      { induction l as [|a l IH]; intros Hl; [reflexivity|]. cbn [filter]. destruct (Rltb_spec (Rabs (nth (a * m + a) u 0)) zt) as [X|X].
        - pose proof (H a (Hl a (or_introl eq_refl))) as Y. unfold uent in Y. lra.
        - apply IH. intros k Hk. apply Hl. now right. }
      apply X. intros k Hk. apply in_seq in Hk. lia. }
    rewrite E. reflexivity.
  Qed.

  (** For every array of functions: unless a column vanishes and no substitute for it can
      be made (assertion in create_any_L), the call returns; the columns of L are filled
      in, take the value 1 at their pivot and 0 at the earlier pivots; A is L U plus the
      remainder the call leaves in A; the return value is minus the number of diagonal
      entries of U below the threshold.  If no diagonal entry is small, the remainder is
      zero and U is upper triangular. *)
  Theorem C37_lu1d_any (A : qma U) (L : list (option U)) (u : list R) (piv : list nat) (px : list R) :
    lu_laws (nc A) -> (0 < nr A)%nat -> qwf A ->
    length L = (nc A * nr A)%nat -> length u = (nc A * nc A)%nat -> length piv = nc A -> length px = nc A ->
    (qmarray_lu1d W zt absmax1 nodal onezero2 uone zpoly A L u piv px = Abort) \/
    exists s info, qmarray_lu1d W zt absmax1 nodal onezero2 uone zpoly A L u piv px = Ok (s, info) /\
      is_product (nr A) (nc A) (fs A) (lu_A s) (lu_L s) (lu_u s) /\
      filled (nr A) (nc A) (lu_L s) /\
      unit_pivots (nr A) (nc A) (lu_L s) (lu_piv s) (lu_px s) /\
      info = (- Z.of_nat (length (filter (fun k => Rltb (Rabs (uent (nc A) (lu_u s) k k)) zt) (seq 0 (nc A)))))%Z /\
      ((forall k, (k < nc A)%nat -> zt < Rabs (uent (nc A) (lu_u s) k k)) ->
        upper_triangular (nc A) (lu_u s) /\
        is_product (nr A) (nc A) (fs A) [] (lu_L s) (lu_u s)) /\
      (forall dom k i x, is_absmax dom -> (k < nc A)%nat -> (i < nr A)%nat -> dom x -> zt < Rabs (uent (nc A) (lu_u s) k k) ->
        Rabs (lent (fun f => uev f (x : Rring)) (nr A) (lu_L s) i k) <= 1).
  Proof.
    intros HL Hn HA L1 L2 L3 L4. unfold qwf in HA.
    pose proof (laws_base _ HL) as Hb. destruct HL as (Hev & Hsc & Hzt & _ & _ & Ho).
    unfold qmarray_lu1d. set (n := nr A) in *. set (m := nc A) in *.
    match goal with |- context [for_ m ?b0 ?s0] =>
      destruct (for_from_or True (fun kk s => inv zt absmax1 n m (fs A) kk s) b0 0 m s0) as [(s & E & I)|(E & _)] end.
    - apply inv0; auto. rewrite Nat.mul_comm. auto.
    - intros kk s Hk I. destruct (step_ok W zt absmax1 nodal onezero2 uone zpoly n m Hn Hev Hsc Hzt Hb Ho (fs A) kk s ltac:(lia) I) as [(s' & E & I' & _)|[E _]].
      + left. eauto.
      + right. auto.
    - right. unfold for_. rewrite E. cbn [obind].
      pose proof (info_ok zt n m Hn (lu_u s) (i_u _ _ _ _ _ _ _ I)) as EI. unfold for_ in EI. rewrite EI. cbn [obind].
      eexists s, _. split; [reflexivity|]. destruct (lu_product _ _ _ _ I) as (P1 & P2 & P3). split; [exact P1|]. split; [exact P2|]. split; [exact P3|].
      split; [reflexivity|]. split.
      + intros N. destruct (lu_exact _ _ _ _ I N) as [T Z]. split; [exact T|].
        intros phi i j Hp Hi Hj. rewrite (P1 phi i j Hp Hi Hj), (Z phi i j Hp Hi Hj). unfold aent at 1. destruct (j * n + i)%nat; reflexivity.
      + intros dom k i x Hd Hk Hi Hx Hz. apply (i_bd _ _ _ _ _ _ _ I dom Hd k Hk Hz i x Hi Hx).
    - left. unfold for_. rewrite E. reflexivity.
  Qed.

  (** If the columns are independent, no pivot vanishes: the call succeeds, returns 0, and
      A = L U with U upper triangular with non-vanishing diagonal, L as above and bounded
      by 1. *)
  Theorem C37_lu1d (dom : R -> Prop) (A : qma U) (L : list (option U)) (u : list R) (piv : list nat) (px : list R) :
    lu_laws (nc A) -> is_absmax dom -> (0 < nr A)%nat -> qwf A ->
    length L = (nc A * nr A)%nat -> length u = (nc A * nc A)%nat -> length piv = nc A -> length px = nc A ->
    independent dom zt (nr A) (nc A) (fs A) ->
    exists s, qmarray_lu1d W zt absmax1 nodal onezero2 uone zpoly A L u piv px = Ok (s, 0%Z) /\
      is_product (nr A) (nc A) (fs A) [] (lu_L s) (lu_u s) /\
      filled (nr A) (nc A) (lu_L s) /\
      unit_pivots (nr A) (nc A) (lu_L s) (lu_piv s) (lu_px s) /\
      upper_triangular (nc A) (lu_u s) /\
      (forall k, (k < nc A)%nat -> zt < Rabs (uent (nc A) (lu_u s) k k)) /\
      (forall k i x, (k < nc A)%nat -> (i < nr A)%nat -> dom x ->
        Rabs (lent (fun f => uev f (x : Rring)) (nr A) (lu_L s) i k) <= 1).
  Proof.
    intros HL Hd Hn HA L1 L2 L3 L4 HI. unfold qwf in HA.
    pose proof (laws_base _ HL) as Hb. destruct HL as (Hev & Hsc & Hzt & _ & _ & Ho).
    unfold qmarray_lu1d. set (n := nr A) in *. set (m := nc A) in *.
    match goal with |- context [for_ m ?b0 ?s0] =>
      destruct (for_from_or False (fun kk s => inv zt absmax1 n m (fs A) kk s /\ nv zt m kk (lu_u s)) b0 0 m s0) as [(s & E & I & N)|(_ & [])] end.
    - split; [apply inv0; auto; rewrite Nat.mul_comm; auto|]. intros k Hk. lia.
    - intros kk s Hk [I N].
      assert (NV : ~ vanishing zt absmax1 n (lu_A s) kk).
      { intros (v & p & x & f & EA & Ef & Hf).
        destruct (absmax_ok absmax1 n Hn (lu_A s) (kk * n)) as (v' & p' & x' & f' & EA' & Hp & Ef' & Af & Amax).
        { rewrite (i_A _ _ _ _ _ _ _ I). nia. }
        rewrite EA in EA'. injection EA' as <- <- <-. rewrite Ef in Ef'. injection Ef' as <-.
        destruct (i_span _ _ _ _ _ _ _ I N kk ltac:(lia)) as [c Hc].
        destruct (HI kk c ltac:(lia)) as (i & y & Hi & Hy & Hz).
        specialize (Hc (fun f => uev f (y : Rring)) i (Hev y) Hi).
        change (zt < Rabs (av n (fun f0 : U => uev f0 (y : Rring)) (fs A) kk i + rsum kk (fun t => c t * av n (fun f0 : U => uev f0 (y : Rring)) (fs A) t i))) in Hz.
        rewrite <- Hc in Hz. unfold av in Hz.
        destruct (nth_error (lu_A s) (kk * n + i)) as [g|] eqn:Eg; [|rewrite Rabs_R0 in Hz; lra].
        pose proof (Amax i g Hi Eg) as Hle.
        destruct (Hd g) as (_ & _ & Hg). specialize (Hg y Hy).
        destruct (Hd f) as (Hf1 & _). rewrite Af in Hf1. cbn [fst snd] in Hf1. lra. }
      destruct (step_ok W zt absmax1 nodal onezero2 uone zpoly n m Hn Hev Hsc Hzt Hb Ho (fs A) kk s ltac:(lia) I) as [(s' & E & I' & D & V)|[_ V]]; [|contradiction].
      left. exists s'. split; [exact E|]. split; [exact I'|].
      intros k Hk'. destruct (Nat.eq_dec k kk) as [->|Nk]; [apply V; exact NV|]. rewrite D by lia. apply N. lia.
    - unfold for_. rewrite E. cbn [obind].
      pose proof (info_ok zt n m Hn (lu_u s) (i_u _ _ _ _ _ _ _ I)) as EI. unfold for_ in EI. rewrite EI. cbn [obind].
      rewrite (count_zero m (lu_u s) N).
      eexists s. split; [reflexivity|]. destruct (lu_product _ _ _ _ I) as (P1 & P2 & P3).
      destruct (lu_exact _ _ _ _ I N) as [T Z].
      split; [|split; [exact P2|split; [exact P3|split; [exact T|split; [exact N|]]]]].
      + intros phi i j Hp Hi Hj. rewrite (P1 phi i j Hp Hi Hj), (Z phi i j Hp Hi Hj). unfold aent at 1. destruct (j * n + i)%nat; reflexivity.
      + intros k i x Hk Hi Hx. apply (i_bd _ _ _ _ _ _ _ I dom Hd k Hk (N k Hk) i x Hi Hx).
  Qed.
End Thm.

(** ** The theorems apply: lines a + b x on [0,1] *)
Definition line_dom (x : R) : Prop := 0 <= x <= 1.
Definition line_absmax (f : lineU) : R * R :=
  if Rltb (Rabs (fst f)) (Rabs (fst f + snd f)) then (Rabs (fst f + snd f), 1) else (Rabs (fst f), 0).
(** exact for at most one zero *)
Definition line_zpoly (z : list R) : lineU := match z with [a] => (- a, 1) | _ => (0, 0) end.

Lemma line_is_absmax : is_absmax (U := lineU) line_absmax line_dom.
Proof.
  intros [a b]. unfold line_absmax, line_dom. cbn.
  destruct (Rltb_spec (Rabs a) (Rabs (a + b))) as [H|H]; cbn; (split; [f_equal; lra|split; [lra|]]);
    intros y Hy; destruct (Rcase_abs a); destruct (Rcase_abs (a + b)); destruct (Rcase_abs (a + b * y));
    unfold Rabs in *; repeat destruct Rcase_abs; nra.
Qed.
Lemma line_lu_laws m : (m <= 2)%nat -> lu_laws (U := lineU) lineV (1 / 10) line_absmax (fun _ => false) (fun _ => (0, 0)) line_zpoly m.
Proof.
  intros Hm. split; [|split; [|split; [lra|split; [discriminate|split; [|discriminate]]]]].
  - intros x. split; [intros; cbn; ring|split; [intros; cbn; ring|]].
    intros l. induction l as [|[a [b c]] l IH]; [cbn; ring|].
    etransitivity; [|exact (f_equal (Rplus (a * (b + c * x))) IH)]. cbn. ring.
  - intros c [a b] x. cbn. ring.
  - intros _ z x _ Hl Hi. destruct z as [|a [|b z]]; cbn in *; [tauto| |lia]. destruct Hi as [->|[]]. ring.
Qed.

(** columns (1, x) and (x, 1) *)
Definition luA : qma lineU := mkq (U := lineU) 2 2 [(1, 0); (0, 1); (0, 1); (1, 0)].
Example C37_lu1d_example :
  exists s, qmarray_lu1d lineV (1 / 10) line_absmax (fun _ => false) (fun _ => (0, 0)) (1, 0) line_zpoly
              luA (repeat None 4) (repeat 0 4) (repeat 0%nat 2) (repeat 0 2) = Ok (s, 0%Z) /\
    is_product 2 2 (fs luA) [] (lu_L s) (lu_u s) /\ upper_triangular 2 (lu_u s).
Proof.
  destruct (C37_lu1d (U := lineU) lineV (1 / 10) line_absmax (fun _ => false) (fun _ => (0, 0)) (1, 0) line_zpoly line_dom luA
     (repeat None 4) (repeat 0 4) (repeat 0%nat 2) (repeat 0 2)) as (s & E & H1 & _ & _ & H2 & _);
    try reflexivity; [apply line_lu_laws; cbn; lia|exact line_is_absmax|cbn; lia| |exists s; auto].
  intros j c Hj. cbn in Hj. destruct j as [|[|j]]; [exists 0%nat, 0|exists 1%nat, 0|lia].
  - split; [cbn; lia|]. split; [unfold line_dom; lra|]. cbn. rewrite Rabs_pos_eq; lra.
  - split; [cbn; lia|]. split; [unfold line_dom; lra|]. cbn. rewrite Rabs_pos_eq; lra.
Qed.

(** A column that vanishes after elimination: both columns are the constant 1.  The second
    column of L is a line with a zero at the first pivot, the diagonal entry is 0. *)
Ltac rdec := repeat match goal with
  | |- context [Rltb ?a ?b] => destruct (Rltb_spec a b); [try (exfalso; unfold Rabs in *; repeat destruct Rcase_abs; lra)|try (exfalso; unfold Rabs in *; repeat destruct Rcase_abs; lra)]; cbn
  | |- context [Rleb ?a ?b] => destruct (Rleb_spec a b); [try (exfalso; unfold Rabs in *; repeat destruct Rcase_abs; lra)|try (exfalso; unfold Rabs in *; repeat destruct Rcase_abs; lra)]; cbn
  end.
Example C37_lu1d_vanishing_example :
  exists s, qmarray_lu1d lineV (1 / 10) line_absmax (fun _ => false) (fun _ => (0, 0)) (1, 0) line_zpoly
              (mkq (U := lineU) 1 2 [(1, 0); (1, 0)]) (repeat None 2) (repeat 0 4) (repeat 0%nat 2) (repeat 0 2) = Ok (s, (-1)%Z) /\
    Rabs (uent 2 (lu_u s) 1 1) <= 1 / 10 /\ nth 1 (lu_px s) 0 = 1.
Proof.
  unfold qmarray_lu1d, line_absmax, for_. cbn. unfold lu_step, array_absmax, lu_elim. cbn. rdec.
  eexists. split; [reflexivity|]. cbn. split; [unfold Rabs; destruct Rcase_abs; lra|reflexivity].
Qed.

Print Assumptions C37_lu1d_any.
Print Assumptions C37_lu1d.
