(** Gram-Schmidt and Householder triangularisation of a family of vectors of a
    (semi-definite) inner product space.  This file contains mathematics only; the
    array code is in OrthModel.v and is related to these families in OrthFacts.v. *)
From Coq Require Import Arith Lia Bool Reals Lra.
From Verif Require Import FOps.
Open Scope R_scope.

(** Finite sums of real numbers. *)
Fixpoint rsum (n : nat) (f : nat -> R) : R :=
  match n with O => 0 | S m => rsum m f + f m end.

Lemma rsum_ext n f g : (forall i, (i < n)%nat -> f i = g i) -> rsum n f = rsum n g.
Proof. induction n as [|n IH]; intros H; cbn; [reflexivity|]. rewrite IH by (intros; apply H; lia). now rewrite H by lia. Qed.
Lemma rsum_zero n f : (forall i, (i < n)%nat -> f i = 0) -> rsum n f = 0.
Proof. induction n as [|n IH]; intros H; cbn; [reflexivity|]. rewrite IH by (intros; apply H; lia). rewrite H by lia. lra. Qed.
Lemma rsum_add n f g : rsum n (fun i => f i + g i) = rsum n f + rsum n g.
Proof. induction n as [|n IH]; cbn; [lra|]. rewrite IH. lra. Qed.
Lemma rsum_scal n c f : rsum n (fun i => c * f i) = c * rsum n f.
Proof. induction n as [|n IH]; cbn; [lra|]. rewrite IH. lra. Qed.
Lemma rsum_single n f k : (k < n)%nat -> (forall i, (i < n)%nat -> i <> k -> f i = 0) -> rsum n f = f k.
Proof.
  induction n as [|n IH]; intros Hk H; [lia|]. cbn. destruct (Nat.eq_dec k n) as [->|N].
  - rewrite rsum_zero by (intros; apply H; lia). lra.
  - rewrite IH by (try lia; intros; apply H; lia). rewrite (H n) by lia. lra.
Qed.
Lemma rsum_pos n f : (forall i, (i < n)%nat -> 0 <= f i) -> 0 <= rsum n f.
Proof. induction n as [|n IH]; intros H; cbn; [lra|]. pose proof (H n ltac:(lia)). assert (0 <= rsum n f) by (apply IH; intros; apply H; lia). lra. Qed.
Lemma rsum_null n f : (forall i, (i < n)%nat -> 0 <= f i) -> rsum n f = 0 -> forall i, (i < n)%nat -> f i = 0.
Proof.
  induction n as [|n IH]; intros H E i Hi; [lia|]. cbn in E.
  pose proof (H n ltac:(lia)). assert (0 <= rsum n f) by (apply rsum_pos; intros; apply H; lia).
  destruct (Nat.eq_dec i n) as [->|]; [lra|]. apply IH; [intros; apply H; lia|lra|lia].
Qed.

(** Update of a family. *)
Definition updf {A} (f : nat -> A) (i : nat) (x : A) : nat -> A := fun k => if Nat.eqb k i then x else f k.
Lemma updf_eq {A} (f : nat -> A) i x : updf f i x i = x.
Proof. unfold updf. now rewrite Nat.eqb_refl. Qed.
Lemma updf_ne {A} (f : nat -> A) i x k : k <> i -> updf f i x k = f k.
Proof. intros H. unfold updf. apply Nat.eqb_neq in H. now rewrite H. Qed.

Definition delta (i j : nat) : R := if Nat.eqb i j then 1 else 0.

Section Abs.
  Variable X : Type.
  Variable ip : X -> X -> R.
  Variable axpy : R -> X -> X -> X.          (* a x + y *)
  Variable scale : R -> X -> X.
  Variable flip : X -> X.
  Variable wsum : R -> X -> R -> X -> X.     (* a x + b y *)

  (** Linear functionals. *)
  Definition lin (psi : X -> R) : Prop :=
    (forall a x y, psi (axpy a x y) = a * psi x + psi y) /\
    (forall a x, psi (scale a x) = a * psi x) /\
    (forall x, psi (flip x) = - psi x) /\
    (forall a x b y, psi (wsum a x b y) = a * psi x + b * psi y).

  (** Functionals that vanish on vectors of norm 0. *)
  Definition nul (psi : X -> R) : Prop := forall x, ip x x = 0 -> psi x = 0.

  Hypothesis ip_sym : forall x y, ip x y = ip y x.
  Hypothesis ip_lin : forall w, lin (fun x => ip x w).
  Hypothesis ip_pos : forall x, 0 <= ip x x.
  Variable n : nat.
  Variable zro : R.

  Definition orthonormal (m : nat) (Q : nat -> X) : Prop :=
    forall i j, (i < m)%nat -> (j < m)%nat -> ip (Q i) (Q j) = delta i j.

  Lemma ip_axpy_l a x y w : ip (axpy a x y) w = a * ip x w + ip y w.
  Proof. exact (proj1 (ip_lin w) a x y). Qed.
  Lemma ip_axpy_r a x y w : ip w (axpy a x y) = a * ip w x + ip w y.
  Proof. rewrite ip_sym, ip_axpy_l, (ip_sym x), (ip_sym y). reflexivity. Qed.
  Lemma ip_scale_l a x w : ip (scale a x) w = a * ip x w.
  Proof. exact (proj1 (proj2 (ip_lin w)) a x). Qed.
  Lemma ip_scale_r a x w : ip w (scale a x) = a * ip w x.
  Proof. rewrite ip_sym, ip_scale_l, (ip_sym x). reflexivity. Qed.
  Lemma ip_flip_l x w : ip (flip x) w = - ip x w.
  Proof. exact (proj1 (proj2 (proj2 (ip_lin w))) x). Qed.
  Lemma ip_flip_r x w : ip w (flip x) = - ip w x.
  Proof. rewrite ip_sym, ip_flip_l, (ip_sym x). reflexivity. Qed.
  Lemma ip_wsum_l a x b y w : ip (wsum a x b y) w = a * ip x w + b * ip y w.
  Proof. exact (proj2 (proj2 (proj2 (ip_lin w))) a x b y). Qed.
  Lemma ip_wsum_r a x b y w : ip w (wsum a x b y) = a * ip w x + b * ip w y.
  Proof. rewrite ip_sym, ip_wsum_l, (ip_sym x), (ip_sym y). reflexivity. Qed.

  Lemma ip_null_lin w : nul (fun x => ip x w).
  Proof.
    intros x Hx. destruct (Req_dec (ip x w) 0) as [|N]; [assumption|exfalso].
    (* 0 <= |w + t x|^2 = <w,w> + 2 t <x,w> for all t *)
    set (c := ip x w) in *.
    set (t := - (ip w w + 1) / (2 * c)).
    pose proof (ip_pos (axpy t x w)) as P.
    rewrite ip_axpy_l, !ip_axpy_r, Hx, (ip_sym w x) in P. fold c in P.
    assert (t * c = - (ip w w + 1) / 2) by (unfold t; field; exact N).
    nra.
  Qed.

  (** * Gram-Schmidt *)
  Record gst := mkgs { gA : nat -> X; gR : nat -> nat -> R }.

  (** One elimination step; column [i] has norm [r]. *)
  Definition gstep (i : nat) (s : gst) : gst :=
    let r := sqrt (ip (gA s i) (gA s i)) in
    let q := scale (1 / r) (gA s i) in
    mkgs (fun k => if (i <? k)%nat && (k <? n)%nat then axpy (- ip q (gA s k)) q (gA s k)
                   else if (k =? i)%nat then q else gA s k)
         (fun z k => if (z =? i)%nat then
                       if (k =? i)%nat then r
                       else if (i <? k)%nat && (k <? n)%nat then ip q (gA s k) else gR s z k
                     else gR s z k).

  Fixpoint grun (m : nat) (s : gst) : gst :=
    match m with O => s | S m' => gstep m' (grun m' s) end.

  Lemma grun_invariant s0 m :
    (m <= n)%nat -> 0 <= zro ->
    (forall i, (i < m)%nat -> zro < sqrt (ip (gA (grun i s0) i) (gA (grun i s0) i))) ->
    let s := grun m s0 in
    orthonormal m (gA s) /\
    (forall z k, (z < m)%nat -> (m <= k < n)%nat -> ip (gA s k) (gA s z) = 0) /\
    (forall z, (z < m)%nat -> zro < gR s z z) /\
    (forall z k, (z < n)%nat -> (k < n)%nat -> (k < z \/ m <= z)%nat -> gR s z k = gR s0 z k) /\
    (forall psi, lin psi -> forall k, (m <= k < n)%nat ->
       psi (gA s0 k) = rsum m (fun z => gR s z k * psi (gA s z)) + psi (gA s k)) /\
    (forall psi, lin psi -> forall k, (k < m)%nat ->
       psi (gA s0 k) = rsum (S k) (fun z => gR s z k * psi (gA s z))).
  Proof.
    intros Hm Hz. induction m as [|m IH]; intros Hpos s.
    - subst s. cbn. split; [intros i j Hi; lia|]. split; [intros; lia|]. split; [intros; lia|].
      split; [reflexivity|]. split; [intros; lra|]. intros; lia.
    - destruct (IH ltac:(lia) ltac:(intros; apply Hpos; lia)) as (O & Z & D & K & T & F).
      set (t := grun m s0) in *. subst s. change (grun (S m) s0) with (gstep m t).
      pose proof (Hpos m ltac:(lia)) as Hr. fold t in Hr.
      set (r := sqrt (ip (gA t m) (gA t m))) in *.
      assert (Hrr : r * r = ip (gA t m) (gA t m)) by (apply sqrt_sqrt, ip_pos).
      assert (Hr0 : 0 < r) by lra.
      set (q := scale (1 / r) (gA t m)).
      assert (Hqq : ip q q = 1).
      { unfold q. rewrite ip_scale_l, ip_scale_r, <- Hrr. field. lra. }
      assert (EA : forall k, (k < m)%nat -> gA (gstep m t) k = gA t k).
      { intros k Hk. unfold gstep; cbn [gA gR]. replace (m <? k)%nat with false by (symmetry; apply Nat.ltb_ge; lia).
        cbn [andb]. replace (k =? m)%nat with false by (symmetry; apply Nat.eqb_neq; lia). reflexivity. }
      assert (EM : gA (gstep m t) m = q).
      { unfold gstep; cbn [gA gR]. rewrite Nat.ltb_irrefl, Nat.eqb_refl. reflexivity. }
      assert (EK : forall k, (m < k < n)%nat -> gA (gstep m t) k = axpy (- ip q (gA t k)) q (gA t k)).
      { intros k Hk. unfold gstep; cbn [gA gR]. replace (m <? k)%nat with true by (symmetry; apply Nat.ltb_lt; lia).
        replace (k <? n)%nat with true by (symmetry; apply Nat.ltb_lt; lia). reflexivity. }
      assert (RZ : forall z k, z <> m -> gR (gstep m t) z k = gR t z k).
      { intros z k Hzm. unfold gstep; cbn [gA gR]. replace (z =? m)%nat with false by (symmetry; apply Nat.eqb_neq; lia). reflexivity. }
      assert (RM : gR (gstep m t) m m = r) by (unfold gstep; cbn [gA gR]; now rewrite !Nat.eqb_refl).
      assert (RK : forall k, (m < k < n)%nat -> gR (gstep m t) m k = ip q (gA t k)).
      { intros k Hk. unfold gstep; cbn [gA gR]. rewrite Nat.eqb_refl. replace (k =? m)%nat with false by (symmetry; apply Nat.eqb_neq; lia).
        replace (m <? k)%nat with true by (symmetry; apply Nat.ltb_lt; lia).
        replace (k <? n)%nat with true by (symmetry; apply Nat.ltb_lt; lia). reflexivity. }
      assert (RL : forall k, (k < m)%nat -> gR (gstep m t) m k = gR t m k).
      { intros k Hk. unfold gstep; cbn [gA gR]. rewrite Nat.eqb_refl. replace (k =? m)%nat with false by (symmetry; apply Nat.eqb_neq; lia).
        replace (m <? k)%nat with false by (symmetry; apply Nat.ltb_ge; lia). reflexivity. }
      assert (Qz : forall z, (z < m)%nat -> ip q (gA t z) = 0).
      { intros z Hz'. unfold q. rewrite ip_scale_l, Z by lia. lra. }
      set (s := gstep m t) in *.
      split; [|split; [|split; [|split; [|split]]]].
      + intros i j Hi Hj. destruct (Nat.eq_dec i m) as [->|Ni], (Nat.eq_dec j m) as [->|Nj].
        * rewrite EM. unfold delta. now rewrite Nat.eqb_refl.
        * rewrite EM, EA by lia. rewrite Qz by lia. unfold delta. replace (m =? j)%nat with false by (symmetry; apply Nat.eqb_neq; lia). reflexivity.
        * rewrite EM, EA by lia. rewrite ip_sym, Qz by lia. unfold delta. replace (i =? m)%nat with false by (symmetry; apply Nat.eqb_neq; lia). reflexivity.
        * rewrite !EA by lia. apply O; lia.
      + intros z k Hz' Hk. rewrite EK by lia. rewrite ip_axpy_l.
        destruct (Nat.eq_dec z m) as [->|Nz].
        * rewrite EM, Hqq, (ip_sym (gA t k) q). lra.
        * rewrite EA by lia. rewrite (Qz z), Z by lia. lra.
      + intros z Hz'. destruct (Nat.eq_dec z m) as [->|Nz]; [now rewrite RM|]. rewrite RZ by auto. apply D; lia.
      + intros z k Hz' Hk Hzk. destruct (Nat.eq_dec z m) as [->|Nz].
        * rewrite RL by lia. apply K; lia.
        * rewrite RZ by auto. apply K; lia.
      + intros psi L k Hk. rewrite (T psi L k) by lia. cbn [rsum]. rewrite EM, RK by lia. rewrite EK by lia.
        pose proof L as (La & _). rewrite La.
        rewrite (rsum_ext m (fun z => gR s z k * psi (gA s z)) (fun z => gR t z k * psi (gA t z))).
        * lra.
        * intros i Hi. rewrite RZ, EA by lia. reflexivity.
      + intros psi L k Hk. destruct (Nat.eq_dec k m) as [->|Nk].
        * rewrite (T psi L m) by lia. cbn [rsum]. rewrite RM, EM.
          rewrite (rsum_ext m (fun z => gR s z m * psi (gA s z)) (fun z => gR t z m * psi (gA t z)))
            by (intros i Hi; rewrite RZ, EA by lia; reflexivity).
          pose proof L as (_ & Ls & _). unfold q. rewrite Ls. field_simplify; [lra|lra].
        * rewrite (F psi L k) by lia. apply rsum_ext. intros i Hi. rewrite RZ, EA by lia. reflexivity.
  Qed.

  (** * Householder *)

  (** Reflection along the unit vector [v]. *)
  Definition refl (v x : X) : X := axpy (-2 * ip x v) v x.

  Lemma refl_lin v psi : lin psi -> forall x, psi (refl v x) = psi x - 2 * ip x v * psi v.
  Proof. intros (La & _) x. unfold refl. rewrite La. lra. Qed.
  Lemma refl_lin' v psi : lin psi -> lin (fun x => psi (refl v x)).
  Proof.
    intros L. pose proof L as (La & Ls & Lf & Lw).
    split; [|split; [|split]]; intros; rewrite !(refl_lin v psi L).
    - rewrite La, ip_axpy_l. lra.
    - rewrite Ls, ip_scale_l. lra.
    - rewrite Lf, ip_flip_l. lra.
    - rewrite Lw, ip_wsum_l. lra.
  Qed.
  Lemma refl_l v x w : ip (refl v x) w = ip x w - 2 * ip x v * ip v w.
  Proof. exact (refl_lin v (fun y => ip y w) (ip_lin w) x). Qed.
  Lemma refl_r v x w : ip w (refl v x) = ip w x - 2 * ip x v * ip w v.
  Proof. rewrite ip_sym, refl_l, (ip_sym v), (ip_sym x w). lra. Qed.
  Lemma refl_iso v x y : ip v v = 1 -> ip (refl v x) (refl v y) = ip x y.
  Proof. intros H. rewrite refl_l, !refl_r, H, (ip_sym v y). lra. Qed.
  Lemma refl_nul v psi : ip v v = 1 -> nul psi -> nul (fun x => psi (refl v x)).
  Proof. intros H N x Hx. apply N. now rewrite refl_iso. Qed.

  Record hst := mkhs { hA : nat -> X; hE : nat -> X; hV : nat -> X; hR : nat -> nat -> R }.

  (** Choice of sign of [e] *)
  Definition hsign (alpha : R) (e : X) : X :=
    if Rltb (Rabs alpha) zro then e
    else if Rltb (- alpha / Rabs alpha) 0 then flip e else e.

  (** Removal of the components along [E 0 .. E (m-1)] *)
  Fixpoint horth (E : nat -> X) (m : nat) (v : X) : X :=
    match m with
    | O => v
    | S m' => let v' := horth E m' v in axpy (- ip v' (E m')) (E m') v'
    end.

  Definition hunit (e v : X) : X :=
    let sigma := sqrt (ip v v) in
    if Rltb (Rabs sigma) zro then e else scale (1 / sigma) v.

  Definition hstep (i : nat) (s : hst) : hst :=
    let a := hA s i in
    let rho := sqrt (ip a a) in
    let e := hsign (ip (hE s i) a) (hE s i) in
    let E := updf (hE s) i e in
    let v := hunit e (horth E i (wsum rho e (-1) a)) in
    let r := fun k => ip e (hA s k) + -2 * ip e v * ip v (hA s k) in
    mkhs (fun k => if (i <? k)%nat && (k <? n)%nat
                   then axpy (- r k) e (axpy (-2 * ip v (hA s k)) v (hA s k)) else hA s k)
         E (updf (hV s) i v)
         (fun z k => if (z =? i)%nat then
                       if (k =? i)%nat then rho
                       else if (i <? k)%nat && (k <? n)%nat then r k else hR s z k
                     else hR s z k).

  Fixpoint hrun (m : nat) (s : hst) : hst :=
    match m with O => s | S m' => hstep m' (hrun m' s) end.

  (** Product of the first [m] reflections. *)
  Fixpoint prefl (V : nat -> X) (m : nat) (x : X) : X :=
    match m with O => x | S m' => prefl V m' (refl (V m') x) end.

  (** The accumulated orthonormal factor. *)
  Definition hQ (V E : nat -> X) (k : nat) : X := prefl V (S k) (E k).

  Lemma prefl_lin V m psi : lin psi -> lin (fun x => psi (prefl V m x)).
  Proof. revert psi; induction m as [|m IH]; intros psi L; [exact L|]. cbn. exact (refl_lin' (V m) (fun x => psi (prefl V m x)) (IH psi L)). Qed.
  Lemma prefl_iso V m x y : (forall i, (i < m)%nat -> ip (V i) (V i) = 1) -> ip (prefl V m x) (prefl V m y) = ip x y.
  Proof.
    revert x y; induction m as [|m IH]; intros x y H; [reflexivity|]. cbn.
    rewrite IH by (intros; apply H; lia). apply refl_iso, H. lia.
  Qed.
  Lemma prefl_nul V m psi : (forall i, (i < m)%nat -> ip (V i) (V i) = 1) -> nul psi -> nul (fun x => psi (prefl V m x)).
  Proof. intros H N x Hx. apply N. now rewrite prefl_iso. Qed.
  Lemma prefl_ext V V' m x : (forall i, (i < m)%nat -> V i = V' i) -> prefl V m x = prefl V' m x.
  Proof. revert x; induction m as [|m IH]; intros x H; [reflexivity|]. cbn. rewrite H by lia. apply IH. intros; apply H; lia. Qed.
  Lemma prefl_app V a b x : prefl V (a + b) x = prefl V a (prefl (fun i => V (a + i)%nat) b x).
  Proof.
    revert x; induction b as [|b IH]; intros x; [now rewrite Nat.add_0_r|].
    rewrite Nat.add_succ_r. cbn. now rewrite IH.
  Qed.

  Lemma hsign_flip alpha e : hsign alpha e = e \/ hsign alpha e = flip e.
  Proof. unfold hsign. destruct (Rltb _ _); [auto|]. destruct (Rltb _ _); auto. Qed.

  (** With the chosen sign, <e,a> is non-positive or below the threshold. *)
  Lemma hsign_ip e a : 0 < zro -> ip (hsign (ip e a) e) a <= 0 \/ ip (hsign (ip e a) e) a < zro.
  Proof.
    intros Hz. unfold hsign. destruct (Rltb_spec (Rabs (ip e a)) zro) as [Hs|Hs].
    - right. pose proof (RRle_abs (ip e a)). lra.
    - left. assert (Hn : ip e a <> 0). { intros E. rewrite E, Rabs_R0 in Hs. lra. }
      destruct (Rltb_spec (- ip e a / Rabs (ip e a)) 0) as [Hf|Hf].
      + rewrite ip_flip_l. destruct (Rle_or_lt 0 (ip e a)); [lra|exfalso].
        rewrite Rabs_left in Hf by lra. replace (- ip e a / - ip e a) with 1 in Hf by (field; lra). lra.
      + destruct (Rle_or_lt (ip e a) 0); [lra|exfalso].
        apply Hf. rewrite Rabs_right by lra. replace (- ip e a / ip e a) with (-1) by (field; lra). lra.
  Qed.

  Lemma horth_noop E m v :
    (forall i j, (i < m)%nat -> (j < m)%nat -> ip (E i) (E j) = delta i j) ->
    (forall z, (z < m)%nat -> ip v (E z) = 0) ->
    forall psi, lin psi -> psi (horth E m v) = psi v.
  Proof.
    intros HE. induction m as [|m IH]; intros H psi L; [reflexivity|]. cbn.
    pose proof L as (La & _). rewrite La.
    assert (IH' : forall psi, lin psi -> psi (horth E m v) = psi v).
    { apply IH; intros; [apply HE|apply H]; lia. }
    rewrite (IH' (fun x => ip x (E m)) (ip_lin _)), H, (IH' psi L) by lia. lra.
  Qed.

  Lemma hrun_invariant s0 m :
    (m <= n)%nat -> 0 < zro -> orthonormal n (hE s0) ->
    let s := hrun m s0 in
    orthonormal n (hE s) /\
    (forall z k, (z < m)%nat -> (m <= k < n)%nat -> ip (hA s k) (hE s z) = 0) /\
    (forall z, (z < m)%nat -> ip (hV s z) (hV s z) = 1) /\
    (forall z w, (z < m)%nat -> (w < z)%nat -> ip (hV s z) (hE s w) = 0) /\
    (forall z, (z < m)%nat -> 0 <= hR s z z) /\
    (forall z k, (z < n)%nat -> (k < n)%nat -> (k < z \/ m <= z)%nat -> hR s z k = hR s0 z k) /\
    (forall psi, lin psi -> forall k, (m <= k < n)%nat ->
       psi (hA s0 k) = rsum m (fun z => hR s z k * psi (hQ (hV s) (hE s) z)) + psi (prefl (hV s) m (hA s k))) /\
    (forall psi, lin psi -> forall k, (k < m)%nat ->
       2 * zro <= hR s k k \/ hR s k k = 0 /\ nul psi ->
       psi (hA s0 k) = rsum (S k) (fun z => hR s z k * psi (hQ (hV s) (hE s) z))).
  Proof.
    intros Hm Hz HE. induction m as [|m IH]; intros s.
    - subst s. cbn. split; [exact HE|]. split; [intros; lia|]. split; [intros; lia|]. split; [intros; lia|].
      split; [intros; lia|]. split; [reflexivity|]. split; [intros; lra|]. intros; lia.
    - destruct (IH ltac:(lia)) as (O & Z & VV & VE & D & K & T & F).
      set (t := hrun m s0) in *. subst s. change (hrun (S m) s0) with (hstep m t).
      set (a := hA t m). set (rho := sqrt (ip a a)).
      set (e := hsign (ip (hE t m) a) (hE t m)).
      assert (Hrr : rho * rho = ip a a) by (apply sqrt_sqrt, ip_pos).
      assert (Hr0 : 0 <= rho) by apply sqrt_pos.
      assert (Hee : ip e e = 1).
      { pose proof (O m m ltac:(lia) ltac:(lia)) as H. unfold delta in H. rewrite Nat.eqb_refl in H.
        unfold e. destruct (hsign_flip (ip (hE t m) a) (hE t m)) as [->| ->]; [exact H|].
        rewrite ip_flip_l, ip_flip_r. lra. }
      assert (Hez : forall z, (z < n)%nat -> z <> m -> ip e (hE t z) = 0).
      { intros z H1 H2. pose proof (O m z ltac:(lia) H1) as H. unfold delta in H.
        replace (m =? z)%nat with false in H by (symmetry; apply Nat.eqb_neq; lia).
        unfold e. destruct (hsign_flip (ip (hE t m) a) (hE t m)) as [->| ->]; [exact H|].
        rewrite ip_flip_l. lra. }
      set (E := updf (hE t) m e).
      assert (OE : orthonormal n E).
      { intros i j Hi Hj. unfold E. destruct (Nat.eq_dec i m) as [->|Ni], (Nat.eq_dec j m) as [->|Nj].
        - rewrite updf_eq, Hee. unfold delta. now rewrite Nat.eqb_refl.
        - rewrite updf_eq, updf_ne by auto. rewrite Hez by auto. unfold delta.
          replace (m =? j)%nat with false by (symmetry; apply Nat.eqb_neq; lia). reflexivity.
        - rewrite updf_eq, updf_ne by auto. rewrite ip_sym, Hez by auto. unfold delta.
          replace (i =? m)%nat with false by (symmetry; apply Nat.eqb_neq; lia). reflexivity.
        - rewrite !updf_ne by auto. apply O; auto. }
      set (v0 := wsum rho e (-1) a). set (v1 := horth E m v0).
      assert (V0E : forall z, (z < m)%nat -> ip v0 (E z) = 0).
      { intros z Hz'. unfold v0, E. rewrite ip_wsum_l, updf_ne by lia. rewrite Hez by lia.
        unfold a. rewrite Z by lia. lra. }
      assert (V1 : forall psi, lin psi -> psi v1 = rho * psi e - psi a).
      { intros psi L. unfold v1. rewrite (horth_noop E m v0) by (auto; intros; apply OE; lia).
        unfold v0. pose proof L as (_ & _ & _ & Lw). rewrite Lw. lra. }
      set (beta := ip e a).
      assert (V11 : ip v1 v1 = 2 * rho * (rho - beta)).
      { rewrite (V1 (fun x => ip x v1) (ip_lin _)). rewrite (ip_sym e v1), (ip_sym a v1).
        rewrite (V1 (fun x => ip x e) (ip_lin _)), (V1 (fun x => ip x a) (ip_lin _)).
        rewrite Hee, (ip_sym a e), <- Hrr. fold beta. lra. }
      set (sigma := sqrt (ip v1 v1)).
      assert (Hss : sigma * sigma = ip v1 v1) by (apply sqrt_sqrt, ip_pos).
      assert (Hs0 : 0 <= sigma) by apply sqrt_pos.
      set (v := hunit e v1).
      assert (Hv : v = e /\ sigma < zro \/ v = scale (1 / sigma) v1 /\ zro <= sigma).
      { unfold v, hunit. fold sigma. rewrite Rabs_right by lra.
        destruct (Rltb_spec sigma zro); [left|right]; split; auto; lra. }
      assert (Hvv : ip v v = 1).
      { destruct Hv as [[-> _]|[-> Hs]]; [exact Hee|]. rewrite ip_scale_l, ip_scale_r, <- Hss. field. lra. }
      assert (HvE : forall z, (z < m)%nat -> ip v (hE t z) = 0).
      { intros z Hz'. destruct Hv as [[-> _]|[-> Hs]]; [apply Hez; lia|].
        rewrite ip_scale_l. rewrite (V1 (fun x => ip x (hE t z)) (ip_lin _)). rewrite Hez by lia.
        unfold a. rewrite Z by lia. lra. }
      set (r := fun k => ip e (hA t k) + -2 * ip e v * ip v (hA t k)).
      assert (EA : forall k, (m < k < n)%nat -> hA (hstep m t) k = axpy (- r k) e (axpy (-2 * ip v (hA t k)) v (hA t k))).
      { intros k Hk. unfold hstep; cbn [hA hR]. replace (m <? k)%nat with true by (symmetry; apply Nat.ltb_lt; lia).
        replace (k <? n)%nat with true by (symmetry; apply Nat.ltb_lt; lia). reflexivity. }
      assert (EE : hE (hstep m t) = E) by reflexivity.
      assert (EV : hV (hstep m t) = updf (hV t) m v) by reflexivity.
      assert (RZ : forall z k, z <> m -> hR (hstep m t) z k = hR t z k).
      { intros z k Hzm. unfold hstep; cbn [hA hR]. replace (z =? m)%nat with false by (symmetry; apply Nat.eqb_neq; lia). reflexivity. }
      assert (RM : hR (hstep m t) m m = rho) by (unfold hstep; cbn [hA hR]; now rewrite !Nat.eqb_refl).
      assert (RK : forall k, (m < k < n)%nat -> hR (hstep m t) m k = r k).
      { intros k Hk. unfold hstep; cbn [hA hR]. rewrite Nat.eqb_refl. replace (k =? m)%nat with false by (symmetry; apply Nat.eqb_neq; lia).
        replace (m <? k)%nat with true by (symmetry; apply Nat.ltb_lt; lia).
        replace (k <? n)%nat with true by (symmetry; apply Nat.ltb_lt; lia). reflexivity. }
      assert (RL : forall k, (k < m)%nat -> hR (hstep m t) m k = hR t m k).
      { intros k Hk. unfold hstep; cbn [hA hR]. rewrite Nat.eqb_refl. replace (k =? m)%nat with false by (symmetry; apply Nat.eqb_neq; lia).
        replace (m <? k)%nat with false by (symmetry; apply Nat.ltb_ge; lia). reflexivity. }
      assert (QZ : forall z, (z < m)%nat -> hQ (updf (hV t) m v) E z = hQ (hV t) (hE t) z).
      { intros z Hz'. unfold hQ, E. rewrite updf_ne by lia. apply prefl_ext. intros i Hi. apply updf_ne. lia. }
      assert (PZ : forall x, prefl (updf (hV t) m v) m x = prefl (hV t) m x).
      { intros x. apply prefl_ext. intros i Hi. apply updf_ne. lia. }
      set (s := hstep m t) in *. rewrite EE, EV.
      split; [exact OE|]. split; [|split; [|split; [|split; [|split; [|split]]]]].
      + intros z k Hz' Hk. rewrite EA by lia. rewrite !ip_axpy_l.
        destruct (Nat.eq_dec z m) as [->|Nz].
        * unfold E. rewrite updf_eq, Hee. unfold r. rewrite (ip_sym e (hA t k)), (ip_sym v e). lra.
        * unfold E. rewrite updf_ne by lia. rewrite Hez, HvE, Z by lia. lra.
      + intros z Hz'. destruct (Nat.eq_dec z m) as [->|Nz]; [now rewrite updf_eq|]. rewrite updf_ne by auto. apply VV; lia.
      + intros z w Hz' Hw. unfold E. rewrite (updf_ne _ m e w) by lia.
        destruct (Nat.eq_dec z m) as [->|Nz]; [rewrite updf_eq; apply HvE; lia|]. rewrite updf_ne by auto. apply VE; lia.
      + intros z Hz'. destruct (Nat.eq_dec z m) as [->|Nz]; [now rewrite RM|]. rewrite RZ by auto. apply D; lia.
      + intros z k Hz' Hk Hzk. destruct (Nat.eq_dec z m) as [->|Nz].
        * rewrite RL by lia. apply K; lia.
        * rewrite RZ by auto. apply K; lia.
      + intros psi L k Hk. rewrite (T psi L k) by lia. cbn [rsum prefl]. rewrite RK by lia. rewrite updf_eq.
        rewrite (rsum_ext m (fun z => hR s z k * psi (hQ (updf (hV t) m v) E z)) (fun z => hR t z k * psi (hQ (hV t) (hE t) z)))
          by (intros i Hi; rewrite RZ, QZ by lia; reflexivity).
        unfold hQ. cbn [prefl]. rewrite !PZ, updf_eq.
        set (chi := fun x => psi (prefl (hV t) m x)).
        assert (Lc : lin chi) by (apply prefl_lin; exact L).
        change (rsum m (fun z => hR t z k * psi (prefl (hV t) m (refl (hV t m) (hE t z)))) + psi (prefl (hV t) m (hA t k)))
          with (rsum m (fun z => hR t z k * psi (prefl (hV t) m (refl (hV t m) (hE t z)))) + chi (hA t k)).
        change (psi (prefl (hV t) m (refl v (E m)))) with (chi (refl v (E m))).
        change (psi (prefl (hV t) m (refl v (hA s k)))) with (chi (refl v (hA s k))).
        assert (chi (hA t k) = r k * chi (refl v (E m)) + chi (refl v (hA s k))) as Hk'; [|change (psi (prefl (hV t) m (hA t k))) with (chi (hA t k)); rewrite Hk'; lra].
        rewrite !(refl_lin v chi Lc). rewrite EA by lia.
        pose proof Lc as (La & _). rewrite !La, !ip_axpy_l. unfold E. rewrite updf_eq, Hvv.
        unfold r. rewrite (ip_sym (hA t k) v). ring.
      + intros psi L k Hk. destruct (Nat.eq_dec k m) as [->|Nk].
        * rewrite RM. intros Hc. rewrite (T psi L m) by lia. cbn [rsum]. rewrite RM.
          rewrite (rsum_ext m (fun z => hR s z m * psi (hQ (updf (hV t) m v) E z)) (fun z => hR t z m * psi (hQ (hV t) (hE t) z)))
            by (intros i Hi; rewrite RZ, QZ by lia; reflexivity).
          unfold hQ at 3. cbn [prefl]. rewrite PZ, updf_eq.
          set (chi := fun x => psi (prefl (hV t) m x)).
          assert (Lc : lin chi) by (apply prefl_lin; exact L).
          change (psi (prefl (hV t) m (hA t m))) with (chi a).
          change (psi (prefl (hV t) m (refl v (E m)))) with (chi (refl v (E m))).
          assert (chi a = rho * chi (refl v (E m))) as ->; [|reflexivity].
          unfold E. rewrite updf_eq.
          destruct Hc as [Hc|[Hc Hn]].
          -- destruct (hsign_ip (hE t m) a Hz) as [Hb|Hb]; fold e in Hb; fold beta in Hb.
             ++ destruct Hv as [[_ Hs]|[-> Hs]]; [exfalso; nra|].
                rewrite (refl_lin _ chi Lc). rewrite ip_scale_r. pose proof Lc as (_ & Ls & _). rewrite Ls.
                rewrite (ip_sym e v1), (V1 (fun x => ip x e) (ip_lin _)), (V1 chi Lc), Hee, (ip_sym a e). fold beta.
                assert (Hsb : sigma * sigma = 2 * rho * (rho - beta)) by lra.
                replace (rho * (chi e - 2 * (1 / sigma * (rho * 1 - beta)) * (1 / sigma * (rho * chi e - chi a))))
                  with (rho * chi e - (2 * rho * (rho - beta)) / (sigma * sigma) * (rho * chi e - chi a)) by (field; lra).
                rewrite <- Hsb. field. lra.
             ++ destruct Hv as [[_ Hs]|[-> Hs]]; [exfalso; nra|].
                rewrite (refl_lin _ chi Lc). rewrite ip_scale_r. pose proof Lc as (_ & Ls & _). rewrite Ls.
                rewrite (ip_sym e v1), (V1 (fun x => ip x e) (ip_lin _)), (V1 chi Lc), Hee, (ip_sym a e). fold beta.
                assert (Hsb : sigma * sigma = 2 * rho * (rho - beta)) by lra.
                replace (rho * (chi e - 2 * (1 / sigma * (rho * 1 - beta)) * (1 / sigma * (rho * chi e - chi a))))
                  with (rho * chi e - (2 * rho * (rho - beta)) / (sigma * sigma) * (rho * chi e - chi a)) by (field; lra).
                rewrite <- Hsb. field. lra.
          -- assert (chi a = 0) as ->.
             { apply (prefl_nul (hV t) m psi VV Hn). rewrite <- Hrr, Hc. lra. }
             rewrite Hc. lra.
        * rewrite RZ by auto. intros Hc. rewrite (F psi L k) by (auto; lia).
          apply rsum_ext. intros i Hi. rewrite RZ, QZ by lia. reflexivity.
  Qed.

  (** The accumulated factor is orthonormal. *)
  Lemma hQ_orthonormal m V E :
    orthonormal m E ->
    (forall z, (z < m)%nat -> ip (V z) (V z) = 1) ->
    (forall z w, (z < m)%nat -> (w < z)%nat -> ip (V z) (E w) = 0) ->
    orthonormal m (hQ V E).
  Proof.
    intros OE VV VE.
    assert (G : forall i j, (i <= j)%nat -> (j < m)%nat -> ip (hQ V E i) (hQ V E j) = delta i j).
    { intros i j Hij Hj. unfold hQ. replace (S j) with (S i + (j - i))%nat by lia. rewrite prefl_app.
      rewrite prefl_iso by (intros; apply VV; lia). rewrite <- (OE i j) by lia.
      assert (B : forall b x, (S i + b <= m)%nat -> ip (E i) (prefl (fun q => V (S i + q)%nat) b x) = ip (E i) x).
      { induction b as [|b IHb]; intros x Hb; [reflexivity|]. cbn [prefl]. rewrite IHb by lia.
        rewrite refl_r, (ip_sym (E i) (V (S i + b)%nat)), (VE (S i + b)%nat i) by lia. lra. }
      apply B. lia. }
    intros i j Hi Hj. destruct (Nat.le_ge_cases i j); [apply G; lia|].
    rewrite ip_sym, G by lia. unfold delta. now rewrite Nat.eqb_sym.
  Qed.
End Abs.
