(** Derivatives and products as expansions. *)
From Coq Require Import Reals Lra Lia List.
From Verif Require Import Base BaseFacts FOps RIntLib FFTCheb QuadFacts OpeModel OpeSpec LegFacts HermFacts OpeBasis OpeFacts OpeLin OpeLin2 OpeInt OpeApprox.
Import ListNotations.
Local Open Scope R_scope.

Lemma fun_max (b : nat -> R) n : (1 <= n)%nat -> exists k0, (k0 < n)%nat /\ forall k, (k < n)%nat -> Rabs (b k) <= Rabs (b k0).
Proof.
  induction n as [|n IH]; intros H; [lia|]. destruct n as [|n].
  - exists 0%nat. split; [lia|]. intros k Hk. replace k with 0%nat by lia. lra.
  - destruct IH as (k0 & Hk0 & Hm); [lia|]. destruct (Rle_dec (Rabs (b (S n))) (Rabs (b k0))).
    + exists k0. split; [lia|]. intros k Hk. destruct (Nat.eq_dec k (S n)) as [->|]; [auto|apply Hm; lia].
    + exists (S n). split; [lia|]. intros k Hk. destruct (Nat.eq_dec k (S n)) as [->|]; [lra|]. specialize (Hm k ltac:(lia)). lra.
Qed.
Lemma upd_upd (c : list R) i v w : upd (upd c i v) i w = upd c i w.
Proof.
  revert i. induction c as [|a c IH]; intros [|i]; cbn; auto. now rewrite IH.
Qed.

(** ** Legendre coefficients of the derivative *)
Definition leg_dco (n : nat) (c : nat -> R) (i : nat) : R := rs ((n - i) / 2) (fun k => c (i + 1 + 2 * k)%nat * sqrt (INR (2 * (i + 1 + 2 * k) + 1))) * sqrt (INR (2 * i + 1)).
Lemma half_odd n i : forall g, (i <= n)%nat -> rs n (fun j => if (Nat.ltb i j && Nat.odd (j - i))%bool then g j else 0) = rs ((n - i) / 2) (fun k => g (i + 1 + 2 * k)%nat).
Proof.
  intros g Hi. replace n with (i + (n - i))%nat at 1 by lia. generalize (n - i)%nat. clear n Hi. intros m. induction m as [|m IH].
  - rewrite Nat.add_0_r. rewrite rs_zero; [reflexivity|]. intros j Hj. destruct (Nat.ltb_spec i j); [lia|reflexivity].
  - rewrite Nat.add_succ_r. cbn [rs]. rewrite IH. replace (i + m - i)%nat with m by lia. destruct (Nat.odd m) eqn:O.
    + apply Nat.odd_spec in O. destruct O as [q ->]. replace (S (2 * q + 1) / 2)%nat with (S q) by (apply Nat.div_unique with 0%nat; lia).
      replace ((2 * q + 1) / 2)%nat with q by (apply Nat.div_unique with 1%nat; lia). cbn [rs]. destruct (Nat.ltb_spec i (i + (2 * q + 1))); [|lia]. cbn [andb]. f_equal. f_equal. lia.
    + rewrite Bool.andb_false_r. assert (E : Nat.even m = true) by (rewrite <- Nat.negb_odd, O; reflexivity). apply Nat.even_spec in E. destruct E as [q ->].
      replace (S (2 * q) / 2)%nat with q by (apply Nat.div_unique with 1%nat; lia). replace ((2 * q) / 2)%nat with q by (apply Nat.div_unique with 0%nat; lia). ring.
Qed.
Lemma rs_pad n N (f : nat -> R) : (n <= N)%nat -> rs n f = rs N (fun k => if (k <? n)%nat then f k else 0).
Proof.
  intros H. induction H as [|N H IH].
  - apply rs_ext. intros k Hk. destruct (Nat.ltb_spec k n); [reflexivity|lia].
  - cbn [rs]. rewrite <- IH. destruct (Nat.ltb_spec N n); [lia|ring].
Qed.
Lemma leg_deriv_sum n (c : nat -> R) z : rs n (fun j => c j * phiD LEGENDRE j z) = rs (n - 1) (fun i => leg_dco n c i * phi LEGENDRE i z).
Proof.
  transitivity (rs n (fun i => leg_dco n c i * phi LEGENDRE i z)).
  - rewrite (rs_ext n _ (fun j => rs n (fun i => if (Nat.ltb i j && Nat.odd (j - i))%bool then c j * sqrt (INR (2 * j + 1)) * (sqrt (INR (2 * i + 1)) * phi LEGENDRE i z) else 0))).
    + rewrite rs_swap. apply rs_ext. intros i Hi. rewrite (half_odd n i) by lia. unfold leg_dco.
      rewrite (rs_ext _ _ (fun k => sqrt (INR (2 * i + 1)) * phi LEGENDRE i z * (c (i + 1 + 2 * k)%nat * sqrt (INR (2 * (i + 1 + 2 * k) + 1))))) by (intros; ring).
      rewrite rs_scal. ring.
    + intros j Hj. cbn [phiD]. rewrite legD_sum, (rs_pad j n) by lia.
      replace (c j * (sqrt (INR (2 * j + 1)) * rs n (fun k => if (k <? j)%nat then if Nat.odd (j - k) then INR (2 * k + 1) * legP k z else 0 else 0)))
        with (c j * sqrt (INR (2 * j + 1)) * rs n (fun k => if (k <? j)%nat then if Nat.odd (j - k) then INR (2 * k + 1) * legP k z else 0 else 0)) by ring.
      rewrite <- rs_scal. apply rs_ext. intros i _. destruct (i <? j)%nat; cbn [andb]; [|ring]. destruct (Nat.odd (j - i)); [|ring]. cbn [phi].
      assert (P := sqrtN (2 * i + 1) ltac:(lia)). rewrite <- (sqrt_sqrt (INR (2 * i + 1))) at 1 by apply pos_INR. ring.
  - destruct n as [|n]; [reflexivity|]. cbn [rs]. replace (S n - 1)%nat with n by lia. unfold leg_dco at 2. replace ((S n - n) / 2)%nat with 0%nat by (replace (S n - n)%nat with 1%nat by lia; reflexivity). cbn [rs]. ring.
Qed.

(** the sum of one cell *)
Lemma cell_sum (pc : list R) ii m (c : list R) (s : nat -> R) (ix : nat -> nat) : (ii < length c)%nat -> (forall k, (k < m)%nat -> (ix k < length pc)%nat) ->
  for_ m (fun k c => let jj := ix k in do u <- aget c ii; do v <- aget pc jj; aset c ii (u + v * s jj)) c = Ok (upd c ii (nth ii c 0 + rs m (fun k => nth (ix k) pc 0 * s (ix k)))).
Proof.
  intros Hi Hx. replace c with (upd c ii (nth ii c 0 + rs 0 (fun k => nth (ix k) pc 0 * s (ix k)))) at 1 by (cbn [rs]; rewrite Rplus_0_r; now apply upd_self).
  apply (for_det (fun m => upd c ii (nth ii c 0 + rs m (fun k => nth (ix k) pc 0 * s (ix k))))). intros k Hk. cbv zeta.
  rewrite aget_nth by (now rewrite upd_length). cbn [obind]. rewrite aget_nth by auto. cbn [obind].
  rewrite aset_ok by (now rewrite upd_length). rewrite upd_upd, nth_upd, Nat.eqb_refl by auto. cbn [rs]. do 2 f_equal. ring.
Qed.

Section Der.
  Context (zt eps : R) (Hzt : 0 < zt) (Heps : 0 < eps).
  Context (quad : ptype -> nat -> outcome (list R * list R)).
  Context (ltab htab : nat -> R).

  (** coefficients [b], of which those below the threshold are zero in [q] *)
  Definition rounded (q : ope) (n : nat) (b : nat -> R) : Prop :=
    exists M, (exists k0, (k0 < n)%nat /\ M = Rabs (b k0)) /\ (forall k, (k < n)%nat -> Rabs (b k) <= M) /\
      (forall k, (k < n)%nat -> coz q k = b k \/ (coz q k = 0 /\ Rabs (b k) < thrN zt n M)) /\ (forall k, (n <= k)%nat -> coz q k = 0).

  Lemma round_rounded p : ope_ok p -> exists q, ope_round zt p = Ok q /\ same_shape p q /\ (1 <= o_n q <= o_n p)%nat /\ o_alloc q = o_alloc p /\ length (o_c q) = length (o_c p) /\
    rounded q (o_n p) (fun k => nth k (o_c p) 0).
  Proof.
    intros Hp. assert (Hp' := Hp). destruct Hp' as [P1 P2]. destruct (fun_max (fun k => nth k (o_c p) 0) (o_n p) P1) as (k0 & Hk0 & Hm).
    destruct (round_ok zt Hzt p (Rabs (nth k0 (o_c p) 0)) Hp Hm) as (q & E & Sh & N & A & L & C). exists q. do 5 (split; [assumption|]).
    exists (Rabs (nth k0 (o_c p) 0)). split; [exists k0; auto|]. split; [exact Hm|]. split.
    - intros k Hk. specialize (C k). unfold coz at 2 4 in C. destruct (Nat.ltb_spec k (o_n p)); [exact C|lia].
    - intros k Hk. unfold coz. destruct (Nat.ltb_spec k (o_n q)); [lia|reflexivity].
  Qed.
  Lemma rounded_ext q n b b' : (forall k, (k < n)%nat -> b k = b' k) -> rounded q n b -> rounded q n b'.
  Proof.
    intros E (M & (k0 & Hk0 & HM) & A & B & C). exists M. split; [exists k0; rewrite <- E by auto; auto|]. split; [intros; rewrite <- E by auto; auto|]. split; [intros; rewrite <- E by auto; auto|exact C].
  Qed.

  Definition maps_ok (p : ope) : Prop := forall z, map_to (o_map p) (map_from (o_map p) z) = z.

  Lemma zero_copy p : ope_wf p -> exists out c, ope_copy p = Ok out /\ for_ (o_alloc out) (fun ii c => aset c ii 0) (o_c out) = Ok c /\ same_shape p out /\ o_n out = o_n p /\ o_alloc out = o_alloc p /\
    length c = o_alloc p /\ forall k, nth k c 0 = 0.
  Proof.
    intros W. destruct (copy_ok p W) as (out & E & Sh & N & [W1 W2] & A & _ & _). exists out.
    unfold for_. destruct (upd_loop 0 (o_alloc out) (fun _ _ => 0) (fun ii c => aset c ii 0) (o_c out)) as (c & Ec & L & Ac); [reflexivity|lia|].
    exists c. do 2 (split; [assumption|]). split; [exact Sh|]. split; [exact N|]. split; [exact A|]. split; [lia|].
    intros k. rewrite Ac. cbn [Nat.leb andb]. destruct (Nat.ltb_spec k (0 + o_alloc out)); [reflexivity|]. apply nth_overflow. lia.
  Qed.

  Lemma deriv_ok p : ope_wf p -> o_kr p = false -> (o_t p <> LEGENDRE -> maps_ok p /\ forall n, (1 <= n < o_n p)%nat -> qexact (o_t p) n (quad (o_t p) n)) ->
    exists p1 q b, ope_deriv zt quad p = Ok q /\ same_shape p p1 /\ (o_n p1 <= o_n p)%nat /\ rounded p1 (o_n p) (co p) /\
      same_shape p q /\ ope_wf q /\ (o_n q <= Nat.max 1 (o_n p1 - 1))%nat /\
      (forall x, derivable_pt_lim (ope_fun p1) x (rs (Nat.max 1 (o_n p1 - 1)) (fun k => b k * phi (o_t p) k (map_to (o_map p) x)))) /\
      rounded q (Nat.max 1 (o_n p1 - 1)) b.
  Proof.
    intros W K HQ. unfold ope_deriv. rewrite K. cbn [negb cassert obind].
    destruct (copy_ok p W) as (p0 & E0 & S0 & N0 & W0 & A0 & C0 & _). rewrite E0. cbn [obind].
    destruct (round_rounded p0 (ope_wf_ok _ W0)) as (p1 & E1 & S1 & N1 & A1 & L1 & R1). rewrite E1. cbn [obind].
    assert (W1 : ope_wf p1) by (apply (round_wf p0 p1); auto).
    assert (S01 : same_shape p p1) by (eapply same_shape_trans; eauto).
    destruct (zero_copy p1 W1) as (out & c & E2 & E3 & S2 & N2 & A2 & L2 & Z). rewrite E2. cbn [obind]. rewrite E3. cbn [obind].
    assert (RP : rounded p1 (o_n p) (co p)).
    { rewrite N0 in R1. apply (rounded_ext p1 (o_n p) (fun k => nth k (o_c p0) 0)); [|exact R1]. intros k Hk. specialize (C0 k). unfold coz in C0. rewrite N0 in C0. destruct (Nat.ltb_spec k (o_n p)); [exact C0|lia]. }
    assert (S02 : same_shape p out) by (eapply same_shape_trans; eauto).
    assert (D1 : forall x, derivable_pt_lim (ope_fun p1) x (ope_funD p1 x)) by (intros; apply ope_fun_deriv).
    assert (Wn := W1). destruct Wn as [Wn Wa]. assert (Tp : o_t p1 = o_t p) by (symmetry; apply S01). assert (Mp : o_map p1 = o_map p) by (symmetry; apply S01).
    (* how each case ends *)
    assert (Fin : forall n' c' b, (1 <= n' <= o_alloc p)%nat -> length c' = o_alloc p -> (forall k, (k < n')%nat -> nth k c' 0 = b k) -> n' = Nat.max 1 (o_n p1 - 1) ->
      (forall x, ope_funD p1 x = rs n' (fun k => b k * phi (o_t p) k (map_to (o_map p) x))) ->
      exists p1' q b, ope_round zt (with_c out n' c') = Ok q /\ same_shape p p1' /\ (o_n p1' <= o_n p)%nat /\ rounded p1' (o_n p) (co p) /\
        same_shape p q /\ ope_wf q /\ (o_n q <= Nat.max 1 (o_n p1' - 1))%nat /\
        (forall x, derivable_pt_lim (ope_fun p1') x (rs (Nat.max 1 (o_n p1' - 1)) (fun k => b k * phi (o_t p) k (map_to (o_map p) x)))) /\
        rounded q (Nat.max 1 (o_n p1' - 1)) b).
    { intros n' c' b Hn' Lc Hc En Hf. destruct (round_rounded (with_c out n' c')) as (q & Eq & Sq & Nq & Aq & Lq & Rq0).
      - unfold ope_ok. cbn [o_n o_c with_c]. lia.
      - cbn [o_n o_c o_alloc with_c] in *. exists p1, q, b. split; [exact Eq|]. split; [exact S01|]. split; [lia|]. split; [exact RP|].
        split; [eapply same_shape_trans; [exact S02|]; exact Sq|]. split; [unfold ope_wf; lia|]. split; [lia|]. rewrite <- En. split.
        + intros x. rewrite <- Hf. apply D1.
        + apply (rounded_ext q n' (fun k => nth k c' 0)); auto. }
    destruct (Nat.eqb_spec (o_n p1) 1) as [N11|N11].
    - replace (with_c out (o_n out) c) with (with_c out 1 c) by (f_equal; lia). apply (Fin 1%nat c (fun _ => 0)); auto; try lia.
      intros x. unfold ope_funD. rewrite N11. cbn [rs]. rewrite phiD_0. ring.
    - assert (L3 : (length c = o_alloc p)%nat) by lia.
      assert (Ap : forall A, (forall x, A x = Ok (ope_funD p1 x)) -> o_t p <> LEGENDRE ->
         exists c', ope_approx quad A (with_c (with_c out (o_n out) c) (o_n (with_c out (o_n out) c) - 1) c) = Ok (with_c out (o_n p1 - 1) c') /\ length c' = o_alloc p /\
           exists b, (forall k, (k < o_n p1 - 1)%nat -> nth k c' 0 = b k) /\ forall x, ope_funD p1 x = rs (o_n p1 - 1) (fun k => b k * phi (o_t p) k (map_to (o_map p) x))).
      { intros A HA NL. destruct (HQ NL) as [MP Q]. destruct (rsD_list (o_t p) (o_n p1) (co p1)) as (l & Ll & El).
        destruct (inspan (o_t p) (o_n p1 - 1) l Ll) as (b & Hb).
        cbn [o_n with_c]. rewrite N2. change (with_c (with_c out (o_n p1) c) (o_n p1 - 1) c) with (with_c out (o_n p1 - 1) c). set (o2 := with_c out (o_n p1 - 1) c).
        assert (T2 : o_t o2 = o_t p) by (symmetry; apply S02). assert (M2 : o_map o2 = o_map p) by (symmetry; apply S02).
        destruct (approx_exact quad A (ope_funD p1) o2 (fun k => b k * sm_slope (o_map p))) as (c' & Ec & Lc & Hc).
        - unfold ope_ok, o2. cbn [o_n o_c with_c]. lia.
        - rewrite T2. apply Q. unfold o2. cbn [o_n with_c]. lia.
        - intros; apply Z.
        - exact HA.
        - intros z. unfold ope_funD. rewrite Tp, Mp, M2, MP, T2. unfold o2. cbn [o_n with_c]. rewrite El, Hb, Rmult_comm, <- rs_scal. apply rs_ext. intros; ring.
        - exists c'. split; [exact Ec|]. split; [rewrite Lc; unfold o2; cbn [o_c with_c]; lia|]. exists (fun k => b k * sm_slope (o_map p)). split; [exact Hc|].
          intros x. unfold ope_funD. rewrite Tp, Mp, El, Hb, Rmult_comm, <- rs_scal. apply rs_ext. intros; ring. }
      assert (K1 : o_kr p1 = false) by (rewrite <- K; symmetry; apply S01).
      destruct (o_t p1) eqn:T.
      + (* Legendre *)
        cbn [o_n with_c]. rewrite N2. unfold for_ at 1.
        set (cf := fun ii => leg_dco (o_n p1) (co p1) ii * sm_slope (o_map p1)).
        match goal with |- context [for_from 0 (o_n p1 - 1) ?b9 c] => destruct (upd_loop 0 (o_n p1 - 1)
          (fun ii v => (v + rs ((o_n p1 - ii) / 2) (fun k => nth (ii + 1 + 2 * k) (o_c p1) 0 * sqrt (INR (2 * (ii + 1 + 2 * k) + 1)))) * (sqrt (INR (2 * ii + 1)) * sm_slope (o_map p1)))
          b9 c) as (c' & Ec & Lc & Hc) end.
        * intros i c' Hi Li _.
          assert (HX : forall k, (k < (o_n p1 - i) / 2)%nat -> (i + 1 + 2 * k < length (o_c p1))%nat).
          { intros k Hk. assert (2 * ((o_n p1 - i) / 2) <= o_n p1 - i)%nat by (apply Nat.mul_div_le; lia). lia. }
          pose proof (cell_sum (o_c p1) i ((o_n p1 - i) / 2) c' (fun jj => sqrt (INR (2 * jj + 1))) (fun k => (i + 1 + 2 * k)%nat) ltac:(lia) HX) as CS.
          cbv beta zeta in CS |- *. rewrite CS.
          cbn [obind]. rewrite aget_nth by (rewrite upd_length; lia). cbn [obind]. rewrite aset_ok by (rewrite upd_length; lia). rewrite aset_ok by lia.
          rewrite upd_upd, nth_upd, Nat.eqb_refl by lia. reflexivity.
        * lia.
        * rewrite Ec. cbn [obind]. change (with_c (with_c (with_c out (o_n p1) c) (o_n p1 - 1) c) (o_n p1 - 1) c') with (with_c out (o_n p1 - 1) c').
          apply (Fin (o_n p1 - 1)%nat c' cf); try lia.
          -- intros k Hk. rewrite Hc, Z. cbn [Nat.leb andb]. destruct (Nat.ltb_spec k (0 + (o_n p1 - 1))); [|lia]. unfold cf, leg_dco, co. ring.
          -- intros x. unfold ope_funD. rewrite T, leg_deriv_sum, <- Tp, <- Mp, Rmult_comm, <- rs_scal. apply rs_ext. intros k _. unfold cf. ring.
      + destruct (Ap (cheb_deriv_eval p1)) as (c' & Ec & Lc & b & Hb & Hf).
        * intros x. apply cheb_deriv_eval_ok; auto using ope_wf_ok.
        * congruence.
        * rewrite Ec. cbn [obind]. apply (Fin (o_n p1 - 1)%nat c' b); auto; lia.
      + destruct (Ap (ope_deriv_eval p1)) as (c' & Ec & Lc & b & Hb & Hf).
        * intros x. apply deriv_eval_ok; auto using ope_wf_ok.
        * congruence.
        * rewrite Ec. cbn [obind]. apply (Fin (o_n p1 - 1)%nat c' b); auto; lia.
  Qed.
End Der.
