(** Projection by quadrature, and what is made with it. *)
From Coq Require Import Reals Lra Lia List.
From Verif Require Import Base BaseFacts FOps RIntLib FFTCheb QuadModel QuadFacts QuadMore QuadCC OpeModel OpeSpec LegFacts HermFacts OpeBasis OpeFacts OpeLin OpeInt.
Import ListNotations.
Local Open Scope R_scope.

(** ** Polynomials as lists *)
Fixpoint pmul (p q : list R) : list R := match p with [] => [] | a :: p' => padd (map (Rmult a) q) (0 :: pmul p' q) end.
Lemma pe_pmul p q x : pe (pmul p q) x = pe p x * pe q x.
Proof. induction p as [|a p IH]; cbn [pmul]; [cbn; ring|]. rewrite pe_padd, pe_scal. cbn [pe]. rewrite IH. ring. Qed.
Lemma pmul_length p q : (length (pmul p q) <= length p + length q)%nat.
Proof. induction p as [|a p IH]; cbn [pmul length]; [lia|]. rewrite padd_length, map_length. cbn [length]. lia. Qed.
Fixpoint pder (p : list R) : list R := match p with [] => [] | a :: l => match l with [] => [] | _ => padd l (0 :: pder l) end end.
Lemma pder_length l : length (pder l) = (length l - 1)%nat.
Proof.
  induction l as [|a l IH]; [reflexivity|]. destruct l as [|b l]; [reflexivity|].
  change (pder (a :: b :: l)) with (padd (b :: l) (0 :: pder (b :: l))). rewrite padd_length. cbn [length] in *. rewrite IH. lia.
Qed.
Lemma pder_deriv l x : derivable_pt_lim (pe l) x (pe (pder l) x).
Proof.
  induction l as [|a l IH]; [apply derivable_pt_lim_const|].
  assert (H : derivable_pt_lim (pe (a :: l)) x (0 + (1 * pe l x + x * pe (pder l) x))).
  { apply (derivable_pt_lim_plus (fun _ => a) (fun x => x * pe l x)); [apply derivable_pt_lim_const|].
    apply (derivable_pt_lim_mult id (pe l)); [apply derivable_pt_lim_id|exact IH]. }
  eapply deriv_val; [exact H|]. destruct l as [|b l]; [cbn; ring|].
  change (pder (a :: b :: l)) with (padd (b :: l) (0 :: pder (b :: l))). rewrite pe_padd. cbn [pe]. ring.
Qed.
Lemma phiD_list t k x : phiD t k x = pe (pder (phil t k)) x.
Proof.
  apply (uniqueness_limite (phi t k) x); [apply phi_deriv|]. apply (derivable_pt_lim_ext (pe (phil t k))); [intros; symmetry; apply phil_pe|apply pder_deriv].
Qed.

(** every polynomial of degree below [n] is a combination of the first [n] of the family *)
Lemma pe_cut l n x : (length l <= S n)%nat -> nth n l 0 = 0 -> pe l x = pe (firstn n l) x.
Proof.
  revert n. induction l as [|a l IH]; intros n Hl H0; [now rewrite firstn_nil|]. destruct n as [|n].
  - cbn in Hl. destruct l; [|cbn in Hl; lia]. cbn in *. rewrite H0. ring.
  - cbn [firstn pe]. rewrite (IH n); auto. cbn in Hl. lia.
Qed.
Lemma inspan t n : forall l, (length l <= n)%nat -> exists b, forall x, pe l x = rs n (fun k => b k * phi t k x).
Proof.
  induction n as [|n IH]; intros l Hl.
  - exists (fun _ => 0). intros x. destruct l; [reflexivity|cbn in Hl; lia].
  - assert (Hp := phil_lead t n). set (a := nth n l 0 / nth n (phil t n) 0).
    set (l' := padd l (map (Rmult (- a)) (phil t n))).
    assert (L' : (length l' <= S n)%nat) by (unfold l'; rewrite padd_length, map_length, phil_length; lia).
    assert (Z : nth n l' 0 = 0) by (unfold l'; rewrite padd_nth, nth_scal; unfold a; field; lra).
    destruct (IH (firstn n l')) as [b Hb]; [rewrite firstn_length; lia|].
    exists (fun k => if (k =? n)%nat then a else b k). intros x. cbn [rs]. rewrite Nat.eqb_refl.
    rewrite (rs_ext n _ (fun k => b k * phi t k x)) by (intros k Hk; destruct (Nat.eqb_spec k n); [lia|reflexivity]).
    rewrite <- Hb, <- pe_cut by auto. unfold l'. rewrite pe_padd, pe_scal, (phil_pe t n). ring.
Qed.
Lemma rs_list t n (c : nat -> R) : exists l, (length l <= n)%nat /\ forall x, rs n (fun k => c k * phi t k x) = pe l x.
Proof.
  induction n as [|n (l & L & E)]; [exists []; auto|].
  exists (padd l (map (Rmult (c n)) (phil t n))). rewrite padd_length, map_length, phil_length. split; [lia|]. intros x. cbn [rs]. rewrite E, pe_padd, pe_scal, <- phil_pe. reflexivity.
Qed.
Lemma rsD_list t n (c : nat -> R) : exists l, (length l <= n - 1)%nat /\ forall x, rs n (fun k => c k * phiD t k x) = pe l x.
Proof.
  induction n as [|n (l & L & E)]; [exists []; auto|].
  exists (padd l (map (Rmult (c n)) (pder (phil t n)))). rewrite padd_length, map_length, pder_length, phil_length. split; [lia|].
  intros x. cbn [rs]. rewrite E, pe_padd, pe_scal, phiD_list. reflexivity.
Qed.

(** ** The quadrature rules integrate polynomials of degree below 2 n exactly *)
Definition qexact (t : ptype) (n : nat) (q : outcome (list R * list R)) : Prop :=
  exists pt wt, q = Ok (pt, wt) /\ length pt = (n + 1)%nat /\ length wt = (n + 1)%nat /\
    forall l, (length l <= 2 * n)%nat -> refI t (pe l) (rs (n + 1) (fun i => nth i wt 0 * pe l (nth i pt 0))).
(** the Gauss-Chebyshev rule of the library *)
Lemma cheb_gauss_exact tol n : (1 <= n)%nat -> qexact CHEBYSHEV n (cheb_gauss (K := Rq tol) n (repeat 0 (n + 1)) (repeat 0 (n + 1))).
Proof.
  intros Hn. destruct (cg_ok tol n (repeat 0 (n + 1)) (repeat 0 (n + 1))) as (P & W & E & (LP & AP & BP) & (LW & AW & BW)); [rewrite repeat_length; lia..|].
  rewrite repeat_length in LP, LW. change (fcar (qf (Rq tol))) with R in *. exists P, W. split; [exact E|]. split; [exact LP|]. split; [exact LW|]. intros l Hl. cbn [refI].
  replace (n + 1)%nat with (S n) by lia. cbn [rs].
  assert (Z : nth n W 0 = 0).
  { assert (H0 : nth_error W n = Some 0) by (rewrite BW by lia; rewrite (nth_error_nth' (repeat 0 (n + 1)) 0) by (rewrite repeat_length; lia); now rewrite nth_repeat).
    exact (nth_error_nth W n 0 H0). }
  rewrite Z, Rmult_0_l, Rplus_0_r.
  rewrite (rs_ext n _ (fun i => PI / INR n * pe l (cgX n i))); [now apply cg_exact|].
  intros i Hi. pose proof (AP i Hi) as A1. pose proof (AW i Hi) as A2. now rewrite (nth_error_nth _ _ _ A1), (nth_error_nth _ _ _ A2).
Qed.

Lemma disc_orth t n q : qexact t n q -> exists pt wt, q = Ok (pt, wt) /\ length pt = (n + 1)%nat /\ length wt = (n + 1)%nat /\
  forall i j, (i < n)%nat -> (j < n)%nat -> rs (n + 1) (fun k => nth k wt 0 * phi t i (nth k pt 0) * phi t j (nth k pt 0)) = if (i =? j)%nat then p_norm t i else 0.
Proof.
  intros (pt & wt & E & L1 & L2 & H). exists pt, wt. split; [exact E|]. split; [exact L1|]. split; [exact L2|]. intros i j Hi Hj.
  apply (refI_unique t (fun x => phi t i x * phi t j x)); [|apply refI_orth].
  specialize (H (pmul (phil t i) (phil t j))). assert (HL := pmul_length (phil t i) (phil t j)). rewrite !phil_length in HL.
  rewrite (rs_ext _ _ (fun k => nth k wt 0 * pe (pmul (phil t i) (phil t j)) (nth k pt 0))) by (intros k _; rewrite pe_pmul, <- !phil_pe; ring).
  apply (refI_ext t (pe (pmul (phil t i) (phil t j)))); [intros x; rewrite pe_pmul, <- !phil_pe; reflexivity|]. apply H. lia.
Qed.
Lemma p_norm_pos t k : 0 < p_norm t k.
Proof. assert (H := PI_RGT_0). destruct t; cbn; try lra. destruct (k =? 0)%nat; lra. Qed.

Section Approx.
  Context (quad : ptype -> nat -> outcome (list R * list R)).

  (** Projection adds, to what the coefficients were, the weighted sums over the nodes. *)
  Lemma approx_sums A (g : R -> R) p pt wt : ope_ok p -> quad (o_t p) (o_n p) = Ok (pt, wt) -> length pt = (o_n p + 1)%nat -> length wt = (o_n p + 1)%nat ->
    (forall x, A x = Ok (g x)) ->
    exists c, ope_approx quad A p = Ok (with_c p (o_n p) c) /\ length c = length (o_c p) /\
      forall k, (k < o_n p)%nat -> nth k c 0 = (nth k (o_c p) 0 + rs (o_n p + 1) (fun i => g (map_from (o_map p) (nth i pt 0)) * nth i wt 0 * phi (o_t p) k (nth i pt 0))) / p_norm (o_t p) k.
  Proof.
    intros [Hn HL] Eq L1 L2 HA. unfold ope_approx. rewrite Eq. cbn [obind]. unfold for_ at 1.
    destruct (upd_loop 0 (o_n p + 1) (fun k _ => g (map_from (o_map p) (nth k pt 0)) * nth k wt 0)
      (fun ii fv => do q <- aget pt ii; do v <- A (map_from (o_map p) q); do w <- aget wt ii; aset fv ii (v * w)) (repeat 0 (o_n p + 1))) as (fv & E1 & LF & AF).
    { intros i c' Hi Lc _. rewrite aget_nth by lia. cbn [obind]. rewrite HA. cbn [obind]. rewrite aget_nth by lia. reflexivity. }
    { rewrite repeat_length. lia. }
    rewrite E1. cbn [obind]. rewrite repeat_length in LF.
    match goal with |- context [for_ (o_n p + 1) ?b9 (o_c p)] => destruct (for_inv (fun i (c : list R) => length c = length (o_c p) /\
       forall k, (k < o_n p)%nat -> nth k c 0 = nth k (o_c p) 0 + rs i (fun i => nth i fv 0 * phi (o_t p) k (nth i pt 0))) b9 (o_n p + 1) (o_c p)) as (c1 & E2 & L3 & A3) end.
    { split; [reflexivity|]. intros k _. cbn [rs]. ring. }
    { intros i c Hi [Lc Ac]. rewrite !aget_nth by lia. cbn [obind]. rewrite poly_loop_for by lia. unfold for_.
      destruct (upd_loop 0 (o_n p) (fun k v => v + nth i fv 0 * phi (o_t p) k (nth i pt 0))
         (fun k s => do u <- aget s k; aset s k (u + nth i fv 0 * phi (o_t p) k (nth i pt 0))) c) as (c' & E & L & Ax).
      - intros k c' Hk Lk _. rewrite aget_nth by lia. reflexivity.
      - lia.
      - exists c'. split; [exact E|]. split; [lia|]. intros k Hk. rewrite Ax, Ac by auto. cbn [Nat.leb andb rs]. destruct (Nat.ltb_spec k (0 + o_n p)); [ring|lia]. }
    rewrite E2. cbn [obind].
    assert (Fin : exists c, (if (1 <? o_n p)%nat then for_ (o_n p) (fun ii c => do u <- aget c ii; aset c ii (u / p_norm (o_t p) ii)) c1
             else do u <- aget c1 0; aset c1 0 (u / p_norm (o_t p) 0)) = Ok c /\ length c = length c1 /\ forall k, (k < o_n p)%nat -> nth k c 0 = nth k c1 0 / p_norm (o_t p) k).
    { destruct (Nat.ltb_spec 1 (o_n p)).
      - unfold for_. destruct (upd_loop 0 (o_n p) (fun k v => v / p_norm (o_t p) k) (fun ii c => do u <- aget c ii; aset c ii (u / p_norm (o_t p) ii)) c1) as (c & E & L & Ax).
        + intros k c' Hk Lk _. rewrite aget_nth by lia. reflexivity.
        + lia.
        + exists c. split; [exact E|]. split; [exact L|]. intros k Hk. rewrite Ax. cbn [Nat.leb andb]. destruct (Nat.ltb_spec k (0 + o_n p)); [reflexivity|lia].
      - rewrite aget_nth by lia. cbn [obind]. rewrite aset_ok by lia. eexists. split; [reflexivity|]. rewrite upd_length. split; [reflexivity|].
        intros k Hk. replace k with 0%nat by lia. rewrite nth_upd by lia. reflexivity. }
    destruct Fin as (c & Ec & Lc & Ac). rewrite Ec. cbn [obind]. exists c. split; [reflexivity|]. split; [lia|].
    intros k Hk. rewrite Ac, A3 by auto. f_equal. f_equal. apply rs_ext. intros i Hi. rewrite AF. cbn [Nat.leb andb]. destruct (Nat.ltb_spec i (0 + (o_n p + 1))); [reflexivity|lia].
  Qed.

  (** From zero, it finds the coefficients of every combination of the polynomials it has. *)
  Lemma approx_exact A (g : R -> R) p (b : nat -> R) : ope_ok p -> qexact (o_t p) (o_n p) (quad (o_t p) (o_n p)) ->
    (forall k, (k < o_n p)%nat -> nth k (o_c p) 0 = 0) -> (forall x, A x = Ok (g x)) ->
    (forall z, g (map_from (o_map p) z) = rs (o_n p) (fun k => b k * phi (o_t p) k z)) ->
    exists c, ope_approx quad A p = Ok (with_c p (o_n p) c) /\ length c = length (o_c p) /\ forall k, (k < o_n p)%nat -> nth k c 0 = b k.
  Proof.
    intros Hp Q Z HA Hg. destruct (disc_orth _ _ _ Q) as (pt & wt & E & L1 & L2 & O).
    destruct (approx_sums A g p pt wt Hp E L1 L2 HA) as (c & Ec & Lc & Ac). exists c. split; [exact Ec|]. split; [exact Lc|].
    intros k Hk. rewrite Ac, Z by auto. assert (Hn := p_norm_pos (o_t p) k). set (N := (o_n p + 1)%nat) in *.
    rewrite (rs_ext N _ (fun i => rs (o_n p) (fun j => b j * (nth i wt 0 * phi (o_t p) j (nth i pt 0) * phi (o_t p) k (nth i pt 0))))).
    2:{ intros i _. rewrite Hg. rewrite (rs_ext (o_n p) (fun j => b j * (nth i wt 0 * phi (o_t p) j (nth i pt 0) * phi (o_t p) k (nth i pt 0)))
          (fun j => nth i wt 0 * phi (o_t p) k (nth i pt 0) * (b j * phi (o_t p) j (nth i pt 0)))) by (intros; ring). rewrite rs_scal. ring. }
    rewrite rs_swap. rewrite (rs_ext (o_n p) _ (fun j => b j * (if (j =? k)%nat then p_norm (o_t p) j else 0))).
    2:{ intros j Hj. rewrite rs_scal, O by auto. reflexivity. }
    rewrite (rs_single (o_n p) k); [rewrite Nat.eqb_refl; field; lra|auto|]. intros j _ Hj. destruct (Nat.eqb_spec j k); [congruence|ring].
  Qed.
End Approx.
