(** Products, inner products by products, and second derivatives. *)
From Coq Require Import Reals Lra Lia List.
From Verif Require Import Base BaseFacts FOps RIntLib FFTCheb QuadFacts QuadMore OpeModel OpeSpec LegFacts HermFacts OpeBasis OpeFacts OpeLin OpeLin2 OpeInt OpeApprox OpeDer.
Import ListNotations.
Local Open Scope R_scope.

(** coefficients of the polynomial with list [l] in the family, computed *)
Fixpoint coefs (t : ptype) (n : nat) (l : list R) (k : nat) : R :=
  match n with
  | O => 0
  | S m => let a := nth m l 0 / nth m (phil t m) 0 in
           if (k =? m)%nat then a else coefs t m (firstn m (padd l (map (Rmult (- a)) (phil t m)))) k
  end.
Lemma coefs_ok t n : forall l x, (length l <= n)%nat -> pe l x = rs n (fun k => coefs t n l k * phi t k x).
Proof.
  induction n as [|n IH]; intros l x Hl; [destruct l; [reflexivity|cbn in Hl; lia]|].
  assert (Hp := phil_lead t n). cbn [coefs rs]. set (a := nth n l 0 / nth n (phil t n) 0). set (l' := padd l (map (Rmult (- a)) (phil t n))).
  assert (L' : (length l' <= S n)%nat) by (unfold l'; rewrite padd_length, map_length, phil_length; lia).
  assert (Z : nth n l' 0 = 0) by (unfold l'; rewrite padd_nth, nth_scal; unfold a; field; lra).
  rewrite Nat.eqb_refl. rewrite (rs_ext n _ (fun k => coefs t n (firstn n l') k * phi t k x)) by (intros k Hk; destruct (Nat.eqb_spec k n); [lia|reflexivity]).
  rewrite <- IH by (rewrite firstn_length; lia). rewrite <- pe_cut by auto. unfold l'. rewrite pe_padd, pe_scal, (phil_pe t n). ring.
Qed.

(** ** The tables of products: entry i + (j + k 50) 50 is coefficient k of the product of
    polynomials i and j *)
Definition tab_ok (t : ptype) (tb : nat -> R) : Prop :=
  forall i j n x, (i < 50)%nat -> (j < 50)%nat -> (i + j < n <= 100)%nat -> phi t i x * phi t j x = rs n (fun k => tb (i + (j + k * 50) * 50)%nat * phi t k x).
Definition ideal_tab (t : ptype) (idx : nat) : R :=
  let i := (idx mod 50)%nat in let j := ((idx / 50) mod 50)%nat in let k := (idx / 50 / 50)%nat in
  if (k <=? i + j)%nat then coefs t (i + j + 1) (firstn (i + j + 1) (pmul (phil t i) (phil t j))) k else 0.
Lemma pmul_length' p q : p <> [] -> q <> [] -> length (pmul p q) = (length p + length q - 1)%nat.
Proof.
  intros Hp Hq. induction p as [|a p IH]; [congruence|]. cbn [pmul]. rewrite padd_length, map_length. cbn [length]. destruct p as [|b p].
  - cbn. destruct q; [congruence|cbn; lia].
  - rewrite IH by discriminate. cbn [length]. destruct q; [congruence|]. cbn [length]. lia.
Qed.
(** such tables exist *)
Lemma ideal_tab_ok t : tab_ok t (ideal_tab t).
Proof.
  intros i j n x Hi Hj Hn.
  assert (NE : forall k, phil t k <> []) by (intros k E; assert (L := phil_length t k); rewrite E in L; discriminate).
  assert (L : length (pmul (phil t i) (phil t j)) = (i + j + 1)%nat) by (rewrite pmul_length', !phil_length by apply NE; lia).
  rewrite (rs_ext n _ (fun k => if (k <? i + j + 1)%nat then coefs t (i + j + 1) (pmul (phil t i) (phil t j)) k * phi t k x else 0)).
  - rewrite <- (rs_pad (i + j + 1) n (fun k => coefs t (i + j + 1) (pmul (phil t i) (phil t j)) k * phi t k x)) by lia. rewrite <- coefs_ok by lia. rewrite pe_pmul, <- !phil_pe. reflexivity.
  - intros k Hk. unfold ideal_tab.
    assert (A : ((i + (j + k * 50) * 50) mod 50 = i)%nat) by (rewrite Nat.mod_add by lia; apply Nat.mod_small; lia).
    assert (B : ((i + (j + k * 50) * 50) / 50 = j + k * 50)%nat) by (rewrite Nat.div_add by lia; rewrite Nat.div_small by lia; lia).
    assert (C : ((j + k * 50) mod 50 = j)%nat) by (rewrite Nat.mod_add by lia; apply Nat.mod_small; lia).
    assert (D : ((j + k * 50) / 50 = k)%nat) by (rewrite Nat.div_add by lia; rewrite Nat.div_small by lia; lia).
    rewrite A, B, C, D. rewrite firstn_all2 by lia. destruct (Nat.leb_spec k (i + j)), (Nat.ltb_spec k (i + j + 1)); try lia; ring.
Qed.

Lemma rs_mul n m (f g : nat -> R) : rs n f * rs m g = rs n (fun i => rs m (fun j => f i * g j)).
Proof. induction n as [|n IH]; cbn [rs]; [ring|]. rewrite <- IH, rs_scal. ring. Qed.

Section Prod.
  Context (zt eps : R) (Hzt : 0 < zt) (Heps : 0 < eps).
  Context (quad : ptype -> nat -> outcome (list R * list R)).
  Context (ltab htab : nat -> R).

  (** [q] is the product of [x] and [y] up to the threshold, on the mapping [m] *)
  Definition is_product (x y q : ope) (m : smap) (n : nat) : Prop :=
    exists b, (forall z, ref_fun x z * ref_fun y z = rs n (fun k => b k * phi (o_t x) k z)) /\ rounded zt q n b /\ o_map q = m.

  Lemma prod_tab_ok tb x y : tab_ok (o_t x) tb -> o_t x = o_t y -> ope_ok x -> ope_ok y -> (o_n x < 50)%nat -> (o_n y < 50)%nat ->
    exists q, prod_tab zt tb x y = Ok q /\ o_t q = o_t x /\ o_lb q = o_lb x /\ o_ub q = o_ub x /\ o_kr q = false /\ ope_wf q /\
      is_product x y q (init_map (o_t x) (o_lb x) (o_ub x)) (o_n x + o_n y + 1).
  Proof.
    intros HT T [X1 X2] [Y1 Y2] X3 Y3. unfold prod_tab. set (nx := o_n x) in *. set (ny := o_n y) in *.
    set (F := fun m => (nth (m / ny) (o_c x) 0) * nth (m mod ny) (o_c y) 0).
    (* all products *)
    match goal with |- context [for_ nx ?b9 (repeat 0 (nx * ny))] => destruct (for_inv (fun i (a : list R) => length a = (nx * ny)%nat /\ forall ii jj, (ii < i)%nat -> (jj < ny)%nat -> nth (jj + ii * ny) a 0 = nth ii (o_c x) 0 * nth jj (o_c y) 0) b9 nx (repeat 0 (nx * ny))) as (all & Ea & La & Ha) end.
    { split; [apply repeat_length|]. intros; lia. }
    { intros i a Hi [La Ha]. 
      match goal with |- context [for_ ny ?b9 a] => destruct (for_inv (fun j (a' : list R) => length a' = (nx * ny)%nat /\ (forall ii jj, (ii < i)%nat -> (jj < ny)%nat -> nth (jj + ii * ny) a' 0 = nth ii (o_c x) 0 * nth jj (o_c y) 0) /\
         forall jj, (jj < j)%nat -> nth (jj + i * ny) a' 0 = nth i (o_c x) 0 * nth jj (o_c y) 0) b9 ny a) as (a' & E & L & H1 & H2) end.
      - split; [exact La|]. split; [exact Ha|]. intros; lia.
      - intros j a' Hj (L & H1 & H2). rewrite !aget_nth by lia. cbn [obind]. assert (IB : (j + i * ny < nx * ny)%nat) by nia. rewrite aset_ok by lia. eexists. split; [reflexivity|].
        rewrite upd_length. split; [exact L|]. split.
        + intros ii jj H3 H4. rewrite nth_upd by lia. destruct (Nat.eqb_spec (jj + ii * ny) (j + i * ny)); [nia|]. now apply H1.
        + intros jj H3. rewrite nth_upd by lia. destruct (Nat.eqb_spec (jj + i * ny) (j + i * ny)) as [e|e].
          * now replace jj with j by lia.
          * apply H2. destruct (Nat.eq_dec jj j); [subst; congruence|lia].
      - exists a'. split; [exact E|]. split; [exact L|]. intros ii jj H3 H4. destruct (Nat.eq_dec ii i) as [->|]; [now apply H2|]. apply H1; auto. lia. }
    rewrite Ea. cbn [obind]. set (r := ope_init (o_t x) (nx + ny + 1) (o_lb x) (o_ub x)).
    assert (Lr : length (o_c r) = (nx + ny + 1 + 50)%nat) by (unfold r; cbn [o_c ope_init]; rewrite repeat_length; reflexivity).
    set (b := fun kk => rs nx (fun ii => rs ny (fun jj => tb (ii + (jj + kk * 50) * 50)%nat * (nth ii (o_c x) 0 * nth jj (o_c y) 0)))).
    unfold for_ at 1.
    match goal with |- context [for_from 0 (o_n r) ?b9 (o_c r)] => destruct (upd_loop 0 (o_n r) (fun kk v => v + b kk) b9 (o_c r)) as (c & Ec & Lc & Hc) end.
    { intros kk c Hk Lc _. cbn [o_n r ope_init] in Hk.
      assert (In : forall ii s, (ii < nx)%nat -> for_ ny (fun jj c0 => let k := (ii + (jj + kk * 50) * 50)%nat in
          if (k <? 100 * 50 * 50)%nat then do u <- aget c0 kk; do v <- aget all (jj + ii * ny); aset c0 kk (u + tb k * v) else UB) (upd c kk s)
          = Ok (upd c kk (s + rs ny (fun jj => tb (ii + (jj + kk * 50) * 50)%nat * (nth ii (o_c x) 0 * nth jj (o_c y) 0))))).
      { intros ii s Hii. replace (upd c kk s) with (upd c kk (s + rs 0 (fun jj => tb (ii + (jj + kk * 50) * 50)%nat * (nth ii (o_c x) 0 * nth jj (o_c y) 0)))) by (cbn [rs]; now rewrite Rplus_0_r).
        apply (for_det (fun m => upd c kk (s + rs m (fun jj => tb (ii + (jj + kk * 50) * 50)%nat * (nth ii (o_c x) 0 * nth jj (o_c y) 0))))). intros jj Hjj. cbv zeta.
        assert (KB : (ii + (jj + kk * 50) * 50 < 100 * 50 * 50)%nat) by lia. apply Nat.ltb_lt in KB. rewrite KB.
        rewrite aget_nth by (rewrite upd_length; lia). cbn [obind]. rewrite aget_nth by (rewrite La; nia). cbn [obind]. rewrite aset_ok by (rewrite upd_length; lia).
        rewrite upd_upd, nth_upd, Nat.eqb_refl, Ha by lia. cbn [rs]. do 2 f_equal. ring. }
      rewrite aset_ok by lia.
      replace c with (upd c kk (nth kk c 0 + rs 0 (fun ii => rs ny (fun jj => tb (ii + (jj + kk * 50) * 50)%nat * (nth ii (o_c x) 0 * nth jj (o_c y) 0))))) at 1 by (cbn [rs]; rewrite Rplus_0_r; apply upd_self; lia).
      apply (for_det (fun m => upd c kk (nth kk c 0 + rs m (fun ii => rs ny (fun jj => tb (ii + (jj + kk * 50) * 50)%nat * (nth ii (o_c x) 0 * nth jj (o_c y) 0)))))).
      intros ii Hii. etransitivity; [apply In; exact Hii|]. cbn [rs]. do 2 f_equal. ring. }
    { cbn [o_n r ope_init]. lia. }
    rewrite Ec. cbn [obind]. cbn [o_n r ope_init] in Hc |- *. set (n := (nx + ny + 1)%nat) in *.
    destruct (round_rounded zt Hzt (with_c r n c)) as (q & Eq & (S1 & S2 & S3 & S4 & S5) & Nq & Aq & Lq & Rq0).
    { unfold ope_ok. cbn [o_n o_c with_c]. lia. }
    cbn [o_n o_c o_alloc with_c] in *. exists q. split; [exact Eq|]. split; [symmetry; exact S1|]. split; [symmetry; exact S2|]. split; [symmetry; exact S3|]. split; [symmetry; exact S5|].
    split; [unfold ope_wf; rewrite Aq, Lq; cbn [o_alloc r ope_init]; unfold opecalloc; lia|].
    exists b. split.
    - intros z. unfold ref_fun. rewrite <- T. fold nx ny. rewrite rs_mul.
      rewrite (rs_ext nx _ (fun ii => rs n (fun k => rs ny (fun jj => tb (ii + (jj + k * 50) * 50)%nat * (nth ii (o_c x) 0 * nth jj (o_c y) 0) * phi (o_t x) k z)))).
      + rewrite rs_swap. apply rs_ext. intros k _. unfold b. rewrite Rmult_comm, <- rs_scal. apply rs_ext. intros ii _. rewrite <- rs_scal. apply rs_ext. intros; ring.
      + intros ii Hii. rewrite rs_swap. apply rs_ext. intros jj Hjj. unfold co.
        replace (nth ii (o_c x) 0 * phi (o_t x) ii z * (nth jj (o_c y) 0 * phi (o_t x) jj z)) with (nth ii (o_c x) 0 * nth jj (o_c y) 0 * (phi (o_t x) ii z * phi (o_t x) jj z)) by ring.
        rewrite (HT ii jj n z) by (unfold n; lia). rewrite <- rs_scal. apply rs_ext. intros; ring.
    - split; [|symmetry; exact S4]. apply (rounded_ext zt q n (fun k => nth k c 0)); [|exact Rq0]. intros k Hk. rewrite Hc. cbn [Nat.leb andb]. destruct (Nat.ltb_spec k (0 + n)); [|lia].
      unfold r. cbn [o_c ope_init]. rewrite nth_repeat. ring.
  Qed.

  Lemma sumsq_ok x : ope_ok x -> sumsq x = Ok (rs (o_n x) (fun k => co x k * co x k)).
  Proof. intros [X1 X2]. unfold sumsq. apply (for_det (fun i => rs i (fun k => co x k * co x k))). intros i Hi. rewrite aget_nth by lia. reflexivity. Qed.

  Lemma same_dom x y : o_lb x = o_lb y -> o_ub x = o_ub y -> Rltb (Rabs (o_lb x - o_lb y)) eps = true /\ Rltb (Rabs (o_ub x - o_ub y)) eps = true.
  Proof. intros -> ->. rewrite !Rminus_eq_0, Rabs_R0. split; now apply Rltb_t. Qed.

  (** by quadrature *)
  Lemma prod_quad_ok x y : o_t x = o_t y -> o_map x = o_map y -> o_lb x = o_lb y -> o_ub x = o_ub y -> maps_ok x -> ope_ok x -> ope_ok y -> o_kr x = false -> o_kr y = false ->
    (o_t x = CHEBYSHEV \/ (50 <= o_n x)%nat \/ (50 <= o_n y)%nat) ->
    zt <= rs (o_n x) (fun k => co x k * co x k) -> zt <= rs (o_n y) (fun k => co y k * co y k) ->
    (let n := (o_n x + o_n y + 5)%nat in qexact (o_t x) n (quad (o_t x) n)) ->
    exists q, ope_prod zt eps quad ltab htab x y = Ok q /\ o_t q = o_t x /\ o_lb q = o_lb x /\ o_ub q = o_ub x /\ o_kr q = false /\ ope_wf q /\ is_product x y q (o_map x) (o_n x + o_n y + 5).
  Proof.
    intros T EM El Eu MX Hx Hy Kx Ky Big Zx Zy Q. unfold ope_prod. destruct (same_dom x y El Eu) as [D1 D2]. rewrite D1, D2. cbn [cassert obind].
    assert (Nl : (ptype_eqb (o_t x) LEGENDRE && ((o_n x <? 50) && (o_n y <? 50))%nat)%bool = false).
    { destruct Big as [->|[B|B]]; [reflexivity| |]; rewrite ?(proj2 (Nat.ltb_ge _ _) B); now rewrite ?Bool.andb_false_r. }
    assert (Nh : (ptype_eqb (o_t x) HERMITE && ((o_n x <? 50) && (o_n y <? 50))%nat)%bool = false).
    { destruct Big as [->|[B|B]]; [reflexivity| |]; rewrite ?(proj2 (Nat.ltb_ge _ _) B); now rewrite ?Bool.andb_false_r. }
    rewrite Nl, Nh, !sumsq_ok by auto. cbn [obind]. rewrite !Rltb_f by auto. cbn [orb].
    set (n := (o_n x + o_n y + 5)%nat) in *. set (r := with_map (ope_init (o_t x) n (o_lb x) (o_ub x)) (o_map x)).
    destruct (rs_list (o_t x) (o_n x) (co x)) as (lx & Lx & Ex). destruct (rs_list (o_t x) (o_n y) (co y)) as (ly & Ly & Ey).
    assert (PL := pmul_length lx ly). destruct (inspan (o_t x) n (pmul lx ly)) as (b & Hb); [unfold n; lia|].
    assert (HP : forall z, ref_fun x z * ref_fun y z = rs n (fun k => b k * phi (o_t x) k z)).
    { intros z. unfold ref_fun. rewrite <- T, Ex, Ey, <- pe_pmul. apply Hb. }
    destruct (approx_exact quad (fun v => do a <- ope_eval x v; do b <- ope_eval y v; Ok (a * b)) (fun v => ope_fun x v * ope_fun y v) r b) as (c & Ec & Lc & Hc).
    - unfold ope_ok, r. cbn [o_n o_c with_map ope_init]. rewrite repeat_length. unfold n. lia.
    - exact Q.
    - intros k _. unfold r. cbn [o_c with_map ope_init]. apply nth_repeat.
    - intros v. rewrite !ope_eval_ok by auto. reflexivity.
    - intros z. rewrite !ope_fun_ref, <- EM. unfold r. cbn [o_map with_map o_n o_t ope_init]. rewrite MX. apply HP.
    - rewrite Ec. cbn [obind]. destruct (round_rounded zt Hzt (with_c r (o_n r) c)) as (q & Eq & (S1 & S2 & S3 & S4 & S5) & Nq & Aq & Lq & Rq0).
      { unfold ope_ok. cbn [o_n o_c with_c]. rewrite Lc. unfold r. cbn [o_n o_c with_map ope_init]. rewrite repeat_length. unfold n. lia. }
      cbn [o_n o_c o_alloc with_c] in *. exists q. split; [exact Eq|]. split; [symmetry; exact S1|]. split; [symmetry; exact S2|]. split; [symmetry; exact S3|]. split; [symmetry; exact S5|].
      assert (Lr : length (o_c r) = (n + 50)%nat) by (unfold r; cbn [o_c with_map ope_init]; apply repeat_length).
      assert (Nr : o_n r = n) by reflexivity. assert (Ar : o_alloc r = (n + 50)%nat) by reflexivity.
      split; [unfold ope_wf; lia|]. exists b. split; [exact HP|]. split; [|symmetry; exact S4]. rewrite Nr in *. apply (rounded_ext zt q n (fun k => nth k c 0)); auto.
  Qed.

  (** by the tables *)
  Lemma prod_small_ok x y tb : o_t x = o_t y -> o_lb x = o_lb y -> o_ub x = o_ub y -> ope_ok x -> ope_ok y -> (o_n x < 50)%nat -> (o_n y < 50)%nat ->
    (o_t x = LEGENDRE /\ tb = ltab \/ o_t x = HERMITE /\ tb = htab) -> tab_ok (o_t x) tb ->
    exists q, ope_prod zt eps quad ltab htab x y = Ok q /\ o_t q = o_t x /\ o_lb q = o_lb x /\ o_ub q = o_ub x /\ o_kr q = false /\ ope_wf q /\
      is_product x y q (init_map (o_t x) (o_lb x) (o_ub x)) (o_n x + o_n y + 1).
  Proof.
    intros T El Eu Hx Hy X3 Y3 Tb HT. unfold ope_prod. destruct (same_dom x y El Eu) as [D1 D2]. rewrite D1, D2. cbn [cassert obind].
    assert (B : ((o_n x <? 50) && (o_n y <? 50))%nat = true) by (apply Bool.andb_true_iff; split; now apply Nat.ltb_lt). rewrite B.
    destruct (prod_tab_ok tb x y HT T Hx Hy X3 Y3) as (q & E & H). exists q. split; [|exact H].
    destruct Tb as [[-> ->]|[-> ->]]; cbn [ptype_eqb andb]; exact E.
  Qed.
End Prod.
