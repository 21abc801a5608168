(** Evaluation at many points, of many expansions, and gradients with respect to the coefficients. *)
From Coq Require Import Reals Lra Lia List.
From Verif Require Import Base BaseFacts FOps FFTCheb QuadFacts OpeModel OpeSpec LegFacts HermFacts OpeBasis OpeFacts.
Local Open Scope R_scope.

Lemma evalN_ok p N x incx y incy : ope_ok p -> o_kr p = false -> (1 <= incy)%nat ->
  (forall i, (i < N)%nat -> (i * incx < length x)%nat) -> (forall i, (i < N)%nat -> (i * incy < length y)%nat) ->
  exists y', ope_evalN p N x incx y incy = Ok y' /\ length y' = length y /\
    (forall i, (i < N)%nat -> nth (i * incy) y' 0 = ope_fun p (nth (i * incx) x 0)) /\
    (forall k, (forall i, (i < N)%nat -> k <> (i * incy)%nat) -> nth k y' 0 = nth k y 0).
Proof.
  intros Hp Hk Hi Hx Hy. unfold ope_evalN.
  match goal with |- context [for_ N ?b ?s] => destruct (for_inv (fun n y' => length y' = length y /\
      (forall i, (i < n)%nat -> nth (i * incy) y' 0 = ope_fun p (nth (i * incx) x 0)) /\
      (forall k, (forall i, (i < n)%nat -> k <> (i * incy)%nat) -> nth k y' 0 = nth k y 0)) b N s) as (y' & E & I) end.
  - split; auto. split; [lia|auto].
  - intros n s Hn (L & A & B). rewrite aget_nth by auto. cbn [obind]. rewrite ope_eval_ok by auto. cbn [obind].
    specialize (Hy n Hn). rewrite aset_ok by lia. eexists. split; [reflexivity|]. cbv beta iota. rewrite upd_length. split; auto. split.
    + intros i Hi'. rewrite nth_upd by lia. destruct (Nat.eqb_spec (i * incy) (n * incy)) as [E|N'].
      * assert (i = n) by nia. now subst.
      * apply A. assert (i <> n) by (intros ->; lia). lia.
    + intros k Hk'. rewrite nth_upd by lia. destruct (Nat.eqb_spec k (n * incy)) as [E|N'].
      * exfalso. apply (Hk' n); auto; lia.
      * apply B. intros; apply Hk'; lia.
  - exists y'. auto.
Qed.

(** ** Gradients *)
Definition weight (p : ope) (x : R) : R := if o_kr p then sqrt (rs (o_n p) (fun k => phi (o_t p) k (map_to (o_map p) x) ^ 2) / INR (o_n p)) else 1.
Definition ope_val (p : ope) (x : R) : R := ope_fun p x / weight p x.

Lemma ope_val_grad p x j u : (j < o_n p)%nat -> (o_n p <= length (o_c p))%nat ->
  derivable_pt_lim (fun u => ope_val (with_c p (o_n p) (upd (o_c p) j u)) x) u (phi (o_t p) j (map_to (o_map p) x) / weight p x).
Proof.
  intros Hj HL. set (v := phi (o_t p) j (map_to (o_map p) x) / weight p x).
  set (rest := rs (o_n p) (fun k => (if (k =? j)%nat then 0 else co p k) * phi (o_t p) k (map_to (o_map p) x))).
  assert (E : forall u, ope_fun (with_c p (o_n p) (upd (o_c p) j u)) x = rest + u * phi (o_t p) j (map_to (o_map p) x)).
  { intros w. unfold ope_fun, rest. cbn [o_n o_t o_map with_c].
    rewrite (rs_ext _ _ (fun k => (if (k =? j)%nat then 0 else co p k) * phi (o_t p) k (map_to (o_map p) x) +
       (if (k =? j)%nat then w * phi (o_t p) k (map_to (o_map p) x) else 0))).
    - rewrite rs_add. f_equal. rewrite (rs_single _ j); auto; [now rewrite Nat.eqb_refl|]. intros i Hi N. destruct (Nat.eqb_spec i j); [lia|reflexivity].
    - intros k Hk. unfold co. cbn [o_c with_c]. rewrite nth_upd by lia. destruct (Nat.eqb_spec k j) as [->|]; ring. }
  assert (W : forall u, weight (with_c p (o_n p) (upd (o_c p) j u)) x = weight p x) by reflexivity.
  apply (derivable_pt_lim_ext (fun u => rest / weight p x + v * u)).
  { intros w. unfold ope_val. rewrite E, W. unfold v, Rdiv. ring. }
  eapply deriv_val.
  - apply (derivable_pt_lim_plus (fun _ => rest / weight p x) (fun u => v * u)); [apply derivable_pt_lim_const|].
    apply (derivable_pt_lim_scal (fun u => u)), derivable_pt_lim_id.
  - ring.
Qed.

Lemma ope_eval_val p x : ope_ok p -> (o_kr p = true -> o_t p <> CHEBYSHEV) -> ope_eval p x = Ok (ope_val p x).
Proof.
  intros Hp Hc. unfold ope_val, weight. destruct (o_kr p) eqn:K.
  - rewrite ope_eval_kr; auto.
  - rewrite ope_eval_ok by auto. f_equal. field.
Qed.

Lemma grad_row p ii x grad : ope_ok p -> ((ii + 1) * o_n p <= length grad)%nat ->
  exists grad', (do (grad, den) <- poly_loop (o_t p) (o_n p) (map_to (o_map p) x) (fun iter v s =>
      let '(grad, den) := s in
      do grad <- aset grad (ii * o_n p + iter) v;
      Ok (grad, den + v * v)) (grad, 0);
    if o_kr p then
      for_ (o_n p) (fun jj grad => do g <- aget grad (ii * o_n p + jj); aset grad (ii * o_n p + jj) (g / sqrt (den / INR (o_n p)))) grad
    else Ok grad) = Ok grad' /\ length grad' = length grad /\
    (forall j, (j < o_n p)%nat -> nth (ii * o_n p + j) grad' 0 = phi (o_t p) j (map_to (o_map p) x) / weight p x) /\
    (forall k, (k < ii * o_n p \/ (ii + 1) * o_n p <= k)%nat -> nth k grad' 0 = nth k grad 0).
Proof.
  intros [Hn HL] Hg. set (np := o_n p) in *. set (xn := map_to (o_map p) x). rewrite poly_loop_for by lia.
  match goal with |- context [for_ np ?b ?s] => destruct (for_inv (fun n (st : list R * R) => let '(g, den) := st in length g = length grad /\ den = rs n (fun k => phi (o_t p) k xn ^ 2) /\
      (forall j, (j < n)%nat -> nth (ii * np + j) g 0 = phi (o_t p) j xn) /\
      (forall k, (k < ii * np \/ ii * np + n <= k)%nat -> nth k g 0 = nth k grad 0)) b np s) as ([g den] & E & L & D & A & B) end.
  - split; auto. split; [reflexivity|]. split; [lia|auto].
  - intros n [g den] Hn' (L & D & A & B). rewrite aset_ok by lia. cbn [obind]. eexists. split; [reflexivity|]. cbv beta iota. rewrite upd_length.
    split; auto. split; [cbn [rs]; rewrite D; ring|]. split.
    + intros j Hj. rewrite nth_upd by lia. destruct (Nat.eqb_spec (ii * np + j) (ii * np + n)) as [Ej|Nj]; [assert (j = n) by lia; now subst|apply A; lia].
    + intros k Hk. rewrite nth_upd by lia. destruct (Nat.eqb_spec k (ii * np + n)); [lia|apply B; lia].
  - rewrite E. cbn [obind]. unfold weight. fold np xn. destruct (o_kr p).
    + rewrite <- D. set (w := sqrt (den / INR np)).
      match goal with |- context [for_ np ?b ?s] => destruct (for_inv (fun n g' => length g' = length grad /\
        (forall j, (j < np)%nat -> nth (ii * np + j) g' 0 = if (j <? n)%nat then phi (o_t p) j xn / w else phi (o_t p) j xn) /\
        (forall k, (k < ii * np \/ ii * np + np <= k)%nat -> nth k g' 0 = nth k grad 0)) b np s) as (g' & E' & L' & A' & B') end.
      * split; auto.
      * intros n g' Hn' (L' & A' & B'). rewrite aget_nth by lia. cbn [obind]. rewrite aset_ok by lia. eexists. split; [reflexivity|]. cbv beta iota. rewrite upd_length.
        split; auto. split.
        -- intros j Hj. rewrite nth_upd by lia. destruct (Nat.eqb_spec (ii * np + j) (ii * np + n)) as [Ej|Nj].
           ++ assert (j = n) by lia. subst. rewrite A' by lia. destruct (Nat.ltb_spec n n), (Nat.ltb_spec n (S n)); try lia. reflexivity.
           ++ rewrite A' by lia. destruct (Nat.ltb_spec j n), (Nat.ltb_spec j (S n)); try lia; reflexivity.
        -- intros k Hk. rewrite nth_upd by lia. destruct (Nat.eqb_spec k (ii * np + n)); [lia|apply B'; lia].
      * exists g'. split; auto. split; auto. split.
        -- intros j Hj. rewrite A' by auto. destruct (Nat.ltb_spec j np); [reflexivity|lia].
        -- intros k Hk. apply B'. lia.
    + exists g. split; auto. split; auto. split.
      * intros j Hj. rewrite A by auto. field.
      * intros k Hk. apply B. lia.
Qed.

Lemma param_grad_ok p nx x grad : ope_ok p -> (nx <= length x)%nat -> (nx * o_n p <= length grad)%nat ->
  exists grad', ope_param_grad_eval p nx x grad = Ok grad' /\ length grad' = length grad /\
    (forall i j, (i < nx)%nat -> (j < o_n p)%nat -> nth (i * o_n p + j) grad' 0 = phi (o_t p) j (map_to (o_map p) (nth i x 0)) / weight p (nth i x 0)) /\
    (forall k, (nx * o_n p <= k)%nat -> nth k grad' 0 = nth k grad 0).
Proof.
  intros Hp Hx Hg. unfold ope_param_grad_eval.
  match goal with |- context [for_ nx ?b ?s] => destruct (for_inv (fun n g => length g = length grad /\
    (forall i j, (i < n)%nat -> (j < o_n p)%nat -> nth (i * o_n p + j) g 0 = phi (o_t p) j (map_to (o_map p) (nth i x 0)) / weight p (nth i x 0)) /\
    (forall k, (n * o_n p <= k)%nat -> nth k g 0 = nth k grad 0)) b nx s) as (g & E & I) end.
  - split; auto. split; [lia|auto].
  - intros n g Hn (L & A & B). rewrite aget_nth by lia. cbn [obind].
    destruct (grad_row p n (nth n x 0) g Hp) as (g' & E & L' & A' & B'); [nia|].
    exists g'. split; [exact E|]. split; [congruence|]. split.
    + intros i j Hi Hj. destruct (Nat.eq_dec i n) as [->|Ni]; [now apply A'|]. rewrite B', A by nia. reflexivity.
    + intros k Hk. rewrite B', B by nia. reflexivity.
  - exists g. auto.
Qed.
Lemma param_grad2_ok p x grad : ope_ok p -> (o_n p <= length grad)%nat ->
  exists grad', ope_param_grad_eval2 p x grad = Ok (ope_fun p x, grad') /\ length grad' = length grad /\
    (forall j, (j < o_n p)%nat -> nth j grad' 0 = phi (o_t p) j (map_to (o_map p) x) / weight p x) /\
    (forall k, (o_n p <= k)%nat -> nth k grad' 0 = nth k grad 0).
Proof.
  intros Hp Hg. pose proof Hp as [Hn HL]. destruct (grad_row p 0 x grad Hp) as (g' & E & L & A & B); [lia|].
  unfold ope_param_grad_eval2. set (xn := map_to (o_map p) x) in *. rewrite poly_loop_for in E by lia. rewrite poly_loop_for by lia.
  cbn [Nat.mul Nat.add] in *.
  match type of E with context [for_ (o_n p) ?b (grad, 0)] => set (b1 := b) in E end.
  match goal with |- context [for_ (o_n p) ?b (0, grad, 0)] => set (b2 := b) end.
  assert (R : forall n, (n <= o_n p)%nat -> exists g den, for_ n b1 (grad, 0) = Ok (g, den) /\ length g = length grad /\
     for_ n b2 (0, grad, 0) = Ok (rs n (fun k => co p k * phi (o_t p) k xn), g, den)).
  { induction n as [|n IH]; intros Hn'; [exists grad, 0; auto|]. destruct IH as (g & den & E1 & Lg & E2); [lia|].
    rewrite !for_S, E1, E2. cbn [obind]. unfold b1, b2. rewrite aset_ok by lia. cbn [obind]. rewrite aget_nth by lia. cbn [obind].
    do 2 eexists. split; [reflexivity|]. cbv beta iota. rewrite upd_length. split; auto. cbn [rs]. do 3 f_equal. unfold co. ring. }
  destruct (R (o_n p) (le_n _)) as (g & den & E1 & Lg & E2). rewrite E1 in E. rewrite E2. cbn [obind] in *.
  exists g'. split.
  - destruct (o_kr p).
    + match type of E with ?l = _ => match goal with |- obind ?l' _ = _ => change l' with l end end. rewrite E. reflexivity.
    + inversion E; subst. reflexivity.
  - split; auto. split; auto. intros k Hk. apply B. lia.
Qed.

(** ** Arrays of expansions *)
Lemma arr_eval_same n parr x out : (1 <= n <= length parr)%nat -> (n <= length out)%nat ->
  (forall p, In p (firstn n parr) -> ope_ok p /\ o_kr p = false) ->
  (forall p q, In p (firstn n parr) -> In q (firstn n parr) -> o_t p = o_t q -> o_map p = o_map q) ->
  exists out', ope_arr_eval n parr x out = Ok out' /\ length out' = length out /\
    (forall i p, (i < n)%nat -> nth_error parr i = Some p -> nth i out' 0 = ope_fun p x) /\
    (forall k, (n <= k)%nat -> nth k out' 0 = nth k out 0).
Proof.
  intros [Hn HL] Ho Hok Hmap. unfold ope_arr_eval.
  assert (G : forall i, (i < n)%nat -> exists p, nth_error parr i = Some p /\ aget parr i = Ok p /\ In p (firstn n parr)).
  { intros i Hi. destruct (aget_lt parr i) as (p & E1 & E2); [lia|]. exists p. split; auto. split; auto.
    apply nth_error_In with i. rewrite nth_error_firstn || idtac.
    rewrite <- (firstn_skipn n parr) in E1. rewrite nth_error_app1 in E1; auto. rewrite firstn_length. lia. }
  destruct (G 0%nat) as (q & Eq & Aq & Iq); [lia|]. rewrite Aq. cbn [obind]. destruct (Hok q Iq) as [Hq Kq]. rewrite Kq.
  assert (each : exists out', for_ n (fun ii out => do p <- aget parr ii; do e <- ope_eval p x; aset out ii e) out = Ok out' /\ length out' = length out /\
    (forall i p, (i < n)%nat -> nth_error parr i = Some p -> nth i out' 0 = ope_fun p x) /\ (forall k, (n <= k)%nat -> nth k out' 0 = nth k out 0)).
  { destruct (upd_loop 0 n (fun i _ => match nth_error parr i with Some p => ope_fun p x | None => 0 end)
      (fun ii out => do p <- aget parr ii; do e <- ope_eval p x; aset out ii e) out) as (o & E & L & A).
    - intros i c' Hi _ _. destruct (G i) as (p & E1 & E2 & Ip); [lia|]. rewrite E2. cbn [obind]. destruct (Hok p Ip). rewrite ope_eval_ok by auto. cbn [obind]. now rewrite E1.
    - lia.
    - exists o. split; [exact E|]. split; auto. split.
      + intros i p Hi Hp. rewrite A, Hp. destruct (Nat.ltb_spec i (0 + n)); [reflexivity|lia].
      + intros k Hk. rewrite A. destruct (Nat.ltb_spec k (0 + n)); [lia|]. now rewrite Bool.andb_false_r. }
  match goal with |- context [for_from 1 (n - 1) ?b ?s] => destruct (for_from_inv (fun k b9 => b9 = true -> forall i p, (i < k)%nat -> nth_error parr i = Some p -> o_t p = o_t q) b 1 (n - 1) s) as (same & Es & Hs) end.
  { intros _ i p Hi Hp. assert (i = 0%nat) by lia. subst. rewrite Eq in Hp. now inversion Hp. }
  { intros i b Hi Hb. destruct (G i) as (p & E1 & E2 & Ip); [lia|]. rewrite E2. cbn [obind]. eexists. split; [reflexivity|].
    intros T j p' Hj Hp'. apply andb_prop in T. destruct T as [T1 T2]. destruct (Nat.eq_dec j i) as [->|Nj].
    - rewrite E1 in Hp'. inversion Hp'; subst. destruct (o_t p'), (o_t q); cbn in T2; congruence.
    - apply (Hb T1 j p'); auto. lia. }
  rewrite Es. cbn [obind]. replace (1 + (n - 1))%nat with n in Hs by lia.
  destruct (negb same || ptype_eqb (o_t q) CHEBYSHEV)%bool eqn:C; [exact each|].
  apply Bool.orb_false_iff in C. destruct C as [C1 C2]. assert (same = true) by (destruct same; auto; discriminate). subst same.
  specialize (Hs eq_refl). set (xn := map_to (o_map q) x).
  match goal with |- context [for_ n ?b ?s] => destruct (for_inv (fun k (st : nat * list R) => let '(mx, o) := st in length o = length out /\
     (forall i p, (i < k)%nat -> nth_error parr i = Some p -> (o_n p <= mx)%nat) /\ (forall i, (i < k)%nat -> nth i o 0 = 0) /\ (forall i, (k <= i)%nat -> nth i o 0 = nth i out 0)) b n s)
     as ([mx o] & Em & Lo & Hmx & Hz & Hr) end.
  { repeat split; auto; lia. }
  { intros i [mx o] Hi (Lo & A & B & C). destruct (G i) as (p & E1 & E2 & Ip); [lia|]. rewrite E2. cbn [obind]. rewrite aset_ok by lia. cbn [obind].
    eexists. split; [reflexivity|]. cbv beta iota. rewrite upd_length. split; auto. split; [|split].
    - intros j p' Hj Hp'. destruct (Nat.eq_dec j i) as [->|Nj].
      + rewrite E1 in Hp'. inversion Hp'; subst. destruct (Nat.ltb_spec mx (o_n p')); lia.
      + specialize (A j p' ltac:(lia) Hp'). destruct (Nat.ltb_spec mx (o_n p)); lia.
    - intros j Hj. rewrite nth_upd by lia. destruct (Nat.eqb_spec j i); [auto|apply B; lia].
    - intros j Hj. rewrite nth_upd by lia. destruct (Nat.eqb_spec j i); [lia|apply C; lia]. }
  rewrite Em. cbn [obind]. rewrite poly_loop_for by (destruct (Nat.ltb_spec 2 mx); lia).
  set (m := if (2 <? mx)%nat then mx else 2%nat). assert (Hm : (mx <= m)%nat) by (unfold m; destruct (Nat.ltb_spec 2 mx); lia).
  match goal with |- context [for_ m ?b ?s] => destruct (for_inv (fun k o' => length o' = length out /\
     (forall i p, (i < n)%nat -> nth_error parr i = Some p -> nth i o' 0 = rs (Nat.min k (o_n p)) (fun k => co p k * phi (o_t q) k xn)) /\
     (forall i, (n <= i)%nat -> nth i o' 0 = nth i out 0)) b m s) as (o' & Eo & Lo' & A & B) end.
  { split; [auto|]. split; [|auto]. intros i p Hi Hp. rewrite Hz by auto. reflexivity. }
  { intros k o' Hk (Lo' & A & B).
    match goal with |- context [for_ n ?b ?s] => destruct (upd_loop 0 n (fun i v => match nth_error parr i with Some p => if (k <? o_n p)%nat then v + phi (o_t q) k xn * co p k else v | None => v end) b s) as (o2 & E2 & L2 & A2) end.
    - intros i c' Hi Lc _. destruct (G i) as (p & E1 & E3 & Ip); [lia|]. rewrite E3, E1. cbn [obind].
      destruct (Hok p Ip) as [[Hn1 Hn2] _].
      assert (X : ((k <? o_n p)%nat || (k =? 0)%nat)%bool = (k <? o_n p)%nat) by (destruct (Nat.ltb_spec k (o_n p)), (Nat.eqb_spec k 0); cbn; auto; lia).
      rewrite X. destruct (Nat.ltb_spec k (o_n p)).
      + rewrite !aget_nth by lia. reflexivity.
      + rewrite aset_ok by lia. f_equal. symmetry. clear - Lc Hi HL Ho Lo'. apply nth_ext with (d := 0) (d' := 0); [apply upd_length|].
        intros j Hj. rewrite nth_upd by lia. destruct (Nat.eqb_spec j i) as [->|]; auto.
    - lia.
    - exists o2. split; [exact E2|]. split; [congruence|]. split.
      + intros i p Hi Hp. rewrite A2, Hp. destruct (Nat.ltb_spec i (0 + n)); [|lia]. cbn [Nat.leb andb]. rewrite (A i p Hi Hp).
        destruct (Nat.ltb_spec k (o_n p)).
        * replace (Nat.min (S k) (o_n p)) with (S k) by lia. replace (Nat.min k (o_n p)) with k by lia. cbn [rs]. ring.
        * replace (Nat.min (S k) (o_n p)) with (o_n p) by lia. now replace (Nat.min k (o_n p)) with (o_n p) by lia.
      + intros i Hi. rewrite A2. destruct (Nat.ltb_spec i (0 + n)); [lia|]. rewrite Bool.andb_false_r. now apply B. }
  exists o'. split; [exact Eo|]. split; auto. split; auto.
  intros i p Hi Hp. rewrite (A i p Hi Hp). destruct (G i Hi) as (p' & E1 & _ & Ip). assert (p' = p) by congruence. subst p'.
  replace (Nat.min m (o_n p)) with (o_n p) by (specialize (Hmx i p Hi Hp); lia). unfold ope_fun, xn.
  rewrite (Hs i p Hi Hp), (Hmap p q Ip Iq (Hs i p Hi Hp)). reflexivity.
Qed.
