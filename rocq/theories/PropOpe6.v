(** C80: parameters of expansions are kept, and the constructors build the functions their
    names say. *)
From Coq Require Import Reals Lra Lia List.
From Verif Require Import Base BaseFacts FOps RIntLib FFTCheb QuadModel QuadFacts QuadMore QuadCC OpeModel OpeSpec LegFacts HermFacts OpeBasis OpeFacts OpeLin OpeLin2 OpeInt OpeApprox OpeDer OpeDer2 PropOpe4 PropOpe5.
Import ListNotations.
Local Open Scope R_scope.

(** copying [n] entries of [src] over [dst] *)
Lemma fill_ok n (src dst : list R) : (n <= length src)%nat -> (n <= length dst)%nat ->
  exists c, for_ n (fun ii c => do v <- aget src ii; aset c ii v) dst = Ok c /\ length c = length dst /\ forall k, nth k c 0 = if (k <? n)%nat then nth k src 0 else nth k dst 0.
Proof.
  intros Ls Ld. unfold for_. destruct (upd_loop 0 n (fun k _ => nth k src 0) (fun ii c => do v <- aget src ii; aset c ii v) dst) as (c & E & L & H).
  - intros i c Hi Lc _. rewrite aget_nth by lia. reflexivity.
  - lia.
  - exists c. split; [exact E|]. split; [exact L|]. intros k. rewrite H. reflexivity.
Qed.
Lemma zero_ok lo n (dst : list R) : (lo + n <= length dst)%nat ->
  exists c, for_from lo n (fun ii c => aset c ii 0) dst = Ok c /\ length c = length dst /\ forall k, nth k c 0 = if ((lo <=? k) && (k <? lo + n))%nat then 0 else nth k dst 0.
Proof.
  intros Ld. destruct (upd_loop lo n (fun _ _ => 0) (fun ii c => aset c ii 0) dst) as (c & E & L & H); [reflexivity|lia|]. exists c. auto.
Qed.

(** ** Parameters *)
Theorem C80_update_params p np param : ope_wf p -> (1 <= np <= length param)%nat ->
  exists q, ope_update_params p np param = Ok q /\ same_shape p q /\ ope_wf q /\ o_n q = np /\ forall k, (k < np)%nat -> nth k (o_c q) 0 = nth k param 0.
Proof.
  intros [W1 W2] H. unfold ope_update_params. destruct (Nat.leb_spec np (o_n p)) as [A|A]; [|destruct (Nat.leb_spec np (o_alloc p)) as [B|B]].
  - destruct (fill_ok np param (o_c p)) as (c & -> & L & Hc); [lia|lia|]. cbn [obind]. destruct (zero_ok np (o_n p - np) c) as (c' & -> & L' & Hc'); [lia|]. cbn [obind].
    eexists. split; [reflexivity|]. split; [unfold same_shape; auto|]. split; [unfold ope_wf; cbn [o_n o_c o_alloc with_c]; lia|]. split; [reflexivity|]. intros k Hk. cbn [o_c with_c]. rewrite Hc'.
    destruct (Nat.leb_spec np k); [lia|]. cbn [andb]. rewrite Hc. destruct (Nat.ltb_spec k np); [reflexivity|lia].
  - destruct (fill_ok np param (o_c p)) as (c & -> & L & Hc); [lia|lia|]. cbn [obind]. eexists. split; [reflexivity|]. split; [unfold same_shape; auto|].
    split; [unfold ope_wf; cbn [o_n o_c o_alloc with_c]; lia|]. split; [reflexivity|]. intros k Hk. cbn [o_c with_c]. rewrite Hc. destruct (Nat.ltb_spec k np); [reflexivity|lia].
  - destruct (fill_ok np param (repeat 0 np)) as (c & -> & L & Hc); [lia|rewrite repeat_length; lia|]. rewrite repeat_length in L. cbn [obind]. eexists. split; [reflexivity|]. split; [unfold same_shape; auto|].
    split; [unfold ope_wf; cbn [o_n o_c o_alloc with_block]; lia|]. split; [reflexivity|]. intros k Hk. cbn [o_c with_block]. rewrite Hc. destruct (Nat.ltb_spec k np); [reflexivity|lia].
Qed.
Print Assumptions C80_update_params.
Theorem C80_create_with_params o np param : (1 <= np <= length param)%nat ->
  exists q, ope_create_with_params o np param = Ok q /\ same_shape (ope_init_opts o np) q /\ ope_wf q /\ o_n q = np /\ forall k, (k < np)%nat -> nth k (o_c q) 0 = nth k param 0.
Proof.
  intros H. unfold ope_create_with_params. set (p := ope_init_opts o np). assert (Lp : length (o_c p) = (np + 50)%nat) by (cbn [p o_c ope_init_opts ope_init]; apply repeat_length).
  destruct (fill_ok np param (o_c p)) as (c & -> & L & Hc); [lia|lia|]. cbn [obind]. eexists. split; [reflexivity|]. split; [unfold same_shape; auto|].
  split; [unfold ope_wf; cbn [o_n o_c o_alloc with_c p ope_init_opts ope_init]; unfold opecalloc; lia|]. split; [reflexivity|]. intros k Hk. cbn [o_c with_c]. rewrite Hc. destruct (Nat.ltb_spec k np); [reflexivity|lia].
Qed.
Print Assumptions C80_create_with_params.
Theorem C80_get_params p param : ope_wf p -> (o_n p <= length param)%nat ->
  exists r, ope_get_params p param = Ok (o_n p, r) /\ length r = length param /\ forall k, nth k r 0 = if (k <? o_n p)%nat then nth k (o_c p) 0 else nth k param 0.
Proof.
  intros [W1 W2] H. unfold ope_get_params. destruct (fill_ok (o_n p) (o_c p) param) as (c & -> & L & Hc); [lia|lia|]. cbn [obind]. exists c. auto.
Qed.
Print Assumptions C80_get_params.
(** padding does not change the function *)
Theorem C80_pad p np : ope_wf p -> o_kr p = false -> (o_n p <= np)%nat ->
  exists q, ope_pad_params p np = Ok q /\ same_shape p q /\ ope_wf q /\ o_n q = np /\ (forall k, (o_n p <= k < np)%nat -> nth k (o_c q) 0 = 0) /\ forall x, ope_eval q x = ope_eval p x.
Proof.
  intros [W1 W2] K H.
  assert (F : forall q, same_shape p q -> ope_wf q -> o_n q = np -> (forall k, (k < np)%nat -> nth k (o_c q) 0 = if (k <? o_n p)%nat then nth k (o_c p) 0 else 0) ->
     (forall k, (o_n p <= k < np)%nat -> nth k (o_c q) 0 = 0) /\ forall x, ope_eval q x = ope_eval p x).
  { intros q (T & _ & _ & M & K') Wq N C. split.
    - intros k Hk. rewrite C by lia. destruct (Nat.ltb_spec k (o_n p)); [lia|reflexivity].
    - intros x. rewrite !ope_eval_ok; try (apply ope_wf_ok; unfold ope_wf; auto); try congruence. f_equal. unfold ope_fun. rewrite N, <- T, <- M, (rs_pad (o_n p) np) by lia.
      apply rs_ext. intros k Hk. unfold co. rewrite C by auto. destruct (k <? o_n p)%nat; ring. }
  unfold ope_pad_params. destruct (Nat.ltb_spec (o_alloc p) np) as [A|A].
  - destruct (fill_ok (o_n p) (o_c p) (repeat 0 np)) as (c & -> & L & Hc); [lia|rewrite repeat_length; lia|]. rewrite repeat_length in L. cbn [obind]. eexists. split; [reflexivity|].
    set (q := with_block p np np c). assert (S : same_shape p q) by (unfold same_shape; auto). assert (Wq : ope_wf q) by (unfold ope_wf; cbn [q o_n o_c o_alloc with_block]; lia).
    split; [exact S|]. split; [exact Wq|]. split; [reflexivity|]. apply F; auto. intros k Hk. cbn [q o_c with_block]. rewrite Hc, nth_repeat. reflexivity.
  - destruct (zero_ok (o_n p) (np - o_n p) (o_c p)) as (c & -> & L & Hc); [lia|]. cbn [obind]. eexists. split; [reflexivity|].
    set (q := with_c p np c). assert (S : same_shape p q) by (unfold same_shape; auto). assert (Wq : ope_wf q) by (unfold ope_wf; cbn [q o_n o_c o_alloc with_c]; lia).
    split; [exact S|]. split; [exact Wq|]. split; [reflexivity|]. apply F; auto. intros k Hk. cbn [q o_c with_c]. rewrite Hc.
    destruct (Nat.leb_spec (o_n p) k), (Nat.ltb_spec k (o_n p + (np - o_n p))), (Nat.ltb_spec k (o_n p)); try lia; reflexivity.
Qed.
Print Assumptions C80_pad.
(** with fewer parameters it cuts the function off: x becomes 0 *)
Theorem C80_pad_fewer_refuted : exists p q, ope_wf p /\ o_kr p = false /\ (forall x, ope_eval p x = Ok x) /\ ope_pad_params p 1 = Ok q /\ forall x, ope_eval q x = Ok 0.
Proof.
  set (p := with_c (ope_init CHEBYSHEV 2 (-1) 1) 2 ([0; 1] ++ repeat 0 50)). exists p, (with_c p 1 (o_c p)).
  split; [split; [split; apply Nat.leb_le; reflexivity|reflexivity]|]. split; [reflexivity|]. split; [|split; [reflexivity|]].
  - intros x. rewrite ope_eval_ok; [|unfold ope_ok; cbn; lia|reflexivity]. f_equal. unfold ope_fun, co. cbn [p o_n with_c rs o_t ope_init o_c app nth]. rewrite phi_0, phi_1. unfold map_to, p_lin, p_linc.
    unfold p; cbn [o_map with_c ope_init init_map sm_slope sm_off]. unfold p_upper, p_lower. field.
  - intros x. rewrite ope_eval_ok; [|unfold ope_ok; cbn; lia|reflexivity]. f_equal. unfold ope_fun, co. cbn [p o_n with_c rs o_t ope_init o_c app nth]. rewrite phi_0. ring.
Qed.
Print Assumptions C80_pad_fewer_refuted.
Theorem C80_copy p : ope_wf p -> o_kr p = false -> exists q, ope_copy p = Ok q /\ same_shape p q /\ ope_wf q /\ o_n q = o_n p /\ forall x, ope_eval q x = ope_eval p x.
Proof.
  intros W K. destruct (copy_ok p W) as (q & E & S & N & Wq & _ & C & _). exists q. split; [exact E|]. split; [exact S|]. split; [exact Wq|]. split; [exact N|]. intros x.
  assert (Kq : o_kr q = false) by (rewrite <- K; symmetry; apply S). rewrite !ope_eval_ok by auto using ope_wf_ok. f_equal. destruct S as (T & _ & _ & M & _).
  rewrite (ope_fun_coz q (o_n p)), (ope_fun_coz p (o_n p)) by lia. rewrite <- T, <- M. apply rs_ext. intros k _. now rewrite C.
Qed.
Print Assumptions C80_copy.

(** ** Constructors *)
(** options that describe a domain, or a normal distribution *)
Definition opts_ok (o : opts) : Prop := op_kr o = false /\ match op_t o with HERMITE => 0 < op_std o | _ => op_lb o < op_ub o end.
Lemma opts_maps o n : opts_ok o -> let m := o_map (ope_init_opts o n) in sm_slope m <> 0 /\ (forall z, map_to m (map_from m z) = z) /\ (forall z, map_from m (map_to m z) = z).
Proof.
  intros [_ H] m. unfold m, ope_init_opts, ope_init, init_map, map_to, map_from, p_upper, p_lower. cbn [o_map].
  destruct (op_t o); cbn [sm_slope sm_off sm_islope sm_ioff].
  - split; [|split; intros; field; lra]. apply Rmult_integral_contrapositive_currified; [lra|]. apply Rinv_neq_0_compat. lra.
  - split; [|split; intros; field; lra]. apply Rmult_integral_contrapositive_currified; [lra|]. apply Rinv_neq_0_compat. lra.
  - split; [|split; intros; field; lra]. apply Rmult_integral_contrapositive_currified; [lra|]. apply Rinv_neq_0_compat. lra.
Qed.
Lemma opts_len o n : length (o_c (ope_init_opts o n)) = (n + 50)%nat.
Proof. cbn [o_c ope_init_opts ope_init]. apply repeat_length. Qed.

Theorem C80_zero o force : opts_ok o -> (1 <= op_start o)%nat -> exists q, ope_zero o force = Ok q /\ ope_wf q /\ o_n q = (if force then op_start o else 1)%nat /\ forall x, ope_eval q x = Ok 0.
Proof.
  intros [K _] H. unfold ope_zero. set (n := if force then op_start o else 1%nat). assert (Hn : (1 <= n)%nat) by (unfold n; destruct force; lia). assert (L := opts_len o n).
  unfold for_. destruct (zero_ok 0 n (o_c (ope_init_opts o n))) as (c & -> & Lc & Hc); [lia|]. cbn [obind]. eexists. split; [reflexivity|].
  split; [unfold ope_wf; cbn [o_n o_c o_alloc with_c ope_init_opts ope_init]; unfold opecalloc; lia|]. split; [reflexivity|]. intros x.
  rewrite ope_eval_ok; [|unfold ope_ok; cbn [o_n o_c with_c]; lia|exact K]. f_equal. apply rs_zero. intros k Hk. cbn [o_n with_c] in Hk. unfold co. cbn [o_c with_c]. rewrite Hc. destruct (Nat.ltb_spec k (0 + n)); [|lia]. cbn. ring.
Qed.
Print Assumptions C80_zero.
(** constants below the threshold become zero *)
Theorem C80_constant zt big a o : opts_ok o -> (1 <= op_start o)%nat -> Rabs a < big ->
  exists q, ope_constant zt big a o = Ok q /\ ope_wf q /\ o_n q = 1%nat /\ forall x, ope_eval q x = Ok (if Rlt_dec (Rabs a) zt then 0 else a).
Proof.
  intros Ho Hs Hb. assert (K := proj1 Ho). unfold ope_constant. rewrite (Rltb_t (Rabs a) big) by auto. cbn [cassert obind]. destruct (Rlt_dec (Rabs a) zt) as [H|H].
  - rewrite Rltb_t by auto. destruct (C80_zero o false Ho Hs) as (q & E & W & N & V). exists q. auto.
  - rewrite Rltb_f by lra. assert (L := opts_len o 1). rewrite aset_ok by lia. cbn [obind]. eexists. split; [reflexivity|].
    split; [unfold ope_wf; cbn [o_n o_c o_alloc with_c]; rewrite upd_length; cbn [o_alloc ope_init_opts ope_init]; unfold opecalloc; lia|]. split; [reflexivity|]. intros x.
    rewrite ope_eval_ok; [|unfold ope_ok; cbn [o_n o_c with_c]; rewrite upd_length; lia|exact K]. f_equal. unfold ope_fun, co. cbn [o_n o_c with_c rs]. rewrite nth_upd by lia. cbn [Nat.eqb]. rewrite phi_0. unfold p_const. field.
Qed.
Print Assumptions C80_constant.
Theorem C80_constant_rejects zt big a o : big <= Rabs a -> ope_constant zt big a o = Abort.
Proof. intros H. unfold ope_constant. now rewrite Rltb_f. Qed.
Print Assumptions C80_constant_rejects.

Lemma linear_update_ok p a b : (2 <= length (o_c p))%nat -> o_n p = 2%nat -> o_kr p = false -> sm_slope (o_map p) <> 0 ->
  exists q, ope_linear_update p a b = Ok q /\ same_shape p q /\ o_n q = 2%nat /\ o_alloc q = o_alloc p /\ length (o_c q) = length (o_c p) /\ forall x, ope_eval q x = Ok (a * x + b).
Proof.
  intros L N K S. unfold ope_linear_update. rewrite aset_ok by lia. cbn [obind]. rewrite aget_nth by (rewrite upd_length; lia). cbn [obind]. rewrite aset_ok by (rewrite upd_length; lia). cbn [obind].
  eexists. split; [reflexivity|]. split; [unfold same_shape; auto|]. split; [exact N|]. split; [reflexivity|]. split; [cbn [o_c with_c]; now rewrite !upd_length|]. intros x.
  rewrite ope_eval_ok; [|unfold ope_ok; cbn [o_n o_c with_c]; rewrite !upd_length; lia|exact K]. f_equal. unfold ope_fun, co. cbn [o_n o_c o_t o_map with_c]. rewrite N. cbn [rs].
  rewrite !nth_upd by (rewrite ?upd_length; lia). cbn [Nat.eqb]. rewrite phi_0, phi_1. unfold map_to, p_linc, p_const.
  assert (p_lin (o_t p) <> 0). { unfold p_lin. destruct (o_t p); try lra. assert (0 < sqrt 3) by (apply sqrt_lt_R0; lra). lra. } field. split; auto.
Qed.
Theorem C80_linear a offset o : opts_ok o -> exists q, ope_linear a offset o = Ok q /\ ope_wf q /\ o_n q = 2%nat /\ forall x, ope_eval q x = Ok (a * x + offset).
Proof.
  intros Ho. assert (L := opts_len o 2). destruct (opts_maps o 2 Ho) as (S & _ & _). destruct (linear_update_ok (ope_init_opts o 2) a offset) as (q & E & _ & N & A & Lq & V); auto; [lia|apply Ho|].
  exists q. split; [exact E|]. split; [unfold ope_wf; rewrite N, A, Lq, L; split; [split; apply Nat.leb_le; reflexivity|reflexivity]|]. auto.
Qed.
Print Assumptions C80_linear.
Theorem C80_linear_update p a offset : ope_wf p -> o_n p = 2%nat -> o_kr p = false -> sm_slope (o_map p) <> 0 ->
  exists q, ope_linear_update p a offset = Ok q /\ same_shape p q /\ ope_wf q /\ forall x, ope_eval q x = Ok (a * x + offset).
Proof.
  intros [W1 W2] N K S. destruct (linear_update_ok p a offset) as (q & E & Sh & Nq & A & Lq & V); auto; [lia|]. exists q. split; [exact E|]. split; [exact Sh|]. split; [unfold ope_wf; lia|exact V].
Qed.
Print Assumptions C80_linear_update.
(** a constant (the documentation asks for a linear function) stays one: 3 x + 5 comes out as 5 *)
Theorem C80_linear_update_refuted : exists p q, ope_wf p /\ o_kr p = false /\ (forall x, ope_eval p x = Ok 1) /\ ope_linear_update p 3 5 = Ok q /\ forall x, ope_eval q x = Ok 5.
Proof.
  set (p := with_c (ope_init CHEBYSHEV 1 (-1) 1) 1 (1 :: repeat 0 50)). exists p. eexists.
  split; [split; [split; apply Nat.leb_le; reflexivity|reflexivity]|]. split; [reflexivity|]. split; [|split; [reflexivity|]].
  - intros x. rewrite ope_eval_ok; [|unfold ope_ok; cbn; lia|reflexivity]. f_equal. unfold ope_fun, co. cbn [p o_n with_c rs o_c nth]. rewrite phi_0. ring.
  - intros x. rewrite ope_eval_ok; [|unfold ope_ok; cbn; lia|reflexivity]. f_equal. unfold ope_fun, co. cbn [p o_n o_t with_c rs o_c ope_init nth upd repeat p_const p_lin p_linc o_map init_map sm_slope sm_off app]. rewrite phi_0. unfold p_linc, p_const, p_upper, p_lower. field.
Qed.
Print Assumptions C80_linear_update_refuted.

(** the quadratic a (x - offset)^2; Chebyshev with the rule of the library *)
Lemma quadratic_ok quad a offset o : opts_ok o -> qexact (op_t o) 3 (quad (op_t o) 3%nat) -> exists q, ope_quadratic quad a offset o = Ok q /\ o_n q = 3%nat /\ forall x, ope_eval q x = Ok (a * (x - offset) * (x - offset)).
Proof.
  intros Ho Q. unfold ope_quadratic. set (p := ope_init_opts o 3). destruct (opts_maps o 3 Ho) as (S & M1 & M2). fold p in S, M1, M2.
  set (s := sm_islope (o_map p)). set (f := sm_ioff (o_map p) - offset).
  destruct (project_exact quad (fun x => Ok (a * (x - offset) * (x - offset))) [a * f * f; 2 * a * s * f; a * s * s] p) as (c & E & L & V); auto.
  - unfold ope_ok, p. rewrite opts_len. cbn [o_n ope_init_opts ope_init]. lia.
  - apply Ho.
  - intros k. cbn [p o_c ope_init_opts ope_init]. apply nth_repeat.
  - intros x. f_equal. rewrite <- (M2 x) at 1 2. cbn [pe]. unfold s, f, map_from. ring.
  - exists (with_c p (o_n p) c). split; [exact E|]. split; [reflexivity|]. intros x. rewrite V. f_equal. rewrite <- (M2 x) at 2 3. cbn [pe]. unfold s, f, map_from. ring.
Qed.
Theorem C80_quadratic_chebyshev tol gl gh a offset o : opts_ok o -> op_t o = CHEBYSHEV ->
  exists q, ope_quadratic (lib_quad tol gl gh) a offset o = Ok q /\ o_n q = 3%nat /\ forall x, ope_eval q x = Ok (a * (x - offset) * (x - offset)).
Proof. intros Ho T. apply quadratic_ok; auto. rewrite T. apply cheb_gauss_exact. lia. Qed.
Print Assumptions C80_quadratic_chebyshev.
Theorem C80_quadratic_partial quad a offset o : opts_ok o -> qexact (op_t o) 3 (quad (op_t o) 3%nat) ->
  exists q, ope_quadratic quad a offset o = Ok q /\ o_n q = 3%nat /\ forall x, ope_eval q x = Ok (a * (x - offset) * (x - offset)).
Proof. apply quadratic_ok. Qed.
Print Assumptions C80_quadratic_partial.

(** one member of the family, scaled *)
Lemma genorder_ok order o : opts_ok o -> exists q, ope_genorder order o = Ok q /\ ope_ok q /\ same_shape (ope_init_opts o (order + 1)) q /\
  forall x, ope_fun q x = (match op_t o with LEGENDRE => 1 / sqrt (p_norm (op_t o) order) / sqrt 2 / sqrt (sm_islope (o_map q)) | _ => 1 / sqrt (p_norm (op_t o) order) / sqrt (sm_islope (o_map q)) end) * phi (op_t o) order (map_to (o_map q) x).
Proof.
  intros Ho. unfold ope_genorder. set (p := ope_init_opts o (order + 1)). assert (L : length (o_c p) = (order + 1 + 50)%nat) by apply opts_len. cbv zeta.
  rewrite aset_ok by lia. cbn [obind]. eexists. split; [reflexivity|]. split; [unfold ope_ok; cbn [o_n o_c with_c]; rewrite upd_length; lia|]. split; [unfold same_shape; auto|]. intros x.
  unfold ope_fun. cbn [o_n o_t o_map with_c]. change (o_t p) with (op_t o). rewrite Nat.add_1_r. cbn [rs]. rewrite rs_zero.
  - unfold co. cbn [o_c with_c]. rewrite nth_upd, Nat.eqb_refl by lia. ring.
  - intros k Hk. unfold co. cbn [o_c with_c]. rewrite nth_upd by lia. destruct (Nat.eqb_spec k order); [lia|]. cbn [p o_c ope_init_opts ope_init]. rewrite nth_repeat. ring.
Qed.
(** Legendre: of norm one over the domain *)
Theorem C80_genorder_legendre order o : opts_ok o -> op_t o = LEGENDRE ->
  exists q, ope_genorder order o = Ok q /\ is_RInt (fun x => ope_fun q x * ope_fun q x) (op_lb o) (op_ub o) 1 /\
    exists c, 0 < c /\ forall x, ope_eval q x = Ok (c * phi LEGENDRE order (map_to (o_map q) x)).
Proof.
  intros Ho T. destruct (genorder_ok order o Ho) as (q & E & Hq & Sh & F). exists q. split; [exact E|]. rewrite T in F. destruct Ho as [K Dm]. rewrite T in Dm.
  assert (Tq : o_t q = LEGENDRE) by (rewrite <- T; symmetry; apply Sh). assert (Kq : o_kr q = false) by (rewrite <- K; symmetry; apply Sh).
  assert (D : dom_ok q). { destruct Sh as (S1 & S2 & S3 & S4 & _). split; [congruence|]. rewrite <- S2, <- S3, <- S4, <- S1. split; [exact Dm|]. unfold ope_init_opts. rewrite T. reflexivity. }
  assert (Lq : o_lb q = op_lb o) by (symmetry; apply Sh). assert (Uq : o_ub q = op_ub o) by (symmetry; apply Sh).
  destruct (dom_map q D) as (_ & IS & _ & _). rewrite Lq, Uq in IS. set (m := sm_islope (o_map q)) in *. assert (Pm : 0 < m) by lra.
  set (cc := 1 / sqrt (p_norm LEGENDRE order) / sqrt 2 / sqrt m) in *. assert (S2 : 0 < sqrt 2) by (apply sqrt_lt_R0; lra). assert (Sm : 0 < sqrt m) by (apply sqrt_lt_R0; lra).
  assert (CC : cc * cc = / (2 * m)). { unfold cc. cbn [p_norm]. rewrite sqrt_1. assert (Q2 : sqrt 2 * sqrt 2 = 2) by (apply sqrt_sqrt; lra). assert (Qm : sqrt m * sqrt m = m) by (apply sqrt_sqrt; lra).
    replace (2 * m) with ((sqrt 2 * sqrt 2) * (sqrt m * sqrt m)) by (rewrite Q2, Qm; ring). field. split; lra. }
  split.
  - rewrite <- Lq, <- Uq. pose proof (refI_orth LEGENDRE order order) as G. rewrite Nat.eqb_refl in G. cbn [p_norm] in G.
    assert (G2 : refI LEGENDRE (fun z => (cc * cc) * (phi LEGENDRE order z * phi LEGENDRE order z)) (cc * cc)).
    { pose proof (refI_comb LEGENDRE _ _ (cc * cc) _ _ (refI_0 LEGENDRE) G) as G3. replace (0 + cc * cc * 1) with (cc * cc) in G3 by ring. eapply refI_ext; [|exact G3]. intros z; cbn; ring. }
    pose proof (refI_leg_dom q (fun z => (cc * cc) * (phi LEGENDRE order z * phi LEGENDRE order z)) (cc * cc)) as I. cbv beta in I.
    assert (PF : polyf (fun z => cc * cc * (phi LEGENDRE order z * phi LEGENDRE order z))) by (apply (polyf_scal (cc * cc) (fun z => phi LEGENDRE order z * phi LEGENDRE order z)), polyf_mult; apply phi_polyf). assert (I' := I Tq D PF G2).
    replace 1 with (cc * cc * (o_ub q - o_lb q)) by (rewrite CC, Lq, Uq, IS; field; lra). eapply is_RInt_ext_all; [|exact I']. intros x. cbn beta. rewrite F. ring.
  - exists cc. split; [unfold cc; cbn [p_norm]; rewrite sqrt_1; apply Rdiv_lt_0_compat; auto; apply Rdiv_lt_0_compat; lra|]. intros x. rewrite ope_eval_ok by auto. f_equal. apply F.
Qed.
Print Assumptions C80_genorder_legendre.
(** Hermite with standard deviation s: the mean of the square is 1/s *)
Lemma genorder_hermite order o : opts_ok o -> op_t o = HERMITE ->
  exists q, ope_genorder order o = Ok q /\ ope_ok q /\ o_t q = HERMITE /\ o_kr q = false /\ gauss_mean (fun z => ope_fun q (map_from (o_map q) z) * ope_fun q (map_from (o_map q) z)) (/ op_std o).
Proof.
  intros Ho T. destruct (genorder_ok order o Ho) as (q & E & Hq & Sh & F). exists q. split; [exact E|]. split; [exact Hq|]. destruct (opts_maps o (order + 1) Ho) as (_ & M1 & _). rewrite T in F. destruct Ho as [K Dm]. rewrite T in Dm.
  assert (Tq : o_t q = HERMITE) by (rewrite <- T; symmetry; apply Sh). assert (Kq : o_kr q = false) by (rewrite <- K; symmetry; apply Sh). split; [exact Tq|]. split; [exact Kq|].
  assert (Mq : o_map q = o_map (ope_init_opts o (order + 1))) by (symmetry; apply Sh). assert (IS : sm_islope (o_map q) = op_std o) by (rewrite Mq; unfold ope_init_opts; rewrite T; reflexivity).
  rewrite IS in F. set (cc := 1 / sqrt (p_norm HERMITE order) / sqrt (op_std o)) in *. assert (Sm : 0 < sqrt (op_std o)) by (apply sqrt_lt_R0; lra).
  assert (CC : cc * cc = / op_std o). { unfold cc. cbn [p_norm]. rewrite sqrt_1. replace (/ op_std o) with (/ (sqrt (op_std o) * sqrt (op_std o))) by (rewrite sqrt_sqrt by lra; reflexivity). field. lra. }
  pose proof (refI_orth HERMITE order order) as G. rewrite Nat.eqb_refl in G. cbn [p_norm] in G.
  pose proof (refI_comb HERMITE _ _ (cc * cc) _ _ (refI_0 HERMITE) G) as G3. replace (0 + cc * cc * 1) with (/ op_std o) in G3 by (rewrite CC; ring). apply (refI_ext HERMITE (fun x => 0 + cc * cc * (phi HERMITE order x * phi HERMITE order x)) (fun z => ope_fun q (map_from (o_map q) z) * ope_fun q (map_from (o_map q) z))); [|exact G3].
  intros z. cbn beta. rewrite !F, Mq, M1. ring.
Qed.
Theorem C80_genorder_hermite order o : opts_ok o -> op_t o = HERMITE -> op_std o = 1 ->
  exists q, ope_genorder order o = Ok q /\ gauss_mean (fun z => ope_fun q (map_from (o_map q) z) * ope_fun q (map_from (o_map q) z)) 1.
Proof. intros Ho T S. destruct (genorder_hermite order o Ho T) as (q & E & _ & _ & _ & G). exists q. split; [exact E|]. rewrite S in G. now rewrite Rinv_1 in G. Qed.
Print Assumptions C80_genorder_hermite.
(** with standard deviation 4 the norm that the library computes is 1/2 *)
Theorem C80_genorder_hermite_refuted zt eps quad ltab htab order : exists o q, opts_ok o /\ op_t o = HERMITE /\ ope_genorder order o = Ok q /\ ope_norm zt eps quad ltab htab q = Ok (/ 2).
Proof.
  set (o := mkopts HERMITE 1 (-1) 1 0 4 false). assert (Ho : opts_ok o) by (split; [reflexivity|]; cbn; lra). destruct (genorder_hermite order o Ho eq_refl) as (q & E & Hq & T & K & G).
  exists o, q. split; [exact Ho|]. split; [reflexivity|]. split; [exact E|]. unfold ope_norm, ope_inner. rewrite T. rewrite inner_w_val by auto. cbn [obind]. f_equal.
  destruct (genorder_ok order o Ho) as (q' & E' & _ & Sh & _). assert (q' = q) by congruence. subst q'. destruct (opts_maps o (order + 1) Ho) as (_ & M1 & _).
  pose proof (inner_ref q q eq_refl) as I. rewrite T in I. cbn [refI] in I. set (v := rs _ _) in *.
  assert (V : v = / 4).
  { eapply gm_unique; [exact I|]. eapply gm_ext; [|exact G]. intros z. cbn beta. rewrite !ope_fun_ref. assert (Mq : o_map q = o_map (ope_init_opts o (order + 1))) by (symmetry; apply Sh). now rewrite Mq, M1. }
  rewrite ?T. fold v. rewrite V. replace (/ 4) with (/ 2 * / 2) by field. apply sqrt_square. lra.
Qed.
Print Assumptions C80_genorder_hermite_refuted.

(** ** A concrete case: 3 (x - 1)^2 on [0,4], and its first parameter *)
Example C80_example tol gl gh : let o := mkopts CHEBYSHEV 3 0 4 0 1 false in opts_ok o /\
  exists q, ope_quadratic (lib_quad tol gl gh) 3 1 o = Ok q /\ ope_eval q 3 = Ok 12 /\ exists r, ope_linear 2 1 o = Ok r /\ ope_eval r 3 = Ok 7.
Proof.
  intros o. assert (Ho : opts_ok o) by (split; [reflexivity|]; cbn; lra). split; [exact Ho|]. destruct (C80_quadratic_chebyshev tol gl gh 3 1 o Ho eq_refl) as (q & E & _ & V). exists q. split; [exact E|].
  split; [rewrite V; f_equal; ring|]. destruct (C80_linear 2 1 o Ho) as (r & Er & _ & _ & Vr). exists r. split; [exact Er|]. rewrite Vr. f_equal. ring.
Qed.
