(** Proofs about cross approximation: the sweeps and the iteration. *)
From Coq Require Import Reals Lra.
From Verif Require Import Base BaseFacts Fill IdxModel IdxFacts FwrapModel FwrapFacts FTModel FTSpec FTFacts QmaFacts.
From Verif Require Import OrthAbs OrthFacts OrthDep RoundSvd RoundRun LuFacts PinvModel CrossModel CrossFacts CrossSteps.
Open Scope nat_scope.

Section Sweep.
  Context (D : nat -> R -> Prop) (d : nat) (f : list R -> R) {U : uops Rring} (approx1 : nat -> fwrap R R -> outcome U).
  Context (E : nat -> list R -> list R -> U -> Prop) (F G : Prop) (N : nat).
  Context (qr lq : nat -> qma U -> list R -> outcome (qma U * list R)).
  Context (mv : nat -> qma U -> list R -> list nat -> list R -> outcome (list R * list nat * list R * Z * nat)).
  Context (Hlin : lin_law D d (U := U)) (Hex : exact_law D d f E G) (Hqr : xqr_law D d F G N qr) (Hlq : xlq_law D d F G N lq)
          (Hmv : mv_law D d F N mv) (Hap : approx_law D d f approx1 E F).
  Context (ranks : list nat) (Lr : length ranks = d + 1) (Hd : 0 < d).
  Notation rk j := (nth j ranks 0).
  Context (Hrk : forall j, j <= d -> 0 < rk j <= N) (Rk0 : rk 0 = 1) (Rkd : rk d = 1).

  Notation L s j := (nth j (cs_l s) None).
  Notation Ri s j := (nth j (cs_r s) None).
  Notation C s j := (nth j (cs_cores s) None).

  Definition base (s : cstate U) : Prop := wraps d f (cs_fw s) /\ length (cs_l s) = d /\ length (cs_r s) = d /\ length (cs_cores s) = d /\
    length (cs_lrk s) = d /\ length (cs_rrk s) = d.
  Definition okL (s : cstate U) j : Prop := iset_ok D 0 j (rk j) (L s j) /\ (0 < j -> L s j <> None).
  Definition okR (s : cstate U) j : Prop := iset_ok D (j + 1) (d - 1 - j) (rk (j + 1)) (Ri s j) /\ (j < d - 1 -> Ri s j <> None).
  Definition okC (s : cstate U) j : Prop := exists c, C s j = Some c /\ nr c = rk j /\ nc c = rk (j + 1) /\ qwf c.
  (** every fiber bundle of [f] at level [j] is spanned by those of the index set *)
  Definition spansL (s : iset) j : Prop := forall p, length p = j -> inD D 0 p -> exists c, forall y, length y = d - j -> inD D j y ->
    f (p ++ y) = rsum (rk j) (fun a => c a * f (node s a ++ y))%R.
  Definition spansR (s : iset) j : Prop := forall y, length y = d - 1 - j -> inD D (j + 1) y -> exists c, forall p, length p = j + 1 -> inD D 0 p ->
    f (p ++ y) = rsum (rk (j + 1)) (fun b => c b * f (p ++ node s b))%R.
  (** at the start of an iteration *)
  Definition ready (s : cstate U) : Prop := base s /\ okL s 0 /\ (forall j, j < d -> okR s j) /\ (G -> cs_full s = true -> forall j, j < d -> spansR (Ri s j) j).

  Lemma nth_updo {A} (l : list (option A)) k v j : k < length l -> nth j (upd l k v) None = if j =? k then v else nth j l None.
  Proof. intros H. apply (nth_aset l k v (upd l k v) None). now apply aset_ok. Qed.
  Lemma nth_updn (l : list nat) k v j : k < length l -> nth j (upd l k v) 0 = if j =? k then v else nth j l 0.
  Proof. intros H. apply (nth_aset l k v (upd l k v) 0). now apply aset_ok. Qed.
  Lemma rkE j : j <= d -> nth_error ranks j = Some (rk j).
  Proof. intros. apply nth_error_nth'. lia. Qed.

  Lemma spans0 s : okL s 0 -> spansL (L s 0) 0.
  Proof.
    intros [Ho _] p Hp _. exists (fun _ => 1%R). intros y _ _. rewrite Rk0. cbn [rsum]. destruct p; [|discriminate]. cbn [app].
    destruct (node_value_ok D _ _ _ _ 0 Ho ltac:(lia)) as (_ & Ln & _). destruct (node (L s 0) 0); [|discriminate]. cbn [app]. cbn. ring.
  Qed.

  (** ** The left-right sweep *)
  Definition invL i (s : cstate U) : Prop := base s /\ (forall j, j <= i -> okL s j) /\ (forall j, j < d -> okR s j) /\ (forall j, j < i -> okC s j) /\
    (G -> cs_full s = true -> (forall j, j < d -> spansR (Ri s j) j) /\ forall j, j <= i -> spansL (L s j) j).

  Lemma lr_sweep s : ready s -> safe F (invL (d - 1)) (for_ (d - 1) (lr_step approx1 qr mv ranks) s).
  Proof.
    intros (B & HL & HR & HS). apply safe_for.
    - split; [exact B|]. split; [intros j Hj; assert (j = 0) as -> by lia; exact HL|]. split; [exact HR|]. split; [intros; lia|].
      intros g Hf. split; [now apply HS|]. intros j Hj. assert (j = 0) as -> by lia. now apply spans0.
    - intros i s1 Hi ((Hw & B1 & B2 & B3 & B4 & B5) & KL & KR & KC & KS).
      destruct (KL i (le_n _)) as [Ol Sl]. destruct (KR i ltac:(lia)) as [Or Sr].
      eapply safe_imp.
      { apply (lr_step_ok D d f approx1 E F G N qr mv Hlin Hex Hqr Hmv Hap ranks i (rk i) (rk (i + 1)) (L s1 i) (Ri s1 i)); auto; try lia;
          try (apply rkE; lia); try (apply Hrk; lia); apply nth_error_nth'; unfold iset in *; lia. }
      intros s2 (Hw2 & c & core & r & El & Er & Ec & Elk & Erk & Ef & Oc & C1 & C2 & C3 & HX).
      assert (NL : forall j, L s2 j = if j =? i + 1 then Some c else L s1 j) by (intros; rewrite El; apply nth_updo; unfold iset in *; lia).
      assert (NC : forall j, C s2 j = if j =? i then Some core else C s1 j) by (intros; rewrite Ec; apply nth_updo; unfold iset in *; lia).
      split. { split; [exact Hw2|]. rewrite El, Er, Ec, Elk, Erk, !upd_length. auto. }
      split. { intros j Hj. unfold okL. rewrite NL. destruct (Nat.eqb_spec j (i + 1)) as [->|]; [split; [exact Oc|discriminate]|]. apply KL. lia. }
      split. { intros j Hj. unfold okR. rewrite Er. now apply KR. }
      split. { intros j Hj. unfold okC. rewrite NC. destruct (Nat.eqb_spec j i) as [->|]; [exists core; auto|]. apply KC. lia. }
      intros g Hf. rewrite Ef in Hf. apply andb_prop in Hf as [Hf Hrr]. apply Nat.eqb_eq in Hrr. destruct (KS g Hf) as [SR SL].
      split; [intros j Hj; rewrite Er; now apply SR|]. intros j Hj. rewrite NL. destruct (Nat.eqb_spec j (i + 1)) as [->|]; [|apply SL; lia].
      intros p Lp Dp. specialize (HX Hrr g).
      destruct (exists_last (l := p)) as (q & x & ->); [intros ->; cbn in Lp; lia|]. rewrite app_length in Lp. cbn in Lp.
      assert (Dq : inD D 0 q). { intros k z Hz. apply Dp. rewrite nth_error_app1; [exact Hz|]. apply nth_error_Some. congruence. }
      assert (Dx : D i x). { pose proof (Dp (length q) x) as T. rewrite nth_error_app2, Nat.sub_diag in T by lia. replace i with (0 + length q) by lia. now apply T. }
      destruct (SL i (le_n _) q ltac:(lia) Dq) as (cq & Hcq).
      exists (fun k => rsum (rk i) (fun a => cq a * cv core x a k))%R. intros y Ly Dy. rewrite <- app_assoc. cbn [app].
      assert (Dxy : inD D i (x :: y)) by (apply inD_cons; [exact Dx|replace (S i) with (i + 1) by lia; exact Dy]).
      rewrite (Hcq (x :: y)) by (cbn; auto; lia).
      assert (HY : forall a, a < rk i -> f (node (L s1 i) a ++ x :: y) = rsum (rk (i + 1)) (fun k => cv core x a k * f (node (Some c) k ++ y))%R).
      { intros a Ha. destruct (node_value_ok D _ _ _ _ a Ol Ha) as (_ & La & Da).
        destruct (SR i ltac:(lia) y ltac:(lia) Dy) as (cy & Hcy).
        replace (node (L s1 i) a ++ x :: y) with ((node (L s1 i) a ++ [x]) ++ y) by (rewrite <- app_assoc; reflexivity).
        rewrite Hcy; [|rewrite app_length; cbn; lia|apply inD_app; [exact Da|rewrite La; apply inD_cons; [exact Dx|apply inD_nil]]].
        transitivity (rsum (rk (i + 1)) (fun b => cy b * rsum (rk (i + 1)) (fun k => cv core x a k * f (node (Some c) k ++ node (Ri s1 i) b))))%R.
        { apply rsum_ext. intros b Hb. f_equal. rewrite <- app_assoc. cbn [app]. now apply HX. }
        transitivity (rsum (rk (i + 1)) (fun k => rsum (rk (i + 1)) (fun b => cv core x a k * (cy b * f (node (Some c) k ++ node (Ri s1 i) b)))))%R.
        { rewrite rsum_swap. apply rsum_ext. intros k _. rewrite <- rsum_scal. apply rsum_ext. intros; ring. }
        apply rsum_ext. intros k Hk. rewrite rsum_scal. f_equal. symmetry. destruct (node_value_ok D _ _ _ _ k Oc Hk) as (_ & Lk & Dk).
        apply Hcy; [exact Lk|exact Dk]. }
      transitivity (rsum (rk i) (fun a => rsum (rk (i + 1)) (fun k => cq a * cv core x a k * f (node (Some c) k ++ y))))%R.
      { apply rsum_ext. intros a Ha. rewrite (HY a Ha), <- rsum_scal. apply rsum_ext. intros; ring. }
      rewrite rsum_swap. apply rsum_ext. intros k _. now rewrite rsum_mul_r.
  Qed.

  (** ** The right-left sweep *)
  (** core [j] is the identity at the pivots that make the next index set *)
  Definition interp (s : cstate U) j : Prop := nth j (cs_rrk s) 0 = rk j -> forall c, C s j = Some c ->
    forall k, k < rk j -> exists b x, b < rk (j + 1) /\ D j x /\ node (Ri s (j - 1)) k = x :: node (Ri s j) b /\ forall i, i < rk j -> cv c x i b = delta i k.
  (** core [j] expresses [f] at level [j] by [f] at the entries of the next index set *)
  Definition exactR (s : cstate U) j : Prop := forall c, C s j = Some c ->
    forall p x b, length p = j -> inD D 0 p -> D j x -> b < rk (j + 1) ->
      f (p ++ x :: node (Ri s j) b) = rsum (rk j) (fun k => cv c x k b * f (p ++ node (Ri s (j - 1)) k))%R.
  (** levels [m], ..., [d-1] are done *)
  Definition invR m (s : cstate U) : Prop := base s /\ (forall j, j < d -> okL s j) /\ (forall j, j < d -> okR s j) /\ (forall j, j < d -> okC s j) /\
    (forall j, m <= j < d -> interp s j) /\
    (G -> cs_full s = true -> (forall j, j < d -> spansR (Ri s j) j) /\ (forall j, j < d -> spansL (L s j) j) /\ (forall j, m <= j < d -> exactR s j)).

  Lemma rl_sweep s : invR d s -> safe F (invR 1) (for_ (d - 1) (fun k s => rl_step approx1 lq mv d ranks (d - (k + 1)) s) s).
  Proof.
    intros H0. replace 1 with (d - (d - 1)) at 1 by lia. apply (safe_for F (fun k => invR (d - k))); [now rewrite Nat.sub_0_r|].
    intros k0 s1 Hk0. set (i := d - (k0 + 1)). replace (d - k0) with (i + 1) by lia. replace (d - S k0) with i by lia. assert (Hi : 0 < i < d) by lia.
    intros ((Hw & B1 & B2 & B3 & B4 & B5) & KL & KR & KC & KI & KS).
    destruct (KL i ltac:(lia)) as [Ol Sl]. destruct (KR i ltac:(lia)) as [Or Sr].
    eapply safe_imp.
    { apply (rl_step_ok D d f approx1 E F G N lq mv Hlin Hex Hlq Hmv Hap ranks i (rk i) (rk (i + 1)) (L s1 i) (Ri s1 i)); auto; try lia;
        try (apply rkE; lia); try (apply Hrk; lia); apply nth_error_nth'; unfold iset in *; lia. }
    intros s2 (Hw2 & c & core & r & Er & El & Ec & Erk & Elk & Ef & Oc & C1 & C2 & C3 & HI & HX).
    assert (NR : forall j, Ri s2 j = if j =? i - 1 then Some c else Ri s1 j) by (intros; rewrite Er; apply nth_updo; unfold iset in *; lia).
    assert (NC : forall j, C s2 j = if j =? i then Some core else C s1 j) by (intros; rewrite Ec; apply nth_updo; unfold iset in *; lia).
    assert (NK : forall j, nth j (cs_rrk s2) 0 = if j =? i then r else nth j (cs_rrk s1) 0) by (intros; rewrite Erk; apply nth_updn; lia).
    assert (NRi : Ri s2 i = Ri s1 i) by (rewrite NR, (proj2 (Nat.eqb_neq _ _)) by lia; reflexivity).
    assert (NRp : Ri s2 (i - 1) = Some c) by (rewrite NR, Nat.eqb_refl; reflexivity).
    split. { split; [exact Hw2|]. rewrite El, Er, Ec, Elk, Erk, !upd_length. auto. }
    split. { intros j Hj. unfold okL. rewrite El. now apply KL. }
    split. { intros j Hj. unfold okR. rewrite NR. destruct (Nat.eqb_spec j (i - 1)) as [->|]; [|now apply KR].
             replace (i - 1 + 1) with i by lia. replace (d - 1 - (i - 1)) with (d - i) by lia. split; [exact Oc|discriminate]. }
    split. { intros j Hj. unfold okC. rewrite NC. destruct (Nat.eqb_spec j i) as [->|]; [exists core; auto|now apply KC]. }
    split. { intros j Hj. unfold interp. rewrite NK, NC. destruct (Nat.eqb_spec j i) as [->|].
      - intros Hr c' Hc k Hk. injection Hc as <-. rewrite NRp, NRi. destruct (HI Hr k Hk) as (b & x & H1 & H2 & H3 & H4). exists b, x. auto.
      - rewrite !NR, !(proj2 (Nat.eqb_neq _ _)) by lia. apply KI. lia. }
    intros g Hf. rewrite Ef in Hf. apply andb_prop in Hf as [Hf Hrr]. apply Nat.eqb_eq in Hrr. destruct (KS g Hf) as (SR & SL & SX).
    assert (HXi : exactR s2 i).
    { intros c' Hc. rewrite NC, Nat.eqb_refl in Hc. injection Hc as <-. rewrite NRp, NRi. intros p x b Lp Dp Dx Hb.
      specialize (HX Hrr g). destruct (SL i ltac:(lia) p Lp Dp) as (cp & Hcp). destruct (node_value_ok D _ _ _ _ b Or Hb) as (_ & Lb & Db).
      rewrite Hcp; [|cbn; lia|apply inD_cons; [exact Dx|replace (S i) with (i + 1) by lia; exact Db]].
      transitivity (rsum (rk i) (fun a => rsum (rk i) (fun k => cv core x k b * (cp a * f (node (L s1 i) a ++ node (Some c) k)))))%R.
      { apply rsum_ext. intros a Ha. rewrite (HX a b x Ha Hb Dx), <- rsum_scal. apply rsum_ext. intros; ring. }
      rewrite rsum_swap. apply rsum_ext. intros k Hk. rewrite rsum_scal. f_equal. symmetry.
      destruct (node_value_ok D _ _ _ _ k Oc Hk) as (_ & Lk & Dk). apply Hcp; [exact Lk|exact Dk]. }
    split; [|split].
    - intros j Hj. rewrite NR. destruct (Nat.eqb_spec j (i - 1)) as [->|]; [|now apply SR].
      intros y Ly Dy. replace (i - 1 + 1) with i in * by lia. destruct y as [|x y]; [cbn in Ly; lia|].
      assert (Dx : D i x) by (pose proof (Dy 0 x eq_refl) as T; rewrite Nat.add_0_r in T; exact T).
      assert (Dy' : inD D (i + 1) y). { intros k z Hz. replace (i + 1 + k) with (i + S k) by lia. now apply Dy. }
      destruct (SR i ltac:(lia) y ltac:(cbn in Ly; lia) Dy') as (cy & Hcy).
      exists (fun k => rsum (rk (i + 1)) (fun b => cy b * cv core x k b))%R. intros p Lp Dp.
      replace (p ++ x :: y) with ((p ++ [x]) ++ y) by (rewrite <- app_assoc; reflexivity).
      rewrite Hcy; [|rewrite app_length; cbn; lia|apply inD_app; [exact Dp|rewrite Lp; apply inD_cons; [exact Dx|apply inD_nil]]].
      transitivity (rsum (rk (i + 1)) (fun b => rsum (rk i) (fun k => cy b * cv core x k b * f (p ++ node (Some c) k))))%R.
      { apply rsum_ext. intros b Hb. rewrite <- app_assoc. cbn [app].
        pose proof (HXi core ltac:(rewrite NC, Nat.eqb_refl; reflexivity) p x b Lp Dp Dx Hb) as T. rewrite NRi, NRp in T. rewrite T, <- rsum_scal. apply rsum_ext. intros; ring. }
      rewrite rsum_swap. apply rsum_ext. intros k _. now rewrite rsum_mul_r.
    - intros j Hj. rewrite El. now apply SL.
    - intros j Hj. destruct (Nat.eq_dec j i) as [->|Hne]; [exact HXi|].
      unfold exactR. rewrite NC, !NR, !(proj2 (Nat.eqb_neq _ _)) by lia. apply SX. lia.
  Qed.

  (** ** One iteration *)
  (** the first core holds the approximations of the fibers through the first right set *)
  Definition first (s : cstate U) : Prop := exists c, C s 0 = Some c /\
    forall b, b < rk 1 -> exists u, entry c 0 b = Some u /\ E 0 [] (node (Ri s 0) b) u.
  Definition done (s : cstate U) : Prop := invR 1 s /\ first s.

  Lemma sweeps_ok s : ready s -> safe F done (sweeps approx1 qr lq mv d ranks s).
  Proof.
    intros H. unfold sweeps. eapply safe_bind; [apply lr_sweep, H|].
    intros s1 ((Hw & B1 & B2 & B3 & B4 & B5) & KL & KR & KC & KS).
    destruct (KL (d - 1) (le_n _)) as [Ol _]. destruct (KR (d - 1) ltac:(lia)) as [Or _].
    eapply safe_bind.
    { apply (end_core_ok D d f approx1 E F Hap ranks (d - 1) (rk (d - 1)) (rk (d - 1 + 1)) (L s1 (d - 1)) (Ri s1 (d - 1))); auto; try lia;
        try (apply rkE; lia); apply nth_error_nth'; unfold iset in *; lia. }
    intros s2 (Hw2 & core & Es & C1 & C2 & C3 & _).
    eapply safe_bind; [apply rl_sweep|].
    { rewrite Es. split; [repeat split; cbn; rewrite ?upd_length; auto|]. split; [intros j Hj; apply KL; lia|]. split; [exact KR|].
      split. { intros j Hj. unfold okC. cbn [cs_cores]. rewrite nth_updo by lia. destruct (Nat.eqb_spec j (d - 1)) as [->|]; [exists core; auto|apply KC; lia]. }
      split; [intros; lia|]. intros g Hf. destruct (KS g Hf) as [S1 S2]. split; [exact S1|]. split; [intros; apply S2; lia|intros; lia]. }
    intros s3 (( Hw3 & A1 & A2 & A3 & A4 & A5) & JL & JR & JC & JI & JS).
    destruct (JL 0 Hd) as [Ol0 _]. destruct (JR 0 Hd) as [Or0 _].
    eapply safe_imp.
    { apply (end_core_ok D d f approx1 E F Hap ranks 0 (rk 0) (rk (0 + 1)) (L s3 0) (Ri s3 0)); auto; try lia;
        try (apply rkE; lia); apply nth_error_nth'; unfold iset in *; lia. }
    intros s4 (Hw4 & core0 & E4 & D1 & D2 & D3 & D4).
    assert (NC : forall j, C s4 j = if j =? 0 then Some core0 else C s3 j) by (intros; rewrite E4; cbn [cs_cores]; apply nth_updo; unfold iset in *; lia).
    assert (NR : cs_r s4 = cs_r s3) by (rewrite E4; reflexivity). assert (NL : cs_l s4 = cs_l s3) by (rewrite E4; reflexivity).
    assert (NK : cs_rrk s4 = cs_rrk s3) by (rewrite E4; reflexivity). assert (NF : cs_full s4 = cs_full s3) by (rewrite E4; reflexivity).
    split.
    - split; [split; [exact Hw4|rewrite E4; cbn; rewrite upd_length; auto]|]. unfold okL, okR. rewrite NL, NR. split; [exact JL|]. split; [exact JR|].
      split. { intros j Hj. unfold okC. rewrite NC. destruct (Nat.eqb_spec j 0) as [->|]; [exists core0; auto|now apply JC]. }
      split. { intros j Hj. unfold interp. rewrite NC, NR, NK, (proj2 (Nat.eqb_neq _ _)) by lia. now apply JI. }
      rewrite NF. intros g Hf. destruct (JS g Hf) as (S1 & S2 & S3). split; [exact S1|]. split; [exact S2|].
      intros j Hj. unfold exactR. rewrite NC, NR, (proj2 (Nat.eqb_neq _ _)) by lia. now apply S3.
    - exists core0. split; [rewrite NC; reflexivity|]. intros b Hb. rewrite NR. destruct (D4 0 b ltac:(lia) Hb) as (u & Eu & Hu). exists u. split; [exact Eu|].
      destruct (node_value_ok D _ _ _ _ 0 Ol0 ltac:(lia)) as (_ & Ln & _). destruct (node (L s3 0) 0); [exact Hu|discriminate].
  Qed.

  Lemma done_ready s : done s -> ready s.
  Proof. intros ((B & KL & KR & KC & KI & KS) & _). split; [exact B|]. split; [now apply KL|]. split; [exact KR|]. intros g Hf. now apply KS. Qed.

  (** ** The train *)
  Lemma done_cores s : done s -> exists cs, freeze (cs_cores s) = Ok cs /\ length cs = d /\
    (forall j c, C s j = Some c -> nth_error cs j = Some c) /\ ft_wf (mkft d ranks cs).
  Proof.
    intros (((_ & _ & _ & B & _) & _ & _ & KC & _) & _).
    destruct (freeze_all d (cs_cores s) B) as (cs & Ecs & Lcs & Hcs).
    { intros k Hk. destruct (KC k Hk) as (c & Ec & _). exists c. rewrite <- Ec. apply nth_error_nth'. lia. }
    assert (HC : forall j c, C s j = Some c -> nth_error cs j = Some c).
    { intros j c Hc. apply Hcs. rewrite <- Hc. apply nth_error_nth'. destruct (Nat.lt_ge_cases j d) as [X|X]; [lia|]. rewrite nth_overflow in Hc by lia. discriminate. }
    assert (HS : forall j, j < d -> exists c, nth_error cs j = Some c /\ nr c = rk j /\ nc c = rk (j + 1) /\ qwf c).
    { intros j Hj. destruct (KC j Hj) as (c & Ec & H). exists c. split; [now apply HC|exact H]. }
    exists cs. split; [exact Ecs|]. split; [exact Lcs|]. split; [exact HC|].
    assert (CH : forall m, m <= d -> chain (rk (d - m)) (skipn (d - m) cs) 1).
    { induction m as [|m IH]; intros Hm. { rewrite Nat.sub_0_r, skipn_all2 by lia. exact Rkd. }
      destruct (HS (d - S m) ltac:(lia)) as (c & Ec & H1 & H2 & H3).
      assert (Es : skipn (d - S m) cs = c :: skipn (d - m) cs).
      { replace (d - m) with (S (d - S m)) by lia. clear -Ec. revert Ec. generalize (d - S m). induction cs as [|a cs IH]; intros [|k] H; try discriminate; cbn in *; [congruence|]. now apply IH. }
      rewrite Es. cbn [chain]. pose proof (Hrk (d - S m) ltac:(lia)). pose proof (Hrk (d - S m + 1) ltac:(lia)). split; [lia|]. split; [exact H3|]. split; [lia|]. split; [lia|].
      rewrite H2. replace (d - S m + 1) with (d - m) by lia. apply IH. lia. }
    split; [symmetry; exact Lcs|]. split; [exact Hd|]. split.
    - cbn [ft_ranks ft_cores]. apply nth_error_ext; [rewrite Lr; cbn; rewrite map_length; lia|].
      intros k Hk. rewrite rkE by lia. destruct k as [|k]; cbn; [now rewrite Rk0|]. rewrite nth_error_map.
      destruct (HS k ltac:(lia)) as (c & -> & _ & H2 & _). cbn. rewrite H2. do 2 f_equal. lia.
    - cbn [ft_cores]. specialize (CH d (le_n _)). rewrite Nat.sub_diag, Rk0 in CH. exact CH.
  Qed.

  Definition evals (x : list R) : list (U -> Rring) := map (fun (xk : Rring) (g : U) => uev g xk) x.
  Lemma skipn_cons {A} k (l : list A) a : nth_error l k = Some a -> skipn k l = a :: skipn (S k) l.
  Proof. revert k; induction l as [|b l IH]; intros [|k] H; try discriminate; cbn in *; [congruence|]. now apply IH. Qed.
  Lemma firstn_snoc {A} j (x : list A) a : nth_error x j = Some a -> firstn (S j) x = firstn j x ++ [a].
  Proof. revert j. induction x as [|b x IH]; intros [|j] H; try discriminate; [cbn in *; congruence|]. cbn [nth_error] in H. rewrite !firstn_cons. cbn [app]. f_equal. now apply IH. Qed.
  Lemma nth_error_firstn_lt {A} k j (x : list A) : k < j -> nth_error (firstn j x) k = nth_error x k.
  Proof. revert k j. induction x as [|b x IH]; intros [|k] [|j] H; try lia; try reflexivity. cbn. apply IH. lia. Qed.
  Lemma train_val (cs : list (qma U)) (x : list R) : length cs = length x -> train_value (R := Rring) (mkft d ranks cs) x = val (R := Rring) (evals x) cs 0.
  Proof. intros H. unfold train_value. cbn [ft_cores]. unfold evals. rewrite tsum_val; [reflexivity|]. rewrite map_length. symmetry. exact H. Qed.
  Lemma val_cons x xs (c : qma U) cs i : val (R := Rring) (evals (x :: xs)) (c :: cs) i = rsum (nc c) (fun j => cv c x i j * val (R := Rring) (evals xs) cs j)%R.
  Proof. rewrite rsum_sum. reflexivity. Qed.

  Section Train.
    Context (s : cstate U) (cs : list (qma U)) (Hdone : done s) (Lcs : length cs = d) (HC : forall j c, C s j = Some c -> nth_error cs j = Some c).
    Lemma coreE j : j < d -> exists c, C s j = Some c /\ nth_error cs j = Some c /\ nc c = rk (j + 1).
    Proof. intros Hj. destruct Hdone as ((_ & _ & _ & KC & _) & _). destruct (KC j Hj) as (c & Ec & _ & H & _). exists c. auto. Qed.

    (** the train equals [f] *)
    Lemma exact_suffix x : G -> cs_full s = true -> length x = d -> inD D 0 x ->
      forall m, m < d -> f x = rsum (rk (d - m)) (fun k => f (firstn (d - m) x ++ node (Ri s (d - m - 1)) k) * val (R := Rring) (evals (skipn (d - m) x)) (skipn (d - m) cs) k)%R.
    Proof.
      intros g Hf Lx Dx. pose proof Hdone as ((_ & _ & KR & KC & _ & KS) & _). destruct (KS g Hf) as (_ & _ & SX).
      induction m as [|m IH]; intros Hm.
      - rewrite Nat.sub_0_r. rewrite (skipn_all2 (n := d) cs) by lia. rewrite Rkd. cbn [rsum]. rewrite firstn_all2 by lia.
        destruct (KR (d - 1) ltac:(lia)) as [Or _]. destruct (node_value_ok D _ _ _ _ 0 Or ltac:(replace (d - 1 + 1) with d by lia; lia)) as (_ & Ln & _).
        destruct (node (Ri s (d - 1)) 0); [|cbn in Ln; lia]. rewrite app_nil_r. rewrite val_nil. cbn. ring.
      - rewrite IH by lia. set (j := d - S m). replace (d - m) with (S j) in * by lia. replace (S j - 1) with j by lia.
        destruct (coreE j ltac:(lia)) as (c & Ec & Nc & Hc). destruct (nth_error x j) as [xj|] eqn:Ex; [|apply nth_error_None in Ex; lia].
        rewrite (skipn_cons j cs c Nc), (skipn_cons j x xj Ex).
        assert (Fj : firstn (S j) x = firstn j x ++ [xj]).
        { now apply firstn_snoc. }
        assert (Lf : length (firstn j x) = j) by (rewrite firstn_length; lia).
        assert (Df : inD D 0 (firstn j x)). { intros k z Hz. apply Dx. assert (Hk : k < j) by (rewrite <- Lf; apply nth_error_Some; congruence). now rewrite nth_error_firstn_lt in Hz by exact Hk. }
        transitivity (rsum (rk (S j)) (fun b => rsum (rk j) (fun k => f (firstn j x ++ node (Ri s (j - 1)) k) * (cv c xj k b * val (R := Rring) (evals (skipn (S j) x)) (skipn (S j) cs) b))))%R.
        { apply rsum_ext. intros b Hb. rewrite Fj, <- app_assoc. cbn [app].
          rewrite (SX j ltac:(lia) c Ec (firstn j x) xj b Lf Df (Dx j xj Ex) ltac:(replace (j + 1) with (S j) by lia; exact Hb)). rewrite <- rsum_mul_r. apply rsum_ext. intros; ring. }
        rewrite rsum_swap. apply rsum_ext. intros k Hk. rewrite rsum_scal. f_equal. rewrite val_cons, Hc. replace (j + 1) with (S j) by lia. reflexivity.
    Qed.
    Lemma exact_train x : G -> cs_full s = true -> length x = d -> inD D 0 x -> train_value (R := Rring) (mkft d ranks cs) x = f x.
    Proof.
      intros g Hf Lx Dx. rewrite train_val by (etransitivity; [exact Lcs|]; auto). rewrite (exact_suffix x g Hf Lx Dx (d - 1) ltac:(lia)). replace (d - (d - 1)) with 1 by lia.
      pose proof Hdone as ((_ & _ & KR & _) & (c0 & Ec & Hc0)). destruct (coreE 0 Hd) as (c & Ec' & Nc & Hc). rewrite Ec in Ec'. injection Ec' as <-.
      destruct x as [|x0 x]; [cbn in Lx; lia|]. destruct cs as [|cc cr] eqn:Ecs; [cbn in Lcs; lia|]. cbn in Nc. injection Nc as ->.
      rewrite val_cons, Hc. cbn [Nat.add skipn firstn]. apply rsum_ext. intros k Hk. f_equal. destruct (Hc0 k Hk) as (u & Eu & Hu).
      rewrite (cvE _ _ _ _ u Eu). destruct (KR 0 Hd) as [Or _]. destruct (node_value_ok D _ _ _ _ k Or Hk) as (_ & Ln & Dn).
      exact (Hex g [] (node (Ri s 0) k) u ltac:(cbn [length]; lia) (inD_nil D 0) Dn Hu x0 (Dx 0 x0 eq_refl)).
    Qed.

    (** the train interpolates *)
    Lemma interp_suffix : (forall j, 1 <= j < d -> nth j (cs_rrk s) 0 = rk j) -> forall m, m < d -> forall k i, k < rk (d - m) -> i < rk (d - m) ->
      val (R := Rring) (evals (node (Ri s (d - m - 1)) k)) (skipn (d - m) cs) i = delta i k.
    Proof.
      intros HK. pose proof Hdone as ((_ & _ & KR & KC & KI & _) & _).
      induction m as [|m IH]; intros Hm k i Hk Hi.
      - rewrite Nat.sub_0_r in *. rewrite skipn_all2 by lia. rewrite Rkd in *. rewrite val_nil. assert (k = 0) as -> by lia. assert (i = 0) as -> by lia. reflexivity.
      - set (j := d - S m) in *. replace (d - m) with (S j) in * by lia. replace (S j - 1) with j in * by lia.
        destruct (coreE j ltac:(lia)) as (c & Ec & Nc & Hc). rewrite (skipn_cons j cs c Nc).
        destruct (KI j ltac:(lia) (HK j ltac:(lia)) c Ec k Hk) as (b & x & Hb & _ & En & Hdel). rewrite En, val_cons, Hc.
        replace (j + 1) with (S j) in * by lia. rewrite (rsum_single (rk (S j)) _ b Hb).
        + rewrite IH by (auto; lia). unfold delta at 1. rewrite Nat.eqb_refl, (Hdel i Hi). apply Rmult_1_r.
        + intros b' Hb' Hne. rewrite IH by (auto; lia). unfold delta. rewrite (proj2 (Nat.eqb_neq _ _)) by auto. apply Rmult_0_r.
    Qed.
    Lemma interp_train : (forall j, 1 <= j < d -> nth j (cs_rrk s) 0 = rk j) -> forall k, k < rk 1 ->
      exists u, E 0 [] (node (Ri s 0) k) u /\ forall x : R, train_value (R := Rring) (mkft d ranks cs) (x :: node (Ri s 0) k) = uev u (x : Rring).
    Proof.
      intros HK k Hk. pose proof Hdone as ((_ & _ & KR & _) & (c0 & Ec & Hc0)). destruct (coreE 0 Hd) as (c & Ec' & Nc & Hc). rewrite Ec in Ec'. injection Ec' as <-.
      destruct (Hc0 k Hk) as (u & Eu & Hu). exists u. split; [exact Hu|]. intros x.
      destruct (KR 0 Hd) as [Or _]. destruct (node_value_ok D _ _ _ _ k Or Hk) as (_ & Ln & Dn).
      rewrite train_val by (etransitivity; [exact Lcs|]; cbn; lia).
      pose proof (interp_suffix HK (d - 1) ltac:(lia)) as HI. replace (d - (d - 1)) with 1 in HI by lia.
      destruct cs as [|cc cr] eqn:Ecs; [cbn in Lcs; lia|]. cbn in Nc. injection Nc as ->.
      rewrite val_cons, Hc. cbn [Nat.add]. rewrite (rsum_single _ _ k Hk).
      - change cr with (skipn 1 (c0 :: cr)). replace (Ri s 0) with (Ri s (1 - 1)) by reflexivity. rewrite (HI k k Hk Hk). unfold delta. rewrite Nat.eqb_refl, Rmult_1_r. exact (cvE _ _ _ _ u Eu).
      - intros b Hb Hne. change cr with (skipn 1 (c0 :: cr)). replace (Ri s 0) with (Ri s (1 - 1)) by reflexivity. rewrite (HI k b Hk Hb). unfold delta. rewrite (proj2 (Nat.eqb_neq _ _)) by auto. ring.
    Qed.
  End Train.

  (** ** The iteration *)
  Definition trained (a : ftrain U) : Prop := ft_wf a /\ ft_dim a = d.
  Context (rdiff : ftrain U -> ftrain U -> outcome R) (Hrd : forall a b, trained a -> trained b -> safe F (fun _ => True) (rdiff a b)).
  Lemma cross_loop_ok ca : ca_dim ca = d -> ca_ranks ca = ranks ->
    forall fuel iter fti fti2 s, F \/ iter < ca_maxiter ca <= iter + fuel -> trained fti -> (forall g, fti2 = Some g -> trained g) -> ready s ->
    safe F (fun st => let '(ft, s') := st in done s' /\ exists cs, freeze (cs_cores s') = Ok cs /\ ft = mkft d ranks cs)
      (cross_loop approx1 qr lq mv rdiff fuel ca iter fti fti2 s).
  Proof.
    intros Ed Er. induction fuel as [|fuel IH]; intros iter fti fti2 s Hfu Hf1 Hf2 Hs; cbn [cross_loop].
    - cbn. destruct Hfu as [X|X]; [exact X|lia].
    - rewrite Ed, Er. eapply safe_bind; [apply sweeps_ok, Hs|]. intros s1 Hs1. destruct (done_cores s1 Hs1) as (cs & Ecs & Lcs & HC & Wf).
      assert (T : trained (mkft d ranks cs)) by (split; [exact Wf|reflexivity]).
      rewrite Ecs. cbn [obind]. eapply safe_bind; [apply Hrd; [exact T|exact Hf1]|]. intros df _. eapply safe_bind; [|intros df2 _].
      { instantiate (1 := fun _ => True). destruct fti2 as [g|]; [apply Hrd; [exact T|now apply Hf2]|exact I]. }
      destruct (_ && _); [cbn; eauto|]. destruct (Nat.eqb_spec (iter + 1) (ca_maxiter ca)) as [Hm|Hm]; [cbn; eauto|].
      apply IH; [destruct Hfu as [X|X]; [now left|right; lia]|exact T|intros g Hg; injection Hg as <-; exact Hf1|]. now apply done_ready.
  Qed.
End Sweep.
