(** C72, C73: cross approximation of multilinear functions by functions a + b x on [0,1]. *)
From Coq Require Import Reals Lra.
From Verif Require Import Base BaseFacts Fill IdxModel IdxFacts FwrapModel FwrapFacts FTModel FTSpec FTFacts QmaFacts FTInt.
From Verif Require Import OrthAbs OrthFacts RoundModel RoundSvd RoundStep RoundRun RoundMono LuFacts PinvModel DistModel CrossModel CrossFacts CrossSteps CrossSweep.
From Verif Require Import Svd2 PropOrth PropRound PropRound2 PropLu PropPinv PropMaxvol PropDist PropCross PropCross2.
Open Scope nat_scope.

Lemma svd2_any : svd_law 2 True svd2.
Proof. intros n a Hn Ha. destruct (svd2_law n a Hn Ha) as [H|[_ []]]. now left. Qed.
Lemma line_good_ev (x : R) : (0 <= x <= 1)%R -> good lineV (fun u : lineU => uev u (x : Rring)).
Proof.
  intros Hx. split; [|split].
  - split; [|split].
    + intros. cbn. ring.
    + intros. cbn. ring.
    + intros l. induction l as [|[a g] l IH]; [cbn; ring|]. cbn in IH |- *. refine (eq_trans _ (f_equal (Rplus _) IH)). ring.
  - split; [|split; [|split]]; intros; cbn; ring.
  - intros [a b] H. cbn in *. assert (a = 0%R) by nra. assert (b = 0%R) by nra. subst. ring.
Qed.
(** the functions a + b x on [0,1] satisfy what is assumed of the functions of the library *)
Lemma line_functions_ok : functions_ok svd2 lineV z0 (1 / 10) lorth zline line_absmax (fun _ => false) (fun _ => (0, 0)%R) line_zpoly (fun _ => 0%R) (fun _ => 1%R) 0 1 2.
Proof.
  split; [exact line_laws|]. split; [exact line_lin_l|]. split; [exact line_sym|]. split; [unfold z0; lra|]. split; [intros core n Hn; now apply line_orth_ok|].
  split; [exact svd2_any|]. split; [lra|]. split; [apply line_lu_laws; lia|]. split; [exact line_is_absmax|]. split; [reflexivity|]. split; [reflexivity|]. exact line_good_ev.
Qed.

(** interpolation at 0 and 1 *)
Definition line_approx (ii : nat) (w : fwrap R R) : outcome lineU :=
  do (v, c) <- fwrap_eval (0%R : R) w 2 [0%R; 1%R];
  do a <- aget v 0; do b <- aget v 1; Ok (a, b - a)%R.
(** affine in each variable *)
Definition multilinear (d : nat) (f : list R -> R) : Prop := forall l r x, length l + 1 + length r = d ->
  f (l ++ x :: r) = ((1 - x) * f (l ++ 0%R :: r) + x * f (l ++ 1%R :: r))%R.
Definition at_ends (f : list R -> R) (ii : nat) (l r : list R) (u : lineU) : Prop :=
  uev u (0%R : Rring) = f (l ++ 0%R :: r) /\ uev u (1%R : Rring) = f (l ++ 1%R :: r).
Lemma line_approx_law d f F : approx_law (box 0 1) d f line_approx (at_ends f) F.
Proof.
  intros l r w _ _ _ H. unfold line_approx. specialize (H [0%R; 1%R]). cbn [length] in H. rewrite H. cbn. split; cbn; ring.
Qed.
Lemma line_exact d f (G : Prop) : (G -> multilinear d f) -> exact_law (box 0 1) d f (at_ends f) G.
Proof.
  intros Hm g l r u Hl _ _ [H0 H1] x _. rewrite (Hm g l r x Hl), <- H0, <- H1. cbn. ring.
Qed.

(** Cross approximation of any multilinear function. *)
Theorem C73_multilinear mvfuel d f ca fw l r ftref fuel ft s' : multilinear d f -> 2 <= d ->
  ca_dim ca = d -> ranks_ok d 2 (ca_ranks ca) -> start_ok (box 0 1) d f (ca_ranks ca) fw l r -> ft_wf ftref /\ ft_dim ftref = d ->
  spanning (box 0 1) d f (ca_ranks ca) r ->
  lib_cross_checked svd2 lineV z0 (1 / 10) lorth zline line_absmax (fun _ => false) (fun _ => (0, 0)%R) (1, 0)%R line_zpoly (fun _ => 0%R) (fun _ => 1%R) mvfuel line_approx fuel fw ca l r ftref = Ok (ft, s') ->
  cs_full s' = true ->
  ft_wf ft /\ forall x, length x = d -> inD (box 0 1) 0 x -> train_value (R := Rring) ft x = f x.
Proof.
  intros Hm Hd Ed HR HS Hft HG E Hfull.
  destruct (C73_cross_exact_library svd2 lineV z0 (1 / 10) lorth zline line_absmax (fun _ => false) (fun _ => (0, 0)%R) (1, 0)%R line_zpoly (fun _ => 0%R) (fun _ => 1%R) 0 1 mvfuel 2 d
    f line_approx (at_ends f) ca fw l r ftref fuel ft s' line_functions_ok Hd (line_exact d f True (fun _ => Hm)) (line_approx_law d f True) Ed HR HS Hft HG E Hfull) as (_ & H1 & _ & H2). auto.
Qed.
Print Assumptions C73_multilinear.

(** ** A run: (1 + x) (2 + y) with ranks (1,1,1)
    Here the factorisation is the trivial one and the pivot of a column is at 1. *)
Definition xf (p : list R) : R := match p with [x; y] => ((1 + x) * (2 + y))%R | _ => 0%R end.
Lemma xf_multilinear : multilinear 2 xf.
Proof.
  intros l r x H. destruct l as [|a [|b l]].
  - destruct r as [|c [|e r]]; cbn in *; try lia. ring.
  - destruct r as [|c r]; cbn in *; try lia. ring.
  - cbn in H. lia.
Qed.
Definition one_qr (ii : nat) (A : qma lineU) (M : list R) : outcome (qma lineU * list R) := Ok (A, [1%R]).
Definition one_mv (ii : nat) (A : qma lineU) (M : list R) (p : list nat) (x : list R) : outcome (list R * list nat * list R * Z * nat) :=
  do u <- aget (fs A) 0;
  let v := (fst u + snd u)%R in
  if Req_EM_T v 0 then Ok ([0%R], [0], [1%R], 0%Z, 0) else Ok ([(/ v)%R], [0], [1%R], 0%Z, 1).
Definition xargs : crossargs := mkca 2 [1; 1; 1] (1 / 10)%R 1 false 1 [1].
Definition xw : fwrap R R := set_f' (fwrap_create 2 ND) (Some xf).
Definition xr : list iset := [Some (mkci 1 1 [[0%R]]); None].

Lemma one_parts : parts_ok (box 0 1) 2 xf line_approx (at_ends xf) False True 1 one_qr one_qr one_mv (ft_relnorm2diff (1 / 10)).
Proof.
  split; [intros ii x Hii Hx; apply (proj1 (line_good_ev x Hx))|]. split; [apply line_exact; intros _; exact xf_multilinear|].
  assert (Hq : forall A : qma lineU, 0 < nc A <= 1 -> nc A = 1) by (intros; lia).
  split; [|split; [|split; [|split; [apply line_approx_law|]]]].
  - intros ii A Hii Wf Hr Hc. unfold one_qr, safe. assert (nc A = 1) as Ec by lia. rewrite !Ec. split; [reflexivity|]. split; [reflexivity|]. split; [exact Wf|]. split; [reflexivity|].
    intros _ x a b Hx Ha Hb. assert (b = 0) as -> by lia. cbn. unfold cm. cbn. ring.
  - intros ii A Hii Wf Hr Hc. unfold one_qr, safe. assert (nr A = 1) as Ec by lia. rewrite !Ec. split; [reflexivity|]. split; [reflexivity|]. split; [exact Wf|]. split; [reflexivity|].
    intros _ x a b Hx Ha Hb. assert (a = 0) as -> by lia. cbn. unfold cm. cbn. ring.
  - intros ii A M p x Hii Wf Hr Hc Lp Lx. assert (nc A = 1) as Ec by lia. unfold one_mv.
    destruct (aget_lt (fs A) 0) as (u & Nu & Eu); [unfold qwf in Wf; nia|]. rewrite Eu. cbn [obind].
    assert (V : cv A 1 0 0 = (fst u + snd u)%R). { rewrite (cvE A 1 0 0 u); [cbn; ring|]. unfold entry. cbn. exact Nu. }
    destruct (Req_EM_T (fst u + snd u) 0) as [Hz|Hz]; unfold safe, pivoting_ok; intros _; rewrite Ec; (split; [reflexivity|]; split; [reflexivity|]; split; [reflexivity|]; split;
      [intros k Hk; assert (k = 0) as -> by lia; cbn [nth]; split; [exact Hr|unfold box; lra]|]); [discriminate|].
    intros _ i j Hi Hj. assert (i = 0) as -> by lia. assert (j = 0) as -> by lia. cbn [rsum nth]. rewrite V. unfold cm, delta. cbn. split; field; exact Hz.
  - apply relnorm2diff_safe; [exact line_lin_r|exact line_sym|lia|lra].
Qed.

Lemma xstart : ranks_ok 2 1 [1; 1; 1] /\ start_ok (box 0 1) 2 xf [1; 1; 1] xw [None; None] xr /\ spanning (box 0 1) 2 xf [1; 1; 1] xr.
Proof.
  split; [|split].
  - split; [lia|]. split; [reflexivity|]. split; [reflexivity|]. split; [reflexivity|]. intros [|[|[|j]]] Hj; cbn; lia.
  - split; [apply wraps_set_f; reflexivity|]. split; [reflexivity|]. split; [reflexivity|]. split; [reflexivity|].
    intros [|[|j]] Hj; [| |lia].
    + cbn. split; [|discriminate]. split; [split; [reflexivity|constructor; [reflexivity|constructor]]|]. split; [reflexivity|]. split; [lia|].
      intros k Hk. assert (k = 0) as -> by lia. intros [|k] x Hx; cbn in Hx; [|destruct k; discriminate]. injection Hx as <-. unfold box. lra.
    + cbn. split; [reflexivity|]. lia.
  - intros [|[|j]] Hj y Ly Dy; [| |lia].
    + destruct y as [|y [|]]; cbn in Ly; try lia. exists (fun _ => (2 + y) / 2)%R. intros p Lp Dp. destruct p as [|x [|]]; cbn in Lp; try lia. cbn. field.
    + destruct y as [|]; cbn in Ly; try lia. exists (fun _ => 1%R). intros p Lp Dp. cbn. rewrite app_nil_r. ring.
Qed.

Definition xref : ftrain lineU := mkft 2 [1; 1; 1] [mkq 1 1 [(1, 0)%R]; mkq 1 1 [(1, 0)%R]].
Lemma xref_wf : ft_wf xref. Proof. wf_concrete. Qed.
Ltac vnz := match goal with |- context [Req_EM_T ?a ?b] => destruct (Req_EM_T a b) as [X|_]; [exfalso; revert X; lra|] end.
Definition xl1 : list iset := [None; Some (mkci 1 1 [[1%R]])].
Definition xr1 : list iset := [Some (mkci 1 1 [[1%R]]); None].
Definition xw1 : fwrap R R := set_fib' xw false 1 0 None.
Lemma xstep1 : exists u, lr_step line_approx one_qr one_mv [1; 1; 1] 0 (mkcs xw [None; None] xr [None; None] [0; 0] [0; 0] true) =
  Ok (mkcs xw xl1 xr [Some (mkq 1 1 [u]); None] [1; 0] [0; 0] true).
Proof. unfold lr_step. cbn. vnz. cbn. eexists. reflexivity. Qed.
Lemma xstep2 c : exists u, end_core line_approx [1; 1; 1] 1 (mkcs xw xl1 xr [c; None] [1; 0] [0; 0] true) =
  Ok (mkcs xw1 xl1 xr [c; Some (mkq 1 1 [u])] [1; 0] [0; 0] true).
Proof. unfold end_core. cbn. eexists. reflexivity. Qed.
Lemma xstep3 c c' : exists u, rl_step line_approx one_qr one_mv 2 [1; 1; 1] 1 (mkcs xw1 xl1 xr [c; c'] [1; 0] [0; 0] true) =
  Ok (mkcs xw1 xl1 xr1 [c; Some (mkq 1 1 [u])] [1; 0] [0; 1] true).
Proof. unfold rl_step. cbn. vnz. cbn. eexists. reflexivity. Qed.
Lemma xstep4 c c' : exists u, end_core line_approx [1; 1; 1] 0 (mkcs xw1 xl1 xr1 [c; c'] [1; 0] [0; 1] true) =
  Ok (mkcs xw xl1 xr1 [Some (mkq 1 1 [u]); c'] [1; 0] [0; 1] true).
Proof. unfold end_core. cbn. eexists. reflexivity. Qed.
Lemma xrun : exists s' cs, sweeps line_approx one_qr one_qr one_mv 2 [1; 1; 1] (mkcs xw [None; None] xr [None; None] [0; 0] [0; 0] true) = Ok s' /\
  cs_full s' = true /\ nth 1 (cs_rrk s') 0 = 1 /\ freeze (cs_cores s') = Ok cs /\ ft_wf (mkft 2 [1; 1; 1] cs).
Proof.
  unfold sweeps, for_. cbn [Nat.sub Nat.add for_from]. destruct xstep1 as (u1 & E1). rewrite E1. cbn [obind].
  destruct (xstep2 (Some (mkq 1 1 [u1]))) as (u2 & E2). rewrite E2. cbn [obind].
  destruct (xstep3 (Some (mkq 1 1 [u1])) (Some (mkq 1 1 [u2]))) as (u3 & E3). rewrite E3. cbn [obind].
  destruct (xstep4 (Some (mkq 1 1 [u1])) (Some (mkq 1 1 [u3]))) as (u4 & E4). rewrite E4.
  eexists _, _. split; [reflexivity|]. split; [reflexivity|]. split; [reflexivity|]. split; [reflexivity|]. wf_concrete.
Qed.
Lemma xcross : exists ft s', ftapprox_cross line_approx one_qr one_qr one_mv (ft_relnorm2diff (1 / 10)) 1 xw xargs [None; None] xr xref = Ok (ft, s') /\ cs_full s' = true.
Proof.
  destruct xrun as (s' & cs & E & Hf & _ & Ef & Wf). unfold ftapprox_cross. cbn [cross_loop ca_dim ca_ranks ca_eps ca_maxiter xargs repeat]. rewrite E. cbn [obind]. rewrite Ef. cbn [obind].
  destruct (C74_relnorm2diff_partial (1 / 10) (mkft 2 [1; 1; 1] cs) xref line_lin_r line_sym Wf xref_wf eq_refl (le_n 2) ltac:(lra)) as (v & Ev & _).
  rewrite Ev. cbn [obind]. exists (mkft 2 [1; 1; 1] cs), s'. split; [|exact Hf]. destruct (_ && _); reflexivity.
Qed.
Example C73_example : exists ft s', ftapprox_cross line_approx one_qr one_qr one_mv (ft_relnorm2diff (1 / 10)) 1 xw xargs [None; None] xr xref = Ok (ft, s') /\ cs_full s' = true /\
  ft_ranks ft = [1; 1; 1] /\ forall x, length x = 2 -> inD (box 0 1) 0 x -> train_value (R := Rring) ft x = xf x.
Proof.
  destruct xstart as (X1 & X2 & X3). destruct xcross as (ft & s' & E & Hf).
  pose proof (C73_cross_exact (box 0 1) 2 xf line_approx (at_ends xf) False True 1 one_qr one_qr one_mv (ft_relnorm2diff (1 / 10)) xargs xw [None; None] xr xref 1
    one_parts eq_refl X1 X2 (conj xref_wf eq_refl) (or_intror (conj (le_n 1) (le_n 1))) I X3) as H.
  rewrite E in H. destruct (H Hf) as (_ & H2 & _ & H3). exists ft, s'. auto.
Qed.
