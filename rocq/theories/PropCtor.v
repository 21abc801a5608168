(** Property C07: the constructors of function trains. *)
From Coq Require Import QArith Qcanon.
From Verif Require Import FTCtorVal FTCtor FTEval PolyInst Instances RealInst PropFT.
Close Scope Qc_scope.
Close Scope Q_scope.
Open Scope nat_scope.
Open Scope cr_scope.

(** A concrete family of univariate constructors: polynomials, any domain. *)
Definition polyK : uctor polyU :=
  mkuctor Qcring polyU
    (fun _ a => mkt true [a])
    (fun _ a b => mkt true [b; a])
    (fun _ a m => mkt true [Qcmult a (Qcmult m m); Qcmult (qc (-2)) (Qcmult a m); a])
    (fun _ => mkt true [])
    (fun _ j => mkt true [qc 1; qc (Z.of_nat j)]).
Definition anywhere (_ : nat) (_ : Qcring) : Prop := True.

Section PolyLaws.
  Open Scope Qc_scope.
  Lemma polyK_const : law_const polyK anywhere.
  Proof. intros k a x _. cbn. unfold qc. change (Q2Qc 0) with 0. ring. Qed.
  Lemma polyK_linear : law_linear polyK anywhere.
  Proof. intros k a b x _. cbn. ring. Qed.
  Lemma polyK_quad : law_quad polyK anywhere.
  Proof.
    intros k a m x _. cbn.
    replace (qc (-2)) with (- (1 + 1)) by (apply Qc_is_canon; reflexivity). ring.
  Qed.
  Lemma polyK_zero : law_zero polyK anywhere.
  Proof. intros k x _. reflexivity. Qed.
End PolyLaws.

(** * The values of the constructed trains *)
Theorem C07_constant :
  forall (U : uops Rring) (K : uctor U) dom d (a : Rdefinitions.R),
  law_const K dom -> 0 < d ->
  exists f, ft_constant K (csign a : Rring) (croot a d) d = Ok f /\ ft_wf f /\ ft_dim f = d /\
    forall x, in_dom dom d x -> train_value f x = a.
Proof. exact constant_real. Qed.
Print Assumptions C07_constant.

Theorem C07_linear :
  forall (R : CRing) (U : uops R) (K : uctor U) (dom : nat -> R -> Prop) d c ldc a lda,
  law_const K dom -> law_linear K dom -> 2 <= d ->
  (d - 1) * ldc < length c -> (d - 1) * lda < length a ->
  exists f, ft_linear K c ldc a lda d = Ok f /\ ft_wf f /\ ft_dim f = d /\
    forall x, in_dom dom d x ->
      train_value f x
      = sum d (fun k => nth (k * ldc) c r0 *! nth k x r0 +! nth (k * lda) a r0).
Proof. exact @linear_ok. Qed.
Print Assumptions C07_linear.

Theorem C07_quadratic :
  forall (R : CRing) (U : uops R) (K : uctor U) (dom : nat -> R -> Prop) d Q m,
  law_const K dom -> law_linear K dom -> law_quad K dom -> 2 <= d ->
  length Q = d * d -> length m = d ->
  exists f, ft_quadratic K Q m d = Ok f /\ ft_wf f /\ ft_dim f = d /\
    forall x, in_dom dom d x ->
      train_value f x
      = sum d (fun i => sum d (fun j =>
          nth (i * d + j) Q r0 *! ((nth i x r0 -! nth i m r0) *! (nth j x r0 -! nth j m r0)))).
Proof. exact @quadratic_ok. Qed.
Print Assumptions C07_quadratic.

(** [dom (d-2) x_(d-1)]: the last core is built with the options of the last
    but one dimension, see the refutation below. *)
Theorem C07_quadratic_aligned_partial :
  forall (R : CRing) (U : uops R) (K : uctor U) (dom : nat -> R -> Prop) d c m,
  law_const K dom -> law_quad K dom -> 2 <= d -> d <= length c -> d <= length m ->
  exists f, ft_quadratic_aligned K c m d = Ok f /\ ft_wf f /\ ft_dim f = d /\
    forall x, in_dom dom d x -> dom (d - 2) (nth (d - 1) x r0) ->
      train_value f x
      = sum d (fun k => nth k c r0 *! ((nth k x r0 -! nth k m r0) *! (nth k x r0 -! nth k m r0))).
Proof. exact @quadratic_aligned_ok. Qed.
Print Assumptions C07_quadratic_aligned_partial.

Theorem C07_rankone_prod :
  forall (R : CRing) (U : uops R) (K : uctor U) (dom : nat -> R -> Prop) d c,
  law_linear K dom -> 2 <= d -> d <= length c ->
  exists f, ft_rankone_prod K c d = Ok f /\ ft_wf f /\ ft_dim f = d /\
    forall x, in_dom dom d x ->
      train_value f x = lprod (tab d (fun k => nth k c r0 *! nth k x r0)).
Proof. exact @rankone_prod_ok. Qed.
Print Assumptions C07_rankone_prod.

Theorem C07_rankone :
  forall (R : CRing) (U : uops R) (K : uctor U) d,
  0 < d ->
  exists f, ft_rankone K d = Ok f /\ ft_wf f /\ ft_dim f = d /\
    forall x, length x = d ->
      train_value f x = lprod (tab d (fun k => uev (uappr K k k) (nth k x r0))).
Proof. exact @rankone_ok. Qed.
Print Assumptions C07_rankone.

Theorem C07_initsum :
  forall (R : CRing) (U : uops R) (K : uctor U) (dom : nat -> R -> Prop) d,
  law_const K dom -> 2 <= d ->
  exists f, ft_initsum K d = Ok f /\ ft_wf f /\ ft_dim f = d /\
    forall x, in_dom dom d x ->
      train_value f x = sum d (fun k => uev (uappr K k k) (nth k x r0)).
Proof. exact @initsum_ok. Qed.
Print Assumptions C07_initsum.

Theorem C07_zeros :
  forall (R : CRing) (U : uops R) (K : uctor U) (dom : nat -> R -> Prop) d ranks,
  law_zero K dom -> 0 < d -> length ranks = d + 1 ->
  (forall r, In r ranks -> 0 < r) -> nth 0 ranks 0 = 1 -> nth d ranks 0 = 1 ->
  exists f, ft_zeros K d ranks = Ok f /\ ft_wf f /\ ft_dim f = d /\ ft_ranks f = ranks /\
    forall x, in_dom dom d x -> train_value f x = r0.
Proof. exact @zeros_ok. Qed.
Print Assumptions C07_zeros.

(** * Dimensions that are not handled *)
Theorem C07_one_dimension_checked :
  forall (R : CRing) (U : uops R) (K : uctor U) Q m c,
  ft_quadratic K Q m 1 = Abort /\ ft_rankone_prod K c 1 = Abort.
Proof. intros. split; reflexivity. Qed.
Print Assumptions C07_one_dimension_checked.

(** In dimension one these constructors do not check and return trains whose
    evaluation always aborts, or write outside the 1 x 1 core. *)
Theorem C07_linear_one_dimension_refuted :
  forall (R : CRing) (U : uops R) (K : uctor U) (c0 a0 : R) c ldc a lda,
  exists f, ft_linear K (c0 :: c) ldc (a0 :: a) lda 1 = Ok f /\ forall w x, ft_eval f w x = Abort.
Proof. exact @linear_dim1. Qed.
Print Assumptions C07_linear_one_dimension_refuted.

Theorem C07_quadratic_aligned_one_dimension_refuted :
  forall (R : CRing) (U : uops R) (K : uctor U) (c0 m0 : R) c m,
  exists f, ft_quadratic_aligned K (c0 :: c) (m0 :: m) 1 = Ok f /\ forall w x, ft_eval f w x = Abort.
Proof. exact @quadratic_aligned_dim1. Qed.
Print Assumptions C07_quadratic_aligned_one_dimension_refuted.

Theorem C07_initsum_one_dimension_refuted :
  forall (R : CRing) (U : uops R) (K : uctor U), ft_initsum K 1 = UB.
Proof. intros. reflexivity. Qed.
Print Assumptions C07_initsum_one_dimension_refuted.

(** * The stale options of function_train_quadratic_aligned *)
(** Functions that vanish outside their interval, as the piecewise classes do
    (piecewise polynomials excepted). *)
Record boxf := mkbox { b_lo : Qc; b_hi : Qc; b_p : poly }.
Definition inbox (lo hi x : Qc) : bool :=
  match Qccompare lo x, Qccompare x hi with Gt, _ => false | _, Gt => false | _, _ => true end.
Definition boxU : uops Qcring :=
  mkuops Qcring boxf
    (fun f x => if inbox (b_lo f) (b_hi f) x then peval (b_p f) x else (qc 0))
    (fun _ => false) (fun _ => qc 0) (fun _ _ => qc 0) (fun f _ => f) (fun _ f _ _ => f)
    (fun _ => mkbox (qc 0) (qc 0) []) (fun _ => mkbox (qc 0) (qc 0) []) (fun f => f).
(** dimension 0 lives on [0,1], all others on [2,3] *)
Definition blo (k : nat) : Qc := if k =? 0 then qc 0 else qc 2.
Definition bhi (k : nat) : Qc := if k =? 0 then qc 1 else qc 3.
Definition boxK : uctor boxU :=
  mkuctor Qcring boxU
    (fun k a => mkbox (blo k) (bhi k) [a])
    (fun k a b => mkbox (blo k) (bhi k) [b; a])
    (fun k a m => mkbox (blo k) (bhi k) [Qcmult a (Qcmult m m); Qcmult (qc (-2)) (Qcmult a m); a])
    (fun k => mkbox (blo k) (bhi k) [])
    (fun k _ => mkbox (blo k) (bhi k) []).
Definition boxdom (k : nat) (x : Qcring) : Prop := inbox (blo k) (bhi k) x = true.

Lemma boxK_const : law_const boxK boxdom.
Proof.
  intros k a x H. cbn. unfold boxdom in H. rewrite H. exact (polyK_const k a x I).
Qed.
Lemma boxK_quad : law_quad boxK boxdom.
Proof.
  intros k a m x H. cbn. unfold boxdom in H. rewrite H. exact (polyK_quad k a m x I).
Qed.

(** The univariate constructors are exact on their intervals and the point is
    inside the domain of the train, yet the value is 0 and not 0^2 + 2^2. *)
Theorem C07_quadratic_aligned_refuted :
  exists (U : uops Qcring) (K : uctor U) dom c m d x f,
    law_const K dom /\ law_quad K dom /\ 2 <= d /\ length c = d /\ length m = d /\ in_dom dom d x /\
    ft_quadratic_aligned K c m d = Ok f /\
    train_value f x
    <> sum d (fun k => nth k c r0 *! ((nth k x r0 -! nth k m r0) *! (nth k x r0 -! nth k m r0))).
Proof.
  exists boxU, boxK, boxdom, [qc 1; qc 1], [qc 0; qc 0], 2, [qc 0; qc 2].
  eexists. split; [exact boxK_const|]. split; [exact boxK_quad|].
  split; [auto|]. split; [reflexivity|]. split; [reflexivity|]. split.
  - split; [reflexivity|]. intros [|[|k]] Hk; [reflexivity|reflexivity|lia].
  - split; [reflexivity|]. vm_compute. discriminate.
Qed.
Print Assumptions C07_quadratic_aligned_refuted.

(** * Non-trivial cases *)
Example C07_quadratic_example :
  exists f, ft_quadratic polyK [qc 1; qc 2; qc 3; qc 4; qc 5; qc 6; qc 7; qc 8; qc 9] [qc 1; qc 0; qc 2] 3 = Ok f /\
    ft_ranks f = [1; 4; 3; 1] /\ train_value f [qc 2; qc 1; qc 5] = qc 165.
Proof.
  destruct (C07_quadratic Qcring polyU polyK anywhere 3
    [qc 1; qc 2; qc 3; qc 4; qc 5; qc 6; qc 7; qc 8; qc 9] [qc 1; qc 0; qc 2]
    polyK_const polyK_linear polyK_quad) as (f & E & W & D & V); auto.
  exists f. split; auto. split; [revert E; vm_compute; now intros [= <-]|].
  rewrite V by (repeat split). vm_compute. reflexivity.
Qed.

Example C07_linear_example :
  exists f, ft_linear polyK [qc 1; qc 2; qc 3; qc 4] 1 [qc 5; qc 0; qc 0; qc 7] 1 4 = Ok f /\
    train_value f [qc 2; qc 1; qc 5; qc 1] = qc 35.
Proof.
  destruct (C07_linear Qcring polyU polyK anywhere 4
    [qc 1; qc 2; qc 3; qc 4] 1 [qc 5; qc 0; qc 0; qc 7] 1
    polyK_const polyK_linear) as (f & E & W & D & V); simpl; auto.
  exists f. split; auto. rewrite V by (repeat split). vm_compute. reflexivity.
Qed.

Example C07_rankone_prod_example :
  exists f, ft_rankone_prod polyK [qc 1; qc 2; qc 3] 3 = Ok f /\
    train_value f [qc 2; qc 1; qc 5] = qc 60.
Proof.
  destruct (C07_rankone_prod Qcring polyU polyK anywhere 3 [qc 1; qc 2; qc 3] polyK_linear)
    as (f & E & W & D & V); simpl; auto.
  exists f. split; auto. rewrite V by (repeat split). vm_compute. reflexivity.
Qed.

Example C07_initsum_example :
  exists f, ft_initsum polyK 3 = Ok f /\ train_value f [qc 2; qc 1; qc 5] = qc 14.
Proof.
  destruct (C07_initsum Qcring polyU polyK anywhere 3 polyK_const)
    as (f & E & W & D & V); simpl; auto.
  exists f. split; auto. rewrite V by (repeat split). vm_compute. reflexivity.
Qed.

Example C07_zeros_example :
  exists f, ft_zeros polyK 3 [1; 4; 2; 1] = Ok f /\ train_value f [qc 2; qc 1; qc 5] = qc 0.
Proof.
  destruct (C07_zeros Qcring polyU polyK anywhere 3 [1; 4; 2; 1] polyK_zero)
    as (f & E & W & D & Rk & V); simpl; auto.
  { intros r H. decompose [or] H; subst; try lia; contradiction. }
  exists f. split; auto. rewrite V by (repeat split). reflexivity.
Qed.

(** a real-valued class for the constant constructor: constant functions *)
Definition constU : uops Rring :=
  mkuops Rring Rdefinitions.R (fun f _ => f) (fun _ => true) (fun f => f) (fun f g => Rdefinitions.Rmult f g)
    (fun f g => Rdefinitions.Rmult f g) (fun a f _ _ => Rdefinitions.Rmult a f)
    (fun _ => Rdefinitions.IZR 0) (fun _ => Rdefinitions.IZR 0) (fun _ => Rdefinitions.IZR 0).
Definition constK : uctor constU :=
  mkuctor Rring constU (fun _ a => a) (fun _ _ b => b) (fun _ a _ => a) (fun _ => Rdefinitions.IZR 0)
    (fun _ _ => Rdefinitions.IZR 0).
Example C07_constant_example :
  exists f, ft_constant constK (csign (Rdefinitions.IZR (-8)) : Rring) (croot (Rdefinitions.IZR (-8)) 3) 3 = Ok f /\
    train_value f [Rdefinitions.IZR 0; Rdefinitions.IZR 4; Rdefinitions.IZR 5] = Rdefinitions.IZR (-8).
Proof.
  destruct (C07_constant constU constK (fun _ _ => True) 3 (Rdefinitions.IZR (-8)))
    as (f & E & W & D & V); auto.
  - intros k a x _. reflexivity.
  - exists f. split; auto. apply V. split; auto.
Qed.
