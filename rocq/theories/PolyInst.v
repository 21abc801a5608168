(** A concrete instance of the univariate operations: polynomials with
    rational coefficients on [0,1], each carrying a tag that says whether the
    library would store it as POLYNOMIAL.  All the laws assumed by the
    function-train theorems are proved for it, so the hypotheses of those
    theorems are satisfiable, and the examples can be computed. *)
From Verif Require Import Instances FTSpec.
From Coq Require Import QArith Qcanon Field.

Open Scope Qc_scope.

Definition poly := list Qc.

Fixpoint peval (p : poly) (x : Qc) : Qc :=
  match p with [] => 0 | c :: p' => c + x * peval p' x end.

Definition pscale (a : Qc) (p : poly) : poly := map (Qcmult a) p.

Fixpoint padd (p q : poly) : poly :=
  match p, q with
  | [], _ => q
  | _, [] => p
  | a :: p', b :: q' => (a + b) :: padd p' q'
  end.

Fixpoint pmul (p q : poly) : poly :=
  match p with
  | [] => []
  | a :: p' => padd (pscale a q) (0 :: pmul p' q)
  end.

Definition Qcnat (n : nat) : Qc := Q2Qc (inject_Z (Z.of_nat n)).

(** Integral of x^k p(x) over [0,1]. *)
Fixpoint pintk (k : nat) (p : poly) : Qc :=
  match p with [] => 0 | c :: p' => c / Qcnat (S k) + pintk (S k) p' end.

Fixpoint pderivk (k : nat) (p : poly) : poly :=
  match p with [] => [] | c :: p' => (Qcnat k * c) :: pderivk (S k) p' end.
Definition pderiv (p : poly) : poly := match p with [] => [] | _ :: p' => pderivk 1 p' end.

Record tpoly := mkt { tp_poly : bool; tp_c : poly }.

Definition polyU : uops Qcring :=
  mkuops Qcring tpoly
  (* uev *) (fun f x => peval (tp_c f) x)
  (* uispoly *) tp_poly
  (* uint *) (fun f => pintk 0 (tp_c f))
  (* uinner *) (fun f g => pintk 0 (pmul (tp_c f) (tp_c g)))
  (* uprod *) (fun f g => mkt (tp_poly f && tp_poly g) (pmul (tp_c f) (tp_c g)))
  (* uaxpby *) (fun a f b g =>
    match g with
    | None => mkt (tp_poly f) (pscale a (tp_c f))
    | Some g => mkt (tp_poly f && tp_poly g) (padd (pscale a (tp_c f)) (pscale b (tp_c g)))
    end)
  (* ulcpoly *) (fun l => mkt true (fold_right (fun p acc => padd (pscale (fst p) (tp_c (snd p))) acc) [] l))
  (* usppoly *) (fun l => mkt true (fold_right (fun p acc => padd (pmul (tp_c (fst p)) (tp_c (snd p))) acc) [] l))
  (* uderiv *) (fun f => mkt (tp_poly f) (pderiv (tp_c f))).

Lemma peval_add p q x : peval (padd p q) x = peval p x + peval q x.
Proof.
  revert q; induction p as [|a p IH]; intros [|b q]; simpl; try ring.
  rewrite IH. ring.
Qed.

Lemma peval_scale a p x : peval (pscale a p) x = a * peval p x.
Proof. induction p as [|b p IH]; simpl; [ring|]. rewrite IH. ring. Qed.

Lemma peval_mul p q x : peval (pmul p q) x = peval p x * peval q x.
Proof.
  induction p as [|a p IH]; simpl; [ring|]. rewrite peval_add, peval_scale. simpl. rewrite IH. ring.
Qed.

Lemma pintk_add k p q : pintk k (padd p q) = pintk k p + pintk k q.
Proof.
  revert k q; induction p as [|a p IH]; intros k [|b q]; simpl; try ring.
  rewrite IH. unfold Qcdiv. ring.
Qed.

Lemma pintk_scale k a p : pintk k (pscale a p) = a * pintk k p.
Proof.
  revert k; induction p as [|b p IH]; intros k; simpl; [ring|]. rewrite IH. unfold Qcdiv. ring.
Qed.

Lemma pintk_shift k p : pintk k (0 :: p) = pintk (S k) p.
Proof. simpl. unfold Qcdiv. ring. Qed.

Lemma pintk_mul_cons k a p q : pintk k (pmul (a :: p) q) = a * pintk k q + pintk (S k) (pmul p q).
Proof. cbn [pmul]. rewrite pintk_add, pintk_scale, pintk_shift. reflexivity. Qed.

Lemma pintk_mul_add k p p' q : pintk k (pmul (padd p p') q) = pintk k (pmul p q) + pintk k (pmul p' q).
Proof.
  revert k p'; induction p as [|a p IH]; intros k [|b p']; cbn [padd];
    try (change (pmul [] q) with (@nil Qc); cbn [pintk]; ring).
  rewrite !pintk_mul_cons, IH. ring.
Qed.

Lemma pintk_mul_scale k a p q : pintk k (pmul (pscale a p) q) = a * pintk k (pmul p q).
Proof.
  revert k; induction p as [|b p IH]; intros k.
  - cbn. ring.
  - cbn [pscale map]. fold (pscale a p). rewrite !pintk_mul_cons, IH. ring.
Qed.

Lemma pintk_mul_r k p b q : pintk k (pmul p (b :: q)) = b * pintk k p + pintk (S k) (pmul p q).
Proof.
  revert k; induction p as [|a p IH]; intros k.
  - cbn. ring.
  - rewrite !pintk_mul_cons, IH. cbn [pintk]. unfold Qcdiv. ring.
Qed.

Lemma pmul_nil_r k p : pintk k (pmul p []) = 0.
Proof. revert k; induction p as [|a p IH]; intros k; [reflexivity|]. rewrite pintk_mul_cons, IH. cbn. ring. Qed.

Lemma pint_sym k p q : pintk k (pmul p q) = pintk k (pmul q p).
Proof.
  revert k q; induction p as [|a p IH]; intros k q.
  - symmetry. rewrite pmul_nil_r. reflexivity.
  - rewrite pintk_mul_cons, pintk_mul_r, IH. reflexivity.
Qed.

(** Any functional given by a linear map of coefficient lists is [linfun]. *)
Lemma polyU_lin (phi : poly -> Qc) :
  phi [] = 0 -> (forall p q, phi (padd p q) = phi p + phi q) -> (forall a p, phi (pscale a p) = a * phi p) ->
  @linfun Qcring polyU (fun f => phi (tp_c f)).
Proof.
  intros H0 HA HS. repeat split; cbn.
  - intros a f _. apply HS.
  - intros a f b g. now rewrite HA, !HS.
  - intros l. induction l as [|[a f] l IH]; cbn; auto. rewrite HA, HS, IH. reflexivity.
Qed.

Lemma polyU_ev_lin : law_ev_lin polyU.
Proof.
  intros x. apply (polyU_lin (fun p => peval p x)); auto.
  - intros; apply peval_add.
  - intros; apply peval_scale.
Qed.

Lemma polyU_ev_prod : law_ev_prod polyU.
Proof. intros f g x. apply peval_mul. Qed.

Lemma polyU_ev_sumprod : law_ev_sumprod polyU.
Proof.
  intros l x. cbn. induction l as [|[f g] l IH]; cbn; auto.
  rewrite peval_add, peval_mul, IH. reflexivity.
Qed.

Lemma polyU_int_lin : law_int_lin polyU.
Proof. apply (polyU_lin (pintk 0)); auto; intros; [apply pintk_add|apply pintk_scale]. Qed.

Lemma polyU_inner_lin_l : law_inner_lin_l polyU.
Proof.
  intros g. apply (polyU_lin (fun p => pintk 0 (pmul p (tp_c g)))); auto; intros.
  - apply pintk_mul_add.
  - apply pintk_mul_scale.
Qed.

Lemma polyU_inner_sym : law_inner_sym polyU.
Proof. intros f g. apply pint_sym. Qed.

Lemma polyU_inner_lin_r : law_inner_lin_r polyU.
Proof.
  intros g. apply (polyU_lin (fun p => pintk 0 (pmul (tp_c g) p))); intros.
  - apply pmul_nil_r.
  - rewrite pint_sym, pintk_mul_add, (pint_sym 0 p), (pint_sym 0 q). reflexivity.
  - rewrite pint_sym, pintk_mul_scale, (pint_sym 0 p). reflexivity.
Qed.

Lemma polyU_int_prod : law_int_prod polyU.
Proof. intros f g. reflexivity. Qed.
